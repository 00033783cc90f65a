(** Specification of cutting a triangle mesh, independently of the code. *)
Require Import List Arith Bool.
From Verif Require Import Util SimpModel TriSpec.
Import ListNotations.

Section Cut.
(** Side of the plane for every vertex; the stored edges; the number of vertices. *)
Variables (side : nat -> bool) (EV : list simplex) (n : nat).
(** Corners on both sides. *)
Definition mixed (s : simplex) : bool := existsb side s && negb (forallb side s).
Definition same_edge (x y : nat) (e : simplex) : bool := match e with [a; b] => ((a =? x) && (b =? y)) || ((a =? y) && (b =? x)) | _ => false end.
(** Part of a list before the first element with a property. *)
Fixpoint before {A} (p : A -> bool) (l : list A) : list A := match l with [] => [] | x :: r => if p x then [] else x :: before p r end.
(** The vertex inserted on the edge between x and y: one new vertex per mixed edge, in the order of the edges. *)
Definition cut_vertex (x y : nat) : nat := n + length (filter mixed (before (same_edge x y) EV)).
Definition split_edge (e : dedge) : list dedge :=
  let (x, y) := e in if Bool.eqb (side x) (side y) then [(x, y)] else [(x, cut_vertex x y); (cut_vertex x y, y)].
(** The three triangles that replace a mixed triangle, seen from the corner a that is alone on its side. *)
Definition three_children (s : simplex) (cs : list simplex) : Prop :=
  exists a b c, In s [[a; b; c]; [c; a; b]; [b; c; a]] /\ side a <> side b /\ side b = side c /\
    cs = [[a; cut_vertex a b; cut_vertex c a]; [b; cut_vertex c a; cut_vertex a b]; [c; cut_vertex c a; b]].
(** No corner among the old vertices is on the positive side. *)
Definition kept (s : simplex) : bool := forallb (fun v => (n <=? v) || negb (side v)) s.
End Cut.
