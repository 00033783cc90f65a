(** Boxes with sides parallel to the coordinate axes and their measures.  [V v] lists the coordinates of vertex [v]. *)
Require Import List Arith QArith Qminmax.
From Verif Require Import CubeSpec.
Import ListNotations.

(** The n-cube [c] is placed as a box: going along its i-th direction changes the coordinate [axis i] by [s i]. *)
Definition box (n : nat) (V : nat -> list Q) (c : list nat) : Prop :=
  exists (axis : nat -> nat) (o s : nat -> Q),
    (forall i, (i < n)%nat -> (axis i < n)%nat /\ ~ s i == 0) /\
    (forall i j, (i < n)%nat -> (j < n)%nat -> axis i = axis j -> i = j) /\
    (forall y i, length y = n -> (i < n)%nat -> nth (axis i) (V (corner c y)) 0 == o i + (if nth i y false then s i else 0)).

(** Largest coordinate number [x] of the given vertices, the smallest, and their difference. *)
Definition highest (V : nat -> list Q) (x : nat) (c : list nat) : Q :=
  match c with [] => 0 | v :: r => fold_right (fun w m => Qmax (nth x (V w) 0) m) (nth x (V v) 0) r end.
Definition lowest (V : nat -> list Q) (x : nat) (c : list nat) : Q :=
  match c with [] => 0 | v :: r => fold_right (fun w m => Qmin (nth x (V w) 0) m) (nth x (V v) 0) r end.
Definition extent (V : nat -> list Q) (c : list nat) (x : nat) : Q := highest V x c - lowest V x c.
Definition flat (V : nat -> list Q) (c : list nat) (x : nat) : bool := Qeq_bool (extent V c x) 0.
Definition product (l : list Q) : Q := fold_right Qmult 1 l.

(** Length, area, volume, ... of the box spanned by the vertices [c] in space of dimension [n]: the product of its
    extents in the directions in which it is not flat. *)
Definition measure (n : nat) (V : nat -> list Q) (c : list nat) : Q :=
  product (map (fun x => if flat V c x then 1 else extent V c x) (seq 0 n)).
(** The part of the dual cell of [e] inside the box [c] that [e] is a face of: it reaches from [e] halfway through [c]
    in the directions in which [e] is flat. *)
Definition dual_part (n : nat) (V : nat -> list Q) (e c : list nat) : Q :=
  product (map (fun x => if flat V e x then extent V c x / 2 else 1) (seq 0 n)).
Definition total (l : list Q) : Q := fold_right Qplus 0 l.
