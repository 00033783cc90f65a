(** Quads cut into triangles and triangles cut into quads, independently of the code. *)
Require Import List Arith ZArith.
From Verif Require Import SimpModel CubeSpec COrSpec CDomSpec.
Import ListNotations.
Local Open Scope nat_scope.

(** Four triangles, all with the corner [m], of which each side of the quad [q] is a side, and no other pair of corners other than [m]. *)
Definition fan (m : nat) (q : list nat) (T : list (list nat)) : Prop :=
  length T = 4 /\ (forall s, In s T -> length s = 3 /\ NoDup s /\ In m s) /\ ~ In m q /\
  forall x y, x <> y -> x <> m -> y <> m -> (has_side 2 q [x; y] <-> exists s, In s T /\ In x s /\ In y s).

(** The three quads of triangle [j]: at each of its corners, one with that corner, the centres of the two sides there, and the
    centre of the triangle. Elements are numbered one after another. *)
Definition corner_quad (t : topology) (j v : nat) (q : list nat) : Prop :=
  exists e1 e2, q = [v; below t 1 + e1; below t 1 + e2; below t 2 + j] /\ e1 <> e2 /\
    forall e, e = e1 \/ e = e2 -> e < length (nth 1 (elements t) []) /\ In v (nth e (nth 1 (elements t) []) []) /\
      incl (nth e (nth 1 (elements t) []) []) (nth j (nth 2 (elements t) []) []).
(** The cube at corner [v] of tetrahedron [j]: the corner of the cube that is apart from it along the axes in [bs] is the centre of
    the face of dimension [length bs] spanned by [v] and the corners of the tetrahedron assigned to these axes. *)
Definition corner_cube (t : topology) (j v : nat) (q : list nat) : Prop :=
  length q = 8 /\ exists w : list nat, length w = 3 /\ NoDup (v :: w) /\ incl (v :: w) (nth j (nth 3 (elements t) []) []) /\
    forall bs, length bs = 3 -> exists e,
      let d := count_occ Bool.bool_dec bs true in
      e < length (nth d (elements t) []) /\ corner q bs = below t d + e /\ (d = 3 -> e = j) /\
      forall u, In u (nth e (nth d (elements t) []) []) <-> u = v \/ exists i, i < 3 /\ nth i bs false = true /\ nth i w 0 = u.
(** The quad [q] induces on its side between [x] and [y] the direction from [x] to [y]. *)
Definition runs (q : list nat) (x y : nat) : Prop :=
  exists a s g, a < 2 /\ is_slice 2 a s q g /\ ((side_sign a s = 1%Z /\ g = [x; y]) \/ (side_sign a s = (-1)%Z /\ g = [y; x])).
