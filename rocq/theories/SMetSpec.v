(** Meshes on the unit sphere, independent of the code. *)
Require Import Reals List Arith.
From Verif Require Import SimpModel SubdSpec SphSpec.
Import ListNotations.
Local Open Scope R_scope.

(** All vertices are on the unit sphere of d-space; the ends of an edge are not opposite points; the corners of a
    triangle are not on one great circle. *)
Definition on_unit_sphere (t : topology) (d : nat) (vertices : nat -> list R) : Prop :=
  (forall v, (v < n_elements t 0)%nat -> on_sphere d (vertices v)) /\
  (forall e a b, (e < n_elements t 1)%nat -> element t 1 e = [a; b] -> vertices b <> opposite (vertices a)) /\
  (forall f a b c, (f < n_elements t 2)%nat -> element t 2 f = [a; b; c] -> independent (vertices a) (vertices b) (vertices c)).
(** the coordinates of the centres are positive, one for every corner *)
Definition inner_centres (n : nat) (t : topology) (bary : nat -> nat -> list R) : Prop :=
  forall k e, (k <= n)%nat -> (e < n_elements t k)%nat -> length (bary k e) = S k /\ forall b, In b (bary k e) -> 0 < b.
(** sum of a list of numbers that are not nan *)
Inductive adds_to : list (option R) -> R -> Prop :=
| adds_nil : adds_to [] 0
| adds_cons : forall x l s, adds_to l s -> adds_to (Some x :: l) (x + s).
(** [p] is the projection to the sphere of the point with coordinates [b] with respect to the points [cs] *)
Definition central (cs : list (list R)) (b : list R) (p : list R) : Prop :=
  exists k, 0 < k /\ forall i, nth i p 0 = k * fold_right (fun cb s => snd cb * nth i (fst cb) 0 + s) 0 (combine cs b).
