(** What the flux of a uniform velocity is; nothing here mentions the model. *)
From mathcomp Require Import all_ssreflect all_algebra.
From Verif Require Import GeoSpec NormSpec.
Import GRing.Theory Num.Theory.
Local Open Scope ring_scope.

Section Vel.
Variable K : rcfType.

(** e is a step of length l into the simplex across the face opposite corner i: in the plane of the simplex, perpendicular to
    the face, to the side of corner i *)
Definition step_across (p n : nat) (pts : 'M[K]_(p, n)) (i : 'I_p) (l : K) (e : 'I_n -> K) : Prop :=
  in_plane K p n pts e /\ perpendicular K p n pts i e /\ (forall k, k <> i -> 0 < along K p n pts e k i) /\ len K n e = l.
(** e is a step of length l in the direction from point y to point x *)
Definition step_from (n : nat) (y x : 'I_n -> K) (l : K) (e : 'I_n -> K) : Prop :=
  (exists t, 0 < t /\ forall j, e j = t * (x j - y j)) /\ len K n e = l.
(** w is the part of v in the plane of the points *)
Definition part_in_plane (p n : nat) (pts : 'M[K]_(p, n)) (v w : 'I_n -> K) : Prop :=
  in_plane K p n pts w /\ forall g, in_plane K p n pts g -> dotp K n v g = dotp K n w g.
End Vel.
