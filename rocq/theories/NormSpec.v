(** What numpy.linalg.svd promises, and what the normals of a simplex are; nothing here mentions the model. *)
From mathcomp Require Import all_ssreflect all_algebra.
From Verif Require Import GeoSpec.
Import GRing.Theory Num.Theory.
Local Open Scope ring_scope.

Section Norm.
Variable K : rcfType.

(** A = u diag(s) v, with orthonormal columns of u, an orthogonal v, and s not negative and not increasing *)
Definition svd_of (p n : nat) (A : 'M[K]_(p, n)) (r : 'M[K]_(p, n) * 'rV[K]_n * 'M[K]_n) : Prop :=
  let '(u, s, v) := r in
  A = u *m diag_mx s *m v /\ u^T *m u = 1%:M /\ v *m v^T = 1%:M /\ (forall j, 0 <= s 0 j) /\ (forall j k : 'I_n, (j <= k)%N -> s 0 k <= s 0 j).

(** g is parallel to the plane through the points *)
Definition in_plane (p n : nat) (pts : 'M[K]_(p, n)) (g : 'I_n -> K) : Prop :=
  exists c : 'I_p -> K, \sum_k c k = 0 /\ forall j, g j = \sum_k c k * pts k j.
(** the inner product with the step from corner k to corner l *)
Definition along (p n : nat) (pts : 'M[K]_(p, n)) (g : 'I_n -> K) (k l : 'I_p) : K := dotp K n g (fun j => pts l j - pts k j).
(** g is perpendicular to the face opposite corner i *)
Definition perpendicular (p n : nat) (pts : 'M[K]_(p, n)) (i : 'I_p) (g : 'I_n -> K) : Prop :=
  forall k l, k <> i -> l <> i -> along p n pts g k l = 0.
(** the gradient of barycentric coordinate i: parallel to the plane, perpendicular to the opposite face, one step up to corner i *)
Definition coordinate_gradient (p n : nat) (pts : 'M[K]_(p, n)) (i : 'I_p) (g : 'I_n -> K) : Prop :=
  in_plane p n pts g /\ perpendicular p n pts i g /\ forall k, k <> i -> along p n pts g k i = 1.
End Norm.
