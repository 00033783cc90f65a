(** Model of rotation_from_plane (pycomplex/math/linalg.py:117-122), over an arbitrary commutative ring in place of floats.
    Vectors of length n are row matrices of the mathcomp library. *)
From mathcomp Require Import all_ssreflect all_algebra.
Import GRing.Theory.
Local Open Scope ring_scope.

Section Rot.
Variables (K : comRingType) (n : nat).
(** np.outer *)
Definition outer (u v : 'rV[K]_n) : 'M[K]_n := \matrix_(i, j) (u 0 i * v 0 j).
(** linalg.py:120 [[0, +1], [-1, 0]] *)
Definition quarter : 'M[K]_2 := \matrix_(i, j) (if (i == 0) && (j == 1) then 1 else if (i == 1) && (j == 0) then -1 else 0).
(** linalg.py:121 p = np.array([u, v]) *)
Definition plane (u v : 'rV[K]_n) : 'M[K]_(2, n) := \matrix_(i, j) (if i == 0 then u 0 j else v 0 j).
(** linalg.py:117-122 *)
Definition rotation_from_plane (u v : 'rV[K]_n) : 'M[K]_n :=
  1%:M - outer u u - outer v v + (plane u v)^T *m (quarter *m plane u v).
(** linalg.py:125-129, the argument of the arccos; half is the factor 1/2. *)
Definition cos_from_rotation (half : K) (r : 'M[K]_n) : K := 1 - (n%:R - \tr r) * half.
End Rot.
