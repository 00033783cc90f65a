(** Model of pycomplex/geometry/euclidian.py: volumes and normals of simplices.  Coordinates are elements of a field that
    is ordered and has square roots ([rcfType]) in place of floats; a set of points is a matrix with one point per row, and
    the leading axes of the arrays are left out, as each simplex is treated on its own. *)
From mathcomp Require Import all_ssreflect all_algebra.
From Verif Require Util.
Import GRing.Theory Num.Theory.
Local Open Scope ring_scope.

Section Geo.
Variable K : rcfType.

(** euclidian.py:256-257, 302-303: tail - head *)
Definition edges_from_first (m n : nat) (pts : 'M[K]_(m.+1, n)) : 'M[K]_(m, n) := \matrix_(i, j) (pts (lift ord0 i) j - pts ord0 j).

(** euclidian.py:266-304 [signed_volume] of m+1 points in n-space *)
Definition signed_volume (m n : nat) (pts : 'M[K]_(m.+1, n)) : Util.result K :=
  match @eqP _ m n with
  | ReflectT E => Util.Ok (\det (castmx (E, erefl n) (edges_from_first m n pts)) / (m`!)%:R)
  | ReflectF _ => Util.Err Util.ValueError
  end.

(** euclidian.py:212-259 [unsigned_volume] of m+1 points in n-space *)
Definition unsigned_volume (m n : nat) (pts : 'M[K]_(m.+1, n)) : Util.result K :=
  if (n < m)%N then Util.Err Util.ValueError
  else if m == 0%N then Util.Ok 1
  else let A := edges_from_first m n pts in Util.Ok (Num.sqrt `|\det (A *m A^T)| / (m`!)%:R).

(** euclidian.py:332-356 [segment_normals] of n+1 points in (n+1)-space; np.delete removes column c.  The sign
    alternates from +1. *)
Definition segment_normals (n : nat) (corners : 'M[K]_(n.+1, n.+1)) : 'rV[K]_n.+1 :=
  \row_c (\det (col' c (edges_from_first n n.+1 corners)) * (-1) ^+ c).
End Geo.
