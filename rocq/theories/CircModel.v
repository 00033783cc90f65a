(** Model of pycomplex/geometry/euclidian.py 55-209: circumcentres of simplices in barycentric coordinates.  Coordinates are
    elements of an ordered field with square roots ([rcfType]) in place of floats; a simplex is a matrix with one corner per
    row.  numpy.linalg.eigh is a parameter: a function that returns the eigenvalues and a matrix whose columns are the
    eigenvectors.  The leading axes of the arrays are a list, the batch, as the threshold below is taken over all of it. *)
From mathcomp Require Import all_ssreflect all_algebra.
From Verif Require Util.
Import GRing.Theory Num.Theory.
Local Open Scope ring_scope.

Section Circ.
Variable K : rcfType.
Variable eigh : forall N, 'M[K]_N -> 'rV[K]_N * 'M[K]_N.

(** euclidian.py:150-152: ones around twice the products of the corners, a zero in the last place *)
Definition system (p n : nat) (pts : 'M[K]_(p, n)) : 'M[K]_(p + 1) :=
  block_mx (\matrix_(i, k) ((\sum_j pts i j * pts k j) * 2%:R)) (const_mx 1) (const_mx 1) 0.
(** euclidian.py:159-162; weights of None are weights of zero *)
Definition rhs (p n : nat) (pts : 'M[K]_(p, n)) (w : 'rV[K]_p) : 'cV[K]_(p + 1) :=
  col_mx (\col_i (\sum_j pts i j * pts i j - w 0 i)) (const_mx 1).

(** euclidian.py:155-156: the reciprocals of the eigenvalues, without those of zero, which are infinite *)
Definition recips (N : nat) (v : 'rV[K]_N) : seq K := [seq `|(v 0 j)^-1| | j <- enum 'I_N & v 0 j != 0].
(** np.abs(vr).min(): the least of the finite ones; there is one, as the matrix is not zero, unless there are no points *)
Fixpoint minimum (l : seq K) : K := match l with [::] => 0 | [:: x] => x | x :: r => Num.min x (minimum r) end.
(** euclidian.py:156, for one eigenvalue; an infinite reciprocal is above the threshold *)
Definition snap (bound ratio v : K) : K := if v == 0 then 0 else if bound * ratio < `|v^-1| then 0 else v^-1.

(** euclidian.py:154-164 for one simplex of the batch *)
Definition barycentric_one (bound ratio : K) (p n : nat) (q : 'M[K]_(p, n) * 'rV[K]_p) : 'rV[K]_p :=
  let (v, w) := eigh (p + 1) (system p n q.1) in
  let pinv := w *m diag_mx (\row_j snap bound ratio (v 0 j)) *m w^T in
  (usubmx (pinv *m rhs p n q.1 q.2))^T.

(** euclidian.py:103-166 [circumcenter_barycentric]; the minimum of an empty array is a ValueError *)
Definition circumcenter_barycentric (ratio : K) (p n : nat) (batch : seq ('M[K]_(p, n) * 'rV[K]_p)) : Util.result (seq 'rV[K]_p) :=
  if batch is [::] then Util.Err Util.ValueError
  else let bound := minimum (flatten [seq recips (p + 1) (eigh (p + 1) (system p n q.1)).1 | q <- batch]) in
       Util.Ok [seq barycentric_one bound ratio p n q | q <- batch].

(** euclidian.py:173-209 [circumcenter]: the corners relative to their mean, without weights, and back *)
Definition mean (p n : nat) (pts : 'M[K]_(p, n)) : 'rV[K]_n := \row_j ((\sum_i pts i j) / p%:R).
Definition centred (p n : nat) (pts : 'M[K]_(p, n)) : 'M[K]_(p, n) := \matrix_(i, j) (pts i j - mean p n pts 0 j).
Definition circumcenter (ratio : K) (p n : nat) (batch : seq 'M[K]_(p, n)) : Util.result (seq 'rV[K]_n) :=
  Util.bind (circumcenter_barycentric ratio p n [seq (centred p n q, 0) | q <- batch]) (fun bs =>
  Util.Ok [seq (\row_j (\sum_i centred p n qb.1 i j * (qb.2 : 'rV[K]_p) 0 i) + mean p n qb.1) | qb <- zip batch bs]).

(** euclidian.py:55-100 [circumcenter_barycentric_weighted]: the squared distances less the weights, bordered by ones.  All
    reciprocals are used; None when one is infinite, so that the coordinates are not numbers.  The argument ratio is not
    used. *)
Definition distances (p n : nat) (pts : 'M[K]_(p, n)) (w : 'rV[K]_p) : 'M[K]_(p + 1) :=
  block_mx (\matrix_(i, k) (\sum_j (pts i j - pts k j) * (pts i j - pts k j) - (w 0 i + w 0 k))) (const_mx 1) (const_mx 1) 0.
Definition circumcenter_barycentric_weighted (p n : nat) (q : 'M[K]_(p, n) * 'rV[K]_p) : option 'rV[K]_p :=
  let (v, w) := eigh (p + 1) (distances p n q.1 q.2) in
  if [forall j, v 0 j != 0] then
    Some ((usubmx ((w *m diag_mx (\row_j (v 0 j)^-1) *m w^T) *m col_mx (0 : 'cV_p) (const_mx 1 : 'cV_1)))^T)
  else None.
End Circ.
