(** Model of pycomplex/math/linalg.py 206-226 (pinv) and pycomplex/geometry/euclidian.py 360-395: normals and gradients of
    the corners of a simplex.  Coordinates are elements of an ordered field with square roots in place of floats; the leading
    axes are left out, as each simplex is treated on its own.  numpy.linalg.svd is a parameter: of a matrix with at least as
    many rows as columns it gives the first columns of u, the singular values and v.  None stands for values that are not
    numbers, or infinite. *)
From mathcomp Require Import all_ssreflect all_algebra.
From Verif Require Import GeoModel.
From Verif Require Util.
Import GRing.Theory Num.Theory.
Local Open Scope ring_scope.

Section Norm.
Variable K : rcfType.
Variable svd : forall p n, 'M[K]_(p, n) -> 'M[K]_(p, n) * 'rV[K]_n * 'M[K]_n.

(** linalg.py:221-223: the reciprocal of a singular value; zero if it is below r relative to the first one.  When the first
    one is zero the quotients are not numbers, and neither is the result. *)
Definition reciprocals (r : K) (n : nat) (s : 'rV[K]_n.+1) : option 'rV[K]_n.+1 :=
  if s 0 0 == 0 then None
  else if [exists j, (s 0 j == 0) && ~~ (`|s 0 j / s 0 0| < r)] then None
  else Some (\row_j (if `|s 0 j / s 0 0| < r then 0 else (s 0 j)^-1)).

(** linalg.py:206-226 [pinv] of a matrix with p rows and n+1 columns.  With fewer rows than columns einsum finds different
    lengths for one index.  (A single row is the exception: einsum repeats it.  That case is not modelled: it is given the
    same error.) *)
Definition pinv (r : K) (p n : nat) (A : 'M[K]_(p, n.+1)) : Util.result (option 'M[K]_(n.+1, p)) :=
  if (p < n.+1)%N then Util.Err Util.ValueError
  else let '(u, s, v) := svd p n.+1 A in
       Util.Ok (match reciprocals r n s with
                | Some inv => Some (\matrix_(k, i) \sum_j u i j * inv 0 j * v j k)
                | None => None end).

(** euclidian.py:371-372: the corners relative to their mean *)
Definition relative (p n : nat) (corners : 'M[K]_(p, n)) : 'M[K]_(p, n) := \matrix_(i, j) (corners i j - (\sum_k corners k j) / p%:R).

(** linalg.py:25-64 [normalized] of each row; a zero row has no direction *)
Definition normalized_rows (p n : nat) (g : 'M[K]_(p, n)) : option 'M[K]_(p, n) :=
  let norm i := Num.sqrt (\sum_j g i j * g i j) in
  if [forall i, norm i != 0] then Some (\matrix_(i, j) (g i j / norm i)) else None.

(** euclidian.py:360-376 [simplex_normals] of p corners in (n+1)-space *)
Definition simplex_normals (r : K) (p n : nat) (corners : 'M[K]_(p, n.+1)) : Util.result (option 'M[K]_(p, n.+1)) :=
  Util.bind (pinv r p n (relative p n.+1 corners)) (fun g =>
  Util.Ok (match g with Some g => normalized_rows p n.+1 g^T | None => None end)).

(** euclidian.py:393: np.roll(corners, -i)[1:], the corners after corner i and around *)
Definition opposite (m n : nat) (corners : 'M[K]_(m.+2, n)) (i : 'I_m.+2) : 'M[K]_(m.+1, n) :=
  \matrix_(k, j) corners (inord ((i + k.+1) %% m.+2)) j.

(** euclidian.py:378-395 [simplex_gradients] of m+2 corners in (n+1)-space *)
Definition simplex_gradients (r : K) (m n : nat) (corners : 'M[K]_(m.+2, n.+1)) : Util.result (option 'M[K]_(m.+2, n.+1)) :=
  Util.bind (simplex_normals r m.+2 n corners) (fun g =>
  if (n.+1 < m)%N then Util.Err Util.ValueError
  else Util.Ok (match g with
  | Some g => Some (\matrix_(i, j) (g i j * match unsigned_volume K m n.+1 (opposite m n.+1 corners i) with Util.Ok v => v | Util.Err _ => 0 end))
  | None => None end)).
End Norm.
