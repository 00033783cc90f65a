(** Model of pycomplex/complex/base.py 260-342 (weighted_average_operators).  Coordinates are elements of an ordered field with
    square roots in place of floats.  Sparse matrices are functions of row and column. *)
From mathcomp Require Import all_ssreflect all_algebra.
From Verif Require Import GeoModel.
From Verif Require Util.
Import GRing.Theory Num.Theory.
Local Open Scope ring_scope.

Section Wav.
Variable K : rcfType.
Variables (nd n : nat) (PP : seq (seq 'rV[K]_n)) (domains : seq (seq nat)).

(** unsigned_volume, GeoModel; it is defined for all domains or for none, and the space has at least the dimension of the
    complex: the error is not modelled *)
Definition unsigned (m : nat) (pts : 'M[K]_(m.+1, n)) : K := match unsigned_volume K m n pts with Util.Ok v => v | Util.Err _ => 0 end.
(** base.py:311 corners, of one domain *)
Definition corner (d : seq nat) (k : nat) : 'rV[K]_n := nth 0 (nth [::] PP k) (nth 0%N d k).
(** base.py:316-317 *)
Definition edge_length (d : seq nat) (a b : nat) : K := unsigned 1 (\matrix_(k, j) corner d (if k == 0 then a else b) 0 j).
(** base.py:319-320; without factors reduce raises, but it is only called with n < n_dim *)
Definition edge_length_prod (d : seq nat) (c : nat) : K := \prod_(c <= m < nd) edge_length d c m.+1.
(** base.py:323 *)
Definition perimeter (d : seq nat) (i : nat) : K := unsigned (nd - i.+1) (\matrix_(k, j) corner d (i.+1 + k) 0 j).
(** base.py:326-330: W[i+1] of one domain.  Division by zero gives zero here; in the code it gives inf. *)
Definition weight (d : seq nat) (i : nat) : K := let c := (nd - i.+1)%N in perimeter d c / edge_length_prod d c.
(** base.py:335-340: M and q for the (i+1)-th averaging operator a of the dual; triples at one place add up *)
Definition biased (i : nat) (a : nat -> nat -> K) (r c : nat) : K :=
  a r c * \sum_(d <- domains | (nth 0%N d (nd - i.+1) == r) && (nth 0%N d nd == c)) weight d i.
(** sparse.py:23-29 [normalize_l1] along rows, for a matrix with the given number of columns; rows without entries stay so *)
Definition normalized (cols : nat) (q : nat -> nat -> K) (r c : nat) : K := q r c / \sum_(j < cols) `|q r j|.
(** base.py:260-342 [weighted_average_operators]; A lists the averaging operators of the dual; the first operator is the number 1 *)
Definition weighted_average_operators (oriented centered : bool) (cols : nat) (A : seq (nat -> nat -> K)) : Util.result (seq (nat -> nat -> K)) :=
  if ~~ oriented then Util.Err Util.AssertionError
  else if ~~ centered then Util.Err Util.AssertionError
  else Util.Ok ((fun r c => (r == c)%:R) :: [seq normalized cols (biased i (nth (fun _ _ => 0) A i.+1)) | i <- iota 0 nd]).
End Wav.
