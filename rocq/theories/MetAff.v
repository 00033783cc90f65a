(** Volumes of simplices whose corners are given by barycentric coordinates, and determinants of those coordinates. *)
From mathcomp Require Import all_ssreflect all_fingroup all_algebra.
From Verif Require Import GeoModel GeoSpec GeoProofs GeoProps MetModel.
From Verif Require Util.
Import Order.TTheory GRing.Theory Num.Theory.
Local Open Scope nat_scope.
Local Open Scope ring_scope.

Section Aff.
Variable K : rcfType.

Lemma det_edges : forall k (A : 'M[K]_k.+1), (forall i, \sum_j A i j = 1) -> \det A = \det (edges_from_first K k k (rsubmx (A : 'M_(k.+1, 1 + k)))).
Proof.
  move=> k A S. rewrite -det_hom. pose U := block_mx 1%:M 0 (const_mx 1) 1%:M : 'M[K]_(1 + k).
  have -> : hom K k k (rsubmx (A : 'M_(k.+1, 1 + k))) = A *m U.
  { rewrite /hom /U -[A in RHS](@hsubmxK _ k.+1 1 k) (@mul_row_block _ k.+1 1 k 1 k) !mulmx1 mulmx0 add0r. congr (@row_mx _ k.+1 1 k _ _).
    apply/matrixP => i j. rewrite !mxE -[LHS](S i) (@big_split_ord _ _ _ 1 k) /= big_ord1 (ord1 j). congr (_ + _). apply: eq_bigr => x _. by rewrite !mxE mulr1. }
  by rewrite det_mulmx /U (@det_lblock _ 1 k) !det1 !mulr1.
Qed.
Lemma measure_affine : forall d k (A : 'M[K]_k.+1) (P : 'M[K]_(k.+1, d)), (forall i, \sum_j A i j = 1) -> measure K d k (A *m P) = `|\det A| * measure K d k P.
Proof.
  move=> d k A P S. rewrite /measure /unsigned_volume. case: ifP => [_|_]; [by rewrite mulr0|]. case: eqP => [E|_].
  - subst k. have := S 0. rewrite big_ord1 => E. by rewrite det_mx11 E normr1 mulr1.
  - have -> : edges_from_first K k d (A *m P) = edges_from_first K k k (rsubmx (A : 'M_(k.+1, 1 + k))) *m edges_from_first K k d P.
    { apply/matrixP => i j. rewrite [LHS]mxE 2!mxE -sumrB.
      rewrite (eq_bigr (fun x => (A (lift ord0 i) x - A ord0 x) * (P x j - P ord0 j) + (A (lift ord0 i) x - A ord0 x) * P ord0 j)). 2:{ move=> x _. by rewrite -mulrDr subrK mulrBl. }
      rewrite big_split /= -[X in _ + X = _]mulr_suml sumrB !S subrr mul0r addr0 big_ord_recl subrr mulr0 add0r [RHS]mxE. apply: eq_bigr => x _. rewrite !mxE.
      by have -> : rshift 1 x = lift ord0 x by apply: val_inj. }
    set A' := edges_from_first K k k _. set G := edges_from_first K k d P. rewrite trmx_mul mulmxA -[A' *m G *m G^T]mulmxA !det_mulmx det_tr -det_edges //.
    rewrite [RHS]mulrA. congr (_ / _). by rewrite mulrAC -expr2 normrM normrX sqrtrM ?exprn_ge0 ?normr_ge0 // sqrtr_sqr normr_id.
Qed.

(** ** Determinants of coordinates in an ordering of the vertices *)
Definition table (m : nat) (g : nat -> nat -> K) (s : seq nat) : 'M[K]_m := \matrix_(i, j) g i (nth 0%N s j).
Lemma table_perm : forall m g s s', size s = m -> perm_eq s s' -> `|\det (table m g s)| = `|\det (table m g s')|.
Proof.
  move=> m g s s' L P. have L' : size s' = m by rewrite -(perm_size P). move/eqP: (L) => Ls. move/eqP: (L') => Ls'.
  have /tuple_permP [p E] : perm_eq s (Tuple Ls') by [].
  have -> : table m g s = col_perm p (table m g s').
  { apply/matrixP => i j. rewrite !mxE. congr (g _ _). rewrite {1}E -tnth_nth tnth_mktuple (tnth_nth 0%N). by []. }
  rewrite col_permE det_mulmx det_perm normrM normrX normrN1 expr1n mulr1. by [].
Qed.
Lemma table_last : forall m g s c, (c < m.+1)%N -> size s = m.+1 -> (forall i, (i < m)%N -> g i (nth 0%N s c) = 0) ->
  `|\det (table m.+1 g s)| = `|g m (nth 0%N s c)| * `|\det (table m g (take c s ++ drop c.+1 s))|.
Proof.
  move=> m g s c C L Z. pose c' := Ordinal C. rewrite (expand_det_col _ c') (bigD1 ord_max) //= big1 ?addr0.
  2:{ move=> i Ni. rewrite mxE Z ?mul0r //. move: (ltn_ord i). rewrite ltnS leq_eqVlt => /orP [/eqP E|//]. case/negP: Ni. by apply/eqP/val_inj. }
  rewrite mxE /= normrM /cofactor normrM normrX normrN1 expr1n mul1r. congr (_ * `|\det _|). apply/matrixP => i j. rewrite !mxE /=. congr (g _ _).
  - rewrite /bump leqNgt ltn_ord. by [].
  - rewrite nth_cat size_take L C. rewrite /bump. case: (ltnP j c) => J; [by rewrite add0n nth_take|]. rewrite nth_drop. congr (nth _ _ _). rewrite add1n addSn subnKC //.
Qed.
End Aff.
