(** Volumes and affine independence. *)
From mathcomp Require Import all_ssreflect all_fingroup all_algebra.
From Verif Require Import GeoModel GeoSpec GeoProofs GeoProps MetModel MetSpec MetCot MetProps.
From Verif Require Util.
Import Order.TTheory GRing.Theory Num.Theory.
Local Open Scope nat_scope.
Local Open Scope ring_scope.

Section Free.
Variable K : rcfType.
Lemma measure_ge0 : forall d k (pts : 'M[K]_(k.+1, d)), 0 <= measure K d k pts.
Proof. move=> d k pts. rewrite /measure /unsigned_volume. case: ifP => // _. case: ifP => [_|_]; [exact: ler01|]. apply: divr_ge0; [exact: sqrtr_ge0|exact: ler0n]. Qed.
Lemma measure_dep : forall d k (pts : 'M[K]_(k.+1, d)), (0 < k <= d)%N -> measure K d k pts = 0 <-> dependent K k.+1 d pts.
Proof.
  move=> d k pts H. rewrite -(C75_degenerate K k d pts H) /measure. have [_ L] := andP H. rewrite /unsigned_volume ltnNge L /=. case: eqP => [E|_]; [by rewrite E in H|]. split=> [->|[]] //.
Qed.
Lemma sum_window : forall n lo i (G : nat -> K), (lo + i <= n)%N -> (forall q, ~~ ((lo <= q) && (q <= lo + i))%N -> G q = 0) -> \sum_(q < n.+1) G q = \sum_(q < i.+1) G (lo + q)%N.
Proof.
  move=> n lo i G L Z. rewrite -(big_mkord xpredT G). have L2 : (lo + i.+1 <= n.+1)%N by rewrite addnS. rewrite (big_cat_nat _ _ _ (leq0n (lo + i.+1)) L2) /= (big_cat_nat _ _ _ (leq0n lo) (leq_addr i.+1 lo)) /=.
  rewrite [X in X + _ + _]big_nat_cond [X in X + _ + _]big1; [|by move=> q /andP [/andP [_ Q] _]; apply: Z; rewrite leqNgt Q].
  rewrite [X in _ + _ + X]big_nat_cond [X in _ + _ + X]big1; [|by move=> q /andP [/andP [Q _] _]; apply: Z; rewrite addnS in Q; rewrite [(q <= _)%N]leqNgt Q andbF].
  rewrite add0r addr0 -{1}[lo]add0n big_addn addKn big_mkord. apply: eq_bigr => q _. by rewrite addnC.
Qed.
Lemma sub_dep : forall d (PP : nat -> nat -> 'rV[K]_d) n lo i row, (lo + i <= n)%N -> dependent K i.+1 d (corners_of K d PP lo i row) -> dependent K n.+1 d (corners_of K d PP 0 n row).
Proof.
  move=> d PP n lo i row L [c [[i0 N0] [S1 S2]]]. pose G q := if ((lo <= q) && (q <= lo + i))%N then c (inord (q - lo)%N) else 0. have Z : forall q, ~~ ((lo <= q) && (q <= lo + i))%N -> G q = 0 by move=> q Q; rewrite /G (negbTE Q).
  have Gc : forall q : 'I_i.+1, G (lo + q)%N = c q. { move=> q. have Lq : (q <= i)%N by rewrite -ltnS. by rewrite /G leq_addr leq_add2l Lq addKn inord_val. }
  exists (fun q => G q). split; [|split].
  - have Ln : (lo + i0 < n.+1)%N. { rewrite ltnS. apply: leq_trans L. rewrite leq_add2l -ltnS. exact: ltn_ord. } exists (Ordinal Ln). by rewrite /= Gc.
  - rewrite (sum_window n lo i G L Z) -[RHS]S1. by apply: eq_bigr => q _; rewrite Gc.
  - move=> j. rewrite (eq_bigr (fun q : 'I_n.+1 => G q * PP q (nth 0%N row q) 0 j)); [|by move=> q _; rewrite mxE add0n]. rewrite (sum_window n lo i (fun q => G q * PP q (nth 0%N row q) 0 j) L); [|by move=> q Q; rewrite Z ?mul0r].
    rewrite -[RHS](S2 j). apply: eq_bigr => q _. by rewrite Gc mxE.
Qed.
(** coordinates with respect to the corners of a simplex that is not flat are determined *)
Lemma flat_or_unique : forall d k (pos : nat -> 'rV[K]_d) s (f : nat -> K), (0 < k <= d)%N -> size s = k.+1 -> measure K d k (corners K d k pos s) != 0 ->
  \sum_(v <- s) f v = 0 -> \sum_(v <- s) f v *: pos v = 0 -> forall v, v \in s -> f v = 0.
Proof.
  move=> d k pos s f H Sz N S1 S2 v V. apply/eqP. apply/negPn/negP => Nf. case/negP: N. apply/eqP. apply/(measure_dep _ _ _ H). exists (fun i : 'I_k.+1 => f (nth 0%N s i)). split; [|split].
  - have L : (index v s < k.+1)%N by rewrite -Sz index_mem. exists (Ordinal L). rewrite /= nth_index //. exact/eqP.
  - rewrite -[RHS]S1 (big_nth 0%N) Sz big_mkord. by [].
  - move=> j. have := f_equal (fun M : 'rV[K]_d => M 0 j) S2. rewrite summxE (big_nth 0%N) Sz big_mkord mxE => E. rewrite -[RHS]E. apply: eq_bigr => q _. by rewrite !mxE.
Qed.
(** in n-space a vector orthogonal to the edges of such a simplex is zero *)
Lemma orthogonal_zero : forall n (pos : nat -> 'rV[K]_n) s (x : 'rV[K]_n), (0 < n)%N -> size s = n.+1 -> measure K n n (corners K n n pos s) != 0 ->
  (forall v w, v \in s -> w \in s -> dot K n x (pos v - pos w) = 0) -> x = 0.
Proof.
  move=> n pos s x H Sz N O. pose A := edges_from_first K n n (corners K n n pos s). have D : \det A != 0. { apply/negP => /eqP Z. case/negP: N. rewrite /measure /unsigned_volume ltnn (gtn_eqF H). by rewrite det_mulmx det_tr -/A Z mul0r normr0 sqrtr0 mul0r. }
  have U : A^T \in unitmx by rewrite unitmxE det_tr unitfE. suff E : x *m A^T = 0 by rewrite -[x](mulmxK U) E mul0mx. apply/rowP => i. rewrite !mxE.
  have M : forall q : 'I_n.+1, nth 0%N s q \in s by move=> q; rewrite mem_nth // Sz. rewrite -[RHS](O _ _ (M (lift ord0 i)) (M ord0)) /dot. apply: eq_bigr => j _. by rewrite !mxE.
Qed.
End Free.
