(** Volumes of simplices: homogeneous coordinates, permutations, linear maps, affine dependence. *)
From mathcomp Require Import all_ssreflect all_fingroup all_algebra.
From Verif Require Import GeoModel.
Import GRing.Theory Num.Theory.
Local Open Scope ring_scope.

Section Geo.
Variable K : rcfType.
Notation edges := (edges_from_first K).

(** Homogeneous coordinates: a leading 1 for each point. *)
Definition hom (m n : nat) (pts : 'M[K]_(m.+1, n)) : 'M[K]_(m.+1, n.+1) := row_mx (const_mx 1 : 'M_(m.+1, 1)) pts.

Lemma edges_block : forall m n (pts : 'M[K]_(m.+1, n)), edges m n pts = dsubmx (pts : 'M_(1 + m, n)) - const_mx 1 *m usubmx (pts : 'M_(1 + m, n)).
Proof.
  move=> m n pts. apply/matrixP => i j. rewrite !mxE big_ord1 !mxE mul1r. congr (pts _ _ - pts _ _); apply: val_inj => //=.
Qed.
Lemma hom_block : forall m n (pts : 'M[K]_(m.+1, n)), hom m n pts = block_mx 1%:M (usubmx (pts : 'M_(1 + m, n))) (const_mx 1) (dsubmx (pts : 'M_(1 + m, n))).
Proof.
  move=> m n pts. rewrite /hom -[pts in LHS](vsubmxK (pts : 'M_(1 + m, n))).
  have -> : (const_mx 1 : 'M[K]_(m.+1, 1)) = col_mx 1%:M (const_mx 1 : 'M_(m, 1)).
  { apply/matrixP => i j. rewrite !mxE. case: splitP => k _; rewrite !mxE //. by rewrite !ord1. }
  by rewrite block_mxEh.
Qed.
Lemma hom_factor : forall m n (pts : 'M[K]_(m.+1, n)),
  hom m n pts = block_mx 1%:M 0 (const_mx 1) 1%:M *m block_mx 1%:M (usubmx (pts : 'M_(1 + m, n))) 0 (edges m n pts).
Proof.
  move=> m n pts. rewrite hom_block mulmx_block !mul1mx !mul0mx !addr0 mulmx1 edges_block.
  by rewrite addrC subrK.
Qed.
Lemma det_hom : forall n (pts : 'M[K]_(n.+1, n)), \det (hom n n pts) = \det (edges n n pts).
Proof. move=> n pts. rewrite hom_factor det_mulmx (@det_lblock _ 1 n) (@det_ublock _ 1 n) !det1 !mul1r. by []. Qed.

Lemma signed_square : forall n (pts : 'M[K]_(n.+1, n)), signed_volume K n n pts = Util.Ok (\det (edges n n pts) / (n`!)%:R).
Proof. move=> n pts. rewrite /signed_volume. case: eqP => // E. by rewrite (eq_axiomK E) castmx_id. Qed.
Lemma signed_other : forall m n (pts : 'M[K]_(m.+1, n)), m <> n -> signed_volume K m n pts = Util.Err Util.ValueError.
Proof. move=> m n pts N. rewrite /signed_volume. by case: eqP. Qed.

Lemma fact_neq0 : forall n, (n`!)%:R != 0 :> K.
Proof. move=> n. by rewrite pnatr_eq0 -lt0n fact_gt0. Qed.
Lemma fact_gt0R : forall n, 0 < (n`!)%:R :> K.
Proof. move=> n. by rewrite ltr0n fact_gt0. Qed.

(** Sums of squares. *)
Lemma sqsum_eq0 : forall n (v : 'rV[K]_n), v *m v^T = 0 -> v = 0.
Proof.
  move=> n v E. have S : \sum_j v 0 j * v 0 j = 0. { have := congr1 (fun M : 'M_1 => M 0 0) E. rewrite !mxE. move=> E'. rewrite -[RHS]E'. apply: eq_bigr => j _. by rewrite mxE. }
  apply/rowP => j. rewrite mxE. have P : forall j : 'I_n, true -> 0 <= v 0 j * v 0 j by move=> i _; rewrite -expr2 sqr_ge0.
  have /eqP := S. rewrite psumr_eq0 // => /allP /(_ j (mem_index_enum j)) /=. by rewrite mulf_eq0 orbb => /eqP.
Qed.
Lemma gram_singular : forall m n (A : 'M[K]_(m, n)), \det (A *m A^T) = 0 <-> exists2 v : 'rV[K]_m, v != 0 & v *m A = 0.
Proof.
  move=> m n A. split.
  - move/eqP/det0P => [v Nv E]. exists v => //. apply: sqsum_eq0. by rewrite trmx_mul -mulmxA [A *m _]mulmxA [v *m _]mulmxA E mul0mx.
  - move=> [v Nv E]. apply/eqP/det0P. exists v => //. by rewrite mulmxA E mul0mx.
Qed.

(** edges as a linear map of the points *)
Definition diff (m : nat) : 'M[K]_(m, m.+1) := row_mx (const_mx (-1) : 'M_(m, 1)) 1%:M.
Definition sect (m : nat) : 'M[K]_(m.+1, m) := col_mx (0 : 'M_(1, m)) 1%:M.
Lemma edges_diff : forall m n (pts : 'M[K]_(m.+1, n)), edges m n pts = diff m *m pts.
Proof.
  move=> m n pts. rewrite edges_block -{3}(vsubmxK (pts : 'M_(1 + m, n))) /diff (@mul_row_col _ m 1 m n) mul1mx addrC. congr (_ + _).
  rewrite -mulNmx. congr (_ *m _). apply/matrixP => i j. by rewrite !mxE.
Qed.
Lemma diff_sect : forall m, diff m *m sect m = 1%:M.
Proof. move=> m. by rewrite /diff /sect (@mul_row_col _ m 1 m m) mulmx0 add0r mul1mx. Qed.
Lemma diff_ones : forall m, diff m *m (const_mx 1 : 'M_(m.+1, 1)) = 0.
Proof. move=> m. rewrite -edges_diff. apply/matrixP => i j. by rewrite !mxE subrr. Qed.
Lemma sect_diff : forall m, sect m *m diff m = 1%:M - (const_mx 1 : 'M_(m.+1, 1)) *m delta_mx 0 0.
Proof.
  move=> m. apply/matrixP => i j. rewrite !mxE big_ord1 !mxE mul1r eqxx /=.
  rewrite (eq_bigr (fun k : 'I_m => (i == lift ord0 k)%:R * ((j == lift ord0 k)%:R - (j == ord0)%:R))).
  - case: (unliftP ord0 i) => [k ->|->].
    + rewrite (bigD1 k) //= eqxx mul1r big1 ?addr0.
      * by rewrite eq_sym.
      * move=> l Nl. rewrite (inj_eq (@lift_inj _ _)) eq_sym (negbTE Nl) mul0r. by [].
    + rewrite big1. 2:{ move=> l _. by rewrite (negbTE (neq_lift _ _)) mul0r. }
      by rewrite eq_sym subrr.
  - move=> k _. congr (_ * _).
    + rewrite /sect mxE. case: splitP => l E.
      * rewrite mxE. have -> : i = ord0 by apply: val_inj; rewrite /= E; case: l {E} => [[]]. by rewrite (negbTE (neq_lift _ _)).
      * rewrite mxE. congr (_%:R). congr nat_of_bool. apply/eqP/eqP; [move=> Q; apply: val_inj; rewrite /= E Q //|]. move=> Q. apply: val_inj. move: E. rewrite Q /=. by rewrite /bump /= => [[]].
    + rewrite /diff mxE. case: splitP => l E.
      * rewrite mxE. have -> : j = ord0 by apply: val_inj; rewrite /= E; case: l {E} => [[]]. by rewrite (negbTE (neq_lift _ _)) eqxx sub0r.
      * rewrite mxE. have -> : j = lift ord0 l by apply: val_inj; rewrite /= E. by rewrite (inj_eq (@lift_inj _ _)) eq_sym [lift _ _ == ord0]eq_sym (negbTE (neq_lift _ _)) subr0.
Qed.

(** Reordering the corners acts on the edges by a matrix of determinant 1 or -1. *)
Definition reorder (m : nat) (s : 'S_m.+1) : 'M[K]_m := diff m *m perm_mx s *m sect m.
Lemma perm_ones : forall m (s : 'S_m), perm_mx s *m (const_mx 1 : 'M[K]_(m, 1)) = const_mx 1.
Proof. move=> m s. rewrite -row_permE. apply/matrixP => i j. by rewrite !mxE. Qed.
Lemma reorder_edges : forall m n (s : 'S_m.+1) (pts : 'M[K]_(m.+1, n)), edges m n (row_perm s pts) = reorder m s *m edges m n pts.
Proof.
  move=> m n s pts. rewrite !edges_diff row_permE /reorder -!mulmxA [sect m *m _]mulmxA sect_diff !mulmxA. rewrite mulmxBr mulmx1 !mulmxA.
  rewrite -[_ *m perm_mx s *m const_mx 1]mulmxA perm_ones diff_ones mul0mx subr0. by [].
Qed.
Lemma hom_perm : forall m n (s : 'S_m.+1) (pts : 'M[K]_(m.+1, n)), hom m n (row_perm s pts) = row_perm s (hom m n pts).
Proof. move=> m n s pts. rewrite [RHS]row_permE /hom (@mul_mx_row _ m.+1 m.+1 1 n) perm_ones row_permE. by []. Qed.
Lemma det_reorder : forall m (s : 'S_m.+1), \det (reorder m s) = (-1) ^+ s.
Proof.
  move=> m s. have E : edges m m (row_perm s (sect m)) = reorder m s. { by rewrite reorder_edges edges_diff diff_sect mulmx1. }
  rewrite -E -det_hom hom_perm row_permE det_mulmx det_perm det_hom edges_diff diff_sect det1 mulr1. by [].
Qed.

(** Replacing each corner in turn by one and the same point. *)
Definition replace (m n : nat) (pts : 'M[K]_(m, n)) (i : 'I_m) (p : 'rV[K]_n) : 'M[K]_(m, n) := \matrix_(k, j) (if k == i then p 0 j else pts k j).
Lemma det_replace : forall n (A : 'M[K]_n) i (h : 'rV[K]_n), \det (replace n n A i h) = (h *m \adj A) 0 i.
Proof.
  move=> n A i h. rewrite (expand_det_row _ i) mxE. apply: eq_bigr => j _. rewrite !mxE eqxx. congr (_ * _). rewrite /cofactor. congr (_ * \det _).
  apply/matrixP => a b. by rewrite !mxE eq_sym (negbTE (neq_lift _ _)).
Qed.
Lemma hom_replace : forall m n (pts : 'M[K]_(m.+1, n)) i p, hom m n (replace m.+1 n pts i p) = replace m.+1 n.+1 (hom m n pts) i (row_mx (const_mx 1 : 'M_(1, 1)) p).
Proof.
  move=> m n pts i p. apply/matrixP => a b. rewrite !mxE. case: splitP => c E; rewrite !mxE //. by case: ifP.
Qed.
Lemma split_volumes : forall n (pts : 'M[K]_(n.+1, n)) p, \sum_i \det (edges n n (replace n.+1 n pts i p)) = \det (edges n n pts).
Proof.
  move=> n pts p. pose h : 'rV[K]_n.+1 := row_mx (const_mx 1 : 'M_(1, 1)) p.
  rewrite (eq_bigr (fun i => (h *m \adj (hom n n pts)) 0 i)). 2:{ move=> i _. by rewrite -det_hom hom_replace det_replace. }
  have E : (h *m \adj (hom n n pts)) *m (const_mx 1 : 'M_(n.+1, 1)) = (\det (hom n n pts))%:M.
  { have -> : (const_mx 1 : 'M[K]_(n.+1, 1)) = hom n n pts *m col_mx (1%:M : 'M_1) (0 : 'M_(n, 1)). { by rewrite /hom (@mul_row_col _ n.+1 1 n 1) mulmx1 mulmx0 addr0. }
    rewrite -mulmxA [\adj _ *m _]mulmxA mul_adj_mx mul_scalar_mx -scalemxAr /h (@mul_row_col _ 1 1 n 1) mulmx1 mulmx0 addr0.
    apply/matrixP => i j. rewrite !mxE mulr1 !ord1. by []. }
  rewrite -det_hom. have := congr1 (fun M : 'M_1 => M 0 0) E. rewrite !mxE eqxx mulr1n. move=> <-. apply: eq_bigr => i _. by rewrite [const_mx 1 _ _]mxE mulr1.
Qed.

(** Base times height. *)
Lemma gram_height : forall m n (A : 'M[K]_(m, n)) (c : 'rV[K]_m) (h : 'rV[K]_n), h *m A^T = 0 ->
  let B := col_mx (c *m A + h) A in \det (B *m B^T) = (h *m h^T) 0 0 * \det (A *m A^T).
Proof.
  move=> m n A c h Hh B. have -> : B = block_mx 1%:M c 0 1%:M *m col_mx h A. { by rewrite mul_block_col !mul1mx mul0mx add0r addrC. }
  rewrite trmx_mul !mulmxA -[_ *m col_mx h A *m _]mulmxA tr_col_mx mul_col_row Hh.
  have -> : A *m h^T = 0. { rewrite -[LHS]trmxK trmx_mul trmxK Hh trmx0. by []. }
  rewrite !det_mulmx det_tr det_ublock !det1 !mul1r mulr1 det_ublock. congr (_ * _). by rewrite {1}[h *m h^T]mx11_scalar det_scalar1.
Qed.
End Geo.
