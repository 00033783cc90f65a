(** C96: regular simplices. *)
From mathcomp Require Import all_ssreflect all_fingroup all_algebra.
From Coq Require Import Ring Field.
From Verif Require Import GeoModel GeoSpec GeoRing GeoProofs RegSModel.
From Verif Require Util.
Import Order.TTheory GRing.Theory Num.Theory.
Local Open Scope ring_scope.

Section C96.
Variable K : rcfType.
Add Field Kf : (K_field K).
Ltac kring := kprep K; ring.
Ltac kfield := kprep K; field.

Lemma depth_lt : forall k, 0 < 1 - (1 / (k.+2)%:R : K) ^+ 2.
Proof.
  move=> k. rewrite subr_gt0 div1r. have P : 0 < (k.+2%:R : K) by rewrite ltr0n. rewrite exprn_ilt1 //; [by rewrite invr_ge0 ltW|]. rewrite invf_lt1 //. by rewrite ltr1n.
Qed.
Definition dep (m : nat) : K := 1 / (m.+2)%:R.
Definition shr (m : nat) : K := Num.sqrt (1 - dep m ^+ 2).
Lemma shr2 : forall m, shr m ^+ 2 = 1 - dep m ^+ 2.
Proof. move=> m. by rewrite sqr_sqrtr // ltW // depth_lt. Qed.
Lemma shr_gt0 : forall m, 0 < shr m.
Proof. move=> m. rewrite sqrtr_gt0. exact: depth_lt. Qed.
Lemma o0 : forall p, (ord0 : 'I_p.+1) = lshift p (ord0 : 'I_1) :> 'I_(1 + p). Proof. move=> p. exact: val_inj. Qed.
Lemma oS : forall p (i : 'I_p), lift ord0 i = rshift 1 i. Proof. move=> p i. exact: val_inj. Qed.
(** the vertices by coordinates *)
Lemma sv00 : forall m, simplex_vertices K m.+1 ord0 ord0 = 1.
Proof. move=> m. rewrite [simplex_vertices _ _]/=. by rewrite (o0 m.+2) (o0 m.+1) (@col_mxEu K 1 m.+2 (1 + m.+1)) (@row_mxEl K 1 1 m.+1) mxE. Qed.
Lemma sv0S : forall m k, simplex_vertices K m.+1 ord0 (lift ord0 k) = 0.
Proof. move=> m k. rewrite [simplex_vertices _ _]/=. by rewrite (o0 m.+2) oS (@col_mxEu K 1 m.+2 (1 + m.+1)) (@row_mxEr K 1 1 m.+1) mxE. Qed.
Lemma svS0 : forall m i, simplex_vertices K m.+1 (lift ord0 i) ord0 = - dep m.
Proof. move=> m i. rewrite [simplex_vertices _ _]/=. rewrite (o0 m.+1) oS (@col_mxEd K 1 m.+2 (1 + m.+1)) (@row_mxEl K m.+2 1 m.+1) !mxE. exact: mulr1. Qed.
Lemma svSS : forall m i k, simplex_vertices K m.+1 (lift ord0 i) (lift ord0 k) = shr m * simplex_vertices K m i k.
Proof. move=> m i k. rewrite [simplex_vertices _ m.+1]/=. by rewrite !oS (@col_mxEd K 1 m.+2 (1 + m.+1)) (@row_mxEr K m.+2 1 m.+1) mxE. Qed.

(** products of the vertices *)
Lemma gram : forall m i j, \sum_k simplex_vertices K m i k * simplex_vertices K m j k = if i == j then 1 else - (m.+1)%:R^-1.
Proof.
  elim=> [|m IH] i j.
  - rewrite big_ord_recl big_ord0 addr0 !mxE invr1. case: i j => [[|[|i]] Li] [[|[|j]] Lj] //=; rewrite ?mulr1 ?mulN1r ?opprK ?mul1r //.
  - rewrite big_ord_recl. case: (unliftP ord0 i) => [i'|] ->; case: (unliftP ord0 j) => [j'|] ->.
    + rewrite !svS0. rewrite (eq_bigr (fun k => shr m ^+ 2 * (simplex_vertices K m i' k * simplex_vertices K m j' k))); [|by move=> k _; rewrite !svSS mulrACA -expr2]. rewrite -mulr_sumr IH shr2 (inj_eq (@lift_inj _ ord0)). rewrite mulrNN -expr2. case: ifP => _; [by rewrite mulr1 addrC subrK|].
      have P1 : (m.+1%:R : K) != 0 by rewrite pnatr_eq0. have P2 : (m.+2%:R : K) != 0 by rewrite pnatr_eq0. rewrite /dep. have -> : (m.+2%:R : K) = m.+1%:R + 1 by rewrite -addn1 natrD.
      move: P2. have -> : (m.+2%:R : K) = m.+1%:R + 1 by rewrite -addn1 natrD. move: (m.+1%:R : K) P1 => x P1 P2. kfield. split; exact/eqP.
    + rewrite sv00 svS0 mulr1 big1; [|by move=> k _; rewrite sv0S mulr0]. by rewrite addr0 /dep div1r eq_sym (negbTE (neq_lift _ _)).
    + rewrite sv00 svS0 mul1r big1; [|by move=> k _; rewrite sv0S mul0r]. by rewrite addr0 /dep div1r (negbTE (neq_lift _ _)).
    + rewrite !sv00 mulr1 big1; [by rewrite addr0 eqxx|]. move=> k _. by rewrite sv0S mul0r.
Qed.
Lemma centred : forall m k, \sum_i simplex_vertices K m i k = 0.
Proof.
  elim=> [|m IH] k.
  - rewrite !big_ord_recl big_ord0 addr0 !mxE /=. exact: addNr.
  - rewrite big_ord_recl. case: (unliftP ord0 k) => [k'|] ->.
    + rewrite sv0S add0r. under eq_bigr => i _ do rewrite svSS. by rewrite -mulr_sumr IH mulr0.
    + rewrite sv00. under eq_bigr => i _ do rewrite svS0. rewrite sumr_const card_ord /dep div1r -[X in _ + X]mulr_natr mulNr mulVf ?subrr // pnatr_eq0 //.
Qed.

(** The vertices have distance one from the origin, the same distance from each other, they add up to zero, and they are
    independent. *)
Theorem C96_equilateral : forall n, (0 < n)%N -> exists v : 'M[K]_(n.+1, n), n_simplex K n true = Util.Ok (v, [:: iota 0 n.+1]) /\
  (forall i, \sum_k v i k ^+ 2 = 1) /\ (forall i j, i <> j -> \sum_k (v i k - v j k) ^+ 2 = 2%:R * (n.+1)%:R / n%:R) /\
  (forall k, \sum_i v i k = 0) /\ ~ dependent K n.+1 n v.
Proof.
  case=> // m _. exists (simplex_vertices K m). split => //.
  have N : forall i, \sum_k simplex_vertices K m i k ^+ 2 = 1. { move=> i. transitivity (\sum_k simplex_vertices K m i k * simplex_vertices K m i k); [by apply: eq_bigr => k _; rewrite expr2|]. by rewrite gram eqxx. }
  have P1 : (m.+1%:R : K) != 0 by rewrite pnatr_eq0. split => //. split; [|split].
  - move=> i j /eqP Ij. transitivity (\sum_k (simplex_vertices K m i k ^+ 2 + simplex_vertices K m j k ^+ 2 - 2%:R * (simplex_vertices K m i k * simplex_vertices K m j k))).
    { apply: eq_bigr => k _. kring. }
    rewrite sumrB big_split /= !N -mulr_sumr gram (negbTE Ij). have -> : (m.+2%:R : K) = m.+1%:R + 1 by rewrite -addn1 natrD. move: (m.+1%:R : K) P1 => x P1. kfield. exact/eqP.
  - exact: centred.
  - case=> c [[i0 Ni] [S0 S1]]. apply: Ni. have Z : \sum_j c j * (\sum_k simplex_vertices K m j k * simplex_vertices K m i0 k) = 0.
    { transitivity (\sum_k (\sum_j c j * simplex_vertices K m j k) * simplex_vertices K m i0 k).
      - under [RHS]eq_bigr => k _ do rewrite mulr_suml. rewrite exchange_big /=. apply: eq_bigr => j _. rewrite mulr_sumr. apply: eq_bigr => k _. by rewrite mulrA.
      - apply: big1 => k _. by rewrite S1 mul0r. }
    move: Z. rewrite (bigD1 i0) //= gram eqxx mulr1. under eq_bigr => j Nj do rewrite gram (negbTE Nj). rewrite -mulr_suml.
    have -> : \sum_(i < m.+2 | i != i0) c i = - c i0 by move: S0; rewrite (bigD1 i0) //= => H; apply/eqP; rewrite -addr_eq0 addrC H.
    rewrite mulrNN => Z. have Q : c i0 * (1 + m.+1%:R^-1) = 0 by rewrite mulrDr mulr1. move/eqP: Q. rewrite mulf_eq0 => /orP [/eqP //|]. rewrite gt_eqF // addr_gt0 ?ltr01 // invr_gt0 ltr0n //.
Qed.

Lemma hom0 : forall m n (pts : 'M[K]_(m.+1, n)) i, hom K m n pts i ord0 = 1.
Proof. move=> m n pts i. by rewrite /hom (o0 n) (@row_mxEl K m.+1 1 n) mxE. Qed.
Lemma homS : forall m n (pts : 'M[K]_(m.+1, n)) i k, hom K m n pts i (lift ord0 k) = pts i k.
Proof. move=> m n pts i k. by rewrite /hom oS (@row_mxEr K m.+1 1 n). Qed.
Lemma scaled_hom : forall m (A B : 'M[K]_(m.+1, m)) (M : 'M[K]_m.+1) a b,
  (forall i, M i ord0 = a) -> (forall i k, M i (lift ord0 k) = b * B i k) -> \det M = a * b ^+ m * \det (hom K m m B).
Proof.
  move=> m A B M a b M0 MS. have -> : M = hom K m m B *m (block_mx (a%:M : 'M_1) 0 0 (b%:M : 'M_m) : 'M_(1 + m)).
  { rewrite /hom (@mul_row_block _ m.+1 1 m 1 m) !mulmx0 addr0 add0r !mul_mx_scalar. apply/matrixP => i j. case: (unliftP ord0 j) => [k|] ->.
    - by rewrite MS oS (@row_mxEr K m.+1 1 m) mxE.
    - by rewrite M0 (o0 m) (@row_mxEl K m.+1 1 m) !mxE mulr1. }
  by rewrite det_mulmx (@det_ublock _ 1 m) !det_scalar expr1 mulrC.
Qed.
Lemma det_step : forall m, \det (hom K m.+2 m.+2 (simplex_vertices K m.+1)) = - (1 + dep m) * shr m ^+ m.+1 * \det (hom K m.+1 m.+1 (simplex_vertices K m)).
Proof.
  move=> m. set A := hom _ _ _ _. rewrite (expand_det_row A ord0) 2!big_ord_recl big1; last first.
  { move=> i _. by rewrite /A homS sv0S mul0r. }
  rewrite /A hom0 homS sv00 !mul1r addr0 /cofactor !lift0 /= expr0 expr1 mul1r mulN1r.
  rewrite (@scaled_hom m.+1 (simplex_vertices K m) (simplex_vertices K m) (row' ord0 (col' ord0 A)) (- dep m) (shr m)).
  - rewrite (@scaled_hom m.+1 (simplex_vertices K m) (simplex_vertices K m) (row' ord0 (col' (lift ord0 ord0) A)) 1 (shr m)).
    + move: (dep m) (shr m ^+ m.+1) (\det _) => x y z. kring.
    + move=> i. rewrite 2!mxE. have -> : lift (lift ord0 ord0) ord0 = ord0 :> 'I_m.+3 by apply: val_inj. by rewrite hom0.
    + move=> i k. rewrite 2!mxE. have -> : lift (lift ord0 ord0) (lift ord0 k) = lift ord0 (lift ord0 k) :> 'I_m.+3 by apply: val_inj. by rewrite homS svSS.
  - move=> i. by rewrite 2!mxE homS svS0.
  - move=> i k. by rewrite 2!mxE homS svSS.
Qed.
(** Whether the simplex is turned like the axes: yes for odd dimensions, no for even ones.  The other simplex always is. *)
Lemma det_sign : forall m, 0 < (-1) ^+ m * \det (hom K m.+1 m.+1 (simplex_vertices K m)).
Proof.
  elim=> [|m IH].
  - rewrite expr0 mul1r det_hom det_mx11 !mxE /=. rewrite opprK. by rewrite addr_gt0 ?ltr01.
  - rewrite det_step exprS. have -> : forall a b c d : K, -1 * a * (- b * c * d) = b * c * (a * d) by move=> *; kring.
    apply: mulr_gt0 IH. apply: mulr_gt0; [|by rewrite exprn_gt0 // shr_gt0]. apply: addr_gt0; [exact: ltr01|]. apply: divr_gt0; [exact: ltr01|]. by rewrite ltr0n.
Qed.
Theorem C96_orientation_partial : forall n v t, (n %% 2 = 1)%N -> n_simplex K n true = Util.Ok (v, t) -> exists x, 0 < x /\ signed_volume K n n v = Util.Ok x.
Proof.
  case=> // m v t O. rewrite /n_simplex => [[<- _]]. rewrite signed_square -det_hom. eexists. split; [|reflexivity]. have := det_sign m.
  rewrite -signr_odd. have -> : odd m = false by move: O; rewrite modn2 /=; case: (odd m). rewrite mul1r => P. by rewrite divr_gt0 // fact_gt0R.
Qed.
Theorem C96_orientation_refuted : forall n v t, (0 < n)%N -> (n %% 2 = 0)%N -> n_simplex K n true = Util.Ok (v, t) -> exists x, x < 0 /\ signed_volume K n n v = Util.Ok x.
Proof.
  case=> // m v t _ O. rewrite /n_simplex => [[<- _]]. rewrite signed_square -det_hom. eexists. split; [|reflexivity]. have := det_sign m.
  rewrite -signr_odd. have -> : odd m = true by move: O; rewrite modn2 /=; case: (odd m). rewrite mulN1r oppr_gt0 => P. by rewrite pmulr_llt0 // invr_gt0 fact_gt0R.
Qed.
(** The canonical simplex: the origin and the unit points, with signed volume 1 / n!. *)
Theorem C96_canonical : forall n, exists v : 'M[K]_(n.+1, n), n_simplex K n false = Util.Ok (v, [:: iota 0 n.+1]) /\
  (forall k, v ord0 k = 0) /\ (forall i k, v (lift ord0 i) k = if i == k then 1 else 0) /\ signed_volume K n n v = Util.Ok (1 / (n`!)%:R).
Proof.
  move=> n. eexists. split; [reflexivity|]. have Z : forall k : 'I_n, (col' ord0 (1%:M : 'M[K]_n.+1)) ord0 k = 0 by move=> k; rewrite !mxE.
  have S : forall i k : 'I_n, (col' ord0 (1%:M : 'M[K]_n.+1)) (lift ord0 i) k = if i == k then 1 else 0. { move=> i k. rewrite !mxE (inj_eq (@lift_inj _ ord0)). by case: eqP. }
  split; [exact: Z|]. split; [exact: S|]. rewrite signed_square. congr (Util.Ok (_ / _)). rewrite -[RHS](@det1 K n). congr (\det _). apply/matrixP => i j.
  rewrite mxE S Z subr0 [RHS]mxE. by case: eqP.
Qed.
End C96.

(** The triangle: in any field of this kind. *)
Example ex_triangle : forall K : rcfType, exists v, n_simplex K 2 true = Util.Ok (v, [:: [:: 0; 1; 2]%N]) /\ v ord0 ord0 = 1 /\ v (lift ord0 ord0) ord0 = - (1 / 2%:R) /\
  (forall i j, i <> j -> \sum_k (v i k - v j k) ^+ 2 = 2%:R * 3%:R / 2%:R) /\ exists x, x < 0 /\ signed_volume K 2 2 v = Util.Ok x.
Proof.
  move=> K. have [v [E [_ [D _]]]] := C96_equilateral K 2 isT. exists v. split => //. have V : v = simplex_vertices K 1 by case: E => <-. split; [|split; [|split]].
  - by rewrite V sv00.
  - by rewrite V svS0.
  - exact: D.
  - exact: (C96_orientation_refuted K 2 v _ isT (erefl _) E).
Qed.
Example ex_tetrahedron : forall K : rcfType, exists v t x, n_simplex K 3 true = Util.Ok (v, t) /\ 0 < x /\ signed_volume K 3 3 v = Util.Ok x.
Proof.
  move=> K. have [v [E _]] := C96_equilateral K 3 isT. have [x [P S]] := C96_orientation_partial K 3 v _ (erefl _) E. by exists v, [:: iota 0 4], x.
Qed.
Example ex_point : forall K : rcfType, n_simplex K 0 true = Util.Err Util.ZeroDivisionError.
Proof. by []. Qed.

Print Assumptions C96_equilateral.
Print Assumptions C96_orientation_partial.
Print Assumptions C96_orientation_refuted.
Print Assumptions C96_canonical.
