(** C77: normals and gradients of simplices. *)
From mathcomp Require Import all_ssreflect all_fingroup all_algebra.
From Coq Require Import Ring Field.
From Verif Require Import GeoModel GeoSpec GeoProofs GeoProps GeoRing NormModel NormSpec NormProofs Svd CircProofs.
From Verif Require Util.
Import Order.TTheory GRing.Theory Num.Theory.
Local Open Scope ring_scope.

Section C77.
Variable K : rcfType.
Variable svd : forall p n, 'M[K]_(p, n) -> 'M[K]_(p, n) * 'rV[K]_n * 'M[K]_n.
Add Field Kf : (K_field K).
Ltac kring := kprep K; ring.
Ltac kfield := kprep K; field.

(** svd keeps its promise for the simplex, and no singular value but zero is below r relative to the largest *)
Definition regular (r : K) (p n : nat) (corners : 'M[K]_(p, n.+1)) : Prop :=
  let A := \matrix_(i, j) (corners i j - (\sum_k corners k j) / p%:R) in
  let s := (svd p n.+1 A).1.2 in
  svd_of K p n.+1 A (svd p n.+1 A) /\ forall j, s 0 j <> 0 -> r * s 0 0 <= s 0 j.

Lemma gradients_found : forall r p n (corners : 'M[K]_(p, n.+1)), 0 < r -> (1 < p)%N -> (n < p)%N -> ~ dependent K p n.+1 corners -> regular r p n corners ->
  exists g, pinv K svd r p n (relative K p n.+1 corners) = Util.Ok (Some g) /\ (forall i, coordinate_gradient K p n.+1 corners i (g^T i)) /\ forall j, \sum_i g^T i j = 0.
Proof.
  move=> r p n corners R0 L1 L ND. rewrite /regular /pinv -/(relative K p n.+1 corners) ltnS leqNgt L /=. set A := relative K p n.+1 corners.
  case E : (svd p n.+1 A) => [[u s] v] /= [Sv Cut]. have L0 : (0 < p)%N by exact: ltnW.
  have Pos : forall j, 0 <= s 0 j by case: Sv => _ [_ [_ []]]. have Mon : forall j k : 'I_n.+1, (j <= k)%N -> s 0 k <= s 0 j by case: Sv => _ [_ [_ []]].
  have S0 : s 0 0 != 0.
  { apply/negP => /eqP Z. have Zs : s = 0. { apply/rowP => j. rewrite [RHS]mxE. apply/eqP. rewrite eq_le Pos andbT -Z. exact: Mon. }
    have ZA : A = 0. { case: Sv => -> _. rewrite Zs. have -> : diag_mx (0 : 'rV[K]_n.+1) = 0 by apply/matrixP => a b; rewrite !mxE mul0rn. by rewrite mulmx0 mul0mx. }
    have Q : (delta_mx 0 (Ordinal L0) - delta_mx 0 (Ordinal L1) : 'rV[K]_p) = 0.
    { apply: (free K p n.+1 corners ND). - by rewrite -/A ZA mulmx0. - apply/matrixP => a b. rewrite mulmxBl -!rowE !mxE subrr. by []. }
    have := congr1 (fun M : 'rV[K]_p => M 0 (Ordinal L0)) Q. rewrite !mxE eqxx /= subr0 => /eqP. by rewrite oner_eq0. }
  have P0 : 0 < s 0 0 by rewrite lt_neqAle eq_sym S0 Pos.
  have Small : forall j, (`|s 0 j / s 0 0| < r) = (s 0 j == 0).
  { move=> j. have -> : `|s 0 j / s 0 0| = s 0 j / s 0 0 by rewrite ger0_norm // divr_ge0. rewrite ltr_pdivr_mulr //. case: (eqVneq (s 0 j) 0) => [->|N]; [by rewrite mulr_gt0|].
    apply: negbTE. rewrite -leNgt. apply: Cut. exact/eqP. }
  rewrite /reciprocals (negbTE S0). case: ifP => [/existsP [j]|_]. { by rewrite Small andbN. }
  set d := \row_j _. have D : forall j, d 0 j = (s 0 j)^-1. { move=> j. rewrite mxE Small. case: eqP => // ->. by rewrite invr0. }
  eexists. split; [reflexivity|]. rewrite (grads_entry K p n.+1 u v d). split; [exact: (grads_spec K p n.+1 corners L0 ND u s v d Sv D)|exact: (grads_sum K p n.+1 corners L0 u s v d Sv D)].
Qed.

(** The normal of a corner is the unit vector in the plane of the simplex, perpendicular to the opposite face, towards the
    corner. *)
Theorem C77_normals_partial : forall r p n (corners : 'M[K]_(p, n.+1)), 0 < r -> (1 < p)%N -> (n < p)%N -> ~ dependent K p n.+1 corners -> regular r p n corners ->
  exists N, simplex_normals K svd r p n corners = Util.Ok (Some N) /\
    forall i, in_plane K p n.+1 corners (N i) /\ perpendicular K p n.+1 corners i (N i) /\ (forall k, k <> i -> 0 < along K p n.+1 corners (N i) k i) /\ dotp K n.+1 (N i) (N i) = 1.
Proof.
  move=> r p n corners R0 L1 L ND Rg. case: (gradients_found r p n corners R0 L1 L ND Rg) => g [E [CG _]]. rewrite /simplex_normals E /=.
  have Q0 : forall i, 0 < dotp K n.+1 (g^T i) (g^T i) by move=> i; exact: (gradient_pos K p n.+1 corners i _ L1 (CG i)).
  have Ln : forall i, 0 < len K n.+1 (g^T i) by move=> i; rewrite /len sqrtr_gt0.
  rewrite /normalized_rows. case: ifP => [_|/negP []]. 2:{ apply/forallP => i. exact: lt0r_neq0 (Ln i). }
  eexists. split; [reflexivity|]. move=> i. case: (CG i) => [[c [S0 Ec]] [Pp St]].
  have N : forall j, (\matrix_(a, b) (g^T a b / Num.sqrt (\sum_j0 g^T a j0 * g^T a j0))) i j = g^T i j / len K n.+1 (g^T i). { move=> j. by rewrite [LHS]mxE. }
  have Al : forall k l, along K p n.+1 corners ((\matrix_(a, b) (g^T a b / Num.sqrt (\sum_j0 g^T a j0 * g^T a j0))) i) k l = along K p n.+1 corners (g^T i) k l / len K n.+1 (g^T i).
  { move=> k l. rewrite /along /dotp mulr_suml. apply: eq_bigr => j _. by rewrite N mulrAC. }
  split; [|split; [|split]].
  - exists (fun k => c k / len K n.+1 (g^T i)). split; [by rewrite -mulr_suml S0 mul0r|]. move=> j. rewrite N Ec mulr_suml. apply: eq_bigr => k _. by rewrite mulrAC.
  - move=> k l Nk Nl. by rewrite Al Pp // mul0r.
  - move=> k Nk. rewrite Al St // mul1r invr_gt0. exact: Ln.
  - rewrite /dotp (eq_bigr (fun j => g^T i j * g^T i j / dotp K n.+1 (g^T i) (g^T i))).
    + rewrite -mulr_suml mulfV //. exact: lt0r_neq0 (Q0 i).
    + move=> j _. rewrite N mulrACA -invfM. congr (_ / _). rewrite -expr2. exact: sqr_sqrtr (ltW (Q0 i)).
Qed.

(** These conditions leave one vector. *)
Theorem C77_unique : forall p n (corners : 'M[K]_(p, n)) i g g', (1 < p)%N ->
  coordinate_gradient K p n corners i g -> coordinate_gradient K p n corners i g' -> forall j, g j = g' j.
Proof.
  move=> p n corners i g g' L C C' j. case: (C) => [[c [S0 Ec]] _]. case: (C') => [[c' [S0' Ec']] _].
  have Z : \sum_j (g j - g' j) ^+ 2 = 0.
  { have D : forall j, g j - g' j = \sum_k (c k - c' k) * corners k j. { move=> j0. rewrite Ec Ec' -sumrB. apply: eq_bigr => k _. by rewrite mulrBl. }
    have SD : \sum_k (c k - c' k) = 0 by rewrite sumrB S0 S0' subrr.
    rewrite (eq_bigr (fun j => g j * (\sum_k (c k - c' k) * corners k j) - g' j * (\sum_k (c k - c' k) * corners k j))). 2:{ move=> j0 _. by rewrite -D expr2 mulrBl. }
    by rewrite sumrB !(gradient_coef K p n corners i _ (fun k => c k - c' k) L) // subrr. }
  have /eqP := Z. rewrite psumr_eq0; [|by move=> k _; exact: sqr_ge0]. move/allP/(_ j (mem_index_enum j)). by rewrite /= sqrf_eq0 subr_eq0 => /eqP.
Qed.

(** The gradient of a corner is the gradient of its coordinate times the dimension times the volume; its length is the volume
    of the opposite face; together they cancel. *)
Theorem C77_gradients_partial : forall r m n (corners : 'M[K]_(m.+2, n.+1)), 0 < r -> (m <= n)%N -> (n < m.+2)%N -> ~ dependent K m.+2 n.+1 corners -> regular r m.+2 n corners ->
  exists V G, unsigned_volume K m.+1 n.+1 corners = Util.Ok V /\ 0 < V /\ simplex_gradients K svd r m n corners = Util.Ok (Some G) /\
    (forall i, coordinate_gradient K m.+2 n.+1 corners i (fun j => G i j / (m.+1%:R * V))) /\
    (forall i, unsigned_volume K m n.+1 (row' i corners) = Util.Ok (len K n.+1 (G i))) /\ forall j, \sum_i G i j = 0.
Proof.
  move=> r m n corners R0 Lm L ND Rg. case: (gradients_found r m.+2 n corners R0 isT L ND Rg) => g [E [CG Sg]]. rewrite /simplex_gradients /simplex_normals E /=.
  have Q0 : forall i, 0 < dotp K n.+1 (g^T i) (g^T i) by move=> i; exact: (gradient_pos K _ n.+1 corners i _ isT (CG i)).
  have Ln : forall i, 0 < len K n.+1 (g^T i) by move=> i; rewrite /len sqrtr_gt0.
  rewrite ltnNge ltnW ?ltnS //=. rewrite /normalized_rows. case: ifP => [_|/negP []]. 2:{ apply/forallP => i. exact: lt0r_neq0 (Ln i). }
  have A : forall i, exists v, unsigned_volume K m n.+1 (opposite K m n.+1 corners i) = Util.Ok v /\ unsigned_volume K m n.+1 (row' i corners) = Util.Ok v /\ unsigned_volume K m.+1 n.+1 corners = Util.Ok (v * (len K n.+1 (g^T i))^-1 / m.+1%:R).
  { move=> i. apply: apex => //. }
  case: (C75_defined K m.+1 n.+1 corners) => /(_ Lm) [V [V0 EV]] _. set G := (X in Util.Ok (Some X)). exists V, G.
  have Vp : 0 < V. { rewrite lt_neqAle V0 andbT. apply/negP => /eqP Z. apply: ND. apply/(C75_degenerate K m.+1 n.+1 corners); [exact: Lm|by rewrite EV -Z]. }
  have Nm : (m.+1%:R : K) != 0 by rewrite pnatr_eq0.
  have EG : forall i j, G i j = g^T i j * (m.+1%:R * V) /\ unsigned_volume K m n.+1 (row' i corners) = Util.Ok (len K n.+1 (g^T i) * (m.+1%:R * V)).
  { move=> i j. case: (A i) => v [E1 [E2 E3]]. have Nl := lt0r_neq0 (Ln i).
    have Ev : v = len K n.+1 (g^T i) * (m.+1%:R * V). { move: E3. rewrite EV => [[->]]. rewrite [m.+1%:R * _]mulrC divfK // [v / _]mulrC mulrA mulfV // mul1r. by []. }
    split; [|by rewrite E2 Ev]. rewrite [LHS]mxE E1 [X in X * _ = _]mxE -/(dotp K n.+1 (g^T i) (g^T i)) -/(len K n.+1 (g^T i)) Ev mulrA divfK //. }
  have W0 : 0 < m.+1%:R * V by rewrite mulr_gt0 // ltr0n. have NW := lt0r_neq0 W0.
  split; [|split; [|split; [|split; [|split]]]] => //.
  - move=> i. have X : forall j, G i j / (m.+1%:R * V) = g^T i j by move=> j; case: (EG i j) => -> _; rewrite mulfK.
    case: (CG i) => [[c [S0 Ec]] [Pp St]]. split; [|split].
    + exists c. split => // j. by rewrite X Ec.
    + move=> k l Nk Nl. rewrite -[RHS](Pp k l Nk Nl). apply: eq_bigr => j _. by rewrite X.
    + move=> k Nk. rewrite -[RHS](St k Nk). apply: eq_bigr => j _. by rewrite X.
  - move=> i. case: (EG i ord0) => _ ->. congr Util.Ok. rewrite /len. have -> : dotp K n.+1 (G i) (G i) = dotp K n.+1 (g^T i) (g^T i) * (m.+1%:R * V) ^+ 2.
    { rewrite /dotp mulr_suml. apply: eq_bigr => j _. case: (EG i j) => -> _. by rewrite mulrACA expr2. }
    rewrite sqrtrM; [|exact: ltW]. by rewrite sqrtr_sqr ger0_norm // ltW.
  - move=> j. rewrite (eq_bigr (fun i => g^T i j * (m.+1%:R * V))); [|by move=> i _; case: (EG i j)]. by rewrite -mulr_suml Sg mul0r.
Qed.

(** With fewer corners than dimensions there is no result. *)
Theorem C77_wide : forall r p n (corners : 'M[K]_(p, n.+1)), (1 < p <= n)%N -> simplex_normals K svd r p n corners = Util.Err Util.ValueError.
Proof. move=> r p n corners /andP [_ L]. by rewrite /simplex_normals /pinv ltnS L. Qed.

(** Every simplex meets the condition with a small enough r. *)
Theorem C77_tolerance : forall p n (corners : 'M[K]_(p, n.+1)), let A := \matrix_(i, j) (corners i j - (\sum_k corners k j) / p%:R) in
  svd_of K p n.+1 A (svd p n.+1 A) -> exists r0, 0 < r0 /\ forall r, r <= r0 -> regular r p n corners.
Proof.
  move=> p n corners A. rewrite /regular -/A. case: (svd p n.+1 A) => [[u s] v] Sv. have Pos : forall j, 0 <= s 0 j by case: Sv => _ [_ [_ []]].
  have T0 : forall k, 0 <= s 0 0 / s 0 k by move=> k; apply: divr_ge0. pose t := 1 + \sum_k s 0 0 / s 0 k. have t0 : 0 < t by apply: ltr_spaddl; [exact: ltr01|exact: sumr_ge0].
  exists t^-1. split; [by rewrite invr_gt0|]. move=> r L. split => // j /= /eqP N. have Pj : 0 < s 0 j by rewrite lt_neqAle eq_sym N Pos.
  apply: (@le_trans _ _ (t^-1 * s 0 0)); [exact: ler_wpmul2r|]. rewrite mulrC ler_pdivr_mulr // mulrC -ler_pdivr_mulr // /t (bigD1 j) //= addrCA ler_addl. apply: addr_ge0; [exact: ler01|exact: sumr_ge0].
Qed.

(** ** Moving a corner *)
Theorem C77_moves : forall n (corners : 'M[K]_(n.+1.+1, n.+1)) i g (d : 'I_n.+1 -> K) V, unsigned_volume K n.+1 n.+1 corners = Util.Ok V -> 0 < V ->
  coordinate_gradient K n.+2 n.+1 corners i g ->
  unsigned_volume K n.+1 n.+1 (swap_in K n.+2 n.+1 corners i (\row_j (corners i j + d j))) = Util.Ok (V * `|1 + dotp K n.+1 g d|).
Proof.
  move=> n corners i g d V EV V0 [_ [Pp St]]. have Sg := signed_square K n.+1 corners. have Eu := C75_signed_unsigned K n.+1 corners _ Sg.
  set D := \det _ in Sg Eu. have ED : `|D / (n.+1)`!%:R| = V by move: EV; rewrite Eu => [[]].
  have ND : D != 0. { apply/negP => /eqP Z. move: V0. by rewrite -ED Z mul0r normr0 ltxx. }
  pose h := hom K n.+1 n.+1 corners. have Dh : \det h = D by exact: det_hom.
  pose a := col i (\adj h). pose a' := dsubmx (a : 'cV_(1 + n.+1)). pose a0 := usubmx (a : 'cV_(1 + n.+1)).
  have Ha : h *m a = D *: (delta_mx i 0). { rewrite /a colE mulmxA mul_mx_adj Dh mul_scalar_mx. by []. }
  have Ha' : forall k, a0 0 0 + \sum_j corners k j * a' j 0 = D * (k == i)%:R.
  { move=> k. have := congr1 (fun M : 'cV_n.+2 => M k 0) Ha. rewrite /h /hom -[a](vsubmxK (a : 'cV_(1 + n.+1))) (@mul_row_col _ n.+2 1 n.+1 1) -/a0 -/a' [LHS]mxE.
    have -> : (const_mx 1 *m a0 : 'cV_n.+2) k 0 = a0 0 0. { rewrite mxE big_ord1 [const_mx _ _ _]mxE mul1r. by []. } have -> : (corners *m a') k 0 = \sum_j corners k j * a' j 0 by rewrite mxE.
    move=> ->. by rewrite !mxE eqxx andbT. }
  have Eg : forall j, a' j 0 = D * g j.
  { pose e : 'cV[K]_n.+1 := \col_j (a' j 0 - D * g j). have Z : edges_from_first K n.+1 n.+1 corners *m e = 0.
    { apply/matrixP => k b. rewrite [b]ord1 [RHS]mxE mxE (eq_bigr (fun j => (corners (lift ord0 k) j * a' j 0 - corners ord0 j * a' j 0) - D * (g j * (corners (lift ord0 k) j - corners ord0 j)))).
      2:{ move=> j _. rewrite ![(\matrix_(_, _) _) _ _]mxE. set x := a' j 0. clearbody x. set y := g j. kring. }
      rewrite sumrB sumrB -mulr_sumr -/(dotp K n.+1 g (fun j => corners (lift ord0 k) j - corners ord0 j)) -/(along K n.+2 n.+1 corners g ord0 (lift ord0 k)).
      have -> : along K n.+2 n.+1 corners g ord0 (lift ord0 k) = (lift ord0 k == i)%:R - (ord0 == i)%:R.
      { case: (eqVneq (lift ord0 k) i) => [Q|Q]; case: (eqVneq ord0 i) => [Q'|Q'].
        - move: Q. rewrite -Q' => /eqP. by rewrite eq_sym (negbTE (neq_lift _ _)).
        - rewrite Q St ?subr0 //. exact/eqP.
        - have Nk : lift ord0 k <> i by apply/eqP. have := St _ Nk. rewrite -{1}Q' => H. rewrite sub0r -[1%:R]/(1 : K) -H /along /dotp -sumrN. apply: eq_bigr => j _. rewrite -mulrN opprB. by [].
        - rewrite Pp ?subr0 //; exact/eqP. }
      apply/eqP. rewrite subr_eq0 mulrBr. apply/eqP. rewrite -!Ha' opprD addrACA subrr add0r. by []. }
    have U : edges_from_first K n.+1 n.+1 corners \in unitmx by rewrite unitmxE unitfE -/D.
    have Ze : e = 0. { have := congr1 (mulmx (invmx (edges_from_first K n.+1 n.+1 corners))) Z. by rewrite mulmxA mulVmx // mul1mx mulmx0. }
    move=> j. have := congr1 (fun M : 'cV_n.+1 => M j 0) Ze. rewrite [LHS]mxE [RHS]mxE => /eqP. by rewrite subr_eq0 => /eqP. }
  set q := \row_j _. have Em : \det (edges_from_first K n.+1 n.+1 (swap_in K n.+2 n.+1 corners i q)) = D * (1 + dotp K n.+1 g d).
  { rewrite -det_hom (hom_replace K n.+1 n.+1 corners i q) det_replace -/h.
    have -> : (row_mx (const_mx 1 : 'M_1) q *m \adj h) 0 i = (row_mx (const_mx 1 : 'M_1) q *m a) 0 0. { rewrite /a colE mulmxA -colE [RHS]mxE. by []. }
    rewrite -[a](vsubmxK (a : 'cV_(1 + n.+1))) (@mul_row_col _ 1 1 n.+1 1) -/a0 -/a' [LHS]mxE.
    have -> : (const_mx 1 *m a0 : 'M_1) 0 0 = a0 0 0. { rewrite mxE big_ord1 [const_mx _ _ _]mxE mul1r. by []. }
    have -> : (q *m a') 0 0 = \sum_j corners i j * a' j 0 + \sum_j D * (g j * d j). { rewrite mxE -big_split /=. apply: eq_bigr => j _. rewrite [q _ _]mxE mulrDl. congr (_ + _). by rewrite Eg mulrCA [d j * _]mulrC. }
    by rewrite addrA Ha' eqxx mulr1 -mulr_sumr mulrDr mulr1. }
  rewrite (C75_signed_unsigned K n.+1 _ _ (signed_square K n.+1 _)) Em mulrAC normrM ED. by [].
Qed.

(** The docstring promises the derivative of the volume.  The gradients are that times the dimension: moving a corner away
    from another one by a fraction t adds t V to the volume, where the gradient predicts n t V. *)
Theorem C77_volume_gradient_refuted : forall r n (corners : 'M[K]_(n.+3, n.+2)), 0 < r -> ~ dependent K n.+3 n.+2 corners -> regular r n.+3 n.+1 corners ->
  exists V G, unsigned_volume K n.+2 n.+2 corners = Util.Ok V /\ simplex_gradients K svd r n.+1 n.+1 corners = Util.Ok (Some G) /\
  forall i k t, k <> i -> 0 < t -> let d := fun j => t * (corners i j - corners k j) in
    exists V', unsigned_volume K n.+2 n.+2 (swap_in K n.+3 n.+2 corners i (\row_j (corners i j + d j))) = Util.Ok V' /\
    V' = V + t * V /\ dotp K n.+2 (G i) d = n.+2%:R * (t * V) /\ V' <> V + dotp K n.+2 (G i) d.
Proof.
  move=> r n corners R0 ND Rg. case: (C77_gradients_partial r n.+1 n.+1 corners R0 (leqnn _) (leqnSn _) ND Rg) => V [G [EV [V0 [EG [CG _]]]]].
  exists V, G. split => //. split => // i k t Nk t0 d. eexists. split; [exact: (C77_moves n.+1 corners i _ d V EV V0 (CG i))|].
  have W0 : 0 < n.+2%:R * V by rewrite mulr_gt0 // ltr0n. have NW := lt0r_neq0 W0.
  have Dt : dotp K n.+2 (fun j => G i j / (n.+2%:R * V)) d = t. { case: (CG i) => _ [_ /(_ k Nk)]. rewrite /along => Q. 
    transitivity (t * dotp K n.+2 (fun j => G i j / (n.+2%:R * V)) (fun j => corners i j - corners k j)); [|by rewrite Q mulr1].
    rewrite /dotp mulr_sumr. apply: eq_bigr => j _. by rewrite /d [RHS]mulrCA. }
  have DG : dotp K n.+2 (G i) d = n.+2%:R * (t * V). { transitivity (n.+2%:R * V * dotp K n.+2 (fun j => G i j / (n.+2%:R * V)) d).
    - rewrite /dotp mulr_sumr. apply: eq_bigr => j _. by rewrite mulrA [_ * (G i j / _)]mulrC divfK.
    - by rewrite Dt -mulrA [V * t]mulrC. }
  rewrite Dt ger0_norm; [|by apply: addr_ge0; [exact: ler01|exact: ltW]]. have -> : V * (1 + t) = V + t * V by rewrite mulrDr mulr1 [V * t]mulrC.
  split => //. split => //. rewrite DG => /addrI Q. have T0 : 0 < t * V by exact: mulr_gt0. move/eqP: Q. rewrite -{1}[t * V]mul1r -subr_eq0 -mulrBl mulf_eq0 (gt_eqF T0) orbF subr_eq0 -[1]/(1%:R) eqr_nat. by [].
Qed.

(** ** Segments *)
Lemma segment_det : forall n (corners : 'M[K]_n.+1) (x : 'rV[K]_n.+1), \det (col_mx x (edges_from_first K n n.+1 corners) : 'M_n.+1) = dotp K n.+1 (segment_normals K n corners 0) (x 0).
Proof.
  move=> n corners x. rewrite (expand_det_row _ ord0) /dotp. apply: eq_bigr => j _. rewrite [segment_normals _ _ _ _ _]mxE /cofactor add0n.
  have -> : (col_mx x (edges_from_first K n n.+1 corners) : 'M_n.+1) ord0 j = x 0 j. { have -> : ord0 = lshift n (ord0 : 'I_1) by apply: val_inj. exact: (@col_mxEu _ 1 n n.+1). }
  rewrite mulrC [_ * \det _]mulrC. congr (\det _ * _ * _). apply/matrixP => a b. rewrite !mxE. case: splitP => k E; [by case: k E => [[|k]] Lk //=|]. rewrite !mxE. congr (corners _ _ - corners _ _). apply: val_inj => /=. move: E => /= E. rewrite /bump /= in E *. by rewrite add1n in E *; case: E => ->.
Qed.

(** The normal of n points in n-space is perpendicular to them, as long as their volume times the factorial, and gives the
    signed volume of the simplex with any further point in front. *)
Theorem C77_segment : forall n (corners : 'M[K]_n.+1), let N := segment_normals K n corners 0 in
  (forall i k, along K n.+1 n.+1 corners N i k = 0) /\
  unsigned_volume K n n.+1 corners = Util.Ok (len K n.+1 N / (n`!)%:R) /\
  forall (q : 'rV[K]_n.+1) i, signed_volume K n.+1 n.+1 (col_mx q corners : 'M_(n.+2, n.+1)) = Util.Ok (dotp K n.+1 N (fun j => corners i j - q 0 j) / ((n.+1)`!)%:R).
Proof.
  move=> n corners N. set E := edges_from_first K n n.+1 corners. pose Nr := segment_normals K n corners.
  have Dot0 : forall k, dotp K n.+1 N (fun j => corners k j - corners ord0 j) = 0.
  { move=> k. case: (unliftP ord0 k) => [k' ->|->]; [|by apply: big1 => j _; rewrite subrr mulr0].
    have -> : dotp K n.+1 N (fun j => corners (lift ord0 k') j - corners ord0 j) = \det (col_mx (row k' E) E : 'M_n.+1).
    { rewrite segment_det. apply: eq_bigr => j _. rewrite [row _ _ _ _]mxE [E _ _]mxE. by []. }
    apply: (@determinant_alternate _ _ _ (ord0 : 'I_n.+1) (lift ord0 k')); [exact: neq_lift|]. move=> j.
    have -> : lift ord0 k' = rshift 1 k' :> 'I_n.+1 by apply: val_inj. have -> : (ord0 : 'I_n.+1) = lshift n (ord0 : 'I_1) by apply: val_inj.
    by rewrite (@col_mxEu _ 1 n n.+1) (@col_mxEd _ 1 n n.+1) mxE. }
  have Dot : forall i k, along K n.+1 n.+1 corners N i k = 0.
  { move=> i k. rewrite -[RHS](subrr 0) -{1}(Dot0 k) -(Dot0 i) /along /dotp -sumrB. apply: eq_bigr => j _. rewrite -mulrBr opprB addrA subrK. by []. }
  have NE : Nr *m E^T = 0. { apply/matrixP => a k. rewrite [a]ord1 [RHS]mxE mxE -[RHS](Dot ord0 (lift ord0 k)). apply: eq_bigr => j _. by rewrite [E^T _ _]mxE [E _ _]mxE. }
  have Gr : forall h : 'rV[K]_n.+1, h *m E^T = 0 -> dotp K n.+1 N (h 0) ^+ 2 = dotp K n.+1 (h 0) (h 0) * \det (E *m E^T).
  { move=> h Hh. have := gram_height K n n.+1 E 0 h Hh. rewrite /= mul0mx add0r det_mulmx det_tr segment_det -expr2 => ->. congr (_ * _). rewrite mxE. apply: eq_bigr => j _. by rewrite mxE. }
  have Pos : forall f : 'I_n.+1 -> K, 0 <= dotp K n.+1 f f. { move=> f. apply: sumr_ge0 => j _. rewrite -expr2. exact: sqr_ge0. }
  have Zero : forall h : 'rV[K]_n.+1, dotp K n.+1 (h 0) (h 0) = 0 -> h = 0.
  { move=> h Z. apply: sqsum_eq0. apply/matrixP => a b. rewrite !ord1 [RHS]mxE mxE -[RHS]Z. apply: eq_bigr => j _. by rewrite mxE. }
  have GN : \det (E *m E^T) = dotp K n.+1 N N.
  { case: (eqVneq (dotp K n.+1 N N) 0) => [Z|NZ].
    - have N0 : forall j, N j = 0 by move=> j; have := congr1 (fun M : 'rV_n.+1 => M 0 j) (Zero Nr Z); rewrite [RHS]mxE.
      pose h := nz_row (kermx E^T). have Hh : h *m E^T = 0 by apply/sub_kermxP; exact: nz_row_sub.
      have Nh : h != 0. { rewrite nz_row_eq0 -mxrank_eq0 mxrank_ker -lt0n subn_gt0 ltnS mxrank_tr. exact: rank_leq_row. }
      have := Gr h Hh. rewrite /dotp big1; [|by move=> j _; rewrite N0 mul0r]. rewrite expr0n /= => /esym/eqP. rewrite mulf_eq0 -/(dotp K n.+1 (h 0) (h 0)). case/orP => [/eqP /Zero Q|/eqP ->].
      + by rewrite Q eqxx in Nh.
      + by rewrite big1 // => j _; rewrite N0 mul0r.
    - have := Gr Nr NE. rewrite -[Nr 0]/N expr2. by move/(mulfI NZ). }
  split; [|split] => //.
  - rewrite /unsigned_volume ltnNge leqnSn /=. case: (eqVneq n 0%N) => [Z|NZ].
    + congr Util.Ok. subst n. rewrite fact0 divr1 /len -GN det_mx00 sqrtr1. by [].
    + rewrite -/E GN ger0_norm //.
  - move=> q i. rewrite signed_square. congr (Util.Ok (_ / _)). pose x : 'rV[K]_n.+1 := \row_j (corners ord0 j - q 0 j).
    have -> : edges_from_first K n.+1 n.+1 (col_mx q corners) = block_mx (1%:M : 'M_1) 0 (const_mx 1) 1%:M *m col_mx x E :> 'M_(1 + n).
    { have Eq : forall k j, (edges_from_first K n.+1 n.+1 (col_mx q corners)) k j = corners k j - q 0 j.
      { move=> k j. rewrite [LHS]mxE. have -> : lift ord0 k = rshift 1 k by apply: val_inj. have -> : (ord0 : 'I_n.+2) = lshift n.+1 (ord0 : 'I_1) by apply: val_inj.
        by rewrite (@col_mxEd _ 1 n.+1 n.+1) (@col_mxEu _ 1 n.+1 n.+1). }
      rewrite (@mul_block_col _ 1 n 1 n n.+1) mul1mx mul0mx mul1mx addr0. apply/matrixP => k j. rewrite Eq. case: (unliftP ord0 k) => [k' ->|->].
      - have -> : (lift ord0 k' : 'I_n.+1) = rshift 1 k' by apply: val_inj. rewrite (@col_mxEd _ 1 n n.+1) !mxE big_ord1 !mxE mul1r. have -> : rshift 1 k' = lift ord0 k' :> 'I_n.+1 by apply: val_inj. by rewrite [RHS]addrC addrA subrK.
      - have -> : (ord0 : 'I_n.+1) = lshift n (ord0 : 'I_1) by apply: val_inj. rewrite (@col_mxEu _ 1 n n.+1) mxE. congr (corners _ _ - _). exact: val_inj. }
    rewrite det_mulmx (@det_lblock _ 1 n) !det1 !mul1r segment_det. transitivity (dotp K n.+1 N (x 0) + along K n.+1 n.+1 corners N ord0 i); [by rewrite Dot addr0|].
    rewrite /along /dotp -big_split /=. apply: eq_bigr => j _. rewrite mxE -mulrDr addrC addrA subrK. by [].
Qed.

(** ** Slivers *)
Definition flat (h : K) : 'M[K]_(3, 2) := \matrix_(i, j) nth 0 (nth [::] [:: [:: - 1; - h]; [:: 1; - h]; [:: 0; h * 2%:R]] i) j.
Lemma flat_relative : forall h, relative K 3 2 (flat h) = flat h.
Proof.
  move=> h. apply/matrixP => i j. rewrite !mxE !big_ord_recl big_ord0 !mxE /=. case: j => [[|[|j]] Lj] //=.
  - have -> : (- 1 + (1 + (0 + 0)) : K) = 0 by kring. by rewrite mul0r subr0.
  - have -> : - h + (- h + (h * 2%:R + 0)) = 0 by kring. by rewrite mul0r subr0.
Qed.
Lemma flat_values : forall h u s v, 0 < h -> h ^+ 2 * 6%:R < 2%:R -> svd_of K 3 2 (flat h) (u, s, v) ->
  let o := ord0 : 'I_2 in let l := lift ord0 ord0 : 'I_2 in s 0 o ^+ 2 = 2%:R /\ s 0 l ^+ 2 = h ^+ 2 * 6%:R /\ v o l = 0 /\ v l o = 0 /\ forall i, u i o * s 0 o = flat h i o * v o o.
Proof.
  move=> h u s v H0 Hs [EA [Ou [Ov [Ps Ms]]]] o l.
  have AV : forall i j, \sum_k flat h i k * v j k = u i j * s 0 j.
  { move=> i j. have := congr1 (fun M => (M *m v^T) i j) EA. rewrite -!mulmxA Ov mulmx1 mul_mx_diag [RHS]mxE mxE => Q. rewrite -[RHS]Q. apply: eq_bigr => k _. by rewrite [v^T _ _]mxE. }
  have UA : forall j k, \sum_i u i j * flat h i k = s 0 j * v j k.
  { move=> j k. have := congr1 (fun M => (u^T *m M) j k) EA. rewrite !mulmxA Ou mul1mx mul_diag_mx [RHS]mxE mxE => Q. rewrite -[RHS]Q. apply: eq_bigr => i _. by rewrite [u^T _ _]mxE. }
  have Fo : forall j, v j o * 2%:R = s 0 j ^+ 2 * v j o.
  { move=> j. rewrite [s 0 j ^+ 2]expr2 -[s 0 j * s 0 j * _]mulrA -UA mulr_sumr (eq_bigr (fun i => (u i j * s 0 j) * flat h i o)). 2:{ move=> i _. by rewrite mulrA [s 0 j * _]mulrC. }
    rewrite (eq_bigr (fun i => (\sum_k flat h i k * v j k) * flat h i o)). 2:{ move=> i _. by rewrite AV. }
    rewrite !big_ord_recl !big_ord0 -/o -/l !mxE /=. kring. }
  have Fl : forall j, v j l * (h ^+ 2 * 6%:R) = s 0 j ^+ 2 * v j l.
  { move=> j. rewrite [s 0 j ^+ 2]expr2 -[s 0 j * s 0 j * _]mulrA -UA mulr_sumr (eq_bigr (fun i => (u i j * s 0 j) * flat h i l)). 2:{ move=> i _. by rewrite mulrA [s 0 j * _]mulrC. }
    rewrite (eq_bigr (fun i => (\sum_k flat h i k * v j k) * flat h i l)). 2:{ move=> i _. by rewrite AV. }
    rewrite !big_ord_recl !big_ord0 -/o -/l !mxE /=. kring. }
  have Vo := orth K 2 v Ov. have Co : v o o * v o o + v l o * v l o = 1. { have := congr1 (fun M : 'M_2 => M o o) Vo. by rewrite !mxE !big_ord_recl big_ord0 !mxE addr0. }
  have Cr : v o o * v l o + v o l * v l l = 0. { have := congr1 (fun M : 'M_2 => M o l) Ov. by rewrite !mxE !big_ord_recl big_ord0 !mxE addr0. }
  have Cl : v o l * v o l + v l l * v l l = 1. { have := congr1 (fun M : 'M_2 => M l l) Vo. by rewrite !mxE !big_ord_recl big_ord0 !mxE addr0. }
  have Lt : h ^+ 2 * 6%:R != 2%:R by rewrite lt_eqF.
  have Noo : v o o != 0.
  { apply/negP => /eqP Z. have Nlo : v l o != 0. { apply/negP => /eqP Z'. move/eqP: Co. by rewrite Z Z' !mul0r addr0 eq_sym oner_eq0. }
    have S1 : s 0 l ^+ 2 = 2%:R. { apply: (mulIf Nlo). by rewrite -Fo mulrC. }
    have Zll : v l l = 0. { apply/eqP. have := Fl l. rewrite S1 mulrC => /eqP. rewrite -subr_eq0 -mulrBl mulf_eq0 subr_eq0 (negbTE Lt). by []. }
    have Nol : v o l != 0. { apply/negP => /eqP Z'. move/eqP: Cl. by rewrite Zll Z' !mul0r addr0 eq_sym oner_eq0. }
    have S2 : s 0 o ^+ 2 = h ^+ 2 * 6%:R. { apply: (mulIf Nol). by rewrite -Fl mulrC. }
    have : s 0 l ^+ 2 <= s 0 o ^+ 2. { rewrite ler_pexpn2r ?nnegrE //. exact: Ms. } rewrite S1 S2. by rewrite leNgt Hs. }
  have S1 : s 0 o ^+ 2 = 2%:R. { apply: (mulIf Noo). by rewrite -Fo mulrC. }
  have Zol : v o l = 0. { apply/eqP. have := Fl o. rewrite S1 mulrC => /eqP. rewrite -subr_eq0 -mulrBl mulf_eq0 subr_eq0 (negbTE Lt). by []. }
  have Zlo : v l o = 0. { apply/eqP. move/eqP: Cr. by rewrite Zol mul0r addr0 mulf_eq0 (negbTE Noo). }
  have Nll : v l l != 0. { apply/negP => /eqP Z'. move/eqP: Cl. by rewrite Zol Z' !mul0r addr0 eq_sym oner_eq0. }
  split => //. split; [by apply: (mulIf Nll); rewrite -Fl mulrC|]. split => //. split => // i. rewrite -AV !big_ord_recl big_ord0 -/o -/l Zol mulr0 !addr0. by [].
Qed.
Lemma flat_independent : forall h, 0 < h -> ~ dependent K 3 2 (flat h).
Proof.
  move=> h H0 [c [[i Ni] [S0 SE]]]. have E0 := SE ord0. have E1 := SE (lift ord0 ord0). rewrite !big_ord_recl !big_ord0 !mxE /= in S0 E0 E1.
  have H3 : h * 3%:R != 0. { apply: lt0r_neq0. by rewrite mulr_gt0 // ltr0n. } have N2 : (2%:R : K) != 0 by rewrite pnatr_eq0.
  set c0 := c ord0 in S0 E0 E1. set c1 := c (lift ord0 ord0) in S0 E0 E1. set c2 := c _ in S0 E0 E1.
  have Cb : forall t a b : K, a = 0 -> b = 0 -> a + t * b = 0 by move=> t a b -> ->; rewrite mulr0 addr0.
  have Z2 : c2 = 0. { apply: (mulIf H3). rewrite mul0r. rewrite -[RHS](Cb h _ _ E1 S0). kring. }
  have Z1 : c1 = 0. { apply: (mulIf N2). rewrite mul0r. rewrite -[RHS](Cb 1 _ _ E0 S0) Z2. kring. }
  have Z0 : c0 = 0. { have Q := S0. rewrite Z1 Z2 !addr0 in Q. exact: Q. }
  apply: Ni. case: i => [[|[|[|i]]] Li] //; [rewrite -[RHS]Z0|rewrite -[RHS]Z1|rewrite -[RHS]Z2]; congr c; exact: val_inj.
Qed.
Lemma flat_ratio : forall h a b : K, 0 < h -> 0 <= a -> 0 <= b -> a ^+ 2 = 2%:R -> b ^+ 2 = h ^+ 2 * 6%:R -> 0 < a /\ 0 < b /\ h * a <= b /\ b < h * 2%:R * a.
Proof.
  move=> h a b H0 A0 B0 Ea Eb.
  have Pa : 0 < a. { rewrite lt_neqAle A0 andbT. apply/negP => /eqP Z. move/eqP: Ea. by rewrite -Z expr0n /= eq_sym pnatr_eq0. }
  have Pb : 0 < b. { rewrite lt_neqAle B0 andbT. apply/negP => /eqP Z. move/eqP: Eb. by rewrite -Z expr0n /= eq_sym mulf_eq0 pnatr_eq0 sqrf_eq0 gt_eqF. }
  have Ph : 0 <= h * a by rewrite mulr_ge0 // ltW. have Pq : 0 <= h * 2%:R * a by rewrite !mulr_ge0 ?ler0n // ltW. have H2 : 0 < h ^+ 2 by exact: exprn_gt0.
  split; [|split; [|split]] => //.
  - rewrite -(ler_pexpn2r (isT : (0 < 2)%N)) ?nnegrE // exprMn Ea Eb ler_pmul2l //. by rewrite ler_nat.
  - rewrite -(ltr_pexpn2r (isT : (0 < 2)%N)) ?nnegrE // !exprMn Ea Eb -mulrA ltr_pmul2l //. by rewrite -natrX -natrM ltr_nat.
Qed.

(** A triangle of height 3h over a base of 2, with h below r / 2, has no normals, although its corners are independent: the
    smaller singular value is dropped, and the gradient of the third corner is zero. *)
Theorem C77_sliver_refuted : forall r h, 0 < h -> h * 2%:R <= r -> r < 1 -> svd_of K 3 2 (flat h) (svd 3 2 (flat h)) ->
  ~ dependent K 3 2 (flat h) /\ simplex_normals K svd r 3 1 (flat h) = Util.Ok None.
Proof.
  move=> r h H0 Hr R1 Sv. split; [exact: flat_independent|]. rewrite /simplex_normals /pinv /= flat_relative. case: (svd 3 2 (flat h)) Sv => [[u s] v] Sv.
  have Hs : h ^+ 2 * 6%:R < 2%:R.
  { have H1 : h * 2%:R < 1 by apply: le_lt_trans R1. have P : (h * 2%:R) ^+ 2 < 1. { rewrite expr_lt1 //. by rewrite mulr_ge0 ?ler0n // ltW. }
    have P6 := P. rewrite exprMn -natrX in P6. have E : h ^+ 2 * 6%:R * 2%:R = h ^+ 2 * (2 ^ 2)%:R * 3%:R by rewrite -!mulrA -!natrM.
    have Z2 : 0 < (2%:R : K) by rewrite ltr0n. rewrite -(ltr_pmul2r Z2) E. apply: (@lt_trans _ _ (1 * 3%:R)); [by rewrite ltr_pmul2r ?ltr0n|by rewrite mul1r -natrM ltr_nat]. }
  case: (flat_values h u s v H0 Hs Sv). set o := ord0. set l := lift ord0 ord0. move=> S1 [S2 [Zol [Zlo Eu]]].
  have Ps : forall j, 0 <= s 0 j by case: Sv => _ [_ [_ []]]. case: (flat_ratio h _ _ H0 (Ps o) (Ps l) S1 S2) => P1 [P2 [_ Lt]].
  have Cut : `|s 0 l / s 0 o| < r. { rewrite ger0_norm ?divr_ge0 // ltr_pdivr_mulr //. apply: lt_le_trans Lt _. by rewrite ler_pmul2r. }
  have Keep : `|s 0 o / s 0 o| < r = false. { rewrite mulfV ?lt0r_neq0 // normr1. apply: negbTE. by rewrite -leNgt ltW. }
  rewrite /reciprocals. have E00 : s 0 0 = s 0 o by congr (s _ _); apply: val_inj. rewrite !E00 (gt_eqF P1). case: ifP => // _. cbv beta iota delta [Util.bind]. rewrite /normalized_rows. case: ifP => // /forallP /(_ (lift ord0 l)). move/negP; case.
  rewrite sqrtr_eq0. have Z : forall k, ((\matrix_(k, i) \sum_j u i j * (\row_j0 (if `|s 0 j0 / s 0 o| < r then 0 else (s 0 j0)^-1)) 0 j * v j k)^T) (lift ord0 l) k = 0.
  { move=> k. rewrite mxE mxE !big_ord_recl big_ord0 -/o -/l ![(\row__ _) _ _]mxE Cut mulr0 mul0r Keep !addr0.
    have Z : u (lift ord0 l) o = 0. { apply: (mulIf (lt0r_neq0 P1)). rewrite Eu mxE /= !mul0r. by []. } by rewrite Z !mul0r. }
  rewrite big1 // => k _. by rewrite Z mul0r.
Qed.
End C77.

(** A function that keeps the promise exists. *)
Theorem C77_oracle : forall K : rcfType, exists svd : forall p n, 'M[K]_(p, n) -> 'M[K]_(p, n) * 'rV[K]_n * 'M[K]_n,
  forall p n (A : 'M[K]_(p, n)), (n <= p)%N -> svd_of K p n A (svd p n A).
Proof.
  move=> K. pose ok p n (A : 'M[K]_(p, n)) (r : 'M[K]_(p, n) * 'rV[K]_n * 'M[K]_n) :=
    [&& A == r.1.1 *m diag_mx r.1.2 *m r.2, r.1.1^T *m r.1.1 == 1%:M, r.2 *m r.2^T == 1%:M, [forall j, 0 <= r.1.2 0 j] & [forall j : 'I_n, [forall k : 'I_n, (j <= k)%N ==> (r.1.2 0 k <= r.1.2 0 j)]]].
  have P : forall p n A r, reflect (svd_of K p n A r) (ok p n A r).
  { move=> p n A [[u s] v]. apply: (iffP idP).
    - case/and5P => /eqP E1 /eqP E2 /eqP E3 /forallP E4 /forallP E5. split => //. split => //. split => //. split => // j k L. by move: (E5 j) => /forallP /(_ k) /implyP /(_ L).
    - case=> E1 [E2 [E3 [E4 E5]]]. apply/and5P. split; try (by apply/eqP); [exact/forallP|]. apply/forallP => j. apply/forallP => k. apply/implyP. exact: E5. }
  have E : forall p n (A : 'M[K]_(p, n)), exists r, (n <= p)%N ==> ok p n A r.
  { move=> p n A. case L : (n <= p)%N; [|by exists (0, 0, 0)]. case: (svd_exists K n p A L) => r /P H. by exists r. }
  exists (fun p n A => xchoose (E p n A)) => p n A L. apply/P. have := xchooseP (E p n A). move/implyP. by apply.
Qed.

Section C77_examples.
Variable K : rcfType.
Add Field Kg : (K_field K).
Ltac kring := kprep K; ring.
Lemma flat_regular : forall svd, (forall p n (A : 'M[K]_(p, n)), (n <= p)%N -> svd_of K p n A (svd p n A)) -> regular K svd (10%:R ^- 9) 3 1 (flat K (1 / 2%:R)).
Proof.
  move=> svd Sv. have H : 0 < (1 / 2%:R : K) by rewrite div1r invr_gt0 ltr0n. have T0 : 0 < (10%:R : K) by rewrite ltr0n. have T1 : 1 < (10%:R : K) by rewrite ltr1n.
  rewrite /regular -/(relative K 3 2 (flat K (1 / 2%:R))) flat_relative. have S := Sv 3%N 2%N (flat K (1 / 2%:R)) isT. case: (svd 3%N 2%N (flat K (1 / 2%:R))) S => [[u s] v] S /=.
    split => // j _. have Ps : forall j, 0 <= s 0 j by case: S => _ [_ [_ []]].
    have Hs : (1 / 2%:R : K) ^+ 2 * 6%:R < 2%:R. { rewrite div1r exprVn mulrC ltr_pdivr_mulr ?exprn_gt0 ?ltr0n // -natrX -natrM ltr_nat. by []. }
    case: (flat_values K _ _ _ _ H Hs S) => S1 [S2 _]. case: (flat_ratio K _ _ _ H (Ps _) (Ps _) S1 S2) => P1 [P2 [Le _]].
    have Lr : 10%:R ^- 9 <= (1 / 2%:R : K). { rewrite div1r lef_pinv ?posrE ?exprn_gt0 ?ltr0n //. apply: (@le_trans _ _ 10%:R); [by rewrite ler_nat|]. rewrite exprS ler_pmulr //. apply: exprn_ege1. exact: ltW. }
    case: (unliftP ord0 j) => [k ->|->].
    + have -> : lift ord0 k = lift ord0 ord0 by congr (lift _ _); rewrite ord1. apply: le_trans Le. by rewrite ler_pmul2r.
    + rewrite ler_pimull //. rewrite invf_le1 ?exprn_gt0 //. apply: exprn_ege1. exact: ltW.
Qed.
(** A triangle of height 3/2 over a base of 2 meets the hypotheses with the r of the code;
    with h = 10^-10 it has no normals. *)
Example C77_example : exists svd, regular K svd (10%:R ^- 9) 3 1 (flat K (1 / 2%:R)) /\ ~ dependent K 3 2 (flat K (1 / 2%:R)) /\
  simplex_normals K svd (10%:R ^- 9) 3 1 (flat K (10%:R ^- 10)) = Util.Ok None.
Proof.
  case: (C77_oracle K) => svd Sv. exists svd. have H : 0 < (1 / 2%:R : K) by rewrite div1r invr_gt0 ltr0n. have T0 : 0 < (10%:R : K) by rewrite ltr0n. have T1 : 1 < (10%:R : K) by rewrite ltr1n.
  split; [|split].
  - exact: flat_regular.
  - exact: flat_independent.
  - case: (C77_sliver_refuted K svd (10%:R ^- 9) (10%:R ^- 10)) => //.
    + by rewrite invr_gt0 exprn_gt0.
    + rewrite [10%:R ^+ 10]exprS invfM mulrAC ler_pimull ?invr_ge0 ?exprn_ge0 ?ler0n //. rewrite mulrC ler_pdivr_mulr // mul1r ler_nat. by [].
    + rewrite invf_lt1 ?exprn_gt0 //. by rewrite exprn_egt1.
    + exact: Sv.
Qed.
(** The normal of the segment from (0, 0) to (4, 3) is (3, -4). *)
Example C77_segment_example : let corners := \matrix_(i, j) nth 0 (nth [::] [:: [:: 0; 0]; [:: 4%:R; 3%:R]] i) j : 'M[K]_2 in
  segment_normals K 1 corners 0 ord0 = 3%:R /\ segment_normals K 1 corners 0 (lift ord0 ord0) = - 4%:R /\ unsigned_volume K 1 2 corners = Util.Ok 5%:R.
Proof.
  move=> corners. have E0 : segment_normals K 1 corners 0 ord0 = 3%:R. { rewrite mxE det_mx11 !mxE /=. kring. }
  have E1 : segment_normals K 1 corners 0 (lift ord0 ord0) = - 4%:R. { rewrite mxE det_mx11 !mxE /=. kring. }
  split => //. split => //. case: (C77_segment K 1 corners) => _ [-> _]. congr Util.Ok. rewrite divr1 /len /dotp !big_ord_recl big_ord0 E0 E1.
  have -> : 3%:R * 3%:R + (- 4%:R * - 4%:R + 0) = 5%:R ^+ 2 :> K by kring. rewrite sqrtr_sqr ger0_norm // ler0n. by [].
Qed.
End C77_examples.

Print Assumptions C77_normals_partial.
Print Assumptions C77_unique.
Print Assumptions C77_gradients_partial.
Print Assumptions C77_wide.
Print Assumptions C77_tolerance.
Print Assumptions C77_moves.
Print Assumptions C77_volume_gradient_refuted.
Print Assumptions C77_segment.
Print Assumptions C77_sliver_refuted.
Print Assumptions C77_oracle.
