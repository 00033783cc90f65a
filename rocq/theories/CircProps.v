(** C76: circumcentres in barycentric coordinates. *)
From mathcomp Require Import all_ssreflect all_algebra.
From Coq Require Import Ring Field.
From Verif Require Import CircModel CircSpec GeoSpec CircProofs GeoRing Spectral.
From Verif Require Util.
Import Order.TTheory GRing.Theory Num.Theory.
Local Open Scope ring_scope.

Section C76.
Variable K : rcfType.
Variable eigh : forall N, 'M[K]_N -> 'rV[K]_N * 'M[K]_N.
Add Field Kf : (K_field K).
Ltac kring := kprep K; ring.
Ltac kfield := kprep K; field.
Lemma N2 : (1 + 1 : K) <> 0. Proof. apply/eqP. by rewrite -(natrD _ 1 1) pnatr_eq0. Qed.
Lemma N3 : (1 + (1 + 1) : K) <> 0. Proof. apply/eqP. by rewrite -(natrD _ 1 1) -(natrD _ 1 2) pnatr_eq0. Qed.
Lemma N6 : ((1 + 1) * (1 + (1 + 1)) : K) <> 0. Proof. move/eqP. rewrite mulf_eq0 => /orP [/eqP|/eqP]; [exact: N2|exact: N3]. Qed.
Ltac knz := repeat match goal with |- _ /\ _ => split end; first [assumption|exact: N2|exact: N3|exact: N6|exact/eqP].

(** eigh keeps its promise for each simplex of the batch *)
Definition honest (p n : nat) (batch : seq ('M[K]_(p, n) * 'rV[K]_p)) : Prop :=
  forall q, q \in batch -> decomposes K (p + 1) (system K p n q.1) (eigh (p + 1) (system K p n q.1)).

Lemma batch_unfold : forall ratio p n batch, batch <> [::] ->
  circumcenter_barycentric K eigh ratio p n batch = Util.Ok [seq barycentric_one K eigh (bound K eigh p n batch) ratio p n q | q <- batch].
Proof. move=> ratio p n [|q b] // _. Qed.

(** Coordinates of a centre, if there is one and no eigenvalue of the simplex but zero is smaller than the largest one of the
    batch by more than the ratio.  The condition is what is missing. *)
Theorem C76_centre_partial : forall ratio p n (batch : seq ('M[K]_(p, n) * 'rV[K]_p)) q, (0 < p)%N -> honest p n batch -> q \in batch ->
  (forall q' l l', q' \in batch -> eigen K (p + 1) (system K p n q'.1) l' -> eigen K (p + 1) (system K p n q.1) l -> l <> 0 -> `|l'| <= ratio * `|l|) ->
  (exists y, centre K p n q.1 q.2 y) ->
  exists xs, circumcenter_barycentric K eigh ratio p n batch = Util.Ok xs /\ size xs = size batch /\
    forall k, (k < size batch)%N -> nth q batch k = q -> centre K p n q.1 q.2 (nth 0 xs k).
Proof.
  move=> ratio p n batch q L H Iq Spread [y /centre_system [nu Ey]]. have NB : batch <> [::] by move=> Z; rewrite Z in Iq.
  rewrite (batch_unfold _ _ _ _ NB). eexists. split; [reflexivity|]. split; [by rewrite size_map|]. move=> k Lk Ek.
  rewrite (nth_map q) // Ek /barycentric_one. have D := H q Iq. case E : (eigh (p + 1) (system K p n q.1)) => [v W]. rewrite E in D.
  apply/centre_system. set b := bound K eigh p n batch. set z := W *m _ *m _ *m _. exists (z (rshift p ord0) 0).
  have -> : xl K p (usubmx z)^T (z (rshift p ord0) 0) = z. { rewrite /xl trmxK -[z in RHS]vsubmxK. congr col_mx. apply/colP => i. by rewrite !mxE [i]ord1. }
  rewrite /z -Ey. apply: (pinv_solves K _ _ v W (snap K b ratio)) => // j. rewrite /snap. case: (eqVneq (v 0 j) 0) => // /eqP Nz. rewrite ifF //.
  apply: negbTE. rewrite -leNgt.
  case: (bound_attained K eigh p n batch H L NB) => q' [l' [Iq' [El' [Nl' Eb]]]]. rewrite /b Eb !normfV.
  have Ej : eigen K (p + 1) (system K p n q.1) (v 0 j) by have := eig_only K _ _ _ j D.
  have S := Spread q' (v 0 j) l' Iq' El' Ej Nz.
  have P1 : 0 < `|v 0 j| by rewrite normr_gt0; apply/eqP. have P2 : 0 < `|l'| by rewrite normr_gt0; apply/eqP.
  by rewrite mulrC ler_pdivl_mulr // mulrC ler_pdivr_mulr.
Qed.

(** Corners in general position have exactly one. *)
Theorem C76_independent : forall p n (pts : 'M[K]_(p, n)) w, (0 < p)%N -> ~ dependent K p n pts ->
  exists x, centre K p n pts w x /\ forall x', centre K p n pts w x' -> x' = x.
Proof. move=> p n pts w L ND. exact: independent_centre. Qed.

(** ** Vertices *)
Definition far (n : nat) (pts : 'M[K]_(1, n)) : K := let a := \sum_j pts 0 j ^+ 2 in a + Num.sqrt (a ^+ 2 + 1).

Lemma far_eq : forall n (pts : 'M[K]_(1, n)), let a := \sum_j pts 0 j ^+ 2 in let m := far n pts in 1 <= m /\ m * m = a * m * 2%:R + 1 /\ 0 <= a.
Proof.
  move=> n pts a m. have A0 : 0 <= a by apply: sumr_ge0 => j _; exact: sqr_ge0.
  have S : Num.sqrt (a ^+ 2 + 1) ^+ 2 = a ^+ 2 + 1. { apply: sqr_sqrtr. apply: addr_ge0; [exact: sqr_ge0|exact: ler01]. }
  split; [|split] => //.
  - rewrite /m /far -/a. have : 1 <= Num.sqrt (a ^+ 2 + 1). { rewrite -[X in X <= _]sqrtr1. apply: ler_wsqrtr. by rewrite ler_addr sqr_ge0. } move=> Q. apply: (le_trans Q). by rewrite ler_addr.
  - rewrite /m /far -/a. set s := Num.sqrt _ in S *. have -> : (a + s) * (a + s) = a ^+ 2 + (a * s) * 2%:R + s ^+ 2 by kring. rewrite S. kring.
Qed.

Definition pair (x y : K) : 'cV[K]_(1 + 1) := col_mx (const_mx x : 'cV_1) (const_mx y : 'cV_1).
Lemma system1 : forall n (pts : 'M[K]_(1, n)) x y, system K 1 n pts *m pair x y = pair ((\sum_j pts 0 j ^+ 2) * 2%:R * x + y) x.
Proof.
  move=> n pts x y. rewrite /system /pair mul_block_col mul0mx addr0. congr col_mx; apply/colP => i; rewrite !mxE big_ord1 !mxE ?mul1r //.
  rewrite big_ord1 !mxE mul1r !ord1. by [].
Qed.
Lemma pair_inj : forall x y x' y', pair x y = pair x' y' -> x = x' /\ y = y'.
Proof. move=> x y x' y' /eq_col_mx [/(congr1 (fun M : 'cV_1 => M 0 0)) E /(congr1 (fun M : 'cV_1 => M 0 0)) E']. by rewrite !mxE in E E'. Qed.
Lemma pairE : forall u : 'cV[K]_(1 + 1), exists x y, u = pair x y.
Proof. move=> u. exists (usubmx u 0 0), (dsubmx u 0 0). rewrite -[LHS]vsubmxK /pair. congr col_mx; apply/colP => i; by rewrite !ord1 [RHS]mxE. Qed.

Lemma far_vectors : forall n (pts : 'M[K]_(1, n)), let m := far n pts in
  system K 1 n pts *m pair m 1 = m *: pair m 1 /\ system K 1 n pts *m pair 1 (- m) = (- m^-1) *: pair 1 (- m).
Proof.
  move=> n pts m. case: (far_eq n pts). set a := \sum_j _. rewrite -/m => M1 [MM A0]. have Nm : m <> 0. { move=> Z. move: M1. by rewrite Z ler10. }
  have Sc : forall c x y, c *: pair x y = pair (c * x) (c * y). { move=> c x y. rewrite /pair scale_col_mx. congr col_mx; apply/colP => i; by rewrite !mxE. }
  split; rewrite system1 Sc -/a.
  - congr pair; [|by rewrite mulr1]. rewrite MM. kring.
  - congr pair. 2:{ rewrite mulrNN mulVf //. exact/eqP. } apply: (@mulIf _ m); [exact/eqP|]. rewrite !mulr1 mulNr mulVf; [|exact/eqP].
    have -> : (a * 2%:R + - m) * m = a * m * 2%:R - m * m by kring. rewrite MM. kring.
Qed.
Lemma far_eigen : forall n (pts : 'M[K]_(1, n)) l, eigen K (1 + 1) (system K 1 n pts) l -> l = far n pts \/ l = - (far n pts)^-1.
Proof.
  move=> n pts l [u]. case: (pairE u) => x [y ->]. move=> Nu. rewrite system1. case: (far_eq n pts). set a := \sum_j _. set m := far n pts => M1 [MM A0].
  have Nm : m <> 0. { move=> Z. move: M1. by rewrite Z ler10. }
  have Sc : l *: pair x y = pair (l * x) (l * y). { rewrite /pair scale_col_mx. congr col_mx; apply/colP => i; by rewrite !mxE. }
  rewrite Sc => /pair_inj [E1 E2]. have Ny : y != 0. { apply: contra Nu => /eqP Z. rewrite E2 Z mulr0. apply/eqP/matrixP => i j. rewrite !mxE. case: splitP => k _; by rewrite mxE. }
  have Q : (l - m) * (l * m + 1) = 0.
  { apply: (mulIf Ny). rewrite mul0r. have E3 : a * 2%:R * (l * y) + y = l * (l * y) by move: E1; rewrite E2.
    have -> : (l - m) * (l * m + 1) * y = m * (l * (l * y)) + l * y - (m * m) * (l * y) - m * y by kring. rewrite -E3 MM. kring. }
  move/eqP: Q. rewrite mulf_eq0 subr_eq0 => /orP [/eqP ->|/eqP Z]; [by left|right]. apply: (@mulIf _ m); [exact/eqP|]. rewrite mulNr mulVf; [|exact/eqP].
  apply/eqP. by rewrite -addr_eq0 Z.
Qed.

(** Every vertex of a batch of vertices: the coordinate is one, as it should be, when the vertices are close to the origin;
    one half when the vertex and the farthest one are far enough; zero when the farthest one is much farther. *)
Theorem C76_vertices : forall ratio n (batch : seq ('M[K]_(1, n) * 'rV[K]_1)) (qM : 'M[K]_(1, n) * 'rV[K]_1), 1 <= ratio ->
  honest 1 n batch -> qM \in batch -> (forall q, q \in batch -> far n q.1 <= far n qM.1) -> (forall q, q \in batch -> q.2 = 0) ->
  circumcenter_barycentric K eigh ratio 1 n batch =
  Util.Ok [seq const_mx (if ratio * far n q.1 < far n qM.1 then 0 else if ratio < far n q.1 * far n qM.1 then 1 / 2%:R else 1) | q : 'M[K]_(1, n) * 'rV[K]_1 <- batch].
Proof.
  move=> ratio n batch qM R1 H IM MM W0. have NB : batch <> [::] by move=> Z; rewrite Z in IM.
  rewrite (batch_unfold _ _ _ _ NB). congr Util.Ok. apply/eq_in_map => q Iq.
  pose M := far n qM.1. pose m := far n q.1. case: (far_eq n qM.1) => M1 _. case: (far_eq n q.1). set a := \sum_j _ => m1 [mm A0]. rewrite -/M -/m in M1 m1 mm *.
  have R0 : 0 < ratio by exact: lt_le_trans ltr01 R1. have P0 : 0 < m by exact: lt_le_trans ltr01 m1. have PM : 0 < M by exact: lt_le_trans ltr01 M1.
  have Nz : forall pts : 'M[K]_(1, n), pair (far n pts) 1 != 0.
  { move=> pts. apply/negP => /eqP /(congr1 (fun u : 'cV_(1 + 1) => u (rshift 1 ord0) 0)). rewrite /pair col_mxEd !mxE. move/eqP. by rewrite oner_eq0. }
  have B : bound K eigh 1 n batch = M^-1.
  { apply/eqP. rewrite eq_le. apply/andP. split.
    - have := bound_le K eigh 1 n batch H qM M IM. rewrite normfV (gtr0_norm PM). apply.
      + exists (pair M 1); [exact: Nz|]. by case: (far_vectors n qM.1).
      + by move/eqP; rewrite gt_eqF.
    - case: (bound_attained K eigh 1 n batch H isT NB) => q' [l [Iq' [El [Nl ->]]]]. have m1' := (far_eq n q'.1).1. have L' := MM q' Iq'. rewrite -/M in L'.
      have P' : 0 < far n q'.1 by exact: lt_le_trans ltr01 m1'.
      case: (far_eigen n q'.1 l El) => ->.
      + by rewrite normfV (gtr0_norm P') lef_pinv.
      + rewrite normfV normrN normfV (gtr0_norm P') invrK. apply: (@le_trans _ _ 1) => //. by rewrite invf_le1. }
  rewrite B /barycentric_one. have D := H q Iq. case E : (eigh (1 + 1) (system K 1 n q.1)) => [v W]. rewrite E in D.
  set f := snap K M^-1 ratio.
  have F1 : f m = if ratio * m < M then 0 else m^-1.
  { rewrite /f /snap gt_eqF // normfV (gtr0_norm P0). congr (if _ then _ else _). by rewrite mulrC ltr_pdivr_mulr // mulrC ltr_pdivl_mulr // mulrC. }
  have F2 : f (- m^-1) = if ratio < m * M then 0 else - m.
  { rewrite /f /snap oppr_eq0 invr_eq0 gt_eqF // invrN invrK normrN (gtr0_norm P0). congr (if _ then _ else _). by rewrite mulrC ltr_pdivr_mulr. }
  have NQ : m * m + 1 != 0. { apply: lt0r_neq0. apply: addr_gt0; [exact: mulr_gt0|exact: ltr01]. }
  pose al := (a * m + 1) / (m * m + 1). pose be := (a - m) / (m * m + 1).
  have Eb : rhs K 1 n q.1 q.2 = al *: pair m 1 + be *: pair 1 (- m).
  { rewrite /rhs (W0 q Iq) /pair !scale_col_mx add_col_mx. congr col_mx; apply/colP => i; rewrite !mxE ?[i]ord1 /al /be.
    - rewrite subr0. have -> : \sum_j q.1 0 j * q.1 0 j = a by apply: eq_bigr => j _; rewrite expr2. kfield. exact/eqP.
    - kfield. exact/eqP. }
  case: (far_vectors n q.1) => V1 V2. rewrite -/m in V1 V2.
  rewrite Eb mulmxDr -!scalemxAr (fun_eigen K _ _ v W f _ _ D V1) (fun_eigen K _ _ v W f _ _ D V2) F1 F2.
  have HA : al = 1 / 2%:R. { rewrite /al. have -> : m * m + 1 = (a * m + 1) * 2%:R by rewrite mm; kring. rewrite invfM mulrA divff ?mul1r //. apply: lt0r_neq0. apply: ltr_paddl; [apply: mulr_ge0 => //; exact: ltW|exact: ltr01]. }
  have HB : be * - m = 1 / 2%:R. { rewrite -HA /be /al mulrAC. congr (_ / _). have -> : (a - m) * - m = m * m - a * m by kring. rewrite mm. kring. }
  have Eu : forall x y, (pair x y) (lshift 1 ord0) 0 = x. { move=> x y. by rewrite /pair col_mxEu mxE. }
  have N2 : (2%:R : K) <> 0 by apply/eqP; rewrite pnatr_eq0.
  have SE : forall c (u : 'cV[K]_(1 + 1)) i j, (c *: u) i j = c * u i j. { move=> c u i j. by rewrite mxE. }
  apply/rowP => j. rewrite ord1 [RHS]mxE [LHS]mxE [LHS]mxE [LHS]mxE !SE !Eu. case: ifP => C1.
  - have -> : ratio < m * M. { apply: (le_lt_trans _ (lt_le_trans C1 _)). - rewrite -[X in X <= _]mulr1. by rewrite ler_pmul2l. - by rewrite ler_pmull. } by rewrite !mul0r !mulr0 addr0.
  - case: ifP => C2.
    + rewrite mul0r mulr0 addr0 mulVf ?mulr1 //. by rewrite gt_eqF.
    + rewrite mulr1 HB mulVf ?mulr1 ?HA; [|by rewrite gt_eqF]. kfield. exact: N2.
Qed.

(** A vertex farther than about 22.4 from the origin is replaced by the point half way to the origin, whatever the
    eigenvectors are. *)
Theorem C76_far_vertex_refuted : forall n (pts : 'M[K]_(1, n)), 10%:R ^+ 3 <= (\sum_j pts 0 j ^+ 2) * 2%:R -> honest 1 n [:: (pts, 0)] ->
  circumcenter_barycentric K eigh (10%:R ^+ 6) 1 n [:: (pts, 0)] = Util.Ok [:: const_mx (1 / 2%:R)] /\ ~ centre K 1 n pts 0 (const_mx (1 / 2%:R)).
Proof.
  move=> n pts L H. have T1 : 1 <= (10%:R : K) by rewrite ler1n. have T0 : 0 < (10%:R : K) by rewrite ltr0n.
  split.
  - rewrite (C76_vertices (10%:R ^+ 6) n [:: (pts, 0)] (pts, 0)) //=.
    + congr (Util.Ok [:: const_mx _]). case: (far_eq n pts). set a := \sum_j _ in L *. set m := far n pts => m1 [mm A0]. have m0 : 0 < m by exact: lt_le_trans ltr01 m1.
      rewrite ifF. 2:{ apply: negbTE. rewrite -leNgt ler_pmull //. exact: exprn_ege1. }
      rewrite ifT //. have G : 10%:R ^+ 3 < m.
      { apply: (le_lt_trans L). rewrite /m /far -/a mulr_natr mulr2n ltr_add2l. have -> : a = Num.sqrt (a ^+ 2) by rewrite sqrtr_sqr ger0_norm.
        rewrite ltr_sqrt. - by rewrite sqrtr_sqr (ger0_norm A0) ltr_addl ltr01. - apply: ltr_paddl; [exact: sqr_ge0|exact: ltr01]. }
      have -> : (10%:R : K) ^+ 6 = 10%:R ^+ 3 * 10%:R ^+ 3 by rewrite -exprD. have P3 : 0 <= (10%:R : K) ^+ 3 by apply: exprn_ge0; exact: ltW.
      exact: ltr_pmul.
    + exact: exprn_ege1.
    + by rewrite mem_head.
    + move=> q. by rewrite in_cons in_nil orbF => /eqP ->.
    + move=> q. by rewrite in_cons in_nil orbF => /eqP ->.
  - case=> S _. move: S. rewrite big_ord1 mxE div1r => /eqP. by rewrite invr_eq1 pnatr_eq1.
Qed.

(** The coordinate of a vertex depends on the other vertices of the batch: 1 on its own, at most one half next to a vertex
    that is far away. *)
Theorem C76_batch_refuted : forall n (p q : 'M[K]_(1, n)), \sum_j p 0 j ^+ 2 <= 400%:R -> 10%:R ^+ 6 < (\sum_j q 0 j ^+ 2) * 2%:R ->
  honest 1 n [:: (p, 0)] -> honest 1 n [:: (p, 0); (q, 0)] ->
  circumcenter_barycentric K eigh (10%:R ^+ 6) 1 n [:: (p, 0)] = Util.Ok [:: const_mx 1] /\
  exists x y, circumcenter_barycentric K eigh (10%:R ^+ 6) 1 n [:: (p, 0); (q, 0)] = Util.Ok [:: const_mx x; const_mx y] /\ x <= 1 / 2%:R.
Proof.
  move=> n p q Lp Lq H1 H2. have T1 : 1 <= (10%:R : K) by rewrite ler1n. have T0 : 0 < (10%:R : K) by rewrite ltr0n.
  have R1 : 1 <= (10%:R : K) ^+ 6 by exact: exprn_ege1.
  case: (far_eq n p). set a := \sum_j _ in Lp *. move=> m1 [mm A0]. case: (far_eq n q). set b := \sum_j _ in Lq *. move=> M1 [MM B0].
  have m0 : 0 < far n p by exact: lt_le_trans ltr01 m1. have M0 : 0 < far n q by exact: lt_le_trans ltr01 M1.
  have Sq : forall c : K, 0 <= c -> c <= Num.sqrt (c ^+ 2 + 1) /\ Num.sqrt (c ^+ 2 + 1) <= c + 1.
  { move=> c C0. split.
    - rewrite -[X in X <= _](ger0_norm C0) -sqrtr_sqr. apply: ler_wsqrtr. by rewrite ler_addl ler01.
    - have C1 : 0 <= c + 1 by apply: addr_ge0 => //; exact: ler01. rewrite -[X in _ <= X](ger0_norm C1) -sqrtr_sqr. apply: ler_wsqrtr. rewrite sqrrD1 ler_add2r ler_addl. by rewrite mulrn_wge0. }
  have Lm : far n p <= 10%:R ^+ 3.
  { rewrite /far -/a. apply: (@le_trans _ _ (400%:R + (400%:R + 1))). - apply: ler_add => //. apply: (le_trans (Sq a A0).2). by rewrite ler_add2r.
    - rewrite -natrX -[X in _ + (_ + X)]/(1%:R) -!natrD ler_nat. by []. }
  have LM : 10%:R ^+ 6 < far n q. { apply: (lt_le_trans Lq). rewrite /far -/b mulr_natr mulr2n ler_add2l. exact: (Sq b B0).1. }
  have E6 : (10%:R : K) ^+ 6 = 10%:R ^+ 3 * 10%:R ^+ 3 by rewrite -exprD.
  split.
  - rewrite (C76_vertices (10%:R ^+ 6) n [:: (p, 0)] (p, 0)) //=.
    + rewrite ifF. 2:{ apply: negbTE. by rewrite -leNgt ler_pmull. } rewrite ifF //. apply: negbTE. rewrite -leNgt E6. apply: ler_pmul => //; exact: ltW.
    + by rewrite mem_head.
    + move=> r. by rewrite in_cons in_nil orbF => /eqP ->.
    + move=> r. by rewrite in_cons in_nil orbF => /eqP ->.
  - have Lmq : far n p <= far n q. { apply: (le_trans Lm). apply: ltW. apply: le_lt_trans LM. rewrite E6 ler_pmulr ?exprn_gt0 //. exact: exprn_ege1. }
    have E := C76_vertices (10%:R ^+ 6) n [:: (p, 0); (q, 0)] (q, 0) R1 H2. rewrite E {E} /=.
    + eexists _, _. split; [reflexivity|]. case: ifP => [_|C2].
      * case: ifP => _ //. by rewrite div1r invr_ge0 ler0n.
      * move: C2. rewrite (lt_le_trans LM) //. by rewrite ler_pmull.
    + by rewrite !in_cons eqxx !orbT.
    + move=> r. by rewrite !in_cons in_nil orbF => /orP [/eqP ->|/eqP ->].
    + move=> r. by rewrite !in_cons in_nil orbF => /orP [/eqP ->|/eqP ->].
Qed.

(** ** The variant with squared distances *)
Lemma distances_rows : forall p n (pts : 'M[K]_(p, n)) w x mu t, distances K p n pts w *m xl K p x mu = col_mx 0 (const_mx t) <->
  (forall i, (\sum_j pts i j * pts i j - w 0 i) * (\sum_k x 0 k) - (\sum_k (\sum_j pts i j * pts k j) * x 0 k) * 2%:R +
             (\sum_k (\sum_j pts k j * pts k j - w 0 k) * x 0 k) + mu = 0) /\ \sum_k x 0 k = t.
Proof.
  move=> p n pts w x mu t. rewrite /distances /xl mul_block_col mul0mx addr0.
  have U : forall i, ((\matrix_(i, k) (\sum_j (pts i j - pts k j) * (pts i j - pts k j) - (w 0 i + w 0 k))) *m x^T + (const_mx 1 : 'M_(p, 1)) *m (const_mx mu : 'cV_1)) i 0 =
    (\sum_j pts i j * pts i j - w 0 i) * (\sum_k x 0 k) - (\sum_k (\sum_j pts i j * pts k j) * x 0 k) * 2%:R + (\sum_k (\sum_j pts k j * pts k j - w 0 k) * x 0 k) + mu.
  { move=> i. rewrite mxE [(const_mx 1 *m _) _ _]mxE big_ord1 !mxE mul1r. congr (_ + _). rewrite mulr_sumr mulr_suml -sumrB -big_split /=. apply: eq_bigr => k _. rewrite !mxE.
    have -> : \sum_j (pts i j - pts k j) * (pts i j - pts k j) = \sum_j pts i j * pts i j - (\sum_j pts i j * pts k j) * 2%:R + \sum_j pts k j * pts k j.
    { rewrite mulr_suml -sumrB -big_split /=. apply: eq_bigr => j _. kring. }
    set A := \sum_j pts i j * pts i j. set B := \sum_j pts i j * pts k j. set C := \sum_j pts k j * pts k j. kring. }
  have D : ((const_mx 1 : 'M[K]_(1, p)) *m x^T) 0 0 = \sum_k x 0 k. { rewrite mxE. apply: eq_bigr => k _. by rewrite !mxE mul1r. }
  split.
  - move/eq_col_mx => [E1 E2]. split.
    + move=> i. rewrite -U E1 mxE. by [].
    + by rewrite -D E2 mxE.
  - case=> E1 E2. congr col_mx.
    + apply/colP => i. by rewrite U E1 mxE.
    + apply/colP => i. by rewrite !ord1 D E2 mxE.
Qed.
Lemma xlE : forall p (z : 'cV[K]_(p + 1)), z = xl K p (usubmx z)^T (z (rshift p ord0) 0).
Proof. move=> p z. rewrite /xl trmxK -[z in LHS]vsubmxK. congr col_mx. apply/colP => i. by rewrite !mxE [i]ord1. Qed.
Lemma zero_eigen : forall N (A : 'M[K]_N) vw j, decomposes K N A vw -> A \in unitmx -> vw.1 0 j != 0.
Proof.
  move=> N A vw j D U. case: (eig_only K N A vw j D) => u Nu E. apply: contra Nu => /eqP Z. rewrite Z scale0r in E. by rewrite -[u](mulKmx U) E mulmx0.
Qed.

(** Corners in general position: the power centre, for all weights and all sizes. *)
Theorem C76_weighted : forall p n (q : 'M[K]_(p, n) * 'rV[K]_p), (0 < p)%N -> ~ dependent K p n q.1 ->
  decomposes K (p + 1) (distances K p n q.1 q.2) (eigh (p + 1) (distances K p n q.1 q.2)) ->
  exists x, circumcenter_barycentric_weighted K eigh p n q = Some x /\ centre K p n q.1 q.2 x.
Proof.
  move=> p n [pts w] L ND D. rewrite /= in ND D *. have U : distances K p n pts w \in unitmx.
  { rewrite unitmxE unitfE. apply/negP => /det0P [v Nv E]. case/negP: Nv.
    have TD : (distances K p n pts w)^T = distances K p n pts w.
    { rewrite /distances tr_block_mx trmx0 !trmx_const. congr block_mx. apply/matrixP => i k. rewrite !mxE [w 0 k + _]addrC. congr (_ - _). apply: eq_bigr => j _. kring. }
    have E' : distances K p n pts w *m v^T = 0. { rewrite -[X in X *m _]TD -trmx_mul E trmx0. by []. }
    have C0 : (0 : 'cV[K]_(p + 1)) = col_mx 0 (const_mx 0 : 'cV_1). { rewrite -[LHS]vsubmxK. congr col_mx; apply/colP => i; by rewrite !mxE. }
    rewrite [v^T]xlE C0 in E'. move/distances_rows: E' => [E1 E2]. move: E1 E2. set x := (usubmx _)^T. set mu := v^T _ _. move=> E1 E2.
    set c := \sum_k (_ - w 0 k) * _ in E1.
    have S : system K p n pts *m xl K p x (- (c + mu)) = 0.
    { have C0' : (0 : 'cV[K]_(p + 1)) = rhs K p n (0 : 'M_(p, n)) 0 - col_mx 0 (const_mx 1).
      { rewrite /rhs opp_col_mx add_col_mx oppr0 addr0 subrr. have -> : \col_i (\sum_j (0 : 'M[K]_(p, n)) i j * (0 : 'M[K]_(p, n)) i j - (0 : 'rV[K]_p) 0 i) = 0.
        { apply/colP => i. rewrite !mxE subr0 big1 // => j _. by rewrite !mxE mul0r. } by rewrite col_mx0. }
      rewrite /system /xl mul_block_col mul0mx addr0. apply/eqP. rewrite col_mx_eq0. apply/andP. split; apply/eqP/colP => i.
      - rewrite mxE [(const_mx 1 *m _) _ _]mxE big_ord1 [RHS]mxE [const_mx 1 _ _]mxE [const_mx (- _) _ _]mxE mul1r. have := E1 i. rewrite E2 mulr0 add0r. set b := _ * 2%:R => Q.
        have -> : ((\matrix_(i, k) ((\sum_j pts i j * pts k j) * 2%:R)) *m x^T) i 0 = b.
        { rewrite /b mxE mulr_suml. apply: eq_bigr => k _. rewrite !mxE. by rewrite mulrAC. }
        rewrite -[RHS]oppr0 -Q. kring.
      - rewrite mxE !mxE -[RHS]E2. apply: eq_bigr => k _. by rewrite !mxE mul1r. }
    case: (independent_kernel K p n pts ND L _ _ S) => X M. rewrite -[v]trmxK [v^T]xlE -/x -/mu.
    have Z : mu = 0. { move/eqP: M. rewrite oppr_eq0 /c big1. - by rewrite add0r => /eqP. - move=> k _. by rewrite X mxE mulr0. }
    rewrite X Z. apply/eqP/matrixP => i j. rewrite !mxE. case: splitP => k _; by rewrite !mxE. }
  rewrite /circumcenter_barycentric_weighted. case E : (eigh _ _) => [v W]. rewrite /= in E. rewrite E in D.
  have Nz : forall j, v 0 j != 0 by move=> j; exact: (zero_eigen _ _ (v, W) j D U).
  have -> : [forall j, v 0 j != 0] by apply/forallP. eexists. split; [reflexivity|].
  set z := W *m _ *m _ *m _. have Ez : distances K p n pts w *m z = col_mx 0 (const_mx 1).
  { rewrite /z. have P := pinv_solves K _ _ v W GRing.inv (invmx (distances K p n pts w) *m col_mx 0 (const_mx 1)) D. rewrite !mulKVmx // in P. apply: P => j. by rewrite (negbTE (Nz j)). }
  move: Ez. rewrite [z in X in X -> _]xlE. move/distances_rows => [E1 E2]. split; [exact: E2|]. set x := (usubmx z)^T in E1 E2 *. set mu := z _ _ in E1. set c := \sum_k (_ - w 0 k) * _ in E1.
  exists (\sum_j point K p n pts x j ^+ 2 - (c + mu)). move=> i. rewrite power_expand. have := E1 i. rewrite E2 mulr1.
  set a := _ - w 0 i. set b := _ * 2%:R. set g := \sum_j _ ^+ 2. move=> Q. have -> : g - (c + mu) = g - (c + mu) + (a - b + c + mu) by rewrite Q addr0. kring.
Qed.

(** ** Centres of points relative to their mean *)
Theorem C76_circumcenter_partial : forall ratio p n (batch : seq 'M[K]_(p, n)) q, (0 < p)%N -> honest p n [seq (centred K p n r, 0) | r <- batch] -> q \in batch ->
  (forall q' l l', q' \in batch -> eigen K (p + 1) (system K p n (centred K p n q')) l' -> eigen K (p + 1) (system K p n (centred K p n q)) l -> l <> 0 -> `|l'| <= ratio * `|l|) ->
  (exists y, centre K p n q 0 y) ->
  exists cs, circumcenter K eigh ratio p n batch = Util.Ok cs /\ size cs = size batch /\
    forall k, (k < size batch)%N -> nth q batch k = q -> exists r x, (forall i, \sum_j (nth 0 cs k 0 j - q i j) ^+ 2 = r) /\ \sum_i x i = 1 /\ forall j, nth 0 cs k 0 j = \sum_i x i * q i j.
Proof.
  move=> ratio p n batch q L H Iq Spread [y [Sy [r Ey]]].
  have Np : (p%:R : K) != 0 by rewrite pnatr_eq0 -lt0n.
  have Pc : forall x : 'rV[K]_p, \sum_i x 0 i = 1 -> forall j, point K p n (centred K p n q) x j = point K p n q x j - mean K p n q 0 j.
  { move=> x Sx j. rewrite /point -[X in _ = _ - X]mul1r -Sx mulr_suml -sumrB. apply: eq_bigr => i _. by rewrite mxE mulrBr. }
  have Iq' : (centred K p n q, 0) \in [seq (centred K p n r, 0 : 'rV[K]_p) | r <- batch] by apply/mapP; exists q.
  have Cy : exists y, centre K p n (centred K p n q) 0 y.
  { exists y. split=> //. exists r. move=> i. rewrite -(Ey i) /power. congr (_ - _). apply: eq_bigr => j _. congr (_ ^+ 2). rewrite Pc // [centred K p n q i j]mxE. kring. }
  case: (C76_centre_partial ratio p n _ (centred K p n q, 0) L H Iq' _ Cy).
  - move=> q' l l' /mapP [q'' I'' ->] /=. exact: Spread.
  - move=> xs [E [Sz Hk]]. rewrite /circumcenter E /=. eexists. split; [reflexivity|]. rewrite size_map in Sz. split; [by rewrite size_map size_zip Sz minnn|].
    move=> k Lk Ek. have := Hk k. rewrite size_map (nth_map q) // Ek => /(_ Lk erefl) /= [Sx [r' Er]].
    set x := nth 0 xs k in Sx Er *. exists r', (fun i => x 0 i).
    rewrite (nth_map (q, 0)). 2:{ by rewrite size_zip Sz minnn. } rewrite nth_zip //= -/x Ek.
    have Ec : forall j, (\row_j (\sum_i centred K p n q i j * x 0 i) + mean K p n q) 0 j = point K p n q x j.
    { move=> j. rewrite mxE [(\row_j _) _ _]mxE. have := Pc x Sx j. rewrite /point => Q. rewrite (eq_bigr (fun i => x 0 i * centred K p n q i j)). 2:{ move=> i _. exact: mulrC. } rewrite Q subrK. by []. }
    split; [|split; [exact: Sx|exact: Ec]].
    move=> i. rewrite -(Er i) /power [X in _ = _ - X]mxE subr0. apply: eq_bigr => j _. rewrite Ec Pc // [centred K p n q i j]mxE. congr (_ ^+ 2). kring.
Qed.

(** ** Size matters: a right triangle relative to its mean *)
Definition tri (s : K) : 'M[K]_(3, 2) := \matrix_(i, j) (s * nth 0 (nth [::] [:: [:: - (1 / 3%:R); - (1 / 3%:R)]; [:: 2%:R / 3%:R; - (1 / 3%:R)]; [:: - (1 / 3%:R); 2%:R / 3%:R]] i) j).
Definition quad (a b c d : K) : 'cV[K]_(3 + 1) := col_mx (\col_i nth 0 [:: a; b; c] i : 'cV_3) (const_mx d : 'cV_1).
Lemma tri_gram : forall s (i k : 'I_3), (\sum_j tri s i j * tri s k j) * 2%:R = s * s * (2%:R / 3%:R) * nth 0 (nth [::] [:: [:: 2%:R / 3%:R; - (1 / 3%:R); - (1 / 3%:R)]; [:: - (1 / 3%:R); 5%:R / 3%:R; - (4%:R / 3%:R)]; [:: - (1 / 3%:R); - (4%:R / 3%:R); 5%:R / 3%:R]] i) k.
Proof.
  move=> s i k. rewrite !big_ord_recl big_ord0 !mxE. case: i => [[|[|[|i]]] Li] //; case: k => [[|[|[|k]]] Lk] //=; kfield; knz.
Qed.
Definition gg (s : K) : K := s * s * (2%:R / 3%:R).
Lemma quad_eq : forall a b c d a' b' c' d', a = a' -> b = b' -> c = c' -> d = d' -> quad a b c d = quad a' b' c' d'.
Proof. by move=> a b c d a' b' c' d' -> -> -> ->. Qed.
Lemma tri_system : forall s a b c d, system K 3 2 (tri s) *m quad a b c d =
  quad (gg s * (2%:R * a - b - c) / 3%:R + d) (gg s * (- a + 5%:R * b - 4%:R * c) / 3%:R + d) (gg s * (- a - 4%:R * b + 5%:R * c) / 3%:R + d) (a + b + c).
Proof.
  move=> s a b c d. rewrite /system /quad mul_block_col mul0mx addr0. congr col_mx; apply/colP => i.
  - rewrite mxE [(const_mx 1 *m _) _ _]mxE big_ord1 [X in _ + X * _]mxE [X in _ + _ * X]mxE mul1r mxE !big_ord_recl big_ord0.
    have G : forall k, (\matrix_(i, k) ((\sum_j tri s i j * tri s k j) * 2%:R)) i k = s * s * (2%:R / 3%:R) * nth 0 (nth [::] [:: [:: 2%:R / 3%:R; - (1 / 3%:R); - (1 / 3%:R)]; [:: - (1 / 3%:R); 5%:R / 3%:R; - (4%:R / 3%:R)]; [:: - (1 / 3%:R); - (4%:R / 3%:R); 5%:R / 3%:R]] i) k.
    { move=> k. by rewrite mxE tri_gram. }
    rewrite !G !mxE /gg. case: i {G} => [[|[|[|i]]] Li] //=; kfield; knz.
  - rewrite mxE !big_ord_recl big_ord0 !mxE /=. kring.
Qed.
Lemma tri_rhs : forall s, rhs K 3 2 (tri s) 0 = quad (gg s / 3%:R) (gg s * 5%:R / 6%:R) (gg s * 5%:R / 6%:R) 1.
Proof.
  move=> s. have N6 : (6%:R : K) <> 0 by apply/eqP; rewrite pnatr_eq0. rewrite /rhs /quad. congr col_mx; apply/colP => i.
  - rewrite !mxE subr0 !big_ord_recl big_ord0 !mxE /gg. case: i => [[|[|[|i]]] Li] //=; kfield; knz.
Qed.
Lemma scale_quad : forall k a b c d, k *: quad a b c d = quad (k * a) (k * b) (k * c) (k * d).
Proof.
  move=> k a b c d. rewrite /quad scale_col_mx. congr col_mx; apply/colP => i; rewrite !mxE //. by case: i => [[|[|[|i]]] Li].
Qed.
Lemma add_quad : forall a b c d a' b' c' d', quad a b c d + quad a' b' c' d' = quad (a + a') (b + b') (c + c') (d + d').
Proof.
  move=> a b c d a' b' c' d'. rewrite /quad add_col_mx. congr col_mx; apply/colP => i; rewrite !mxE //. by case: i => [[|[|[|i]]] Li].
Qed.
Lemma quad_entry : forall a b c d (i : 'I_3), quad a b c d (lshift 1 i) 0 = nth 0 [:: a; b; c] i.
Proof. move=> a b c d i. by rewrite /quad col_mxEu mxE. Qed.
Lemma quad_last : forall a b c d, quad a b c d (rshift 3 ord0) 0 = d.
Proof. move=> a b c d. by rewrite /quad col_mxEd mxE. Qed.
Lemma quadE : forall u : 'cV[K]_(3 + 1), exists a b c d, u = quad a b c d.
Proof.
  move=> u. exists (u (lshift 1 ord0) 0), (u (lshift 1 (lift ord0 ord0)) 0), (u (lshift 1 (lift ord0 (lift ord0 ord0))) 0), (u (rshift 3 ord0) 0).
  rewrite -[LHS]vsubmxK /quad. congr col_mx; apply/colP => i; rewrite !mxE.
  - case: i => [[|[|[|i]]] Li] //=; congr (u _ _); apply: val_inj => //.
  - by rewrite [i]ord1.
Qed.
Lemma dot_quad : forall a b c d a' b' c' d', (quad a b c d)^T *m quad a' b' c' d' = 0 -> a * a' + b * b' + c * c' + d * d' = 0.
Proof.
  move=> a b c d a' b' c' d'. rewrite /quad tr_col_mx mul_row_col => /(congr1 (fun M : 'M_1 => M 0 0)). rewrite mxE [RHS]mxE => Q. rewrite -[RHS]Q !mxE !big_ord_recl !big_ord0 !mxE /=. kring.
Qed.
Definition root3 : K := Num.sqrt 3%:R.
Lemma root3_sq : root3 * root3 = 3%:R. Proof. rewrite -expr2. apply: sqr_sqrtr. exact: ler0n. Qed.
Lemma root3_gt : 0 < root3. Proof. by rewrite sqrtr_gt0 ltr0n. Qed.
Lemma tri_vectors : forall s, let A := system K 3 2 (tri s) in
  A *m quad 1 1 1 root3 = root3 *: quad 1 1 1 root3 /\ A *m quad 1 1 1 (- root3) = (- root3) *: quad 1 1 1 (- root3) /\
  A *m quad (- 2%:R) 1 1 0 = gg s *: quad (- 2%:R) 1 1 0 /\ A *m quad 0 1 (- 1) 0 = (gg s * 3%:R) *: quad 0 1 (- 1) 0.
Proof.
  move=> s A. split; [|split; [|split]]; rewrite tri_system scale_quad; apply: quad_eq; rewrite ?mulrNN ?root3_sq; try kring; kfield; knz.
Qed.
Lemma tri_eigen : forall s l, decomposes K (3 + 1) (system K 3 2 (tri s)) (eigh (3 + 1) (system K 3 2 (tri s))) -> eigen K (3 + 1) (system K 3 2 (tri s)) l ->
  l = root3 \/ l = - root3 \/ l = gg s \/ l = gg s * 3%:R.
Proof.
  move=> s l D [u]. case: (quadE u) => a [b [c [d ->]]] Nu E. case: (tri_vectors s) => V1 [V2 [V3 V4]].
  case: (eqVneq l root3) => [->|/eqP N1]; [by left|]. case: (eqVneq l (- root3)) => [->|/eqP N2]; [by right; left|].
  case: (eqVneq l (gg s)) => [->|/eqP N3']; [by right; right; left|]. case: (eqVneq l (gg s * 3%:R)) => [->|/eqP N4]; [by right; right; right|]. exfalso.
  have := dot_quad _ _ _ _ _ _ _ _ (eigen_sym K _ _ _ _ _ _ _ D V1 E N1). have := dot_quad _ _ _ _ _ _ _ _ (eigen_sym K _ _ _ _ _ _ _ D V2 E N2).
  have := dot_quad _ _ _ _ _ _ _ _ (eigen_sym K _ _ _ _ _ _ _ D V3 E N3'). have := dot_quad _ _ _ _ _ _ _ _ (eigen_sym K _ _ _ _ _ _ _ D V4 E N4).
  move=> Q4 Q3 Q2 Q1. case/negP: Nu. have T2 : (2%:R : K) != 0 by rewrite pnatr_eq0. have T3 : (3%:R : K) != 0 by rewrite pnatr_eq0.
  have Bc : b = c. { apply/eqP. rewrite -subr_eq0. apply/eqP. rewrite -[RHS]Q4. kring. }
  have Ab : a = c. { apply/eqP. rewrite -subr_eq0 -(mulrI_eq0 _ (mulfI T2)) -oppr_eq0. apply/eqP. rewrite -[RHS]Q3 Bc. kring. }
  have C0 : c = 0. { apply/eqP. rewrite -(mulrI_eq0 _ (mulfI T3)) -(mulrI_eq0 _ (mulfI T2)). apply/eqP. have -> : 2%:R * (3%:R * c) = (1 * a + 1 * b + 1 * c + root3 * d) + (1 * a + 1 * b + 1 * c + - root3 * d) by rewrite Ab Bc; kring. by rewrite Q1 Q2 addr0. }
  have D0 : d = 0. { apply/eqP. rewrite -(mulrI_eq0 _ (mulfI (lt0r_neq0 root3_gt))). apply/eqP. rewrite -[RHS]Q1 Ab Bc C0. kring. }
  rewrite Ab Bc C0 D0. apply/eqP/matrixP => i j. rewrite [RHS]mxE ord1. case: (splitP i) => k Ek.
  - have -> : i = lshift 1 k by apply: val_inj. rewrite quad_entry. by case: k {Ek} => [[|[|[|k]]] Lk].
  - have -> : i = rshift 3 ord0 by apply: val_inj; rewrite /= Ek [k]ord1. by rewrite quad_last.
Qed.

(** The coordinates of the centre of the triangle with legs of length s: 0, 1/2, 1/2 - unless the triangle is small or
    large. *)
Theorem C76_triangle : forall ratio s, 3%:R <= ratio -> s <> 0 -> honest 3 2 [:: (tri s, 0)] ->
  let g := s ^+ 2 * (2%:R / 3%:R) in let m := Num.max (Num.sqrt 3%:R) (g * 3%:R) in
  let a := if ratio * Num.sqrt 3%:R < m then 0 else 1 in let b := if ratio * g < m then 0 else 1 in
  circumcenter_barycentric K eigh ratio 3 2 [:: (tri s, 0)] =
  Util.Ok [:: \row_i nth 0 [:: a / 3%:R - b / 3%:R; a / 3%:R + b / 6%:R; a / 3%:R + b / 6%:R] i].
Proof.
  move=> ratio s R3 Ns H g m a b. have Eg : g = gg s by rewrite /g /gg expr2. have D := H _ (mem_head _ _). rewrite /= in D.
  have G0 : 0 < gg s. { rewrite -Eg /g. apply: mulr_gt0; [|apply: divr_gt0; by rewrite ltr0n]. rewrite exprn_even_gt0 //=. exact/eqP. }
  have T0 := root3_gt. have R0 : 0 < ratio by apply: lt_le_trans R3; rewrite ltr0n. have G3 : 0 < gg s * 3%:R by apply: mulr_gt0 => //; rewrite ltr0n.
  have M0 : 0 < m. { rewrite /m lt_maxr. by rewrite -/root3 T0. }
  have Lt : root3 <= m by rewrite /m le_maxr -/root3 lexx. have Lg : gg s * 3%:R <= m by rewrite /m le_maxr Eg lexx orbT.
  have Lg1 : gg s <= m. { apply: le_trans Lg. rewrite ler_pmulr // ler1n. by []. }
  case: (tri_vectors s) => V1 [V2 [V3 V4]].
  have Nq : forall x y z w, x <> 0 \/ y <> 0 -> quad x y z w != 0.
  { move=> x y z w Q. apply/negP => /eqP Z. have Z0 := congr1 (fun M : 'cV_(3 + 1) => M (lshift 1 ord0) 0) Z. have Z1 := congr1 (fun M : 'cV_(3 + 1) => M (lshift 1 (lift ord0 ord0)) 0) Z.
    rewrite !quad_entry !mxE /= in Z0 Z1. by case: Q. }
  have One : (1 : K) <> 0 by apply/eqP; exact: oner_neq0.
  have B : bound K eigh 3 2 [:: (tri s, 0)] = m^-1.
  { apply/eqP. rewrite eq_le. apply/andP. split.
    - have E1 : eigen K (3 + 1) (system K 3 2 (tri s)) root3 by exists (quad 1 1 1 root3) => //; apply: Nq; left.
      have E4 : eigen K (3 + 1) (system K 3 2 (tri s)) (gg s * 3%:R) by exists (quad 0 1 (- 1) 0) => //; apply: Nq; right.
      have := bound_le K eigh 3 2 [:: (tri s, 0)] H (tri s, 0) _ (mem_head _ _) E1. have := bound_le K eigh 3 2 [:: (tri s, 0)] H (tri s, 0) _ (mem_head _ _) E4.
      rewrite !normfV (gtr0_norm T0) (gtr0_norm G3) /m maxEle -/root3 Eg. move=> A4 A1. case: ifP => _; [apply: A4|apply: A1]; move/eqP; by rewrite gt_eqF.
    - case: (bound_attained K eigh 3 2 [:: (tri s, 0)] H isT) => // q [l [Iq [El [Nl ->]]]]. move: Iq El. rewrite in_cons in_nil orbF => /eqP -> /= El.
      have P : 0 < `|l| by rewrite normr_gt0; apply/eqP. rewrite normfV lef_pinv //. case: (tri_eigen s l D El) => [->|[->|[->|->]]]; by rewrite ?normrN gtr0_norm. }
  rewrite batch_unfold // B /= /barycentric_one. case E : (eigh (3 + 1) _) => [v W]. rewrite /= in E D. rewrite E in D. set f := snap K m^-1 ratio.
  have F : forall l, 0 < l -> f l = (if ratio * l < m then 0 else l^-1) /\ f (- l) = (if ratio * l < m then 0 else - l^-1).
  { move=> l L0. rewrite /f /snap oppr_eq0 gt_eqF // invrN normrN normfV (gtr0_norm L0). have -> : (m^-1 * ratio < l^-1) = (ratio * l < m); [|by []]. by rewrite mulrC ltr_pdivr_mulr // mulrC ltr_pdivl_mulr // mulrC. }
  have N2 : (2%:R : K) <> 0 by apply/eqP; rewrite pnatr_eq0. have N6 : (6%:R : K) <> 0 by apply/eqP; rewrite pnatr_eq0.
  have Nt : root3 <> 0 by move/eqP; rewrite gt_eqF. have Ng : gg s <> 0 by move/eqP; rewrite gt_eqF.
  have Eb : rhs K 3 2 (tri s) 0 = (gg s / 3%:R + (root3 * 2%:R)^-1) *: quad 1 1 1 root3 + (gg s / 3%:R - (root3 * 2%:R)^-1) *: quad 1 1 1 (- root3) + (gg s / 6%:R) *: quad (- 2%:R) 1 1 0.
  { rewrite tri_rhs !scale_quad !add_quad. apply: quad_eq; kfield; knz. }
  case: (F root3 T0) => F1 F2. case: (F (gg s) G0) => F3 _. rewrite /= in F1 F2 F3.
  rewrite Eb !mulmxDr -!scalemxAr (fun_eigen K _ _ v W f _ _ D V1) (fun_eigen K _ _ v W f _ _ D V2) (fun_eigen K _ _ v W f _ _ D V3) F1 F2 F3 !scalerA !scale_quad !add_quad.
  congr (Util.Ok [:: _]). apply/rowP => i. rewrite [LHS]mxE [LHS]mxE quad_entry [RHS]mxE /a /b Eg -/root3.
  have Ta : (if ratio * root3 < m then 0 else root3^-1) = (if ratio * root3 < m then 0 else 1) * root3^-1 by case: ifP => _; rewrite ?mul0r ?mul1r.
  have Ta' : (if ratio * root3 < m then 0 else - root3^-1) = (if ratio * root3 < m then 0 else 1) * - root3^-1 by case: ifP => _; rewrite ?mul0r ?mul1r.
  have Tb : (if ratio * gg s < m then 0 else (gg s)^-1) = (if ratio * gg s < m then 0 else 1) * (gg s)^-1 by case: ifP => _; rewrite ?mul0r ?mul1r.
  rewrite Ta Ta' Tb. set x := if _ then _ else _. set y := if _ then _ else _.
  have Q3 : (3%:R : K)^-1 = root3^-1 * root3^-1 by rewrite -invfM root3_sq.
  have Q3' : x / 3%:R = x * (root3^-1 * root3^-1) by rewrite Q3.
  case: i => [[|[|[|i]]] Li] //=; rewrite Q3'; kfield; knz.
Qed.

(** The same triangle at three sizes: the centre between about 1/300 and 300; the mean of the corners below 1/1000; numbers
    that do not add up to one above 1000. *)
Theorem C76_scale_refuted : forall s, s <> 0 -> honest 3 2 [:: (tri s, 0)] ->
  let row3 := fun l : seq K => \row_(i < 3) nth 0 l i in
  let out := circumcenter_barycentric K eigh (10%:R ^+ 6) 3 2 [:: (tri s, 0)] in
  let good := row3 [:: 0; 1 / 2%:R; 1 / 2%:R] in let mid := row3 [:: 1 / 3%:R; 1 / 3%:R; 1 / 3%:R] in let off := row3 [:: - (1 / 3%:R); 1 / 6%:R; 1 / 6%:R] in
  centre K 3 2 (tri s) 0 good /\ ~ centre K 3 2 (tri s) 0 mid /\ ~ centre K 3 2 (tri s) 0 off /\
  (10%:R ^- 5 <= s ^+ 2 <= 10%:R ^+ 5 -> out = Util.Ok [:: good]) /\ (s ^+ 2 <= 10%:R ^- 6 -> out = Util.Ok [:: mid]) /\ (10%:R ^+ 6 <= s ^+ 2 -> out = Util.Ok [:: off]).
Proof.
  move=> s Ns H row3 out good mid off.
  have S0 : 0 < s ^+ 2. { rewrite exprn_even_gt0 //=. exact/eqP. }
  have Pt : forall l j, point K 3 2 (tri s) (row3 l) j = nth 0 l 0 * tri s ord0 j + nth 0 l 1 * tri s (lift ord0 ord0) j + nth 0 l 2 * tri s (lift ord0 (lift ord0 ord0)) j.
  { move=> l j. rewrite /point !big_ord_recl big_ord0 /row3. rewrite ![(\row_i _) _ _]mxE /=. kring. }
  have Pw : forall l i, power K 3 2 (tri s) 0 (point K 3 2 (tri s) (row3 l)) i = (point K 3 2 (tri s) (row3 l) ord0 - tri s i ord0) ^+ 2 + (point K 3 2 (tri s) (row3 l) (lift ord0 ord0) - tri s i (lift ord0 ord0)) ^+ 2.
  { move=> l i. have Z : (0 : 'rV[K]_3) 0 i = 0 by rewrite mxE. rewrite /power Z subr0 !big_ord_recl big_ord0 addr0. by []. }
  have T1 : 1 <= (10%:R : K) by rewrite ler1n. have T0 : 0 < (10%:R : K) by rewrite ltr0n.
  have R3 : 3%:R <= (10%:R : K) ^+ 6. { apply: (@le_trans _ _ 10%:R). - by rewrite ler_nat. - by rewrite exprS ler_pmulr // exprn_ege1. }
  have P6 : 0 < (10%:R : K) ^+ 6 by exact: exprn_gt0.
  have Q0 := root3_gt. have Q1 : 1 < root3. { rewrite -[X in X < _]sqrtr1 ltr_sqrt ?ltr0n // ltr1n. by []. }
  have Q2 : root3 < 2%:R. { have -> : (2%:R : K) = Num.sqrt 4%:R. { have -> : (4%:R : K) = 2%:R ^+ 2 by rewrite -natrX. rewrite sqrtr_sqr ger0_norm // ler0n. by []. } rewrite ltr_sqrt ?ltr_nat ?ltr0n //. }
  have Tr := C76_triangle _ s R3 Ns H. cbv zeta in Tr.
  have E3 : s ^+ 2 * (2%:R / 3%:R) * 3%:R = s ^+ 2 * 2%:R. { rewrite -mulrA divfK //. apply/eqP. exact: N3. }
  have T2 : 2%:R <= (10%:R : K) by rewrite ler_nat. have Z2 : 0 < (2%:R : K) by rewrite ltr0n. have Z3 : 0 < (3%:R : K) by rewrite ltr0n.
  have Te : 10%:R ^+ 6 = 10%:R ^+ 5 * 10%:R :> K by rewrite exprSr.
  set t := (10%:R : K) ^+ 6 in R3 P6 Tr Te *. set e := s ^+ 2 * (2%:R / 3%:R) in E3 Tr *.
  have Tr2 : t <= t * root3 by rewrite ler_pmulr // ltW.
  have A : s ^+ 2 <= 10%:R ^+ 5 -> (t * Num.sqrt 3%:R < Num.max (Num.sqrt 3%:R) (e * 3%:R)) = false.
  { move=> L. apply: negbTE. rewrite -leNgt E3 -/root3 le_maxl. apply/andP; split.
    - rewrite ler_pmull //. apply: le_trans R3. by rewrite ler1n.
    - apply: le_trans Tr2. rewrite Te. apply: ler_pmul => //; exact: ltW. }
  have B : 3%:R <= t * s ^+ 2 -> (t * e < Num.max (Num.sqrt 3%:R) (e * 3%:R)) = false.
  { move=> L. have E0 : 0 < e by rewrite /e; apply: mulr_gt0 => //; apply: divr_gt0. apply: negbTE. rewrite -leNgt -/root3 le_maxl. apply/andP; split; [|by rewrite mulrC ler_pmul2r].
    apply: le_trans (ltW Q2) _. rewrite -(ler_pmul2r Z3) -mulrA E3 mulrA mulrC. by rewrite ler_pmul2r. }
  split; [|split; [|split; [|split; [|split]]]].
  - split. { rewrite /good /row3 !big_ord_recl big_ord0 !mxE /=. kfield; knz. }
    exists (s ^+ 2 / 2%:R). move=> i. rewrite Pw !Pt /= !mxE /=. case: i => [[|[|[|i]]] Li] //=; kfield; knz.
  - case=> _ [r Er]. have := Er ord0. rewrite -(Er (lift ord0 ord0)) !Pw !Pt !mxE /= => Q. move: S0. suff -> : s ^+ 2 = 0 by rewrite ltxx.
    apply: (@mulIf _ (1 / 3%:R)). { rewrite div1r invr_eq0. by rewrite pnatr_eq0. } rewrite mul0r.
    apply/eqP. rewrite -oppr_eq0. apply/eqP. move/eqP: Q. rewrite -subr_eq0 => /eqP Q. rewrite -[RHS]Q. kfield; knz.
  - case=> Q _. move: Q. rewrite /off /row3 !big_ord_recl big_ord0 !mxE /= => Q. have : (1 : K) <> 0 by apply/eqP; exact: oner_neq0. apply. rewrite -[LHS]Q. kfield; knz.
  - move=> /andP [L1 L2]. rewrite /out Tr. congr (Util.Ok [:: _]). rewrite A // B.
    2:{ apply: (@le_trans _ _ (t * 10%:R ^- 5)); [|by rewrite ler_pmul2l]. rewrite Te mulrAC mulfV ?mul1r ?ler_nat //. apply: expf_neq0. exact: lt0r_neq0. }
    apply/rowP => i. rewrite !mxE. case: i => [[|[|[|i]]] Li] //=; kfield; knz.
  - move=> L. rewrite /out Tr. congr (Util.Ok [:: _]). rewrite A. 2:{ apply: le_trans L _. apply: (@le_trans _ _ 1); [|exact: exprn_ege1]. rewrite invf_le1 //. exact: exprn_ege1. } rewrite ifT.
    2:{ rewrite lt_maxr -/root3. apply/orP; left. apply: lt_trans Q1. rewrite -(ltr_pmul2r Z3) -mulrA E3 mul1r mulrA. apply: (@le_lt_trans _ _ (1 * 2%:R)); [|by rewrite mul1r ltr_nat].
        rewrite ler_pmul2r //. have -> : 1 = t * t^-1 by rewrite mulfV // lt0r_neq0. by rewrite ler_pmul2l. }
    apply/rowP => i. rewrite !mxE. case: i => [[|[|[|i]]] Li] //=; kfield; knz.
  - move=> L. rewrite /out Tr. congr (Util.Ok [:: _]). rewrite ifT.
    2:{ rewrite lt_maxr -/root3 E3. apply/orP; right. apply: (@lt_le_trans _ _ (t * 2%:R)); [by rewrite ltr_pmul2l|by rewrite ler_pmul2r]. }
    rewrite B. 2:{ apply: le_trans R3 _. rewrite ler_pmulr //. apply: le_trans L. exact: exprn_ege1. }
    apply/rowP => i. rewrite !mxE. case: i => [[|[|[|i]]] Li] //=; kfield; knz.
Qed.

(** Every batch is computed correctly with a large enough ratio: the condition of the first theorem can be met. *)
Theorem C76_ratio : forall p n (batch : seq ('M[K]_(p, n) * 'rV[K]_p)), (0 < p)%N -> batch <> [::] -> honest p n batch ->
  (forall q, q \in batch -> ~ dependent K p n q.1) ->
  exists r0, forall ratio, r0 <= ratio -> exists xs, circumcenter_barycentric K eigh ratio p n batch = Util.Ok xs /\ size xs = size batch /\
    forall k q, (k < size batch)%N -> nth q batch k = q -> centre K p n q.1 q.2 (nth 0 xs k).
Proof.
  move=> p n batch L NB H I. pose ev (q : 'M[K]_(p, n) * 'rV[K]_p) := (eigh (p + 1) (system K p n q.1)).1.
  pose S := \sum_(q <- batch) \sum_j (`|ev q 0 j| + `|(ev q 0 j)^-1|).
  have T0 : forall q j, 0 <= `|ev q 0 j| + `|(ev q 0 j)^-1| by move=> q j; apply: addr_ge0.
  have Le : forall q j, q \in batch -> `|ev q 0 j| + `|(ev q 0 j)^-1| <= S.
  { move=> q j Iq. rewrite /S (big_rem q) //= (bigD1 j) //= -addrA ler_addl. apply: addr_ge0; [|apply: sumr_ge0 => q' _]; exact: sumr_ge0. }
  exists (S ^+ 2) => ratio LR.
  have Sp : forall q q' l l', q \in batch -> q' \in batch -> eigen K (p + 1) (system K p n q'.1) l' -> eigen K (p + 1) (system K p n q.1) l -> l <> 0 -> `|l'| <= ratio * `|l|.
  { move=> q q' l l' Iq Iq' E' E Nl.
    have [j Ej] : exists j, ev q 0 j = l by exact: (eig_listed K _ _ _ _ (H q Iq) E).
    have [j' Ej'] : exists j, ev q' 0 j = l' by exact: (eig_listed K _ _ _ _ (H q' Iq') E').
    have L1 : `|l'| <= S. { apply: le_trans (Le q' j' Iq'). rewrite Ej' ler_addl. exact: normr_ge0. }
    have L2 : `|l^-1| <= S. { apply: le_trans (Le q j Iq). rewrite Ej ler_addr. exact: normr_ge0. }
    have P : 0 < `|l| by rewrite normr_gt0; apply/eqP. rewrite normfV in L2.
    apply: le_trans L1 _. have S0 : 0 <= S by apply: le_trans L2; rewrite invr_ge0 ltW.
    apply: (@le_trans _ _ (S ^+ 2 * `|l|)); [|by rewrite ler_pmul2r].
    rewrite expr2 -mulrA ler_pemulr //. by rewrite -ler_pdivr_mulr // div1r. }
  case: batch NB H I S Le LR Sp => [|q0 b] // NB H I S Le LR Sp.
  case: (C76_independent p n q0.1 q0.2 L (I _ (mem_head _ _))) => y0 [C0 _].
  case: (C76_centre_partial ratio p n _ q0 L H (mem_head _ _) (fun q' l l' I' => Sp q0 q' l l' (mem_head _ _) I') (ex_intro _ y0 C0)) => xs [E [Sz _]].
  exists xs. split; [|split] => // k q Lk Ek. have Iq : q \in q0 :: b by rewrite -Ek mem_nth.
  case: (C76_independent p n q.1 q.2 L (I _ Iq)) => y [C _].
  case: (C76_centre_partial ratio p n _ q L H Iq (fun q' l l' I' => Sp q q' l l' Iq I') (ex_intro _ y C)) => xs' [E' [_ A]].
  rewrite E in E'. case: E' => ->. exact: A.
Qed.
End C76.

(** A function that keeps the promise for every batch exists: [honest] is never a condition on the simplices. *)
Theorem C76_oracle : forall K : rcfType, exists eigh : forall N, 'M[K]_N -> 'rV[K]_N * 'M[K]_N,
  (forall N (A : 'M[K]_N), A^T = A -> decomposes K N A (eigh N A)) /\ forall p n batch, honest K eigh p n batch.
Proof.
  move=> K.
  have E : forall N (A : 'M[K]_N), exists vw : 'rV[K]_N * 'M[K]_N, (A^T == A) ==> ((A == vw.2 *m diag_mx vw.1 *m vw.2^T) && (vw.2 *m vw.2^T == 1%:M)).
  { move=> N A. case: eqP => [/(spectral K) [vw [D O]]|_]; [|by exists (0, 0)]. exists vw. by rewrite implyTb {1}D O !eqxx. }
  exists (fun N A => xchoose (E N A)).
  have P : forall N (A : 'M[K]_N), A^T = A -> decomposes K N A (xchoose (E N A)).
  { move=> N A T. have := xchooseP (E N A). move/implyP => Q. have : A^T == A by apply/eqP. move/Q => /andP [/eqP D /eqP O]. by split. }
  split => // p n batch q _. apply: P. exact: system_sym.
Qed.

Section C76_examples.
Variable K : rcfType.
Add Field Kg : (K_field K).
Ltac kring := kprep K; ring.
Ltac kfield := kprep K; field.
(** The corners of the triangle are in general position, so C76_ratio applies to a batch of triangles of any sizes. *)
Example C76_ratio_example : forall (s s' : K), s <> 0 -> s' <> 0 -> exists eigh r0, exists2 xs : seq 'rV[K]_3,
  circumcenter_barycentric K eigh r0 3 2 [:: (tri K s, 0); (tri K s', 0)] = Util.Ok xs &
  centre K 3 2 (tri K s) 0 (nth 0 xs 0) /\ centre K 3 2 (tri K s') 0 (nth 0 xs 1).
Proof.
  have ND : forall s, s <> 0 -> ~ dependent K 3 2 (tri K s).
  { move=> s Ns [c [[i Ni] [S0 SE]]].
    have N3 := N3 K. have E0 := SE ord0. have E1 := SE (lift ord0 ord0). rewrite !big_ord_recl !big_ord0 !mxE /= in S0 E0 E1.
    have Z1 : c (lift ord0 ord0) = 0. { apply: (@mulIf _ s). { exact/eqP. } rewrite mul0r -[RHS]E0. apply/eqP. rewrite -subr_eq0. apply/eqP. have Q := congr1 (fun x => s / 3%:R * x) S0. rewrite mulr0 /= in Q. rewrite -[RHS]Q. kfield. exact: N3. }
    have Z2 : c (lift ord0 (lift ord0 ord0)) = 0. { apply: (@mulIf _ s). { exact/eqP. } rewrite mul0r -[RHS]E1. apply/eqP. rewrite -subr_eq0. apply/eqP. have Q := congr1 (fun x => s / 3%:R * x) S0. rewrite mulr0 /= in Q. rewrite -[RHS]Q. kfield. exact: N3. }
    rewrite Z1 Z2 !addr0 in S0. apply: Ni. case: i => [[|[|[|i]]] Li] //; [rewrite -[RHS]S0|rewrite -[RHS]Z1|rewrite -[RHS]Z2]; congr c; exact: val_inj. }
  move=> s s' Ns Ns'. case: (C76_oracle K) => eigh [_ H]. exists eigh.
  case: (C76_ratio K eigh 3 2 [:: (tri K s, 0); (tri K s', 0)]) => //.
  { move=> q. rewrite !inE => /orP [/eqP -> | /eqP ->]; exact: ND. }
  move=> r0 A. case: (A r0 (lexx _)) => xs [E [_ B]]. exists r0, xs => //. split; [exact: (B 0%N (tri K s, 0))|exact: (B 1%N (tri K s', 0))].
Qed.
(** The hypotheses of the scale theorem hold at every size but zero; the vertex (30, 40) gets coordinate one half. *)
Example C76_scale_example : exists eigh, forall s, honest K eigh 3 2 [:: (tri K s, 0)].
Proof. case: (C76_oracle K) => eigh [_ H]. exists eigh => s. exact: H. Qed.
Example C76_far_example : exists eigh, let pts := \matrix_(i, j) nth 0 [:: 30%:R; 40%:R] j : 'M[K]_(1, 2) in
  circumcenter_barycentric K eigh (10%:R ^+ 6) 1 2 [:: (pts, 0)] = Util.Ok [:: const_mx (1 / 2%:R)].
Proof.
  case: (C76_oracle K) => eigh [_ H]. exists eigh => pts. case: (C76_far_vertex_refuted K eigh 2 pts) => //.
  rewrite !big_ord_recl big_ord0 !mxE /= addr0 -!natrX -natrD -natrM ler_nat. by [].
Qed.
End C76_examples.

Print Assumptions C76_centre_partial.
Print Assumptions C76_independent.
Print Assumptions C76_vertices.
Print Assumptions C76_far_vertex_refuted.
Print Assumptions C76_batch_refuted.
Print Assumptions C76_weighted.
Print Assumptions C76_circumcenter_partial.
Print Assumptions C76_triangle.
Print Assumptions C76_scale_refuted.
Print Assumptions C76_ratio.
Print Assumptions C76_oracle.
