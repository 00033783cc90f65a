(** Circumcentres: functions of symmetric matrices, and what the bordered systems say. *)
From mathcomp Require Import all_ssreflect all_algebra.
From Coq Require Import Ring Field.
From Verif Require Import CircModel CircSpec GeoSpec GeoProofs GeoRing.
From Verif Require Util.
Import Order.TTheory GRing.Theory Num.Theory.
Local Open Scope ring_scope.

Section Circ.
Variable K : rcfType.
Add Field Kf : (K_field K).
Ltac kring := kprep K; ring.
Ltac kfield := kprep K; field.

(** ** Eigenvalues *)
Lemma orth : forall N (W : 'M[K]_N), W *m W^T = 1%:M -> W^T *m W = 1%:M.
Proof. move=> N W E. exact: mulmx1C. Qed.

Lemma diag_mul : forall N (d : 'rV[K]_N) (y : 'cV[K]_N) j, (diag_mx d *m y) j 0 = d 0 j * y j 0.
Proof. move=> N d y j. by rewrite mul_diag_mx !mxE. Qed.

Lemma fun_eigen : forall N (A : 'M[K]_N) v W (f : K -> K) (u : 'cV[K]_N) l, decomposes K N A (v, W) -> A *m u = l *: u ->
  W *m diag_mx (\row_j f (v 0 j)) *m W^T *m u = f l *: u.
Proof.
  move=> N A v W f u l [/= EA O] Eu. pose y := W^T *m u.
  have Ey : forall j, v 0 j * y j 0 = l * y j 0.
  { move=> j. have : diag_mx v *m y = l *: y.
    { rewrite /y -[LHS]mul1mx -(orth _ _ O) -mulmxA [W *m _]mulmxA [W *m _ *m _]mulmxA -EA Eu -scalemxAr. by []. }
    move/(congr1 (fun M : 'cV_N => M j 0)). by rewrite diag_mul [RHS]mxE. }
  rewrite -!mulmxA -/y. have -> : diag_mx (\row_j f (v 0 j)) *m y = f l *: y.
  { apply/colP => j. rewrite diag_mul [RHS]mxE mxE. have := Ey j. case: (eqVneq (y j 0) 0) => [->|N0]; [by rewrite !mulr0|].
    by move/(mulIf N0) => ->. }
  by rewrite -scalemxAr /y mulmxA O mul1mx.
Qed.

Lemma eig_only : forall N (A : 'M[K]_N) vw j, decomposes K N A vw -> eigen K N A (vw.1 0 j).
Proof.
  move=> N A [v W] j [/= EA O]. exists (col j W).
  - apply/negP => /eqP Z. have := orth _ _ O. move/(congr1 (fun M : 'M_N => M j j)). rewrite !mxE eqxx big1.
    + move/eqP. by rewrite eq_sym oner_eq0.
    + move=> k _. have := congr1 (fun M : 'cV_N => M k 0) Z. rewrite !mxE => ->. by rewrite mulr0.
  - rewrite EA colE -!mulmxA [W^T *m _]mulmxA (orth _ _ O) mul1mx scalemxAr. congr (_ *m _). apply/colP => k. rewrite diag_mul !mxE.
    case: (eqVneq k j) => [->|]; by rewrite // !mulr0.
Qed.
Lemma eig_listed : forall N (A : 'M[K]_N) vw l, decomposes K N A vw -> eigen K N A l -> exists j, vw.1 0 j = l.
Proof.
  move=> N A [v W] l D [u Nu Eu]. case: (D) => /= EA O.
  have : [exists j, v 0 j == l]. 2:{ move/existsP => [j /eqP E]. by exists j. }
  rewrite -[X in is_true X]negbK negb_exists. apply/negP => /forallP F. case/negP: Nu.
  have := fun_eigen N A v W (fun x => (x == l)%:R) u l D Eu. rewrite eqxx scale1r => <-.
  have -> : (\row_j (v 0 j == l)%:R : 'rV[K]_N) = 0. { apply/rowP => j. by rewrite !mxE (negbTE (F j)). }
  by rewrite linear0 mulmx0 !mul0mx.
Qed.
Lemma eigen_sym : forall N (A : 'M[K]_N) vw (e u : 'cV[K]_N) l m, decomposes K N A vw -> A *m e = m *: e -> A *m u = l *: u -> l <> m -> e^T *m u = 0.
Proof.
  move=> N A [v W] e u l m [/= EA O] Ee Eu D. have TA : A^T = A. { by rewrite EA !trmx_mul trmxK tr_diag_mx mulmxA. }
  have : (l - m) *: (e^T *m u) = 0.
  { rewrite scalerBl [l *: _]scalemxAr -Eu mulmxA -{1}TA -trmx_mul Ee linearZ /= -scalemxAl subrr. by []. }
  move/eqP. rewrite scaler_eq0 subr_eq0. by case/orP => /eqP.
Qed.

(** ** The threshold *)
Lemma minimum_in : forall l : seq K, l != [::] -> minimum K l \in l.
Proof.
  elim=> [//|x [|y l] IH _]; [by rewrite /= mem_head|]. rewrite /=. have M := IH isT. move: M. rewrite /=. set r := match l with [::] => _ | _ => _ end.
  move=> M. rewrite minEle. case: ifP => _; [by rewrite mem_head|]. by rewrite in_cons M orbT.
Qed.
Lemma minimum_le : forall (l : seq K) x, x \in l -> minimum K l <= x.
Proof.
  elim=> [//|y [|z l] IH] x.
  - by rewrite in_cons in_nil orbF /= => /eqP ->.
  - rewrite in_cons. change (minimum K [:: y, z & l]) with (Num.min y (minimum K (z :: l))). case/orP => [/eqP ->|/IH Lx].
    + rewrite minEle. case: (leP y (minimum K (z :: l))) => //; exact: ltW.
    + rewrite minEle. case: (leP y (minimum K (z :: l))) => //. move=> Ly. exact: (le_trans Ly).
Qed.

Section Bound.
Variable eigh : forall N, 'M[K]_N -> 'rV[K]_N * 'M[K]_N.
Variables (p n : nat) (batch : seq ('M[K]_(p, n) * 'rV[K]_p)).
Hypothesis DEC : forall q, q \in batch -> decomposes K (p + 1) (system K p n q.1) (eigh (p + 1) (system K p n q.1)).
Definition bound := minimum K (flatten [seq recips K (p + 1) (eigh (p + 1) (system K p n q.1)).1 | q <- batch]).

Lemma recip_in : forall q l, q \in batch -> eigen K (p + 1) (system K p n q.1) l -> l <> 0 -> `|l^-1| \in flatten [seq recips K (p + 1) (eigh (p + 1) (system K p n q.1)).1 | q <- batch].
Proof.
  move=> q l Iq El Nl. case: (eig_listed _ _ _ _ (DEC q Iq) El) => j Ej. apply/flattenP. exists (recips K (p + 1) (eigh (p + 1) (system K p n q.1)).1).
  - by apply/mapP; exists q.
  - apply/mapP. exists j; [|by rewrite Ej]. rewrite mem_filter mem_enum andbT Ej. exact/eqP.
Qed.
Lemma bound_le : forall q l, q \in batch -> eigen K (p + 1) (system K p n q.1) l -> l <> 0 -> bound <= `|l^-1|.
Proof. move=> q l Iq El Nl. apply: minimum_le. exact: (recip_in q). Qed.
Lemma bound_from : forall x, x \in flatten [seq recips K (p + 1) (eigh (p + 1) (system K p n q.1)).1 | q <- batch] ->
  exists q l, q \in batch /\ eigen K (p + 1) (system K p n q.1) l /\ l <> 0 /\ x = `|l^-1|.
Proof.
  move=> x /flattenP [s /mapP [q Iq ->]] /mapP [j]. rewrite mem_filter => /andP [/eqP Nz _] ->.
  exists q, ((eigh (p + 1) (system K p n q.1)).1 0 j). split; [|split; [|split]] => //. exact: eig_only (DEC q Iq).
Qed.
Lemma system_neq0 : forall pts : 'M[K]_(p, n), (0 < p)%N -> system K p n pts <> 0.
Proof.
  move=> pts L E. have := congr1 (fun M : 'M_(p + 1) => M (lshift 1 (Ordinal L)) (rshift p ord0)) E. rewrite /system block_mxEur !mxE. move/eqP. by rewrite oner_eq0.
Qed.
Lemma bound_attained : (0 < p)%N -> batch <> [::] -> exists q l, q \in batch /\ eigen K (p + 1) (system K p n q.1) l /\ l <> 0 /\ bound = `|l^-1|.
Proof.
  move=> L NB. apply: bound_from. apply: minimum_in. case: batch NB DEC => [//|q b] _ D. apply/negP => /eqP Z. have Dq := D q (mem_head _ _).
  apply: (system_neq0 q.1 L). case: (Dq) => -> _. suff -> : (eigh (p + 1) (system K p n q.1)).1 = 0 by rewrite linear0 mulmx0 mul0mx.
  apply/rowP => j. rewrite [RHS]mxE. apply/eqP. apply: contraT => Nz.
  suff : `|((eigh (p + 1) (system K p n q.1)).1 0 j)^-1| \in flatten [seq recips K (p + 1) (eigh (p + 1) (system K p n q.1)).1 | q <- q :: b] by rewrite Z.
  apply/flattenP. exists (recips K (p + 1) (eigh (p + 1) (system K p n q.1)).1); [by rewrite /= mem_head|]. apply/mapP. exists j => //. by rewrite mem_filter mem_enum andbT.
Qed.
End Bound.

(** ** The systems *)
Definition xl (p : nat) (x : 'rV[K]_p) (mu : K) : 'cV[K]_(p + 1) := col_mx x^T (const_mx mu : 'cV_1).
Lemma system_rows : forall p n (pts : 'M[K]_(p, n)) w x mu, system K p n pts *m xl p x mu = rhs K p n pts w <->
  (forall i, (\sum_k (\sum_j pts i j * pts k j) * x 0 k) * 2%:R + mu = \sum_j pts i j * pts i j - w 0 i) /\ \sum_k x 0 k = 1.
Proof.
  move=> p n pts w x mu. rewrite /system /xl /rhs mul_block_col mul0mx addr0.
  have U : forall i, ((\matrix_(i, k) ((\sum_j pts i j * pts k j) * 2%:R)) *m x^T + (const_mx 1 : 'M_(p, 1)) *m (const_mx mu : 'cV_1)) i 0 =
    (\sum_k (\sum_j pts i j * pts k j) * x 0 k) * 2%:R + mu.
  { move=> i. rewrite mxE [(const_mx 1 *m _) _ _]mxE big_ord1 !mxE mul1r. congr (_ + _). rewrite mulr_suml. apply: eq_bigr => k _. rewrite !mxE. by rewrite mulrAC. }
  have D : ((const_mx 1 : 'M[K]_(1, p)) *m x^T) 0 0 = \sum_k x 0 k. { rewrite mxE. apply: eq_bigr => k _. by rewrite !mxE mul1r. }
  split.
  - move/eq_col_mx => [E1 E2]. split.
    + move=> i. rewrite -U E1 mxE. by [].
    + by rewrite -D E2 mxE.
  - case=> E1 E2. congr col_mx.
    + apply/colP => i. by rewrite U E1 mxE.
    + apply/colP => i. by rewrite !ord1 D E2 mxE.
Qed.
Lemma power_expand : forall p n (pts : 'M[K]_(p, n)) w x i,
  power K p n pts w (point K p n pts x) i =
  \sum_j point K p n pts x j ^+ 2 - (\sum_k (\sum_j pts i j * pts k j) * x 0 k) * 2%:R + (\sum_j pts i j * pts i j - w 0 i).
Proof.
  move=> p n pts w x i. rewrite /power addrA. congr (_ - _).
  have -> : \sum_k (\sum_j pts i j * pts k j) * x 0 k = \sum_j pts i j * point K p n pts x j.
  { rewrite (eq_bigr (fun k => \sum_j pts i j * pts k j * x 0 k)). 2:{ move=> k _. by rewrite mulr_suml. }
    rewrite exchange_big /=. apply: eq_bigr => j _. rewrite /point mulr_sumr. apply: eq_bigr => k _. by rewrite -mulrA [pts k j * _]mulrC. }
  rewrite mulr_suml -sumrB -big_split /=. apply: eq_bigr => j _. set c := point K p n pts x j. kring.
Qed.
Lemma centre_system : forall p n (pts : 'M[K]_(p, n)) w x, (exists mu, system K p n pts *m xl p x mu = rhs K p n pts w) <-> centre K p n pts w x.
Proof.
  move=> p n pts w x. split.
  - case=> mu /system_rows [E1 E2]. split=> //. exists (\sum_j point K p n pts x j ^+ 2 + mu). move=> i. rewrite power_expand -E1.
    set a := \sum_j _. set b := (\sum_k _) * _. kring.
  - case=> E2 [r Er]. exists (r - \sum_j point K p n pts x j ^+ 2). apply/system_rows. split=> // i. have := Er i. rewrite power_expand.
    set a := \sum_j _. set b := (\sum_k _) * _. move=> <-. set c := \sum_j _ - w 0 i. kring.
Qed.

(** ** The pseudo-inverse *)
Lemma pinv_solves : forall N (A : 'M[K]_N) v W (f : K -> K) (z : 'cV[K]_N), decomposes K N A (v, W) ->
  (forall j, f (v 0 j) = if v 0 j == 0 then 0 else (v 0 j)^-1) -> A *m (W *m diag_mx (\row_j f (v 0 j)) *m W^T *m (A *m z)) = A *m z.
Proof.
  move=> N A v W f z [/= EA O] F. pose y := W^T *m z. have O' := orth _ _ O.
  have AW : forall x : 'cV[K]_N, A *m (W *m x) = W *m (diag_mx v *m x).
  { move=> x. by rewrite EA -!mulmxA [W^T *m _]mulmxA O' mul1mx. }
  have -> : A *m z = W *m (diag_mx v *m y) by rewrite /y EA -!mulmxA.
  rewrite -!mulmxA [W^T *m _]mulmxA O' mul1mx AW. congr (W *m _). apply/colP => j. rewrite !diag_mul mxE F.
  case: (eqVneq (v 0 j) 0) => [->|N0]; [by rewrite !mul0r|]. by rewrite mulKf.
Qed.

(** Affinely independent corners have a circumcentre. *)
Lemma independent_kernel : forall p n (pts : 'M[K]_(p, n)), ~ dependent K p n pts -> (0 < p)%N -> forall x mu, system K p n pts *m xl p x mu = 0 -> x = 0 /\ mu = 0.
Proof.
  move=> p n pts ND L x mu E. pose i0 := Ordinal L.
  have [E1 E2] : (forall i, (\sum_k (\sum_j pts i j * pts k j) * x 0 k) * 2%:R + mu = 0) /\ \sum_k x 0 k = 0.
  { move: E. rewrite /system /xl mul_block_col mul0mx addr0 => /eqP; rewrite col_mx_eq0 => /andP [/eqP E1 /eqP E2]. split.
    - move=> i. have := congr1 (fun M : 'cV_p => M i 0) E1. rewrite !mxE big_ord1 !mxE mul1r => Q. rewrite -[RHS]Q. congr (_ + _). rewrite mulr_suml. apply: eq_bigr => k _. rewrite !mxE. by rewrite mulrAC.
    - have := congr1 (fun M : 'cV_1 => M 0 0) E2. rewrite !mxE => Q. rewrite -[RHS]Q. apply: eq_bigr => k _. by rewrite !mxE mul1r. }
  have P : \sum_j point K p n pts x j ^+ 2 = 0.
  { have : \sum_i x 0 i * ((\sum_k (\sum_j pts i j * pts k j) * x 0 k) * 2%:R + mu) = 0. { rewrite big1 // => i _. by rewrite E1 mulr0. }
    rewrite (eq_bigr (fun i => (x 0 i * \sum_k (\sum_j pts i j * pts k j) * x 0 k) * 2%:R + x 0 i * mu)). 2:{ move=> i _. by rewrite mulrDr mulrA. }
    rewrite big_split /= -!mulr_suml E2 mul0r addr0 => /eqP. rewrite mulf_eq0 pnatr_eq0 orbF => /eqP Q. rewrite -[RHS]Q.
    rewrite (eq_bigr (fun j => \sum_i \sum_k x 0 i * pts i j * (x 0 k * pts k j))).
    2:{ move=> j _. rewrite expr2 /point mulr_suml. apply: eq_bigr => i _. by rewrite mulr_sumr. }
    rewrite exchange_big /=. apply: eq_bigr => i _. rewrite exchange_big /= mulr_sumr. apply: eq_bigr => k _. rewrite mulr_suml mulr_sumr. apply: eq_bigr => j _. kring. }
  have Z : forall j, point K p n pts x j = 0.
  { move=> j. have /eqP := P. rewrite psumr_eq0. 2:{ move=> i _. exact: sqr_ge0. } move/allP/(_ j (mem_index_enum j)). by rewrite sqrf_eq0 => /eqP. }
  have X0 : x = 0.
  { apply/eqP. apply: contraT => Nx. case: ND. exists (fun i => x 0 i). split; [|split] => //.
    suff /existsP [i Hi] : [exists i, x 0 i != 0] by exists i; apply/eqP. rewrite -negb_forall. apply: contra Nx => /forallP F. apply/eqP/rowP => i. rewrite mxE. exact/eqP/F. }
  split=> //. have := E1 i0. rewrite X0 big1. { by rewrite mul0r add0r. } move=> k _. by rewrite mxE mulr0.
Qed.
Lemma system_sym : forall p n (pts : 'M[K]_(p, n)), (system K p n pts)^T = system K p n pts.
Proof.
  move=> p n pts. rewrite /system tr_block_mx trmx0 !trmx_const. congr block_mx. apply/matrixP => i k. rewrite !mxE. congr (_ * _). apply: eq_bigr => j _. exact: mulrC.
Qed.
Lemma system_unit : forall p n (pts : 'M[K]_(p, n)), ~ dependent K p n pts -> (0 < p)%N -> system K p n pts \in unitmx.
Proof.
  move=> p n pts ND L. rewrite unitmxE unitfE. apply/negP => /det0P [v Nv E]. case/negP: Nv.
  have E' : system K p n pts *m v^T = 0. { rewrite -[X in X *m _]system_sym -trmx_mul E trmx0. by []. }
  have V : v^T = xl p (lsubmx v) (v 0 (rshift p ord0)). { rewrite /xl -[v in LHS]hsubmxK tr_row_mx. congr col_mx. apply/colP => i. by rewrite !mxE ord1. }
  rewrite V in E'. case: (independent_kernel p n pts ND L _ _ E') => X M. rewrite -[v]trmxK V X M /xl trmx0.
  apply/eqP/matrixP => i j. rewrite !mxE. case: splitP => k _; by rewrite mxE.
Qed.
Lemma independent_centre : forall p n (pts : 'M[K]_(p, n)) w, ~ dependent K p n pts -> (0 < p)%N -> exists x, centre K p n pts w x /\ forall x', centre K p n pts w x' -> x' = x.
Proof.
  move=> p n pts w ND L. pose z := invmx (system K p n pts) *m rhs K p n pts w. have U := system_unit p n pts ND L.
  have V : z = xl p (usubmx z)^T (z (rshift p ord0) 0). { rewrite /xl trmxK -[z in LHS]vsubmxK. congr col_mx. apply/colP => i. by rewrite !mxE ord1. }
  exists (usubmx z)^T. split.
  - apply/centre_system. exists (z (rshift p ord0) 0). by rewrite -V /z mulKVmx.
  - move=> x' /centre_system [mu E]. have : xl p x' mu = z by rewrite /z -E mulKmx. rewrite /xl => <-. by rewrite col_mxKu trmxK.
Qed.

End Circ.
