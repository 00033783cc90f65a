(** Matrices with at least as many rows as columns have a singular value decomposition over an ordered field with square
    roots, so that the promise of numpy.linalg.svd can be kept. *)
From mathcomp Require Import all_ssreflect all_algebra.
From Verif Require Import CircSpec GeoProofs Spectral CircProofs NormSpec.
Import Order.TTheory GRing.Theory Num.Theory.
Local Open Scope ring_scope.

Section Svd.
Variable K : rcfType.
Definition sq (n : nat) (y : 'rV[K]_n) : K := \sum_j y 0 j * y 0 j.
Lemma sq_mx : forall n (y : 'rV[K]_n), y *m y^T = (sq n y)%:M.
Proof. move=> n y. apply/matrixP => a b. rewrite !ord1 [RHS]mxE eqxx mulr1n mxE. apply: eq_bigr => j _. by rewrite mxE. Qed.
Lemma sq_eq : forall n (y : 'rV[K]_n), (y *m y^T) 0 0 = sq n y.
Proof. move=> n y. by rewrite sq_mx mxE eqxx mulr1n. Qed.
Lemma sq_ge0 : forall n (y : 'rV[K]_n), 0 <= sq n y.
Proof. move=> n y. apply: sumr_ge0 => j _. rewrite -expr2. exact: sqr_ge0. Qed.
Lemma sq_0 : forall n (y : 'rV[K]_n), sq n y <= 0 -> y = 0.
Proof. move=> n y L. apply: sqsum_eq0. rewrite sq_mx. have -> : sq n y = 0 by apply/eqP; rewrite eq_le L sq_ge0. by rewrite raddf0. Qed.
Lemma sq_orth : forall n m (y : 'rV[K]_n) (Q : 'M[K]_(n, m)), Q *m Q^T = 1%:M -> sq m (y *m Q) = sq n y.
Proof. move=> n m y Q O. by rewrite -!sq_eq trmx_mul mulmxA -[y *m Q *m _]mulmxA O mulmx1. Qed.

Lemma top : forall p n (A : 'M[K]_(p.+1, n.+1)), exists s (u : 'rV[K]_p.+1) (w : 'rV[K]_n.+1),
  u *m u^T = 1%:M /\ w *m w^T = 1%:M /\ w *m A^T = s *: u /\ u *m A = s *: w /\ 0 <= s /\ forall y, sq _ (y *m A^T) <= s ^+ 2 * sq _ y.
Proof.
  move=> p n A. pose B := A^T *m A. have TB : B^T = B by rewrite /B trmx_mul trmxK.
  case: (spectral K _ B TB) => [[v W] [/= EB OW]]. have WO := orth K _ W OW.
  case: (@arg_maxP _ _ _ ord0 predT (v 0) isT) => j _ Mx. set l := v 0 j in Mx.
  pose w := row j W^T. have Ew : w = delta_mx 0 j *m W^T by rewrite /w rowE.
  have Uw : w *m w^T = 1%:M. { rewrite Ew trmx_mul trmxK mulmxA -[_ *m W^T *m W]mulmxA WO mulmx1 trmx_delta mul_delta_mx. apply/matrixP => a b. by rewrite !mxE !ord1. }
  have wB : w *m B = l *: w. { rewrite EB Ew !mulmxA -[_ *m W^T *m W]mulmxA WO mulmx1. rewrite scalemxAl. congr (_ *m _). apply/rowP => k. rewrite -rowE !mxE eqxx /=. by case: (eqVneq j k) => [_|N]; rewrite ?mulr1n ?mulr1 ?mulr0n ?mulr0. }
  have Ray : forall y : 'rV[K]_n.+1, sq _ (y *m A^T) <= l * sq _ y.
  { move=> y. have -> : sq _ y = sq _ (y *m W) by rewrite sq_orth.
    have -> : sq _ (y *m A^T) = \sum_k v 0 k * ((y *m W) 0 k * (y *m W) 0 k).
    { rewrite -sq_eq trmx_mul trmxK mulmxA -[y *m A^T *m A]mulmxA -/B EB !mulmxA -[_ *m W^T *m y^T]mulmxA -trmx_mul mxE. apply: eq_bigr => k _. rewrite mul_mx_diag [X in X * _]mxE [X in _ * X]mxE. rewrite mulrAC mulrC. by []. }
    rewrite /sq mulr_sumr. apply: ler_sum => k _. apply: ler_wpmul2r; [rewrite -expr2; exact: sqr_ge0|exact: Mx]. }
  have L0 : 0 <= l. { have := Ray w. have -> : sq _ w = 1. { by rewrite -sq_eq Uw mxE eqxx. } rewrite mulr1. apply: le_trans. exact: sq_ge0. }
  pose s := Num.sqrt l. have Es : s ^+ 2 = l by rewrite sqr_sqrtr. exists s.
  case: (eqVneq l 0) => [Z|N].
  - have A0 : A = 0. { rewrite -[A]trmxK -[0]trmxK. congr trmx. apply/row_matrixP => i. rewrite !linear0 rowE. apply: sq_0. apply: le_trans (Ray _) _. by rewrite Z mul0r. }
    exists (delta_mx 0 0), w. have s0 : s = 0 by rewrite /s Z sqrtr0. rewrite A0 trmx0 !mulmx0 s0 !scale0r. split; [|split; [|split; [|split; [|split]]]] => //.
    + rewrite trmx_delta mul_delta_mx. apply/matrixP => a b. by rewrite !mxE !ord1.
    + move=> y. rewrite expr2 mulr0 mul0r mulmx0 /sq big1 // => k _. by rewrite mxE mulr0.
  - have s0 : s != 0. { rewrite -sqrf_eq0 Es. by []. }
    exists (s^-1 *: (w *m A^T)), w. split; [|split; [|split; [|split; [|split]]]] => //.
    + rewrite linearZ /= -scalemxAl -scalemxAr scalerA trmx_mul trmxK mulmxA -[w *m A^T *m A]mulmxA -/B wB -scalemxAl Uw -Es scalerA -invfM -expr2 mulVf ?scale1r // Es. by [].
    + by rewrite scalerA mulfV // scale1r.
    + rewrite -scalemxAl -mulmxA -/B wB -Es scalerA expr2 mulrA mulVf // mul1r. by [].
    + exact: sqrtr_ge0.
    + move=> y. rewrite Es. exact: Ray.
Qed.

Theorem svd_exists : forall n p (A : 'M[K]_(p, n)), (n <= p)%N -> exists r, svd_of K p n A r.
Proof.
  elim=> [|n IH] p A L.
  - exists (0, 0, 1%:M). split; [|split; [|split; [|split]]]; try (by case); apply/matrixP => i j; try (by case: j).
  - case: p A L => [|p] // A L. case: (top p n A) => s [u [w [Uu [Uw [wA [uA [S0 Ray]]]]]]].
    have Ue : forall N, (delta_mx 0 0 : 'rV[K]_N.+1) *m (delta_mx 0 0)^T = 1%:M. { move=> N. rewrite trmx_delta mul_delta_mx. apply/matrixP => i j. by rewrite !mxE !ord1. }
    case: (reflection K p.+1 u (delta_mx 0 0) Uu (Ue p)) => Q [TQ [QQ EQ]]. case: (reflection K n.+1 w (delta_mx 0 0) Uw (Ue n)) => R [TR [RR ER]].
    have EQ' : u *m Q = delta_mx 0 0 by rewrite -EQ -mulmxA QQ mulmx1. have ER' : w *m R = delta_mx 0 0 by rewrite -ER -mulmxA RR mulmx1.
    pose B := Q *m A *m R. have EA : A = Q *m B *m R. { rewrite /B !mulmxA QQ mul1mx -mulmxA RR mulmx1. by []. }
    have B1 : delta_mx 0 0 *m B = s *: (delta_mx 0 0 : 'rV_n.+1). { rewrite /B !mulmxA EQ uA -scalemxAl ER'. by []. }
    have B2 : delta_mx 0 0 *m B^T = s *: (delta_mx 0 0 : 'rV_p.+1). { rewrite /B !trmx_mul TQ TR !mulmxA ER wA -scalemxAl EQ'. by []. }
    pose C : 'M[K]_(p, n) := drsubmx (B : 'M_(1 + p, 1 + n)).
    have RayB : forall y, sq _ (y *m B^T) <= s ^+ 2 * sq _ y.
    { move=> y. rewrite /B !trmx_mul TQ TR !mulmxA sq_orth; [|by rewrite TQ]. apply: le_trans (Ray _) _. rewrite sq_orth; [by []|by rewrite TR]. }
    clearbody B.
    have BB : B = block_mx (s%:M : 'M_1) 0 0 C :> 'M_(1 + p, 1 + n).
    { rewrite -[LHS](submxK (B : 'M_(1 + p, 1 + n))) -/C. have H1 : forall j, B 0 j = s * (j == 0)%:R. { move=> j. have := congr1 (fun M : 'rV_n.+1 => M 0 j) B1. rewrite -rowE !mxE eqxx /=. by []. }
      have H2 : forall j, B j 0 = s * (j == 0)%:R. { move=> j. have := congr1 (fun M : 'rV_p.+1 => M 0 j) B2. rewrite -rowE !mxE eqxx /=. by []. }
      congr block_mx; apply/matrixP => i j; rewrite !mxE.
      - have -> : B (lshift p i) (lshift n j) = B 0 0 by congr (B _ _); apply: val_inj; rewrite /= ?(ord1 i) ?(ord1 j). by rewrite H1 !ord1 !eqxx mulr1 mulr1n.
      - have -> : B (lshift p i) (rshift 1 j) = B 0 (lift ord0 j) by congr (B _ _); apply: val_inj; rewrite /= ?(ord1 i). by rewrite H1 [lift _ _ == _]eq_sym (negbTE (neq_lift _ _)) mulr0.
      - have -> : B (rshift 1 i) (lshift n j) = B (lift ord0 i) 0 by congr (B _ _); apply: val_inj; rewrite /= ?(ord1 j). by rewrite H2 [lift _ _ == _]eq_sym (negbTE (neq_lift _ _)) mulr0. }
    case: (IH p C L) => [[[u' s'] v'] [/= EC [Ou [Ov [Ps Ms]]]]].
    pose U1 : 'M[K]_(p.+1, n.+1) := block_mx (1%:M : 'M_1) 0 0 u'. pose V1 : 'M[K]_n.+1 := block_mx (1%:M : 'M_1) 0 0 v'.
    exists (Q *m U1, row_mx (s%:M : 'M_1) s', V1 *m R).
    have R0 : forall i, (row_mx (s%:M : 'M_1) s' : 'rV_n.+1) 0 (lift ord0 i) = s' 0 i. { move=> i. have -> : lift ord0 i = rshift 1 i by apply: val_inj. exact: (@row_mxEr _ 1 1 n (s%:M) s' 0 i). }
    have R1 : (row_mx (s%:M : 'M_1) s' : 'rV_n.+1) 0 ord0 = s. { have -> : ord0 = lshift n (ord0 : 'I_1) by apply: val_inj. apply: etrans (@row_mxEl _ 1 1 n (s%:M) s' 0 ord0) _. by rewrite mxE eqxx mulr1n. }
    have Top : forall j, s' 0 j <= s.
    { move=> j. rewrite -(ler_pexpn2r (isT : (0 < 2)%N)) ?nnegrE //. pose x := row j v'. pose y : 'rV[K]_n.+1 := row_mx (0 : 'M_1) x.
      have Yx : sq _ y = 1. { rewrite -sq_eq /y (@tr_row_mx _ 1 1 n) (@mul_row_col _ 1 1 n 1) mul0mx add0r /x. have -> : row j v' *m (row j v')^T = 1%:M; [|by rewrite mxE eqxx].
        rewrite rowE trmx_mul mulmxA -[_ *m v' *m _]mulmxA Ov mulmx1 trmx_delta mul_delta_mx. apply/matrixP => a b. by rewrite !mxE !ord1. }
      have := RayB y. rewrite Yx mulr1 => H. apply: le_trans H. rewrite BB /y (@tr_block_mx _ 1 p 1 n) (@mul_row_block _ 1 1 n 1 p) !mul0mx !trmx0 !mulmx0 !add0r.
      have -> : x *m C^T = s' 0 j *: (row j u'^T).
      { rewrite /x EC !trmx_mul tr_diag_mx !rowE !mulmxA -[_ *m v' *m _]mulmxA Ov mulmx1 scalemxAl. congr (_ *m _). apply/rowP => k. rewrite -rowE !mxE eqxx /=. by case: (eqVneq j k) => [_|N]; rewrite ?mulr1n ?mulr1 ?mulr0n ?mulr0. }
      rewrite -sq_eq (@tr_row_mx _ 1 1 p) (@mul_row_col _ 1 1 p 1) mul0mx add0r linearZ /= -scalemxAl -scalemxAr scalerA -expr2.
      have -> : row j u'^T *m (row j u'^T)^T = 1%:M; [|by rewrite !mxE eqxx mulr1n mulr1]. rewrite rowE trmx_mul trmxK mulmxA -[_ *m u'^T *m u']mulmxA Ou mulmx1 trmx_delta mul_delta_mx. apply/matrixP => a b. by rewrite !mxE !ord1. }
    split; [|split; [|split; [|split]]].
    + rewrite {1}EA BB EC !mulmxA. congr (_ *m R). rewrite -!mulmxA. congr (Q *m _). rewrite /U1 /V1.
      have -> : diag_mx (row_mx (s%:M : 'M_1) s' : 'rV_n.+1) = block_mx (s%:M : 'M_1) 0 0 (diag_mx s') :> 'M_(1 + n).
      { apply: (etrans (diag_mx_row (s%:M : 'M[K]_1) s')). congr block_mx. apply/matrixP => i j. rewrite !mxE !ord1. by []. }
      rewrite (@mulmx_block _ 1 n 1 n 1 n) (@mulmx_block _ 1 p 1 n 1 n) !mul1mx !mulmx1 !mul0mx !mulmx0 !addr0 !add0r ?mulmx0 ?mul0mx ?addr0 ?add0r mulmxA. by [].
    + rewrite trmx_mul TQ !mulmxA -[U1^T *m Q *m Q]mulmxA QQ mulmx1 /U1 (@tr_block_mx _ 1 p 1 n) (@mulmx_block _ 1 n 1 p 1 n) !trmx0 trmx1 !mulmx0 !mul0mx mulmx1 Ou !addr0 add0r. by rewrite -scalar_mx_block.
    + rewrite trmx_mul TR !mulmxA -[V1 *m R *m R]mulmxA RR mulmx1 /V1 (@tr_block_mx _ 1 n 1 n) (@mulmx_block _ 1 n 1 n 1 n) !trmx0 trmx1 !mulmx0 !mul0mx mulmx1 Ov !addr0 add0r. by rewrite -scalar_mx_block.
    + move=> j. case: (unliftP ord0 j) => [i ->|->]; [rewrite R0|rewrite R1]; by [].
    + move=> j k. case: (unliftP ord0 k) => [k' ->|->]; case: (unliftP ord0 j) => [j' ->|->]; rewrite ?R0 ?R1 //=. exact: Ms.
Qed.
End Svd.
