(** Symmetric matrices over an ordered field with square roots have an orthonormal basis of eigenvectors, so that the
    promise of numpy.linalg.eigh can be kept for every symmetric matrix. *)
From mathcomp Require Import all_ssreflect all_algebra complex.
From Verif Require Import CircSpec GeoProofs.
Import Order.TTheory GRing.Theory Num.Theory.
Local Open Scope ring_scope.

Section Spectral.
Variable K : rcfType.

Lemma complex_eigen : forall N (A : 'M[K[i]%C]_N.+1), exists l (u : 'rV[K[i]%C]_N.+1), u != 0 /\ u *m A = l *: u.
Proof.
  move=> N A. have /closed_rootP [l R] : size (char_poly A) != 1%N by rewrite size_char_poly.
  move: R. rewrite -eigenvalue_root_char => /eigenvalueP [u E Nu]. by exists l, u.
Qed.

Lemma symmetric_eigen : forall N (A : 'M[K]_N.+1), A^T = A -> exists l (u : 'rV[K]_N.+1), u != 0 /\ u *m A = l *: u.
Proof.
  move=> N A TA. case: (complex_eigen N (map_mx (real_complex K) A)) => z [c [Nc Ec]].
  pose x : 'rV[K]_N.+1 := \row_j complex.Re (c 0 j). pose y : 'rV[K]_N.+1 := \row_j complex.Im (c 0 j). pose a := complex.Re z. pose b := complex.Im z.
  have Ej : forall j, \sum_k c 0 k * (real_complex K (A k j)) = z * c 0 j.
  { move=> j. have := congr1 (fun M : 'rV_N.+1 => M 0 j) Ec. rewrite !mxE => <-. apply: eq_bigr => k _. by rewrite mxE. }
  have Rm : forall (w : K[i]%C) (r : K), complex.Re (w * real_complex K r) = complex.Re w * r. { move=> [wr wi] r /=. by rewrite mulr0 subr0. }
  have Im : forall (w : K[i]%C) (r : K), complex.Im (w * real_complex K r) = complex.Im w * r. { move=> [wr wi] r /=. by rewrite mulr0 add0r. }
  have Ex : x *m A = a *: x - b *: y.
  { apply/rowP => j. rewrite !mxE. have := congr1 (@complex.Re K) (Ej j). rewrite raddf_sum /=. rewrite (eq_bigr (fun k => x 0 k * A k j)). 2:{ move=> k _. by rewrite Rm mxE. }
    move=> ->. rewrite /a /b. by case: (z) (c 0 j) => [zr zi] [cr ci]. }
  have Ey : y *m A = b *: x + a *: y.
  { apply/rowP => j. rewrite !mxE. have := congr1 (@complex.Im K) (Ej j). rewrite raddf_sum /=. rewrite (eq_bigr (fun k => y 0 k * A k j)). 2:{ move=> k _. by rewrite Im mxE. }
    move=> ->. rewrite /a /b. case: (z) (c 0 j) => [zr zi] [cr ci] /=. by rewrite addrC. }
  have Nxy : ~ (x = 0 /\ y = 0).
  { case=> X Y. case/negP: Nc. apply/eqP/rowP => j. rewrite mxE. have := congr1 (fun M : 'rV_N.+1 => M 0 j) X. have := congr1 (fun M : 'rV_N.+1 => M 0 j) Y.
    rewrite !mxE. case: (c 0 j) => [cr ci] /= -> ->. by []. }
  have B0 : b = 0.
  { have S : (x *m A) *m y^T = (y *m A *m x^T)^T. { by rewrite !trmx_mul !trmxK TA mulmxA. }
    move: S. rewrite Ex Ey mulmxBl mulmxDl -!scalemxAl !linearD /= !linearZ /= !trmx_mul !trmxK => S.
    have Q : b *: (x *m x^T + y *m y^T) = 0.
    { rewrite scalerDr. have -> : b *: (x *m x^T) = - (b *: (y *m y^T)). { apply: (addIr (a *: (x *m y^T))). by rewrite -S scalerN addrC. } by rewrite addNr. }
    move/eqP: Q. rewrite scaler_eq0 => /orP [/eqP //|/eqP Q]. case: Nxy.
    have P : forall v : 'rV[K]_N.+1, 0 <= (v *m v^T) 0 0. { move=> v. rewrite mxE. apply: sumr_ge0 => j _. rewrite mxE -expr2. exact: sqr_ge0. }
    have Z : (x *m x^T) 0 0 + (y *m y^T) 0 0 = 0. { have := congr1 (fun M : 'M_1 => M 0 0) Q. by rewrite mxE [RHS]mxE. }
    move/eqP: Z. rewrite paddr_eq0 // => /andP [/eqP Zx /eqP Zy].
    split; apply: sqsum_eq0; apply/matrixP => i j; by rewrite !ord1 [RHS]mxE. }
  case: (eqVneq x 0) => [X|X].
  - exists a, y. split; [|by rewrite Ey B0 scale0r add0r]. apply/negP => /eqP Y. exact: Nxy.
  - exists a, x. split=> //. by rewrite Ex B0 scale0r subr0.
Qed.

(** A symmetric orthogonal matrix that maps one unit row to another: a reflection. *)
Lemma reflection : forall N (u e : 'rV[K]_N), u *m u^T = 1%:M -> e *m e^T = 1%:M -> exists Q : 'M[K]_N, Q^T = Q /\ Q *m Q = 1%:M /\ e *m Q = u.
Proof.
  move=> N u e Uu Ue. case: (eqVneq e u) => [<-|Ne]. { exists 1%:M. by rewrite trmx1 mulmx1 mulmx1. }
  pose w := e - u. have Nw : w *m w^T != 0. { apply/negP => /eqP /sqsum_eq0 /eqP. by rewrite subr_eq0 (negbTE Ne). }
  pose s := (w *m w^T) 0 0. have Es : w *m w^T = s%:M by rewrite {1}[w *m w^T]mx11_scalar.
  have Ns : s != 0. { apply: contra Nw => /eqP Z. rewrite Es Z. by rewrite raddf0. }
  pose Q := 1%:M - (2%:R / s) *: (w^T *m w). exists Q.
  have WQ : w *m Q = - w.
  { rewrite /Q mulmxBr mulmx1 -scalemxAr mulmxA Es mul_scalar_mx scalerA divfK // scaler_nat mulr2n opprD addrA subrr add0r. by []. }
  split; [|split].
  - by rewrite /Q linearB /= trmx1 linearZ /= trmx_mul trmxK.
  - rewrite {1}/Q mulmxBl mul1mx -scalemxAl -mulmxA WQ mulmxN scalerN opprK /Q subrK. by [].
  - have Hs : w *m e^T = (s / 2%:R)%:M.
    { have C : u *m e^T = e *m u^T. { rewrite -[LHS]trmxK trmx_mul trmxK. rewrite [e *m u^T]mx11_scalar. by rewrite tr_scalar_mx. }
      have E2 : w *m w^T = (w *m e^T) *+ 2. { rewrite /w linearB /= mulmxBr !mulmxBl Uu Ue C opprB mulr2n. by []. }
      have N2 : (2%:R : K) != 0 by rewrite pnatr_eq0.
      apply/matrixP => i j. rewrite !ord1 [RHS]mxE eqxx mulr1n. apply: (mulIf N2). rewrite divfK // mulr_natr. by rewrite /s E2 mulmxnE. }
    have Hs' : e *m w^T = (s / 2%:R)%:M. { rewrite -[LHS]trmxK trmx_mul trmxK Hs tr_scalar_mx. by []. }
    have N2 : (2%:R : K) != 0 by rewrite pnatr_eq0.
    rewrite /Q mulmxBr mulmx1 -scalemxAr mulmxA Hs' mul_scalar_mx scalerA mulrA divfK // divff // scale1r /w opprB addrCA subrr addr0. by [].
Qed.

Theorem spectral : forall N (A : 'M[K]_N), A^T = A -> exists vw, decomposes K N A vw.
Proof.
  elim=> [|N IH] A TA.
  - exists (0, 1%:M). split; apply/matrixP => i; by case: i.
  - case: (symmetric_eigen N A TA) => l [u' [Nu' Eu']].
    have [u [Uu Eu]] : exists u : 'rV[K]_N.+1, u *m u^T = 1%:M /\ u *m A = l *: u.
    { pose s := (u' *m u'^T) 0 0. have S0 : 0 < s.
      { rewrite lt_def. apply/andP. split.
        - apply: contra Nu' => /eqP Z. apply/eqP. apply: sqsum_eq0. apply/matrixP => i j. by rewrite !ord1 -/s Z mxE.
        - rewrite /s mxE. apply: sumr_ge0 => j _. rewrite mxE -expr2. exact: sqr_ge0. }
      exists ((Num.sqrt s)^-1 *: u'). split.
      - rewrite linearZ /= -scalemxAl -scalemxAr scalerA [u' *m u'^T]mx11_scalar -/s scale_scalar_mx -invfM -expr2 sqr_sqrtr ?ltW //. by rewrite mulVf // gt_eqF.
      - by rewrite -scalemxAl Eu' !scalerA mulrC. }
    pose e : 'rV[K]_N.+1 := delta_mx 0 0. have Ue : e *m e^T = 1%:M. { rewrite /e trmx_delta mul_delta_mx. apply/matrixP => i j. by rewrite !mxE !ord1. }
    case: (reflection N.+1 u e Uu Ue) => Q [TQ [QQ EQ]].
    pose B := Q *m A *m Q. have TB : B^T = B by rewrite /B !trmx_mul TQ TA mulmxA.
    have EB : e *m B = l *: e. { rewrite /B !mulmxA EQ Eu -scalemxAl. congr (_ *: _). by rewrite -EQ -mulmxA QQ mulmx1. }
    have EA : A = Q *m B *m Q. { rewrite /B !mulmxA QQ mul1mx -mulmxA QQ mulmx1. by []. }
    clearbody B. pose C : 'M[K]_N := drsubmx (B : 'M_(1 + N)).
    have BB : B = block_mx (l%:M : 'M_1) 0 0 C :> 'M_(1 + N).
    { rewrite -[LHS](submxK (B : 'M_(1 + N))) -/C. have R : forall j, B 0 j = l * (j == 0)%:R. { move=> j. have := congr1 (fun M : 'rV_N.+1 => M 0 j) EB. rewrite /e -rowE !mxE eqxx /=. by []. }
      have R' : forall j, B j 0 = l * (j == 0)%:R. { move=> j. have := congr1 (fun M : 'M_N.+1 => M j 0) TB. rewrite mxE => <-. exact: R. }
      congr block_mx; apply/matrixP => i j; rewrite !mxE.
      - have -> : B (lshift N i) (lshift N j) = B 0 0 by congr (B _ _); apply: val_inj; rewrite /= ?(ord1 i) ?(ord1 j). by rewrite R !ord1 !eqxx mulr1 mulr1n.
      - have -> : B (lshift N i) (rshift 1 j) = B 0 (lift ord0 j) by congr (B _ _); apply: val_inj; rewrite /= ?(ord1 i). by rewrite R [lift _ _ == _]eq_sym (negbTE (neq_lift _ _)) mulr0.
      - have -> : B (rshift 1 i) (lshift N j) = B (lift ord0 i) 0 by congr (B _ _); apply: val_inj; rewrite /= ?(ord1 j). by rewrite R' [lift _ _ == _]eq_sym (negbTE (neq_lift _ _)) mulr0. }
    have TC : C^T = C. { rewrite /C (@trmx_drsub _ 1 N 1 N). by rewrite (TB : (B : 'M_(1 + N))^T = B). }
    case: (IH C TC) => [[v W] [/= EC OW]].
    pose W1 : 'M[K]_N.+1 := block_mx (1%:M : 'M_1) 0 0 W. exists (row_mx (l%:M : 'M_1) v, Q *m W1). split=> /=.
    + rewrite EA BB EC trmx_mul TQ !mulmxA. congr (_ *m Q). rewrite -!mulmxA. congr (Q *m _). rewrite /W1.
      have -> : diag_mx (row_mx (l%:M : 'M_1) v : 'rV_N.+1) = block_mx (l%:M : 'M_1) 0 0 (diag_mx v) :> 'M_(1 + N).
      { apply: (etrans (diag_mx_row (l%:M : 'M[K]_1) v)). congr block_mx. apply/matrixP => i j. rewrite !mxE !ord1. by []. }
      rewrite (@tr_block_mx _ 1 N 1 N) !(@mulmx_block _ 1 N 1 N 1 N) !trmx0 trmx1 !mul1mx !mulmx1 !mul0mx !mulmx0 !addr0 !add0r ?mulmx0 ?mul0mx ?addr0 ?add0r mulmxA. by [].
    + rewrite trmx_mul TQ !mulmxA -[Q *m W1 *m _]mulmxA. have -> : W1 *m W1^T = 1%:M.
      { rewrite /W1 (@tr_block_mx _ 1 N 1 N) (@mulmx_block _ 1 N 1 N 1 N) !trmx0 trmx1 !mulmx0 !mul0mx mulmx1 OW !addr0 add0r. by rewrite -scalar_mx_block. }
      by rewrite mulmx1.
Qed.
End Spectral.
