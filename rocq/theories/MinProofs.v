(** Lemmas for C97. *)
From mathcomp Require Import all_ssreflect all_algebra.
From Coq Require Import Ring Field.
From Verif Require Import GeoRing MinModel MinSpec.
Import Order.TTheory GRing.Theory Num.Theory.
Local Open Scope ring_scope.

Section P.
Variable K : rcfType.
Variable n : nat.
Add Field Kf : (K_field K).
Ltac kring := kprep K; ring.
Ltac kfield := kprep K; field.
Notation vec := 'cV[K]_n.
Notation dot := (inner K n).
Notation span := (span K n).

Lemma dotC : forall u v, dot u v = dot v u.
Proof. move=> u v. apply: eq_bigr => i _. exact: mulrC. Qed.
Lemma dotDl : forall u v t, dot (u + v) t = dot u t + dot v t.
Proof. move=> u v t. rewrite -big_split. apply: eq_bigr => i _. by rewrite mxE mulrDl. Qed.
Lemma dotZl : forall c u t, dot (c *: u) t = c * dot u t.
Proof. move=> c u t. rewrite /inner mulr_sumr. apply: eq_bigr => i _. by rewrite mxE mulrA. Qed.
Lemma dotDr : forall u v t, dot t (u + v) = dot t u + dot t v. Proof. move=> u v t. by rewrite dotC dotDl !(dotC t). Qed.
Lemma dotZr : forall c u t, dot t (c *: u) = c * dot t u. Proof. move=> c u t. by rewrite dotC dotZl (dotC t). Qed.
Lemma dot0l : forall t, dot 0 t = 0. Proof. move=> t. by rewrite -(scale0r 0) dotZl mul0r. Qed.
Lemma dot0r : forall t, dot t 0 = 0. Proof. move=> t. by rewrite dotC dot0l. Qed.
Lemma dotBl : forall u v t, dot (u - v) t = dot u t - dot v t. Proof. move=> u v t. by rewrite -scaleN1r dotDl dotZl mulN1r. Qed.
Lemma dotBr : forall u v t, dot t (u - v) = dot t u - dot t v. Proof. move=> u v t. by rewrite dotC dotBl !(dotC t). Qed.
Lemma dot_ge0 : forall u, 0 <= dot u u. Proof. move=> u. apply: sumr_ge0 => i _. rewrite -expr2. exact: sqr_ge0. Qed.
Lemma dot_eq0 : forall u, dot u u = 0 -> u = 0.
Proof.
  move=> u Z. apply/matrixP => i j. rewrite (ord1 j) mxE. have : dot u u == 0 by rewrite Z. rewrite psumr_eq0; [|by move=> k _; rewrite -expr2 sqr_ge0].
  move/allP/(_ i (mem_index_enum i)). by rewrite /= mulf_eq0 orbb => /eqP.
Qed.
Lemma sqnormE : forall u, sqnorm K n u = dot u u.
Proof. move=> u. apply: eq_bigr => i _. exact: expr2. Qed.

Lemma span_add : forall V k u v, span V k u -> span V k v -> span V k (u + v).
Proof. move=> V k u v Su. elim=> [|z i c _ IH L]; [by rewrite addr0|]. rewrite addrA. exact: spanA. Qed.
Lemma span_scale : forall V k c u, span V k u -> span V k (c *: u).
Proof. move=> V k c u. elim=> [|z i d _ IH L]; [rewrite scaler0; exact: span0|]. rewrite scalerDr scalerA. exact: spanA. Qed.
Lemma span_sub : forall V k u v, span V k u -> span V k v -> span V k (u - v).
Proof. move=> V k u v Su Sv. rewrite -scaleN1r. by apply: span_add => //; apply: span_scale. Qed.
Lemma span_one : forall V k i, (i < k)%N -> span V k (V i).
Proof. move=> V k i L. rewrite -[V i]add0r -[V i]scale1r. apply: spanA => //. exact: span0. Qed.
Lemma span_le : forall V k l u, (k <= l)%N -> span V k u -> span V l u.
Proof. move=> V k l u L. elim=> [|z i c _ IH H]; [exact: span0|]. apply: spanA => //. exact: leq_trans H L. Qed.
Lemma span_dot : forall V k t u, (forall i, (i < k)%N -> dot t (V i) = 0) -> span V k u -> dot t u = 0.
Proof. move=> V k t u H. elim=> [|z i c _ IH L]; [exact: dot0r|]. by rewrite dotDr dotZr IH H // mulr0 addr0. Qed.
Lemma span_dotB : forall (B : 'M[K]_n) V k t u, (forall i, (i < k)%N -> dot t (B *m V i) = 0) -> span V k u -> dot t (B *m u) = 0.
Proof. move=> B V k t u H. elim=> [|z i c _ IH L]; [by rewrite mulmx0 dot0r|]. by rewrite mulmxDr -scalemxAr dotDr dotZr IH H // mulr0 addr0. Qed.
Lemma span_trans : forall V k W l u, (forall i, (i < k)%N -> span W l (V i)) -> span V k u -> span W l u.
Proof. move=> V k W l u H. elim=> [|z i c _ IH L]; [exact: span0|]. apply: span_add => //. apply: span_scale. exact: H. Qed.
Lemma span_mul : forall (B : 'M[K]_n) V k W l u, (forall i, (i < k)%N -> span W l (B *m V i)) -> span V k u -> span W l (B *m u).
Proof. move=> B V k W l u H. elim=> [|z i c _ IH L]; [rewrite mulmx0; exact: span0|]. rewrite mulmxDr -scalemxAr. apply: span_add => //. apply: span_scale. exact: H. Qed.

Variables (A : 'M[K]_n) (b : vec) (shift tol eps : K) (maxiter : nat).
Hypothesis As : forall i j, A i j = A j i.
Definition B : 'M[K]_n := A - shift%:M.
Hypothesis Pe : 0 < eps.
Hypothesis Wc : forall u, eps ^+ 2 * dot u u <= dot (B *m u) (B *m u).

Lemma adj : forall u v : vec, dot u (B *m v) = dot (B *m u) v.
Proof.
  move=> u v. have Bs : forall i j, B i j = B j i. { move=> i j. rewrite !mxE As. by rewrite eq_sym. }
  transitivity (\sum_i \sum_j u i 0 * (B i j * v j 0)). { apply: eq_bigr => i _. by rewrite mxE mulr_sumr. }
  rewrite exchange_big /=. apply: eq_bigr => j _. rewrite mxE mulr_suml. apply: eq_bigr => i _. rewrite mulrA [u i 0 * _]mulrC Bs. by [].
Qed.
Lemma Bv : forall v : vec, A *m v - shift *: v = B *m v.
Proof. move=> v. by rewrite /B mulmxBl mul_scalar_mx. Qed.


Definition st (k : nat) : state K n := iter k (pass K n A shift tol eps maxiter) (start K n b).
Definition V (k : nat) : vec := locked ((beta K n (st k))^-1 *: r2 K n (st k)).
Lemma VE : forall k, V k = (beta K n (st k))^-1 *: r2 K n (st k).
Proof. move=> k. by rewrite /V -lock. Qed.
Definition prev (k : nat) : vec := match k with 0%N => 0 | p.+1 => beta K n (st k) *: V p end.
Notation pw := (power K n B b).

Record Inv (k : nat) : Prop := {
  I_itn : itn K n (st k) = k;
  I_y : y K n (st k) = r2 K n (st k);
  I_r2 : r2 K n (st k) = beta K n (st k) *: V k;
  I_beta : 0 <= beta K n (st k);
  I_r1 : forall p, k = p.+1 -> r1 K n (st k) = oldb K n (st k) *: V p /\ oldb K n (st k) != 0;
  I_orth : forall i j, (i < k)%N -> (j < k)%N -> dot (V i) (V j) = (i == j)%:R;
  I_next : forall j, (j < k)%N -> dot (V k) (V j) = 0;
  I_unit : beta K n (st k) != 0 -> dot (V k) (V k) = 1;
  I_lan : forall j, (j < k)%N -> span V j.+2 (B *m V j);
  I_last : forall p, k = p.+1 -> span V k (B *m V p - r2 K n (st k));
  I_kry : forall j, (j <= k)%N -> span pw j.+1 (V j);
  I_x : span V k (x K n (st k));
  I_w : span V k (w K n (st k));
  I_w2 : span V k (w2 K n (st k));
  I_rot : cs K n (st k) ^+ 2 + sn K n (st k) ^+ 2 = 1;
  I_U : exists U : vec, b - B *m x K n (st k) = phibar K n (st k) *: U /\ span V k.+1 U /\ (beta K n (st k) != 0 -> dot U U = 1) /\
    (forall j, (j < k)%N -> dot U (B *m V j) = 0) /\
    V k = sn K n (st k) *: (B *m w K n (st k)) - cs K n (st k) *: U /\
    prev k = epsln K n (st k) *: (B *m w2 K n (st k)) + dbar K n (st k) *: (cs K n (st k) *: (B *m w K n (st k)) + sn K n (st k) *: U) }.

Lemma scaled : forall u : vec, u = Num.sqrt (dot u u) *: ((Num.sqrt (dot u u))^-1 *: u).
Proof.
  move=> u. case: (eqVneq (Num.sqrt (dot u u)) 0) => [Z|N]; [|by rewrite scalerA divff // scale1r]. rewrite Z scale0r. apply: dot_eq0.
  have : dot u u <= 0 by rewrite -sqrtr_eq0 Z. have := dot_ge0 u. move=> P Q. apply/eqP. by rewrite eq_le Q P.
Qed.
Lemma unit_scaled : forall u : vec, Num.sqrt (dot u u) != 0 -> dot ((Num.sqrt (dot u u))^-1 *: u) ((Num.sqrt (dot u u))^-1 *: u) = 1.
Proof.
  move=> u N. rewrite dotZl dotZr. rewrite mulrA -invfM -expr2 sqr_sqrtr ?dot_ge0 // mulVf //. apply: contra N => /eqP ->. by rewrite sqrtr0.
Qed.

Lemma inv0 : Inv 0.
Proof.
  have E : beta K n (st 0) = Num.sqrt (dot b b) by []. have R : r2 K n (st 0) = b by [].
  split => //.
  - rewrite VE E R. exact: scaled.
  - by rewrite E sqrtr_ge0.
  - rewrite VE E R => N. exact: unit_scaled.
  - case=> // _. rewrite VE R. apply: span_scale. exact: (@span_one pw 1 0).
  - exact: span0.
  - exact: span0.
  - exact: span0.
  - by rewrite /= sqrrN expr1n expr0n addr0.
  - exists (V 0). split; [|split; [|split; [|split; [|split]]]] => //.
    + rewrite /= mulmx0 subr0. change (b = beta K n (st 0) *: V 0). rewrite VE E R. exact: scaled.
    + exact: (@span_one V 1 0).
    + rewrite VE E R => N. exact: unit_scaled.
    + by rewrite /= scale0r add0r scaleN1r opprK.
    + by rewrite /= !scale0r !add0r.
Qed.
Lemma pass_eqs : forall k, Inv k -> beta K n (st k) != 0 -> exists alfa gamma : K,
  let s := st k in let s' := st k.+1 in
  let delta := cs K n s * dbar K n s + sn K n s * alfa in
  let gbar := sn K n s * dbar K n s - cs K n s * alfa in
  alfa = dot (V k) (B *m V k - prev k) /\ r2 K n s' = B *m V k - prev k - alfa *: V k /\
  gamma = Num.max (Num.sqrt (gbar ^+ 2 + beta K n s' ^+ 2)) eps /\
  w K n s' = gamma^-1 *: (V k - epsln K n s *: w2 K n s - delta *: w K n s) /\
  cs K n s' = gbar / gamma /\ sn K n s' = beta K n s' / gamma /\ phibar K n s' = beta K n s' / gamma * phibar K n s /\
  x K n s' = x K n s + (gbar / gamma * phibar K n s) *: w K n s'.
Proof.
  move=> k I Nb. have Ev : (1 / beta K n (st k)) *: y K n (st k) = V k by rewrite VE (I_y _ I) div1r.
  pose v := V k. pose y3 := if (2 <= (itn K n (st k)).+1)%N then B *m v - (beta K n (st k) / oldb K n (st k)) *: r1 K n (st k) else B *m v.
  have E3 : y3 = B *m V k - prev k.
  { rewrite /y3 /v (I_itn _ I). case: k I Nb Ev @v @y3 => [|p] I Nb Ev v y3; [by rewrite ltnn subr0|]. rewrite ltnS ltn0Sn. have [-> No] := I_r1 _ I p (erefl _).
    by rewrite scalerA divfK. }
  have Ea : (inner K n v y3 / beta K n (st k)) *: r2 K n (st k) = inner K n v y3 *: V k. { rewrite {1}(I_r2 _ I) scalerA divfK //. }
  rewrite -E3 -/v. exists (inner K n v y3). eexists. cbv zeta.
  have P : st k.+1 = pass K n A shift tol eps maxiter (st k) by []. rewrite P. rewrite /pass Ev -/v Bv -/y3. cbn [r2 w cs sn phibar x beta]. rewrite Ea.
  split; [reflexivity|]. split; [reflexivity|]. split; [reflexivity|]. split; [by rewrite div1r|]. split; [reflexivity|]. split; [reflexivity|]. split; [reflexivity|]. reflexivity.
Qed.
Lemma pass_eqs2 : forall k, Inv k -> let s := st k in let s' := st k.+1 in
  itn K n s' = k.+1 /\ y K n s' = r2 K n s' /\ r1 K n s' = r2 K n s /\ oldb K n s' = beta K n s /\ beta K n s' = Num.sqrt (dot (r2 K n s') (r2 K n s')) /\
  w2 K n s' = w K n s /\ epsln K n s' = sn K n s * beta K n s' /\ dbar K n s' = - cs K n s * beta K n s'.
Proof. move=> k I. cbv zeta. have P : st k.+1 = pass K n A shift tol eps maxiter (st k) by []. split; [by rewrite P /= (I_itn _ I)|]. by rewrite P. Qed.
Lemma new_orth : forall k alfa, Inv k -> beta K n (st k) != 0 -> alfa = dot (V k) (B *m V k - prev k) -> forall j, (j <= k)%N ->
  dot (B *m V k - prev k - alfa *: V k) (V j) = 0.
Proof.
  move=> k alfa I Nb Ea j. rewrite leq_eqVlt => /orP [/eqP ->|L].
  - rewrite dotBl dotZl (I_unit _ I Nb) mulr1 Ea dotC subrr //.
  - rewrite dotBl dotZl (I_next _ I j L) mulr0 subr0 dotBl -adj. case: k I Nb Ea L => // p I Nb Ea L. rewrite /prev dotZl (I_orth _ I p j (ltnSn p) L).
    move: L. rewrite ltnS leq_eqVlt => /orP [/eqP Ej|L].
    + subst j. rewrite eqxx mulr1. have -> : B *m V p = (B *m V p - r2 K n (st p.+1)) + r2 K n (st p.+1) by rewrite subrK.
      rewrite dotDr (span_dot V p.+1 (V p.+1) _ (I_next _ I) (I_last _ I p (erefl _))) add0r (I_r2 _ I) dotZr (I_unit _ I Nb) mulr1 subrr //.
    + rewrite (gtn_eqF L) mulr0 subr0. apply: (span_dot V j.+2); last by apply: (I_lan _ I); exact: ltnW.
      move=> i Li. apply: (I_next _ I). by apply: (leq_trans Li); rewrite ltnS.
Qed.

Local Opaque st.
Lemma norm2 : forall (g d : K) (U a : vec), dot U U = 1 -> dot U a = 0 -> (d != 0 -> dot a a = 1) -> dot (g *: U + d *: a) (g *: U + d *: a) = g ^+ 2 + d ^+ 2.
Proof.
  move=> g d U a H1 H2 H3. rewrite !dotDl !dotDr !dotZl !dotZr H1 H2 dotC H2. case: (eqVneq d 0) => [->|N1]; [|rewrite (H3 N1); kring]. rewrite !mul0r. move: (dot a a) => t. kring.
Qed.
Lemma norm3 : forall (c g : K) (U a : vec), c ^+ 2 + g ^+ 2 = 1 -> dot U U = 1 -> dot U a = 0 -> dot a a = 1 -> dot (g *: U - c *: a) (g *: U - c *: a) = 1.
Proof. move=> c g U a H H1 H2 H3. rewrite dotBl !dotBr !dotZl !dotZr H1 H2 dotC H2 H3 -[RHS]H. kring. Qed.
Lemma perp3 : forall (c g : K) (U a : vec), dot U U = 1 -> dot U a = 0 -> (g = 0 \/ dot a a = 1) -> dot (g *: U - c *: a) (c *: U + g *: a) = 0.
Proof. move=> c g U a H1 H2 [->|H3]; rewrite dotBl !dotDr !dotZl !dotZr H1 H2 dotC H2; [move: (dot a a) => t; kring|rewrite H3; kring]. Qed.
Lemma rot1 : forall g d e : K, e ^+ 2 = g ^+ 2 + d ^+ 2 -> e != 0 -> (g / e) ^+ 2 + (d / e) ^+ 2 = 1.
Proof. move=> g d e E N. rewrite !expr_div_n -mulrDl -E divff // expf_neq0 //. Qed.
Lemma vec_eq0 : forall (c g f : K) (U a : vec), c ^+ 2 + g ^+ 2 = 1 -> f *: U - (c * f) *: (c *: U + g *: a) = (g * f) *: (g *: U - c *: a).
Proof.
  move=> c g f U a H. apply/matrixP => i j. rewrite !mxE. move: (U i j) (a i j) => e0 e1. transitivity (f * (c ^+ 2 + g ^+ 2) * e0 - c * f * (c * e0 + g * e1)); [by rewrite H mulr1|kring].
Qed.
Lemma vec_eq1 : forall (c g : K) (U a : vec), c ^+ 2 + g ^+ 2 = 1 -> a = g *: (c *: U + g *: a) - c *: (g *: U - c *: a).
Proof.
  move=> c g U a H. apply/matrixP => i j. rewrite !mxE. move: (U i j) (a i j) => e0 e1. transitivity ((c ^+ 2 + g ^+ 2) * e1); [by rewrite H mul1r|kring].
Qed.
Lemma vec_eq2 : forall (c g b1 c0 s0 : K) (U a a2 : vec), c ^+ 2 + g ^+ 2 = 1 ->
  b1 *: (s0 *: a2 - c0 *: U) = (s0 * b1) *: a2 + (- c0 * b1) *: (c *: (c *: U + g *: a) + g *: (g *: U - c *: a)).
Proof.
  move=> c g b1 c0 s0 U a a2 H. apply/matrixP => i j. rewrite !mxE. move: (U i j) (a i j) (a2 i j) => e0 e1 e2.
  transitivity (b1 * (s0 * e2 - c0 * ((c ^+ 2 + g ^+ 2) * e0))); [by rewrite H mul1r|kring].
Qed.

Lemma step : forall k, Inv k -> beta K n (st k) != 0 -> Inv k.+1.
Proof.
  move=> k I Nb. have [alfa [gamma]] := pass_eqs k I Nb. cbv zeta. move=> [Ea [Er [Eg [Ew [Ec [Es [Ep Ex]]]]]]]. have := pass_eqs2 k I. cbv zeta.
  move=> [Fi [Fy [Fr1 [Fo [Fb [Fw2 [Fe Fd]]]]]]].
  have Rn : r2 K n (st k.+1) = beta K n (st k.+1) *: V k.+1 by rewrite VE Fb; exact: scaled.
  have Un : beta K n (st k.+1) != 0 -> dot (V k.+1) (V k.+1) = 1 by rewrite VE Fb; exact: unit_scaled.
  have On : forall j, (j <= k)%N -> dot (V k.+1) (V j) = 0. { move=> j L. by rewrite {1}VE dotZl Er (new_orth k alfa I Nb Ea j L) mulr0. }
  have Sp : span V k.+1 (prev k). { case: (k) => [|p]; [exact: span0|]. apply: span_scale. apply: span_one. exact: ltnW. }
  have Rel : B *m V k = prev k + alfa *: V k + beta K n (st k.+1) *: V k.+1. { rewrite -Rn Er. rewrite addrC -addrA -opprD subrK //. }
  have [U [U1 [U2 [U3 [U4 [U5 U6]]]]]] := I_U _ I. have {}U3 := U3 Nb.
  have UV : dot U (V k.+1) = 0. { rewrite dotC. by apply: (span_dot V k.+1) => // i Li; exact: On. }
  remember (beta K n (st k.+1)) as b1 eqn:Hb1. remember (cs K n (st k.+1)) as c eqn:Hc. remember (sn K n (st k.+1)) as sg eqn:Hsg.
  remember (sn K n (st k) * dbar K n (st k) - cs K n (st k) * alfa) as gbar eqn:Hgbar. remember (cs K n (st k) * dbar K n (st k) + sn K n (st k) * alfa) as delta eqn:Hdelta.
  remember (w K n (st k.+1)) as wn eqn:Hwn.
  pose q := V k - epsln K n (st k) *: w2 K n (st k) - delta *: w K n (st k).
  have Bq : B *m q = gbar *: U + b1 *: V k.+1.
  { rewrite /q !mulmxBr -(scalemxAr (epsln K n (st k))) -(scalemxAr delta) Rel U6. rewrite {1}U5. rewrite Hdelta Hgbar.
    move: (B *m w2 K n (st k)) (B *m w K n (st k)) (V k.+1) => a1 a2 a3. apply/matrixP => i j. rewrite !mxE. move: (U i j) (a1 i j) (a2 i j) (a3 i j) => e0 e1 e2 e3. kring. }
  have Nq : dot (B *m q) (B *m q) = gbar ^+ 2 + b1 ^+ 2.
  { rewrite Bq. exact: norm2. }
  have q1 : 1 <= dot q q.
  { have -> : q = V k - (epsln K n (st k) *: w2 K n (st k) + delta *: w K n (st k)) by rewrite /q opprD addrA.
    have Sw : span V k (epsln K n (st k) *: w2 K n (st k) + delta *: w K n (st k)). { apply: span_add; apply: span_scale; [exact: (I_w2 _ I)|exact: (I_w _ I)]. }
    rewrite dotBl !dotBr (I_unit _ I Nb) [dot _ (V k)]dotC (span_dot V k _ _ (I_next _ I) Sw) !subr0 sub0r opprK. by rewrite ler_addl dot_ge0. }
  have G2 : eps ^+ 2 <= gbar ^+ 2 + b1 ^+ 2. { rewrite -Nq. apply: le_trans (Wc q). rewrite ler_pmulr // exprn_gt0 //. }
  have G0 : 0 <= gbar ^+ 2 + b1 ^+ 2. { rewrite addr_ge0 ?sqr_ge0 //. }
  have Ge : gamma = Num.sqrt (gbar ^+ 2 + b1 ^+ 2). { rewrite Eg. apply/max_idPl. rewrite -(ler_sqr) ?nnegrE ?sqrtr_ge0 ?(ltW Pe) // sqr_sqrtr //. }
  have Gs : gamma ^+ 2 = gbar ^+ 2 + b1 ^+ 2 by rewrite Ge sqr_sqrtr.
  have Gp : gamma != 0. { apply/eqP => Z. move: G2. rewrite -Gs Z expr0n /= => L. have := exprn_gt0 2 Pe. by rewrite ltNge L. }
  have Rot : c ^+ 2 + sg ^+ 2 = 1. { rewrite Ec Es. exact: rot1. }
  have Bw : B *m wn = c *: U + sg *: V k.+1. { rewrite Ew -/q -scalemxAr Bq scalerDr !scalerA Ec Es ![gamma^-1 * _]mulrC //. }
  have Sv : span V k.+1 (V k) by apply: span_one.
  have Swn : span V k.+1 (wn).
  { rewrite Ew. apply: span_scale. apply: span_sub; [apply: span_sub; [exact: Sv|]|]; apply: span_scale; [apply: (span_le V k _ _ (leqnSn k)); exact: (I_w2 _ I)|apply: (span_le V k _ _ (leqnSn k)); exact: (I_w _ I)]. }
  have Lan : forall j, (j < k.+1)%N -> span V j.+2 (B *m V j).
  { move=> j. rewrite ltnS leq_eqVlt => /orP [/eqP ->|L]; [|exact: (I_lan _ I)]. rewrite Rel. apply: span_add; [apply: span_add; [exact: (span_le V k.+1)|by apply: span_scale; apply: span_one]|]. apply: span_scale. exact: span_one. }
  have Kry : forall j, (j <= k.+1)%N -> span pw j.+1 (V j).
  { move=> j. rewrite leq_eqVlt => /orP [/eqP ->|L]; [|exact: (I_kry _ I)]. rewrite VE. apply: span_scale. rewrite Er.
    have Sk := I_kry _ I k (leqnn k). apply: span_sub; [apply: span_sub|].
    - apply: (span_mul B pw k.+1) => //. move=> i Li. change (span pw k.+2 (pw i.+1)). apply: span_one. by rewrite ltnS.
    - case: (k) I => [|p] I'; [exact: span0|]. apply: span_scale. apply: (span_le pw p.+1); [by rewrite ltnW // ltnW|]. exact: (I_kry _ I' p (leqnSn p)).
    - apply: span_scale. apply: (span_le pw k.+1) => //. }
  have Un' : forall j, (j < k)%N -> dot (sg *: U - c *: V k.+1) (B *m V j) = 0.
  { move=> j L. rewrite dotBl !dotZl (U4 _ L) mulr0 sub0r. have -> : dot (V k.+1) (B *m V j) = 0; [|by rewrite mulr0 oppr0]. apply: (span_dot V k.+1); [by move=> i Li; exact: On|]. apply: (span_le V j.+2) => //. exact: (I_lan _ I). }
  split; rewrite -?Hwn -?Hc -?Hsg -?Hb1 => //.
  - by rewrite Fb sqrtr_ge0.
  - move=> p [<-]. by rewrite Fr1 Fo (I_r2 _ I).
  - move=> i j. rewrite !ltnS leq_eqVlt => /orP [/eqP ->|Li]; rewrite leq_eqVlt => /orP [/eqP ->|Lj].
    + by rewrite eqxx (I_unit _ I Nb).
    + by rewrite (I_next _ I j Lj) (gtn_eqF Lj).
    + by rewrite dotC (I_next _ I i Li) (ltn_eqF Li).
    + exact: (I_orth _ I).
  - move=> p [<-]. rewrite Rn Rel addrK. apply: span_add => //. exact: span_scale.
  - rewrite Ex. apply: span_add; [apply: (span_le V k) => //; exact: (I_x _ I)|]. exact: span_scale.
  - rewrite Fw2. apply: (span_le V k) => //. exact: (I_w _ I).
  - exists (sg *: U - c *: V k.+1). split; [|split; [|split; [|split; [|split]]]].
    + rewrite Ex mulmxDr -scalemxAr opprD addrA U1 Bw -Ec Ep -Es. exact: vec_eq0.
    + apply: span_sub; apply: span_scale; [exact: (span_le V k.+1)|exact: span_one].
    + move=> N1. exact: (norm3 c sg U (V k.+1) Rot U3 UV (Un N1)).
    + move=> j. rewrite ltnS leq_eqVlt => /orP [/eqP ->|L]; [|exact: Un'].
      have -> : V k = gamma *: wn + epsln K n (st k) *: w2 K n (st k) + delta *: w K n (st k).
      { rewrite Ew scalerA divff // scale1r. move: (V k) (w2 K n (st k)) (w K n (st k)) => a1 a2 a3. apply/matrixP => i' j'. rewrite !mxE. move: (a1 i' j') (a2 i' j') (a3 i' j') => e1 e2 e3. kring. }
      rewrite !mulmxDr -(scalemxAr gamma) -(scalemxAr (epsln K n (st k))) -(scalemxAr delta) !dotDr (dotZr gamma) (dotZr (epsln K n (st k))) (dotZr delta) (span_dotB B V k _ _ Un' (I_w2 _ I)) (span_dotB B V k _ _ Un' (I_w _ I)) !mulr0 !addr0 Bw.
      rewrite (perp3 c sg U (V k.+1) U3 UV) ?mulr0 //. case: (eqVneq b1 0) => [Z|N1]; [left; by rewrite Es Z mul0r|right; exact: Un].
    + have X : V k.+1 = sg *: (B *m wn) - c *: (sg *: U - c *: V k.+1). { rewrite Bw. exact: vec_eq1. } rewrite -?Hwn -?Hc -?Hsg; exact: X.
    + have X : b1 *: V k = epsln K n (st k.+1) *: (B *m w2 K n (st k.+1)) + dbar K n (st k.+1) *: (c *: (B *m wn) + sg *: (sg *: U - c *: V k.+1)).
      { rewrite Fe Fd Fw2 Bw {1}U5. exact: vec_eq2. }
      rewrite /prev -?Hwn -?Hc -?Hsg -?Hb1. exact: X.
Qed.
Lemma beta0 : forall k, Inv k -> beta K n (st k) != 0 -> beta K n (st k.+1) = 0 -> phibar K n (st k.+1) = 0.
Proof. move=> k I Nb Z. have [alfa [gamma]] := pass_eqs k I Nb. cbv zeta. move=> [_ [_ [_ [_ [_ [_ [E _]]]]]]]. by rewrite E Z !mul0r. Qed.
Local Transparent st.
Lemma st0 : r2 K n (st 0) = pw 0.
Proof. by []. Qed.
Lemma stS : forall k, st k.+1 = pass K n A shift tol eps maxiter (st k).
Proof. by []. Qed.
Local Opaque st.
Lemma not_going : forall s, phibar K n (pass K n A shift tol eps maxiter s) = 0 -> istop K n (pass K n A shift tol eps maxiter s) <> Going.
Proof.
  move=> s. rewrite /pass. cbn [phibar istop]. move=> -> . rewrite mul0r addr0 lexx. case: (if _ then Early else istop K n s) => //.
  case: (_ <= tol) => //. case: (_ <= tol) => //. case: (_ <= _) => //. case: (_ || _) => //. case: (_ <= _)%N => //.
Qed.
Lemma going_beta : forall k, Inv k -> beta K n (st k) != 0 -> istop K n (st k.+1) = Going -> beta K n (st k.+1) != 0.
Proof. move=> k I Nb G. apply/eqP => Z. move: (beta0 k I Nb Z) G. rewrite stS. exact: not_going. Qed.

(** what the loop returns *)
Lemma loop_inv : forall m k, Inv k -> beta K n (st k) != 0 -> (0 < m)%N -> exists l, (k < l <= k + m)%N /\ Inv l /\ Inv l.-1 /\ beta K n (st l.-1) != 0 /\
  loop K n A shift tol eps maxiter m (st k) = Value K n (x K n (st l)).
Proof.
  elim=> // m IH k I Nb _. have S := step k I Nb. have D : forall r, istop K n (st k.+1) = r -> r <> Going ->
    exists l, (k < l <= k + m.+1)%N /\ Inv l /\ Inv l.-1 /\ beta K n (st l.-1) != 0 /\ loop K n A shift tol eps maxiter m.+1 (st k) = Value K n (x K n (st l)).
  { move=> r E N. exists k.+1. split; [by rewrite leqnn addnS ltnS leq_addr|]. split => //. split => //. split => //. rewrite [LHS]/loop -/(loop K n A shift tol eps maxiter) (negbTE Nb). rewrite -stS. rewrite E. by case: r N {E}. }
  case E : (istop K n (st k.+1)); try exact: D E _.
  have Nb' := going_beta k I Nb E. case: m IH D => [|m] IH D.
  - exists k.+1. split; [by rewrite addn1 !leqnn|]. split => //. split => //. split => //. rewrite [LHS]/loop -/(loop K n A shift tol eps maxiter) (negbTE Nb). rewrite -stS. by rewrite E.
  - have [l [/andP [L1 L2] [Il [Il' [Bl El]]]]] := IH k.+1 S Nb' isT. exists l. split; [by rewrite (ltnW L1) addnS -addSn L2|]. split => //. split => //. split => //.
    rewrite -El. rewrite [LHS]/loop -/(loop K n A shift tol eps maxiter) (negbTE Nb). rewrite -stS. by rewrite E.
Qed.
Lemma pow_span : forall k, Inv k -> forall j, (j < k)%N -> span V j.+1 (pw j).
Proof.
  move=> k I. elim=> [|j IH] L.
  - rewrite -st0. rewrite (I_r2 _ inv0). apply: span_scale. exact: span_one.
  - change (pw j.+1) with (B *m pw j). apply: (span_mul B V j.+1) (IH (ltnW L)). move=> i Li. apply: (span_le V i.+2) => //. apply: (I_lan _ I). exact: leq_trans Li (ltnW L).
Qed.
Lemma krylov_span : forall k z, Inv k -> krylov K n B b k z -> span V k z.
Proof. move=> k z I. apply: span_trans => i Li. apply: (span_le V i.+1) => //. exact: (pow_span k I). Qed.
Lemma span_krylov : forall k z, Inv k -> span V k z -> krylov K n B b k z.
Proof. move=> k z I. apply: span_trans => i Li. apply: (span_le pw i.+1) => //. apply: (I_kry _ I). exact: ltnW. Qed.
Lemma farther : forall r q : vec, dot r q = 0 -> dot r r <= dot (r + q) (r + q).
Proof. move=> r q R. by rewrite dotDl !dotDr R [dot q r]dotC R add0r addr0 ler_addl dot_ge0. Qed.
Lemma minimal : forall k z, Inv k -> krylov K n B b k z -> dot (b - B *m x K n (st k)) (b - B *m x K n (st k)) <= dot (b - B *m z) (b - B *m z).
Proof.
  move=> k z I /(krylov_span k z I) Sz. have [U [U1 [U2 [U3 [U4 _]]]]] := I_U _ I. set r := b - B *m x K n (st k).
  have -> : b - B *m z = r + B *m (x K n (st k) - z). { by rewrite /r mulmxBr addrA subrK. }
  have R : dot r (B *m (x K n (st k) - z)) = 0. { rewrite /r U1 dotZl. rewrite (span_dotB B V k U _ U4) ?mulr0 //. apply: span_sub => //. exact: (I_x _ I). }
  exact: farther.
Qed.
Lemma count : forall k (f : nat -> vec), (forall i j, (i < k)%N -> (j < k)%N -> dot (f i) (f j) = (i == j)%:R) -> (k <= n)%N.
Proof.
  move=> k f H. pose M : 'M[K]_(k, n) := \matrix_(i, j) f i j 0. apply: (@mulmx1_min _ _ _ M M^T). apply/matrixP => i j. rewrite !mxE. rewrite -(H i j) //. apply: eq_bigr => t _. by rewrite !mxE.
Qed.
Lemma passes : forall k, Inv k.+1 -> beta K n (st k) != 0 -> (k.+1 <= n)%N.
Proof. move=> k I Nb. apply: (count k.+1 V). exact: (I_orth _ I). Qed.
Lemma exact_end : forall k, Inv k.+1 -> k.+1 = n -> Inv k -> beta K n (st k) != 0 -> b - B *m x K n (st k.+1) = 0.
Proof.
  move=> k I En Ik Nb. have [U [U1 _]] := I_U _ I. rewrite U1. case: (eqVneq (beta K n (st k.+1)) 0) => [Z|N]; [by rewrite (beta0 k Ik Nb Z) scale0r|].
  exfalso. suff H : (k.+1 < n)%N by move: H; rewrite En ltnn. apply: (count k.+2 V) => i j. rewrite !ltnS leq_eqVlt => /orP [/eqP ->|Li]; rewrite leq_eqVlt => /orP [/eqP ->|Lj].
  - by rewrite eqxx (I_unit _ I N).
  - by rewrite (I_next _ I j Lj) (gtn_eqF Lj).
  - by rewrite dotC (I_next _ I i Li) (ltn_eqF Li).
  - exact: (I_orth _ I).
Qed.
End P.
