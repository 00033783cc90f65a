(** Cotangents of a triangle and the centre of its circumcircle. *)
From Coq Require Import Permutation.
From mathcomp Require Import all_ssreflect all_algebra.
From Verif Require Import GeoRing GeoModel MetModel MetSpec MetAff MetSum MetProofs MetVol.
From Verif Require SurfProofs.
From Verif Require Util SimpModel SimpSpec BdryModel SubdModel SubdSpec ParProofs LevelProofs TopProofs OrientProofs FundProofs.
Import Order.TTheory GRing.Theory Num.Theory.
Local Open Scope nat_scope.
Local Open Scope ring_scope.

Section Cot.
Variable K : rcfType.
Add Field Kf : (K_field K).
Ltac kring := kprep K; ring.
Variable d : nat.
Definition dot (u v : 'rV[K]_d) : K := \sum_j u 0 j * v 0 j.
Lemma dotC : forall u v, dot u v = dot v u. Proof. move=> u v. apply: eq_bigr => j _. exact: mulrC. Qed.
Lemma dotDl : forall u v w, dot (u + v) w = dot u w + dot v w. Proof. move=> u v w. rewrite /dot -big_split. apply: eq_bigr => j _. by rewrite mxE mulrDl. Qed.
Lemma dotZl : forall a u v, dot (a *: u) v = a * dot u v. Proof. move=> a u v. rewrite /dot mulr_sumr. apply: eq_bigr => j _. by rewrite mxE mulrA. Qed.
Lemma dotDr : forall u v w, dot w (u + v) = dot w u + dot w v. Proof. move=> u v w. by rewrite dotC dotDl !(dotC w). Qed.
Lemma dotZr : forall a u v, dot v (a *: u) = a * dot v u. Proof. move=> a u v. by rewrite dotC dotZl (dotC v). Qed.
Lemma dotNl : forall u v, dot (- u) v = - dot u v. Proof. move=> u v. by rewrite -scaleN1r dotZl mulN1r. Qed.
Lemma dotNr : forall u v, dot v (- u) = - dot v u. Proof. move=> u v. by rewrite dotC dotNl (dotC v). Qed.
Lemma dot_ge0 : forall u, 0 <= dot u u. Proof. move=> u. apply: sumr_ge0 => j _. by rewrite -expr2 sqr_ge0. Qed.
Lemma distanceE : forall p q, distance K d p q = Num.sqrt (dot (p - q) (p - q)).
Proof. move=> p q. congr Num.sqrt. apply: eq_bigr => j _. by rewrite !mxE expr2. Qed.
Lemma distance_sqr : forall p q, distance K d p q ^+ 2 = dot (p - q) (p - q).
Proof. move=> p q. by rewrite distanceE sqr_sqrtr ?dot_ge0. Qed.

(** the algebra of one corner: u and w the edges from it, a + 1/2 and b + 1/2 the coordinates of the centre *)
Lemma corner_algebra : forall uu uw ww a b : K, a * uu + b * uw = - (uw / 2%:R) -> a * uw + b * ww = - (uw / 2%:R) ->
  (a + b) * (uu * ww - uw * uw) = - (uw / 2%:R * (uu + ww - uw - uw)).
Proof.
  move=> uu uw ww a b H1 H2. have -> : (a + b) * (uu * ww - uw * uw) = (a * uu + b * uw) * (ww - uw) + (a * uw + b * ww) * (uu - uw) by kring. rewrite H1 H2. move: (uw / 2%:R) => z. kring.
Qed.
Definition twice_area2 (u w : 'rV[K]_d) : K := dot u u * dot w w - dot u w * dot u w.
Lemma half2 : forall x : K, x / 2%:R + x / 2%:R = x. Proof. move=> x. by rewrite -mulrDr -mulr2n -mulr_natr mulVf ?mulr1 // pnatr_eq0. Qed.
Lemma sgM_norm : forall x : K, Num.sg x * `|x| = x. Proof. move=> x. by rewrite -numEsg. Qed.

(** p: the corner, p + u and p + w the others, o the centre of the circumcircle, mid the midpoint of the opposite edge *)
Lemma corner_cot : forall (p u w o : 'rV[K]_d) b0 b1 b2, twice_area2 u w > 0 -> b0 + b1 + b2 = 1 -> o = b0 *: p + b1 *: (p + u) + b2 *: (p + w) ->
  dot (o - p) (o - p) = dot (o - (p + u)) (o - (p + u)) -> dot (o - p) (o - p) = dot (o - (p + w)) (o - (p + w)) ->
  Num.sg b0 * distance K d (2%:R^-1 *: (p + u) + 2%:R^-1 *: (p + w)) o = dot u w / Num.sqrt (twice_area2 u w) / 2%:R * distance K d (p + u) (p + w).
Proof.
  move=> p u w o b0 b1 b2 A B Ho E1 E2. have N2 : 2%:R != 0 :> K by rewrite pnatr_eq0.
  have Eo : o - p = b1 *: u + b2 *: w. { rewrite Ho. have -> : b0 = 1 - b1 - b2 by rewrite -B; kring. apply/rowP => j. rewrite !mxE. move: (p 0 j) (u 0 j) (w 0 j) => x y z. kring. }
  have Ou : o - (p + u) = b1 *: u + b2 *: w - u by rewrite opprD addrA Eo. have Ow : o - (p + w) = b1 *: u + b2 *: w - w by rewrite opprD addrA Eo.
  rewrite Eo Ou in E1. rewrite Eo Ow in E2. set uu := dot u u in A E1 E2 *. set uw := dot u w in A E1 E2 *. set ww := dot w w in A E1 E2 *.
  have Q1 : b1 * uu + b2 * uw = uu / 2%:R. { apply: (mulIf N2). rewrite mulfVK // mulr_natr mulr2n. move/eqP: E1. rewrite eq_sym -subr_eq0. rewrite !(dotDl, dotDr, dotNl, dotNr, dotZl, dotZr) (dotC w u) -/uu -/uw -/ww => /eqP E1. apply/eqP. rewrite -subr_eq0 -oppr_eq0. apply/eqP. rewrite -[RHS]E1. kring. }
  have Q2 : b1 * uw + b2 * ww = ww / 2%:R. { apply: (mulIf N2). rewrite mulfVK // mulr_natr mulr2n. move/eqP: E2. rewrite eq_sym -subr_eq0. rewrite !(dotDl, dotDr, dotNl, dotNr, dotZl, dotZr) (dotC w u) -/uu -/uw -/ww => /eqP E2. apply/eqP. rewrite -subr_eq0 -oppr_eq0. apply/eqP. rewrite -[RHS]E2. kring. }
  pose h := 2%:R^-1 : K. have Hh : h + h = 1 by rewrite -(half2 1) !mul1r. pose a := b1 - h. pose b := b2 - h.
  have R1 : a * uu + b * uw = - (uw / 2%:R). { have -> : a * uu + b * uw = (b1 * uu + b2 * uw) - uu * h - uw * h by rewrite /a /b; kring. rewrite Q1 subrr sub0r. by []. }
  have R2 : a * uw + b * ww = - (uw / 2%:R). { have -> : a * uw + b * ww = (b1 * uw + b2 * ww) - ww * h - uw * h by rewrite /a /b; kring. rewrite Q2 subrr sub0r. by []. }
  have Sum := corner_algebra uu uw ww a b R1 R2. have Eb : b0 = - (a + b). { have -> : b0 = 1 - b1 - b2 by rewrite -B; kring. rewrite -Hh /a /b. kring. }
  set D2 := twice_area2 u w in A *. have ED : uu * ww - uw * uw = D2 by []. rewrite ED in Sum. pose e2 := uu + ww - uw - uw. rewrite -/e2 in Sum.
  have Ee : dot (p + u - (p + w)) (p + u - (p + w)) = e2. { have -> : p + u - (p + w) = u - w by rewrite opprD addrACA subrr add0r. rewrite !(dotDl, dotDr, dotNl, dotNr) (dotC w u) -/uu -/uw -/ww /e2. kring. }
  have Em : 2%:R^-1 *: (p + u) + 2%:R^-1 *: (p + w) - o = - (a *: u + b *: w). { have -> : o = p + (b1 *: u + b2 *: w) by rewrite -Eo addrC subrK. apply/rowP => j. rewrite !mxE -/h /a /b. move: (p 0 j) (u 0 j) (w 0 j) => x y z. have -> : h * (x + y) + h * (x + z) - (x + (b1 * y + b2 * z)) = (h + h - 1) * x + - ((b1 - h) * y + (b2 - h) * z) by kring. by rewrite Hh subrr mul0r add0r. }
  have N : dot (- (a *: u + b *: w)) (- (a *: u + b *: w)) = uw / 2%:R * b0. { rewrite !(dotDl, dotDr, dotNl, dotNr, dotZl, dotZr) (dotC w u) -/uu -/uw -/ww Eb. have -> : uw / 2%:R * - (a + b) = a * - (uw / 2%:R) + b * - (uw / 2%:R) by move: (uw / 2%:R) => z; kring. rewrite -{1}R1 -R2. kring. }
  have ND : D2 != 0 by rewrite gt_eqF. have E0 : 0 <= e2 by rewrite -Ee dot_ge0.
  have Eb0 : b0 = uw / 2%:R * e2 / D2. { apply: (mulIf ND). rewrite mulfVK // Eb mulNr Sum opprK. by []. }
  have S1 : distance K d (2%:R^-1 *: (p + u) + 2%:R^-1 *: (p + w)) o = `|uw| / 2%:R * Num.sqrt e2 / Num.sqrt D2.
  { rewrite distanceE Em N Eb0. have -> : uw / 2%:R * (uw / 2%:R * e2 / D2) = (uw / 2%:R) ^+ 2 * (e2 / D2) by rewrite expr2 !mulrA. rewrite sqrtrM ?sqr_ge0 // sqrtr_sqr sqrtrM // sqrtrV ?ltW // normrM normfV normr_nat mulrA. by []. }
  rewrite S1 [distance _ _ (p + u) _]distanceE Ee. case: (ltrgt0P e2) E0 => // [Pe|Ze] _; [|by rewrite Ze sqrtr0 !mulr0 mul0r mulr0].
  have -> : Num.sg b0 = Num.sg uw. { rewrite Eb0 sgrM sgrM sgrM (gtr0_sg Pe) mulr1. have -> : Num.sg (2%:R^-1 : K) = 1 by apply: gtr0_sg; rewrite invr_gt0 ltr0n. have -> : Num.sg D2^-1 = 1 by apply: gtr0_sg; rewrite invr_gt0. by rewrite !mulr1. }
  rewrite !mulrA sgM_norm. rewrite -!mulrA. congr (_ * _). rewrite [RHS]mulrCA. congr (_ * _). by rewrite mulrC.
Qed.
(** ** Cosines *)
Lemma dot_zero : forall u, dot u u = 0 -> u = 0.
Proof. move=> u H. apply/rowP => j. rewrite mxE. move/eqP: H. rewrite /dot psumr_eq0; [|by move=> i _; rewrite -expr2 sqr_ge0]. move/allP => H. have := H j (mem_index_enum j). by rewrite /= -expr2 sqrf_eq0 => /eqP. Qed.
Lemma dot0l : forall v, dot 0 v = 0. Proof. move=> v. apply: big1 => j _. by rewrite mxE mul0r. Qed.
Lemma area_pos : forall u w, twice_area2 u w != 0 -> 0 < twice_area2 u w.
Proof.
  move=> u w N. rewrite lt_neqAle eq_sym N /=. have [Z|Nu] := eqVneq (dot u u) 0. { case/negP: N. rewrite (dot_zero u Z) /twice_area2 !dot0l !mul0r subrr. by []. }
  have Pu : 0 < dot u u by rewrite lt_neqAle eq_sym Nu dot_ge0. rewrite -(pmulr_rge0 _ Pu). have <- : dot (dot u u *: w - dot u w *: u) (dot u u *: w - dot u w *: u) = dot u u * twice_area2 u w; [|exact: dot_ge0].
  rewrite !(dotDl, dotDr, dotNl, dotNr, dotZl, dotZr) (dotC w u) /twice_area2. kring.
Qed.
Lemma area_parts : forall u w, 0 < twice_area2 u w -> 0 < dot u u /\ 0 < dot w w.
Proof.
  move=> u w A. have P : 0 < dot u u * dot w w. { apply: lt_le_trans A _. rewrite /twice_area2 ger_addl oppr_le0 -expr2. exact: sqr_ge0. }
  have Nu : dot u u != 0 by apply/negP => /eqP Z; rewrite Z mul0r ltxx in P. have Nw : dot w w != 0 by apply/negP => /eqP Z; rewrite Z mulr0 ltxx in P.
  by rewrite !lt_neqAle !dot_ge0 !andbT !(eq_sym 0) Nu Nw.
Qed.
Lemma unitE : forall v : 'rV[K]_d, 0 < dot v v -> unit_or_zero K d v = (Num.sqrt (dot v v))^-1 *: v.
Proof. move=> v P. rewrite /unit_or_zero. have -> : \sum_j v 0 j ^+ 2 = dot v v by apply: eq_bigr => j _; rewrite expr2. by rewrite gt_eqF // sqrtr_gt0. Qed.
Lemma cosine_gen : forall p q r : 'rV[K]_d, 0 < twice_area2 (q - p) (r - p) ->
  - (\sum_j unit_or_zero K d (r - p) 0 j * unit_or_zero K d (p - q) 0 j) = dot (q - p) (r - p) / (Num.sqrt (dot (q - p) (q - p)) * Num.sqrt (dot (r - p) (r - p))).
Proof.
  move=> p q r A. have [P1 P2] := area_parts _ _ A. rewrite -[p - q]opprB. set u := q - p in A P1 *. set w := r - p in A P2 *. have Nu : dot (- u) (- u) = dot u u by rewrite dotNl dotNr opprK.
  rewrite unitE // unitE ?Nu // -[\sum_j _]/(dot _ _) dotZl dotZr dotNr (dotC w u) invfM !mulrN opprK mulrCA mulrA [RHS]mulrC. by [].
Qed.
Lemma cotangent_gen : forall u w : 'rV[K]_d, 0 < twice_area2 u w -> cotangent K (dot u w / (Num.sqrt (dot u u) * Num.sqrt (dot w w))) = Some (dot u w / Num.sqrt (twice_area2 u w)).
Proof.
  move=> u w A. have [P1 P2] := area_parts _ _ A. set uw := dot u w. have M : Num.sqrt (dot u u) * Num.sqrt (dot w w) = Num.sqrt (dot u u * dot w w) by rewrite sqrtrM // ltW. rewrite M. set S := dot u u * dot w w. have PS : 0 < S by exact: mulr_gt0.
  have NS : Num.sqrt S != 0 by rewrite gt_eqF // sqrtr_gt0. have C2 : (uw / Num.sqrt S) ^+ 2 = uw * uw / S by rewrite expr_div_n sqr_sqrtr ?ltW // expr2.
  have E1 : 1 - uw * uw / S = twice_area2 u w / S by rewrite /twice_area2 -/uw -/S mulrBl divff // gt_eqF. rewrite /cotangent C2. case: eqP => [Z|_].
  - exfalso. move: A. have -> : twice_area2 u w = (1 - uw * uw / S) * S by rewrite E1 mulfVK // gt_eqF. by rewrite Z subrr mul0r ltxx.
  - congr Some. rewrite E1 sqrtrM ?(ltW A) // sqrtrV ?(ltW PS) // invfM invrK mulrACA mulVf // mulr1. by [].
Qed.
Definition third (i : nat) : nat := ((i + 2) %% 3)%N.
Definition next (i : nat) : nat := ((i + 1) %% 3)%N.
Lemma cotangent_corner : forall (v : nat -> 'rV[K]_d) i, (i < 3)%N -> 0 < twice_area2 (v (next i) - v i) (v (third i) - v i) ->
  cotangent K (triangle_cosine K d v i) = Some (dot (v (next i) - v i) (v (third i) - v i) / Num.sqrt (twice_area2 (v (next i) - v i) (v (third i) - v i))).
Proof. move=> v i L A. rewrite -(cotangent_gen _ _ A) -(cosine_gen _ _ _ A). by case: i L A => [|[|[|]]]. Qed.
(** the doubled area does not depend on the corner *)
Lemma area_turn : forall p q r : 'rV[K]_d, twice_area2 (q - p) (r - p) = twice_area2 (r - q) (p - q).
Proof.
  move=> p q r. have -> : r - q = (r - p) - (q - p) by rewrite opprB addrA subrK. rewrite -[p - q]opprB. move: (q - p) (r - p) => u w. rewrite /twice_area2 !(dotDl, dotDr, dotNl, dotNr) (dotC w u). kring.
Qed.
Lemma measure2 : forall pts : 'M[K]_(3, d), measure K d 2%N pts != 0 -> forall i, (i < 3)%N -> 0 < twice_area2 (row (inord (next i)) pts - row (inord i) pts) (row (inord (third i)) pts - row (inord i) pts).
Proof.
  move=> pts M. have A0 : 0 < twice_area2 (row (inord 1) pts - row (inord 0) pts) (row (inord 2) pts - row (inord 0) pts).
  { apply: area_pos. apply/negP => /eqP Z. case/negP: M. rewrite /measure /unsigned_volume. case: ifP => //= _. rewrite SurfProofs.det22. have -> : forall x : K, x = 0 -> Num.sqrt `|x| / 2`!%:R == 0; [by move=> x ->; rewrite normr0 sqrtr0 mul0r|by []|].
    rewrite -[RHS]Z /twice_area2. have E : forall a b : 'I_2, (edges_from_first K 2 d pts *m (edges_from_first K 2 d pts)^T) a b = dot (row (lift ord0 a) pts - row ord0 pts) (row (lift ord0 b) pts - row ord0 pts) by move=> a b; rewrite mxE; apply: eq_bigr => j _; rewrite !mxE.
    rewrite !E. have -> : inord 0 = ord0 :> 'I_3 by apply: val_inj; rewrite /= inordK. have -> : inord 1 = lift ord0 ord0 :> 'I_3 by apply: val_inj; rewrite /= inordK. have -> : inord 2 = lift ord0 (lift ord0 ord0) :> 'I_3 by apply: val_inj; rewrite /= inordK. by rewrite (dotC (row _ pts - _) (row (lift ord0 ord0) pts - _)). }
  case=> [|[|[|]]] // _; rewrite -?[next 0]/1%N -?[third 0]/2%N -?[next 1]/2%N -?[third 1]/0%N -?[next 2]/0%N -?[third 2]/1%N; [by rewrite -area_turn|by rewrite area_turn].
Qed.
End Cot.
