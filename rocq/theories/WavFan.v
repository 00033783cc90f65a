(** C94: a fan of six acute triangles around a vertex for which the averages do not reproduce linear functions. *)
From Coq Require Import Ring Field ZArith InitialRing.
From mathcomp Require Import all_ssreflect all_fingroup all_algebra.
From Verif Require Import GeoModel GeoSpec GeoProofs GeoProps GeoRing WavModel WavProofs WavProps.
From Verif Require Util.
Import Order.TTheory GRing.Theory Num.Theory.
Local Open Scope ring_scope.

Local Delimit Scope Z_scope with ZZ.

Section Fan.
Variable K : rcfType.
Add Field Kf : (K_field K).
Ltac kring := kprep K; ring.
Ltac kfield := kprep K; field.

(** integers as elements of the field *)
Definition IZ (z : Z) : K := gen_phiZ (k0 K) (k1 K) (kadd K) (kmul K) (kopp K) z.
Arguments IZ : simpl never.
Definition IZm := gen_phiZ_morph (Eqsth _) (Eq_ext (kadd K) (kmul K) (kopp K)) (K_ring K).
Lemma IZD : forall x y, IZ (x + y) = IZ x + IZ y. Proof. exact: (morph_add IZm). Qed.
Lemma IZM : forall x y, IZ (x * y) = IZ x * IZ y. Proof. exact: (morph_mul IZm). Qed.
Lemma IZN : forall x, IZ (- x) = - IZ x. Proof. exact: (morph_opp IZm). Qed.
Lemma IZB : forall x y, IZ (x - y) = IZ x - IZ y. Proof. exact: (morph_sub IZm). Qed.
Lemma IZ_gt0 : forall p, 0 < IZ (Z.pos p).
Proof.
  move=> p. rewrite /IZ /=. have A1 : 0 < kadd K (k1 K) (k1 K) by rewrite /kadd /k1 addr_gt0 ?ltr01.
  elim: p => [p IH|p IH|] /=; [case: p IH => [p|p|] IH|case: p IH => [p|p|] IH|]; rewrite /k1 ?ltr01 //; rewrite /kadd /kmul; do ?[apply: addr_gt0|apply: mulr_gt0]; rewrite ?ltr01 //; exact: IH.
Qed.
Lemma IZ_sign : forall z, match z with Z.pos _ => 0 < IZ z | Z0 => IZ z = 0 | Z.neg _ => IZ z < 0 end.
Proof. case=> [//|p|p]; [exact: IZ_gt0|]. rewrite -Pos2Z.opp_pos IZN oppr_lt0. exact: IZ_gt0. Qed.

(** ---- the fan: coordinates are multiples of 1/25 ---- *)
Definition pt (x y : Z) : 'rV[K]_2 := \row_j (if j == ord0 then IZ x else IZ y).
Definition cells : seq 'rV[K]_2 := [:: pt 150 0; pt 75 100; pt (-75) 100; pt (-125) 0; pt (-75) (-100); pt 75 (-100)].
(** the six edges at the centre, then the rim *)
Definition edges : seq 'rV[K]_2 := [:: pt 96 72; pt 0 100; pt (-100) 50; pt (-100) (-50); pt 0 (-100); pt 96 (-72);
  pt 192 0; pt 96 172; pt (-100) 150; pt (-200) 0; pt (-100) (-150); pt 96 (-172)].
Definition vertices : seq 'rV[K]_2 := [:: pt 0 0; pt 192 144; pt 0 200; pt (-200) 100; pt (-200) (-100); pt 0 (-200); pt 192 (-144)].
Definition fan_PP : seq (seq 'rV[K]_2) := [:: vertices; edges; cells].
(** triangle j has the vertices 0, p, j + 1 with p = (j + 5) mod 6 + 1 *)
Definition fan_domains : seq (seq nat) := flatten [seq let p := ((j + 5) %% 6)%N in
  [:: [:: 0; p; j]; [:: 0; j; j]; [:: p.+1; p; j]; [:: p.+1; 6 + j; j]; [:: j.+1; j; j]; [:: j.+1; 6 + j; j]]%N | j <- iota 0 6].
(** the uniform average *)
Definition fan_A : seq (nat -> nat -> K) := nseq 3 (fun _ _ => 6%:R^-1).
Lemma IZ0 : IZ 0 = 0. Proof. by []. Qed.
Lemma ptx : forall x y, pt x y 0 ord0 = IZ x. Proof. move=> x y. by rewrite mxE. Qed.
Lemma pty : forall x y, pt x y 0 (lift ord0 ord0) = IZ y. Proof. move=> x y. by rewrite mxE. Qed.
Lemma len_pt : forall a b c d R, (0 <= R)%ZZ -> (R * R = (a - c) * (a - c) + (b - d) * (b - d))%ZZ -> len K 2 (fun i => pt a b 0 i - pt c d 0 i) = IZ R.
Proof.
  move=> a b c d R R0 E. rewrite len2 !ptx !pty -!IZB !expr2 -!IZM -IZD -E IZM -expr2 sqrtr_sqr. case: R R0 E => [|R|R] // R0 E; [by rewrite normr0|]. rewrite gtr0_norm //. exact: IZ_gt0.
Qed.
Lemma fan_weight : forall j c ex ey tx ty m s R, at_ K 2 fan_PP 1 j = pt ex ey -> at_ K 2 fan_PP 2 c = pt tx ty ->
  (18000 * (tx - ex) = - (s * R * ey))%ZZ -> (18000 * (ty - ey) = s * R * ex)%ZZ -> Z.abs s = m -> (0 < R)%ZZ -> (R * R = (tx - 0) * (tx - 0) + (ty - 0) * (ty - 0))%ZZ ->
  (0 < ex * ex + ey * ey)%ZZ -> weight K 2 2 fan_PP [:: 0; j; c]%N 1 = IZ m / IZ 18000.
Proof.
  move=> j c ex ey tx ty m s R Ej Ec E1 E2 Em R0 ER Ee. rewrite weight2 /= Ej Ec. have -> : at_ K 2 fan_PP 0 0 = pt 0 0 by [].
  rewrite (len_pt tx ty 0 0 R) //; [|exact: Z.lt_le_incl]. have D0 := IZ_gt0 18000. have Dn := lt0r_neq0 D0.
  rewrite (turned K (fun i => pt ex ey 0 i - pt 0 0 0 i) _ (IZ (s * R) / IZ 18000)).
  - have Le : 0 < len K 2 (fun i => pt ex ey 0 i - pt 0 0 0 i).
    { rewrite len2 !ptx !pty IZ0 !subr0 sqrtr_gt0 !expr2 -!IZM -IZD. move: (ex * ex + ey * ey)%ZZ Ee => [|z|z] // _. exact: IZ_gt0. }
    have Rp : 0 < IZ R by case: R R0 {ER E1 E2} => // R _; exact: IZ_gt0.
    have -> : `|IZ (s * R) / IZ 18000| = IZ m * IZ R / IZ 18000. { rewrite normrM normfV IZM normrM (gtr0_norm Rp) (gtr0_norm D0) -Em. congr (_ * _ / _). have := IZ_sign s. case: s {E1 E2 Em} => [|z|z] X; [by rewrite X normr0|by rewrite gtr0_norm|]. rewrite ltr0_norm // -IZN //. }
    have Ln := lt0r_neq0 Le. have Rn := lt0r_neq0 Rp. move: (len _ _ _) (IZ R) (IZ m) (IZ 18000) Ln Rn Dn => l r mm d Ln Rn Dn. kfield. split; [|split]; exact/eqP.
  - rewrite !ptx !pty IZ0 !subr0. apply: (mulfI Dn). rewrite -IZB -IZM E1 IZN !IZM. move: (IZ 18000) Dn => d Dn. kfield. exact/eqP.
  - rewrite !ptx !pty IZ0 !subr0. apply: (mulfI Dn). rewrite -IZB -IZM E2 !IZM. move: (IZ 18000) Dn => d Dn. kfield. exact/eqP.
Qed.

(** Without the equal distances of C94_ring_partial the claim is false, even if the cells are the circumcentres of triangles v,
    u, u' with u = 2 e - v and are inside of them. *)
Theorem C94_vertices_refuted : ~ (forall (PP : seq (seq 'rV[K]_2)) (domains : seq (seq nat)) cols (A : seq (nat -> nat -> K)) r a k (S T : nat -> nat),
  (forall d, d \in domains -> (nth 0%N d 2 < cols)%N) -> (0 < k)%N -> T k = T 0%N -> S k = S 0%N ->
  perm_eq [seq d <- domains | nth 0%N d 0 == r] (flatten [seq [:: [:: r; S j; T j]; [:: r; S j; T j.+1]] | j <- iota 0 k]) ->
  0 < a -> (forall j, (j < k)%N -> nth (fun _ _ => 0) A 2 r (T j) = a) ->
  let v := at_ K 2 PP 0 r in let e j := at_ K 2 PP 1 (S j) in let t j := at_ K 2 PP 2 (T j) in
  (forall j, (j < k)%N -> 0 < len K 2 (fun i => t j 0 i - v 0 i) /\ 0 < len K 2 (fun i => e j 0 i - v 0 i) /\
    dotp K 2 (fun i => e j 0 i - v 0 i) (fun i => t j 0 i - e j 0 i) = 0 /\ dotp K 2 (fun i => e j 0 i - v 0 i) (fun i => t j.+1 0 i - e j 0 i) = 0 /\
    0 < (t j 0 ord0 - v 0 ord0) * (t j.+1 0 (lift ord0 ord0) - v 0 (lift ord0 ord0)) - (t j 0 (lift ord0 ord0) - v 0 (lift ord0 ord0)) * (t j.+1 0 ord0 - v 0 ord0) /\
    exists l0 l1 l2, 0 < l0 /\ 0 < l1 /\ 0 < l2 /\ l0 + l1 + l2 = 1 /\
      forall i, t j.+1 0 i = l0 * v 0 i + l1 * (e j 0 i + (e j 0 i - v 0 i)) + l2 * (e j.+1 0 i + (e j.+1 0 i - v 0 i))) ->
  exists W, weighted_average_operators K 2 2 PP domains true true cols A = Util.Ok W /\
  forall i, \sum_(c < cols) nth (fun _ _ => 0) W 2 r c * at_ K 2 PP 2 c 0 i = v 0 i).
Proof.
  move=> /(_ fan_PP fan_domains 6%N fan_A 0%N 6%:R^-1 6%N (fun j => j %% 6)%N (fun j => j %% 6)%N) H. case: H => //.
  - by apply/allP.
  - by rewrite invr_gt0 ltr0n.
  - have D2 : forall u w : 'I_2 -> K, dotp K 2 u w = u ord0 * w ord0 + u (lift ord0 ord0) * w (lift ord0 ord0) by move=> u w; rewrite /dotp !big_ord_recl big_ord0 addr0.
    have Pos : forall z, (0 < z)%ZZ -> 0 < IZ z. { case=> // z _. exact: IZ_gt0. }
    have Ln : forall a b c d, (0 < (a - c) * (a - c) + (b - d) * (b - d))%ZZ -> 0 < len K 2 (fun i => pt a b 0 i - pt c d 0 i). { move=> a b c d X. rewrite len2 !ptx !pty -!IZB !expr2 -!IZM -IZD sqrtr_gt0. exact: Pos. }
    have Dt : forall a b c d e f, ((c - a) * (e - c) + (d - b) * (f - d) = 0)%ZZ -> dotp K 2 (fun i => pt c d 0 i - pt a b 0 i) (fun i => pt e f 0 i - pt c d 0 i) = 0. { move=> a b c d e f X. by rewrite D2 !ptx !pty -!IZB -!IZM -IZD X. }
    have Bc : forall a b c d e f m0 m1 m2, (0 < m0)%ZZ -> (0 < m1)%ZZ -> (0 < m2)%ZZ -> (m0 + m1 + m2 = 64)%ZZ -> (64 * a = 2 * (m1 * c + m2 * e))%ZZ -> (64 * b = 2 * (m1 * d + m2 * f))%ZZ -> 
      exists l0 l1 l2, 0 < l0 /\ 0 < l1 /\ 0 < l2 /\ l0 + l1 + l2 = 1 /\ forall i, pt a b 0 i = l0 * pt 0 0 0 i + l1 * (pt c d 0 i + (pt c d 0 i - pt 0 0 0 i)) + l2 * (pt e f 0 i + (pt e f 0 i - pt 0 0 0 i)).
    { move=> a b c d e f m0 m1 m2 P0 P1 P2 Sm X Y. exists (IZ m0 / IZ 64), (IZ m1 / IZ 64), (IZ m2 / IZ 64). have D0 := IZ_gt0 64. have Dn := lt0r_neq0 D0.
      split; [by rewrite divr_gt0 ?Pos|]. split; [by rewrite divr_gt0 ?Pos|]. split; [by rewrite divr_gt0 ?Pos|]. split; [by rewrite -!mulrDl -!IZD Sm divff|].
      have Q : forall x y z, (64 * x = 2 * (m1 * y + m2 * z))%ZZ -> IZ x = IZ m0 / IZ 64 * IZ 0 + IZ m1 / IZ 64 * (IZ y + (IZ y - IZ 0)) + IZ m2 / IZ 64 * (IZ z + (IZ z - IZ 0)).
      { move=> x y z E. apply: (mulfI Dn). rewrite -IZM E. rewrite IZ0 !subr0 !IZM !IZD !IZM. have -> : IZ 2 = 1 + 1 by []. move: (IZ 64) Dn => D Dn. kfield. exact/eqP. }
      move=> i. have [->|->] : i = ord0 \/ i = lift ord0 ord0. { case: i => [[|[|m]] Li] //; [left|right]; exact: val_inj. } rewrite !ptx. exact: Q. rewrite !pty. exact: Q. }
    have Cr : forall a b c d e f, (0 < (c - a) * (f - b) - (d - b) * (e - a))%ZZ -> 0 < (pt c d 0 ord0 - pt a b 0 ord0) * (pt e f 0 (lift ord0 ord0) - pt a b 0 (lift ord0 ord0)) - (pt c d 0 (lift ord0 ord0) - pt a b 0 (lift ord0 ord0)) * (pt e f 0 ord0 - pt a b 0 ord0).
    { move=> a b c d e f X. rewrite !ptx !pty -!IZB -!IZM -IZB. exact: Pos. }
    case=> [|[|[|[|[|[|j]]]]]] // _; (split; [exact: Ln|split; [exact: Ln|split; [exact: Dt|split; [exact: Dt|split; [exact: Cr|]]]]]).
    + by apply: (Bc _ _ _ _ _ _ 25 25 14)%ZZ.
    + by apply: (Bc _ _ _ _ _ _ 20 20 24)%ZZ.
    + by apply: (Bc _ _ _ _ _ _ 24 20 20)%ZZ.
    + by apply: (Bc _ _ _ _ _ _ 20 24 20)%ZZ.
    + by apply: (Bc _ _ _ _ _ _ 25 14 25)%ZZ.
    + by apply: (Bc _ _ _ _ _ _ 14 25 25)%ZZ.
  - move=> W [EW /(_ ord0)]. move: EW. rewrite /weighted_average_operators => -[<-]. rewrite [nth _ _ 2]/=. set q := biased _ _ _ _ _ _ _. have -> : at_ K 2 fan_PP 0 0 = pt 0 0 by [].
    rewrite ptx IZ0 => Z. have Q0 : \sum_(c < 6) q 0%N c * at_ K 2 fan_PP 2 c 0 ord0 = 0.
    { case: (eqVneq (\sum_(j < 6) `|q 0%N j|) 0) => [P0|Pn].
      - rewrite big1 // => c _. have /allP X : all (fun j : 'I_6 => true ==> (`|q 0%N j| == 0)) (index_enum _) by rewrite -psumr_eq0 ?P0 // => j _; exact: normr_ge0. have := X c (mem_index_enum c). rewrite /= normr_eq0 => /eqP ->. exact: mul0r.
      - have := congr1 (fun x => x * (\sum_(j < 6) `|q 0%N j|)) Z. rewrite mul0r mulr_suml => ZZ0. rewrite -[RHS]ZZ0. apply: eq_bigr => c _. by rewrite /normalized [RHS]mulrAC divfK. }
    move: Q0. rewrite /q. rewrite (row_average K 2 2 fan_PP fan_domains 6 fan_A 1 0 (fun c => at_ K 2 fan_PP 2 c 0 ord0) 6%:R^-1) //; [|by apply/allP].
    move/eqP. rewrite mulf_eq0 invr_eq0 pnatr_eq0 /= => /eqP.
    rewrite -big_filter. have -> : [seq d <- fan_domains | nth 0%N d 0 == 0%N] = [:: [:: 0; 5; 0]; [:: 0; 0; 0]; [:: 0; 0; 1]; [:: 0; 1; 1]; [:: 0; 1; 2]; [:: 0; 2; 2]; [:: 0; 2; 3]; [:: 0; 3; 3]; [:: 0; 3; 4]; [:: 0; 4; 4]; [:: 0; 4; 5]; [:: 0; 5; 5]]%N by [].
    rewrite !big_cons big_nil.
    have Tm : forall j c ex ey tx ty s R, at_ K 2 fan_PP 1 j = pt ex ey -> at_ K 2 fan_PP 2 c = pt tx ty ->
      (18000 * (tx - ex) = - (s * R * ey))%ZZ -> (18000 * (ty - ey) = s * R * ex)%ZZ -> (0 < R)%ZZ -> (R * R = (tx - 0) * (tx - 0) + (ty - 0) * (ty - 0))%ZZ ->
      (0 < ex * ex + ey * ey)%ZZ -> weight K 2 2 fan_PP [:: 0; j; c]%N 1 * at_ K 2 fan_PP 2 (nth 0%N [:: 0; j; c]%N 2) 0 ord0 = IZ (Z.abs s * tx) / IZ 18000.
    { move=> j c ex ey tx ty s R Ej Ec E1 E2 R0 ER Ee. rewrite (fan_weight j c ex ey tx ty _ s R Ej Ec E1 E2 erefl R0 ER Ee) [nth _ _ _]/= Ec ptx mulrAC -IZM. by []. }
    set E := (X in X = 0 -> _). have [n En N] : exists2 n, E = IZ n / IZ 18000 & n = 4500%ZZ.
    { have Ad : forall (a b : K) x y, a = IZ x / IZ 18000 -> b = IZ y / IZ 18000 -> a + b = IZ (x + y) / IZ 18000 by move=> a b x y -> ->; rewrite -mulrDl -IZD.
      have Z0 : (0 : K) = IZ 0 / IZ 18000 by rewrite IZ0 mul0r. eexists; [rewrite /E|].
      eapply Ad; [exact: (Tm 5%N 0%N 96 (-72) 150 0 90 150 erefl erefl erefl erefl erefl erefl erefl)%ZZ|].
      eapply Ad; [exact: (Tm 0%N 0%N 96 72 150 0 (-90) 150 erefl erefl erefl erefl erefl erefl erefl)%ZZ|].
      eapply Ad; [exact: (Tm 0%N 1%N 96 72 75 100 42 125 erefl erefl erefl erefl erefl erefl erefl)%ZZ|].
      eapply Ad; [exact: (Tm 1%N 1%N 0 100 75 100 (-108) 125 erefl erefl erefl erefl erefl erefl erefl)%ZZ|].
      eapply Ad; [exact: (Tm 1%N 2%N 0 100 (-75) 100 108 125 erefl erefl erefl erefl erefl erefl erefl)%ZZ|].
      eapply Ad; [exact: (Tm 2%N 2%N (-100) 50 (-75) 100 (-72) 125 erefl erefl erefl erefl erefl erefl erefl)%ZZ|].
      eapply Ad; [exact: (Tm 2%N 3%N (-100) 50 (-125) 0 72 125 erefl erefl erefl erefl erefl erefl erefl)%ZZ|].
      eapply Ad; [exact: (Tm 3%N 3%N (-100) (-50) (-125) 0 (-72) 125 erefl erefl erefl erefl erefl erefl erefl)%ZZ|].
      eapply Ad; [exact: (Tm 3%N 4%N (-100) (-50) (-75) (-100) 72 125 erefl erefl erefl erefl erefl erefl erefl)%ZZ|].
      eapply Ad; [exact: (Tm 4%N 4%N 0 (-100) (-75) (-100) (-108) 125 erefl erefl erefl erefl erefl erefl erefl)%ZZ|].
      eapply Ad; [exact: (Tm 4%N 5%N 0 (-100) 75 (-100) 108 125 erefl erefl erefl erefl erefl erefl erefl)%ZZ|].
      eapply Ad; [exact: (Tm 5%N 5%N 96 (-72) 75 (-100) (-42) 125 erefl erefl erefl erefl erefl erefl erefl)%ZZ|].
      exact: Z0. reflexivity. }
    rewrite En N => /eqP. by rewrite mulf_eq0 invr_eq0 (gt_eqF (IZ_gt0 18000)) orbF (gt_eqF (IZ_gt0 4500)).
Qed.

(** ---- the hypotheses are met ---- *)
Lemma indep2 : forall a b c d e f, ((c - a) * (f - b) - (d - b) * (e - a) <> 0)%ZZ -> forall M : 'M[K]_(3, 2),
  (forall i, M ord0 i = pt a b 0 i) -> (forall i, M (lift ord0 ord0) i = pt c d 0 i) -> (forall i, M (lift ord0 (lift ord0 ord0)) i = pt e f 0 i) -> ~ dependent K 3 2 M.
Proof.
  move=> a b c d e f N M E0 E1 E2 [u [[i Ni] [S0 S1]]]. move: S0 (S1 ord0) (S1 (lift ord0 ord0)). rewrite !big_ord_recl !big_ord0 !addr0 !E0 !E1 !E2 !ptx !pty.
  have G : forall x y z, x + (y + z) = 0 -> x * IZ a + (y * IZ c + z * IZ e) = 0 -> x * IZ b + (y * IZ d + z * IZ f) = 0 -> [/\ x = 0, y = 0 & z = 0].
  { move=> x y z S0 X Y. have D : IZ ((c - a) * (f - b) - (d - b) * (e - a)) != 0. { have := IZ_sign ((c - a) * (f - b) - (d - b) * (e - a)). case: (_ - _)%ZZ N => [|p|p] // _ P; [exact: lt0r_neq0|exact: ltr0_neq0]. }
    have Fx : x = - y - z by rewrite -[LHS]addr0 -oppr0 -S0; kring.
    have X' : y * (IZ c - IZ a) + z * (IZ e - IZ a) = 0. { rewrite -X Fx. kring. } have Y' : y * (IZ d - IZ b) + z * (IZ f - IZ b) = 0. { rewrite -Y Fx. kring. }
    have Zy : y = 0. { apply: (mulIf D). rewrite mul0r !IZB !IZM !IZB. transitivity ((y * (IZ c - IZ a) + z * (IZ e - IZ a)) * (IZ f - IZ b) - (y * (IZ d - IZ b) + z * (IZ f - IZ b)) * (IZ e - IZ a)); [kring|]. rewrite X' Y'. kring. }
    have Zz : z = 0. { apply: (mulIf D). rewrite mul0r !IZB !IZM !IZB. transitivity ((y * (IZ d - IZ b) + z * (IZ f - IZ b)) * (IZ c - IZ a) - (y * (IZ c - IZ a) + z * (IZ e - IZ a)) * (IZ d - IZ b)); [kring|]. rewrite X' Y'. kring. }
    split => //. by rewrite Fx Zy Zz oppr0 addr0. }
  move=> S0 X Y. case: (G _ _ _ S0 X Y) => U0 U1 U2. apply: Ni. case: i => [[|[|[|m]]] Li] //.
  - rewrite -[RHS]U0. congr u. exact: val_inj.
  - rewrite -[RHS]U1. congr u. exact: val_inj.
  - rewrite -[RHS]U2. congr u. exact: val_inj.
Qed.
Lemma fan_ok : forall d, d \in fan_domains -> (nth 0%N d 2 < 6)%N /\ ~ dependent K 3 2 (\matrix_(k, j) nth 0 (nth [::] fan_PP k) (nth 0%N d k) 0 j).
Proof.
  move=> d Dd. split; [by move: d Dd; apply/allP|]. have I : forall d', ~ dependent K 3 2 (\matrix_(k, j) nth 0 (nth [::] fan_PP k) (nth 0%N d' k) 0 j) -> d = d' -> ~ dependent K 3 2 (\matrix_(k, j) nth 0 (nth [::] fan_PP k) (nth 0%N d k) 0 j) by move=> d' X ->.
  move: Dd. rewrite /fan_domains /=. rewrite !inE.
  repeat (case/orP; [move/eqP; apply: I; by eapply indep2; [|move=> i; rewrite mxE /=; reflexivity|move=> i; rewrite mxE /=; reflexivity|move=> i; rewrite mxE /=; reflexivity]|]).
  move/eqP; apply: I; by eapply indep2; [|move=> i; rewrite mxE /=; reflexivity|move=> i; rewrite mxE /=; reflexivity|move=> i; rewrite mxE /=; reflexivity].
Qed.

(** C94_weights: the fan *)
Example fan_weights : exists W, weighted_average_operators K 2 2 fan_PP fan_domains true true 6 fan_A = Util.Ok W /\
  \sum_(c < 6) nth (fun _ _ => 0) W 2 0%N c = 1 /\ 0 < nth (fun _ _ => 0) W 1 0%N 1%N /\ ~ 0 < nth (fun _ _ => 0) W 1 0%N 2%N.
Proof.
  have A6 : 0 < (6%:R : K)^-1 by rewrite invr_gt0 ltr0n.
  case: (C94_weights K 2 2 fan_PP fan_domains 6 fan_A) => //.
  - exact: fan_ok.
  - move=> i r c Li. rewrite nth_nseq. by case: ifP => _ //; exact: ltW.
  - move=> i d Li Dd. by rewrite nth_nseq ltnS Li.
  - move=> W [E [_ [_ H]]]. exists W. split => //. case: (H 1%N 0%N) => // _ [-> _]. split => //. case: (H 0%N 0%N) => // _ [_ P]. split; [exact: (proj2 (P 1%N isT) isT)|]. move=> X. have := proj1 (P 2%N isT) X. by [].
Qed.
(** C94_faces: the edge between the first two cells of the fan *)
Example fan_faces : exists W, weighted_average_operators K 2 2 fan_PP fan_domains true true 6 fan_A = Util.Ok W /\
  forall j, \sum_(c < 6) nth (fun _ _ => 0) W 1 0%N c * at_ K 2 fan_PP 2 c 0 j = pt 96 72 0 j.
Proof.
  have A6 : 0 < (6%:R : K)^-1 by rewrite invr_gt0 ltr0n.
  apply: (C94_faces K 2 2 fan_PP fan_domains 6 fan_A 0 0 1 2 (IZ 7 / IZ 18)) => //.
  - exact: fan_ok.
  - have : all (fun d => (nth 0%N d 1 == 0%N) ==> (nth 0%N d 2 == 0%N) || (nth 0%N d 2 == 1%N)) fan_domains by []. move/allP => H d /H /implyP X /eqP /X /orP [/eqP ->|/eqP ->]; [by left|by right].
  - by move=> c [->|->].
  - by rewrite divr_gt0 ?IZ_gt0.
  - have D := lt0r_neq0 (IZ_gt0 18). have Q : forall a b c, (18 * (a - b) = - (7 * (c - b)))%ZZ -> IZ a - IZ b = - (IZ 7 / IZ 18) * (IZ c - IZ b).
    { move=> a b c X. apply: (mulfI D). rewrite -IZB -IZM X IZN IZM IZB. move: (IZ 18) D => w D. kfield. exact/eqP. }
    move=> j. have -> : at_ K 2 fan_PP 2 1 = pt 75 100 by []. have -> : at_ K 2 fan_PP 2 0 = pt 150 0 by []. have -> : at_ K 2 fan_PP 1 0 = pt 96 72 by [].
    have [->|->] : j = ord0 \/ j = lift ord0 ord0. { case: j => [[|[|m]] Li] //; [left|right]; exact: val_inj. } rewrite !ptx. exact: Q. rewrite !pty. exact: Q.
Qed.
(** C94_ring_partial: six cells at the distance 5 *)
Definition ring_PP : seq (seq 'rV[K]_2) := [:: [:: pt 0 0]; [:: pt 4 2; pt 0 4; pt (-4) 2; pt (-4) (-2); pt 0 (-4); pt 4 (-2)];
  [:: pt 5 0; pt 3 4; pt (-3) 4; pt (-5) 0; pt (-3) (-4); pt 3 (-4)]].
Definition ring_domains : seq (seq nat) := flatten [seq [:: [:: 0; j; j]; [:: 0; j; (j.+1) %% 6]]%N | j <- iota 0 6].
Example ring_vertex : exists W, weighted_average_operators K 2 2 ring_PP ring_domains true true 6 fan_A = Util.Ok W /\
  forall i, \sum_(c < 6) nth (fun _ _ => 0) W 2 0%N c * at_ K 2 ring_PP 2 c 0 i = pt 0 0 0 i.
Proof.
  case: (C94_ring_partial K ring_PP ring_domains 6 fan_A 0%N 6%:R^-1 6 (fun j => j %% 6)%N (fun j => j %% 6)%N (IZ 5)) => //.
  - by apply/allP.
  - by rewrite invr_gt0 ltr0n.
  - exact: IZ_gt0.
  - have D2 : forall u w : 'I_2 -> K, dotp K 2 u w = u ord0 * w ord0 + u (lift ord0 ord0) * w (lift ord0 ord0) by move=> u w; rewrite /dotp !big_ord_recl big_ord0 addr0.
    have Pos : forall z, (0 < z)%ZZ -> 0 < IZ z. { case=> // z _. exact: IZ_gt0. }
    have Ln : forall a b c d, (0 < (a - c) * (a - c) + (b - d) * (b - d))%ZZ -> 0 < len K 2 (fun i => pt a b 0 i - pt c d 0 i). { move=> a b c d X. rewrite len2 !ptx !pty -!IZB !expr2 -!IZM -IZD sqrtr_gt0. exact: Pos. }
    have Dt : forall a b c d e f, ((c - a) * (e - c) + (d - b) * (f - d) = 0)%ZZ -> dotp K 2 (fun i => pt c d 0 i - pt a b 0 i) (fun i => pt e f 0 i - pt c d 0 i) = 0. { move=> a b c d e f X. by rewrite D2 !ptx !pty -!IZB -!IZM -IZD X. }
    have Cr : forall a b c d e f, (0 < (c - a) * (f - b) - (d - b) * (e - a))%ZZ -> 0 < (pt c d 0 ord0 - pt a b 0 ord0) * (pt e f 0 (lift ord0 ord0) - pt a b 0 (lift ord0 ord0)) - (pt c d 0 (lift ord0 ord0) - pt a b 0 (lift ord0 ord0)) * (pt e f 0 ord0 - pt a b 0 ord0).
    { move=> a b c d e f X. rewrite !ptx !pty -!IZB -!IZM -IZB. exact: Pos. }
    case=> [|[|[|[|[|[|j]]]]]] // _; (split; [exact: len_pt|split; [exact: Ln|split; [exact: Dt|split; [exact: Dt|exact: Cr]]]]).
  - move=> W [E X]. by exists W.
Qed.
End Fan.
Print Assumptions C94_weights.
Print Assumptions C94_faces.
Print Assumptions C94_ring_partial.
Print Assumptions C94_vertices_refuted.
