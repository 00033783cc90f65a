(** C94: weighted averages of dual 0-forms. *)
From mathcomp Require Import all_ssreflect all_fingroup all_algebra.
From Coq Require Import Ring Field.
From Verif Require Import GeoModel GeoSpec GeoProofs GeoProps GeoRing WavModel WavProofs.
From Verif Require Util.
Import Order.TTheory GRing.Theory Num.Theory.
Local Open Scope ring_scope.

Section C94.
Variable K : rcfType.
Add Field Kf : (K_field K).
Ltac kring := kprep K; ring.
Ltac kfield := kprep K; field.

Section Mesh.
Variables (nd n : nat) (PP : seq (seq 'rV[K]_n)) (domains : seq (seq nat)) (cols : nat) (A : seq (nat -> nat -> K)).
(** the position of a k-element *)
Definition at_ (k e : nat) : 'rV[K]_n := nth 0 (nth [::] PP k) e.
(** a domain lists the elements of each dimension *)
Definition joins (k r c : nat) (d : seq nat) : bool := (nth 0%N d k == r) && (nth 0%N d nd == c).

Lemma row_average : forall i r (y : nat -> K) a, (i < nd)%N -> (forall d, d \in domains -> (nth 0%N d nd < cols)%N) ->
  (forall d, d \in domains -> nth 0%N d (nd - i.+1) = r -> nth (fun _ _ => 0) A i.+1 r (nth 0%N d nd) = a) ->
  \sum_(c < cols) biased K nd n PP domains i (nth (fun _ _ => 0) A i.+1) r c * y c = a * \sum_(d <- domains | nth 0%N d (nd - i.+1) == r) weight K nd n PP d i * y (nth 0%N d nd).
Proof.
  move=> i r y a Li Lc Ha. rewrite mulr_sumr [RHS]big_seq_cond. transitivity (\sum_(c < cols) \sum_(d <- domains | (d \in domains) && joins (nd - i.+1) r c d) a * (weight K nd n PP d i * y (nth 0%N d nd))).
  - apply: eq_bigr => c _. rewrite /biased -mulrA mulr_suml mulr_sumr big_seq_cond. apply: eq_bigr => d /andP [Dd /andP [/eqP Er /eqP Ec]]. by rewrite -(Ha d Dd Er) Ec.
  - rewrite (exchange_big_dep (fun d => (d \in domains) && (nth 0%N d (nd - i.+1) == r))) /=. 2:{ by move=> c d _ /and3P [-> -> _]. }
    apply: eq_bigr => d /andP [Dd Er]. rewrite (big_pred1 (Ordinal (Lc d Dd))) //. move=> c. by rewrite /joins Dd Er /= -val_eqE /= eq_sym.
Qed.
End Mesh.

(** Each operator has rows of weights that are not negative and add up to one; the weight of a cell is positive if and only if
    some domain joins it to the element of the row. *)
Theorem C94_weights : forall nd n (PP : seq (seq 'rV[K]_n)) (domains : seq (seq nat)) cols (A : seq (nat -> nat -> K)), (nd <= n)%N ->
  (forall d, d \in domains -> (nth 0%N d nd < cols)%N /\ ~ dependent K nd.+1 n (\matrix_(k, j) nth 0 (nth [::] PP k) (nth 0%N d k) 0 j)) ->
  (forall i r c, (i < nd)%N -> 0 <= nth (fun _ _ => 0) A i.+1 r c) ->
  (forall i d, (i < nd)%N -> d \in domains -> 0 < nth (fun _ _ => 0) A i.+1 (nth 0%N d (nd - i.+1)) (nth 0%N d nd)) ->
  exists W, weighted_average_operators K nd n PP domains true true cols A = Util.Ok W /\ size W = nd.+1 /\
  (forall r c, nth (fun _ _ => 0) W 0 r c = (r == c)%:R) /\
  forall i r, (i < nd)%N -> has (fun d => nth 0%N d (nd - i.+1) == r) domains ->
    let w := nth (fun _ _ => 0) W i.+1 r in (forall c, 0 <= w c) /\ \sum_(c < cols) w c = 1 /\
    forall c, (c < cols)%N -> (0 < w c <-> has (fun d => (nth 0%N d (nd - i.+1) == r) && (nth 0%N d nd == c)) domains).
Proof.
  move=> nd n PP domains cols A Ln Dm A0 Ap. rewrite /weighted_average_operators /=. eexists. split; [reflexivity|]. split; [by rewrite /= size_map size_iota|]. split => // i r Li /hasP [d0 D0 /eqP E0].
  rewrite /= (nth_map 0%N) ?size_iota // nth_iota // add0n. set q := biased K nd n PP domains i _.
  have Wp : forall d, d \in domains -> 0 < weight K nd n PP d i. { move=> d Dd. apply: (weight_pos K nd n PP domains Ln) => // d' /Dm [] //. }
  have S0 : forall c, 0 <= \sum_(d <- domains | (nth 0%N d (nd - i.+1) == r) && (nth 0%N d nd == c)) weight K nd n PP d i. { move=> c. rewrite big_seq_cond. apply: sumr_ge0 => d /andP [Dd _]. exact: ltW (Wp d Dd). }
  have Q0 : forall c, 0 <= q r c. { move=> c. rewrite /q /biased mulr_ge0 ?A0 //. }
  have Qp : forall c, 0 < q r c <-> has (fun d => (nth 0%N d (nd - i.+1) == r) && (nth 0%N d nd == c)) domains.
  { move=> c. split.
    - move=> H. apply/negPn. apply/negP => /hasPn N. move: H. rewrite /q /biased big_seq_cond big1 ?mulr0 ?ltxx // => d /andP [Dd J]. by rewrite (negbTE (N d Dd)) in J.
    - case/hasP => d Dd /andP [/eqP Er /eqP Ec]. rewrite /q /biased. apply: mulr_gt0; [by rewrite -Er -Ec; apply: Ap|].
      rewrite big_seq_cond lt_neqAle. apply/andP. split; [|by rewrite -big_seq_cond]. rewrite eq_sym. rewrite psumr_eq0; [|by move=> d' /andP [Dd' _]; exact: ltW (Wp d' Dd')].
      apply/allPn. exists d => //. by rewrite Dd Er Ec !eqxx (gt_eqF (Wp d Dd)). }
  have Sp : 0 < \sum_(j < cols) `|q r j|.
  { have Lc : (nth 0%N d0 nd < cols)%N by case: (Dm d0 D0). rewrite (bigD1 (Ordinal Lc)) //=. apply: ltr_paddr; [by apply: sumr_ge0|]. rewrite normr_gt0. apply: lt0r_neq0. apply/Qp. apply/hasP. exists d0 => //. by rewrite E0 !eqxx. }
  rewrite /normalized. split; [|split].
  - move=> c. by rewrite divr_ge0 // ltW.
  - rewrite -mulr_suml. have -> : \sum_(c < cols) q r c = \sum_(j < cols) `|q r j| by apply: eq_bigr => c _; rewrite ger0_norm. apply: mulfV. exact: lt0r_neq0.
  - move=> c Lc. rewrite pmulr_lgt0; [exact: Qp|by rewrite invr_gt0].
Qed.

(** Linear functions are reproduced on a face between two cells: the weights of the two bring their positions together in that
    of the face. *)
Theorem C94_faces : forall nd n (PP : seq (seq 'rV[K]_n)) (domains : seq (seq nat)) cols (A : seq (nat -> nat -> K)) r c1 c2 m t, (0 < nd <= n)%N ->
  (forall d, d \in domains -> (nth 0%N d nd < cols)%N /\ ~ dependent K nd.+1 n (\matrix_(k, j) nth 0 (nth [::] PP k) (nth 0%N d k) 0 j)) ->
  (forall d, d \in domains -> nth 0%N d nd.-1 = r -> nth 0%N d nd = c1 \/ nth 0%N d nd = c2) -> c1 <> c2 -> (0 < m)%N ->
  (forall c, c = c1 \/ c = c2 -> (c < cols)%N /\ count (fun d => (nth 0%N d nd.-1 == r) && (nth 0%N d nd == c)) domains = m) ->
  0 < nth (fun _ _ => 0) A 1 r c1 -> nth (fun _ _ => 0) A 1 r c2 = nth (fun _ _ => 0) A 1 r c1 ->
  0 < t -> (forall j, at_ n PP nd c2 0 j - at_ n PP nd.-1 r 0 j = - t * (at_ n PP nd c1 0 j - at_ n PP nd.-1 r 0 j)) ->
  exists W, weighted_average_operators K nd n PP domains true true cols A = Util.Ok W /\
  forall j, \sum_(c < cols) nth (fun _ _ => 0) W 1 r c * at_ n PP nd c 0 j = at_ n PP nd.-1 r 0 j.
Proof.
  move=> nd n PP domains cols A r c1 c2 m t /andP [N0 Ln] Dm Two N12 M0 Cnt A1 A2 T0 Geo. rewrite /weighted_average_operators /=. eexists. split; [reflexivity|]. move=> j.
  rewrite /= (nth_map 0%N) ?size_iota // nth_iota // add0n. set a := nth _ A 1 in A1 A2 *. set q := biased K nd n PP domains 0 a.
  set x1 := at_ n PP nd c1 in Geo *. set x2 := at_ n PP nd c2 in Geo *. set xf := at_ n PP nd.-1 r in Geo *.
  have Wt : forall d, nth 0%N d nd.-1 = r -> weight K nd n PP d 0 = (len K n (fun j => at_ n PP nd (nth 0%N d nd) 0 j - xf 0 j))^-1.
  { move=> d Er. rewrite /weight subn1. have -> : perimeter K nd n PP d nd.-1 = 1.
    { rewrite /perimeter. have Z : (nd - nd.-1.+1 = 0)%N by rewrite prednK // subnn. by move: (\matrix_(k, l) _); rewrite Z. }
    rewrite div1r /edge_length_prod big_ltn ?prednK // big_geq ?mulr1 //.
    congr (_^-1). rewrite /edge_length unsigned_edge ?(leq_trans N0 Ln) //. congr (Num.sqrt _). apply: eq_bigr => k _. by rewrite !mxE /= /corner Er. }
  have Lc1 : (c1 < cols)%N by case: (Cnt c1 (or_introl erefl)). have Lc2 : (c2 < cols)%N by case: (Cnt c2 (or_intror erefl)).
  pose L c := len K n (fun j => at_ n PP nd c 0 j - xf 0 j).
  have Q : forall c, c = c1 \/ c = c2 -> q r c = a r c1 * (m%:R / L c).
  { move=> c Hc. rewrite /q /biased subn1. have -> : a r c = a r c1 by case: Hc => ->. congr (_ * _). rewrite (eq_bigr (fun=> (L c)^-1)). 2:{ by move=> d /andP [/eqP Er /eqP Ec]; rewrite Wt // Ec. }
    case: (Cnt c Hc) => _ <-. by rewrite -big_filter big_const_seq count_predT size_filter /= -Monoid.iteropE /= -[iterop _ _ _ _]/(_ *+ _) mulr_natl. }
  have Qz : forall c, c <> c1 -> c <> c2 -> q r c = 0.
  { move=> c N1 N2. rewrite /q /biased big_seq_cond big1 ?mulr0 // => d /andP [Dd /andP [/eqP Er /eqP Ec]]. rewrite subn1 in Er. case: (Two d Dd Er) => E; case: N1; [by rewrite -Ec|by case: N2; rewrite -Ec]. }
  have Lp : 0 < L c1.
  { case: (Cnt c1 (or_introl erefl)) => _ Ec. have : has (fun d => (nth 0%N d nd.-1 == r) && (nth 0%N d nd == c1)) domains by rewrite has_count Ec.
    case/hasP => d Dd /andP [/eqP Er /eqP Edc]. have := weight_pos K nd n PP domains Ln (fun d' Hd' => (Dm d' Hd').2) d 0 Dd N0. by rewrite Wt // Edc invr_gt0. }
  have L2 : L c2 = t * L c1.
  { rewrite /L /len. have -> : dotp K n (fun j => at_ n PP nd c2 0 j - xf 0 j) (fun j => at_ n PP nd c2 0 j - xf 0 j) = t ^+ 2 * dotp K n (fun j => at_ n PP nd c1 0 j - xf 0 j) (fun j => at_ n PP nd c1 0 j - xf 0 j).
    { rewrite /dotp mulr_sumr. apply: eq_bigr => k _. by rewrite (Geo k) -/x1 mulrACA mulrNN expr2. }
    rewrite sqrtrM ?sqr_ge0 // sqrtr_sqr ger0_norm //. exact: ltW. }
  have Two_sum : forall f : nat -> K, (forall c, c <> c1 -> c <> c2 -> f c = 0) -> \sum_(c < cols) f c = f c1 + f c2.
  { move=> f Z. rewrite (bigD1 (Ordinal Lc1)) //= (bigD1 (Ordinal Lc2)) /=. 2:{ apply/negP => /eqP /(congr1 val) /=. by apply/nesym. } rewrite big1 ?addr0 // => c /andP [/eqP E1 /eqP E2]. apply: Z => E; [apply: E1|apply: E2]; exact: val_inj. }
  have Mp : 0 < (m%:R : K) by rewrite ltr0n.
  rewrite (Two_sum (fun c => normalized K cols q r c * at_ n PP nd c 0 j)); [|by move=> c N1 N2; rewrite /normalized Qz // !mul0r].
  rewrite /normalized (Two_sum (fun c => `|q r c|)); [|by move=> c N1 N2; rewrite Qz // normr0].
  rewrite (Q c1 (or_introl erefl)) (Q c2 (or_intror erefl)) L2. have G := Geo j. rewrite -/x1 -/x2 -/xf in G. have Ex2 : x2 0 j = xf 0 j - t * (x1 0 j - xf 0 j) by rewrite -mulNr -G addrC subrK. rewrite -/x1 -/x2 Ex2.
  have P1 : 0 < a r c1 * (m%:R / L c1) by rewrite mulr_gt0 // divr_gt0. have P2 : 0 < a r c1 * (m%:R / (t * L c1)) by rewrite mulr_gt0 // divr_gt0 // mulr_gt0.
  rewrite !gtr0_norm //. move: A1 Mp Lp T0 P1 P2. move: (a r c1) (m%:R) (L c1) (x1 0 j) (xf 0 j) => al mm ll u v A1 Mp Lp T0 P1 P2.
  have -> : al * (mm / (t * ll)) = al * (mm / ll) / t. { rewrite invfM [t^-1 * _]mulrC !mulrA. by []. }
  move: (al * (mm / ll)) P1 => s P1. have Nt := lt0r_neq0 T0. have Ns := lt0r_neq0 P1. have Nq : s + s / t != 0 by apply: lt0r_neq0; apply: addr_gt0 => //; apply: divr_gt0.
  kfield. split; [exact/eqP|]. apply/eqP. apply: lt0r_neq0. apply: addr_gt0 => //. exact: mulr_gt0.
Qed.

(** ---- around a vertex in the plane ---- *)
Lemma weight2 : forall (PP : seq (seq 'rV[K]_2)) d, weight K 2 2 PP d 1 =
  len K 2 (fun j => at_ 2 PP 2 (nth 0%N d 2) 0 j - at_ 2 PP 1 (nth 0%N d 1) 0 j) /
  (len K 2 (fun j => at_ 2 PP 1 (nth 0%N d 1) 0 j - at_ 2 PP 0 (nth 0%N d 0) 0 j) * len K 2 (fun j => at_ 2 PP 2 (nth 0%N d 2) 0 j - at_ 2 PP 0 (nth 0%N d 0) 0 j)).
Proof.
  move=> PP d. rewrite /weight /= /perimeter /edge_length_prod big_ltn // big_ltn // big_geq // mulr1 /edge_length !unsigned_edge //. congr (Num.sqrt _ / (Num.sqrt _ * Num.sqrt _)); apply: eq_bigr => j _; by rewrite !mxE.
Qed.
(** the step from v to e turned by a right angle and scaled gives the step from e to t *)
Lemma len2 : forall u : 'I_2 -> K, len K 2 u = Num.sqrt (u ord0 ^+ 2 + u (lift ord0 ord0) ^+ 2).
Proof. move=> u. by rewrite /len /dotp !big_ord_recl big_ord0 addr0 -!expr2. Qed.
Lemma turned : forall (a b : 'I_2 -> K) s, b ord0 = - (s * a (lift ord0 ord0)) -> b (lift ord0 ord0) = s * a ord0 -> len K 2 b = `|s| * len K 2 a.
Proof.
  move=> a b s E0 E1. rewrite !len2 E0 E1. have -> : (- (s * a (lift ord0 ord0))) ^+ 2 + (s * a ord0) ^+ 2 = s ^+ 2 * (a ord0 ^+ 2 + a (lift ord0 ord0) ^+ 2) by rewrite sqrrN !exprMn -mulrDr addrC.
  by rewrite sqrtrM ?sqr_ge0 // sqrtr_sqr.
Qed.

(** two equal steps b, c across the edge a, the second one to the left *)
Lemma across : forall ax ay bx by_ cx cy : K, 0 < ax ^+ 2 + ay ^+ 2 -> ax * bx + ay * by_ = 0 -> ax * cx + ay * cy = 0 ->
  (ax + bx) ^+ 2 + (ay + by_) ^+ 2 = (ax + cx) ^+ 2 + (ay + cy) ^+ 2 -> 0 < (ax + bx) * (ay + cy) - (ay + by_) * (ax + cx) ->
  exists2 s, 0 < s & bx = - (- s * ay) /\ by_ = - s * ax /\ cx = - (s * ay) /\ cy = s * ax.
Proof.
  move=> ax ay bx by_ cx cy N0 O1 O2 Eq Cr. set N := ax ^+ 2 + ay ^+ 2 in N0.
  have U : forall x y, ax * x + ay * y = 0 -> exists s, x = - (s * ay) /\ y = s * ax.
  { move=> x y O. exists ((ax * y - ay * x) / N). split; apply: (mulfI (lt0r_neq0 N0)).
    - have -> : N * - ((ax * y - ay * x) / N * ay) = - ((ax * y - ay * x) * ay) * (N / N) by rewrite -mulrN [(_ / N)]mulrC -!mulrA mulrN mulrA mulrC; congr (_ * _); rewrite mulrC mulrN.
      rewrite divff ?lt0r_neq0 // mulr1 -[LHS]subr0 -[X in _ - X](mulr0 ax) -O /N. kring.
    - have -> : N * ((ax * y - ay * x) / N * ax) = ((ax * y - ay * x) * ax) * (N / N) by rewrite mulrC -!mulrA; congr (_ * _); rewrite mulrC -mulrA mulrC.
      rewrite divff ?lt0r_neq0 // mulr1 -[LHS]subr0 -[X in _ - X](mulr0 ay) -O /N. kring. }
  case: (U _ _ O1) => s1 [B1 B2]. case: (U _ _ O2) => s2 [C1 C2]. subst bx by_ cx cy.
  have Sq : s1 ^+ 2 = s2 ^+ 2. { apply: (mulIf (lt0r_neq0 N0)). apply: (addIr N). rewrite /N. transitivity ((ax - s1 * ay) ^+ 2 + (ay + s1 * ax) ^+ 2); [kring|]. rewrite Eq. kring. }
  have Ls : 0 < s2 - s1. { rewrite -(pmulr_lgt0 _ N0). move: Cr. congr (0 < _). rewrite /N. kring. }
  move/eqP: Sq. rewrite eqf_sqr => /orP [/eqP E|/eqP E]. by rewrite E subrr ltxx in Ls.
  exists s2. by move: Ls; rewrite E opprK -mulr2n pmulrn_lgt0. by rewrite E.
Qed.

(** Around a vertex whose cells are all at the same distance linear functions are reproduced, too.  The cells T 0, T 1, ...,
    T k = T 0 go around the vertex counterclockwise, edge S j is between cells T j and T (j + 1); the positions of the cells
    are on the perpendicular of the edge. *)
Theorem C94_ring_partial : forall (PP : seq (seq 'rV[K]_2)) (domains : seq (seq nat)) cols (A : seq (nat -> nat -> K)) r a k (S T : nat -> nat) R,
  (forall d, d \in domains -> (nth 0%N d 2 < cols)%N) -> (0 < k)%N -> T k = T 0%N ->
  perm_eq [seq d <- domains | nth 0%N d 0 == r] (flatten [seq [:: [:: r; S j; T j]; [:: r; S j; T j.+1]] | j <- iota 0 k]) ->
  0 < a -> (forall j, (j < k)%N -> nth (fun _ _ => 0) A 2 r (T j) = a) ->
  let v := at_ 2 PP 0 r in let e j := at_ 2 PP 1 (S j) in let t j := at_ 2 PP 2 (T j) in
  0 < R -> (forall j, (j < k)%N -> len K 2 (fun i => t j 0 i - v 0 i) = R /\ 0 < len K 2 (fun i => e j 0 i - v 0 i) /\
    dotp K 2 (fun i => e j 0 i - v 0 i) (fun i => t j 0 i - e j 0 i) = 0 /\ dotp K 2 (fun i => e j 0 i - v 0 i) (fun i => t j.+1 0 i - e j 0 i) = 0 /\
    0 < (t j 0 ord0 - v 0 ord0) * (t j.+1 0 (lift ord0 ord0) - v 0 (lift ord0 ord0)) - (t j 0 (lift ord0 ord0) - v 0 (lift ord0 ord0)) * (t j.+1 0 ord0 - v 0 ord0)) ->
  exists W, weighted_average_operators K 2 2 PP domains true true cols A = Util.Ok W /\
  forall i, \sum_(c < cols) nth (fun _ _ => 0) W 2 r c * at_ 2 PP 2 c 0 i = v 0 i.
Proof.
  move=> PP domains cols A r a k S T R Lc K0 Cy Pm A0 HA v e t R0 Geo. rewrite /weighted_average_operators /=. eexists. split; [reflexivity|]. move=> i. rewrite /=.
  set aa := nth _ A 2 in HA *. set q := biased K 2 2 PP domains 1 aa.
  have In : forall d, d \in domains -> nth 0%N d 0 = r -> exists2 j, (j < k)%N & d = [:: r; S j; T j] \/ d = [:: r; S j; T j.+1].
  { move=> d Dd /eqP Er. have : d \in [seq d <- domains | nth 0%N d 0 == r] by rewrite mem_filter Er Dd. rewrite (perm_mem Pm). case/flattenP => l /mapP [j]. rewrite mem_iota add0n /= => Lj ->. rewrite !inE => /orP [/eqP ->|/eqP ->]; exists j => //; [by left|by right]. }
  have HA' : forall j, (j <= k)%N -> aa r (T j) = a. { move=> j. rewrite leq_eqVlt => /orP [/eqP ->|L]; [by rewrite Cy HA|exact: HA]. }
  have HR : forall j, (j <= k)%N -> len K 2 (fun i => t j 0 i - v 0 i) = R. { move=> j. rewrite leq_eqVlt => /orP [/eqP ->|L]; [rewrite /t Cy; by case: (Geo 0%N K0)|by case: (Geo j L)]. }
  have Ha : forall d, d \in domains -> nth 0%N d 0 = r -> aa r (nth 0%N d 2) = a. { move=> d Dd Er. case: (In d Dd Er) => j Lj [->|->] /=; [apply: HA'; exact: ltnW|exact: HA']. }
  have Wp : forall j, (j < k)%N -> exists w, 0 < w /\ weight K 2 2 PP [:: r; S j; T j] 1 = w /\ weight K 2 2 PP [:: r; S j; T j.+1] 1 = w /\
    w * ((t j 0 ord0 - v 0 ord0) + (t j.+1 0 ord0 - v 0 ord0)) = (t j.+1 0 (lift ord0 ord0) - t j 0 (lift ord0 ord0)) / R /\
    w * ((t j 0 (lift ord0 ord0) - v 0 (lift ord0 ord0)) + (t j.+1 0 (lift ord0 ord0) - v 0 (lift ord0 ord0))) = - ((t j.+1 0 ord0 - t j 0 ord0) / R).
  { move=> j Lj. case: (Geo j Lj) => R1 [Al [O1 [O2 Cr]]]. have R2 := HR j.+1 Lj. rewrite !weight2 /= -/v -[at_ 2 PP 1 (S j)]/(e j) -[at_ 2 PP 2 (T j)]/(t j) -[at_ 2 PP 2 (T j.+1)]/(t j.+1) R1 R2.
    set o := lift ord0 ord0 in O1 O2 Cr *.
    have Sp : forall u : 'I_2 -> K, len K 2 u = R -> u ord0 ^+ 2 + u o ^+ 2 = R ^+ 2. { move=> u <-. rewrite len2 sqr_sqrtr // addr_ge0 ?sqr_ge0 //. }
    have D2 : forall u w : 'I_2 -> K, dotp K 2 u w = u ord0 * w ord0 + u o * w o by move=> u w; rewrite /dotp !big_ord_recl big_ord0 addr0.
    case: (across (e j 0 ord0 - v 0 ord0) (e j 0 o - v 0 o) (t j 0 ord0 - e j 0 ord0) (t j 0 o - e j 0 o) (t j.+1 0 ord0 - e j 0 ord0) (t j.+1 0 o - e j 0 o)).
    - move: Al. rewrite len2 sqrtr_gt0. by [].
    - by move: O1; rewrite D2.
    - by move: O2; rewrite D2.
    - have C : forall x y z : K, (x - y) + (z - x) = z - y by move=> x y z; rewrite addrC addrA subrK. rewrite !C. by rewrite (Sp (fun i => t j 0 i - v 0 i)) // (Sp (fun i => t j.+1 0 i - v 0 i)).
    - have C : forall x y z : K, (x - y) + (z - x) = z - y by move=> x y z; rewrite addrC addrA subrK. by rewrite !C.
    - move=> s s0 [B1 [B2 [C1 C2]]]. exists (s / R). split; [exact: divr_gt0|]. set al := len K 2 _ in Al *.
      rewrite (turned (fun i => e j 0 i - v 0 i) (fun i => t j 0 i - e j 0 i) (- s)) // (turned (fun i => e j 0 i - v 0 i) (fun i => t j.+1 0 i - e j 0 i) s) // normrN gtr0_norm // -/al.
      have Nal := lt0r_neq0 Al. have NR := lt0r_neq0 R0. have W1 : s * al / (al * R) = s / R by rewrite invfM mulrA mulfK. split => //. split => //.
      have E1 : t j 0 ord0 = e j 0 ord0 + s * (e j 0 o - v 0 o) by rewrite -[LHS](subrK (e j 0 ord0)) B1 mulNr opprK addrC.
      have E2 : t j 0 o = e j 0 o - s * (e j 0 ord0 - v 0 ord0) by rewrite -[LHS](subrK (e j 0 o)) B2 mulNr addrC.
      have E3 : t j.+1 0 ord0 = e j 0 ord0 - s * (e j 0 o - v 0 o) by rewrite -[LHS](subrK (e j 0 ord0)) C1 addrC.
      have E4 : t j.+1 0 o = e j 0 o + s * (e j 0 ord0 - v 0 ord0) by rewrite -[LHS](subrK (e j 0 o)) C2 addrC.
      rewrite E1 E2 E3 E4. split; kring. }
  have Sum : forall y : nat -> K, \sum_(c < cols) q r c * y c = a * \sum_(0 <= j < k) (weight K 2 2 PP [:: r; S j; T j] 1 * y (T j) + weight K 2 2 PP [:: r; S j; T j.+1] 1 * y (T j.+1)).
  { move=> y. rewrite /q /aa (row_average 2 2 PP domains cols A 1 r y a) //. rewrite -big_filter (perm_big _ Pm) big_flatten big_map /index_iota subn0. congr (_ * _). apply: eq_bigr => j _. rewrite !big_cons big_nil /=. congr (_ + _). exact: addr0. }
  have Tot : \sum_(c < cols) `|q r c| = \sum_(c < cols) q r c * 1.
  { apply: eq_bigr => c _. rewrite mulr1. apply: ger0_norm. rewrite /q /biased. case: (boolP (has (fun d => (nth 0%N d 0 == r) && (nth 0%N d 2 == c)) domains)) => [/hasP [d Dd /andP [/eqP Er /eqP Ec]]|Nh].
    - apply: mulr_ge0; [by rewrite -Ec (Ha d Dd Er) ltW|]. apply: sumr_ge0 => d' _. rewrite weight2. apply: divr_ge0; [|apply: mulr_ge0]; rewrite len2; exact: sqrtr_ge0.
    - rewrite big_hasC ?mulr0 //. }
  have Pos : 0 < \sum_(c < cols) q r c * 1.
  { rewrite (Sum (fun _ => 1)). rewrite mulr_gt0 // big_nat. case: k K0 Wp {Cy Pm HA Geo In HA' HR Sum} => // k _ Wp. rewrite -big_nat big_nat_recl // ltr_paddr //; [|case: (Wp 0%N isT) => w [w0 [-> [-> _]]]; by rewrite !mulr1 addr_gt0].
    rewrite big_nat. apply: sumr_ge0 => j /andP [_ Lj]. case: (Wp j.+1 Lj) => w [w0 [-> [-> _]]]. by rewrite !mulr1 addr_ge0 // ltW. }
  have Zero : forall f : nat -> K, \sum_(0 <= j < k) (f j.+1 - f j) = f k - f 0%N by move=> f; rewrite telescope_sumr.
  have Mom : \sum_(c < cols) q r c * (at_ 2 PP 2 c 0 i - v 0 i) = 0.
  { rewrite (Sum (fun c => at_ 2 PP 2 c 0 i - v 0 i)). 
    have [Ei|Ei] : i = ord0 \/ i = lift ord0 ord0. { case: i => [[|[|m]] Li] //; [left|right]; exact: val_inj. }
    - subst i. rewrite big_nat. rewrite (eq_bigr (fun j => (t j.+1 0 (lift ord0 ord0) / R - t j 0 (lift ord0 ord0) / R))).
      + rewrite -big_nat (Zero (fun j => t j 0 (lift ord0 ord0) / R)) /t Cy subrr mulr0 //.
      + move=> j /andP [_ Lj]. case: (Wp j Lj) => w [_ [-> [-> [X _]]]]. by rewrite -mulrDr X mulrBl.
    - subst i. rewrite big_nat. rewrite (eq_bigr (fun j => ((- t j.+1 0 ord0) / R - (- t j 0 ord0) / R))).
      + rewrite -big_nat (Zero (fun j => (- t j 0 ord0) / R)) /t Cy subrr mulr0 //.
      + move=> j /andP [_ Lj]. case: (Wp j Lj) => w [_ [-> [-> [_ X]]]]. by rewrite -mulrDr X !mulNr opprK mulrBl opprB addrC. }
  rewrite /normalized Tot. set P := \sum_(c < cols) _ in Pos *. apply: (mulIf (lt0r_neq0 Pos)). rewrite mulr_suml.
  rewrite (eq_bigr (fun c : 'I_cols => q r c * (at_ 2 PP 2 c 0 i - v 0 i) + v 0 i * (q r c * 1))).
  - by rewrite big_split /= Mom add0r -mulr_sumr.
  - move=> c _. by rewrite mulrAC divfK ?lt0r_neq0 // mulr1 mulrBr [v 0 i * _]mulrC subrK.
Qed.
End C94.
