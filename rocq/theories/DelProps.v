(** Property C82: is_pairwise_delaunay, is_well_centered and the sign of the dual metric. *)
From mathcomp Require Import all_ssreflect all_algebra.
From Verif Require Import GeoModel MetModel MetSpec MetAff MetSum MetProofs MetVol MetCot MetEdge MetWit MetProps DelModel DelSpec DelProofs DelFree DelGeo DelPos.
From Verif Require Util SimpModel SimpSpec SimpProps BdryModel BdrySpec SelProofs SubdModel SubdSpec ParProofs TopProofs OrientProofs FundProofs SurfProofs.
Import Order.TTheory GRing.Theory Num.Theory.
Local Open Scope nat_scope.
Local Open Scope ring_scope.

Section Props.
Variable K : rcfType.
Variable sat : list (BinNums.Z * BinNums.Z) -> option (list BinNums.Z).
Variable row_leb : SimpModel.simplex -> SimpModel.simplex -> bool.
Notation element := SubdSpec.element.
Notation n_elements := SimpModel.n_elements.
Notation volume_of t k e d pos := (content K d k (corners K d k pos (element t k e))).
Lemma distance_sym : forall d p q, distance K d p q = distance K d q p.
Proof. move=> d p q. congr Num.sqrt. apply: eq_bigr => j _. by rewrite -sqrrN opprB. Qed.
(** the sum over the simplices at a facet *)
Definition dual_length (m : nat) rows t d (PP : nat -> nat -> 'rV[K]_d) (coef : nat -> nat -> nat -> K) (e : nat) : K :=
  \sum_(p <- around m rows t e) Num.sg (coef m.+1 p.1 (apex rows p)) * distance K d (PP m e) (PP m.+1 p.1).
Lemma delaunay_sum : forall m rows t d PP coef bary, TopProofs.top_ok m.+2 rows t -> BdrySpec.at_most_two m.+2 rows ->
  (forall j c, (j < n_elements t m.+2)%N -> (c <= m.+2)%N -> Num.sg (bary m.+2 j c) = Num.sg (coef m.+2 j (nth 0%N (element t m.+2 j) c))) ->
  is_pairwise_delaunay K t d PP bary <-> forall e, (e < n_elements t m.+1)%N -> 0 < dual_length m.+1 rows t d PP coef e.
Proof.
  move=> m rows t d PP coef bary T AM B. rewrite /is_pairwise_delaunay (excess_sum K m.+1 rows t T d PP bary isT true). have El := el_top m.+2 rows t T.
  have Q : forall e, (e < n_elements t m.+1)%N -> (0 < \sum_(j < size rows) \sum_(c < m.+3 | perm_eq (OrientProofs.el t m.+1 e) (take c (top_row rows j) ++ drop c.+1 (top_row rows j))) gap K m.+1 d PP j e ^+ 2 * Num.sg (bary m.+2 j c)) = (0 < dual_length m.+1 rows t d PP coef e).
  { move=> e He. rewrite (around_sum K m.+1 rows t e (fun j c => gap K m.+1 d PP j e ^+ 2 * Num.sg (bary m.+2 j c))). rewrite (two_signs K _ (fun p : nat * nat => bary m.+2 p.1 p.2) (fun p => gap K m.+1 d PP p.1 e)); [|exact: (around_two m.+1 rows t T AM e He)|by move=> a; exact: sqrtr_ge0].
    congr (0 < _). rewrite /dual_length big_seq [RHS]big_seq. apply: eq_bigr => p. rewrite around_in => /and3P [J Lc _]. rewrite B ?(n_top m.+2 rows t T) // -[element t m.+2 p.1]/(OrientProofs.el t m.+2 p.1) El /gap distance_sym. by []. }
  rewrite all_map. split=> [/allP H e He|H].
  - rewrite -Q //. apply: (H e). by rewrite mem_iota.
  - apply/allP => e. rewrite mem_iota => /andP [_ He]. rewrite /= Q //. exact: H.
Qed.

(** C82.  A mesh is pairwise Delaunay exactly if the dual lengths of its facets are positive.  What is missing for the full claim:
    facets with three or more simplices, see C82_three_refuted. *)
Theorem C82_dual_partial : forall n rows t d pos PP coef bary bary2 PM DM, SimpSpec.simplices_ok n rows -> SimpModel.from_simplices row_leb n rows = Util.Ok t -> (2 <= n)%N -> BdrySpec.at_most_two n rows ->
  metric K sat t d PP bary = Util.Ok (PM, DM) -> centres K t d n pos PP coef ->
  (forall j c, (j < n_elements t n)%N -> (c <= n)%N -> Num.sg (bary j c) = Num.sg (coef n j (nth 0%N (element t n j) c))) ->
  (forall j c, (j < n_elements t n)%N -> (c <= n)%N -> Num.sg (bary2 n j c) = Num.sg (coef n j (nth 0%N (element t n j) c))) ->
  is_pairwise_delaunay K t d PP bary2 <-> forall e, (e < n_elements t n.-1)%N -> 0 < nth 0 (nth [::] DM 1%N) e.
Proof.
  move=> n rows t d pos PP coef bary bary2 PM DM OK HT N2 AM M C B B2. have [Hn T] := TopProofs.from_simplices_top_ok row_leb n rows t OK HT. case: n N2 OK HT AM C B B2 T Hn => [|[|m]] // N2 OK HT AM C B B2 T Hn.
  rewrite (delaunay_sum m rows t d PP coef bary2 T AM B2). have E : forall e, (e < n_elements t m.+1)%N -> nth 0 (nth [::] DM 1%N) e = dual_length m.+1 rows t d PP coef e.
  { move=> e He. rewrite (C80_dual_edges K sat row_leb m.+2 rows t d pos PP coef bary PM DM OK HT N2 M C B e He) /dual_length -(around_sum K m.+1 rows t e (fun j c => Num.sg (coef m.+2 j (nth 0%N (top_row rows j) c)) * distance K d (PP m.+1 e) (PP m.+2 j))).
    rewrite (n_top m.+2 rows t T). apply: eq_bigr => j _. have -> : element t m.+2 j = top_row rows j by exact: (el_top m.+2 rows t T). by []. }
  split=> H e He; have := H e He; by rewrite E.
Qed.

(** In n-space, if neighbouring simplices lie on different sides of their common facet: a mesh is pairwise Delaunay exactly if of
    every two neighbours the one has its other vertex strictly outside the circumsphere of the other, and the simplices at the boundary have their centre
    strictly inside of the boundary facet. *)
Theorem C82_delaunay : forall n rows t pos PP coef bary, SimpSpec.simplices_ok n rows -> SimpModel.from_simplices row_leb n rows = Util.Ok t -> (2 <= n)%N -> BdrySpec.at_most_two n rows ->
  centres K t n n pos PP coef -> circumcentred K t n n pos PP ->
  (forall j c, (j < n_elements t n)%N -> (c <= n)%N -> Num.sg (bary n j c) = Num.sg (coef n j (nth 0%N (element t n j) c))) ->
  (forall j, (j < n_elements t n)%N -> volume_of t n j n pos != 0) ->
  (forall e j v i w, (e < n_elements t n.-1)%N -> opposite t n e j v -> opposite t n e i w -> j <> i -> apart K t n n pos e v w) ->
  is_pairwise_delaunay K t n PP bary <->
    (forall e j v i w, (e < n_elements t n.-1)%N -> opposite t n e j v -> opposite t n e i w -> j <> i -> outside K t n n pos (PP n j) e w) /\
    (forall e j v, (e < n_elements t n.-1)%N -> opposite t n e j v -> (forall i w, opposite t n e i w -> i = j) -> 0 < coef n j v).
Proof.
  move=> n rows t pos PP coef bary OK HT N2 AM C Cc B Nd Ap. have [Hn T] := TopProofs.from_simplices_top_ok row_leb n rows t OK HT. case: n N2 pos PP OK HT AM C Cc B T Hn Nd Ap => [|[|m]] // N2 pos PP OK HT AM C Cc B T Hn Nd Ap.
  rewrite (delaunay_sum m rows t m.+2 PP coef bary T AM B). have Nt := n_top m.+2 rows t T. have El : forall j, element t m.+2 j = top_row rows j by exact: (el_top m.+2 rows t T).
  have Nd' : forall j, (j < size rows)%N -> measure K m.+2 m.+2 (corners K m.+2 m.+2 pos (top_row rows j)) != 0 by move=> j J; rewrite measure_content // -El; apply: Nd; rewrite Nt.
  have Op : forall e p, p \in around m.+1 rows t e -> opposite t m.+2 e p.1 (apex rows p). { move=> e p P. have := P. rewrite around_in => /and3P [J _ _]. split; [by rewrite Nt|]. rewrite El. exact: (around_perm m.+1 rows t T). }
  have Po : forall e j v, opposite t m.+2 e j v -> exists p, [/\ p \in around m.+1 rows t e, p.1 = j & apex rows p = v]. { move=> e j v [J P]. rewrite Nt in J. rewrite El in P. have [A1 A2] := around_opp m.+1 rows t T e j v J P. by exists (j, index v (top_row rows j)). }
  have Ne : forall e, (e < n_elements t m.+1)%N -> exists f, f \in OrientProofs.el t m.+1 e. { move=> e He. have [L _] := OrientProofs.el_len m.+2 rows t Hn T m.+1 e (le_S _ _ (le_n _)) (elimT ssrnat.ltP He). exists (nth 0%N (OrientProofs.el t m.+1 e) 0). apply: mem_nth. rewrite -sizeE L. by []. }
  have Two : forall e p q, (e < n_elements t m.+1)%N -> p \in around m.+1 rows t e -> q \in around m.+1 rows t e -> p.1 <> q.1 -> forall f, f \in OrientProofs.el t m.+1 e ->
    (0 < dual_length m.+1 rows t m.+2 PP coef e) = (distance K m.+2 (PP m.+2 p.1) (pos f) < distance K m.+2 (PP m.+2 p.1) (pos (apex rows q))).
  { move=> e p q He P Q Npq f F. have S2 := around_two m.+1 rows t T AM e He. have U := around_uniq m.+1 rows t e. have Pq : p != q by apply/eqP => E; apply: Npq; rewrite E.
    have Pm : perm_eq (around m.+1 rows t e) [:: p; q]. { rewrite perm_sym. apply: uniq_perm; [by rewrite /= inE Pq|exact: U|]. apply: (uniq_min_size _ _ _).2; [by rewrite /= inE Pq| |exact: S2]. move=> x. rewrite !inE => /orP [/eqP ->|/eqP ->]; by []. }
    rewrite /dual_length (perm_big _ Pm) /= !big_cons big_nil addr0. have [nu [O Sd]] := Ap e p.1 (apex rows p) q.1 (apex rows q) He (Op e p P) (Op e q Q) Npq. have [Hp Hq] := Sd f F.
    exact: (pair_outside K m.+1 rows t T pos PP coef C Cc Nd' e p q f nu He P Q F O Hp Hq). }
  have One : forall e p, (e < n_elements t m.+1)%N -> around m.+1 rows t e = [:: p] -> (0 < dual_length m.+1 rows t m.+2 PP coef e) = (0 < coef m.+2 p.1 (apex rows p)).
  { move=> e p He E. rewrite /dual_length E big_seq1. have P : p \in around m.+1 rows t e by rewrite E mem_head. have J : (p.1 < size rows)%N by have := P; rewrite around_in => /and3P [J _ _].
    case: (ltrgt0P (coef m.+2 p.1 (apex rows p))) => H; [|by rewrite ltr0_sg // mulN1r oppr_gt0 ltNge sqrtr_ge0|by rewrite H sgr0 mul0r ltxx]. rewrite gtr0_sg // mul1r.
    have Off := centre_off K m.+1 rows t T m.+2 pos PP coef C e p (leqnn _) He P (Nd' _ J) (lt0r_neq0 H). rewrite distanceE sqrtr_gt0. apply: dot_gt0. by rewrite subr_eq0 eq_sym. }
  split=> [H|[H1 H2] e He].
  - split=> [e j v i w He Oj Oi Nij f F|e j v He Oj Only].
    + have [p [P Ep Ev]] := Po e j v Oj. have [q [Q Eq Ew]] := Po e i w Oi. subst j i v w. rewrite -(Two e p q He P Q Nij f F). exact: H.
    + have [p [P Ep Ev]] := Po e j v Oj. subst j v. rewrite -(One e p He); [exact: H|]. have U := around_uniq m.+1 rows t e. have A : forall q, q \in around m.+1 rows t e -> q = p by move=> q Q; apply: (one_corner m.+1 rows t T e q p Q P); exact: Only (Op e q Q).
      move: U P A. case: (around m.+1 rows t e) => [|a [|b l]] // U P A; [by rewrite (A a (mem_head _ _))|]. have Ea := A a (mem_head _ _). have Eb : b = p by apply: A; rewrite !inE eqxx orbT. by rewrite Ea Eb /= inE eqxx in U.
  - have [p P] := around_some m.+1 rows t T e He. have S2 := around_two m.+1 rows t T AM e He. case E : (around m.+1 rows t e) S2 => [|a [|b [|c l]]] // _; [by rewrite E in P| |].
    + rewrite (One e a He E). apply: (H2 e a.1 (apex rows a) He); [apply: Op; by rewrite E mem_head|]. move=> i w /Po [q [Q Eq _]]. rewrite E inE in Q. by rewrite -Eq (eqP Q).
    + have A : a \in around m.+1 rows t e by rewrite E mem_head. have Bq : b \in around m.+1 rows t e by rewrite E !inE eqxx orbT. have U := around_uniq m.+1 rows t e. rewrite E /= inE andbT in U.
      have Nab : a.1 <> b.1 by move=> X; have Y := one_corner m.+1 rows t T e a b A Bq X; rewrite Y eqxx in U. have [f F] := Ne e He. rewrite (Two e a b He A Bq Nab f F). exact: (H1 e a.1 (apex rows a) b.1 (apex rows b) He (Op e a A) (Op e b Bq) Nab f F).
Qed.

(** If the centre of every element is inside it, the mesh is pairwise Delaunay and every entry of the dual metric is positive. *)
Theorem C82_well_centered : forall n rows t d pos PP coef bary bary2 PM DM, SimpSpec.simplices_ok n rows -> SimpModel.from_simplices row_leb n rows = Util.Ok t ->
  metric K sat t d PP bary = Util.Ok (PM, DM) -> centres K t d n pos PP coef ->
  (forall j c, (j < n_elements t n)%N -> (c <= n)%N -> Num.sg (bary j c) = Num.sg (coef n j (nth 0%N (element t n j) c))) ->
  (forall k e c, (k <= n)%N -> (e < n_elements t k)%N -> (c <= k)%N -> bary2 k e c = coef k e (nth 0%N (element t k e) c)) ->
  (forall j, (j < n_elements t n)%N -> volume_of t n j d pos != 0) ->
  is_well_centered K t bary2 -> positive_dual_metric K DM /\ ((2 <= n)%N -> BdrySpec.at_most_two n rows -> is_pairwise_delaunay K t d PP bary2).
Proof.
  move=> n rows t d pos PP coef bary bary2 PM DM OK HT M C B B2 Nd W. have [Hn T] := TopProofs.from_simplices_top_ok row_leb n rows t OK HT. have [Dn [_ ED]] := metric_ok K sat n rows t Hn T d PP bary PM DM M.
  have Nt := n_top n rows t T. have El : forall j, element t n j = top_row rows j by exact: (el_top n rows t T).
  have Nd' : forall j, (j < size rows)%N -> measure K d n (corners K d n pos (top_row rows j)) != 0 by move=> j J; rewrite measure_content // -El; apply: Nd; rewrite Nt.
  have Wc : forall k e v, (k <= n)%N -> (e < n_elements t k)%N -> v \in OrientProofs.el t k e -> 0 < coef k e v.
  { move=> k e v Kn E V. have [L _] := OrientProofs.el_len n rows t Hn T k e (elimT ssrnat.leP Kn) (elimT ssrnat.ltP E). have Lc : (index v (OrientProofs.el t k e) <= k)%N by rewrite -ltnS -L sizeE index_mem.
    move: (W). rewrite /is_well_centered (OrientProofs.top_n_dim n rows t T) => W'. have Ik : k \in iota 0 n.+1 by rewrite mem_iota add0n ltnS. have Ie : e \in iota 0 (n_elements t k) by rewrite mem_iota. have Ic : index v (OrientProofs.el t k e) \in iota 0 k.+1 by rewrite mem_iota add0n ltnS.
    move: (allP (allP (allP W' k Ik) e Ie) _ Ic). rewrite B2 // nth_index //. }
  have Bp : forall j c, (j < size rows)%N -> (c <= n)%N -> 0 < bary j c. { move=> j c J Lc. rewrite -sgr_gt0 B ?Nt // sgr_gt0. apply: Wc => //; [by rewrite Nt|]. apply: mem_nth. rewrite El (proj1 (top_inside n rows t Hn T j J)). by []. }
  have Pd : positive_dual_metric K DM.
  { rewrite /positive_dual_metric ED /= all_nseq ltr01 orbT /=. rewrite all_map. apply/allP => i. rewrite mem_iota add1n ltnS => Hi /=. rewrite all_map. apply/allP => e. rewrite mem_iota => /andP [_ He] /=.
    apply: (dm_pos K n rows t Hn T d pos PP coef C bary) => //. move=> k f v /andP [_ Hk]. exact: Wc. }
  split=> // N2 AM. apply/(C82_dual_partial n rows t d pos PP coef bary bary2 PM DM OK HT N2 AM M C B).
  - move=> j c J Lc. by rewrite B2.
  - move=> e He. have [_ [SD [Sz _]]] := C80_shape K sat row_leb n rows t d PP bary PM DM OK HT M. have [_ S1] := Sz 1%N (ltnW N2). move: Pd => /allP /(_ (nth [::] DM 1%N)). rewrite mem_nth ?SD; [|by rewrite ltnS ltnW]. move=> /(_ isT) /allP A. apply: A. apply: mem_nth. by rewrite S1 subn1.
Qed.
End Props.
Print Assumptions C82_dual_partial.
Print Assumptions C82_delaunay.
Print Assumptions C82_well_centered.

(** ** Witnesses *)
Section Witness.
Variable K : rcfType.
Variables (t : SimpModel.topology) (rows : list SimpModel.simplex) (m V d : nat) (zs : seq (seq int)) (nums : seq (seq (seq int))) (dens : seq (seq nat)).
Lemma sg_intr : forall x : int, Num.sg (x%:~R : K) = (Num.sg x)%:~R.
Proof. move=> x. case: (ltrgt0P x) => X; [rewrite (gtr0_sg X)|rewrite (ltr0_sg X)|by rewrite X !sgr0]; [by apply: gtr0_sg; rewrite ltr0z|rewrite rmorphN; apply: ltr0_sg; by rewrite ltrz0]. Qed.
(** squared distance of two centres times the square of the denominators; the signed sum at a facet *)
Definition centre_gap (k j l e : nat) : int := addz [seq (zc V zs nums k j q * (den dens l e)%:Z - zc V zs nums l e q * (den dens k j)%:Z) ^+ 2 | q <- iota 0 d].
Lemma wit_between : forall k j l e, (0 < den dens k j)%N -> (0 < den dens l e)%N -> distance K d (wit_PP V d zs nums dens K k j) (wit_PP V d zs nums dens K l e) ^+ 2 = (centre_gap k j l e)%:~R / (den dens k j * den dens l e)%:R ^+ 2.
Proof.
  move=> k j l e D1 D2. rewrite sqr_sqrtr; [|by apply: sumr_ge0 => q _; exact: sqr_ge0]. rewrite /centre_gap addz_big big_map (rmorph_sum [rmorphism of intmul (1 : K)]) mulr_suml (_ : iota 0 d = index_iota 0 d); [|by rewrite /index_iota subn0]. rewrite big_mkord.
  have N1 : (den dens k j)%:R != 0 :> K by rewrite pnatr_eq0 -lt0n. have N2 : (den dens l e)%:R != 0 :> K by rewrite pnatr_eq0 -lt0n.
  apply: eq_bigr => q _. rewrite !mxE rmorphX /= rmorphB !rmorphM /= -expr_div_n natrM. congr (_ ^+ 2). rewrite mulrBl. congr (_ - _); [by rewrite -mulf_div divff // mulr1|by rewrite [(den dens k j)%:R * (den dens l e)%:R]mulrC -mulf_div divff // mulr1].
Qed.
Lemma wit_length : forall k j l e (a : nat), (0 < den dens k j)%N -> (0 < den dens l e)%N -> centre_gap k j l e = ((a * (den dens k j * den dens l e))%N%:Z) ^+ 2 -> distance K d (wit_PP V d zs nums dens K k j) (wit_PP V d zs nums dens K l e) = a%:R.
Proof.
  move=> k j l e a D1 D2 E. apply/eqP. rewrite -(eqr_expn2 (n := 2)) ?sqrtr_ge0 ?ler0n //. rewrite wit_between // E rmorphX -expr_div_n /= -pmulrn [X in X / _]natrM mulfK //. by rewrite pnatr_eq0 -lt0n muln_gt0 D1.
Qed.
Hypothesis T : TopProofs.top_ok m.+2 rows t.
Definition check_facets (D : nat) : bool := (0 < D)%N && all (fun e => let a := around m.+1 rows t e in
  all (fun p => [&& (0 < den dens m.+2 p.1)%N, (0 < den dens m.+1 e)%N & den dens m.+2 p.1 * den dens m.+1 e == D]%N) a &&
  (0 < addz [seq centre_gap m.+2 p.1 m.+1 e * Num.sg (num nums m.+2 p.1 (apex rows p)) | p <- a])) (iota 0 (SimpModel.n_elements t m.+1)).
Lemma wit_delaunay : forall D, check_facets D -> is_pairwise_delaunay K t d (wit_PP V d zs nums dens K) (fun k e c => wit_coef nums dens K k e (nth 0%N (SubdSpec.element t k e) c)).
Proof.
  move=> D /andP [D0 Ch]. rewrite /is_pairwise_delaunay (excess_sum K m.+1 rows t T) // all_map. apply/allP => e Ie /=. have /andP [/allP Dn S] := allP Ch e Ie.
  rewrite (around_sum K m.+1 rows t e (fun j c => DelProofs.gap K m.+1 d (wit_PP V d zs nums dens K) j e ^+ 2 * Num.sg (wit_coef nums dens K m.+2 j (nth 0%N (SubdSpec.element t m.+2 j) c)))).
  rewrite big_seq (eq_bigr (fun p => (centre_gap m.+2 p.1 m.+1 e * Num.sg (num nums m.+2 p.1 (apex rows p)))%:~R / D%:R ^+ 2)).
  - rewrite -big_seq -mulr_suml -(rmorph_sum [rmorphism of intmul (1 : K)]) /=. apply: divr_gt0; [|by rewrite exprn_gt0 // ltr0n]. rewrite ltr0z. by rewrite addz_big big_map in S.
  - move=> p P. have /and3P [D1 D2 /eqP Ed] := Dn p P. rewrite /DelProofs.gap wit_between // Ed rmorphM /= mulrAC. congr (_ * _ / _). have -> : SubdSpec.element t m.+2 p.1 = top_row rows p.1 by exact: (el_top m.+2 rows t T).
    rewrite /wit_coef sgrM. have -> : Num.sg (den dens m.+2 p.1)%:R^-1 = 1 :> K by apply: gtr0_sg; rewrite invr_gt0 ltr0n. rewrite mulr1. exact: sg_intr.
Qed.
End Witness.
(** three triangles with a common edge from (-12,0,0) to (12,0,0); their third corners (0,24,0) (0,0,8) (0,0,-8) *)
Definition fan_rows : list SimpModel.simplex := [:: [:: 0; 1; 2]; [:: 0; 1; 3]; [:: 0; 1; 4]]%N.
Definition fan_t : SimpModel.topology := Eval vm_compute in match SimpModel.from_simplices SimpProps.lex_leb 2 fan_rows with Util.Ok t => t | _ => SimpModel.mkTop [::] [::] [::] end.
Definition fan_zs : seq (seq int) := [:: [:: - 12%:Z; 0; 0]; [:: 12%:Z; 0; 0]; [:: 0; 24%:Z; 0]; [:: 0; 0; 8%:Z]; [:: 0; 0; - 8%:Z]].
Definition unit_rows (n : nat) : seq (seq int) := [seq [seq (i == j)%:Z | j <- iota 0 n] | i <- iota 0 n].
Definition fan_nums : seq (seq (seq int)) := [:: unit_rows 5;
  [:: [:: 1; 1; 0; 0; 0]; [:: 1; 0; 1; 0; 0]; [:: 1; 0; 0; 1; 0]; [:: 1; 0; 0; 0; 1]; [:: 0; 1; 1; 0; 0]; [:: 0; 1; 0; 1; 0]; [:: 0; 1; 0; 0; 1]];
  [:: [:: 5%:Z; 5%:Z; 6%:Z; 0; 0]; [:: 13%:Z; 13%:Z; 0; - 10%:Z; 0]; [:: 13%:Z; 13%:Z; 0; 0; - 10%:Z]]].
Definition fan_dens : seq (seq nat) := [:: nseq 5 1; nseq 7 2; nseq 3 16]%N.
Lemma fan_from : SimpModel.from_simplices SimpProps.lex_leb 2 fan_rows = Util.Ok fan_t. Proof. by vm_compute. Qed.
Lemma fan_check : check_all fan_t 2 5 3 fan_zs fan_nums fan_dens. Proof. by vm_compute. Qed.
Lemma fan_facets : check_facets fan_t fan_rows 0 5 3 fan_zs fan_nums fan_dens 32. Proof. by vm_compute. Qed.
Lemma fan_ok : SimpSpec.simplices_ok 2 fan_rows.
Proof. split=> //. repeat (apply: List.Forall_cons; [split=> //; by apply/NoDupE|]). by []. Qed.
(** two triangles (0,0) (4,0) (2,3) and (0,0) (4,0) (2,-3) *)
Definition rhomb_rows : list SimpModel.simplex := [:: [:: 0; 1; 2]; [:: 0; 3; 1]]%N.
Definition rhomb_t : SimpModel.topology := Eval vm_compute in match SimpModel.from_simplices SimpProps.lex_leb 2 rhomb_rows with Util.Ok t => t | _ => SimpModel.mkTop [::] [::] [::] end.
Definition rhomb_zs : seq (seq int) := [:: [:: 0; 0]; [:: 4%:Z; 0]; [:: 2%:Z; 3%:Z]; [:: 2%:Z; - 3%:Z]].
Definition rhomb_nums : seq (seq (seq int)) := [:: unit_rows 4;
  [:: [:: 1; 1; 0; 0]; [:: 1; 0; 1; 0]; [:: 1; 0; 0; 1]; [:: 0; 1; 1; 0]; [:: 0; 1; 0; 1]];
  [:: [:: 13%:Z; 13%:Z; 10%:Z; 0]; [:: 13%:Z; 13%:Z; 0; 10%:Z]]].
Definition rhomb_dens : seq (seq nat) := [:: nseq 4 1; nseq 5 2; nseq 2 36]%N.
Lemma rhomb_from : SimpModel.from_simplices SimpProps.lex_leb 2 rhomb_rows = Util.Ok rhomb_t. Proof. by vm_compute. Qed.
Lemma rhomb_check : check_all rhomb_t 2 4 2 rhomb_zs rhomb_nums rhomb_dens. Proof. by vm_compute. Qed.
Lemma rhomb_ok : SimpSpec.simplices_ok 2 rhomb_rows.
Proof. split=> //. repeat (apply: List.Forall_cons; [split=> //; by apply/NoDupE|]). by []. Qed.
Lemma two_rows : forall n (rows : list SimpModel.simplex), size rows = 2%N -> BdrySpec.at_most_two n rows.
Proof. move=> n rows Sz f j1 j2 j3. rewrite !sizeE Sz => /ssrnat.ltP L1 /ssrnat.ltP L2 /ssrnat.ltP L3 _ _ _. move: j1 j2 j3 L1 L2 L3 => [|[|]] // [|[|]] // [|[|]] // _ _ _; auto. Qed.

Section Fan.
Variable K : rcfType.
Variable sat : list (BinNums.Z * BinNums.Z) -> option (list BinNums.Z).
(** With three triangles at an edge the two differ: 9^2 - 5^2 - 5^2 is positive and 9 - 5 - 5 is not. *)
Theorem C82_three_refuted : BdryModel.is_oriented sat fan_t = Util.Ok true ->
  SimpSpec.simplices_ok 2 fan_rows /\ SimpModel.from_simplices SimpProps.lex_leb 2 fan_rows = Util.Ok fan_t /\
  exists pos PP coef bary PM DM, centres K fan_t 3 2 pos PP coef /\ circumcentred K fan_t 3 2 pos PP /\
    (forall k e c, (k <= 2)%N -> (e < SimpModel.n_elements fan_t k)%N -> (c <= k)%N -> bary k e c = coef k e (nth 0%N (SubdSpec.element fan_t k e) c)) /\
    metric K sat fan_t 3 PP (bary 2%N) = Util.Ok (PM, DM) /\
    is_pairwise_delaunay K fan_t 3 PP bary = true /\ nth 0 (nth [::] DM 1%N) 0%N = - 1.
Proof.
  move=> Or. split; [exact: fan_ok|]. split; [exact: fan_from|]. have [Hn T] := TopProofs.from_simplices_top_ok SimpProps.lex_leb 2 _ _ fan_ok fan_from.
  pose pos := wit_pos 3 fan_zs K. pose PP := wit_PP 5 3 fan_zs fan_nums fan_dens K. pose coef := wit_coef fan_nums fan_dens K. pose bary := fun k j c => coef k j (nth 0%N (SubdSpec.element fan_t k j) c).
  have C : centres K fan_t 3 2 pos PP coef := wit_centres fan_t 2 5 3 fan_zs fan_nums fan_dens fan_check K. have Cc : circumcentred K fan_t 3 2 pos PP := wit_circumcentred fan_t 2 5 3 fan_zs fan_nums fan_dens fan_check K.
  have [PM [DM M]] := metric_total K sat 2 _ _ 3 PP (bary 2%N) Hn T Or isT. exists pos, PP, coef, bary, PM, DM. split; [exact: C|]. split; [exact: Cc|]. split; [by move=> k e c _ _ _; reflexivity|]. split; [exact: M|]. split; [exact: (wit_delaunay K fan_t fan_rows 0 5 3 fan_zs fan_nums fan_dens T 32 fan_facets)|].
  have B : forall j c, (j < SimpModel.n_elements fan_t 2)%N -> (c <= 2)%N -> Num.sg (bary 2%N j c) = Num.sg (coef 2%N j (nth 0%N (SubdSpec.element fan_t 2%N j) c)) by [].
  have He : (0 < SimpModel.n_elements fan_t 1)%N by vm_compute. rewrite (C80_dual_edges K sat SimpProps.lex_leb 2 fan_rows fan_t 3 pos PP coef (bary 2%N) PM DM fan_ok fan_from isT M C B 0%N He).
  have El : forall j, SubdSpec.element fan_t 2%N j = top_row fan_rows j by exact: (el_top 2 fan_rows fan_t T). rewrite (n_top 2 fan_rows fan_t T).
  rewrite (eq_bigr (fun j : 'I_(size fan_rows) => \sum_(c < 3 | perm_eq (OrientProofs.el fan_t 1 0) (take c (top_row fan_rows j) ++ drop c.+1 (top_row fan_rows j))) Num.sg (coef 2%N j (nth 0%N (top_row fan_rows j) c)) * distance K 3 (PP 1%N 0%N) (PP 2%N j))); [|by move=> j _; rewrite El].
  rewrite (around_sum K 1 fan_rows fan_t 0%N (fun j c => Num.sg (coef 2%N j (nth 0%N (top_row fan_rows j) c)) * distance K 3 (PP 1%N 0%N) (PP 2%N j))). have -> : around 1 fan_rows fan_t 0%N = [:: (0, 2); (1, 2); (2, 2)]%N by vm_compute.
  rewrite !big_cons big_nil addr0. change (Num.sg (coef 2%N 0%N 2%N) * distance K 3 (PP 1%N 0%N) (PP 2%N 0%N) + (Num.sg (coef 2%N 1%N 3%N) * distance K 3 (PP 1%N 0%N) (PP 2%N 1%N) + Num.sg (coef 2%N 2%N 4%N) * distance K 3 (PP 1%N 0%N) (PP 2%N 2%N)) = - 1).
  have L : forall j (a : nat), (j < 3)%N -> a = nth 0%N [:: 9; 5; 5]%N j -> distance K 3 (PP 1%N 0%N) (PP 2%N j) = a%:R. { move=> j a Lj ->. apply: wit_length; [by vm_compute|by move: j Lj => [|[|[|]]] // _; vm_compute|by move: j Lj => [|[|[|]]] // _; vm_compute]. }
  rewrite !(L _ _ _ erefl) //. have P0 : Num.sg (coef 2%N 0%N 2%N) = 1 by apply: gtr0_sg; rewrite /coef /wit_coef divr_gt0 ?ltr0n // ltr0z. have N1 : Num.sg (coef 2%N 1%N 3%N) = - 1 by apply: ltr0_sg; rewrite /coef /wit_coef pmulr_llt0 ?invr_gt0 ?ltr0n // ltrz0. have N2 : Num.sg (coef 2%N 2%N 4%N) = - 1 by apply: ltr0_sg; rewrite /coef /wit_coef pmulr_llt0 ?invr_gt0 ?ltr0n // ltrz0.
  rewrite P0 N1 ?N2 mul1r !mulN1r -opprD -natrD -[nth 0%N [:: 9; 5; 5]%N 0]/9%N. have -> : (nth 0%N [:: 9; 5; 5]%N 1 + nth 0%N [:: 9; 5; 5]%N 2 = 9 + 1)%N by []. by rewrite natrD opprD addrA subrr sub0r.
Qed.
End Fan.
Print Assumptions C82_three_refuted.
(** The solver of SelProofs finds the three triangles oriented: a facet in other than two simplices gives no condition. *)
Example C82_three_example : BdryModel.is_oriented SelProofs.brute_sat fan_t = Util.Ok true. Proof. by vm_compute. Qed.

(** the only pair of different triangles with a common edge *)
Lemma rhomb_pairs : all (fun e => all (fun j => all (fun i => all (fun v => all (fun w =>
  [&& perm_eq (SubdSpec.element rhomb_t 2 j) (v :: SubdSpec.element rhomb_t 1 e), perm_eq (SubdSpec.element rhomb_t 2 i) (w :: SubdSpec.element rhomb_t 1 e) & j != i] ==>
  (e == 0) && ((v == 2) && (w == 3) || (v == 3) && (w == 2)))%N (SubdSpec.element rhomb_t 2 i)) (SubdSpec.element rhomb_t 2 j)) (iota 0 2)) (iota 0 2)) (iota 0 5).
Proof. by vm_compute. Qed.
Section Rhomb.
Variable K : rcfType.
Lemma rhomb_area : forall j, (j < 2)%N -> content K 2 2 (corners K 2 2 (wit_pos 2 rhomb_zs K) (SubdSpec.element rhomb_t 2%N j)) = 6%:R.
Proof.
  move=> j Lj. rewrite content_z SurfProofs.det22 !mxE -!(rmorphM [rmorphism of intmul (1 : K)], rmorphB [rmorphism of intmul (1 : K)], rmorphD [rmorphism of intmul (1 : K)]) /=.
  set g := (X in `|X%:~R|). have -> : g = 12%:Z ^+ 2 by rewrite /g; move: j Lj {g} => [|[|]] // _; vm_compute. rewrite sqrt_z (_ : 12 = 6 * 2)%N //. by rewrite natrM mulfK ?pnatr_eq0.
Qed.
(** Two acute triangles: every hypothesis of C82_dual_partial, C82_delaunay and C82_well_centered holds. *)
Example C82_example : SimpSpec.simplices_ok 2 rhomb_rows /\ SimpModel.from_simplices SimpProps.lex_leb 2 rhomb_rows = Util.Ok rhomb_t /\ BdrySpec.at_most_two 2 rhomb_rows /\
  exists pos PP coef bary PM DM, centres K rhomb_t 2 2 pos PP coef /\ circumcentred K rhomb_t 2 2 pos PP /\
    (forall k e c, (k <= 2)%N -> (e < SimpModel.n_elements rhomb_t k)%N -> (c <= k)%N -> bary k e c = coef k e (nth 0%N (SubdSpec.element rhomb_t k e) c)) /\
    metric K SelProofs.brute_sat rhomb_t 2 PP (bary 2%N) = Util.Ok (PM, DM) /\
    (forall j, (j < SimpModel.n_elements rhomb_t 2)%N -> content K 2 2 (corners K 2 2 pos (SubdSpec.element rhomb_t 2%N j)) = 6%:R) /\
    (forall e j v i w, (e < SimpModel.n_elements rhomb_t 1)%N -> opposite rhomb_t 2 e j v -> opposite rhomb_t 2 e i w -> j <> i -> apart K rhomb_t 2 2 pos e v w) /\
    is_well_centered K rhomb_t bary = true /\ positive_dual_metric K DM = true /\ is_pairwise_delaunay K rhomb_t 2 PP bary = true /\
    outside K rhomb_t 2 2 pos (PP 2%N 0%N) 0%N 3%N.
Proof.
  split; [exact: rhomb_ok|]. split; [exact: rhomb_from|]. have AM : BdrySpec.at_most_two 2 rhomb_rows by exact: two_rows. split; [exact: AM|]. have [Hn T] := TopProofs.from_simplices_top_ok SimpProps.lex_leb 2 _ _ rhomb_ok rhomb_from.
  pose pos := wit_pos 2 rhomb_zs K. pose PP := wit_PP 4 2 rhomb_zs rhomb_nums rhomb_dens K. pose coef := wit_coef rhomb_nums rhomb_dens K. pose bary := fun k j c => coef k j (nth 0%N (SubdSpec.element rhomb_t k j) c).
  have C : centres K rhomb_t 2 2 pos PP coef := wit_centres rhomb_t 2 4 2 rhomb_zs rhomb_nums rhomb_dens rhomb_check K. have Cc : circumcentred K rhomb_t 2 2 pos PP := wit_circumcentred rhomb_t 2 4 2 rhomb_zs rhomb_nums rhomb_dens rhomb_check K.
  have Or : BdryModel.is_oriented SelProofs.brute_sat rhomb_t = Util.Ok true by vm_compute.
  have [PM [DM M]] := metric_total K SelProofs.brute_sat 2 _ _ 2 PP (bary 2%N) Hn T Or isT. exists pos, PP, coef, bary, PM, DM. split; [exact: C|]. split; [exact: Cc|]. split; [by move=> k e c _ _ _; reflexivity|]. split; [exact: M|].
  have B : forall j c, (j < SimpModel.n_elements rhomb_t 2)%N -> (c <= 2)%N -> Num.sg (bary 2%N j c) = Num.sg (coef 2%N j (nth 0%N (SubdSpec.element rhomb_t 2%N j) c)) by [].
  have Ar : forall j, (j < SimpModel.n_elements rhomb_t 2)%N -> content K 2 2 (corners K 2 2 pos (SubdSpec.element rhomb_t 2%N j)) = 6%:R by exact: rhomb_area. split; [exact: Ar|].
  have Nd : forall j, (j < SimpModel.n_elements rhomb_t 2)%N -> content K 2 2 (corners K 2 2 pos (SubdSpec.element rhomb_t 2%N j)) != 0 by move=> j J; rewrite Ar // pnatr_eq0.
  have Ap : forall e j v i w, (e < SimpModel.n_elements rhomb_t 1)%N -> opposite rhomb_t 2 e j v -> opposite rhomb_t 2 e i w -> j <> i -> apart K rhomb_t 2 2 pos e v w.
  { pose z e v q := zpos rhomb_zs v q - zpos rhomb_zs (head 0%N (SubdSpec.element rhomb_t 1%N e)) q.
    have E0 : forall e j v i w, (e < 5)%N -> opposite rhomb_t 2 e j v -> opposite rhomb_t 2 e i w -> j <> i -> e = 0%N /\ ((v = 2 /\ w = 3) \/ (v = 3 /\ w = 2))%N.
    { move=> e j v i w Le [J P] [I Q] Nij. have Mv : v \in SubdSpec.element rhomb_t 2 j by rewrite (perm_mem P) mem_head. have Mw : w \in SubdSpec.element rhomb_t 2 i by rewrite (perm_mem Q) mem_head.
      have Ch := rhomb_pairs. move/allP: Ch => /(_ e). rewrite mem_iota add0n Le => /(_ isT) /allP /(_ j). rewrite mem_iota add0n J => /(_ isT) /allP /(_ i). rewrite mem_iota add0n I => /(_ isT) /allP /(_ v Mv) /allP /(_ w Mw). rewrite P Q. have -> : (j != i) = true by apply/eqP.
      move=> /andP [/eqP -> /orP [/andP [/eqP -> /eqP ->]|/andP [/eqP -> /eqP ->]]]; auto. }
    move=> e j v i w He Oj Oi Nij. have [-> VW] := E0 e j v i w He Oj Oi Nij. pose sg : int := if v == 2%N then 1 else -1. exists (\row_q (if q == ord0 then 0 else sg%:~R)). have Fs : forall f, f \in SubdSpec.element rhomb_t 1 0 -> f = 0%N \/ f = 1%N. { move=> f. rewrite !inE => /orP [] /eqP ->; auto. }
    have Dt : forall a b, \sum_q (\row_q (if q == ord0 then 0 else sg%:~R)) 0 q * (pos a - pos b) 0 q = (sg * (zpos rhomb_zs a 1 - zpos rhomb_zs b 1))%:~R :> K. { move=> a b. rewrite !big_ord_recl big_ord0 !mxE /= mul0r add0r addr0 rmorphM rmorphB /=. by []. }
    split=> [f g F G|f F]; rewrite !Dt; [by case: (Fs f F) => ->; case: (Fs g G) => ->; rewrite subrr mulr0|]. rewrite ltr0z ltrz0 /sg. by case: VW => [[-> ->]|[-> ->]]; case: (Fs f F) => ->. }
  split; [exact: Ap|]. have W : is_well_centered K rhomb_t bary.
  { rewrite /is_well_centered (OrientProofs.top_n_dim 2 rhomb_rows rhomb_t T). have Q : forall k e c, (k < 3)%N -> (e < SimpModel.n_elements rhomb_t k)%N -> (c < k.+1)%N -> 0 < bary k e c.
    { move=> k e c Lk Le Lc. rewrite /bary /coef /wit_coef. apply: divr_gt0; [rewrite ltr0z|rewrite ltr0n]; move: k e c Lk Le Lc; clear; by do 3 (case=> [[|[|[|[|[|e]]]]] // [|[|[|c]]] //|]). }
    apply/allP => k Ik. apply/allP => e Ie. apply/allP => c Ic. rewrite !mem_iota !add0n in Ik Ie Ic. exact: Q. }
  have [Pd Del] := C82_well_centered K SelProofs.brute_sat SimpProps.lex_leb 2 rhomb_rows rhomb_t 2 pos PP coef (bary 2%N) bary PM DM rhomb_ok rhomb_from M C B (fun k e c _ _ _ => erefl) Nd W. have Dl := Del isT AM. split; [exact: W|]. split; [exact: Pd|]. split; [exact: Dl|].
  have [O _] := proj1 (C82_delaunay K SimpProps.lex_leb 2 rhomb_rows rhomb_t pos PP coef bary rhomb_ok rhomb_from isT AM C Cc B Nd Ap) Dl. apply: (O 0%N 0%N 2%N 1%N 3%N) => //.
Qed.
(** The two triangles of C80_example are not pairwise Delaunay. *)
Example C82_kite : exists pos PP coef, centres K kite_t 2 2 pos PP coef /\ circumcentred K kite_t 2 2 pos PP /\ is_pairwise_delaunay K kite_t 2 PP (fun k e c => coef k e (nth 0%N (SubdSpec.element kite_t k e) c)) = false.
Proof.
  have [_ [_ [pos [PP [coef [bary [PM [DM [C [Cc [B [M [_ [_ [_ [_ [_ [_ D]]]]]]]]]]]]]]]]]] := C80_example K. exists pos, PP, coef. split; [exact: C|]. split; [exact: Cc|]. have AM : BdrySpec.at_most_two 2 kite_rows by exact: two_rows.
  have B2 : forall j c, (j < SimpModel.n_elements kite_t 2)%N -> (c <= 2)%N -> Num.sg (coef 2%N j (nth 0%N (SubdSpec.element kite_t 2%N j) c)) = Num.sg (coef 2%N j (nth 0%N (SubdSpec.element kite_t 2%N j) c)) by [].
  apply/negP => /(C82_dual_partial K SelProofs.brute_sat SimpProps.lex_leb 2 kite_rows kite_t 2 pos PP coef bary (fun k e c => coef k e (nth 0%N (SubdSpec.element kite_t k e) c)) PM DM kite_ok kite_from isT AM M C B B2) H.
  have He : (1 < SimpModel.n_elements kite_t 1)%N by []. have := H 1%N He. rewrite D oppr_gt0 ltNge divr_ge0 ?ler0n //.
Qed.
End Rhomb.
Print Assumptions C82_example.
Print Assumptions C82_kite.
