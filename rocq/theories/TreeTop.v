(** Powers of the centres of simplices, and the sums of dual_edge_excess with orientation. *)
From Coq Require Import Permutation Factorial ZArith.
From mathcomp Require Import all_ssreflect all_algebra.
From Verif Require Import GeoRing GeoModel MetModel MetSpec MetAff MetSum MetProofs MetVol MetCot DelModel DelSpec DelProofs DelFree DelGeo TreeModel TreeSpec TreeProofs.
From Verif Require Util SimpModel SimpSpec SimpProofs BdryModel BdrySpec BdryProofs SubdModel SubdSpec ParProofs LevelProofs TopProofs OrientProofs FundProofs TreeSel.
Import Order.TTheory GRing.Theory Num.Theory.
Local Open Scope nat_scope.
Local Open Scope ring_scope.

Section Top.
Variable K : rcfType.
Add Field Kf : (K_field K).
Ltac kring := kprep K; ring.
Variables (m : nat) (rows : list SimpModel.simplex) (t : SimpModel.topology).
Hypothesis T : TopProofs.top_ok m.+1 rows t.
Variable d : nat.
Variable PP : nat -> nat -> 'rV[K]_d.
Variable bary : nat -> nat -> nat -> K.
Notation el := (OrientProofs.el t).
Notation idx := (FundProofs.idx t).
Notation facet := ParProofs.facet.
Notation N := (size rows).
Notation top_row := (top_row rows).
Notation nE := (SimpModel.n_elements t m).
Hypothesis M1 : (1 <= m)%N.
Let Hn : Peano.le 1 m.+1. Proof. exact/ssrnat.leP. Qed.
Notation around := (around m rows t).
Notation sign e j := (SimpModel.entry (SimpModel.matrix t m) e j).
Notation gap := (gap K m d PP).

Lemma slot_around : forall e p, (e < nE)%N -> (p \in around e) = [&& (p.1 < N)%N, (p.2 < m.+2)%N & idx m (facet m.+1 p.2 (top_row p.1)) == e].
Proof. move=> e [j c] He. rewrite around_in /=. case J : (j < N)%N => //=. case Lc : (c < m.+2)%N => //=. by rewrite slot_face. Qed.
Lemma last_sign : forall j c, (j < N)%N -> (c < m.+2)%N -> List.nth c (List.nth j (last_orientation t) [::]) Z0 = sign (idx m (facet m.+1 c (top_row j))) j.
Proof.
  move=> j c J Lc. rewrite /last_orientation (OrientProofs.top_n_dim m.+1 rows t T) subn1 /= /SimpModel.matrix. have Lr := nth_rows m rows t T M1 j. have Lv := TopProofs.to_level _ _ _ T m (le_n m.+1). rewrite (TopProofs.to_top _ _ _ T) in Lv.
  rewrite /last_boundary (OrientProofs.top_n_dim m.+1 rows t T) subn1 /= in Lr. move: Lr Lv. move: (List.nth m (SimpModel.boundary_idx t) [::]) (List.nth m (SimpModel.orientation t) [::]) => B Or Lr Lv.
  have LB := LevelProofs.lv_lenB _ _ _ _ _ Lv. have LO := LevelProofs.lv_lenO _ _ _ _ _ Lv. have RB := LevelProofs.lv_rectB _ _ _ _ _ Lv. have RO := LevelProofs.lv_rectO _ _ _ _ _ Lv. have J' : (j < List.length rows)%coq_nat by exact/ssrnat.ltP.
  have NB : B <> [::] by move=> E; rewrite E in LB; rewrite -LB in J'; inversion J'. rewrite (SimpProofs.topology_matrix_entry m.+2 B Or _ _ (Nat.lt_0_succ _) RB RO); [|by rewrite LB LO|exact: NB].
  have -> : Nat.ltb j (List.length B) = true by apply/Nat.ltb_lt; rewrite LB. rewrite List.Forall_forall in RB. rewrite List.Forall_forall in RO. rewrite (LevelProofs.col_entry_sum m.+2); [|by apply: RB; apply: List.nth_In; rewrite LB|by apply: RO; apply: List.nth_In; rewrite LO].
  have En : forall c', (c' < m.+2)%N -> List.nth c' (List.nth j B [::]) 0%N = idx m (facet m.+1 c' (top_row j)) by move=> c' L; rewrite !nthE; exact: Lr.
  rewrite (Util.sumZ_single _ _ c); [|exact/ssrnat.ltP|]; [by rewrite En // Nat.eqb_refl|]. move=> i /ssrnat.ltP Li Ni. rewrite En //. case Q : (Nat.eqb _ _) => //. case: Ni. move/Nat.eqb_eq: Q => Q.
  have [He _] := idx_slot m rows t T j c J Lc. have P1 : (j, i) \in around (idx m (facet m.+1 c (top_row j))) by rewrite slot_around // J Li /= Q eqxx. have P2 : (j, c) \in around (idx m (facet m.+1 c (top_row j))) by rewrite slot_around // J Lc /= eqxx.
  by have [] := one_corner m rows t T _ _ _ P1 P2 erefl.
Qed.
Lemma last_signs : last_orientation t = [seq [seq sign (idx m (facet m.+1 c (top_row j))) j | c <- iota 0 m.+2] | j <- iota 0 N].
Proof.
  have Lv := TopProofs.to_level _ _ _ T m (le_n m.+1). rewrite (TopProofs.to_top _ _ _ T) in Lv. have LO := LevelProofs.lv_lenO _ _ _ _ _ Lv. have RO := LevelProofs.lv_rectO _ _ _ _ _ Lv. rewrite List.Forall_forall in RO.
  have Ls := last_sign. move: Ls. rewrite /last_orientation (OrientProofs.top_n_dim m.+1 rows t T) subn1 /=. move: LO RO. move: (List.nth m (SimpModel.orientation t) [::]) => Or LO RO Ls.
  have -> : Or = [seq List.nth j Or [::] | j <- iota 0 N] by have Q := Util.map_nth_seq _ Or [::]; rewrite LO seqE in Q; rewrite -{1}Q. apply/eq_in_map => j. rewrite mem_iota => /andP [_ J]. have J' : (j < N)%coq_nat by exact/ssrnat.ltP.
  have Rw : List.length (List.nth j Or [::]) = m.+2 by apply: RO; apply: List.nth_In; rewrite LO.
  have -> : List.nth j Or [::] = [seq List.nth c (List.nth j Or [::]) Z0 | c <- iota 0 m.+2] by have Q := Util.map_nth_seq _ (List.nth j Or [::]) Z0; rewrite Rw seqE in Q; rewrite -{1}Q. apply/eq_in_map => c. rewrite mem_iota => /andP [_ Lc]. exact: Ls.
Qed.
Lemma oriented_sum : remap_boundary_N K t (dual_edge_excess K t d PP bary false) true = [seq \sum_(p <- around e) gap p.1 e ^+ 2 * z_to_K K (sign e p.1) | e <- iota 0 nE].
Proof.
  rewrite /remap_boundary_N (keys m rows t T M1). pose F (p : nat * nat) := gap p.1 (idx m (facet m.+1 p.2 (top_row p.1))) ^+ 2 * z_to_K K (sign (idx m (facet m.+1 p.2 (top_row p.1))) p.1).
  have -> : flatten [seq [seq q.1 * z_to_K K q.2 | q <- zip p.1 p.2] | p <- zip (dual_edge_excess K t d PP bary false) (last_orientation t)] = [seq F p | p <- slots m rows].
  { rewrite /slots map_allpairs last_signs /dual_edge_excess (OrientProofs.top_n_dim m.+1 rows t T) (n_top m.+1 rows t T). rewrite zip_map -map_comp. congr flatten. apply/eq_in_map => j. rewrite mem_iota => /andP [_ J] . move: (iota 0 m.+2) (fun c : nat => mem_iota 0 m.+2 c) => l Ml. rewrite [LHS]/= zip_map -map_comp. apply/eq_in_map => c. rewrite Ml => /andP [_ Lc].
    rewrite /F /= (nth_rows m rows t T M1) // subn1 /=. congr (_ * _). rewrite mulr1 /DelProofs.gap /distance sqr_sqrtr; [|by apply: sumr_ge0 => q _; exact: sqr_ge0]. apply: eq_bigr => q _. by rewrite !mxE expr2. }
  rewrite (group_sum_map K _ _ _ _ nE (keys_all m rows t T)). apply/eq_in_map => e. rewrite mem_iota => /andP [_ He]. rewrite /DelProofs.around big_filter big_seq_cond [RHS]big_seq_cond. apply: eq_big => [p|p].
  - case P : (p \in slots m rows) => //=. have [J Lc] := slot_in m rows p P. exact: slot_face.
  - move=> /andP [_ /eqP E]. by rewrite /F E.
Qed.
Lemma coface_slot : forall e j, (e < nE)%N -> (j < N)%N -> {subset el m e <= top_row j} -> exists c, (j, c) \in around e.
Proof.
  move=> e j E J S. have I := top_inside m.+1 rows t Hn T j J. have [Sz _] := I. have U := inside_uniq _ _ _ I. have [Lel ND] := OrientProofs.el_len m.+1 rows t Hn T m e (le_S _ _ (le_n m)) (elimT ssrnat.ltP E).
  have [v [Vs Ve]] : exists v, List.In v (top_row j) /\ ~ List.In v (el m e). { apply: TopProofs.exists_outside; [exact/NoDupE|]. apply/ssrnat.ltP. rewrite Lel sizeE Sz. by []. }
  move/InE in Vs. exists (index v (top_row j)). apply: (proj1 (around_opp m rows t T e j v J _)). rewrite perm_sym. have Un : uniq (v :: el m e). { rewrite /=. apply/andP. split; [|exact/NoDupE]. apply/negP => /InE. exact: Ve. }
  have Sub : {subset v :: el m e <= top_row j} by move=> w; rewrite inE => /orP [/eqP ->|] //; exact: S. have Le : (size (top_row j) <= size (v :: el m e))%N by rewrite Sz /= -sizeE Lel. have [_ M] := uniq_min_size Un Sub Le. exact: (uniq_perm Un U M).
Qed.
Lemma around_sub : forall e p, p \in around e -> {subset el m e <= top_row p.1}.
Proof. move=> e p P v V. by rewrite (perm_mem (around_perm m rows t T e p P)) inE V orbT. Qed.
Lemma sign_off : forall e j, (e < nE)%N -> (j < N)%N -> (forall c, (j, c) \notin around e) -> sign e j = Z0.
Proof.
  move=> e j He J Off. have [_ V] := TopProofs.entry_values m.+1 rows t Hn T m e j (le_n _) (elimT ssrnat.ltP He) (eq_ind_r (fun x => (j < x)%coq_nat) (elimT ssrnat.ltP J) (n_top m.+1 rows t T)). apply: V => I.
  have [c P] : exists c, (j, c) \in around e. { apply: coface_slot => //. move=> v V. apply/InE. rewrite -(el_top m.+1 rows t T). apply: I. exact/InE. } by have := Off c; rewrite P.
Qed.
Lemma around_one : forall e, uniq [seq p.1 | p <- around e].
Proof. move=> e. rewrite map_inj_in_uniq; [exact: around_uniq|]. move=> p q P Q. exact: (one_corner m rows t T e p q P Q). Qed.
Lemma coface_sum : forall e (v : nat -> K), (e < nE)%N -> \sum_(j < N) z_to_K K (sign e j) * v j = \sum_(p <- around e) z_to_K K (sign e p.1) * v p.1.
Proof.
  move=> e v He. rewrite -(big_map fst xpredT (fun j => z_to_K K (sign e j) * v j)) -(big_mkord xpredT (fun j => z_to_K K (sign e j) * v j)) /index_iota subn0. rewrite big_seq. apply: etrans (_ : _ = \sum_(j <- [seq p.1 | p <- around e]) (if (j < N)%N then z_to_K K (sign e j) * v j else 0)) _.
  - rewrite -(sum_sub _ _ (iota 0 N)); [|exact: iota_uniq|exact: around_one| |].
    + rewrite [RHS]big_seq. apply: eq_bigr => j. by rewrite mem_iota => /andP [_ ->].
    + move=> j /mapP [p P ->]. rewrite mem_iota. by have := P; rewrite around_in => /and3P [-> _ _].
    + move=> j Off. case: ifP => // J. rewrite sign_off ?mul0r //. move=> c. apply/negP => P. case/negP: Off. apply/mapP. by exists (j, c).
  - rewrite big_seq [RHS]big_seq. apply: eq_bigr => j /mapP [p P ->]. by have := P; rewrite around_in => /and3P [-> _ _].
Qed.
Lemma n_minus : (m.+1 - 1)%coq_nat = m. Proof. by rewrite -[LHS]/(m.+1 - 1)%N subn1. Qed.
Lemma sign_pm : forall e p, (e < nE)%N -> p \in around e -> sign e p.1 = Zpos xH \/ sign e p.1 = Zneg xH.
Proof.
  move=> e p He P. have J : (p.1 < N)%N by have := P; rewrite around_in => /and3P [-> _ _]. have := OrientProofs.entry_pm m.+1 rows t Hn T e p.1. rewrite n_minus. apply; [exact/ssrnat.ltP|exact/ssrnat.ltP|]. move=> v /InE V. apply/InE. exact: (around_sub e p P).
Qed.
Hypothesis CO : BdrySpec.consistent m.+1 rows.
Lemma sign_opp : forall e p q, (e < nE)%N -> p \in around e -> q \in around e -> p.1 <> q.1 -> z_to_K K (sign e p.1) = - z_to_K K (sign e q.1).
Proof.
  move=> e p q He P Q Npq. have Jp : (p.1 < N)%N by have := P; rewrite around_in => /and3P [-> _ _]. have Jq : (q.1 < N)%N by have := Q; rewrite around_in => /and3P [-> _ _].
  have X : sign e p.1 = Z.opp (sign e q.1).
  { have En := OrientProofs.entry_top m.+1 rows t Hn T e. rewrite n_minus in En. rewrite !En; try exact/ssrnat.ltP. have C := CO p.1 q.1 (elimT ssrnat.ltP Jp) (elimT ssrnat.ltP Jq) Npq (el m e). rewrite n_minus in C. rewrite C; [by rewrite Z.mul_opp_r|exact: (around_face m rows t T)|exact: (around_face m rows t T)]. }
  rewrite X. by case: (sign_pm e q He Q) => ->; rewrite /= ?opprK.
Qed.
End Top.
