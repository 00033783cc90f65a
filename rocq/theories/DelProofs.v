(** The sums of dual_edge_excess over the simplices at a facet. *)
From Coq Require Import Permutation Factorial.
From mathcomp Require Import all_ssreflect all_algebra.
From Verif Require Import MetModel MetSpec MetSum MetProofs MetVol DelModel.
From Verif Require Util SimpModel SimpSpec BdryModel BdrySpec SubdSpec ParProofs LevelProofs TopProofs OrientProofs FundProofs.
Import Order.TTheory GRing.Theory Num.Theory.
Local Open Scope nat_scope.
Local Open Scope ring_scope.

Section Del.
Variable K : rcfType.
Variables (m : nat) (rows : list SimpModel.simplex) (t : SimpModel.topology).
Hypothesis T : TopProofs.top_ok m.+1 rows t.
Variable d : nat.
Variable PP : nat -> nat -> 'rV[K]_d.
Variable bary : nat -> nat -> nat -> K.
Notation el := (OrientProofs.el t).
Notation idx := (FundProofs.idx t).
Notation facet := ParProofs.facet.
Notation N := (size rows).
Notation top_row := (top_row rows).
Notation nE := (SimpModel.n_elements t m).
Hypothesis M1 : (1 <= m)%N.
Let Hn : Peano.le 1 m.+1. Proof. exact/ssrnat.leP. Qed.

Definition slots : seq (nat * nat) := [seq (j, c) | j <- iota 0 N, c <- iota 0 m.+2].
Lemma slot_in : forall p, p \in slots -> (p.1 < N)%N /\ (p.2 < m.+2)%N.
Proof. move=> p /allpairsP [[j c] [J Cc ->]]. rewrite !mem_iota in J Cc. split; [exact: J|exact: Cc]. Qed.
Lemma idx_slot : forall j c, (j < N)%N -> (c < m.+2)%N -> (idx m (facet m.+1 c (top_row j)) < nE)%N /\ perm_eq (el m (idx m (facet m.+1 c (top_row j)))) (take c (top_row j) ++ drop c.+1 (top_row j)).
Proof.
  move=> j c J Lc. have I := top_inside m.+1 rows t Hn T j J. have [Sz _] := I. have If := facet_in rows m c _ Lc I. have [Ei Pi] := idx_ok m.+1 rows t Hn T m _ (ltnSn m) If. split=> //. apply: perm_trans Pi _. rewrite perm_sym. apply: facet_omit. by rewrite Sz.
Qed.
Lemma slot_face : forall j c e, (j < N)%N -> (c < m.+2)%N -> (e < nE)%N -> (idx m (facet m.+1 c (top_row j)) == e) = perm_eq (el m e) (take c (top_row j) ++ drop c.+1 (top_row j)).
Proof.
  move=> j c e J Lc He. have [Ei Pi] := idx_slot j c J Lc. apply/eqP/idP => [<- //|P].
  refine (TopProofs.faces_unique m.+1 rows t T m _ _ (le_n m.+1) (elimT ssrnat.ltP Ei) (elimT ssrnat.ltP He) _). apply: PermP. apply: perm_trans Pi _. by rewrite perm_sym.
Qed.
Lemma last_rows : last_boundary t = [seq [seq idx m (facet m.+1 c (top_row j)) | c <- iota 0 m.+2] | j <- iota 0 N].
Proof.
  rewrite /last_boundary (OrientProofs.top_n_dim m.+1 rows t T) subn1 /=. have Lv := TopProofs.to_level _ _ _ T m (le_n m.+1). rewrite (TopProofs.to_top _ _ _ T) in Lv. move: Lv. move: (List.nth m (SimpModel.boundary_idx t) [::]) => B Lv. have LB := LevelProofs.lv_lenB _ _ _ _ _ Lv.
  have -> : B = [seq List.nth j B [::] | j <- iota 0 N] by have Q := Util.map_nth_seq _ B [::]; rewrite LB seqE in Q; rewrite -{1}Q. apply/eq_in_map => j. rewrite mem_iota => /andP [_ J]. have J' : (j < N)%coq_nat by exact/ssrnat.ltP.
  have Rw : List.length (List.nth j B [::]) = m.+2. { have F := LevelProofs.lv_rectB _ _ _ _ _ Lv. rewrite List.Forall_forall in F. apply: F. apply: List.nth_In. by rewrite LB. }
  have -> : List.nth j B [::] = [seq List.nth c (List.nth j B [::]) 0%N | c <- iota 0 m.+2] by have Q := Util.map_nth_seq _ (List.nth j B [::]) 0%N; rewrite Rw seqE in Q; rewrite -{1}Q. apply/eq_in_map => c. rewrite mem_iota => /andP [_ Lc].
  have [E1 [E2 _]] := LevelProofs.lv_idx _ _ _ _ _ Lv j c J' (elimT ssrnat.ltP Lc). have [I1 I2] := idx_slot j c J Lc.
  symmetry. refine (TopProofs.faces_unique m.+1 rows t T m _ _ (le_n m.+1) (elimT ssrnat.ltP I1) E1 _). apply: Permutation_trans (PermP _ _ I2) _. rewrite -omitE. have Pi : LevelProofs.pi m.+1 c = c by rewrite /LevelProofs.pi; case: (m) M1. rewrite Pi in E2. exact: E2.
Qed.
Lemma keys : flatten (last_boundary t) = [seq idx m (facet m.+1 p.2 (top_row p.1)) | p <- slots].
Proof. by rewrite last_rows /slots map_allpairs. Qed.
Lemma face_slot : forall e, (e < nE)%N -> exists j c, [/\ (j < N)%N, (c < m.+2)%N & idx m (facet m.+1 c (top_row j)) = e].
Proof.
  move=> e E. have [j J S] := in_top m.+1 rows t Hn T m e (leqnSn m) E. have I := top_inside m.+1 rows t Hn T j J. have [Sz _] := I. have U := inside_uniq _ _ _ I. have [Lel ND] := OrientProofs.el_len m.+1 rows t Hn T m e (le_S _ _ (le_n m)) (elimT ssrnat.ltP E).
  have [v [Vs Ve]] : exists v, List.In v (top_row j) /\ ~ List.In v (el m e). { apply: TopProofs.exists_outside; [exact/NoDupE|]. apply/ssrnat.ltP. rewrite Lel sizeE Sz. by []. }
  move/InE in Vs. pose c := index v (top_row j). have Lc : (c < m.+2)%N by rewrite -Sz index_mem. have Lc' : (c < size (top_row j))%N by rewrite Sz. exists j, c. split=> //. apply/eqP. rewrite slot_face //.
  have Es : top_row j = take c (top_row j) ++ v :: drop c.+1 (top_row j) by rewrite -{1}(cat_take_drop c (top_row j)) (drop_nth 0%N Lc') nth_index.
  have Uc : uniq (take c (top_row j) ++ drop c.+1 (top_row j)). { rewrite Es in U. rewrite cat_uniq /= in U. move: U => /and3P [U1 /norP [_ U2] /andP [_ U3]]. by rewrite cat_uniq U1 U2 U3. }
  apply: uniq_perm => //; [exact/NoDupE|]. have Sub : {subset el m e <= take c (top_row j) ++ drop c.+1 (top_row j)}. { move=> w W. have := S w W. rewrite Es !mem_cat inE. case: (w =P v) => [X|_]; [by case: Ve; apply/InE; rewrite -X|]. rewrite -Es. by []. }
  have Szc : size (take c (top_row j) ++ drop c.+1 (top_row j)) = m.+1. { have := f_equal size Es. rewrite !size_cat /= addnS => X. have Y : (size (take c (top_row j)) + size (drop c.+1 (top_row j))).+1 = m.+2 by rewrite -X Sz. by case: Y. }
  have Le : (size (take c (top_row j) ++ drop c.+1 (top_row j)) <= size (el m e))%N by rewrite Szc -sizeE Lel. have [_ M] := uniq_min_size (proj1 (NoDupE _) ND) Sub Le. exact: M.
Qed.
Lemma keys_all : forall e, (e \in [seq idx m (facet m.+1 p.2 (top_row p.1)) | p <- slots]) = (e < nE)%N.
Proof.
  move=> e. apply/idP/idP => [/mapP [p P ->]|E]; [have [J Lc] := slot_in p P; exact: (proj1 (idx_slot _ _ J Lc))|]. have [j [c [J Lc Q]]] := face_slot e E. apply/mapP. exists (j, c) => //. apply/allpairsP. exists (j, c). by rewrite !mem_iota.
Qed.
Lemma nth_rows : forall j c, (j < N)%N -> (c < m.+2)%N -> nth 0%N (nth [::] (last_boundary t) j) c = idx m (facet m.+1 c (top_row j)).
Proof. move=> j c J Lc. by rewrite last_rows (nth_map 0%N) ?size_iota // nth_iota // (nth_map 0%N) ?size_iota // nth_iota. Qed.
(** the sum at facet e *)
Definition gap (j e : nat) : K := distance K d (PP m.+1 j) (PP m e).
Lemma excess_sum : forall signed, remap_boundary_N K t (dual_edge_excess K t d PP bary signed) false =
  [seq \sum_(j < N) \sum_(c < m.+2 | perm_eq (el m e) (take c (top_row j) ++ drop c.+1 (top_row j))) gap j e ^+ 2 * (if signed then Num.sg (bary m.+1 j c) else 1) | e <- iota 0 nE].
Proof.
  move=> signed. rewrite /remap_boundary_N keys. pose F (p : nat * nat) := gap p.1 (idx m (facet m.+1 p.2 (top_row p.1))) ^+ 2 * (if signed then Num.sg (bary m.+1 p.1 p.2) else 1).
  have -> : flatten (dual_edge_excess K t d PP bary signed) = [seq F p | p <- slots].
  { rewrite /slots map_allpairs /dual_edge_excess (OrientProofs.top_n_dim m.+1 rows t T) (n_top m.+1 rows t T). congr flatten. apply/eq_in_map => j. rewrite mem_iota => /andP [_ J]. apply/eq_in_map => c. rewrite mem_iota => /andP [_ Lc].
    rewrite /F /= nth_rows // subn1 /=. congr (_ * _). rewrite /gap /distance sqr_sqrtr; [|by apply: sumr_ge0 => q _; exact: sqr_ge0]. apply: eq_bigr => q _. by rewrite !mxE expr2. }
  rewrite (group_sum_map K _ _ _ _ nE keys_all). apply/eq_in_map => e. rewrite mem_iota => /andP [_ He]. rewrite big_mkcond /slots big_allpairs_dep /=. rewrite (_ : iota 0 N = index_iota 0 N); [|by rewrite /index_iota subn0]. rewrite big_mkord. apply: eq_bigr => j _.
  rewrite -[0%N :: iota 1 m.+1]/(index_iota 0 m.+2) big_mkord -big_mkcond. apply: eq_big => [c|c]; [exact: slot_face|]. rewrite /F /= => /eqP ->. by [].
Qed.
(** ** The simplices at a facet *)
Notation omit j c := (take c (top_row j) ++ drop c.+1 (top_row j)).
Definition around (e : nat) : seq (nat * nat) := [seq p <- slots | perm_eq (el m e) (omit p.1 p.2)].
Lemma around_in : forall e p, (p \in around e) = [&& (p.1 < N)%N, (p.2 < m.+2)%N & perm_eq (el m e) (omit p.1 p.2)].
Proof.
  move=> e [j c]. rewrite mem_filter /= andbC. case: (perm_eq _ _); rewrite ?andbF ?andbT //. apply/idP/idP => [/slot_in /= [-> ->] //|/andP [J Lc]]. apply/allpairsP. exists (j, c). by rewrite !mem_iota.
Qed.
Lemma around_uniq : forall e, uniq (around e).
Proof. move=> e. apply: filter_uniq. apply: allpairs_uniq; [exact: iota_uniq|exact: iota_uniq|]. by move=> [a b] [x y] _ _ /= [-> ->]. Qed.
Lemma around_sum : forall e (F : nat -> nat -> K), \sum_(j < N) \sum_(c < m.+2 | perm_eq (el m e) (omit j c)) F j c = \sum_(p <- around e) F p.1 p.2.
Proof.
  move=> e F. rewrite big_filter [RHS]big_mkcond /slots big_allpairs_dep /= (_ : iota 0 N = index_iota 0 N); [|by rewrite /index_iota subn0]. rewrite big_mkord. apply: eq_bigr => j _.
  rewrite -[0%N :: iota 1 m.+1]/(index_iota 0 m.+2) big_mkord [LHS]big_mkcond. by [].
Qed.
Lemma one_corner : forall e p q, p \in around e -> q \in around e -> p.1 = q.1 -> p = q.
Proof.
  move=> e [j c] [j' c']. rewrite !around_in /= => /and3P [J Lc P] /and3P [_ Lc' P'] E. subst j'. congr (_, _). have [Sz _] := top_inside m.+1 rows t Hn T j J. have U := inside_uniq _ _ _ (top_inside m.+1 rows t Hn T j J).
  have Ni : nth 0%N (top_row j) c \notin el m e. { rewrite (perm_mem P). have L : (c < size (top_row j))%N by rewrite Sz. have Es : top_row j = take c (top_row j) ++ nth 0%N (top_row j) c :: drop c.+1 (top_row j) by rewrite -{1}(cat_take_drop c (top_row j)) (drop_nth 0%N L).
    move: U. rewrite {1}Es. rewrite cat_uniq /= => /and3P [_ /norP [N1 _] /andP [N2 _]]. by rewrite mem_cat negb_or N1 N2. }
  apply/eqP. apply/negPn/negP => Nc. case/negP: Ni. rewrite (perm_mem P') mem_cat. have Lx : (c < size (top_row j))%N by rewrite Sz. case: (ltngtP c c') => [L|L|X]; [apply/orP; left|apply/orP; right|by rewrite X eqxx in Nc].
  - rewrite -{1}(nth_take 0%N L). apply: mem_nth. rewrite size_take. by case: ifP => // _; exact: L.
  - have -> : nth 0%N (top_row j) c = nth 0%N (drop c'.+1 (top_row j)) (c - c'.+1)%N by rewrite nth_drop subnKC. apply: mem_nth. by rewrite size_drop ltn_sub2r // (leq_ltn_trans L).
Qed.
Lemma around_face : forall e p, (e < nE)%N -> p \in around e -> SimpSpec.is_face m (el m e) (top_row p.1).
Proof.
  move=> e [j c] He. rewrite around_in /= => /and3P [J Lc P]. have [L ND] := OrientProofs.el_len m.+1 rows t Hn T m e (le_S _ _ (le_n m)) (elimT ssrnat.ltP He). split=> //. split=> //. move=> v /InE. rewrite (perm_mem P) mem_cat => V. apply/InE. by case/orP: V => [/mem_take|/mem_drop].
Qed.
Lemma around_two : BdrySpec.at_most_two m.+1 rows -> forall e, (e < nE)%N -> (size (around e) <= 2)%N.
Proof.
  move=> AM e He. have U := around_uniq e. have I := fun p P => around_face e p He P. have D := one_corner e. have Rg : forall p, p \in around e -> (p.1 < List.length rows)%coq_nat by move=> p; rewrite around_in => /and3P [J _ _]; exact/ssrnat.ltP.
  move: U I D Rg. case: (around e) => [|p [|q [|r l]]] //= U I D Rg. have Mp : p \in [:: p, q, r & l] by rewrite mem_head. have Mq : q \in [:: p, q, r & l] by rewrite !inE eqxx orbT. have Mr : r \in [:: p, q, r & l] by rewrite !inE eqxx !orbT.
  have Em : (m.+1 - 1)%coq_nat = m by rewrite -[LHS]/(m.+1 - 1)%N subn1. have := AM (el m e) p.1 q.1 r.1 (Rg p Mp) (Rg q Mq) (Rg r Mr). rewrite Em => H. have {}H := H (I p Mp) (I q Mq) (I r Mr).
  move: U => /andP [Up /andP [Uq _]]. case: H => [E|[E|E]].
  - have X := D p q Mp Mq E. by rewrite X !inE eqxx in Up.
  - have X := D p r Mp Mr E. by rewrite X !inE eqxx !orbT in Up.
  - have X := D q r Mq Mr E. by rewrite X !inE eqxx in Uq.
Qed.
Lemma around_some : forall e, (e < nE)%N -> exists p, p \in around e.
Proof. move=> e He. have [j [c [J Lc Q]]] := face_slot e He. exists (j, c). rewrite around_in J Lc /=. rewrite -slot_face // Q. by []. Qed.
End Del.

(** ** Sums of squares with signs *)
Section Signs.
Variable K : rcfType.
Lemma sign_mono : forall x y : K, (x * `|x| < y * `|y|) = (x < y).
Proof.
  have P : forall x y : K, 0 <= x -> 0 <= y -> (x * x < y * y) = (x < y) by move=> x y X Y; rewrite -!expr2 ltr_pexpn2r.
  move=> x y. case: (lerP 0 x) => X; case: (lerP 0 y) => Y.
  - by rewrite !ger0_norm // P.
  - rewrite (ger0_norm X) (ltr0_norm Y) mulrN. have A : 0 <= x * x by rewrite -expr2 sqr_ge0. have B : 0 < y * y by rewrite nmulr_rgt0. rewrite (ltNge x y) (le_trans (ltW Y) X) /=. apply/negbTE. rewrite -leNgt. apply: le_trans A. by rewrite oppr_le0 ltW.
  - rewrite (ltr0_norm X) (ger0_norm Y) mulrN (lt_le_trans X Y). have A : 0 < x * x by rewrite nmulr_rgt0. apply: (@lt_le_trans _ _ 0); [by rewrite oppr_lt0|by rewrite -expr2 sqr_ge0].
  - rewrite (ltr0_norm X) (ltr0_norm Y) !mulrN ltr_opp2 -[y * y]mulrNN -[x * x]mulrNN P ?oppr_ge0 ?ltW // ltr_opp2. by [].
Qed.
Lemma sign_square : forall b x : K, 0 <= x -> x ^+ 2 * Num.sg b = (Num.sg b * x) * `|Num.sg b * x|.
Proof.
  move=> b x X. rewrite normrM (ger0_norm X) normr_sg. case: (b =P 0) => [->|/eqP N]; [by rewrite sgr0 mulr0 !mul0r|]. by rewrite mul1r expr2 mulrC mulrA.
Qed.
Lemma two_signs : forall (A : Type) (b x : A -> K) (l : seq A), (size l <= 2)%N -> (forall a, 0 <= x a) -> (0 < \sum_(a <- l) x a ^+ 2 * Num.sg (b a)) = (0 < \sum_(a <- l) Num.sg (b a) * x a).
Proof.
  move=> A b x l Sz X. rewrite (eq_bigr (fun a => (Num.sg (b a) * x a) * `|Num.sg (b a) * x a|)); [|by move=> a _; exact: sign_square]. move: l Sz => [|p [|q [|r l]]] // _; rewrite ?big_nil // !big_cons !big_nil ?addr0.
  - rewrite -[RHS]sign_mono. by rewrite mul0r.
  - set y := Num.sg (b p) * x p. set z := Num.sg (b q) * x q. rewrite -[_ + z]opprK -[_ + z * _]opprK !oppr_gt0 !opprD !subr_lt0. have -> : - (y * `|y|) = (- y) * `|- y| by rewrite normrN mulNr. exact: sign_mono.
Qed.
End Signs.
