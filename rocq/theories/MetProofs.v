(** The metric as sums over the fundamental domains. *)
From Coq Require Import Permutation Factorial.
From mathcomp Require Import all_ssreflect all_fingroup all_algebra.
From Verif Require Import GeoModel GeoSpec GeoProofs GeoProps MetModel MetSpec MetAff MetSum.
From Verif Require Util SimpModel SimpSpec BdryModel SubdModel SubdSpec ParProofs TopProofs OrientProofs FundProofs.
Import Order.TTheory GRing.Theory Num.Theory.
Local Open Scope nat_scope.
Local Open Scope ring_scope.

(** ** Sums of groups *)
Section Group.
Variable K : rcfType.
Lemma zip_maps : forall (A : Type) (f : A -> nat) (g : A -> K) l, zip [seq f x | x <- l] [seq g x | x <- l] = [seq (f x, g x) | x <- l].
Proof. move=> A f g. by elim=> //= x l ->. Qed.
Lemma group_sum_map : forall (A : Type) (f : A -> nat) (g : A -> K) l N, (forall k, (k \in [seq f x | x <- l]) = (k < N)%N) ->
  group_sum K [seq f x | x <- l] [seq g x | x <- l] = [seq \sum_(x <- l | f x == k) g x | k <- iota 0 N].
Proof.
  move=> A f g l N H. rewrite /group_sum. have -> : sort leq (undup [seq f x | x <- l]) = iota 0 N.
  { apply: (sorted_eq leq_trans anti_leq); [exact: (sort_sorted leq_total)|exact: iota_sorted|]. rewrite perm_sort. apply: uniq_perm; [exact: undup_uniq|exact: iota_uniq|]. move=> k. by rewrite mem_undup H mem_iota. }
  apply: eq_map => k. rewrite zip_maps big_map. by [].
Qed.
Lemma group_mean_map : forall (A : Type) (f : A -> nat) (g : A -> K) l N, (forall k, (k \in [seq f x | x <- l]) = (k < N)%N) ->
  group_mean K [seq f x | x <- l] [seq g x | x <- l] = [seq (\sum_(x <- l | f x == k) g x) / (count (fun x => f x == k) l)%:R | k <- iota 0 N].
Proof.
  move=> A f g l N H. rewrite /group_mean. have -> : sort leq (undup [seq f x | x <- l]) = iota 0 N.
  { apply: (sorted_eq leq_trans anti_leq); [exact: (sort_sorted leq_total)|exact: iota_sorted|]. rewrite perm_sort. apply: uniq_perm; [exact: undup_uniq|exact: iota_uniq|]. move=> k. by rewrite mem_undup H mem_iota. }
  apply: eq_map => k. rewrite zip_maps big_map. congr (_ / _%:R). by rewrite count_map.
Qed.
(** every value lands in one group *)
Lemma group_sum_total : forall keys values, size keys = size values -> \sum_(x <- group_sum K keys values) x = \sum_(v <- values) v.
Proof.
  move=> keys values E. rewrite /group_sum big_map. rewrite (exchange_big_dep xpredT) //=. have -> : \sum_(v <- values) v = \sum_(p <- zip keys values) p.2.
  { elim: keys values E => [|k keys IH] [|v values] //= E; [by rewrite !big_nil|]. rewrite !big_cons. congr (_ + _). apply: IH. by case: E. }
  rewrite big_seq [RHS]big_seq. apply: eq_bigr => p P. have U : uniq (sort leq (undup keys)) by rewrite sort_uniq undup_uniq.
  have M : p.1 \in sort leq (undup keys). { rewrite mem_sort mem_undup. have -> : keys = unzip1 (zip keys values) by rewrite unzip1_zip // E. exact: map_f. }
  rewrite -big_filter (eq_filter (a2 := pred1 p.1)); [by rewrite filter_pred1_uniq // big_seq1|]. move=> k. by rewrite /= eq_sym.
Qed.

(** ** Blocks of equal length *)
Lemma map_const_iota : forall (A : Type) a (x : A) N, [seq x | j <- iota a N] = nseq N x.
Proof. move=> A a x N. elim: N a => //= N IH a. by rewrite IH. Qed.
Lemma blocks : forall (A : Type) (g : nat -> nat -> A) q N, (0 < q)%N -> [seq g (p %/ q)%N (p %% q)%N | p <- iota 0 (N * q)] = flatten [seq [seq g j i | i <- iota 0 q] | j <- iota 0 N].
Proof.
  move=> A g q N Q. elim: N => [|N IH] //. rewrite -addn1 mulnDl mul1n iotaD map_cat IH add0n iotaD map_cat flatten_cat /= cats0. congr (_ ++ _). rewrite add0n.
  rewrite -[(N * q)%N]addn0 iotaDl -map_comp. apply/eq_in_map => i. rewrite mem_iota /= add0n => Li. by rewrite divnMDl // divn_small // addn0 modnMDl modn_small.
Qed.
Lemma zip_flatten : forall (A B : Type) (I : eqType) (f : I -> seq A) (g : I -> seq B) l, (forall x, x \in l -> size (f x) = size (g x)) -> zip (flatten [seq f x | x <- l]) (flatten [seq g x | x <- l]) = flatten [seq zip (f x) (g x) | x <- l].
Proof. move=> A B I f g. elim=> //= x l IH H. rewrite zip_cat ?IH //; [|by apply: H; rewrite inE eqxx]. move=> y Y. apply: H. by rewrite inE Y orbT. Qed.
Lemma zip_const : forall (A B : Type) (b : B) (l : seq A) m, size l = m -> zip l [seq b | i <- iota 0 m] = [seq (x, b) | x <- l].
Proof. move=> A B b l m <-. elim: l => //= x l IH. congr (_ :: _). rewrite -IH. congr zip. rewrite -[1%N]addn1 -[(0 + 1)%N]/(1 + 0)%N. by rewrite iotaDl -map_comp. Qed.
End Group.

Section Met.
Variable K : rcfType.
Variable sat : list (BinNums.Z * BinNums.Z) -> option (list BinNums.Z).
Variables (n : nat) (rows : list SimpModel.simplex) (t : SimpModel.topology).
Hypothesis Hn : (1 <= n)%coq_nat.
Hypothesis T : TopProofs.top_ok n rows t.
Variable d : nat.
Variable PP : nat -> nat -> 'rV[K]_d.
Variable bary : nat -> nat -> K.
Notation el := (OrientProofs.el t).
Notation tails := (FundProofs.tails t).
Notation idx := (FundProofs.idx t).
Notation facet := ParProofs.facet.
Notation inside := (MetSum.inside rows).
Let N := size rows.
Definition top_row (j : nat) : seq nat := List.nth j rows [::].
Definition dom : seq (seq nat) := flatten [seq [seq rcons r j | r <- tails n (top_row j)] | j <- iota 0 N].
Definition signs : seq K := [seq sign_of K bary n p | p <- iota 0 (size dom)].
Definition pairs : seq (seq nat * K) := zip dom signs.

Lemma domains_ok : SubdModel.fundamental_domains t = Util.Ok dom.
Proof. rewrite (FundProofs.fundamental_domains_ok n rows t Hn T) flatE seqE /dom. congr (Util.Ok (flatten _)). apply: eq_map => j. rewrite /FundProofs.block mapE. apply: eq_map => r. exact: cats1. Qed.
Lemma top_inside : forall j, (j < N)%N -> inside n (top_row j).
Proof. move=> j J. have F := FundProofs.rows_inside n rows t Hn T. rewrite List.Forall_forall in F. have [L I] := F _ (List.nth_In rows [::] (elimT ssrnat.ltP J)). split; [exact: L|exact: I]. Qed.
Lemma tails_size : forall m s, (1 <= m)%N -> size s = m.+1 -> size (tails m s) = (m.+1)`!.
Proof. move=> m s M S. rewrite -factE. apply: (FundProofs.tails_length n t Hn m s) => //. exact/ssrnat.leP. Qed.
Lemma dom_size : size dom = (N * (n.+1)`!)%N.
Proof.
  rewrite /dom size_flatten /shape -map_comp. have -> : [seq (size \o (fun j => [seq rcons r j | r <- tails n (top_row j)])) j | j <- iota 0 N] = nseq N (n.+1)`!; [|by rewrite sumn_nseq mulnC].
  rewrite -[nseq _ _](_ : [seq (n.+1)`! | j <- iota 0 N] = _); [|by rewrite (map_const_iota _ 0%N)]. apply/eq_in_map => j. rewrite mem_iota => /andP [_ J].
  rewrite /= size_map tails_size //; [exact/ssrnat.leP|exact: (proj1 (top_inside j J))].
Qed.
Lemma pairs_dom : unzip1 pairs = dom.
Proof. by rewrite /pairs unzip1_zip // size_map size_iota. Qed.
Lemma pairs_flat : forall m, n = m.+2 -> pairs = flatten [seq flatten [seq [seq (rcons (rcons r (idx m.+1 (facet m.+2 c (top_row j)))) j, Num.sg (bary j c)) | r <- tails m.+1 (facet m.+2 c (top_row j))] | c <- iota 0 m.+3] | j <- iota 0 N].
Proof.
  move=> m E. rewrite /pairs /signs dom_size. rewrite [map _ (iota 0 (N * _))](_ : _ = flatten [seq [seq Num.sg (bary j (i %/ n`!)%N) | i <- iota 0 (n.+1)`!] | j <- iota 0 N]).
  2:{ rewrite -(blocks _ (fun j i => Num.sg (bary j (i %/ n`!)%N)) (n.+1)`! N (fact_gt0 _)). by []. }
  have Sg : forall j, [seq Num.sg (bary j (i %/ n`!)%N) | i <- iota 0 (n.+1)`!] = flatten [seq [seq Num.sg (bary j c) | i <- iota 0 n`!] | c <- iota 0 n.+1].
  { move=> j. rewrite factS. exact: (blocks _ (fun c i => Num.sg (bary j c)) n`! n.+1 (fact_gt0 _)). }
  rewrite /dom zip_flatten. 2:{ move=> j. rewrite mem_iota => /andP [_ J]. rewrite !size_map size_iota tails_size //; [by rewrite E|exact: (proj1 (top_inside j J))]. }
  congr flatten. apply/eq_in_map => j. rewrite mem_iota => /andP [_ J]. have I := top_inside j J. rewrite Sg E. rewrite tails_step map_flatten -map_comp.
  have Szf : forall c, (c < m.+3)%N -> size (tails m.+1 (facet m.+2 c (top_row j))) = (m.+2)`!. { move=> c Lc. apply: tails_size => //. rewrite E in I. exact: (proj1 (facet_in rows m.+1 c _ Lc I)). }
  rewrite zip_flatten. 2:{ move=> c. rewrite mem_iota => /andP [_ Lc]. by rewrite !size_map size_iota Szf. }
  congr flatten. apply/eq_in_map => c. rewrite mem_iota => /andP [_ Lc]. rewrite zip_const /= ?size_map ?Szf // -!map_comp. by [].
Qed.
Lemma n_top : SimpModel.n_elements t n = N. Proof. exact: (OrientProofs.n_top n rows t T). Qed.
Lemma el_top : forall j, el n j = top_row j. Proof. exact: (OrientProofs.el_top n rows t T). Qed.
Lemma n_pos : (1 <= n <= n)%N. Proof. rewrite leqnn andbT. exact/ssrnat.leP. Qed.
Lemma row_in : forall row, row \in dom <-> exists j r, [/\ (j < N)%N, r \in tails n (top_row j) & row = rcons r j].
Proof.
  move=> row. rewrite /dom. split=> [/flatten_mapP [j J /mapP [r R ->]]|[j [r [J R ->]]]]; [exists j, r; by move: J; rewrite mem_iota|]. apply/flatten_mapP. exists j; [by rewrite mem_iota|exact: map_f].
Qed.
Lemma row_shape : forall row, row \in dom -> size row = n.+1 /\ forall k, (k <= n)%N -> (nth 0%N row k < SimpModel.n_elements t k)%N.
Proof.
  move=> row /row_in [j [r [J R ->]]]. have [Lr Er] := tails_in n rows t Hn T n _ r n_pos (top_inside j J) (proj2 (InE _ _ _) R). rewrite size_rcons Lr. split=> // k. rewrite nth_rcons Lr leq_eqVlt => /orP [/eqP ->|L].
  - by rewrite ltnn eqxx n_top.
  - rewrite L. exact: (proj1 (Er k L)).
Qed.
Lemma in_top : forall k e, (k <= n)%N -> (e < SimpModel.n_elements t k)%N -> exists2 j, (j < N)%N & {subset el k e <= top_row j}.
Proof.
  move=> k e Kn E. have Q : (k + (n - k))%coq_nat = n by rewrite -[LHS]/(k + (n - k))%N subnKC. have [s [Ss [_ [_ I]]]] := proj1 (TopProofs.faces_complete n rows t Hn T (n - k)%N k Q (el k e)) (ex_intro _ _ (conj (OrientProofs.el_in t k e (elimT ssrnat.ltP E)) (Permutation_refl _))).
  have [j [J Ej]] := List.In_nth _ _ [::] Ss. exists j; [exact/ssrnat.ltP|]. move=> v V. rewrite /top_row Ej. apply/InE. apply: I. exact/InE.
Qed.
Lemma tails_some : forall s, inside n s -> exists r, r \in tails n s.
Proof. move=> s I. have : (0 < size (tails n s))%N. { rewrite tails_size ?fact_gt0 //; [exact/ssrnat.leP|exact: (proj1 I)]. } case E : (tails n s) => [|r l] // _. exists r. by rewrite inE eqxx. Qed.
Lemma column_mem : forall k e, (k <= n)%N -> (e \in [seq nth 0%N row k | row <- dom]) = (e < SimpModel.n_elements t k)%N.
Proof.
  move=> k e Kn. apply/idP/idP => [/mapP [row R ->]|E]; [exact: (proj2 (row_shape row R) k Kn)|]. move: (Kn). rewrite leq_eqVlt => /orP [/eqP X|L].
  - subst k. have J : (e < N)%N by rewrite -n_top. have [r R] := tails_some _ (top_inside e J). apply/mapP. exists (rcons r e); [apply/row_in; by exists e, r|].
    have [Lr _] := tails_in n rows t Hn T n _ r n_pos (top_inside e J) (proj2 (InE _ _ _) R). by rewrite nth_rcons Lr ltnn eqxx.
  - have [j J S] := in_top k e Kn E. have [r R Er] := tails_hit n rows t Hn T n _ k e n_pos (top_inside j J) L E S. apply/mapP. exists (rcons r j); [apply/row_in; by exists j, r|].
    have [Lr _] := tails_in n rows t Hn T n _ r n_pos (top_inside j J) (proj2 (InE _ _ _) R). by rewrite nth_rcons Lr L.
Qed.
(** the formulas of the metric *)
Notation vol k lo row := (measure K d k (corners_of K d PP lo k row)).
Definition pm (i e : nat) : K := if (i < n)%N then (\sum_(row <- dom | nth 0%N row i == e) vol i 0%N row) / (count (fun row => nth 0%N row i == e) dom)%:R * (i.+1)`!%:R else \sum_(p <- pairs | nth 0%N p.1 n == e) vol n 0%N p.1 * p.2.
Definition dm (i e : nat) : K := (\sum_(p <- pairs | nth 0%N p.1 (n - i)%N == e) vol i (n - i)%N p.1 * p.2) / (if (i < n)%N then (n - i).+1`!%:R else 1).
Lemma signed_map : forall k lo, [seq p.1 * p.2 | p <- zip [seq vol k lo row | row <- dom] signs] = [seq vol k lo p.1 * p.2 | p <- pairs].
Proof. move=> k lo. rewrite /pairs. elim: dom signs => [|x l IH] [|y s] //=. by rewrite IH. Qed.
Lemma column_map : forall k, [seq nth 0%N row k | row <- dom] = [seq nth 0%N p.1 k | p <- pairs].
Proof. move=> k. by rewrite -{1}pairs_dom /unzip1 -map_comp. Qed.
Lemma metric_ok : forall PM DM, metric K sat t d PP bary = Util.Ok (PM, DM) ->
  (n <= d)%N /\
  PM = nseq (SimpModel.n_elements t 0%N) 1 :: [seq [seq pm i e | e <- iota 0 (SimpModel.n_elements t i)] | i <- iota 1 n] /\
  DM = nseq (SimpModel.n_elements t n) 1 :: [seq [seq dm i e | e <- iota 0 (SimpModel.n_elements t (n - i)%N)] | i <- iota 1 n].
Proof.
  move=> PM DM. rewrite /metric. case: (BdryModel.is_oriented sat t) => [o|] //=. case: o => //. rewrite domains_ok /= (OrientProofs.top_n_dim n rows t T). case: ltnP => // Dn. move=> [<- <-]. split=> //.
  have E1 : iota 1 n = iota 1 (n - 1) ++ [:: n]. { have [L _] := andP n_pos. rewrite -{1}(subnK L) iotaD /= add1n subn1 prednK //. }
  rewrite E1 !map_cat /=. split; congr (_ :: _ ++ [:: _]).
  - apply/eq_in_map => i. rewrite mem_iota => /andP [I1 I2]. have Li : (i < n)%N by move: I2; rewrite subnKC //; exact/ssrnat.leP. rewrite (group_mean_map _ _ _ _ _ (SimpModel.n_elements t i)); [|move=> k; exact: column_mem (ltnW Li)].
    rewrite -map_comp. apply: eq_map => e /=. by rewrite /pm Li.
  - rewrite -/signs signed_map column_map (group_sum_map _ _ _ _ _ (SimpModel.n_elements t n)); [|move=> k; rewrite -column_map; exact: column_mem]. apply: eq_map => e /=. by rewrite /pm ltnn.
  - apply/eq_in_map => i. rewrite mem_iota => /andP [I1 I2]. have Li : (i < n)%N by move: I2; rewrite subnKC //; exact/ssrnat.leP. rewrite -/signs signed_map column_map (group_sum_map _ _ _ _ _ (SimpModel.n_elements t (n - i)%N)); [|move=> k; rewrite -column_map; apply: column_mem; exact: leq_subr].
    rewrite -map_comp. apply: eq_map => e /=. by rewrite /dm Li.
  - rewrite subnn -/signs signed_map column_map (group_sum_map _ _ _ _ _ (SimpModel.n_elements t 0%N)); [|move=> k; rewrite -column_map; exact: column_mem]. apply: eq_map => e /=. rewrite /dm ltnn subnn divr1. by [].
Qed.
End Met.
