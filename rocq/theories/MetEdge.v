(** The cotangent formula and the ratios of dual to primal edges. *)
From Coq Require Import Permutation.
From mathcomp Require Import all_ssreflect all_algebra.
From Verif Require Import GeoRing GeoModel MetModel MetSpec MetAff MetSum MetProofs MetVol MetCot.
From Verif Require Util SimpModel SimpSpec BdryModel SubdModel SubdSpec ParProofs LevelProofs TopProofs OrientProofs FundProofs.
Import Order.TTheory GRing.Theory Num.Theory.
Local Open Scope nat_scope.
Local Open Scope ring_scope.

Section Edge.
Variable K : rcfType.
Variables (rows : list SimpModel.simplex) (t : SimpModel.topology).
Hypothesis T : TopProofs.top_ok 2%N rows t.
Variable d : nat.
Hypothesis D2 : (2 <= d)%N.
Variable pos : nat -> 'rV[K]_d.
Variable PP : nat -> nat -> 'rV[K]_d.
Variable coef : nat -> nat -> nat -> K.
Hypothesis C : centres K t d 2%N pos PP coef.
Variable bary : nat -> nat -> K.
Notation el := (OrientProofs.el t).
Notation idx := (FundProofs.idx t).
Notation facet := ParProofs.facet.
Notation inside := (MetSum.inside rows).
Notation N := (size rows).
Notation top_row := (top_row rows).
Notation size_of k s := (measure K d k (corners K d k pos s)).
Notation pm := (pm K 2 rows t d PP bary).
Notation dm := (dm K 2 rows t d PP bary).
Notation nE := (SimpModel.n_elements t 1%N).
Let Hn : Peano.le 1 2 := le_S 1 1 (le_n 1).
Hypothesis Mid : forall e v, (e < nE)%N -> v \in el 1%N e -> coef 1%N e v = 2%:R^-1.
Hypothesis Eqd : forall j v w, (j < N)%N -> v \in top_row j -> w \in top_row j -> distance K d (PP 2%N j) (pos v) = distance K d (PP 2%N j) (pos w).
Hypothesis Sgn : forall j c, (j < N)%N -> (c < 3)%N -> Num.sg (bary j c) = Num.sg (coef 2%N j (nth 0%N (top_row j) c)).
Hypothesis Nd : forall j, (j < N)%N -> size_of 2%N (top_row j) != 0.

Definition corner (j c : nat) : 'rV[K]_d := pos (nth 0%N (top_row j) c).
Definition cot (j c : nat) : K := dot K d (corner j (next c) - corner j c) (corner j (third c) - corner j c) / Num.sqrt (twice_area2 K d (corner j (next c) - corner j c) (corner j (third c) - corner j c)).
Lemma area_corner : forall j c, (j < N)%N -> (c < 3)%N -> 0 < twice_area2 K d (corner j (next c) - corner j c) (corner j (third c) - corner j c).
Proof.
  move=> j c J Lc. have := measure2 K d _ (Nd j J) c Lc. have R : forall i, (i < 3)%N -> row (inord i : 'I_3) (corners K d 2 pos (top_row j)) = corner j i. { move=> i Li. apply/rowP => q. rewrite !mxE inordK //. }
  rewrite !R //; by rewrite ltn_mod.
Qed.
Lemma rows_iota : rows = [seq top_row j | j <- iota 0 N].
Proof. rewrite -seqE. symmetry. exact: (Util.map_nth_seq _ rows [::]). Qed.
Lemma all_some_map : forall (A : Type) (f : A -> K) l, all_some K [seq Some (f x) | x <- l] = Some [seq f x | x <- l].
Proof. move=> A f. elim=> //= x l IH. by rewrite IH. Qed.
Definition slots : seq (nat * nat) := [seq (j, c) | j <- iota 0 N, c <- iota 0 3].
Lemma slot_in : forall p, p \in slots -> (p.1 < N)%N /\ (p.2 < 3)%N.
Proof. move=> p /allpairsP [[j c] [J Cc ->]]. rewrite !mem_iota in J Cc. split; [exact: J|exact: Cc]. Qed.
Lemma cotans : all_some K (flatten [seq [seq cotangent K (triangle_cosine K d (fun k => pos (nth 0%N s k)) i) | i <- iota 0 3] | s <- rows]) = Some [seq cot p.1 p.2 | p <- slots].
Proof.
  rewrite -all_some_map. congr all_some. rewrite {1}rows_iota -map_comp /slots map_allpairs. congr flatten. apply/eq_in_map => j. rewrite mem_iota => /andP [_ J]. apply/eq_in_map => c. rewrite mem_iota => /andP [_ Lc].
  exact: (cotangent_corner K d (corner j) c Lc (area_corner j c J Lc)).
Qed.
Lemma idx_slot : forall j c, (j < N)%N -> (c < 3)%N -> (idx 1%N (facet 2 c (top_row j)) < nE)%N /\ perm_eq (el 1%N (idx 1%N (facet 2 c (top_row j)))) (take c (top_row j) ++ drop c.+1 (top_row j)).
Proof.
  move=> j c J Lc. have I := top_inside 2 rows t Hn T j J. have [Sz _] := I. have If := facet_in rows 1%N c _ Lc I. have [Ei Pi] := idx_ok 2 rows t Hn T 1%N _ isT If. split=> //. apply: perm_trans Pi _. rewrite perm_sym. apply: facet_omit. by rewrite Sz.
Qed.
Lemma keys : flatten (List.nth 1 (SimpModel.boundary_idx t) [::]) = [seq idx 1%N (facet 2 p.2 (top_row p.1)) | p <- slots].
Proof.
  have L : TopProofs.top_ok 2 rows t := T. have Lv := TopProofs.to_level _ _ _ T 1%N (le_n 2). rewrite (TopProofs.to_top _ _ _ T) in Lv. move: Lv. move: (List.nth 1 (SimpModel.boundary_idx t) [::]) => B Lv. have LB := LevelProofs.lv_lenB _ _ _ _ _ Lv. rewrite /slots map_allpairs. congr flatten.
  have -> : B = [seq List.nth j B [::] | j <- iota 0 N] by have Q := Util.map_nth_seq _ B [::]; rewrite LB seqE in Q; rewrite -{1}Q. apply/eq_in_map => j. rewrite mem_iota => /andP [_ J]. have J' : (j < N)%coq_nat by exact/ssrnat.ltP.
  have Rw : List.length (List.nth j B [::]) = 3%N. { have F := LevelProofs.lv_rectB _ _ _ _ _ Lv. rewrite List.Forall_forall in F. apply: F. apply: List.nth_In. by rewrite LB. }
  have -> : List.nth j B [::] = [seq List.nth c (List.nth j B [::]) 0%N | c <- iota 0 3] by have Q := Util.map_nth_seq _ (List.nth j B [::]) 0%N; rewrite Rw seqE in Q; rewrite -{1}Q. apply/eq_in_map => c. rewrite mem_iota => /andP [_ Lc].
  have [E1 [E2 _]] := LevelProofs.lv_idx _ _ _ _ _ Lv j c J' (elimT ssrnat.ltP Lc). have [I1 I2] := idx_slot j c J Lc.
  symmetry. refine (TopProofs.faces_unique 2 rows t T 1%N _ _ (le_n 2) (elimT ssrnat.ltP I1) E1 _). apply: Permutation_trans (PermP _ _ I2) _. rewrite -omitE. exact: E2.
Qed.
Lemma keys_all : forall e, (e \in [seq idx 1%N (facet 2 p.2 (top_row p.1)) | p <- slots]) = (e < nE)%N.
Proof.
  move=> e. apply/idP/idP => [/mapP [p P ->]|E]; [have [J Lc] := slot_in p P; exact: (proj1 (idx_slot _ _ J Lc))|].
  have [j J S] := in_top 2 rows t Hn T 1%N e isT E. have [r R Er] := tails_hit 2 rows t Hn T 2 _ 1%N e isT (top_inside 2 rows t Hn T j J) isT E S. move: R. rewrite tails_step => /flatten_mapP [c Lc /mapP [r' R' Q]].
  have Lc' : (c < 3)%N by move: Lc; rewrite mem_iota. have If := facet_in rows 1%N c _ Lc' (top_inside 2 rows t Hn T j J). have Lr := tail_size 2 rows t Hn T 1%N _ r' isT If R'.
  apply/mapP. exists (j, c); [apply/allpairsP; exists (j, c); by rewrite !mem_iota|]. by rewrite -Er Q nth_rcons Lr.
Qed.
Lemma ratio_sums : compute_edge_ratio K t d pos = Some [seq (\sum_(p <- slots | idx 1%N (facet 2 p.2 (top_row p.1)) == e) cot p.1 p.2) / 2%:R | e <- iota 0 nE].
Proof. rewrite /compute_edge_ratio (TopProofs.to_top _ _ _ T) keys cotans (group_sum_map K _ _ _ _ nE keys_all) -map_comp. by []. Qed.
Lemma addKr' : forall p q : 'rV[K]_d, p + (q - p) = q. Proof. move=> p q. by rewrite addrC subrK. Qed.
Lemma triple : forall j, (j < N)%N -> exists a b c, top_row j = [:: a; b; c].
Proof. move=> j J. have [Sz _] := top_inside 2 rows t Hn T j J. case: (top_row j) Sz => [|a [|b [|c [|]]]] // _. by exists a, b, c. Qed.
Lemma mid_pos : forall e a b, (e < nE)%N -> perm_eq (el 1%N e) [:: a; b] -> PP 1%N e = 2%:R^-1 *: pos a + 2%:R^-1 *: pos b.
Proof.
  move=> e a b E P. have [_ [_ ->]] := C 1%N e isT E. rewrite -[SubdSpec.element t 1%N e]/(el 1%N e) (perm_big _ P) /= !big_cons big_nil addr0. by rewrite !Mid // (perm_mem P) !inE eqxx ?orbT.
Qed.
Lemma slot_perm : forall j c, (j < N)%N -> (c < 3)%N -> perm_eq (take c (top_row j) ++ drop c.+1 (top_row j)) [:: nth 0%N (top_row j) (next c); nth 0%N (top_row j) (third c)].
Proof. move=> j c J. have [a [b [x ->]]] := triple j J. case: c => [|[|[|]]] // _ /=. by rewrite (perm_catC [:: a] [:: x]). Qed.
Lemma slot_value : forall j c e, (j < N)%N -> (c < 3)%N -> (e < nE)%N -> idx 1%N (facet 2 c (top_row j)) = e ->
  Num.sg (bary j c) * distance K d (PP 1%N e) (PP 2%N j) = cot j c / 2%:R * distance K d (corner j (next c)) (corner j (third c)).
Proof.
  move=> j c e J Lc E X. have [_ P] := idx_slot j c J Lc. rewrite X in P. have P2 := perm_trans P (slot_perm j c J Lc). rewrite (mid_pos e _ _ E P2) Sgn //.
  have A := area_corner j c J Lc. rewrite -/(corner j (next c)) -/(corner j (third c)).
  have Jn : (j < SimpModel.n_elements t 2%N)%N by rewrite (n_top 2 rows t T). have [_ [S1 Po]] := C 2%N j isT Jn. have El : SubdSpec.element t 2%N j = top_row j by exact: (el_top 2 rows t T). rewrite El in S1 Po.
  have Mem : forall i, (i < 3)%N -> nth 0%N (top_row j) i \in top_row j by move=> i Li; apply: mem_nth; rewrite (proj1 (top_inside 2 rows t Hn T j J)).
  have Ln : forall i, (next i < 3)%N by move=> i; rewrite ltn_mod. have Lt : forall i, (third i < 3)%N by move=> i; rewrite ltn_mod.
  have Q : forall i, (i < 3)%N -> dot K d (PP 2%N j - corner j c) (PP 2%N j - corner j c) = dot K d (PP 2%N j - corner j i) (PP 2%N j - corner j i) by move=> i Li; rewrite -!distance_sqr; congr (_ ^+ 2); apply: Eqd => //; exact: Mem.
  have := corner_cot K d (corner j c) (corner j (next c) - corner j c) (corner j (third c) - corner j c) (PP 2%N j) (coef 2%N j (nth 0%N (top_row j) c)) (coef 2%N j (nth 0%N (top_row j) (next c))) (coef 2%N j (nth 0%N (top_row j) (third c))) A.
  rewrite !addKr'. apply.
  - rewrite -[RHS]S1. have [a [b [x ->]]] := triple j J. rewrite !big_cons big_nil addr0. clear -Lc. case: c Lc => [|[|[|]]] // _; rewrite -?[next 0]/1%N -?[third 0]/2%N -?[next 1]/2%N -?[third 1]/0%N -?[next 2]/0%N -?[third 2]/1%N /=; [by rewrite addrA|by rewrite [RHS]addrC|by rewrite addrC [RHS]addrA [RHS]addrC [LHS]addrC -addrA].
  - rewrite Po /corner. have [a [b [x ->]]] := triple j J. rewrite !big_cons big_nil addr0. clear -Lc. case: c Lc => [|[|[|]]] // _; rewrite -?[next 0]/1%N -?[third 0]/2%N -?[next 1]/2%N -?[third 1]/0%N -?[next 2]/0%N -?[third 2]/1%N /=; [by rewrite addrA|by rewrite addrC|by rewrite addrA addrC [LHS]addrA].
  - exact: Q.
  - exact: Q.
Qed.
Lemma pm_edge : forall e a b, (e < nE)%N -> perm_eq (el 1%N e) [:: a; b] -> pm 1%N e = distance K d (pos a) (pos b).
Proof.
  move=> e a b E P. rewrite (pm_mid K 2 rows t Hn T d pos PP coef C bary 1%N e isT E). have I := el_inside 2 rows t Hn T 1%N e isT E. rewrite (share_one K 2 rows t Hn T d pos PP coef C 1%N _ _ isT I); [|by move=> [|[|]]].
  rewrite (eq_bigr (coef 1%N e)); [|]. 2:{ move=> v _. apply: ger0_norm. case V : (v \in el 1%N e); [by rewrite Mid // invr_ge0 ler0n|]. have [Z _] := C 1%N e isT E. by rewrite Z // -[SubdSpec.element _ _ _]/(el 1%N e) V. }
  rewrite (coef_sum K 2 rows t Hn T d pos PP coef C 1%N e _ isT E (inside_uniq _ _ _ I)) // mulr1 measure1; [|exact: ltnW]. have R : forall i : 'I_2, row i (corners K d 1 pos (el 1%N e)) = pos (nth 0%N (el 1%N e) i) by move=> i; apply/rowP => q; rewrite !mxE.
  rewrite !R /=. have Sz := perm_size P. case: (el 1%N e) P Sz => [|x [|y [|]]] // P _ /=. have : x \in [:: a; b] by rewrite -(perm_mem P) inE eqxx. rewrite !inE => /orP [/eqP X|/eqP X]; subst x.
  - rewrite perm_cons in P. have := perm_mem P y. by rewrite !inE eqxx => /esym /eqP ->.
  - rewrite perm_sym (perm_catC [:: a] [:: b]) perm_sym perm_cons in P. have := perm_mem P y. rewrite !inE eqxx => /esym /eqP ->. rewrite /distance. congr Num.sqrt. apply: eq_bigr => q _. by rewrite -sqrrN opprB.
Qed.
Lemma edge_pos : forall e, (e < nE)%N -> 0 < pm 1%N e.
Proof.
  move=> e E. have := keys_all e. rewrite E => /mapP [[j c] /slot_in [J Lc] X]. have [_ P] := idx_slot j c J Lc. rewrite -X in P. rewrite (pm_edge e _ _ E (perm_trans P (slot_perm j c J Lc))). have A := area_corner j c J Lc.
  rewrite distanceE sqrtr_gt0. have Nz : corner j (next c) - corner j (third c) != 0. { apply/negP => /eqP Z. have Eq : corner j (next c) = corner j (third c) by apply/eqP; rewrite -subr_eq0 Z. move: A. by rewrite Eq /twice_area2 subrr ltxx. }
  rewrite lt_neqAle dot_ge0 andbT eq_sym. apply/negP => /eqP Z. case/negP: Nz. by rewrite (dot_zero K d _ Z).
Qed.
Lemma ratio_is : compute_edge_ratio K t d pos = Some [seq dm 1%N e / pm 1%N e | e <- iota 0 nE].
Proof.
  rewrite ratio_sums. congr Some. apply/eq_in_map => e. rewrite mem_iota => /andP [_ E]. have Pe := edge_pos e E. apply: (mulIf (lt0r_neq0 Pe)). rewrite mulfVK ?lt0r_neq0 // (dm_edge K 2 rows t Hn T d PP bary 0%N e erefl D2 E).
  rewrite big_mkcond /slots big_allpairs_dep /= (_ : iota 0 N = index_iota 0 N); [|by rewrite /index_iota subn0]. rewrite big_mkord mulr_suml mulr_suml. apply: eq_bigr => j _. rewrite [RHS]big_mkcond mulr_suml mulr_suml -[[:: 0%N; 1%N; 2%N]]/(index_iota 0 3) big_mkord. apply: eq_bigr => c _.
  have [Ei P] := idx_slot j c (ltn_ord j) (ltn_ord c). case: eqP => [X|X]; [|by rewrite !mul0r]. rewrite (slot_value j c e (ltn_ord j) (ltn_ord c) E X). congr (_ * _). rewrite X in P. exact: (pm_edge e _ _ E (perm_trans P (slot_perm j c (ltn_ord j) (ltn_ord c)))).
Qed.
End Edge.
