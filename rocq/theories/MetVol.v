(** Volumes and dual lengths as sums over the fundamental domains. *)
From Coq Require Import Permutation Factorial.
From mathcomp Require Import all_ssreflect all_fingroup all_algebra.
From Verif Require Import GeoModel GeoSpec GeoProofs GeoProps MetModel MetSpec MetAff MetSum MetProofs.
From Verif Require Util SimpModel SimpSpec BdryModel SubdModel SubdSpec ParProofs TopProofs OrientProofs FundProofs.
Import Order.TTheory GRing.Theory Num.Theory.
Local Open Scope nat_scope.
Local Open Scope ring_scope.

Section Vol.
Variable K : rcfType.
Variables (n : nat) (rows : list SimpModel.simplex) (t : SimpModel.topology).
Hypothesis Hn : (1 <= n)%coq_nat.
Hypothesis T : TopProofs.top_ok n rows t.
Variable d : nat.
Variable pos : nat -> 'rV[K]_d.
Variable PP : nat -> nat -> 'rV[K]_d.
Variable coef : nat -> nat -> nat -> K.
Hypothesis C : centres K t d n pos PP coef.
Variable bary : nat -> nat -> K.
Notation el := (OrientProofs.el t).
Notation tails := (FundProofs.tails t).
Notation idx := (FundProofs.idx t).
Notation facet := ParProofs.facet.
Notation inside := (MetSum.inside rows).
Notation N := (size rows).
Notation top_row := (top_row rows).
Notation dom := (dom n rows t).
Notation pairs := (pairs K n rows t bary).
Notation vol k lo row := (measure K d k (corners_of K d PP lo k row)).
Notation size_of k s := (measure K d k (corners K d k pos s)).
Notation stack := (stack K coef).
Notation share := (share K t coef).
Notation pm := (pm K n rows t d PP bary).
Notation dm := (dm K n rows t d PP bary).

Lemma vol_gen : forall m s r e row, (1 <= m <= n)%N -> inside m s -> r \in tails m s -> (e < SimpModel.n_elements t m)%N -> {subset el m e <= s} ->
  (forall i, (i < m)%N -> nth 0%N row i = nth 0%N r i) -> nth 0%N row m = e -> vol m 0%N row = `|\det (table K m.+1 (stack m r (coef m e)) s)| * size_of m s.
Proof.
  move=> m s r e row Mn I R E S Hr He. have [Sz _] := I. have U := inside_uniq _ _ _ I. have [Lr Er] := tails_in n rows t Hn T m s r Mn I (proj2 (InE _ _ _) R). have [_ Mn'] := andP Mn.
  have St : forall i : nat, (i < m.+1)%N -> exists k x, [/\ (k <= n)%N, (x < SimpModel.n_elements t k)%N, {subset el k x <= s}, PP i (nth 0%N row i) = PP k x & stack m r (coef m e) i =1 coef k x].
  { move=> i. rewrite ltnS leq_eqVlt => /orP [/eqP ->|L]; [exists m, e; split=> //; [by rewrite He|move=> v; by rewrite /MetSum.stack ltnn]|].
    have [E1 E2] := Er i L. exists i, (nth 0%N r i). split=> //; [exact: leq_trans (ltnW L) Mn'|by rewrite Hr|move=> v; by rewrite /MetSum.stack L]. }
  rewrite -measure_affine.
  - congr (measure _ _ _ _). apply/matrixP => i j. rewrite !mxE add0n. have [k [x [Kn X Sb -> Q]]] := St i (ltn_ord i). rewrite (coef_pos K n rows t Hn T d pos PP coef C k x s Kn X U Sb) (sum_nth _ _ s m.+1 Sz) summxE.
    apply: eq_bigr => q _. by rewrite !mxE Q.
  - move=> i. have [k [x [Kn X Sb _ Q]]] := St i (ltn_ord i). rewrite -(coef_sum K n rows t Hn T d pos PP coef C k x s Kn X U Sb) (sum_nth _ _ s m.+1 Sz). apply: eq_bigr => q _. by rewrite mxE Q.
Qed.
Lemma pairs_sum : forall m (P : pred (seq nat)) (F : seq nat * K -> K), n = m.+2 ->
  \sum_(p <- pairs | P p.1) F p = \sum_(j < N) \sum_(c < m.+3) \sum_(r <- tails m.+1 (facet m.+2 c (top_row j)) | P (rcons (rcons r (idx m.+1 (facet m.+2 c (top_row j)))) j)) F (rcons (rcons r (idx m.+1 (facet m.+2 c (top_row j)))) j, Num.sg (bary j c)).
Proof.
  move=> m P F E. rewrite (pairs_flat K n rows t Hn T bary m E) big_flatten big_map (_ : iota 0 N = index_iota 0 N) ?big_mkord; [|by rewrite /index_iota subn0]. apply: eq_bigr => j _. rewrite big_flatten big_map -[iota 0 m.+3]/(index_iota 0 m.+3) big_mkord. apply: eq_bigr => c _.
  by rewrite big_map.
Qed.
Lemma tail_size : forall m s r, (1 <= m <= n)%N -> inside m s -> r \in tails m s -> size r = m.
Proof. move=> m s r Mn I R. exact: (proj1 (tails_in n rows t Hn T m s r Mn I (proj2 (InE _ _ _) R))). Qed.
Lemma sum_only : forall M (F : 'I_M -> K) i, (forall i', i' != i -> F i' = 0) -> \sum_i F i = F i.
Proof. move=> M F i Z. rewrite (bigD1 i) //= big1 ?addr0 //. Qed.
Lemma pm_top : forall m j, n = m.+2 -> (j < N)%N ->
  pm n j = size_of n (top_row j) * \sum_(c < m.+3) Num.sg (bary j c) * `|coef n j (nth 0%N (top_row j) c)| * share m.+1 (facet m.+2 c (top_row j)) (coef m.+1 (idx m.+1 (facet m.+2 c (top_row j)))).
Proof.
  move=> m j E J. rewrite /MetProofs.pm ltnn. rewrite (pairs_sum m (fun row => nth 0%N row n == j) (fun p => vol n 0%N p.1 * p.2) E) (sum_only _ _ (Ordinal J)) -?[nat_of_ord (Ordinal J)]/j.
  2:{ move=> j' Nj. rewrite big1 // => c _. rewrite big_seq_cond big1 // => r /andP [R]. have I := top_inside n rows t Hn T j' (ltn_ord j'). rewrite E in I. have If := facet_in rows m.+1 c _ (ltn_ord c) I.
      have Mn : (1 <= m.+1 <= n)%N by rewrite E leqnSn. have Lr := tail_size m.+1 _ r Mn If R. rewrite nth_rcons size_rcons Lr E ltnn eqxx. move/eqP => X. case/negP: Nj. apply/eqP/val_inj. exact: X. }
  rewrite mulr_sumr. apply: eq_bigr => c _. have I := top_inside n rows t Hn T j J. have I2 := I. rewrite E in I2. have If := facet_in rows m.+1 c _ (ltn_ord c) I2. set s := top_row j. set f := facet m.+2 c s.
  rewrite /MetSum.share mulr_sumr mulr_sumr big_seq_cond [RHS]big_seq. have Mn : (1 <= m.+1 <= n)%N by rewrite E leqnSn. apply: eq_big => [r|r /andP [R _]].
  - case R : (r \in _) => //=. have Lr := tail_size m.+1 _ r Mn If R. by rewrite E nth_rcons size_rcons Lr ltnn !eqxx.
  - have Lr := tail_size m.+1 _ r Mn If R. have R2 : rcons r (idx m.+1 f) \in tails n s. { rewrite E tails_step. apply/flatten_mapP. exists (c : nat); [by rewrite mem_iota add0n ltn_ord|]. apply/mapP. by exists r. }
    rewrite (vol_gen n s (rcons r (idx m.+1 f)) j _ (n_pos n Hn) I R2); first last.
    + by rewrite nth_rcons size_rcons Lr E ltnn eqxx.
    + move=> i Li. by rewrite nth_rcons size_rcons Lr -E Li.
    + by rewrite (el_top n rows t T).
    + by rewrite (n_top n rows t T).
    + have Mn2 : (m.+2 <= n)%N by rewrite E. have -> : `|\det (table K n.+1 (stack n (rcons r (idx m.+1 f)) (coef n j)) s)| = `|coef n j (nth 0%N s c)| * `|\det (table K m.+2 (stack m.+1 r (coef m.+1 (idx m.+1 f))) f)|.
      { rewrite E. exact: (split_share K n rows t Hn T d pos PP coef C m s c r _ Mn2 I2 (ltn_ord c) R). }
      rewrite mulrAC [RHS]mulrC. congr (_ * _). by rewrite mulrC mulrA.
Qed.
(** ** Top simplices *)
Lemma share_face : forall m j c, n = m.+2 -> (j < N)%N -> (c < m.+3)%N -> (forall k e v, (1 <= k < n)%N -> (e < SimpModel.n_elements t k)%N -> {subset el k e <= top_row j} -> 0 <= coef k e v) ->
  share m.+1 (facet m.+2 c (top_row j)) (coef m.+1 (idx m.+1 (facet m.+2 c (top_row j)))) = 1.
Proof.
  move=> m j c E J Lc P. have I := top_inside n rows t Hn T j J. rewrite E in I. have If := facet_in rows m.+1 c _ Lc I. have Sb := facet_sub rows m.+1 c _ Lc I. set f := facet _ _ _ in If Sb *. have Mn : (m.+1 < n)%N by rewrite E.
  have [Ei Pi] := idx_ok n rows t Hn T m.+1 f Mn If. have Mn1 : (1 <= m.+1 <= n)%N by rewrite E leqnSn. rewrite (share_one K n rows t Hn T d pos PP coef C m.+1 f _ Mn1 If).
  - rewrite (eq_bigr (coef m.+1 (idx m.+1 f))). 2:{ move=> v _. apply: ger0_norm. apply: P => //. move=> w. rewrite (perm_mem Pi). exact: Sb. }
    apply: (coef_sum K n rows t Hn T d pos PP coef C) => //; [exact: inside_uniq If|]. move=> w. by rewrite (perm_mem Pi).
  - move=> k e v /andP [K1 K2] Ee S. apply: P => //; [by rewrite K1 E ltnW|]. move=> w /S. exact: Sb.
Qed.
Lemma pm_top_one : forall m j, n = m.+2 -> (j < N)%N -> (forall k e v, (1 <= k < n)%N -> (e < SimpModel.n_elements t k)%N -> {subset el k e <= top_row j} -> 0 <= coef k e v) ->
  (forall c, (c < n.+1)%N -> Num.sg (bary j c) = Num.sg (coef n j (nth 0%N (top_row j) c))) -> pm n j = size_of n (top_row j).
Proof.
  move=> m j E J P B. rewrite (pm_top m j E J). have I := top_inside n rows t Hn T j J. have [Sz _] := I. transitivity (size_of n (top_row j) * 1); [|by rewrite mulr1]. congr (_ * _).
  have Jn : (j < SimpModel.n_elements t n)%N by rewrite (n_top n rows t T). have Sb : {subset el n j <= top_row j} by rewrite (el_top n rows t T).
  rewrite -(coef_sum K n rows t Hn T d pos PP coef C n j _ (leqnn n) Jn (inside_uniq _ _ _ I) Sb) (sum_nth _ _ _ m.+3); [|by rewrite Sz E]. apply: eq_bigr => c _.
  rewrite (share_face m j c E J (ltn_ord c) P) mulr1 B ?E //. by rewrite -numEsg.
Qed.
(** ** Lower elements *)
Section Mid.
Variables (i e : nat).
Hypothesis Hi : (1 <= i < n)%N.
Hypothesis He : (e < SimpModel.n_elements t i)%N.
Lemma el_inside : inside i (el i e).
Proof.
  have [H1 H2] := andP Hi. have [j J S] := in_top n rows t Hn T i e (ltnW H2) He. have Jn := top_inside n rows t Hn T j J. have [L ND] := OrientProofs.el_len n rows t Hn T i e (elimT ssrnat.leP (ltnW H2)) (elimT ssrnat.ltP He).
  split; [exact: L|]. split=> //. exists (top_row j). split; [apply: List.nth_In; exact/ssrnat.ltP|]. move=> v /InE V. apply/InE. exact: S.
Qed.
Lemma dom_flag : forall row, row \in dom <-> SubdSpec.is_flag n t (nth 0%N row n) row.
Proof.
  move=> row. rewrite (row_in n rows t). split.
  - move=> [j [r [J R ->]]]. have Lr := tail_size n _ r (n_pos n Hn) (top_inside n rows t Hn T j J) R. rewrite nth_rcons Lr ltnn eqxx. apply/(FundProofs.block_spec n rows t Hn T j _ (elimT ssrnat.ltP J)). apply/InE. rewrite /FundProofs.block mapE. apply/mapP. exists r => //. by rewrite -cats1.
  - move=> F. have Jn : (nth 0%N row n < SimpModel.n_elements t n)%N. { have [_ [_ [B _]]] := F. apply/ssrnat.ltP. rewrite -nthE. exact: B. } rewrite (n_top n rows t T) in Jn.
    move/(FundProofs.block_spec n rows t Hn T _ _ (elimT ssrnat.ltP Jn)): F => /InE. rewrite /FundProofs.block mapE => /mapP [r R Er]. exists (nth 0%N row n), r. split=> //. by rewrite {1}Er -cats1.
Qed.
Lemma flag_cut : forall row, row \in dom -> nth 0%N row i = e -> take i row \in tails i (el i e).
Proof.
  move=> row /dom_flag [L [_ [B Ch]]] E. have [H1 H2] := andP Hi. apply/InE. have M : Peano.le 1 i /\ Peano.le i n by split; apply/ssrnat.leP => //; exact: ltnW.
  apply/(FundProofs.tails_spec n rows t Hn T i _ M (proj1 el_inside) (proj2 el_inside)). rewrite sizeE in L.
  have Nt : forall k, (k < i)%N -> List.nth k (take i row) 0%N = List.nth k row 0%N by move=> k Lk; rewrite !nthE nth_take.
  split; [rewrite sizeE size_take L ltnS (ltnW H2); by []|split; [|split]].
  - move=> k Lk. rewrite Nt; [|exact/ssrnat.ltP]. apply: B. apply/ssrnat.leP. apply: leq_trans (ltnW H2). apply: ltnW. exact/ssrnat.ltP.
  - move=> k Lk. have Lk' : (k.+1 < i)%N by exact/ssrnat.ltP. rewrite !Nt //; [|exact: ltnW]. apply: Ch. apply/ssrnat.ltP. exact: ltn_trans (ltnW Lk') H2.
  - have Ei : Nat.sub i 1 = i.-1 by rewrite minusE subn1. have Li : (i.-1 < i)%N by rewrite prednK. rewrite Ei Nt //. have Q := Ch i.-1. rewrite (prednK H1) in Q. rewrite -E -nthE. apply: Q. apply/ssrnat.ltP. exact: ltn_trans Li H2.
Qed.
Lemma flag_glue : forall row r, row \in dom -> nth 0%N row i = e -> r \in tails i (el i e) -> r ++ drop i row \in dom.
Proof.
  move=> row r /dom_flag [L [_ [B Ch]]] E R. have [H1 H2] := andP Hi. rewrite sizeE in L. have M : Peano.le 1 i /\ Peano.le i n by split; apply/ssrnat.leP => //; exact: ltnW.
  have [Lr [Br [Cr Tr]]] := proj1 (FundProofs.tails_spec n rows t Hn T i _ M (proj1 el_inside) (proj2 el_inside) r) (proj2 (InE _ _ _) R). rewrite sizeE in Lr.
  have Nl : forall k, (k < i)%N -> List.nth k (r ++ drop i row) 0%N = List.nth k r 0%N by move=> k Lk; rewrite !nthE nth_cat Lr Lk.
  have Nr : forall k, (i <= k)%N -> List.nth k (r ++ drop i row) 0%N = List.nth k row 0%N by move=> k Lk; rewrite !nthE nth_cat Lr ltnNge Lk /= nth_drop subnKC.
  apply/dom_flag. split; [|split; [|split]].
  - rewrite sizeE size_cat size_drop Lr L subnKC //. exact: leqW (ltnW H2).
  - exact: nthE.
  - move=> k Lk. case: (ltnP k i) => Lk2; [rewrite Nl //; apply: Br; exact/ssrnat.ltP|rewrite Nr //; exact: B].
  - move=> k Lk. case: (ltnP k.+1 i) => Lk2; [rewrite !Nl //; [apply: Cr; exact/ssrnat.ltP|exact: ltnW]|]. rewrite (Nr k.+1) //. move: Lk2. rewrite leq_eqVlt => /orP [/eqP X|Lk2]; [|rewrite Nr //; exact: Ch].
    rewrite Nl -?X //. have Ei : Nat.sub i 1 = k by rewrite minusE subn1 X. rewrite Ei in Tr. rewrite (nthE _ _ row) E. exact: Tr.
Qed.
Definition ends : seq (seq nat) := undup [seq drop i row | row <- dom & nth 0%N row i == e].
Lemma dom_uniq : uniq dom.
Proof.
  rewrite /MetProofs.dom. have U : forall j, (j < N)%N -> uniq (tails n (top_row j)).
  { move=> j J. have [Sz I] := top_inside n rows t Hn T j J. have M : Peano.le 1 n /\ Peano.le n n by split => //. have := FundProofs.tails_nodup n rows t Hn T n _ M Sz I.
    elim: (tails n _) => //= x l IH H. inversion H; subst. apply/andP. split; [by apply/negP => /InE|exact: IH]. }
  apply: allpairs_uniq_dep; [exact: iota_uniq|move=> j; rewrite mem_iota; exact: U|]. move=> [j r] [j' r'] _ _ /= /rcons_inj [-> ->]. by [].
Qed.
Lemma through : perm_eq [seq row <- dom | nth 0%N row i == e] [seq r ++ x | x <- ends, r <- tails i (el i e)].
Proof.
  have [H1 H2] := andP Hi. have Hi' : (1 <= i <= n)%N by rewrite H1 ltnW. have Ts := fun r => tail_size i _ r Hi' el_inside. apply: uniq_perm; [exact: filter_uniq dom_uniq| |].
  - apply: allpairs_uniq; [exact: undup_uniq| |].
    + have [Sz I] := el_inside. have M : Peano.le 1 i /\ Peano.le i n by split; apply/ssrnat.leP => //; exact: ltnW. have := FundProofs.tails_nodup n rows t Hn T i _ M Sz I.
      elim: (tails i _) => //= x l IH H. inversion H; subst. apply/andP. split; [by apply/negP => /InE|exact: IH].
    + move=> [x r] [x' r'] /allpairsP [[a b] /= [_ B [_ ->]]] /allpairsP [[a' b'] /= [_ B' [_ ->]]] /eqP. rewrite eqseq_cat ?(Ts _ B) ?(Ts _ B') // => /andP [/eqP -> /eqP ->]. by [].
  - move=> row. rewrite mem_filter. apply/andP/allpairsP => [[/eqP E D]|[[x r] /= [X R ->]]].
    + exists (drop i row, take i row). split=> /=; [|exact: flag_cut|by rewrite cat_take_drop]. rewrite mem_undup. apply: map_f. by rewrite mem_filter E eqxx.
    + move: X. rewrite mem_undup => /mapP [row']. rewrite mem_filter => /andP [/eqP E D] ->. split; [|exact: flag_glue]. by rewrite nth_cat (Ts _ R) ltnn subnn nth_drop addn0 E.
Qed.
Lemma pm_mid : pm i e = size_of i (el i e) * share i (el i e) (coef i e).
Proof.
  have [H1 H2] := andP Hi. have Hi' : (1 <= i <= n)%N by rewrite H1 ltnW. have Ts := fun r => tail_size i _ r Hi' el_inside. rewrite /MetProofs.pm H2 -big_filter -size_filter (perm_big _ through) (perm_size through) size_allpairs /= big_allpairs_dep /=.
  have E0 : forall x, x \in ends -> nth 0%N x 0 = e. { move=> x. rewrite mem_undup => /mapP [row]. rewrite mem_filter => /andP [/eqP E D] ->. by rewrite nth_drop addn0. }
  rewrite big_seq (eq_bigr (fun _ => size_of i (el i e) * share i (el i e) (coef i e))). 2:{
    move=> x X. rewrite /MetSum.share mulr_sumr big_seq [RHS]big_seq. apply: eq_bigr => r R. rewrite (vol_gen i _ r e _ Hi' el_inside R) //; [exact: mulrC| |].
    - move=> q Q. by rewrite nth_cat (Ts _ R) Q.
    - by rewrite nth_cat (Ts _ R) ltnn subnn E0. }
  rewrite -big_seq big_const_seq count_predT. have -> : forall (y : K) q, iter q (+%R y) 0 = y *+ q by move=> y; elim=> [|q IH] /=; rewrite ?mulr0n // IH mulrS.
  rewrite (tails_size n t Hn i) //; [|exact: (proj1 el_inside)]. set V := size_of i (el i e) * share i (el i e) (coef i e). have X : (0 < size ends)%N.
  { have [row R E] := mapP (eq_ind_r is_true He (column_mem n rows t Hn T i e (ltnW H2))). rewrite lt0n size_eq0. apply/negP => /eqP Z. have : drop i row \in ends by rewrite mem_undup; apply: map_f; rewrite mem_filter -E eqxx. by rewrite Z. }
  rewrite natrM. have Nx : (size ends)%:R != 0 :> K by rewrite pnatr_eq0 -lt0n. have Nf : (i.+1)`!%:R != 0 :> K by rewrite pnatr_eq0 -lt0n fact_gt0. by rewrite -[V *+ _]mulr_natr invfM mulrA mulfK // mulfVK.
Qed.
End Mid.
(** ** Dual edges *)
Lemma measure1 : forall pts : 'M[K]_(2, d), (1 <= d)%N -> measure K d 1%N pts = distance K d (row 0 pts) (row ord_max pts).
Proof.
  move=> pts D. rewrite /measure /unsigned_volume ltnNge D /= divr1 det_mx11 mxE /distance. congr Num.sqrt.
  rewrite ger0_norm; [|by apply: sumr_ge0 => j _; rewrite !mxE -expr2 sqr_ge0]. apply: eq_bigr => j _. rewrite !mxE -expr2 -sqrrN opprB. have -> : lift ord0 ord0 = ord_max :> 'I_2 by apply: val_inj. by [].
Qed.
Lemma dm_edge : forall m e, n = m.+2 -> (n <= d)%N -> (e < SimpModel.n_elements t m.+1)%N ->
  dm 1%N e = \sum_(j < N) \sum_(c < m.+3 | idx m.+1 (facet m.+2 c (top_row j)) == e) Num.sg (bary j c) * distance K d (PP m.+1 e) (PP n j).
Proof.
  move=> m e E Dn He. rewrite /MetProofs.dm. have -> : (1 < n)%N by rewrite E. have -> : (n - 1)%N = m.+1 by rewrite E subn1.
  rewrite (pairs_sum m (fun row => nth 0%N row m.+1 == e) (fun p => vol 1%N m.+1 p.1 * p.2) E) mulr_suml. apply: eq_bigr => j _. rewrite mulr_suml [RHS]big_mkcond. apply: eq_bigr => c _.
  have I := top_inside n rows t Hn T j (ltn_ord j). rewrite E in I. have If := facet_in rows m.+1 c _ (ltn_ord c) I. set f := facet m.+2 c (top_row j). have Mn : (1 <= m.+1 <= n)%N by rewrite E leqnSn. have Tz := fun r => tail_size m.+1 f r Mn If.
  have Nt : forall r, r \in tails m.+1 f -> nth 0%N (rcons (rcons r (idx m.+1 f)) j) m.+1 = idx m.+1 f. { move=> r R. rewrite nth_rcons size_rcons (Tz r R) ltnSn nth_rcons (Tz r R) ltnn eqxx. by []. }
  case: eqP => [X|X]; last first. { rewrite big_seq_cond big1 ?mul0r // => r /andP [R]. by rewrite Nt // => /eqP. }
  rewrite big_seq_cond (eq_big (fun r => r \in tails m.+1 f) (fun _ => Num.sg (bary j c) * distance K d (PP m.+1 e) (PP n j))).
  - rewrite -big_seq big_const_seq count_predT. have -> : forall (y : K) q, iter q (+%R y) 0 = y *+ q by move=> y; elim=> [|q IH] /=; rewrite ?mulr0n // IH mulrS.
    rewrite (tails_size n t Hn m.+1) //; [|exact: (proj1 If)]. rewrite -[_ *+ _]mulr_natr mulfK // pnatr_eq0 -lt0n fact_gt0. by [].
  - move=> r. case R : (r \in _) => //=. by rewrite Nt // X eqxx.
  - move=> r /andP [R _]. rewrite [LHS]mulrC measure1; [|apply: leq_trans Dn; by rewrite E]. congr (_ * distance _ _ _ _).
    + apply/rowP => q. by rewrite !mxE addn0 Nt // X.
    + apply/rowP => q. rewrite !mxE /= addn1. by rewrite nth_rcons size_rcons (Tz r R) ltnn eqxx E.
Qed.
(** the facet opposite corner c *)
Lemma opposite : forall m j c e, n = m.+2 -> (j < N)%N -> (c < m.+3)%N -> (e < SimpModel.n_elements t m.+1)%N -> (idx m.+1 (facet m.+2 c (top_row j)) == e) = perm_eq (el m.+1 e) (take c (top_row j) ++ drop c.+1 (top_row j)).
Proof.
  move=> m j c e E J Lc He. have I := top_inside n rows t Hn T j J. rewrite E in I. have [Sz _] := I. have If := facet_in rows m.+1 c _ Lc I. have Mn : (m.+1 < n)%N by rewrite E. have [Ei Pi] := idx_ok n rows t Hn T m.+1 _ Mn If.
  have Fo := facet_omit m.+2 c (top_row j). rewrite Sz in Fo. have {}Fo := Fo Lc. apply/eqP/idP => [<-|P].
  - apply: perm_trans Pi _. by rewrite perm_sym.
  - refine (TopProofs.faces_unique n rows t T m.+1 _ _ (elimT ssrnat.ltP Mn) (elimT ssrnat.ltP Ei) (elimT ssrnat.ltP He) _). apply: PermP. apply: perm_trans Pi _. rewrite perm_sym. exact: perm_trans P Fo.
Qed.
(** ** Totals *)
Lemma sum_groups : forall (A : eqType) (l : seq A) (f : A -> nat) (g : A -> K) M, (forall x, x \in l -> (f x < M)%N) -> \sum_(k <- iota 0 M) \sum_(x <- l | f x == k) g x = \sum_(x <- l) g x.
Proof.
  move=> A l f g M H. rewrite (exchange_big_dep xpredT) //= big_seq [RHS]big_seq. apply: eq_bigr => x X. rewrite -big_filter (eq_filter (a2 := pred1 (f x))); [|move=> k; by rewrite /= eq_sym].
  rewrite filter_pred1_uniq ?big_seq1 ?iota_uniq // mem_iota. exact: H.
Qed.
Lemma pm_dm_total : \sum_(e <- iota 0 (SimpModel.n_elements t n)) pm n e = \sum_(v <- iota 0 (SimpModel.n_elements t 0%N)) dm n v.
Proof.
  have D : forall p, p \in pairs -> p.1 \in dom by move=> p P; rewrite -(pairs_dom K n rows t bary); exact: map_f. rewrite /MetProofs.pm /MetProofs.dm ltnn subnn.
  rewrite (sum_groups _ _ (fun p : seq nat * K => nth 0%N p.1 n)); [|move=> p /D P; exact: (proj2 (row_shape n rows t Hn T _ P) n (leqnn n))]. rewrite (eq_bigr (fun k => \sum_(p <- pairs | nth 0%N p.1 0%N == k) vol n 0%N p.1 * p.2)); [|move=> k _; exact: divr1].
  rewrite (sum_groups _ _ (fun p : seq nat * K => nth 0%N p.1 0%N)) //. move=> p /D P. exact: (proj2 (row_shape n rows t Hn T _ P) 0%N (leq0n n)).
Qed.
End Vol.
