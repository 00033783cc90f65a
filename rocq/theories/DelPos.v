(** Centres inside their elements: every volume of the dual is positive. *)
From Coq Require Import Permutation Factorial.
From mathcomp Require Import all_ssreflect all_algebra.
From Verif Require Import GeoModel GeoSpec MetModel MetSpec MetAff MetSum MetProofs MetVol DelModel DelFree DelProofs.
From Verif Require Util SimpModel SimpSpec BdryModel BdrySpec SubdModel SubdSpec ParProofs TopProofs OrientProofs FundProofs.
Import Order.TTheory GRing.Theory Num.Theory.
Local Open Scope nat_scope.
Local Open Scope ring_scope.

Section Pos.
Variable K : rcfType.
Variables (n : nat) (rows : list SimpModel.simplex) (t : SimpModel.topology).
Hypothesis Hn : (1 <= n)%coq_nat.
Hypothesis T : TopProofs.top_ok n rows t.
Variable d : nat.
Variable pos : nat -> 'rV[K]_d.
Variable PP : nat -> nat -> 'rV[K]_d.
Variable coef : nat -> nat -> nat -> K.
Hypothesis C : centres K t d n pos PP coef.
Variable bary : nat -> nat -> K.
Notation el := (OrientProofs.el t).
Notation tails := (FundProofs.tails t).
Notation idx := (FundProofs.idx t).
Notation facet := ParProofs.facet.
Notation inside := (MetSum.inside rows).
Notation N := (size rows).
Notation top_row := (top_row rows).
Notation dom := (dom n rows t).
Notation pairs := (pairs K n rows t bary).
Notation vol k lo row := (measure K d k (corners_of K d PP lo k row)).
Notation size_of k s := (measure K d k (corners K d k pos s)).
Notation stack := (stack K coef).
Notation dm := (dm K n rows t d PP bary).

Lemma stack_pos : forall m s r beta, (1 <= m <= n)%N -> inside m s -> r \in tails m s -> (forall v, v \in s -> 0 < beta v) ->
  (forall k e v, (1 <= k < m)%N -> (e < SimpModel.n_elements t k)%N -> v \in el k e -> 0 < coef k e v) -> 0 < `|\det (table K m.+1 (stack m r beta) s)|.
Proof.
  elim=> [|m IH] // s r beta /andP [_ Mn] I R B P. case: m IH Mn I R P => [|m] IH Mn I R P.
  - have [Sz _] := I. have U := inside_uniq _ _ _ I. have V := fun v => inside_vert n rows t T _ _ v I. case: s Sz I U V R B => [|a [|b [|? ?]]] // _ I U V R B.
    have Nab : (a == b) = false by move: U => /= /andP [/negP H _]; apply/negbTE/negP => E; apply: H; rewrite inE.
    have Va : (a < SimpModel.n_elements t 0%N)%N by apply: V; rewrite !inE eqxx. have Vb : (b < SimpModel.n_elements t 0%N)%N by apply: V; rewrite !inE eqxx orbT.
    have vc := vert_coef K n rows t T d pos PP coef C. have Ba : 0 < beta a by apply: B; rewrite !inE eqxx. have Bb : 0 < beta b by apply: B; rewrite !inE eqxx orbT. move: R. rewrite /= !inE => /orP [/eqP ->|/eqP ->].
    + have Zc : forall i, (i < 1)%N -> stack 1%N [:: a] beta i (nth 0%N [:: a; b] 1%N) = 0. { case=> // _. by rewrite /MetSum.stack /= vc // eq_sym Nab. }
      rewrite (table_last K 1%N _ [:: a; b] 1%N isT erefl Zc) /=. have -> : table K 1%N (stack 1%N [:: a] beta) [:: a] = 1%:M. { apply/matrixP => i j. rewrite !ord1 !mxE /= /MetSum.stack /= vc // !eqxx. by []. } by rewrite det1 normr1 mulr1 /MetSum.stack /= normr_gt0 (lt0r_neq0 Bb).
    + have Zc : forall i, (i < 1)%N -> stack 1%N [:: b] beta i (nth 0%N [:: a; b] 0%N) = 0. { case=> // _. by rewrite /MetSum.stack /= vc // Nab. }
      rewrite (table_last K 1%N _ [:: a; b] 0%N isT erefl Zc) /=. have -> : table K 1%N (stack 1%N [:: b] beta) [:: b] = 1%:M. { apply/matrixP => i j. rewrite !ord1 !mxE /= /MetSum.stack /= vc // !eqxx. by []. } by rewrite det1 normr1 mulr1 /MetSum.stack /= normr_gt0 (lt0r_neq0 Ba).
  - rewrite tails_step in R. move/flatten_mapP: R => [c]. rewrite mem_iota => /andP [_ Lc] /mapP [r' R' ->]. have [Sz _] := I. have If := facet_in rows m.+1 c s Lc I. have [Ei Pi] := idx_ok n rows t Hn T m.+1 _ Mn If.
    rewrite (split_share K n rows t Hn T d pos PP coef C m s c r' beta Mn I Lc R'). apply: mulr_gt0; [by rewrite normr_gt0 lt0r_neq0 // B // mem_nth // Sz|].
    apply: IH => //; [exact: ltnW Mn| |].
    + move=> v V. apply: P; [by rewrite /= ltnS leqnn|exact: Ei|by rewrite (perm_mem Pi)].
    + move=> k e v /andP [K1 K2] E V. apply: P => //. by rewrite K1 ltnW.
Qed.
Hypothesis In : forall k e v, (1 <= k <= n)%N -> (e < SimpModel.n_elements t k)%N -> v \in el k e -> 0 < coef k e v.
Hypothesis Nd : forall j, (j < N)%N -> size_of n (top_row j) != 0.
Hypothesis Dn : (n <= d)%N.
Lemma size_pos : forall j, (j < N)%N -> 0 < size_of n (top_row j).
Proof. move=> j J. by rewrite lt_neqAle measure_ge0 eq_sym Nd. Qed.
Lemma dom_pos : forall row, row \in dom -> 0 < vol n 0%N row.
Proof.
  move=> row /row_in [j [r [J R ->]]]. have I := top_inside n rows t Hn T j J. have Np := n_pos n Hn. have [Lr Er] := tails_in n rows t Hn T n _ r Np I (proj2 (InE _ _ _) R). have El := el_top n rows t T j. have Jn : (j < SimpModel.n_elements t n)%N by rewrite (n_top n rows t T).
  rewrite (vol_gen K n rows t Hn T d pos PP coef C n _ r j (rcons r j) Np I R); first last.
  - by rewrite nth_rcons Lr ltnn eqxx.
  - move=> i Li. by rewrite nth_rcons Lr Li.
  - by rewrite El.
  - exact: Jn.
  - apply: mulr_gt0; [|exact: size_pos]. apply: stack_pos => //.
    + move=> v V. apply: In => //. by rewrite El.
    + move=> k e v /andP [K1 K2]. apply: In. by rewrite K1 ltnW.
Qed.
Lemma part_pos : forall row lo i, row \in dom -> (0 < i)%N -> (lo + i <= n)%N -> 0 < vol i lo row.
Proof.
  move=> row lo i R I0 L. have Id : (0 < i <= d)%N by rewrite I0 /=; apply: leq_trans Dn; apply: leq_trans L; exact: leq_addl. have Nd' : (0 < n <= d)%N by rewrite Dn andbT; exact/ssrnat.leP.
  rewrite lt_neqAle measure_ge0 andbT eq_sym. apply/negP => /eqP /(measure_dep K d i _ Id) Z. have := dom_pos row R. have /(measure_dep K d n _ Nd') -> := sub_dep K d PP n lo i row L Z. by rewrite ltxx.
Qed.
Hypothesis Bp : forall j c, (j < N)%N -> (c <= n)%N -> 0 < bary j c.
Lemma pairs_pos : forall p, p \in pairs -> p.1 \in dom /\ p.2 = 1.
Proof.
  move=> p P. split; [rewrite -(pairs_dom K n rows t bary); exact: map_f|]. have : p.2 \in signs K n rows t bary. { have <- : unzip2 pairs = signs K n rows t bary by rewrite unzip2_zip // size_map size_iota. exact: map_f. }
  move/mapP => [i]. rewrite mem_iota add0n (dom_size n rows t Hn T) => /andP [_ Li] ->. apply: gtr0_sg. apply: Bp; [by rewrite ltn_divLR ?fact_gt0|]. rewrite -ltnS ltn_divLR ?fact_gt0 // -factS. by rewrite ltn_pmod ?fact_gt0.
Qed.
Lemma sum_pos : forall (A : eqType) (l : seq A) (P : pred A) (F : A -> K) x, x \in l -> P x -> (forall y, y \in l -> 0 < F y) -> 0 < \sum_(y <- l | P y) F y.
Proof.
  move=> A l P F x X Px H. rewrite (perm_big _ (perm_to_rem X)) /= big_cons Px. apply: ltr_paddr; [|exact: H]. rewrite big_seq_cond. apply: sumr_ge0 => y /andP [Y _]. apply: ltW. apply: H. exact: mem_rem Y.
Qed.
Lemma dm_pos : forall i e, (0 < i <= n)%N -> (e < SimpModel.n_elements t (n - i)%N)%N -> 0 < dm i e.
Proof.
  move=> i e /andP [I0 I1] E. apply: divr_gt0; [|by case: ifP => _; rewrite ?ltr0n ?fact_gt0 ?ltr01]. have := column_mem n rows t Hn T (n - i)%N e (leq_subr _ _). rewrite E (column_map K n rows t bary) => /mapP [p P Ep].
  apply: (sum_pos _ _ _ _ p P); [by rewrite -Ep|]. move=> q Q. have [Q1 ->] := pairs_pos q Q. rewrite mulr1. apply: part_pos => //. by rewrite subnK.
Qed.
End Pos.
