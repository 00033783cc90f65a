(** The simplex found by pick_primal. *)
From Coq Require Import Permutation Factorial ZArith.
From mathcomp Require Import all_ssreflect all_algebra.
From Verif Require Import GeoRing GeoModel MetModel MetSpec MetAff MetSum MetProofs MetVol MetCot DelModel DelSpec DelProofs DelFree DelGeo TreeModel TreeSpec TreeProofs TreeTop TreeGeo.
From Verif Require Util SimpModel SimpSpec BdryModel BdrySpec SubdModel SubdSpec TopProofs OrientProofs.
Import Order.TTheory GRing.Theory Num.Theory.
Local Open Scope nat_scope.
Local Open Scope ring_scope.

Section Main.
Variable K : rcfType.
Add Field Kf : (K_field K).
Ltac kring := kprep K; ring.
Variable row_leb : SimpModel.simplex -> SimpModel.simplex -> bool.
Variables (m : nat) (rows : list SimpModel.simplex) (t : SimpModel.topology).
Notation d := m.+2.
Variable pos : nat -> 'rV[K]_d.
Variable wt : nat -> K.
Variable PP : nat -> nat -> 'rV[K]_d.
Variable bary : nat -> nat -> nat -> K.
Hypothesis T : TopProofs.top_ok m.+2 rows t.
Hypothesis Pc : power_centred K t m.+2 d pos wt PP.
Let Hn : Peano.le 1 m.+2. Proof. exact/ssrnat.leP. Qed.
Notation N := (size rows).
Notation top_row := (top_row rows).
Notation element j := (SubdSpec.element t m.+2 j).
Notation dot := (dot K d).
Notation power := (power K d pos wt).
Notation rad := (rad K m rows d pos wt PP).
Let El : forall j, element j = top_row j. Proof. exact: (el_top m.+2 rows t T). Qed.
Let Nt : SimpModel.n_elements t m.+2 = N. Proof. exact: (n_top m.+2 rows t T). Qed.
Lemma row_size : forall j, (j < N)%N -> size (top_row j) = m.+3.
Proof. move=> j J. by have [Sz _] := top_inside m.+2 rows t Hn T j J. Qed.

Lemma dot_swap : forall x y, dot (x - y) (x - y) = dot (y - x) (y - x). Proof. move=> x y. by rewrite -opprB dotNl dotNr opprK. Qed.
Lemma dot_lin : forall (s : seq nat) (b : nat -> K) u, dot (\sum_(v <- s) b v *: pos v) u = \sum_(v <- s) b v * dot (pos v) u.
Proof. move=> s b u. elim: s => [|v s IH]; [by rewrite !big_nil dot0l|]. by rewrite !big_cons dotDl dotZl IH. Qed.
(** the power of a point with respect to the sphere of a simplex *)
Definition pow (i : nat) (x : 'rV[K]_d) : K := dot (x - PP m.+2 i) (x - PP m.+2 i) - rad i.
Lemma corner_rad : forall j v, (j < N)%N -> v \in top_row j -> power (PP m.+2 j) v = rad j.
Proof. move=> j v J V. apply: (Pc m.+2 j _ _ (leqnn _)); [by rewrite Nt|by rewrite El|]. rewrite El. apply: mem_nth. by rewrite row_size. Qed.
Lemma pow_sum : forall i j b x, (i < N)%N -> within K t m.+2 d pos j b x -> pow i x - pow j x = \sum_(v <- top_row j) b v * (power (PP m.+2 i) v - rad i).
Proof.
  move=> i j b x I [J _ _ S1 Ex]. rewrite Nt in J. rewrite El in S1 Ex. rewrite /pow. set o := PP m.+2 i. set c := PP m.+2 j.
  have Q : dot (x - o) (x - o) - dot (x - c) (x - c) = \sum_(v <- top_row j) b v * (dot (pos v - o) (pos v - o) - dot (pos v - c) (pos v - c)).
  { rewrite dot_sub Ex dot_lin [RHS](eq_bigr (fun v => 2%:R * (b v * dot (pos v) (c - o)) + b v * (dot o o - dot c c))); [|by move=> v _; rewrite dot_sub mulrDr mulrCA]. by rewrite big_split /= -mulr_suml -mulr_sumr S1 mul1r. }
  have -> : dot (x - o) (x - o) - rad i - (dot (x - c) (x - c) - rad j) = (dot (x - o) (x - o) - dot (x - c) (x - c)) + (rad j - rad i) by move: (dot _ _) (dot _ _) (rad i) (rad j) => e f g h; kring.
  rewrite Q -[rad j - rad i]mul1r -S1 mulr_suml -big_split /= big_seq [RHS]big_seq. apply: eq_bigr => v V. rewrite -mulrDr. congr (_ * _). rewrite -(corner_rad j v J V) !powerE (dot_swap (pos v)) (dot_swap (pos v) c) -/o -/c. move: (dot _ _) (dot _ _) (rad i) (wt v) => e f g h. kring.
Qed.
Hypothesis Em : empty_spheres K t m.+2 d pos wt PP.
Lemma corner_ge : forall i j v, (i < N)%N -> (j < N)%N -> v \in top_row j -> 0 <= power (PP m.+2 i) v - rad i /\ (v \notin top_row i -> 0 < power (PP m.+2 i) v - rad i).
Proof.
  move=> i j v I J V. have St : v \notin top_row i -> 0 < power (PP m.+2 i) v - rad i. { move=> Ni. rewrite subr_gt0. apply: (Em i j _ v); rewrite ?Nt ?El //. apply: mem_nth. by rewrite row_size. } split=> //. case Vi : (v \in top_row i); [by rewrite corner_rad // subrr|]. apply: ltW. apply: St. by rewrite Vi.
Qed.
Lemma pow_le : forall i j b x, (i < N)%N -> within K t m.+2 d pos j b x -> pow j x <= pow i x.
Proof.
  move=> i j b x I Wj. rewrite -subr_ge0 (pow_sum i j b x I Wj). case: Wj => J P _ _ _. rewrite Nt in J. rewrite El in P. rewrite big_seq. apply: sumr_ge0 => v V. apply: mulr_ge0; [exact: P|]. exact: (proj1 (corner_ge i j v I J V)).
Qed.
(** a sphere of smallest power belongs to a simplex that has the point *)
Lemma support : forall i j b x, (i < N)%N -> within K t m.+2 d pos j b x -> pow i x <= pow j x -> within K t m.+2 d pos i b x.
Proof.
  move=> i j b x I Wj Le. have S0 : \sum_(v <- top_row j) b v * (power (PP m.+2 i) v - rad i) = 0 by rewrite -(pow_sum i j b x I Wj); apply/eqP; rewrite subr_eq0 eq_le Le (pow_le i j b x I Wj). case: (Wj) => J P Z S1 Ex. rewrite Nt in J. rewrite El in P Z S1 Ex.
  have Out : forall v, v \notin top_row i -> b v = 0.
  { move=> v Vi. case V : (v \in top_row j); [|by apply: Z; rewrite V]. apply/eqP. have Nn : forall w, w \in top_row j -> 0 <= b w * (power (PP m.+2 i) w - rad i) by move=> w W; apply: mulr_ge0; [exact: P|exact: (proj1 (corner_ge i j w I J W))].
    move/eqP: S0. rewrite big_seq psumr_eq0; [|exact: Nn]. move/allP => /(_ v V). rewrite V /= mulf_eq0 => /orP [//|/eqP E]. have [_ G] := corner_ge i j v I J V. by have := G Vi; rewrite E ltxx. }
  have Ui : forall k, (k < N)%N -> uniq (top_row k) by move=> k Lk; exact: (inside_uniq _ _ _ (top_inside m.+2 rows t Hn T k Lk)).
  have Sw : forall (V : zmodType) (F : nat -> V), (forall v, v \notin top_row i -> F v = 0) -> (forall v, v \notin top_row j -> F v = 0) -> \sum_(v <- top_row i) F v = \sum_(v <- top_row j) F v.
  { move=> V F Zi Zj. have U : uniq (undup (top_row i ++ top_row j)) by exact: undup_uniq. rewrite -(sum_sub V F (undup (top_row i ++ top_row j)) (top_row i) U (Ui i I)) //; [|by move=> v; rewrite mem_undup mem_cat => ->]. apply: sum_sub => //; [exact: Ui|]. by move=> v; rewrite mem_undup mem_cat orbC => ->. }
  split; [by rewrite Nt| | |rewrite El|rewrite El].
  - move=> v _. case V : (v \in top_row j); [exact: P|]. by rewrite Z ?V.
  - by move=> v; rewrite El; exact: Out.
  - rewrite (Sw _ b) //.
  - rewrite (Sw _ (fun v => b v *: pos v)) //; move=> v V; [rewrite Out|rewrite Z]; rewrite ?scale0r //.
Qed.
(** ** Barycentric coordinates *)
Notation H j := (simplex_corners K t d pos j).
Let nd : BdryModel.n_dim t = m.+2. Proof. exact: (OrientProofs.top_n_dim m.+2 rows t T). Qed.
Lemma corner_nth : forall j c, nth 0%N (List.nth j (List.nth (BdryModel.n_dim t) (SimpModel.elements t) [::]) [::]) c = nth 0%N (top_row j) c.
Proof. move=> j c. by rewrite nd -El. Qed.
Lemma over_corners : forall (V : zmodType) (F : nat -> V) j, (j < N)%N -> \sum_(c < d + 1) F (nth 0%N (top_row j) c) = \sum_(v <- top_row j) F v.
Proof. move=> V F j J. rewrite [RHS](big_nth 0%N) row_size // -(big_mkord xpredT (fun c => F (nth 0%N (top_row j) c))). by rewrite addn1. Qed.
Lemma row_combine : forall (b : 'rV[K]_(d + 1)) j, b *m H j = extend K d (\sum_c b 0 c *: pos (nth 0%N (top_row j) c)) (\sum_c b 0 c).
Proof.
  move=> b j. apply/rowP => q. rewrite mxE. case: (splitP q) => [q' E|q' E].
  - have -> : q = lshift 1 q' by apply: val_inj. rewrite row_mxEl summxE. apply: eq_bigr => c _. by rewrite !mxE (unsplitK (inl q')) corner_nth.
  - have -> : q = rshift d q' by apply: val_inj. rewrite row_mxEr mxE. apply: eq_bigr => c _. by rewrite mxE row_mxEr mxE mulr1.
Qed.
Lemma extend_inj : forall (p q : 'rV[K]_d) x y, extend K d p x = extend K d q y -> p = q /\ x = y.
Proof. move=> p q x y E. have [A B] := eq_row_mx E. split=> //. by move/matrixP: B => /(_ 0 0); rewrite !mxE. Qed.
Hypothesis Nd : forall j, (j < N)%N -> measure K d m.+2 (corners K d m.+2 pos (top_row j)) != 0.
Lemma corners_unit : forall j, (j < N)%N -> H j \in unitmx.
Proof.
  move=> j J. rewrite -row_free_unit. apply: inj_row_free => b. rewrite row_combine => E. have Z : 0 = extend K d 0 0 :> 'rV[K]_(d + 1). { apply/rowP => q. rewrite mxE /extend. case: (splitP q) => [q' Q|q' Q]; [have -> : q = lshift 1 q' by apply: val_inj|have -> : q = rshift d q' by apply: val_inj]; by rewrite ?row_mxEl ?row_mxEr mxE. }
  rewrite Z in E. have [E1 E2] := extend_inj _ _ _ _ E. have U := inside_uniq _ _ _ (top_inside m.+2 rows t Hn T j J). have Sz := row_size j J. pose f v := b 0 (inord (index v (top_row j))).
  have F : forall c : 'I_(d + 1), f (nth 0%N (top_row j) c) = b 0 c. { move=> c. rewrite /f index_uniq //; [|by rewrite Sz -[m.+3]addn1; exact: ltn_ord]. congr (b 0 _). apply: val_inj. rewrite /= inordK //. }
  have Fz := flat_or_unique K d m.+2 pos (top_row j) f (leqnn _) Sz (Nd j J). rewrite -(over_corners _ f j J) -(over_corners _ (fun v => f v *: pos v) j J) in Fz. apply/rowP => c. rewrite mxE -F. apply: Fz; [by rewrite -[RHS]E2; apply: eq_bigr => i _; rewrite F|by rewrite -[RHS]E1; apply: eq_bigr => i _; rewrite F|].
  apply: mem_nth. by rewrite Sz -[m.+3]addn1; exact: ltn_ord.
Qed.
Lemma bases_ok : bases K t d pos = Util.Ok (fun j => invmx (H j)).
Proof. rewrite /bases {1}nd eqxx /=. have -> : all (fun j => H j \in unitmx) (iota 0 (SimpModel.n_elements t (BdryModel.n_dim t))) = true by rewrite nd Nt; apply/allP => j; rewrite mem_iota => /andP [_ J]; exact: corners_unit. by []. Qed.
Lemma coordinates_ok : forall p j, (j < N)%N -> let b := homogenize K d p *m invmx (H j) in \sum_c b 0 c = 1 /\ p = \sum_c b 0 c *: pos (nth 0%N (top_row j) c).
Proof. move=> p j J b. have := row_combine b j. rewrite /b mulmxKV; [|exact: corners_unit]. move=> /extend_inj [A B]. by split. Qed.
Lemma coordinates_within : forall p j b, within K t m.+2 d pos j b p -> homogenize K d p *m invmx (H j) = \row_c b (nth 0%N (top_row j) c).
Proof.
  move=> p j b [J _ _ S1 Ex]. rewrite Nt in J. rewrite El in S1 Ex. have -> : homogenize K d p = (\row_c b (nth 0%N (top_row j) c)) *m H j; [|by rewrite mulmxK // corners_unit]. rewrite row_combine /homogenize. congr extend.
  - rewrite Ex -(over_corners _ (fun v => b v *: pos v) j J). by apply: eq_bigr => c _; rewrite mxE.
  - rewrite -S1 -(over_corners _ b j J). by apply: eq_bigr => c _; rewrite mxE.
Qed.
(** coordinates that are not negative are those of a point of the simplex *)
Lemma kept : forall p j, (j < N)%N -> let b := homogenize K d p *m invmx (H j) in (forall c, 0 <= b 0 c) -> within K t m.+2 d pos j (fun v => if v \in top_row j then b 0 (inord (index v (top_row j))) else 0) p.
Proof.
  move=> p j J b B. have [S1 Ex] := coordinates_ok p j J. rewrite -/b in S1 Ex. have U := inside_uniq _ _ _ (top_inside m.+2 rows t Hn T j J). have Sz := row_size j J. set f := fun v => _.
  have Mc : forall c : 'I_(d + 1), nth 0%N (top_row j) c \in top_row j by move=> c; apply: mem_nth; rewrite Sz -[m.+3]addn1; exact: ltn_ord.
  have F : forall c : 'I_(d + 1), f (nth 0%N (top_row j) c) = b 0 c. { move=> c. rewrite /f Mc index_uniq //; [|by rewrite Sz -[m.+3]addn1; exact: ltn_ord]. congr (b 0 _). apply: val_inj. rewrite /= inordK //. }
  split; rewrite ?Nt ?El //.
  - move=> v V. by rewrite /f V.
  - by move=> v; rewrite /f => /negbTE ->.
  - rewrite -(over_corners _ f j J) -S1. by apply: eq_bigr => c _; rewrite F.
  - rewrite -(over_corners _ (fun v => f v *: pos v) j J) {1}Ex. by apply: eq_bigr => c _; rewrite F.
Qed.
End Main.
