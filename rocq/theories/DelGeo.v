(** Spheres through the corners of two simplices with a common facet. *)
From Coq Require Import Permutation Factorial.
From mathcomp Require Import all_ssreflect all_algebra.
From Verif Require Import GeoRing GeoModel MetModel MetSpec MetAff MetSum MetProofs MetVol MetCot DelModel DelFree DelProofs.
From Verif Require Util SimpModel SimpSpec BdryModel BdrySpec SubdModel SubdSpec ParProofs TopProofs OrientProofs FundProofs.
Import Order.TTheory GRing.Theory Num.Theory.
Local Open Scope nat_scope.
Local Open Scope ring_scope.

Section Pair.
Variable K : rcfType.
Add Field Kf : (K_field K).
Ltac kring := kprep K; ring.
Variable n : nat.
Notation dot := (dot K n).
Notation distance := (distance K n).
Lemma dotBl : forall u v w, dot (u - v) w = dot u w - dot v w. Proof. move=> u v w. by rewrite dotDl dotNl. Qed.
Lemma dotBr : forall u v w, dot w (u - v) = dot w u - dot w v. Proof. move=> u v w. by rewrite dotDr dotNr. Qed.
Lemma dot_zero : forall u, dot u u = 0 -> u = 0.
Proof. move=> u /eqP. rewrite psumr_eq0; [|by move=> j _; rewrite -expr2 sqr_ge0]. move/allP => A. apply/rowP => j. have := A j. rewrite mem_index_enum => /(_ isT) /=. rewrite mulf_eq0 orbb mxE => /eqP. by []. Qed.
Lemma dot_gt0 : forall u, u != 0 -> 0 < dot u u.
Proof. move=> u N. rewrite lt_neqAle dot_ge0 andbT eq_sym. apply/negP => /eqP /dot_zero E. by rewrite E eqxx in N. Qed.
Lemma dot_sub : forall o f g, dot (o - f) (o - f) - dot (o - g) (o - g) = 2%:R * dot o (g - f) + (dot f f - dot g g).
Proof.
  move=> o f g. rewrite !(dotBl, dotBr) (dotC K n f o) (dotC K n g o). move: (dot o o) (dot o f) (dot o g) (dot f f) (dot g g) => a b c e h. rewrite (mulrC 2%:R) mulr_natr mulr2n. kring.
Qed.
Lemma bisect : forall o1 o2 f g, dot (o1 - f) (o1 - f) - dot (o1 - g) (o1 - g) - (dot (o2 - f) (o2 - f) - dot (o2 - g) (o2 - g)) = 2%:R * dot (o1 - o2) (g - f).
Proof. move=> o1 o2 f g. rewrite !dot_sub (dotBl o1 o2). move: (dot o1 _) (dot o2 _) (dot f f - _) => a b c. rewrite !(mulrC 2%:R) !mulr_natr !mulr2n. kring. Qed.
Lemma equidistant : forall o f g, distance o f = distance o g -> dot (o - f) (o - f) = dot (o - g) (o - g).
Proof. move=> o f g E. by rewrite -!distance_sqr E. Qed.
Lemma same_bisector : forall o c f g, distance o f = distance o g -> distance c f = distance c g -> dot (o - c) (g - f) = 0.
Proof. move=> o c f g /equidistant A /equidistant B. have := bisect o c f g. rewrite A B !subrr => /esym /eqP. by rewrite mulf_eq0 pnatr_eq0 /= => /eqP. Qed.
Lemma sg_pos_mul : forall a b x y : K, 0 < x -> 0 < y -> a * x = b * y -> Num.sg a = Num.sg b.
Proof. move=> a b x y X Y E. have := congr1 Num.sg E. by rewrite !sgrM (gtr0_sg X) (gtr0_sg Y) !mulr1. Qed.
Lemma distance_ray : forall (o c nu : 'rV[K]_n) t, o - c = t *: nu -> distance c o = `|t| * Num.sqrt (dot nu nu).
Proof.
  move=> o c nu t E. rewrite distanceE -(opprB o c) E dotNl dotNr opprK dotZl dotZr mulrA -expr2 sqrtrM ?sqr_ge0 //. by rewrite sqrtr_sqr.
Qed.
Lemma distance_lt : forall o f g, (distance o f < distance o g) = (dot (o - f) (o - f) < dot (o - g) (o - g)).
Proof. move=> o f g. by rewrite -!distance_sqr ltr_sqr ?nnegrE ?sqrtr_ge0. Qed.
Lemma pair_sign : forall (c o1 o2 f p q nu : 'rV[K]_n) (b1 b2 t1 t2 : K), o1 - c = t1 *: nu -> o2 - c = t2 *: nu ->
  0 < dot nu (p - f) -> dot nu (q - f) < 0 -> dot nu (o1 - c) = b1 * dot nu (p - f) -> dot nu (o2 - c) = b2 * dot nu (q - f) ->
  distance o2 q = distance o2 f -> (0 < Num.sg b1 * distance c o1 + Num.sg b2 * distance c o2) = (distance o1 f < distance o1 q).
Proof.
  move=> c o1 o2 f p q nu b1 b2 t1 t2 E1 E2 P Q B1 B2 D2. have N : nu != 0 by apply/eqP => Z; rewrite Z /MetCot.dot big1 ?ltxx // in P => j _; rewrite mxE mul0r. have N2 := dot_gt0 nu N.
  have S1 : Num.sg b1 = Num.sg t1. { apply: (sg_pos_mul b1 t1 _ _ P N2). by rewrite -B1 E1 dotZr. }
  have S2 : Num.sg b2 = - Num.sg t2. { rewrite -sgrN. have Q' : 0 < - dot nu (q - f) by rewrite oppr_gt0. apply: (sg_pos_mul b2 (- t2) _ _ Q' N2). by rewrite mulrN -B2 E2 dotZr mulNr. }
  rewrite (distance_ray _ _ _ _ E1) (distance_ray _ _ _ _ E2) S1 S2 mulNr !mulrA -!numEsg -mulrBl pmulr_lgt0; [|by rewrite sqrtr_gt0].
  rewrite distance_lt -[RHS]subr_lt0. have := bisect o1 o2 f q. rewrite (equidistant _ _ _ D2) subrr subr0 => ->. have -> : o1 - o2 = (t1 - t2) *: nu. { rewrite scalerBl -E1 -E2 opprB addrA subrK. by []. }
  by rewrite dotZl pmulr_rlt0 ?ltr0Sn // (nmulr_llt0 _ Q).
Qed.
End Pair.

Section Top.
Variable K : rcfType.
Variables (m : nat) (rows : list SimpModel.simplex) (t : SimpModel.topology).
Hypothesis T : TopProofs.top_ok m.+1 rows t.
Variable d : nat.
Variable pos : nat -> 'rV[K]_d.
Variable PP : nat -> nat -> 'rV[K]_d.
Variable coef : nat -> nat -> nat -> K.
Hypothesis C : centres K t d m.+1 pos PP coef.
Hypothesis M1 : (1 <= m)%N.
Let Hn : Peano.le 1 m.+1. Proof. exact/ssrnat.leP. Qed.
Notation el := (OrientProofs.el t).
Notation N := (size rows).
Notation top_row := (top_row rows).
Notation nE := (SimpModel.n_elements t m).
Notation around := (around m rows t).
Notation dot := (dot K d).
Definition apex (p : nat * nat) : nat := nth 0%N (top_row p.1) p.2.

Lemma around_perm : forall e p, p \in around e -> perm_eq (top_row p.1) (apex p :: el m e).
Proof.
  move=> e p. rewrite around_in => /and3P [J Lc P]. have [Sz _] := top_inside m.+1 rows t Hn T p.1 J. have L : (p.2 < size (top_row p.1))%N by rewrite Sz.
  have Es : top_row p.1 = take p.2 (top_row p.1) ++ apex p :: drop p.2.+1 (top_row p.1) by rewrite -{1}(cat_take_drop p.2 (top_row p.1)) (drop_nth 0%N L).
  rewrite {1}Es perm_catC /= perm_cons perm_catC perm_sym. exact: P.
Qed.
Lemma around_opp : forall e j v, (j < N)%N -> perm_eq (top_row j) (v :: el m e) -> (j, index v (top_row j)) \in around e /\ apex (j, index v (top_row j)) = v.
Proof.
  move=> e j v J P. have V : v \in top_row j by rewrite (perm_mem P) mem_head. have [Sz _] := top_inside m.+1 rows t Hn T j J. have L : (index v (top_row j) < size (top_row j))%N by rewrite index_mem.
  have Ap : apex (j, index v (top_row j)) = v by exact: nth_index. split=> //. rewrite around_in J /=. rewrite -Sz L /=.
  have Es : top_row j = take (index v (top_row j)) (top_row j) ++ v :: drop (index v (top_row j)).+1 (top_row j) by rewrite -{1}(cat_take_drop (index v (top_row j)) (top_row j)) (drop_nth 0%N L) nth_index.
  move: P. rewrite {1}Es perm_catC /= perm_cons perm_sym => P. apply: (perm_trans P). by rewrite perm_catC.
Qed.
Lemma apex_notin : forall e p, p \in around e -> apex p \notin el m e.
Proof. move=> e p P. have Q := around_perm e p P. move: P. rewrite around_in => /and3P [J _ _]. have U := inside_uniq _ _ _ (top_inside m.+1 rows t Hn T p.1 J). rewrite (perm_uniq Q) /= in U. by case/andP: U. Qed.
Lemma top_centre : forall e p, p \in around e -> PP m.+1 p.1 = coef m.+1 p.1 (apex p) *: pos (apex p) + \sum_(v <- el m e) coef m.+1 p.1 v *: pos v /\ coef m.+1 p.1 (apex p) + \sum_(v <- el m e) coef m.+1 p.1 v = 1.
Proof.
  move=> e p P. have Q := around_perm e p P. have J : (p.1 < N)%N by move: P; rewrite around_in => /and3P [J _ _]. have Jn : (p.1 < SimpModel.n_elements t m.+1)%N by rewrite (n_top m.+1 rows t T). have [_ [S1 S2]] := C m.+1 p.1 (leqnn _) Jn.
  have El : SubdSpec.element t m.+1 p.1 = top_row p.1 by exact: (el_top m.+1 rows t T). rewrite El in S1 S2. by rewrite S2 -S1 !(perm_big _ Q) /= !big_cons.
Qed.
(** what the centre of a simplex and that of a facet have to do with a direction orthogonal to the facet *)
Lemma aff_dot : forall (nu x : 'rV[K]_d) (s : seq nat) (a : nat -> K), dot nu (\sum_(v <- s) a v *: pos v - (\sum_(v <- s) a v) *: x) = \sum_(v <- s) a v * dot nu (pos v - x).
Proof.
  move=> nu x s a. elim: s => [|v s IH]; [by rewrite !big_nil scale0r subr0 /MetCot.dot big1 // => j _; rewrite mxE mulr0|]. rewrite !big_cons -IH scalerDl opprD addrACA -scalerBr [LHS]dotDr dotZr. by [].
Qed.
Lemma facet_flat : forall e (nu : 'rV[K]_d) f, (e < nE)%N -> (forall v w, v \in el m e -> w \in el m e -> dot nu (pos v - pos w) = 0) -> f \in el m e -> dot nu (PP m e - pos f) = 0.
Proof.
  move=> e nu f He O F. have [_ [S1 S2]] := C m e (leqnSn m) He. have := aff_dot nu (pos f) (el m e) (coef m e). rewrite -S2 S1 scale1r => ->. rewrite big_seq big1 // => v V. by rewrite O // mulr0.
Qed.
Lemma centre_along : forall e p (nu : 'rV[K]_d) f, (e < nE)%N -> p \in around e -> (forall v w, v \in el m e -> w \in el m e -> dot nu (pos v - pos w) = 0) -> f \in el m e ->
  dot nu (PP m.+1 p.1 - PP m e) = coef m.+1 p.1 (apex p) * dot nu (pos (apex p) - pos f).
Proof.
  move=> e p nu f He P O F. have [E1 E2] := top_centre e p P. have Fl := facet_flat e nu f He O F. have -> : PP m.+1 p.1 - PP m e = (PP m.+1 p.1 - pos f) - (PP m e - pos f) by rewrite opprB addrA subrK. rewrite dotBr Fl subr0.
  have := aff_dot nu (pos f) (apex p :: el m e) (coef m.+1 p.1). rewrite !big_cons -E1 E2 scale1r => ->. rewrite [X in _ + X]big_seq [X in _ + X]big1 ?addr0 // => v V. by rewrite O // mulr0.
Qed.
(** a centre with non-zero coordinate is away from the facet *)
Lemma centre_off : forall e p, (m.+1 <= d)%N -> (e < nE)%N -> p \in around e -> measure K d m.+1 (corners K d m.+1 pos (top_row p.1)) != 0 -> coef m.+1 p.1 (apex p) != 0 -> PP m.+1 p.1 != PP m e.
Proof.
  move=> e p Dn He P Nd Nz. apply/negP => /eqP E. case/negP: Nz. have J : (p.1 < N)%N by move: P; rewrite around_in => /and3P [J _ _]. have Jn : (p.1 < SimpModel.n_elements t m.+1)%N by rewrite (n_top m.+1 rows t T). have [Sz _] := top_inside m.+1 rows t Hn T p.1 J.
  have Q := around_perm e p P. have [E1 E2] := top_centre e p P. have [Z [S1 S2]] := C m e (leqnSn m) He. have Zp : coef m e (apex p) = 0 := Z _ (apex_notin e p P).
  have := flat_or_unique K d m.+1 pos (top_row p.1) (fun v => coef m.+1 p.1 v - coef m e v) Dn Sz Nd. rewrite !(perm_big _ Q) /= !big_cons Zp subr0 !sumrB. rewrite addrA E2 S1 subrr => /(_ erefl).
  rewrite (eq_bigr (fun v => coef m.+1 p.1 v *: pos v - coef m e v *: pos v)); [|by move=> v _; rewrite scalerBl]. rewrite sumrB addrA -E1. have S2' : PP m e = \sum_(v <- el m e) coef m e v *: pos v := S2. rewrite -S2' E subrr => /(_ erefl) H.
  have := H (apex p). rewrite (perm_mem Q) mem_head Zp subr0 => /(_ isT) ->. by [].
Qed.
End Top.

Section Flat.
Variable K : rcfType.
Variables (m : nat) (rows : list SimpModel.simplex) (t : SimpModel.topology).
Hypothesis T : TopProofs.top_ok m.+1 rows t.
Variable pos : nat -> 'rV[K]_m.+1.
Variable PP : nat -> nat -> 'rV[K]_m.+1.
Variable coef : nat -> nat -> nat -> K.
Hypothesis C : centres K t m.+1 m.+1 pos PP coef.
Hypothesis Cc : circumcentred K t m.+1 m.+1 pos PP.
Hypothesis M1 : (1 <= m)%N.
Let Hn : Peano.le 1 m.+1. Proof. exact/ssrnat.leP. Qed.
Notation el := (OrientProofs.el t).
Notation N := (size rows).
Notation top_row := (top_row rows).
Notation nE := (SimpModel.n_elements t m).
Notation around := (around m rows t).
Notation apex := (apex rows).
Notation dot := (dot K m.+1).
Hypothesis Nd : forall j, (j < N)%N -> measure K m.+1 m.+1 (corners K m.+1 m.+1 pos (top_row j)) != 0.
Lemma centre_ray : forall e p (nu : 'rV[K]_m.+1) f, (e < nE)%N -> p \in around e -> (forall v w, v \in el m e -> w \in el m e -> dot nu (pos v - pos w) = 0) -> f \in el m e ->
  dot nu (pos (apex p) - pos f) != 0 -> exists tau, PP m.+1 p.1 - PP m e = tau *: nu.
Proof.
  move=> e p nu f He P O F Nz. have J : (p.1 < N)%N by move: P; rewrite around_in => /and3P [J _ _]. have Jn : (p.1 < SimpModel.n_elements t m.+1)%N by rewrite (n_top m.+1 rows t T). have [Sz _] := top_inside m.+1 rows t Hn T p.1 J.
  have Q := around_perm m rows t T e p P. have El : SubdSpec.element t m.+1 p.1 = top_row p.1 by exact: (el_top m.+1 rows t T).
  pose u := PP m.+1 p.1 - PP m e. exists (dot u (pos (apex p) - pos f) / dot nu (pos (apex p) - pos f)). set tau := _ / _. apply/eqP. rewrite -subr_eq0. apply/eqP. rewrite -/u.
  have Ou : forall v w, v \in el m e -> w \in el m e -> dot u (pos v - pos w) = 0.
  { move=> v w V W. apply: same_bisector; [|exact: (Cc m e w v (leqnSn m) He W V)]. apply: (Cc m.+1 p.1 w v (leqnn _) Jn); by rewrite El (perm_mem Q) inE ?V ?W orbT. }
  have Of : forall v, v \in top_row p.1 -> dot (u - tau *: nu) (pos v - pos f) = 0.
  { move=> v. rewrite (perm_mem Q) inE => /orP [/eqP ->|V]; [by rewrite dotBl dotZl /tau mulfVK // subrr|]. by rewrite dotBl dotZl Ou // O // mulr0 subrr. }
  apply: (orthogonal_zero K m.+1 pos (top_row p.1) _ isT Sz (Nd p.1 J)). move=> v w V W. have -> : pos v - pos w = (pos v - pos f) - (pos w - pos f) by rewrite opprB addrA subrK. by rewrite dotBr !Of // subrr.
Qed.
Lemma pair_outside : forall e p q f (nu : 'rV[K]_m.+1), (e < nE)%N -> p \in around e -> q \in around e -> f \in el m e -> (forall v w, v \in el m e -> w \in el m e -> dot nu (pos v - pos w) = 0) ->
  0 < dot nu (pos (apex p) - pos f) -> dot nu (pos (apex q) - pos f) < 0 ->
  (0 < Num.sg (coef m.+1 p.1 (apex p)) * distance K m.+1 (PP m e) (PP m.+1 p.1) + Num.sg (coef m.+1 q.1 (apex q)) * distance K m.+1 (PP m e) (PP m.+1 q.1)) =
  (distance K m.+1 (PP m.+1 p.1) (pos f) < distance K m.+1 (PP m.+1 p.1) (pos (apex q))).
Proof.
  move=> e p q f nu He P Q F O Hp Hq. have [t1 E1] := centre_ray e p nu f He P O F (lt0r_neq0 Hp). have [t2 E2] := centre_ray e q nu f He Q O F (ltr0_neq0 Hq).
  apply: (pair_sign K m.+1 (PP m e) _ _ (pos f) _ _ nu _ _ t1 t2 E1 E2 Hp Hq).
  - exact: (centre_along K m rows t T m.+1 pos PP coef C).
  - exact: (centre_along K m rows t T m.+1 pos PP coef C).
  - have Qq := around_perm m rows t T e q Q. have J : (q.1 < N)%N by move: Q; rewrite around_in => /and3P [J _ _]. have Jn : (q.1 < SimpModel.n_elements t m.+1)%N by rewrite (n_top m.+1 rows t T).
    have El : SubdSpec.element t m.+1 q.1 = top_row q.1 by exact: (el_top m.+1 rows t T). apply: (Cc m.+1 q.1 _ _ (leqnn _) Jn); rewrite El (perm_mem Qq) inE ?eqxx ?F ?orbT //.
Qed.
End Flat.
