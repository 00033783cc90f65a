(** Properties C83: pick_primal finds the simplex of a point, sample_primal_0 interpolates; C84: pick_dual finds the dual cell. *)
From mathcomp Require Import all_ssreflect all_algebra.
From Verif Require Import GeoModel MetModel MetSpec MetAff MetSum MetProofs MetVol MetCot MetWit MetProps DelModel DelSpec DelProofs DelFree DelGeo DelProps TreeModel TreeSpec TreeProofs TreeTop TreeGeo TreeMain.
From Verif Require Util SimpModel SimpSpec SimpProps DualProps BdryModel BdrySpec SelProofs SubdModel SubdSpec TopProofs OrientProofs SurfProofs.
Import Order.TTheory GRing.Theory Num.Theory.
Local Open Scope nat_scope.
Local Open Scope ring_scope.

Section Props.
Variable K : rcfType.
Variable sat : list (BinNums.Z * BinNums.Z) -> option (list BinNums.Z).
Variable row_leb : SimpModel.simplex -> SimpModel.simplex -> bool.
Variable nearest : forall k, seq 'rV[K]_k -> 'rV[K]_k -> nat.
Variable minres : forall N, 'M[K]_N -> 'cV[K]_N -> 'cV[K]_N.
Notation element := SubdSpec.element.
Notation n_elements := SimpModel.n_elements.
Notation volume_of t k e d pos := (content K d k (corners K d k pos (element t k e))).

(** C83.  In a connected, oriented mesh whose simplices have empty spheres, a point of simplex j is found in a simplex i that
    has it, with the same coordinates.  What is missing for the full claim: meshes that are merely pairwise Delaunay; see
    C83_components_refuted for meshes of several parts. *)
Theorem C83_primal_partial : forall n rows t pos wt PP coef bary p guess j b,
  BdrySpec.sat_contract sat -> nearest_contract K nearest -> minres_contract K minres ->
  SimpSpec.simplices_ok n rows -> SimpModel.from_simplices row_leb n rows = Util.Ok t -> (2 <= n)%N -> BdrySpec.at_most_two n rows ->
  BdryModel.is_oriented sat t = Util.Ok true -> BdrySpec.connected n rows ->
  centres K t n n pos PP coef -> power_centred K t n n pos wt PP -> (forall i, (i < n_elements t n)%N -> volume_of t n i n pos != 0) ->
  is_pairwise_delaunay K t n PP bary -> empty_spheres K t n n pos wt PP ->
  within K t n n pos j b p -> (if guess is Some g then g < n_elements t n else true)%N ->
  exists i, pick_primal K sat row_leb nearest minres t n pos PP bary p guess true = Util.Ok (i, \row_c b (nth 0%N (element t n i) c)) /\ within K t n n pos i b p.
Proof.
  move=> n rows t pos wt PP coef bary p guess j b SC Nc Mc OK HT N2 AM Or Co C Pc Nd De Em Wj Hg. have [Hn T] := TopProofs.from_simplices_top_ok row_leb n rows t OK HT.
  case: n N2 pos PP p OK HT AM Co C Pc Nd De Em Wj Hg T Hn => [|[|m]] // N2 pos PP p OK HT AM Co C Pc Nd De Em Wj Hg T Hn. have El : forall j, element t m.+2 j = top_row rows j by exact: (el_top m.+2 rows t T). have Nt := n_top m.+2 rows t T.
  have Nd' : forall j, (j < size rows)%N -> measure K m.+2 m.+2 (corners K m.+2 m.+2 pos (top_row rows j)) != 0 by move=> i I; rewrite measure_content // -El; apply: Nd; rewrite Nt.
  rewrite /pick_primal De /= (bases_ok K m rows t pos T Nd') /=. have J : (j < size rows)%N by case: Wj => J _ _ _ _; rewrite -Nt. have nd : BdryModel.n_dim t = m.+2 := OrientProofs.top_n_dim m.+2 rows t T.
  pose pts := dual_vertices K t m.+2 PP. pose W := dual_weights K sat row_leb minres t m.+2 PP bary. have Sp : size pts = size rows by rewrite size_map size_iota nd Nt. have Sw : size W = size rows by exact: (W_size K sat row_leb minres m rows t m.+2 PP bary OK HT).
  have [Li M] := nearest_power K m.+2 nearest pts W p Nc (etrans Sw (esym Sp)) (eq_ind_r (fun x => 0 < x)%N (leq_ltn_trans (leq0n j) J) Sp). rewrite /query_index -/pts -/W. move: (nearest (m.+2 + 1)%N _ _) Li M => i Li M. rewrite Sp in Li M.
  have Wi : within K t m.+2 m.+2 pos i b p.
  { apply: (support K m rows t pos wt PP T Pc Em i j b p Li Wj). have Wc := W_const K sat row_leb minres m rows t m.+2 pos wt PP coef bary SC Mc OK HT AM Or C Pc Co. have := M j J. rewrite -/W in Wc. have Pn : forall k, (k < size rows)%N -> nth 0 pts k = PP m.+2 k by move=> k Lk; rewrite (nth_map 0%N) ?size_iota nd ?Nt // nth_iota.
    rewrite !Pn // (Wc i Li) (Wc j J) /pow. move: (nth 0 W 0 - _) (rad _ _ _ _ _ _ _ i) (rad _ _ _ _ _ _ _ j) => x y z. by rewrite ![_ + x]addrC !opprD ![- x + _]addrC !addrA ler_add2r. }
  have Cw : forall k b', within K t m.+2 m.+2 pos k b' p -> homogenize K m.+2 p *m invmx (simplex_corners K t m.+2 pos k) = \row_c b' (nth 0%N (element t m.+2 k) c). { move=> k b' Wk. rewrite (coordinates_within K m rows t pos T Nd' p k b' Wk). by apply/rowP => c; rewrite !mxE El. }
  have Fin : forall k, within K t m.+2 m.+2 pos k b p -> (\sum_c (\row_c b (nth 0%N (element t m.+2 k) c) : 'rV[K]_(m.+2 + 1)) 0 c)^-1 *: (\row_c b (nth 0%N (element t m.+2 k) c) : 'rV[K]_(m.+2 + 1)) = \row_c b (nth 0%N (element t m.+2 k) c).
  { move=> k Wk. rewrite -(Cw k b Wk). have Lk : (k < size rows)%N by case: Wk => Lk _ _ _ _; rewrite -Nt. have [S1 _] := coordinates_ok K m rows t pos T Nd' p k Lk. rewrite S1 invr1 scale1r. by []. }
  case: guess Hg => [g|_]; [|by exists i; rewrite (Cw i b Wi) /= Fin]. rewrite Nt nd => Lg. have Lg' : (n_elements t m.+2 <= g)%N = false by rewrite Nt leqNgt Lg. rewrite Lg'. case: existsP => [_|Ng] /=; [by exists i; rewrite (Cw i b Wi) /= Fin|]. exists g.
  have B0 : forall c, 0 <= (homogenize K m.+2 p *m invmx (simplex_corners K t m.+2 pos g)) 0 c by move=> c; rewrite leNgt; apply/negP => X; apply: Ng; exists c.
  have Wg : within K t m.+2 m.+2 pos g b p. { apply: (support K m rows t pos wt PP T Pc Em g j b p Lg Wj). exact: (pow_le K m rows t pos wt PP T Pc Em j g _ p J (kept K m rows t pos T Nd' p g Lg B0)). } by rewrite (Cw g b Wg) /= Fin.
Qed.
(** Sampling gives the linear interpolation of the values at the corners. *)
Theorem C83_sample_partial : forall n rows t pos wt PP coef bary p p0 j b,
  BdrySpec.sat_contract sat -> nearest_contract K nearest -> minres_contract K minres ->
  SimpSpec.simplices_ok n rows -> SimpModel.from_simplices row_leb n rows = Util.Ok t -> (2 <= n)%N -> BdrySpec.at_most_two n rows ->
  BdryModel.is_oriented sat t = Util.Ok true -> BdrySpec.connected n rows ->
  centres K t n n pos PP coef -> power_centred K t n n pos wt PP -> (forall i, (i < n_elements t n)%N -> volume_of t n i n pos != 0) ->
  is_pairwise_delaunay K t n PP bary -> empty_spheres K t n n pos wt PP -> within K t n n pos j b p ->
  sample_primal_0 K sat row_leb nearest minres t n pos PP bary p0 p = Util.Ok (\sum_(v <- element t n j) b v * p0 v).
Proof.
  move=> n rows t pos wt PP coef bary p p0 j b SC Nc Mc OK HT N2 AM Or Co C Pc Nd De Em Wj. have [i [E Wi]] := C83_primal_partial n rows t pos wt PP coef bary p None j b SC Nc Mc OK HT N2 AM Or Co C Pc Nd De Em Wj isT. rewrite /sample_primal_0 E /=. congr Util.Ok.
  have [Hn T] := TopProofs.from_simplices_top_ok row_leb n rows t OK HT. case: n N2 pos PP p OK HT AM Co C Pc Nd De Em Wj E Wi T Hn => [|[|m]] // N2 pos PP p OK HT AM Co C Pc Nd De Em Wj E Wi T Hn. have El : forall j, element t m.+2 j = top_row rows j by exact: (el_top m.+2 rows t T). have Nt := n_top m.+2 rows t T.
  have I : (i < size rows)%N by case: Wi => I _ _ _ _; rewrite -Nt. have J : (j < size rows)%N by case: Wj => J _ _ _ _; rewrite -Nt.
  transitivity (\sum_(v <- top_row rows i) b v * p0 v); [rewrite -(over_corners m rows t T _ (fun v => b v * p0 v) i I); apply: eq_bigr => c _; rewrite (corner_nth m rows t T) mxE El mulrC; by []|].
  case: Wi Wj => [_ _ Zi _ _] [_ _ Zj _ _]. rewrite El in Zi. rewrite El in Zj. rewrite El. have Ui : forall k, (k < size rows)%N -> uniq (top_row rows k) by move=> k Lk; exact: (inside_uniq _ _ _ (top_inside m.+2 rows t Hn T k Lk)). have U : uniq (undup (top_row rows i ++ top_row rows j)) by exact: undup_uniq.
  rewrite -(sum_sub _ (fun v => b v * p0 v) (undup (top_row rows i ++ top_row rows j)) (top_row rows i) U (Ui i I)); [|by move=> v; rewrite mem_undup mem_cat => ->|by move=> v V; rewrite Zi ?mul0r]. apply: sum_sub => //; [exact: Ui|by move=> v; rewrite mem_undup mem_cat orbC => ->|by move=> v V; rewrite Zj ?mul0r].
Qed.
(** C84.  pick_dual finds the vertex of least power: without weights, the closest vertex. *)
Theorem C84_dual : forall n rows t pos PP weights p, nearest_contract K nearest ->
  SimpSpec.simplices_ok n rows -> SimpModel.from_simplices row_leb n rows = Util.Ok t -> (2 <= n)%N ->
  (forall i, (i < n_elements t n)%N -> volume_of t n i n pos != 0) ->
  (if weights is Some w then size w = n_elements t 0 else True) ->
  exists v, pick_dual K nearest t n pos weights PP p = Util.Ok v /\ (v < n_elements t 0)%N /\
    forall u, (u < n_elements t 0)%N -> let wt u := if weights is Some w then nth 0 w u else 0 in power K n (PP 0%N) wt p v <= power K n (PP 0%N) wt p u.
Proof.
  move=> n rows t pos PP weights p Nc OK HT N2 Nd Hw. have [Hn T] := TopProofs.from_simplices_top_ok row_leb n rows t OK HT. case: n N2 pos PP p OK HT Nd T Hn => [|[|m]] // N2 pos PP p OK HT Nd T Hn. have El : forall j, element t m.+2 j = top_row rows j by exact: (el_top m.+2 rows t T). have Nt := n_top m.+2 rows t T.
  have Nd' : forall j, (j < size rows)%N -> measure K m.+2 m.+2 (corners K m.+2 m.+2 pos (top_row rows j)) != 0 by move=> i I; rewrite measure_content // -El; apply: Nd; rewrite Nt.
  have P0 : (0 < n_elements t 0)%N. { exact/ssrnat.ltP/(TopProofs.n_elements_pos m.+2 rows t Hn T 0%N (PeanoNat.Nat.le_0_l _)). }
  rewrite /pick_dual (bases_ok K m rows t pos T Nd') /=. set pts := [seq PP 0%N v | v <- iota 0 (n_elements t 0)]. have Sp : size pts = n_elements t 0 by rewrite size_map size_iota. have Pn : forall k, (k < n_elements t 0)%N -> nth 0 pts k = PP 0%N k by move=> k Lk; rewrite (nth_map 0%N) ?size_iota // nth_iota.
  have Pp : (0 < size pts)%N by rewrite Sp. case: weights Hw => [w Sw|_].
  - have [L M] := nearest_power K m.+2 nearest pts w p Nc (etrans Sw (esym Sp)) Pp. eexists. split; [reflexivity|]. rewrite Sp in L M. split=> // u Lu. have := M u Lu. by rewrite !Pn // /power !distance_sqr.
  - have [L M] := nearest_plain K m.+2 nearest pts p Nc Pp. eexists. split; [reflexivity|]. rewrite Sp in L M. split=> // u Lu. have := M u Lu. by rewrite !Pn // /power !distance_sqr !subr0.
Qed.
End Props.
Print Assumptions C83_primal_partial.
Print Assumptions C83_sample_partial.
Print Assumptions C84_dual.

(** ** Witnesses *)
Section Witness.
Variable K : rcfType.
Variables (t : SimpModel.topology) (n V d : nat) (zs : seq (seq int)) (nums : seq (seq (seq int))) (dens : seq (seq nat)).
Notation element := SubdSpec.element.
Definition check_spheres : bool := all (fun j => (0 < den dens n j)%N && all (fun i => all (fun v => all (fun w => (w \notin element t n j) ==>
  (MetWit.gap V d zs nums dens n j v < MetWit.gap V d zs nums dens n j w)) (element t n i)) (element t n j)) (iota 0 (SimpModel.n_elements t n))) (iota 0 (SimpModel.n_elements t n)).
Lemma wit_spheres : check_spheres -> empty_spheres K t n d (wit_pos d zs K) (fun=> 0) (wit_PP V d zs nums dens K).
Proof.
  move=> /allP Ch j i v w J I Mv Mw Off. rewrite /power !subr0. have := Ch j. rewrite mem_iota J => /(_ isT) /andP [D /allP] /(_ i). rewrite mem_iota I => /(_ isT) /allP /(_ v Mv) /allP /(_ w Mw). rewrite Off /= => G.
  have G0 : forall u, 0 <= MetWit.gap V d zs nums dens n j u by move=> u; rewrite /MetWit.gap addz_big big_map; apply: sumr_ge0 => q _; exact: sqr_ge0.
  rewrite ltr_sqr ?nnegrE ?sqrtr_ge0 // !wit_gap //. have P : (0 : K) < (den dens n j)%:R ^+ 2 by rewrite exprn_gt0 // ltr0n. rewrite ltr_sqrt; [|by apply: divr_gt0; [rewrite ltr0z; exact: (le_lt_trans (G0 v) G)|]]. by rewrite ltr_pmul2r ?invr_gt0 // ltr_int.
Qed.
Lemma plain_centred : forall pos PP, circumcentred K t d n pos PP -> power_centred K t n d pos (fun=> 0) PP.
Proof. move=> pos PP Cc k e v w Hk He Mv Mw. by rewrite /power (Cc k e v w Hk He Mv Mw). Qed.
End Witness.
(** two triangles apart from each other: (-4,-3) (4,-3) (0,5) with radius 5 and (-7,-4) (-5,-4) (-6,-2) with radius 5/4 *)
Definition isles_rows : list SimpModel.simplex := [:: [:: 0; 1; 2]; [:: 3; 4; 5]]%N.
Definition isles_t : SimpModel.topology := Eval vm_compute in match SimpModel.from_simplices SimpProps.lex_leb 2 isles_rows with Util.Ok t => t | _ => SimpModel.mkTop [::] [::] [::] end.
Definition isles_zs : seq (seq int) := [:: [:: - 4%:Z; - 3%:Z]; [:: 4%:Z; - 3%:Z]; [:: 0; 5%:Z]; [:: - 7%:Z; - 4%:Z]; [:: - 5%:Z; - 4%:Z]; [:: - 6%:Z; - 2%:Z]].
Definition isles_nums : seq (seq (seq int)) := [:: unit_rows 6;
  [:: [:: 1; 1; 0; 0; 0; 0]; [:: 1; 0; 1; 0; 0; 0]; [:: 0; 1; 1; 0; 0; 0]; [:: 0; 0; 0; 1; 1; 0]; [:: 0; 0; 0; 1; 0; 1]; [:: 0; 0; 0; 0; 1; 1]];
  [:: [:: 5%:Z; 5%:Z; 6%:Z; 0; 0; 0]; [:: 0; 0; 0; 5%:Z; 5%:Z; 6%:Z]]].
Definition isles_dens : seq (seq nat) := [:: nseq 6 1; nseq 6 2; nseq 2 16]%N.
Lemma isles_from : SimpModel.from_simplices SimpProps.lex_leb 2 isles_rows = Util.Ok isles_t. Proof. by vm_compute. Qed.
Lemma isles_check : check_all isles_t 2 6 2 isles_zs isles_nums isles_dens. Proof. by vm_compute. Qed.
Lemma isles_facets : check_facets isles_t isles_rows 0 6 2 isles_zs isles_nums isles_dens 32. Proof. by vm_compute. Qed.
Lemma isles_spheres : check_spheres isles_t 2 6 2 isles_zs isles_nums isles_dens. Proof. by vm_compute. Qed.
Lemma isles_single : all (fun e => size (around 1 isles_rows isles_t e) == 1)%N (iota 0 (SimpModel.n_elements isles_t 1)). Proof. by vm_compute. Qed.
Lemma isles_ok : SimpSpec.simplices_ok 2 isles_rows.
Proof. split=> //. repeat (apply: List.Forall_cons; [split=> //; by apply/NoDupE|]). by []. Qed.
Lemma none_mx : forall (R : ringType) a b c (A : 'M[R]_(a, b)) (B : 'M[R]_(a, c)), a = 0%N -> A^T *m B = 0.
Proof. move=> R a b c A B E. apply/matrixP => i j. rewrite !mxE. by apply: big1 => k _; have := ltn_ord k; rewrite {2}E. Qed.
Lemma mean_zero : forall (F : fieldType) N, (0 : 'cV[F]_N) - const_mx ((\sum_j (0 : 'cV[F]_N) j 0) / N%:R) = 0.
Proof. move=> F N. apply/matrixP => i k. rewrite !mxE big1 ?mul0r ?subr0 // => q _. by rewrite mxE. Qed.
Lemma zero_nth : forall (F : fieldType) N (w : 'cV[F]_N) k, w = 0 -> nth 0 [seq w j 0 | j <- enum 'I_N] k = 0.
Proof. move=> F N w k ->. elim: (enum 'I_N) k => [|x l IH] [|k] //=. by rewrite mxE. Qed.

Section Isles.
Variable K : rcfType.
Variable sat : list (BinNums.Z * BinNums.Z) -> option (list BinNums.Z).
Variable nearest : forall k, seq 'rV[K]_k -> 'rV[K]_k -> nat.
Variable minres : forall N, 'M[K]_N -> 'cV[K]_N -> 'cV[K]_N.
(** Of several parts only the differences of offsets within a part are determined: a corner of one triangle is found in the other. *)
Theorem C83_components_refuted : BdrySpec.sat_contract sat -> BdryModel.is_oriented sat isles_t = Util.Ok true -> nearest_contract K nearest -> minres_contract K minres ->
  SimpSpec.simplices_ok 2 isles_rows /\ SimpModel.from_simplices SimpProps.lex_leb 2 isles_rows = Util.Ok isles_t /\ BdrySpec.at_most_two 2 isles_rows /\
  exists pos PP coef bary b p c, centres K isles_t 2 2 pos PP coef /\ circumcentred K isles_t 2 2 pos PP /\
    (forall j, (j < SimpModel.n_elements isles_t 2)%N -> content K 2 2 (corners K 2 2 pos (SubdSpec.element isles_t 2%N j)) != 0) /\
    (forall k e c, bary k e c = coef k e (nth 0%N (SubdSpec.element isles_t k e) c)) /\ is_pairwise_delaunay K isles_t 2 PP bary /\
    empty_spheres K isles_t 2 2 pos (fun=> 0) PP /\ within K isles_t 2 2 pos 0 b p /\
    pick_primal K sat SimpProps.lex_leb nearest minres isles_t 2 pos PP bary p None true = Util.Ok (1%N, c) /\
    forall b', ~ within K isles_t 2 2 pos 1 b' p.
Proof.
  move=> SC Or Nc Mc. split; [exact: isles_ok|]. split; [exact: isles_from|]. have AM : BdrySpec.at_most_two 2 isles_rows by exact: two_rows. split; [exact: AM|]. have [Hn T] := TopProofs.from_simplices_top_ok SimpProps.lex_leb 2 _ _ isles_ok isles_from.
  pose pos := wit_pos 2 isles_zs K. pose PP := wit_PP 6 2 isles_zs isles_nums isles_dens K. pose coef := wit_coef isles_nums isles_dens K. pose bary := fun k j c => coef k j (nth 0%N (SubdSpec.element isles_t k j) c).
  have C : centres K isles_t 2 2 pos PP coef := wit_centres isles_t 2 6 2 isles_zs isles_nums isles_dens isles_check K. have Cc : circumcentred K isles_t 2 2 pos PP := wit_circumcentred isles_t 2 6 2 isles_zs isles_nums isles_dens isles_check K.
  have De : is_pairwise_delaunay K isles_t 2 PP bary := wit_delaunay K isles_t isles_rows 0 6 2 isles_zs isles_nums isles_dens T 32 isles_facets.
  have Es := wit_spheres K isles_t 2 6 2 isles_zs isles_nums isles_dens isles_spheres. have El : forall j, SubdSpec.element isles_t 2%N j = top_row isles_rows j by exact: (el_top 2 isles_rows isles_t T).
  have Ar : forall j, (j < 2)%N -> content K 2 2 (corners K 2 2 pos (SubdSpec.element isles_t 2%N j)) != 0.
  { move=> j Lj. rewrite content_z SurfProofs.det22 !mxE -!(rmorphM [rmorphism of intmul (1 : K)], rmorphB [rmorphism of intmul (1 : K)], rmorphD [rmorphism of intmul (1 : K)]) /=.
    set g := (X in `|X%:~R|). have -> : g = (nth 0%N [:: 64; 4]%N j)%:Z ^+ 2 by rewrite /g; clear g; move: j Lj => [|[|]] // _; vm_compute. rewrite sqrt_z mulf_neq0 ?invr_eq0 ?pnatr_eq0 //. clear g. by move: j Lj => [|[|]]. }
  pose b := fun v : nat => (v == 0%N)%:R : K. pose p := PP 0%N 0%N.
  have Pp : p = pos 0%N. { apply/rowP => q. rewrite !mxE. have -> : zc 6 isles_zs isles_nums 0 0 q = zpos isles_zs 0 q by move: q => [[|[|]] //= L]; vm_compute. by rewrite -[den isles_dens 0 0]/1%N divr1. }
  have Wp : within K isles_t 2 2 pos 0 b p. { split=> //; rewrite ?El. - by move=> v _; exact: ler0n. - by move=> v; rewrite /b; case: eqP => // ->. - by rewrite !big_cons big_nil /b /= !addr0. - by rewrite !big_cons big_nil /b /= scale1r !scale0r !addr0 Pp. }
  have Nd' : forall j, (j < size isles_rows)%N -> measure K 2 2 (corners K 2 2 pos (top_row isles_rows j)) != 0 by move=> i I; rewrite measure_content // -El; apply: Ar.
  have nd : BdryModel.n_dim isles_t = 2%N by []. pose pts := dual_vertices K isles_t 2 PP. pose W := dual_weights K sat SimpProps.lex_leb minres isles_t 2 PP bary.
  have Sr : SimpModel.nrows (BdryModel.selector_interior SimpProps.lex_leb sat isles_t (BdryModel.n_dim isles_t - 1)) = 0%N.
  { rewrite (sel_rows sat SimpProps.lex_leb 0 isles_rows isles_t isles_ok isles_from). apply/eqP. rewrite size_eq0. apply/eqP. case E : (TreeSel.inner _ _ _ _) => [//|e l].
    have [|He [x [y [Ne Pm]]]] := inner_pair sat SimpProps.lex_leb 0 isles_rows isles_t SC isles_ok isles_from AM Or e; [by rewrite E mem_head|]. move/allP: isles_single => /(_ e). rewrite mem_iota He => /(_ isT). by rewrite (perm_size Pm). }
  have W0 : forall j, (j < 2)%N -> nth 0 W j = 0.
  { move=> j Lj. rewrite /W /dual_weights. set L := (X in minres _ X). set r := (X in minres _ _ X). have Sy : L^T = L by rewrite /L trmx_mul trmxK. have r0 : r = 0. { rewrite /r !(none_mx _ _ _ _ _ _ Sr). exact: mean_zero. }
    have [_ Z] := Mc _ L r Sy. exact: (zero_nth _ _ _ _ (Z r0)). }
  have Sw : size W = 2%N by rewrite size_map size_enum_ord. have Sp : size pts = 2%N by rewrite size_map size_iota. have [Li M] := nearest_power K 2 nearest pts W p Nc (etrans Sw (esym Sp)) (eq_ind_r (fun x => 0 < x)%N (ltn0Sn 1) Sp).
  have Q : query_index K sat SimpProps.lex_leb nearest minres isles_t 2 PP bary true p = 1%N.
  { rewrite /query_index -/pts -/W. move: (nearest (2 + 1)%N _ _) Li M => i Li M. rewrite Sp in Li M. have P0 : nth 0 pts 0 = PP 2%N 0%N by []. have P1 : nth 0 pts 1 = PP 2%N 1%N by []. clear -Li M W0 P0 P1. clearbody pts W. case: i Li M => [|[|//]] Li M; [|by []]. have := M 1%N isT. rewrite !W0 // P0 P1 !subr0 -!distance_sqr.
    rewrite ![distance K 2 p _]distance_sym !wit_between // -[den isles_dens 2 0]/16%N -[den isles_dens 2 1]/16%N ler_pmul2r ?ler_int //. by rewrite invr_gt0 exprn_gt0 // ltr0n. }
  exists pos, PP, coef, bary, b, p. eexists. split; [exact: C|]. split; [exact: Cc|]. split; [exact: Ar|]. split; [by []|]. split; [exact: De|]. split; [exact: Es|]. split; [exact: Wp|]. split.
  - rewrite /pick_primal Q De (bases_ok K 0 isles_rows isles_t pos T Nd'). reflexivity.
  - move=> b' [_ B0 _ S1 E]. rewrite El in B0 S1 E. move/rowP: E => /(_ 0). rewrite Pp !big_cons big_nil !mxE /= addr0. rewrite !big_cons big_nil /= addr0 in S1. move=> E. have B : forall v (x : int), v \in [:: 3; 4; 5]%N -> x <= - 5%:Z -> b' v * x%:~R <= b' v * (- 5%:Z)%:~R by move=> v x Mv Lx; apply: ler_wpmul2l; [exact: B0|rewrite ler_int].
    have : (- 4%:Z)%:~R <= (- 5%:Z)%:~R :> K. { have E5 : (- 5%:Z)%:~R = (b' 3%N + (b' 4%N + b' 5%N)) * (- 5%:Z)%:~R by rewrite S1 mul1r. rewrite [X in X <= _](E) [X in _ <= X]E5 !mulrDl. clear -B. by apply: ler_add; [apply: B|apply: ler_add; apply: B]. } by rewrite ler_int.
Qed.
End Isles.
Print Assumptions C83_components_refuted.

Example C83_components_example : BdryModel.is_oriented SelProofs.brute_sat isles_t = Util.Ok true. Proof. by vm_compute. Qed.
Lemma rhomb_spheres : check_spheres rhomb_t 2 4 2 rhomb_zs rhomb_nums rhomb_dens. Proof. by vm_compute. Qed.
Lemma rhomb_facets : check_facets rhomb_t rhomb_rows 0 4 2 rhomb_zs rhomb_nums rhomb_dens 72. Proof. by vm_compute. Qed.
(** The two triangles of C82_example meet all hypotheses; the centroid of the first is found there and a function is averaged. *)
Example C83_example : forall K : rcfType,
  BdrySpec.sat_contract SelProofs.brute_sat /\ nearest_contract K (scan K) /\ minres_contract K (least K) /\
  SimpSpec.simplices_ok 2 rhomb_rows /\ SimpModel.from_simplices SimpProps.lex_leb 2 rhomb_rows = Util.Ok rhomb_t /\ BdrySpec.at_most_two 2 rhomb_rows /\
  BdryModel.is_oriented SelProofs.brute_sat rhomb_t = Util.Ok true /\ BdrySpec.connected 2 rhomb_rows /\
  exists pos PP coef bary p, let b := fun v : nat => if (v < 3)%N then 3%:R^-1 else 0 : K in
    centres K rhomb_t 2 2 pos PP coef /\ power_centred K rhomb_t 2 2 pos (fun=> 0) PP /\
    (forall i, (i < SimpModel.n_elements rhomb_t 2)%N -> content K 2 2 (corners K 2 2 pos (SubdSpec.element rhomb_t 2 i)) != 0) /\
    is_pairwise_delaunay K rhomb_t 2 PP bary /\ empty_spheres K rhomb_t 2 2 pos (fun=> 0) PP /\ within K rhomb_t 2 2 pos 0 b p /\
    (forall p0, sample_primal_0 K SelProofs.brute_sat SimpProps.lex_leb (scan K) (least K) rhomb_t 2 pos PP bary p0 p = Util.Ok ((p0 0%N + p0 1%N + p0 2%N) / 3%:R)).
Proof.
  move=> K. split; [exact: SelProofs.brute_sat_contract|]. split; [exact: scan_contract|]. split; [exact: least_contract|]. split; [exact: rhomb_ok|]. split; [exact: rhomb_from|]. have AM : BdrySpec.at_most_two 2 rhomb_rows by exact: two_rows. split; [exact: AM|].
  have Or : BdryModel.is_oriented SelProofs.brute_sat rhomb_t = Util.Ok true by vm_compute. split; [exact: Or|]. have Co : BdrySpec.connected 2 rhomb_rows. { apply: DualProps.connectedb_ok; [exact/ssrnat.leP|exact: rhomb_ok|by vm_compute]. } split; [exact: Co|].
  have [Hn T] := TopProofs.from_simplices_top_ok SimpProps.lex_leb 2 _ _ rhomb_ok rhomb_from.
  pose pos := wit_pos 2 rhomb_zs K. pose PP := wit_PP 4 2 rhomb_zs rhomb_nums rhomb_dens K. pose coef := wit_coef rhomb_nums rhomb_dens K. pose bary := fun k j c => coef k j (nth 0%N (SubdSpec.element rhomb_t k j) c).
  have C : centres K rhomb_t 2 2 pos PP coef := wit_centres rhomb_t 2 4 2 rhomb_zs rhomb_nums rhomb_dens rhomb_check K. have Cc : circumcentred K rhomb_t 2 2 pos PP := wit_circumcentred rhomb_t 2 4 2 rhomb_zs rhomb_nums rhomb_dens rhomb_check K.
  have De : is_pairwise_delaunay K rhomb_t 2 PP bary := wit_delaunay K rhomb_t rhomb_rows 0 4 2 rhomb_zs rhomb_nums rhomb_dens T 72 rhomb_facets. have Es := wit_spheres K rhomb_t 2 4 2 rhomb_zs rhomb_nums rhomb_dens rhomb_spheres. have Pc := plain_centred K rhomb_t 2 2 pos PP Cc.
  have Ar : forall j, (j < SimpModel.n_elements rhomb_t 2)%N -> content K 2 2 (corners K 2 2 pos (SubdSpec.element rhomb_t 2%N j)) != 0 by move=> j J; rewrite (rhomb_area K j J) pnatr_eq0.
  have El : SubdSpec.element rhomb_t 2%N 0 = [:: 0; 1; 2]%N by []. exists pos, PP, coef, bary, (\sum_(v <- [:: 0; 1; 2]%N) (if (v < 3)%N then 3%:R^-1 else 0) *: pos v) => b. have W : within K rhomb_t 2 2 pos 0 b (\sum_(v <- [:: 0; 1; 2]%N) (if (v < 3)%N then 3%:R^-1 else 0) *: pos v).
  { split=> //; rewrite ?El. - by move=> v; rewrite /b; case: ifP => // _ _; rewrite invr_ge0 ler0n. - by move=> v; rewrite /b; case: ifP => //; case: v => [|[|[|]]]. - rewrite !big_cons big_nil /b /= addr0. by rewrite -mulr2n -mulrS -[X in X *+ _]mulr1 -mulrnAr mulVf // pnatr_eq0. }
  do 6 (split; [assumption|]). move=> p0. rewrite (C83_sample_partial K SelProofs.brute_sat SimpProps.lex_leb (scan K) (least K) 2 rhomb_rows rhomb_t pos (fun=> 0) PP coef bary _ p0 0%N b SelProofs.brute_sat_contract (scan_contract K) (least_contract K) rhomb_ok rhomb_from isT AM Or Co C Pc Ar De Es W).
  congr Util.Ok. rewrite El !big_cons big_nil /b /= addr0 !mulrDl addrA. by rewrite ![3%:R^-1 * _]mulrC.
Qed.
(** The corner (2,-3) of these triangles is closest to itself. *)
Example C84_example : forall K : rcfType, exists pos PP,
  (forall i, (i < SimpModel.n_elements rhomb_t 2)%N -> content K 2 2 (corners K 2 2 pos (SubdSpec.element rhomb_t 2 i)) != 0) /\
  pick_dual K (scan K) rhomb_t 2 pos None PP (PP 0%N 3%N) = Util.Ok 3%N.
Proof.
  move=> K. pose pos := wit_pos 2 rhomb_zs K. pose PP := wit_PP 4 2 rhomb_zs rhomb_nums rhomb_dens K. exists pos, PP.
  have Ar : forall j, (j < SimpModel.n_elements rhomb_t 2)%N -> content K 2 2 (corners K 2 2 pos (SubdSpec.element rhomb_t 2%N j)) != 0 by move=> j J; rewrite (rhomb_area K j J) pnatr_eq0. split; [exact: Ar|].
  have [v [-> [Lv M]]] := C84_dual K SimpProps.lex_leb (scan K) 2 rhomb_rows rhomb_t pos PP None (PP 0%N 3%N) (scan_contract K) rhomb_ok rhomb_from isT Ar I. congr Util.Ok. have := M 3%N isT. rewrite /= /power !subr0.
  have Dn : forall u, (u < 4)%N -> den rhomb_dens 0 u = 1%N by move=> [|[|[|[|]]]]. rewrite !wit_between ?Dn // !muln1 expr1n !divr1 ler_int. clear -Lv. by move: v Lv => [|[|[|[|]]]].
Qed.
