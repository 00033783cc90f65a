(** Properties C80 and C81: the metric of a simplicial complex and the cotangent formula. *)
From mathcomp Require Import all_ssreflect all_algebra.
From Verif Require Import GeoModel MetModel MetSpec MetAff MetSum MetProofs MetVol MetCot MetEdge MetWit.
From Verif Require Util SimpModel SimpSpec SimpProps BdryModel SelProofs SubdModel SubdSpec ParProofs TopProofs OrientProofs FundProofs SurfProofs.
Import Order.TTheory GRing.Theory Num.Theory.
Local Open Scope nat_scope.
Local Open Scope ring_scope.

Section Props.
Variable K : rcfType.
Variable sat : list (BinNums.Z * BinNums.Z) -> option (list BinNums.Z).
Variable row_leb : SimpModel.simplex -> SimpModel.simplex -> bool.
Notation element := SubdSpec.element.
Notation n_elements := SimpModel.n_elements.
Notation volume_of t k e d pos := (content K d k (corners K d k pos (element t k e))).

Lemma measure_content : forall d k (pts : 'M[K]_(k.+1, d)), (k <= d)%N -> measure K d k pts = content K d k pts.
Proof.
  move=> d k pts L. rewrite /measure /unsigned_volume ltnNge L /=. case: eqP => [E|_].
  - subst k. by rewrite /content det_mx00 normr1 sqrtr1 divr1.
  - rewrite /content. congr (Num.sqrt `|\det _| / _). apply/matrixP => i j. rewrite !mxE. apply: eq_bigr => q _. by rewrite !mxE.
Qed.
Lemma nth_table : forall (x : seq K) (F : nat -> seq K) n k, (1 <= k <= n)%N -> nth [::] (x :: [seq F i | i <- iota 1 n]) k = F k.
Proof. move=> x F n [|k] // /andP [_ L]. by rewrite /= (nth_map 0%N) ?size_iota // nth_iota // add1n. Qed.
Lemma nth_entry : forall (F : nat -> K) n k, (k < n)%N -> nth 0 [seq F i | i <- iota 0 n] k = F k.
Proof. move=> F n k L. by rewrite (nth_map 0%N) ?size_iota // nth_iota. Qed.

(** C80.  One number for every element and one for every dual element; those of the vertices and of the dual vertices are 1. *)
Theorem C80_shape : forall n rows t d PP bary PM DM, SimpSpec.simplices_ok n rows -> SimpModel.from_simplices row_leb n rows = Util.Ok t ->
  metric K sat t d PP bary = Util.Ok (PM, DM) ->
  size PM = n.+1 /\ size DM = n.+1 /\ (forall k, (k <= n)%N -> size (nth [::] PM k) = n_elements t k /\ size (nth [::] DM k) = n_elements t (n - k)%N) /\
  (forall v, (v < n_elements t 0%N)%N -> nth 0 (nth [::] PM 0%N) v = 1) /\ (forall j, (j < n_elements t n)%N -> nth 0 (nth [::] DM 0%N) j = 1).
Proof.
  move=> n rows t d PP bary PM DM OK HT M. have [Hn T] := TopProofs.from_simplices_top_ok row_leb n rows t OK HT. have [_ [-> ->]] := metric_ok K sat n rows t Hn T d PP bary PM DM M. rewrite /= !size_map !size_iota. do 2 (split=> //). split.
  - case=> [|k] Lk; [by rewrite subn0 /= !size_nseq|]. rewrite !nth_table //. by rewrite !size_map !size_iota.
  - split=> i Li; by rewrite nth_nseq Li.
Qed.

(** The primal metric of a top element is its volume if the centres of its proper faces are inside them.  What is missing for
    the full claim: faces with their centre outside, see C80_obtuse_refuted. *)
Theorem C80_top_partial : forall n rows t d pos PP coef bary PM DM, SimpSpec.simplices_ok n rows -> SimpModel.from_simplices row_leb n rows = Util.Ok t -> (2 <= n)%N ->
  metric K sat t d PP bary = Util.Ok (PM, DM) -> centres K t d n pos PP coef ->
  (forall j c, (j < n_elements t n)%N -> (c <= n)%N -> Num.sg (bary j c) = Num.sg (coef n j (nth 0%N (element t n j) c))) ->
  forall j, (j < n_elements t n)%N ->
  (forall k e v, (1 <= k < n)%N -> (e < n_elements t k)%N -> {subset element t k e <= element t n j} -> 0 <= coef k e v) ->
  nth 0 (nth [::] PM n) j = volume_of t n j d pos.
Proof.
  move=> n rows t d pos PP coef bary PM DM OK HT N2 M C B j J P. have [Hn T] := TopProofs.from_simplices_top_ok row_leb n rows t OK HT. have [Dn [-> _]] := metric_ok K sat n rows t Hn T d PP bary PM DM M.
  have N1 : (1 <= n <= n)%N by exact: n_pos. rewrite nth_table // nth_entry //. have E : n = n.-2.+2 by case: (n) N2 => [|[|]]. have El : element t n j = top_row rows j by exact: (el_top n rows t T). have J' := J. rewrite (n_top n rows t T) in J'.
  rewrite (pm_top_one K n rows t Hn T d pos PP coef C bary n.-2 j E J').
  - by rewrite El measure_content.
  - move=> k e v Hk He S. apply: P => //. by rewrite El.
  - move=> c Lc. by rewrite B // El.
Qed.

(** The primal metric of a lower element is its volume times the sum of the absolute coordinates of its centre, if the
    centres of its proper faces are inside them. *)
Theorem C80_faces : forall n rows t d pos PP coef bary PM DM, SimpSpec.simplices_ok n rows -> SimpModel.from_simplices row_leb n rows = Util.Ok t ->
  metric K sat t d PP bary = Util.Ok (PM, DM) -> centres K t d n pos PP coef ->
  forall i e, (1 <= i < n)%N -> (e < n_elements t i)%N ->
  (forall k f v, (1 <= k < i)%N -> (f < n_elements t k)%N -> {subset element t k f <= element t i e} -> 0 <= coef k f v) ->
  nth 0 (nth [::] PM i) e = volume_of t i e d pos * \sum_(v <- element t i e) `|coef i e v|.
Proof.
  move=> n rows t d pos PP coef bary PM DM OK HT M C i e Hi He P. have [Hn T] := TopProofs.from_simplices_top_ok row_leb n rows t OK HT. have [Dn [-> _]] := metric_ok K sat n rows t Hn T d PP bary PM DM M. have [H1 H2] := andP Hi.
  have I1 : (1 <= i <= n)%N by rewrite H1 ltnW. rewrite nth_table // nth_entry // (pm_mid K n rows t Hn T d pos PP coef C bary i e Hi He) measure_content; [|apply: leq_trans Dn; exact: ltnW].
  congr (_ * _). apply: (share_one K n rows t Hn T d pos PP coef C i); [by rewrite H1 ltnW|exact: (el_inside n rows t Hn T i e Hi He)|exact: P].
Qed.
(** In particular it is the volume when its centre is inside as well. *)
Theorem C80_faces_partial : forall n rows t d pos PP coef bary PM DM, SimpSpec.simplices_ok n rows -> SimpModel.from_simplices row_leb n rows = Util.Ok t ->
  metric K sat t d PP bary = Util.Ok (PM, DM) -> centres K t d n pos PP coef ->
  forall i e, (1 <= i < n)%N -> (e < n_elements t i)%N ->
  (forall k f v, (1 <= k <= i)%N -> (f < n_elements t k)%N -> {subset element t k f <= element t i e} -> 0 <= coef k f v) ->
  nth 0 (nth [::] PM i) e = volume_of t i e d pos.
Proof.
  move=> n rows t d pos PP coef bary PM DM OK HT M C i e Hi He P. have [H1 H2] := andP Hi. rewrite (C80_faces n rows t d pos PP coef bary PM DM OK HT M C i e Hi He).
  - rewrite (eq_bigr (coef i e)); [|by move=> v _; apply: ger0_norm; apply: P => //; rewrite H1 leqnn]. have [_ [-> _]] := C i e (ltnW H2) He. exact: mulr1.
  - move=> k f v /andP [K1 K2] F S. apply: P => //. by rewrite K1 ltnW.
Qed.

(** The dual length of a facet: over the simplices it is part of, the distance of the centres of the facet and the simplex, with
    minus sign where the centre lies beyond the facet. *)
Theorem C80_dual_edges : forall n rows t d pos PP coef bary PM DM, SimpSpec.simplices_ok n rows -> SimpModel.from_simplices row_leb n rows = Util.Ok t -> (2 <= n)%N ->
  metric K sat t d PP bary = Util.Ok (PM, DM) -> centres K t d n pos PP coef ->
  (forall j c, (j < n_elements t n)%N -> (c <= n)%N -> Num.sg (bary j c) = Num.sg (coef n j (nth 0%N (element t n j) c))) ->
  forall e, (e < n_elements t n.-1)%N ->
  nth 0 (nth [::] DM 1%N) e =
    \sum_(j < n_elements t n) \sum_(c < n.+1 | perm_eq (element t n.-1 e) (take c (element t n j) ++ drop c.+1 (element t n j)))
      Num.sg (coef n j (nth 0%N (element t n j) c)) * distance K d (PP n.-1 e) (PP n j).
Proof.
  move=> n rows t d pos PP coef bary PM DM OK HT N2 M C B e He. have [Hn T] := TopProofs.from_simplices_top_ok row_leb n rows t OK HT. have [Dn [_ ->]] := metric_ok K sat n rows t Hn T d PP bary PM DM M.
  have E : n = n.-2.+2 by case: (n) N2 => [|[|]]. have E1 : n.-1 = n.-2.+1 by rewrite {1}E. have Es : (n - 1)%N = n.-1 by rewrite subn1. have N1 : (1 <= 1 <= n)%N by exact: ltnW. rewrite nth_table // nth_entry ?Es //. have He' := He. rewrite E1 in He'.
  rewrite (dm_edge K n rows t Hn T d PP bary n.-2 e E Dn He') (n_top n rows t T). apply: eq_bigr => j _. have El : element t n j = top_row rows j by exact: (el_top n rows t T). rewrite El.
  have Go : forall k, k = n.+1 -> \sum_(c < k | FundProofs.idx t n.-2.+1 (ParProofs.facet n.-2.+2 c (top_row rows j)) == e) Num.sg (bary j c) * distance K d (PP n.-2.+1 e) (PP n j) =
    \sum_(c < n.+1 | perm_eq (element t n.-1 e) (take c (top_row rows j) ++ drop c.+1 (top_row rows j))) Num.sg (coef n j (nth 0%N (top_row rows j) c)) * distance K d (PP n.-1 e) (PP n j); [|by apply: Go; rewrite -E].
  move=> k Ek. subst k. have Lj := ltn_ord j. apply: eq_big => [c|c _].
  - rewrite (opposite n rows t Hn T n.-2 j c e E Lj) //; [|by rewrite -E]. by rewrite -E1.
  - rewrite B ?El -?E1 //; [by rewrite (n_top n rows t T)|by rewrite -ltnS].
Qed.

(** The dual cells of the vertices have the same total as the top elements. *)
Theorem C80_total : forall n rows t d PP bary PM DM, SimpSpec.simplices_ok n rows -> SimpModel.from_simplices row_leb n rows = Util.Ok t ->
  metric K sat t d PP bary = Util.Ok (PM, DM) -> \sum_(x <- nth [::] PM n) x = \sum_(x <- nth [::] DM n) x.
Proof.
  move=> n rows t d PP bary PM DM OK HT M. have [Hn T] := TopProofs.from_simplices_top_ok row_leb n rows t OK HT. have [Dn [-> ->]] := metric_ok K sat n rows t Hn T d PP bary PM DM M. have N1 : (1 <= n <= n)%N by exact: n_pos.
  rewrite !nth_table // !big_map subnn. exact: pm_dm_total.
Qed.
End Props.
Print Assumptions C80_shape.
Print Assumptions C80_top_partial.
Print Assumptions C80_faces.
Print Assumptions C80_faces_partial.
Print Assumptions C80_dual_edges.
Print Assumptions C80_total.

Section Triangles.
Variable K : rcfType.
Variable sat : list (BinNums.Z * BinNums.Z) -> option (list BinNums.Z).
Variable row_leb : SimpModel.simplex -> SimpModel.simplex -> bool.
Notation element := SubdSpec.element.
Notation n_elements := SimpModel.n_elements.
Notation volume_of t k e d pos := (content K d k (corners K d k pos (element t k e))).

Lemma half_eq : forall a b : K, a + b = 1 -> a * a = b * b -> a = 2%:R^-1 /\ b = 2%:R^-1.
Proof.
  move=> a b S Q. have E : a = b. { apply/eqP. rewrite -subr_eq0. have : (a - b) * (a + b) = 0 by rewrite -subr_sqr !expr2 Q subrr. by rewrite S mulr1 => ->. }
  have N2 : 2%:R != 0 :> K by rewrite pnatr_eq0. have B : b = 2%:R^-1. { apply: (mulIf N2). rewrite mulVf // mulr_natr mulr2n. by rewrite E in S. } by rewrite E B.
Qed.
Lemma shift_end : forall d x y (p q : 'rV[K]_d), x + y = 1 -> x *: p + y *: q - q = x *: (p - q).
Proof. move=> d x y p q S. rewrite scalerBr -addrA. congr (_ + _). rewrite -[X in _ - X]scale1r -scalerBl -scaleNr. congr (_ *: _). by rewrite -S opprD addrCA subrr addr0. Qed.
(** centres of edges as far from one end as from the other are midpoints *)
Lemma edge_mid : forall n rows t d pos PP coef, SimpSpec.simplices_ok n rows -> SimpModel.from_simplices row_leb n rows = Util.Ok t ->
  centres K t d n pos PP coef -> circumcentred K t d n pos PP ->
  forall e v, (e < n_elements t 1%N)%N -> (forall a b, a \in element t 1%N e -> b \in element t 1%N e -> a != b -> pos a != pos b) -> v \in element t 1%N e -> coef 1%N e v = 2%:R^-1.
Proof.
  move=> n rows t d pos PP coef OK HT C Cc e v He Ds. have [Hn T] := TopProofs.from_simplices_top_ok row_leb n rows t OK HT. have N1 : (1 <= n)%N by exact/ssrnat.leP. have [_ [S P]] := C 1%N e N1 He.
  have [L ND] := OrientProofs.el_len n rows t Hn T 1%N e Hn (elimT ssrnat.ltP He). have Q := fun v w => Cc 1%N e v w N1 He. move: (P) (S) Q Ds L ND. rewrite -[OrientProofs.el t 1%N e]/(element t 1%N e). case: (element t 1%N e) => [|a [|b [|]]] // {}P {}S Q Ds _ ND.
  have Nab : a != b by move/NoDupE: ND => /= /andP [H _]; rewrite inE in H. have Np : pos a != pos b by apply: Ds => //; rewrite !inE eqxx ?orbT.
  rewrite !big_cons !big_nil !addr0 in P; rewrite !big_cons !big_nil !addr0 in S. have E := Q a b (mem_head _ _). rewrite !inE eqxx orbT in E. have {}E := E isT.
  set x := coef 1%N e a in P S *. set y := coef 1%N e b in P S *. have Ea : PP 1%N e - pos a = y *: (pos b - pos a) by rewrite P addrC [x *: _ + _]addrC addrC shift_end // addrC.
  have Eb : PP 1%N e - pos b = x *: (pos a - pos b) by rewrite P shift_end.
  have E2 : dot K d (PP 1%N e - pos a) (PP 1%N e - pos a) = dot K d (PP 1%N e - pos b) (PP 1%N e - pos b) by rewrite -!distance_sqr E.
  rewrite Ea Eb !dotZl !dotZr -[pos b - pos a]opprB dotNl dotNr opprK !mulrA in E2. have Nz : dot K d (pos a - pos b) (pos a - pos b) != 0. { apply/negP => /eqP Z. case/negP: Np. rewrite -subr_eq0. by rewrite (dot_zero K d _ Z). }
  have [Hx Hy] := half_eq x y S (esym (mulIf Nz E2)). rewrite !inE => /orP [/eqP ->|/eqP ->] //.
Qed.

(** For triangles with distinct corners the primal metric is the lengths and areas, obtuse or not. *)
Theorem C80_triangles : forall rows t d pos PP coef bary PM DM, SimpSpec.simplices_ok 2 rows -> SimpModel.from_simplices row_leb 2 rows = Util.Ok t ->
  metric K sat t d PP bary = Util.Ok (PM, DM) -> centres K t d 2 pos PP coef -> circumcentred K t d 2 pos PP ->
  (forall j c, (j < n_elements t 2%N)%N -> (c <= 2)%N -> Num.sg (bary j c) = Num.sg (coef 2%N j (nth 0%N (element t 2%N j) c))) ->
  (forall e a b, (e < n_elements t 1%N)%N -> a \in element t 1%N e -> b \in element t 1%N e -> a != b -> pos a != pos b) ->
  (forall e a b, (e < n_elements t 1%N)%N -> element t 1%N e = [:: a; b] -> nth 0 (nth [::] PM 1%N) e = distance K d (pos a) (pos b)) /\
  (forall j, (j < n_elements t 2%N)%N -> nth 0 (nth [::] PM 2%N) j = volume_of t 2%N j d pos).
Proof.
  move=> rows t d pos PP coef bary PM DM OK HT M C Cc B Ds. have [Hn T] := TopProofs.from_simplices_top_ok row_leb 2 rows t OK HT. have Mid := edge_mid 2 rows t d pos PP coef OK HT C Cc.
  have Half : forall e v, (e < n_elements t 1%N)%N -> 0 <= coef 1%N e v. { move=> e v He. case V : (v \in element t 1%N e); [rewrite (Mid e v He (fun a b => Ds e a b He) V) invr_ge0 ler0n //|]. have [Z _] := C 1%N e isT He. by rewrite Z // V. }
  split=> [e a b He Ee|j J].
  - have P : forall k f v, (1 <= k <= 1)%N -> (f < n_elements t k)%N -> {subset element t k f <= element t 1%N e} -> 0 <= coef k f v by move=> [|[|k]] // f v _ Hf _; exact: Half.
    rewrite (C80_faces_partial K sat row_leb 2 rows t d pos PP coef bary PM DM OK HT M C 1%N e isT He P). have [Dn _] := metric_ok K sat 2 rows t Hn T d PP bary PM DM M.
    rewrite -measure_content; [|exact: ltnW]. rewrite measure1; [|exact: ltnW]. congr (distance _ _ _ _); apply/rowP => q; by rewrite !mxE Ee.
  - apply: (C80_top_partial K sat row_leb 2 rows t d pos PP coef bary PM DM OK HT _ M C B) => //. move=> [|[|k]] // e v _ He _. exact: Half.
Qed.

(** C81.  compute_edge_ratio is the dual length of every edge divided by its length.  (The docstring says primal/dual.) *)
Theorem C81_cotan : forall rows t d pos PP coef bary PM DM, SimpSpec.simplices_ok 2 rows -> SimpModel.from_simplices row_leb 2 rows = Util.Ok t ->
  metric K sat t d PP bary = Util.Ok (PM, DM) -> centres K t d 2 pos PP coef -> circumcentred K t d 2 pos PP ->
  (forall j c, (j < n_elements t 2%N)%N -> (c <= 2)%N -> Num.sg (bary j c) = Num.sg (coef 2%N j (nth 0%N (element t 2%N j) c))) ->
  (forall j, (j < n_elements t 2%N)%N -> volume_of t 2%N j d pos != 0) ->
  exists r, compute_edge_ratio K t d pos = Some r /\ size r = n_elements t 1%N /\
    forall e, (e < n_elements t 1%N)%N -> 0 < nth 0 (nth [::] PM 1%N) e /\ nth 0 r e = nth 0 (nth [::] DM 1%N) e / nth 0 (nth [::] PM 1%N) e.
Proof.
  move=> rows t d pos PP coef bary PM DM OK HT M C Cc B Nd. have [Hn T] := TopProofs.from_simplices_top_ok row_leb 2 rows t OK HT. have [Dn [-> ->]] := metric_ok K sat 2 rows t Hn T d PP bary PM DM M.
  have El : forall j, element t 2%N j = top_row rows j by exact: (el_top 2 rows t T). have Nt := n_top 2 rows t T.
  have Nd' : forall j, (j < size rows)%N -> measure K d 2 (corners K d 2 pos (top_row rows j)) != 0 by move=> j J; rewrite measure_content // -El; apply: Nd; rewrite Nt.
  have Ar := area_corner K rows d pos Nd'.
  have Ds : forall e a b, (e < n_elements t 1%N)%N -> a \in element t 1%N e -> b \in element t 1%N e -> a != b -> pos a != pos b.
  { move=> e a b He A1 B1 Nab. have := keys_all rows t T e. rewrite He => /mapP [[j c] /slot_in [J Lc] X]. have [_ P] := idx_slot rows t T j c J Lc. rewrite -X in P. have P2 := perm_trans P (slot_perm rows t T j c J Lc).
    have A := Ar j c J Lc. rewrite /corner in A. rewrite (perm_mem P2) !inE in A1; rewrite (perm_mem P2) !inE in B1. have Gen : forall p q, pos p = pos q -> [:: p; q] = [:: nth 0%N (top_row rows j) (next c); nth 0%N (top_row rows j) (third c)] -> False.
    { move=> p q E [Ep Eq]. move: A. by rewrite -Ep -Eq E /twice_area2 subrr ltxx. }
    apply/negP => /eqP E. case/orP: A1 => /eqP E1; case/orP: B1 => /eqP E2; [by rewrite E1 E2 eqxx in Nab|by apply: (Gen a b); rewrite ?E ?E1 ?E2|by apply: (Gen b a); rewrite ?E ?E1 ?E2|by rewrite E1 E2 eqxx in Nab]. }
  have Mid : forall e v, (e < n_elements t 1%N)%N -> v \in OrientProofs.el t 1%N e -> coef 1%N e v = 2%:R^-1 by move=> e v He V; exact: (edge_mid 2 rows t d pos PP coef OK HT C Cc e v He (fun a b => Ds e a b He) V).
  have Eqd : forall j v w, (j < size rows)%N -> v \in top_row rows j -> w \in top_row rows j -> distance K d (PP 2%N j) (pos v) = distance K d (PP 2%N j) (pos w) by move=> j v w J V W; apply: Cc; rewrite ?El ?Nt.
  have Sg : forall j c, (j < size rows)%N -> (c < 3)%N -> Num.sg (bary j c) = Num.sg (coef 2%N j (nth 0%N (top_row rows j) c)) by move=> j c J Lc; rewrite B ?Nt ?El.
  exists [seq dm K 2 rows t d PP bary 1 e / pm K 2 rows t d PP bary 1 e | e <- iota 0 (n_elements t 1%N)]. split; [|split; [by rewrite size_map size_iota|]].
  - exact: (ratio_is K rows t T d Dn pos PP coef C bary Mid Eqd Sg Nd').
  - move=> e He. rewrite !nth_table // !nth_entry //. split=> //. exact: (edge_pos K rows t T d Dn pos PP coef C bary Mid Nd' e He).
Qed.
End Triangles.
Print Assumptions C80_triangles.
Print Assumptions C81_cotan.

Section Excess.
Variable K : rcfType.
Variable sat : list (BinNums.Z * BinNums.Z) -> option (list BinNums.Z).
Variable row_leb : SimpModel.simplex -> SimpModel.simplex -> bool.
Notation element := SubdSpec.element.
Notation n_elements := SimpModel.n_elements.
Notation volume_of t k e d pos := (content K d k (corners K d k pos (element t k e))).

(** What the primal metric of a top element is when the centres of its facets may be outside: every facet counts with the sum of
    the absolute coordinates of its centre. *)
Theorem C80_top_excess : forall n rows t d pos PP coef bary PM DM, SimpSpec.simplices_ok n rows -> SimpModel.from_simplices row_leb n rows = Util.Ok t -> (2 <= n)%N ->
  metric K sat t d PP bary = Util.Ok (PM, DM) -> centres K t d n pos PP coef ->
  (forall j c, (j < n_elements t n)%N -> (c <= n)%N -> Num.sg (bary j c) = Num.sg (coef n j (nth 0%N (element t n j) c))) ->
  forall j, (j < n_elements t n)%N ->
  (forall k e v, (1 <= k < n.-1)%N -> (e < n_elements t k)%N -> {subset element t k e <= element t n j} -> 0 <= coef k e v) ->
  forall face : nat -> nat, (forall c, (c <= n)%N -> (face c < n_elements t n.-1)%N /\ perm_eq (element t n.-1 (face c)) (take c (element t n j) ++ drop c.+1 (element t n j))) ->
  nth 0 (nth [::] PM n) j = volume_of t n j d pos * \sum_(c < n.+1) coef n j (nth 0%N (element t n j) c) * \sum_(v <- element t n.-1 (face c)) `|coef n.-1 (face c) v|.
Proof.
  move=> n rows t d pos PP coef bary PM DM OK HT N2 M C B j J P face F. have [Hn T] := TopProofs.from_simplices_top_ok row_leb n rows t OK HT. have [Dn [-> _]] := metric_ok K sat n rows t Hn T d PP bary PM DM M.
  have N1 : (1 <= n <= n)%N by exact: n_pos. rewrite nth_table // nth_entry //. have E : n = n.-2.+2 by case: (n) N2 => [|[|]]. have E1 : n.-1 = n.-2.+1 by rewrite {1}E. have El : element t n j = top_row rows j by exact: (el_top n rows t T). have J' := J. rewrite (n_top n rows t T) in J'.
  rewrite (pm_top K n rows t Hn T d pos PP coef C bary n.-2 j E J') measure_content // El. congr (_ * _).
  have Go : forall k, k = n.+1 -> \sum_(c < k) Num.sg (bary j c) * `|coef n j (nth 0%N (top_row rows j) c)| * share K t coef n.-2.+1 (ParProofs.facet n.-2.+2 c (top_row rows j)) (coef n.-2.+1 (FundProofs.idx t n.-2.+1 (ParProofs.facet n.-2.+2 c (top_row rows j)))) =
    \sum_(c < n.+1) coef n j (nth 0%N (top_row rows j) c) * \sum_(v <- element t n.-1 (face c)) `|coef n.-1 (face c) v|; [|by apply: Go; rewrite -E].
  move=> k Ek. subst k. apply: eq_bigr => c _. have Lc : (c <= n)%N by rewrite -ltnS. have [Fc Pc] := F c Lc. rewrite B // El -numEsg. congr (_ * _).
  have I := top_inside n rows t Hn T j J'. have Lc' : (c < n.-2.+3)%N by rewrite -E. have I2 : inside rows n.-2.+2 (top_row rows j) by rewrite -E. have If := facet_in rows n.-2.+1 c _ Lc' I2. have Sb := facet_sub rows n.-2.+1 c _ Lc' I2.
  have Fc' : (face c < n_elements t n.-2.+1)%N by rewrite -E1. have Pc' : perm_eq (element t n.-2.+1 (face c)) (take c (top_row rows j) ++ drop c.+1 (top_row rows j)) by rewrite -E1 -El. have := opposite n rows t Hn T n.-2 j c (face c) E J' Lc' Fc'. rewrite -[OrientProofs.el t n.-2.+1 (face c)]/(element t n.-2.+1 (face c)) Pc' => /eqP Ei.
  have Mn1 : (1 <= n.-2.+1 <= n)%N by rewrite -E1 leq_pred andbT E1. rewrite (share_one K n rows t Hn T d pos PP coef C n.-2.+1 _ _ Mn1 If).
  - have Mn : (n.-2.+1 < n)%N by rewrite -E1 ltn_predL ltnW. have [_ Pi] := idx_ok n rows t Hn T n.-2.+1 _ Mn If. rewrite Ei in Pi *. rewrite E1. apply: perm_big. by rewrite perm_sym.
  - move=> k e v Hk Ee S. apply: P => //; [by rewrite E1|]. move=> w /S /Sb. by rewrite El.
Qed.
End Excess.
Print Assumptions C80_top_excess.

(** ** Witnesses *)
Lemma metric_total : forall (K : rcfType) sat n rows t d PP bary, (1 <= n)%coq_nat -> TopProofs.top_ok n rows t -> BdryModel.is_oriented sat t = Util.Ok true -> (n <= d)%N -> exists PM DM, metric K sat t d PP bary = Util.Ok (PM, DM).
Proof. move=> K sat n rows t d PP bary Hn T Or D. rewrite /metric Or /= (domains_ok n rows t Hn T) /= (OrientProofs.top_n_dim n rows t T) ltnNge D /=. eexists; eexists; reflexivity. Qed.

(** a tetrahedron with corners (0,0,0) (4,0,0) (1,1,0) (0,0,2); the triangle of the first three is obtuse *)
Definition tet_rows : list SimpModel.simplex := [:: [:: 0; 1; 2; 3]]%N.
Definition tet_t : SimpModel.topology := Eval vm_compute in match SimpModel.from_simplices SimpProps.lex_leb 3 tet_rows with Util.Ok t => t | _ => SimpModel.mkTop [::] [::] [::] end.
Definition tet_zs : seq (seq int) := [:: [:: 0; 0; 0]; [:: 4%:Z; 0; 0]; [:: 1; 1; 0]; [:: 0; 0; 2%:Z]].
Definition tet_nums : seq (seq (seq int)) := [:: [:: [:: 1; 0; 0; 0]; [:: 0; 1; 0; 0]; [:: 0; 0; 1; 0]; [:: 0; 0; 0; 1]];
  [:: [:: 1; 1; 0; 0]; [:: 1; 0; 1; 0]; [:: 1; 0; 0; 1]; [:: 0; 1; 1; 0]; [:: 0; 1; 0; 1]; [:: 0; 0; 1; 1]];
  [:: [:: 5%:Z; 3%:Z; - 4%:Z; 0]; [:: 0; 1; 0; 1]; [:: 0; 0; 1; 1]; [:: 0; 9%:Z; - 5%:Z; 10%:Z]];
  [:: [:: 3%:Z; 3%:Z; - 4%:Z; 2%:Z]]].
Definition tet_dens : seq (seq nat) := [:: [:: 1; 1; 1; 1]; [:: 2; 2; 2; 2; 2; 2]; [:: 4; 2; 2; 14]; [:: 4]]%N.
Lemma tet_from : SimpModel.from_simplices SimpProps.lex_leb 3 tet_rows = Util.Ok tet_t. Proof. by vm_compute. Qed.
Lemma tet_check : check_all tet_t 3 4 3 tet_zs tet_nums tet_dens. Proof. by vm_compute. Qed.
Lemma tet_ok : SimpSpec.simplices_ok 3 tet_rows.
Proof. split=> //. repeat (apply: List.Forall_cons; [split=> //; by apply/NoDupE|]). by []. Qed.
(** two triangles: (0,0) (2,1) (4,0), obtuse, and (0,0) (4,0) (2,-2), right angled *)
Definition kite_rows : list SimpModel.simplex := [:: [:: 0; 1; 2]; [:: 0; 2; 3]]%N.
Definition kite_t : SimpModel.topology := Eval vm_compute in match SimpModel.from_simplices SimpProps.lex_leb 2 kite_rows with Util.Ok t => t | _ => SimpModel.mkTop [::] [::] [::] end.
Definition kite_zs : seq (seq int) := [:: [:: 0; 0]; [:: 2%:Z; 1]; [:: 4%:Z; 0]; [:: 2%:Z; - 2%:Z]].
Definition kite_nums : seq (seq (seq int)) := [:: [:: [:: 1; 0; 0; 0]; [:: 0; 1; 0; 0]; [:: 0; 0; 1; 0]; [:: 0; 0; 0; 1]];
  [:: [:: 1; 1; 0; 0]; [:: 1; 0; 1; 0]; [:: 1; 0; 0; 1]; [:: 0; 1; 1; 0]; [:: 0; 0; 1; 1]];
  [:: [:: 5%:Z; - 6%:Z; 5%:Z; 0]; [:: 1; 0; 1; 0]]].
Definition kite_dens : seq (seq nat) := [:: [:: 1; 1; 1; 1]; [:: 2; 2; 2; 2; 2]; [:: 4; 2]]%N.
Lemma kite_from : SimpModel.from_simplices SimpProps.lex_leb 2 kite_rows = Util.Ok kite_t. Proof. by vm_compute. Qed.
Lemma kite_check : check_all kite_t 2 4 2 kite_zs kite_nums kite_dens. Proof. by vm_compute. Qed.
Lemma kite_ok : SimpSpec.simplices_ok 2 kite_rows.
Proof. split=> //. repeat (apply: List.Forall_cons; [split=> //; by apply/NoDupE|]). by []. Qed.

Section Witness.
Variable K : rcfType.
Definition gram_z (zs : seq (seq int)) (d : nat) (s : seq nat) (i l : nat) : int :=
  addz [seq (zpos zs (nth 0%N s i.+1) j - zpos zs (nth 0%N s 0) j) * (zpos zs (nth 0%N s l.+1) j - zpos zs (nth 0%N s 0) j) | j <- iota 0 d].
Lemma content_z : forall zs d k s, content K d k (corners K d k (wit_pos d zs K) s) = Num.sqrt `|\det (\matrix_(i < k, l < k) (gram_z zs d s i l)%:~R)| / k`!%:R.
Proof.
  move=> zs d k s. rewrite /content. congr (Num.sqrt `|\det _| / _). apply/matrixP => i l. rewrite !mxE /gram_z addz_big big_map (rmorph_sum [rmorphism of intmul (1 : K)]) (_ : iota 0 d = index_iota 0 d); [|by rewrite /index_iota subn0]. rewrite big_mkord.
  apply: eq_bigr => j _. by rewrite !mxE rmorphM !rmorphB.
Qed.
Lemma sqrt_z : forall a : nat, Num.sqrt `|(a%:Z ^+ 2)%:~R| = a%:R :> K.
Proof. move=> a. rewrite rmorphX /= ger0_norm ?sqr_ge0 // sqrtr_sqr ger0_norm //. exact: ler0n. Qed.
Lemma tet_volume : content K 3 3 (corners K 3 3 (wit_pos 3 tet_zs K) [:: 0; 1; 2; 3]%N) = 4%:R / 3%:R.
Proof.
  rewrite content_z SurfProofs.det33 !mxE -!(rmorphM [rmorphism of intmul (1 : K)], rmorphB [rmorphism of intmul (1 : K)], rmorphD [rmorphism of intmul (1 : K)]) /=.
  set g := (X in `|X%:~R|). have -> : g = 8%:Z ^+ 2 by vm_compute. rewrite sqrt_z (_ : 8%:R = 2%:R * 4%:R) -?natrM // (_ : 3`! = 2 * 3)%N // !natrM invfM mulrACA divff ?pnatr_eq0 // mul1r. by [].
Qed.
Lemma tet_area : content K 3 2 (corners K 3 2 (wit_pos 3 tet_zs K) [:: 1; 0; 2]%N) = 2%:R.
Proof.
  rewrite content_z SurfProofs.det22 !mxE -!(rmorphM [rmorphism of intmul (1 : K)], rmorphB [rmorphism of intmul (1 : K)], rmorphD [rmorphism of intmul (1 : K)]) /=.
  set g := (X in `|X%:~R|). have -> : g = 4%:Z ^+ 2 by vm_compute. by rewrite sqrt_z (_ : 4%:R = 2%:R * 2%:R) -?natrM // natrM mulfK ?pnatr_eq0.
Qed.
Lemma coef_abs : forall nums dens k e s, \sum_(v <- s) `|wit_coef nums dens K k e v| = (addz [seq `|num nums k e v| | v <- s])%:~R / (den dens k e)%:~R.
Proof. move=> nums dens k e s. rewrite addz_big big_map (rmorph_sum [rmorphism of intmul (1 : K)]) mulr_suml. apply: eq_bigr => v _. rewrite /wit_coef normrM normfV [`|_%:R|]ger0_norm ?ler0n // -intr_norm. by []. Qed.
Lemma coef_ge0 : forall nums dens k e v, all (all (fun x : int => 0 <= x)) (nth [::] nums k) -> 0 <= wit_coef nums dens K k e v.
Proof.
  move=> nums dens k e v H. rewrite /wit_coef. apply: divr_ge0; [|exact: ler0n]. rewrite ler0z /num. have G : forall l i, all (fun x : int => 0 <= x) l -> 0 <= nth 0 l i.
  { move=> l i A. case: (ltnP i (size l)) => L; [exact: (allP A _ (mem_nth 0 L))|by rewrite nth_default]. }
  apply: G. case: (ltnP e (size (nth [::] nums k))) => L; [exact: (allP H _ (mem_nth [::] L))|by rewrite (nth_default [::])].
Qed.
Lemma tet_sum : \sum_(c < 4) (wit_coef tet_nums tet_dens K 3%N 0%N c * \sum_(v <- SubdSpec.element tet_t 2%N (3 - c)%N) `|wit_coef tet_nums tet_dens K 2%N (3 - c)%N v|) = 71%:R / 28%:R.
Proof.
  pose A := [:: 24%:Z; 2%:Z; 2%:Z; 12%:Z]. pose B := [:: 14; 2; 2; 4]%N.
  have E : forall c : nat, (c < 4)%N -> \sum_(v <- SubdSpec.element tet_t 2%N (3 - c)%N) `|wit_coef tet_nums tet_dens K 2%N (3 - c)%N v| = (nth 0 A c)%:~R / (nth 0%N B c)%:R.
  { move=> c Lc. rewrite coef_abs. have -> : addz [seq `|num tet_nums 2 (3 - c) v| | v <- SubdSpec.element tet_t 2 (3 - c)] = nth 0 A c by move: c Lc => [|[|[|[|]]]] //; vm_compute.
    have -> : den tet_dens 2 (3 - c) = nth 0%N B c by move: c Lc => [|[|[|[|]]]] //; vm_compute. by []. }
  rewrite (eq_bigr (fun c : 'I_4 => (nth 0 [:: 3%:Z; 3%:Z; - 4%:Z; 2%:Z] c)%:~R / 4%:R * ((nth 0 A c)%:~R / (nth 0%N B c)%:R))); [|by move=> c _; rewrite E].
  rewrite !big_ord_recl big_ord0 addr0 /=. have N : forall k, k.+1%:R != 0 :> K by move=> k; rewrite pnatr_eq0.
  have -> : 3%:R / 4%:R * (24%:R / 14%:R) = 36%:R / 28%:R :> K by rewrite mulf_div; apply/eqP; rewrite -!natrM eqr_div ?N // -!natrM; apply/eqP; congr (_%:R).
  have -> : 2%:R / 4%:R * (12%:R / 4%:R) = 42%:R / 28%:R :> K by rewrite mulf_div; apply/eqP; rewrite -!natrM eqr_div ?N // -!natrM; apply/eqP; congr (_%:R).
  rewrite (divff (N 1%N)) !mulr1 rmorphN mulNr (divff (N 3%N)). have -> : 3%:R / 4%:R = 21%:R / 28%:R :> K by apply/eqP; rewrite eqr_div ?N // -!natrM; apply/eqP; congr (_%:R).
  have -> : - 1 = - 28%:R / 28%:R :> K by rewrite mulNr divff.
  rewrite -!mulrDl. congr (_ / _). have G : forall a b c e f : K, a + b + c = f + e -> a + (b + (- e + c)) = f. { move=> a b c e f H. rewrite addrA [- e + c]addrC addrA H addrK. by []. }
  apply: G. by rewrite -!natrD.
Qed.
Variable sat : list (BinNums.Z * BinNums.Z) -> option (list BinNums.Z).
(** C80 fails for tetrahedra with an obtuse face, even if every centre is the circumcentre: this one gets 71/28 of its volume, and the
    obtuse face three times its area. *)
Theorem C80_obtuse_refuted : BdryModel.is_oriented sat tet_t = Util.Ok true ->
  SimpSpec.simplices_ok 3 tet_rows /\ SimpModel.from_simplices SimpProps.lex_leb 3 tet_rows = Util.Ok tet_t /\
  exists pos PP coef bary PM DM, centres K tet_t 3 3 pos PP coef /\ circumcentred K tet_t 3 3 pos PP /\
    (forall j c, (j < SimpModel.n_elements tet_t 3)%N -> (c <= 3)%N -> bary j c = coef 3%N j (nth 0%N (SubdSpec.element tet_t 3%N j) c)) /\
    metric K sat tet_t 3 PP bary = Util.Ok (PM, DM) /\
    content K 3 3 (corners K 3 3 pos (SubdSpec.element tet_t 3%N 0%N)) = 4%:R / 3%:R /\ nth 0 (nth [::] PM 3%N) 0%N = 4%:R / 3%:R * (71%:R / 28%:R) /\
    content K 3 2 (corners K 3 2 pos (SubdSpec.element tet_t 2%N 0%N)) = 2%:R /\ nth 0 (nth [::] PM 2%N) 0%N = 2%:R * 3%:R.
Proof.
  move=> Or. split; [exact: tet_ok|]. split; [exact: tet_from|]. have [Hn T] := TopProofs.from_simplices_top_ok SimpProps.lex_leb 3 _ _ tet_ok tet_from.
  pose pos := wit_pos 3 tet_zs K. pose PP := wit_PP 4 3 tet_zs tet_nums tet_dens K. pose coef := wit_coef tet_nums tet_dens K. pose bary := fun j c => coef 3%N j (nth 0%N (SubdSpec.element tet_t 3%N j) c).
  have C : centres K tet_t 3 3 pos PP coef := wit_centres tet_t 3 4 3 tet_zs tet_nums tet_dens tet_check K. have Cc : circumcentred K tet_t 3 3 pos PP := wit_circumcentred tet_t 3 4 3 tet_zs tet_nums tet_dens tet_check K.
  have [PM [DM M]] := metric_total K sat 3 _ _ 3 PP bary Hn T Or isT. exists pos, PP, coef, bary, PM, DM. split; [exact: C|]. split; [exact: Cc|]. split; [by move=> j c _ _; reflexivity|]. split; [exact: M|].
  have E3 : SubdSpec.element tet_t 3%N 0%N = [:: 0; 1; 2; 3]%N by vm_compute. have E2 : SubdSpec.element tet_t 2%N 0%N = [:: 1; 0; 2]%N by vm_compute. have N3 : (0 < SimpModel.n_elements tet_t 3)%N by vm_compute. have N2 : (0 < SimpModel.n_elements tet_t 2)%N by vm_compute.
  have V : content K 3 3 (corners K 3 3 pos (SubdSpec.element tet_t 3%N 0%N)) = 4%:R / 3%:R by rewrite E3; exact: tet_volume. have A : content K 3 2 (corners K 3 2 pos (SubdSpec.element tet_t 2%N 0%N)) = 2%:R by rewrite E2; exact: tet_area.
  have P : forall e v, 0 <= coef 1%N e v by move=> e v; apply: coef_ge0; vm_compute. split; [exact: V|]. split; [|split; [exact: A|]].
  - rewrite (C80_top_excess K sat SimpProps.lex_leb 3 tet_rows tet_t 3 pos PP coef bary PM DM tet_ok tet_from isT M C _ 0%N N3 _ (fun c => 3 - c)%N).
    + rewrite V. congr (_ * _). rewrite -tet_sum. apply: eq_bigr => c _. rewrite E3. congr (_ * _). rewrite /coef. congr (wit_coef _ _ _ _ _ _). by case: c => [[|[|[|[|]]]]].
    + by move=> j c _ _; reflexivity.
    + move=> k e v Hk _ _. have -> : k = 1%N by move: Hk; clear; case: k => [|[|k]]. exact: P.
    + move=> [|[|[|[|c]]]] Lc; [by split; vm_compute..|by move: Lc; clear].
  - rewrite (C80_faces K sat SimpProps.lex_leb 3 tet_rows tet_t 3 pos PP coef bary PM DM tet_ok tet_from M C 2%N 0%N isT N2).
    + rewrite A. congr (_ * _). rewrite coef_abs. have -> : addz [seq `|num tet_nums 2 0 v| | v <- SubdSpec.element tet_t 2 0] = 12%:Z by vm_compute. rewrite -[den _ _ _]/4%N -[12%:Z]/(3%:Z * 4%:Z) rmorphM /= mulfK // pnatr_eq0. by [].
    + move=> k e v Hk _ _. have -> : k = 1%N by move: Hk; clear; case: k => [|[|k]]. exact: P.
Qed.
End Witness.
Print Assumptions C80_obtuse_refuted.
Example C80_obtuse_example : BdryModel.is_oriented SelProofs.brute_sat tet_t = Util.Ok true. Proof. by vm_compute. Qed.

Section Kite.
Variable K : rcfType.
Lemma kite_area : forall j, (j < 2)%N -> content K 2 2 (corners K 2 2 (wit_pos 2 kite_zs K) (SubdSpec.element kite_t 2%N j)) = (nth 0%N [:: 2; 4]%N j)%:R.
Proof.
  move=> j Lj. rewrite content_z SurfProofs.det22 !mxE -!(rmorphM [rmorphism of intmul (1 : K)], rmorphB [rmorphism of intmul (1 : K)], rmorphD [rmorphism of intmul (1 : K)]) /=.
  set g := (X in `|X%:~R|). have -> : g = (nth 0%N [:: 4; 8]%N j)%:Z ^+ 2 by rewrite /g; move: j Lj {g} => [|[|]] // _; vm_compute. rewrite sqrt_z.
  have -> : nth 0%N [:: 4; 8]%N j = (nth 0%N [:: 2; 4]%N j * 2)%N by move: j Lj {g} => [|[|]]. by rewrite natrM mulfK ?pnatr_eq0.
Qed.
(** Two triangles, the first obtuse: every hypothesis of C80_top_partial, C80_faces, C80_dual_edges, C80_triangles and C81_cotan holds.
    The edge between them has length 4 and dual length -3/2. *)
Example C80_example : SimpSpec.simplices_ok 2 kite_rows /\ SimpModel.from_simplices SimpProps.lex_leb 2 kite_rows = Util.Ok kite_t /\
  exists pos PP coef bary PM DM, centres K kite_t 2 2 pos PP coef /\ circumcentred K kite_t 2 2 pos PP /\
    (forall j c, (j < SimpModel.n_elements kite_t 2)%N -> (c <= 2)%N -> Num.sg (bary j c) = Num.sg (coef 2%N j (nth 0%N (SubdSpec.element kite_t 2%N j) c))) /\
    metric K SelProofs.brute_sat kite_t 2 PP bary = Util.Ok (PM, DM) /\
    (forall e v, 0 <= coef 1%N e v) /\ coef 2%N 0%N 1%N < 0 /\
    (forall e a b, (e < SimpModel.n_elements kite_t 1%N)%N -> a \in SubdSpec.element kite_t 1%N e -> b \in SubdSpec.element kite_t 1%N e -> a != b -> pos a != pos b) /\
    (forall j, (j < SimpModel.n_elements kite_t 2%N)%N -> content K 2 2 (corners K 2 2 pos (SubdSpec.element kite_t 2%N j)) = (nth 0%N [:: 2; 4]%N j)%:R) /\
    SubdSpec.element kite_t 1%N 1%N = [:: 2; 0]%N /\ nth 0 (nth [::] PM 1%N) 1%N = 4%:R /\ nth 0 (nth [::] DM 1%N) 1%N = - (3%:R / 2%:R).
Proof.
  split; [exact: kite_ok|]. split; [exact: kite_from|]. have [Hn T] := TopProofs.from_simplices_top_ok SimpProps.lex_leb 2 _ _ kite_ok kite_from.
  pose pos := wit_pos 2 kite_zs K. pose PP := wit_PP 4 2 kite_zs kite_nums kite_dens K. pose coef := wit_coef kite_nums kite_dens K. pose bary := fun j c => coef 2%N j (nth 0%N (SubdSpec.element kite_t 2%N j) c).
  have C : centres K kite_t 2 2 pos PP coef := wit_centres kite_t 2 4 2 kite_zs kite_nums kite_dens kite_check K. have Cc : circumcentred K kite_t 2 2 pos PP := wit_circumcentred kite_t 2 4 2 kite_zs kite_nums kite_dens kite_check K.
  have Or : BdryModel.is_oriented SelProofs.brute_sat kite_t = Util.Ok true by vm_compute.
  have [PM [DM M]] := metric_total K SelProofs.brute_sat 2 _ _ 2 PP bary Hn T Or isT. exists pos, PP, coef, bary, PM, DM. split; [exact: C|]. split; [exact: Cc|].
  have B : forall j c, (j < SimpModel.n_elements kite_t 2)%N -> (c <= 2)%N -> Num.sg (bary j c) = Num.sg (coef 2%N j (nth 0%N (SubdSpec.element kite_t 2%N j) c)) by [].
  split; [exact: B|]. split; [exact: M|]. split; [by move=> e v; apply: coef_ge0; vm_compute|]. split; [by rewrite /coef /wit_coef pmulr_llt0 ?invr_gt0 ?ltr0n // ltrz0|].
  have Ds : forall e a b, (e < SimpModel.n_elements kite_t 1%N)%N -> a \in SubdSpec.element kite_t 1%N e -> b \in SubdSpec.element kite_t 1%N e -> a != b -> pos a != pos b.
  { move=> e a b He A1 B1 N. have G : forall e, (e < 5)%N -> all (fun v => v < 4)%N (SubdSpec.element kite_t 1%N e) by case=> [|[|[|[|[|]]]]]. have {}A1 := allP (G e He) _ A1. have {}B1 := allP (G e He) _ B1.
    apply/negP => /eqP /rowP Q. have Q0 := Q ord0. have Q1 := Q (lift ord0 ord0). rewrite !mxE in Q0 Q1. move/eqP: Q0. move/eqP: Q1. rewrite !eqr_int. move: A1 B1 N. clear. by move: a b => [|[|[|[|a]]]] // [|[|[|[|b]]]]. }
  split; [exact: Ds|]. split; [by move=> j Lj; exact: kite_area|]. split=> //. split.
  - have [H _] := C80_triangles K SelProofs.brute_sat SimpProps.lex_leb kite_rows kite_t 2 pos PP coef bary PM DM kite_ok kite_from M C Cc B Ds. rewrite (H 1%N 2%N 0%N) //.
    rewrite /distance !big_ord_recl big_ord0 addr0 !mxE -!(rmorphB [rmorphism of intmul (1 : K)], rmorphX [rmorphism of intmul (1 : K)]) /= -rmorphD /=. set g := (X in X%:~R). have -> : g = 4%:Z ^+ 2 by vm_compute. rewrite -(sqrt_z K 4). congr Num.sqrt. by rewrite ger0_norm // rmorphX sqr_ge0.
  - rewrite (C80_dual_edges K SelProofs.brute_sat SimpProps.lex_leb 2 kite_rows kite_t 2 pos PP coef bary PM DM kite_ok kite_from isT M C B 1%N) //.
    rewrite (_ : SimpModel.n_elements kite_t 2 = 2)%N // !big_ord_recl big_ord0 addr0. rewrite !(big_mkcond (fun c : 'I_3 => _)) !big_ord_recl !big_ord0 /=.
    rewrite big_mkcond !big_ord_recl !big_ord0 /= !add0r !addr0. have -> : coef 2%N (bump 0 0) 3%N = 0 by rewrite /coef /wit_coef /= mul0r. rewrite sgr0 mul0r addr0.
    have -> : Num.sg (coef 2%N 0%N 1%N) = -1. { apply: ltr0_sg. by rewrite /coef /wit_coef pmulr_llt0 ?invr_gt0 ?ltr0n // ltrz0. } rewrite mulN1r. congr (- _).
    have Ex : PP 1%N 1%N 0 ord0 - PP 2%N 0%N 0 ord0 = 0. { rewrite !mxE -[zc _ _ _ 1 1 _]/4%:Z -[zc _ _ _ 2 0 _]/8%:Z -[den _ 1 1]/2%N -[den _ 2 0]/4%N. have -> : 4%:~R / 2%:R = 8%:~R / 4%:R :> K by apply/eqP; rewrite eqr_div ?pnatr_eq0 // -!natrM; apply/eqP; congr (_%:R). exact: subrr. }
    have Ey : PP 1%N 1%N 0 (lift ord0 ord0) - PP 2%N 0%N 0 (lift ord0 ord0) = 3%:R / 2%:R. { rewrite !mxE. have -> : zc 4 kite_zs kite_nums 1 1 (@lift 2 ord0 ord0) = 0 by vm_compute. have -> : zc 4 kite_zs kite_nums 2 0 (@lift 2 ord0 ord0) = - 6%:Z by vm_compute. rewrite mul0r sub0r rmorphN mulNr opprK -[den _ 2 0]/4%N. apply/eqP. rewrite eqr_div ?pnatr_eq0 // -!natrM. apply/eqP. congr (_%:R). }
    rewrite /distance !big_ord_recl big_ord0 addr0 Ex Ey expr0n add0r sqrtr_sqr ger0_norm //. apply: divr_ge0; exact: ler0n.
Qed.
Example C81_example : exists pos r, compute_edge_ratio K kite_t 2 pos = Some r /\ size r = 5%N /\ nth 0 r 1%N = - (3%:R / 8%:R).
Proof.
  have [_ [_ [pos [PP [coef [bary [PM [DM [C [Cc [B [M [_ [_ [_ [Ar [_ [P D]]]]]]]]]]]]]]]]]] := C80_example. have Nd : forall j, (j < SimpModel.n_elements kite_t 2)%N -> content K 2 2 (corners K 2 2 pos (SubdSpec.element kite_t 2%N j)) != 0.
  { move=> j Lj. rewrite Ar // pnatr_eq0. by move: j Lj => [|[|]]. }
  have [r [R [Sz Q]]] := C81_cotan K SelProofs.brute_sat SimpProps.lex_leb kite_rows kite_t 2 pos PP coef bary PM DM kite_ok kite_from M C Cc B Nd. exists pos, r. split=> //. split=> //. have L : (1 < SimpModel.n_elements kite_t 1)%N by [].
  rewrite (proj2 (Q 1%N L)) P D mulNr. congr (- _). rewrite -mulrA -invfM -natrM. by [].
Qed.
End Kite.
