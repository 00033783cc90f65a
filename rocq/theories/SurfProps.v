(** C78 enclosed volumes, areas and normals of triangulated surfaces; C79 centres of mass. *)
From mathcomp Require Import all_ssreflect all_algebra.
From Coq Require Import Ring Field.
From Verif Require Import GeoModel GeoSpec GeoProofs GeoProps GeoRing SurfModel SurfSpec SurfProofs.
From Verif Require Util.
Import Order.TTheory GRing.Theory Num.Theory.
Local Open Scope ring_scope.

Section Surf.
Variable K : rcfType.
Add Field Kf : (K_field K).
Ltac kring := kprep K; ring.
Ltac kfield := kprep K; field.

(** ** C78 Volume *)
(** If the triangles are the boundary of tetrahedra, the volume is the sum of the signed volumes of those. *)
Theorem C78_fills : forall tris tets (pos : nat -> K * K * K) (vol : nat * nat * nat * nat -> K), encloses K tris tets ->
  (forall a b c d, signed_volume K 3 3 (points K 4 [:: pos a; pos b; pos c; pos d]) = Util.Ok (vol (a, b, c, d))) ->
  volume K tris pos = total K [seq vol t | t <- tets].
Proof.
  move=> tris tets pos vol E V. rewrite (volume_fills K tris pos tets E) total_big. apply: eq_bigr => [[[[a b] c] d]] _. have := V a b c d. rewrite signed_points. by case.
Qed.
(** Every surface whose sides cancel is the boundary of its tetrahedra with any vertex as top. *)
Theorem C78_cone : forall tris o, balanced (sides tris) -> encloses K tris [seq (o, t.1.1, t.1.2, t.2) | t <- tris].
Proof. exact: cone_encloses. Qed.
Theorem C78_translate : forall tris (pos : nat -> K * K * K) d, balanced (sides tris) ->
  volume K tris (fun v => ((pos v).1.1 + d.1.1, (pos v).1.2 + d.1.2, (pos v).2 + d.2)) = volume K tris pos.
Proof.
  move=> tris pos d B. rewrite !volume_det. congr (_ / _). have Z := balanced_zero K (sides tris) (fun e => det3 K d (pos e.1) (pos e.2)) B. rewrite sides_sum in Z.
  rewrite (eq_bigr _ (fun t _ => det_shift K (pos t.1.1) (pos t.1.2) (pos t.2) d)) big_split /= Z ?addr0 // => e. exact: det_anti.
Qed.
(** A linear map, given by the images u, v, w of the axes, multiplies the volume by its determinant. *)
Theorem C78_linear : forall tris (pos : nat -> K * K * K) (u v w : K * K * K),
  volume K tris (fun p => let: (x, y, z) := pos p in (x * u.1.1 + y * v.1.1 + z * w.1.1, x * u.1.2 + y * v.1.2 + z * w.1.2, x * u.2 + y * v.2 + z * w.2)) =
  \det (points K 3 [:: u; v; w]) * volume K tris pos.
Proof.
  move=> tris pos [[u1 u2] u3] [[v1 v2] v3] [[w1 w2] w3]. rewrite !volume_det mulrA mulr_sumr. congr (_ / _). apply: eq_bigr => [[[a b] c]] _ /=.
  case: (pos a) (pos b) (pos c) => [[a1 a2] a3] [[b1 b2] b3] [[c1 c2] c3]. rewrite det33 !mxE /det3 /vdot /cross /=. kring.
Qed.
(** Turning all triangles over negates the volume. *)
Theorem C78_turn : forall tris (pos : nat -> K * K * K), volume K [seq (t.1.2, t.1.1, t.2) | t <- tris] pos = - volume K tris pos.
Proof.
  move=> tris pos. rewrite !volume_det big_map -mulNr -sumrN. congr (_ / _). apply: eq_bigr => [[[a b] c]] _ /=. by case: (det_alt K pos a b c).
Qed.
(** Parts in a plane through the origin add nothing: a surface cut open along such a plane has the volume, and the centre of mass, of the one with a lid. *)
Theorem C78_cut : forall tris lid (pos : nat -> K * K * K) (n : K * K * K), n <> (0, 0, 0) ->
  (forall t v, t \in lid -> v \in [:: t.1.1; t.1.2; t.2] -> n.1.1 * (pos v).1.1 + n.1.2 * (pos v).1.2 + n.2 * (pos v).2 = 0) ->
  volume K (tris ++ lid) pos = volume K tris pos /\ center_of_mass K (tris ++ lid) pos = center_of_mass K tris pos.
Proof.
  move=> tris lid pos n N P. have Z : forall t, t \in lid -> det3 K (pos t.1.1) (pos t.1.2) (pos t.2) = 0.
  { move=> [[a b] c] T. have Ia : a \in [:: a; b; c] by rewrite !inE eqxx. have Ib : b \in [:: a; b; c] by rewrite !inE eqxx orbT. have Ic : c \in [:: a; b; c] by rewrite !inE eqxx !orbT.
    move: (P _ a T Ia) (P _ b T Ib) (P _ c T Ic). case: n N {P} => [[n1 n2] n3] N /=. case: (pos a) (pos b) (pos c) => [[a1 a2] a3] [[b1 b2] b3] [[c1 c2] c3] /= Pa Pb Pc.
    set D := det3 _ _ _ _. have ED : D = det3 K (a1, a2, a3) (b1, b2, b3) (c1, c2, c3) by []. rewrite /det3 /vdot /cross /= in ED.
    have M1 : n1 * D = 0. { transitivity ((n1 * a1 + n2 * a2 + n3 * a3) * (b2 * c3 - b3 * c2) + (n1 * b1 + n2 * b2 + n3 * b3) * (c2 * a3 - c3 * a2) + (n1 * c1 + n2 * c2 + n3 * c3) * (a2 * b3 - a3 * b2)); [rewrite ED; kring|by rewrite Pa Pb Pc !mul0r !addr0]. }
    have M2 : n2 * D = 0. { transitivity ((n1 * a1 + n2 * a2 + n3 * a3) * (b3 * c1 - b1 * c3) + (n1 * b1 + n2 * b2 + n3 * b3) * (c3 * a1 - c1 * a3) + (n1 * c1 + n2 * c2 + n3 * c3) * (a3 * b1 - a1 * b3)); [rewrite ED; kring|by rewrite Pa Pb Pc !mul0r !addr0]. }
    have M3 : n3 * D = 0. { transitivity ((n1 * a1 + n2 * a2 + n3 * a3) * (b1 * c2 - b2 * c1) + (n1 * b1 + n2 * b2 + n3 * b3) * (c1 * a2 - c2 * a1) + (n1 * c1 + n2 * c2 + n3 * c3) * (a1 * b2 - a2 * b1)); [rewrite ED; kring|by rewrite Pa Pb Pc !mul0r !addr0]. }
    apply/eqP/negPn/negP => ND. apply: N. move/eqP: M1. move/eqP: M2. move/eqP: M3. rewrite !mulf_eq0 (negbTE ND) !orbF => /eqP -> /eqP -> /eqP ->. by []. }
  split.
  - rewrite !volume_det big_cat /= [X in (_ + X) / _]big_seq_cond [X in (_ + X) / _]big1 ?addr0 // => t /andP [T _]. exact: Z.
  - have W : forall t, t \in lid -> tet_volume K pos t = 0 by move=> t T; rewrite tet_volume_det Z // normr0 mul0r.
    have E1 : sum K [seq tet_volume K pos t | t <- tris ++ lid] = sum K [seq tet_volume K pos t | t <- tris].
    { rewrite !sum_big big_cat /= [X in _ + X]big_seq_cond [X in _ + X]big1 ?addr0 // => t /andP [T _]. exact: W. }
    rewrite /center_of_mass E1. case: ifP => // _. congr Some. apply: coord_eq => k. rewrite !coord_scale !coord_vsum !big_map big_cat /= [X in _ * (_ + X)]big_seq_cond [X in _ * (_ + X)]big1 ?addr0 // => t /andP [T _]. by rewrite coord_scale W // mul0r.
Qed.
(** vertex_normals has one row for every vertex of the triangles, in increasing order, and is six times the derivative of the volume: exactly,
    since the volume is linear in each vertex. *)
Theorem C78_normals : forall tris (pos : nat -> K * K * K) v d, balanced (sides tris) -> (forall t, t \in tris -> uniq [:: t.1.1; t.1.2; t.2]) -> v \in used tris ->
  let N := nth (0, 0, 0) (vertex_normals K tris pos) (index v (used tris)) in
  volume K tris (fun w => if w == v then ((pos w).1.1 + d.1.1, (pos w).1.2 + d.1.2, (pos w).2 + d.2) else pos w) =
  volume K tris pos + (N.1.1 * d.1.1 + N.1.2 * d.1.2 + N.2 * d.2) / 6%:R.
Proof.
  move=> tris pos v d B U V N. rewrite (volume_moved K tris pos v d B U). congr (_ + _ / _). rewrite -(flat_sum K _ (fun x => vdot K x d) (triangle_normal K pos)) -vdot_vsum.
  rewrite /N /vertex_normals (nth_map 0%N) ?index_mem // nth_index //.
Qed.
Theorem C78_rows : forall tris (pos : nat -> K * K * K), size (vertex_normals K tris pos) = size (used tris) /\ size (vertex_areas K tris pos) = size (used tris) /\
  sorted ltn (used tris) /\ forall v, v \in used tris <-> exists2 t, t \in tris & v \in [:: t.1.1; t.1.2; t.2].
Proof.
  move=> tris pos. split; [by rewrite size_map|]. split; [by rewrite size_map|]. split.
  - rewrite ltn_sorted_uniq_leq used_uniq /=. apply: sort_sorted. exact: leq_total.
  - move=> v. rewrite used_mem. split=> [/hasP [t T H]|[t T H]]; [by exists t|]. apply/hasP. by exists t.
Qed.

(** ** C78 Area *)
Theorem C78_area : forall tris (pos : nat -> K * K * K) (a : nat * nat * nat -> K),
  (forall t, unsigned_volume K 2 3 (points K 3 [:: pos t.1.1; pos t.1.2; pos t.2]) = Util.Ok (a t)) -> area K tris pos = total K [seq a t | t <- tris].
Proof.
  move=> tris pos a A. rewrite /area sum_big mulr_suml total_big. apply: eq_bigr => t _. have := A t. rewrite norm_unsigned. by case.
Qed.
(** The areas of the vertices add up to twice the area, not to the area. *)
Theorem C78_vertex_areas_refuted : forall tris (pos : nat -> K * K * K), total K (vertex_areas K tris pos) = 2%:R * area K tris pos /\
  (0 < area K tris pos -> total K (vertex_areas K tris pos) <> area K tris pos).
Proof.
  move=> tris pos. have E : total K (vertex_areas K tris pos) = 2%:R * area K tris pos.
  { rewrite -[vertex_areas _ _ _]map_id total_big -(sum_big K _ (fun x => x)) map_id areas_total /area sum_big mulrC divfK // pnatr_eq0. by []. }
  split => // P. rewrite E => /eqP. rewrite -subr_eq0 mulr_natl mulr2n addrK. apply/negP. exact: lt0r_neq0.
Qed.

(** ** C78 An open surface *)
(** No ValueError is raised for a surface that is not closed; the value depends on where the surface is. *)
Definition far (pos : nat -> K * K * K) (h : K) (v : nat) : K * K * K := ((pos v).1.1, (pos v).1.2, (pos v).2 + h).
Definition corner (v : nat) : K * K * K := nth (0, 0, 0) [:: (0, 0, 0); (1, 0, 0); (0, 1, 0); (0, 0, 1)] v.
Theorem C78_open_refuted : ~ balanced (sides [:: (0%N, 1%N, 2%N)]) /\ forall h : K, volume K [:: (0%N, 1%N, 2%N)] (far corner h) = h / 6%:R.
Proof. split; [by move/(_ (0%N, 1%N))|]. move=> h. rewrite volume_det big_seq1 /det3 /vdot /cross /far /corner /=. congr (_ / _). kring. Qed.

(** ** C79 Centre of mass *)
Theorem C79_com_partial : forall tris tets (pos : nat -> K * K * K) (vol : nat * nat * nat * nat -> K), encloses K tris tets ->
  (forall a b c d, signed_volume K 3 3 (points K 4 [:: pos a; pos b; pos c; pos d]) = Util.Ok (vol (a, b, c, d))) ->
  let side t v := signed_volume K 3 3 (points K 4 [:: (0, 0, 0); pos t.1.1; pos t.1.2; pos t.2]) = Util.Ok v in
  (forall t v, t \in tris -> side t v -> 0 <= v) \/ (forall t v, t \in tris -> side t v -> v <= 0) ->
  total K [seq vol t | t <- tets] != 0 ->
  exists g, center_of_mass K tris pos = Some g /\
    forall k, nth 0 (coords K g) k * total K [seq vol t | t <- tets] =
      total K [seq vol t * ((nth 0 (coords K (pos t.1.1.1)) k + nth 0 (coords K (pos t.1.1.2)) k + nth 0 (coords K (pos t.1.2)) k + nth 0 (coords K (pos t.2)) k) / 4%:R) | t <- tets].
Proof.
  move=> tris tets pos vol E V side Sg NZ. set W := total K _ in NZ *.
  have Vl : W = volume K tris pos by rewrite (C78_fills tris tets pos vol E V). rewrite volume_det in Vl.
  have Sd : forall t, side t (det3 K (pos t.1.1) (pos t.1.2) (pos t.2) / 6%:R).
  { move=> t. rewrite /side signed_points. congr (Util.Ok (_ / _)). case: (pos t.1.1) (pos t.1.2) (pos t.2) => [[a1 a2] a3] [[b1 b2] b3] [[c1 c2] c3]. rewrite /det3 /vdot /cross /vsub /=. kring. }
  have S6 : 0 < (6%:R : K) by rewrite ltr0n.
  have [s [S2 Ab]] : exists s : K, s * s = 1 /\ forall t, t \in tris -> `|det3 K (pos t.1.1) (pos t.1.2) (pos t.2)| = s * det3 K (pos t.1.1) (pos t.1.2) (pos t.2).
  { case: Sg => Sg; [exists 1|exists (-1)]; (split; [by rewrite ?mulrNN mulr1|]) => t T; have := Sg t _ T (Sd t).
    - by rewrite ler_pdivl_mulr // mul0r mul1r => /ger0_norm.
    - by rewrite ler_pdivr_mulr // mul0r mulN1r => /ler0_norm. }
  have Tv : sum K [seq tet_volume K pos t | t <- tris] = s * W.
  { rewrite sum_big Vl mulrA mulr_sumr mulr_suml big_seq_cond [RHS]big_seq_cond. apply: eq_bigr => t /andP [T _]. by rewrite tet_volume_det Ab. }
  have Ns : s != 0. { apply/negP => /eqP Z. move: S2. rewrite Z mul0r => /eqP. by rewrite eq_sym oner_eq0. }
  rewrite /center_of_mass Tv mulf_eq0 (negbTE Ns) (negbTE NZ) /=. eexists. split; [reflexivity|]. move=> k. rewrite -/(coord K k _) coord_scale coord_vsum big_map.
  have Mo := E _ (moment_alt K pos k). rewrite (total_big K _ (fun t => det3 K (pos t.1.1) (pos t.1.2) (pos t.2) * (coord K k (pos t.1.1) + coord K k (pos t.1.2) + coord K k (pos t.2)))) total_big in Mo.
  rewrite (total_big K _ (fun t : nat * nat * nat * nat => vol t * ((nth 0 (coords K (pos t.1.1.1)) k + nth 0 (coords K (pos t.1.1.2)) k + nth 0 (coords K (pos t.1.2)) k + nth 0 (coords K (pos t.2)) k) / 4%:R))).
  rewrite (eq_bigr (fun t => around K (fun a b c => det3 K (pos a) (pos b) (pos c) * (coord K k (pos a) + coord K k (pos b) + coord K k (pos c))) t / 6%:R / 4%:R)).
  2:{ move=> [[[a b] c] d] _ /=. rewrite moment_tet. have := V a b c d. rewrite signed_points => [[<-]]. rewrite /coord. by rewrite mulrA -![_ * 6%:R^-1 * _]mulrA [6%:R^-1 * _]mulrC !mulrA. }
  rewrite -!mulr_suml -Mo. rewrite big_seq_cond (eq_bigr (fun t => s * (det3 K (pos t.1.1) (pos t.1.2) (pos t.2) * (coord K k (pos t.1.1) + coord K k (pos t.1.2) + coord K k (pos t.2)) / 6%:R / 4%:R))).
  2:{ move=> t /andP [T _]. rewrite coord_scale tet_volume_det (Ab t T) /tet_centroid coord_scale !coord_add coord_zero addr0. set x := det3 _ _ _ _. set y := coord K k _ + _. set z := (6%:R)^-1. set w := (4%:R)^-1. clearbody x y z w. kring. }
  rewrite -big_seq_cond -mulr_sumr -!mulr_suml invfM. set X := \sum_(t <- _) _. have Es : s^-1 = s. { apply: (mulfI Ns). by rewrite mulfV. } rewrite Es.
  transitivity ((s * s) * (W^-1 * W) * (X / 6%:R / 4%:R)). { kring. } by rewrite S2 mulVf // mulr1 mul1r.
Qed.

(** The tetrahedron with three edges along the axes, lifted by h: its centre of mass has height h + 1/4. *)
Definition skin : seq (nat * nat * nat) := [:: (1%N, 2%N, 3%N); (0%N, 3%N, 2%N); (0%N, 1%N, 3%N); (0%N, 2%N, 1%N)].
Theorem C79_lifted : forall h : K, 0 <= h -> encloses K skin [:: (0%N, 1%N, 2%N, 3%N)] /\
  signed_volume K 3 3 (points K 4 [seq far corner h v | v <- [:: 0%N; 1%N; 2%N; 3%N]]) = Util.Ok (6%:R^-1) /\
  center_of_mass K skin (far corner h) = Some (4%:R^-1, 4%:R^-1, (6%:R * h ^+ 2 + 4%:R * h + 1) / (4%:R * (1 + 2%:R * h))).
Proof.
  move=> h H. split; [|split].
  - move=> f _. rewrite /skin /=. kring.
  - rewrite /= signed_points. rewrite /far /corner /det3 /vdot /cross /vsub /=. transitivity (Util.Ok (1 / 6%:R : K)); [|by rewrite div1r]. congr (Util.Ok (_ / _)). kring.
  - have P1 : 0 <= 1 + h by rewrite addr_ge0 ?ler01. have H2 : 0 < 1 + 2%:R * h by rewrite ltr_spaddl ?ltr01 // mulr_ge0 ?ler0n.
    have D : forall t, tet_volume K (far corner h) t = `|det3 K (far corner h t.1.1) (far corner h t.1.2) (far corner h t.2)| / 6%:R by move=> t; exact: tet_volume_det.
    have V1 : tet_volume K (far corner h) (1%N, 2%N, 3%N) = (1 + h) / 6%:R. { rewrite D -[1 + h]ger0_norm //. congr (`|_| / _). rewrite /far /corner /det3 /vdot /cross /=. kring. }
    have V2 : tet_volume K (far corner h) (0%N, 3%N, 2%N) = 0. { rewrite D. have -> : det3 K (far corner h 0) (far corner h 3) (far corner h 2) = 0 by rewrite /far /corner /det3 /vdot /cross /=; kring. by rewrite normr0 mul0r. }
    have V3 : tet_volume K (far corner h) (0%N, 1%N, 3%N) = 0. { rewrite D. have -> : det3 K (far corner h 0) (far corner h 1) (far corner h 3) = 0 by rewrite /far /corner /det3 /vdot /cross /=; kring. by rewrite normr0 mul0r. }
    have V4 : tet_volume K (far corner h) (0%N, 2%N, 1%N) = h / 6%:R. { rewrite D -[in RHS](ger0_norm H) -[in RHS]normrN. congr (`|_| / _). rewrite /far /corner /det3 /vdot /cross /=. kring. }
    have N6 : (6%:R : K) != 0 by rewrite pnatr_eq0. have N4 : (4%:R : K) != 0 by rewrite pnatr_eq0. have NS := lt0r_neq0 H2.
    have ES : sum K [seq tet_volume K (far corner h) t | t <- skin] = (1 + 2%:R * h) / 6%:R. { rewrite sum_big /skin !big_cons big_nil V1 V2 V3 V4 !add0r addr0 -mulrDl. congr (_ / _). kring. }
    rewrite /center_of_mass ES. have S0 : 0 < (1 + 2%:R * h) / 6%:R by rewrite divr_gt0 ?ltr0n. rewrite (gt_eqF S0). congr Some. apply: coord_eq => k.
    rewrite coord_scale coord_vsum big_map /skin !big_cons big_nil !coord_scale V1 V2 V3 V4 !mul0r !add0r addr0 !coord_add coord_zero !addr0.
    set z := 6%:R^-1. set w := 4%:R^-1. have EZ : z * 6%:R = 1 by rewrite mulVf. have Sz : (1 + 2%:R * h) * z != 0 by exact: lt0r_neq0 S0.
    have Sl : forall x y : K, x = (1 + 2%:R * h) * z * y -> ((1 + 2%:R * h) * z)^-1 * x = y by move=> x y ->; rewrite mulKf.
    apply: Sl. have C0 : forall p q r : K, coord K 0 (p, q, r) = p by []. have C1 : forall p q r : K, coord K 1 (p, q, r) = q by []. have C2 : forall p q r : K, coord K 2 (p, q, r) = r by [].
    have C3 : forall l p, coord K l.+3 p = 0 by move=> l p; rewrite /coord /coords /= nth_nil.
    rewrite /far /corner. case: k => [|[|[|k]]]; rewrite ?C0 ?C1 ?C2 ?C3 /=; clearbody z.
    + clearbody w. kring.
    + clearbody w. kring.
    + rewrite invfM -/w. transitivity ((6%:R * h ^+ 2 + 4%:R * h + 1) * (z * w) * ((1 + 2%:R * h) * (1 + 2%:R * h)^-1)); [rewrite mulfV // mulr1; clearbody w; kring|]. set y := (_)^-1. clearbody y w. kring.
    + clearbody w. kring.
Qed.
Lemma com_corner : center_of_mass K skin corner = Some (4%:R^-1, 4%:R^-1, 4%:R^-1).
Proof.
  have [_ [_ C]] := C79_lifted 0 (lexx 0). have F : forall v, far corner 0 v = corner v by move=> v; rewrite /far addr0; case: (corner v) => [[? ?] ?].
  have V : forall t, tet_volume K (far corner 0) t = tet_volume K corner t by move=> t; rewrite !tet_volume_det !F.
  have Q : center_of_mass K skin (far corner 0) = center_of_mass K skin corner.
  { rewrite /center_of_mass (eq_map V). case: ifP => // _. congr (Some (vscale _ _ (vsum _ _))). apply: eq_map => t. by rewrite V /tet_centroid !F. }
  rewrite -Q C expr0n !mulr0 !add0r addr0 mulr1 div1r. by [].
Qed.
(** Lifted, the computed centre of mass is not lifted with it, and soon lies below all corners. *)
Theorem C79_translate_refuted : forall h : K, 0 < h -> forall g, center_of_mass K skin corner = Some g -> center_of_mass K skin (far corner h) <> Some (g.1.1, g.1.2, g.2 + h).
Proof.
  move=> h H g. rewrite com_corner => [[<-]] /=. have [_ [_ ->]] := C79_lifted h (ltW H). case=> EQ. have N4 : (4%:R : K) != 0 by rewrite pnatr_eq0. have H2 : 0 < 1 + 2%:R * h by rewrite ltr_spaddl ?ltr01 // mulr_ge0 ?ler0n // ltW.
  have P : 0 < 4%:R * (1 + 2%:R * h) by rewrite mulr_gt0 // ltr0n. have : (6%:R * h ^+ 2 + 4%:R * h + 1) = (4%:R^-1 + h) * (4%:R * (1 + 2%:R * h)) by rewrite -EQ divfK ?lt0r_neq0. rewrite [RHS]mulrDl mulKf // => /eqP.
  rewrite eq_sym -subr_eq0. have -> : 1 + 2%:R * h + h * (4%:R * (1 + 2%:R * h)) - (6%:R * h ^+ 2 + 4%:R * h + 1) = 2%:R * (h * (1 + h)) by kring. apply/negP. apply: lt0r_neq0. by rewrite !mulr_gt0 ?ltr0n // ltr_spaddl ?ltr01 // ltW.
Qed.
Theorem C79_outside_refuted : forall h : K, 0 < h -> 1 < 2%:R * h ^+ 2 -> exists x y z, center_of_mass K skin (far corner h) = Some (x, y, z) /\ forall v, z < (far corner h v).2.
Proof.
  move=> h H L. have [_ [_ ->]] := C79_lifted h (ltW H). do 3 eexists. split; [reflexivity|]. move=> v.
  have Le : h <= (far corner h v).2 by rewrite /far /= ler_addr /corner; case: v => [|[|[|[|v]]]] //=; rewrite ?ler01 // nth_nil.
  apply: lt_le_trans Le. rewrite ltr_pdivr_mulr. 2:{ apply: mulr_gt0; [by rewrite ltr0n|]. by rewrite ltr_spaddl ?ltr01 // mulr_ge0 ?ler0n // ltW. }
  rewrite -subr_gt0. have -> : h * (4%:R * (1 + 2%:R * h)) - (6%:R * h ^+ 2 + 4%:R * h + 1) = 2%:R * h ^+ 2 - 1 by kring. by rewrite subr_gt0.
Qed.

(** ** C78 Closed lines in the plane *)
Lemma closed_zero : forall edges (g : nat -> K), closed_line edges -> \sum_(e <- edges) g e.1 = \sum_(e <- edges) g e.2.
Proof.
  move=> edges g C. transitivity (\sum_(v <- [seq e.1 | e <- edges]) g v); [by rewrite big_map|]. transitivity (\sum_(v <- [seq e.2 | e <- edges]) g v); [|by rewrite big_map].
  apply: perm_big. apply/allP => v _ /=. rewrite !count_map. apply/eqP. exact: C.
Qed.
Lemma curve_cross : forall edges pos, curve_volume K true edges pos = Util.Ok (\sum_(e <- edges) ((pos e.1).1 * (pos e.2).2 - (pos e.1).2 * (pos e.2).1) / 2%:R).
Proof.
  move=> edges pos. rewrite /curve_volume /= sum_big mulr_suml. congr Util.Ok. apply: eq_bigr => e _. congr (_ / _). rewrite !big_ord_recl big_ord0 !mxE !det_mx11 !mxE /=.
  case: (pos e.1) (pos e.2) => [a1 a2] [b1 b2] /=. kfield. exact: N2.
Qed.
Theorem C78_curve : forall edges (pos : nat -> K * K) q (a : nat * nat -> K), closed_line edges ->
  (forall e, signed_volume K 2 2 (points2 K 3 [:: q; pos e.1; pos e.2]) = Util.Ok (a e)) -> curve_volume K true edges pos = Util.Ok (total K [seq a e | e <- edges]).
Proof.
  move=> edges pos q a C A. rewrite curve_cross total_big. congr Util.Ok.
  have E : forall e, a e = ((pos e.1).1 * (pos e.2).2 - (pos e.1).2 * (pos e.2).1) / 2%:R + (((q.2 * (pos e.2).1 - q.1 * (pos e.2).2) / 2%:R) - ((q.2 * (pos e.1).1 - q.1 * (pos e.1).2) / 2%:R)).
  { move=> e. have := A e. rewrite signed_square => [[<-]]. rewrite -!mulrBl -mulrDl. congr (_ / _). rewrite det22 !mxE /=. case: (pos e.1) (pos e.2) => [a1 a2] [b1 b2] /=. kring. }
  rewrite (eq_bigr _ (fun e _ => E e)) big_split sumrB /=. have -> := closed_zero edges (fun v => (q.2 * (pos v).1 - q.1 * (pos v).2) / 2%:R) C. by rewrite subrr addr0.
Qed.
(** A closed line one of whose edges is turned around is not refused; its value depends on where it is. *)
Theorem C78_turned_edge_refuted : forall h : K, let pos v := nth (0, 0) [:: (0, h); (1, h); (0, 1 + h)] v in
  ~ closed_line [:: (0%N, 1%N); (2%N, 1%N); (2%N, 0%N)] /\ curve_volume K true [:: (0%N, 1%N); (2%N, 1%N); (2%N, 0%N)] pos = Util.Ok (- (1 + 2%:R * h) / 2%:R).
Proof.
  move=> h pos. split; [by move/(_ 2%N)|]. rewrite curve_cross !big_cons big_nil addr0 -!mulrDl /=. congr (Util.Ok (_ / _)). kring.
Qed.
End Surf.

Section Examples.
Variable K : rcfType.
Add Field Kf2 : (K_field K).
Ltac kring := kprep K; ring.
Lemma perm_balanced : forall edges, perm_eq edges [seq turned e | e <- edges] -> balanced edges.
Proof.
  move=> edges P e. have TT : forall x, turned (turned x) = x by case. move/permP: P => /(_ (pred1 e)) ->. rewrite count_map. apply: eq_count => x /=. apply/eqP/eqP => [<-|->]; by rewrite TT.
Qed.
(** A tetrahedron: closed, its triangles have distinct corners, and encloses one sixth wherever it is. *)
Example C78_example : balanced (sides skin) /\ (forall t, t \in skin -> uniq [:: t.1.1; t.1.2; t.2]) /\ used skin = [:: 0%N; 1%N; 2%N; 3%N] /\
  forall h : K, volume K skin (far K (corner K) h) = 6%:R^-1.
Proof.
  split; [by apply: perm_balanced; vm_compute|]. split; [by apply/allP; vm_compute|]. split; [by vm_compute|].
  move=> h. rewrite volume_det /skin !big_cons big_nil /det3 /vdot /cross /far /corner /=. rewrite -[RHS]div1r. congr (_ / _). kring.
Qed.
(** The tetrahedron without its side in the plane z = 0, as after clipping. *)
Example C78_cut_example : volume K [:: (1%N, 2%N, 3%N); (0%N, 3%N, 2%N); (0%N, 1%N, 3%N)] (corner K) = 6%:R^-1.
Proof.
  have E : volume K skin (corner K) = 6%:R^-1. { rewrite volume_det /skin !big_cons big_nil /det3 /vdot /cross /corner /= -[RHS]div1r. congr (_ / _). kring. }
  have N : (0, 0, 1) <> (0, 0, 0) :> K * K * K by move=> [] /eqP; rewrite oner_eq0.
  have [|<- _] := C78_cut K [:: (1%N, 2%N, 3%N); (0%N, 3%N, 2%N); (0%N, 1%N, 3%N)] [:: (0%N, 2%N, 1%N)] (corner K) (0, 0, 1) N; [|exact: E].
  move=> t v. rewrite mem_seq1 => /eqP -> /=. rewrite !inE => /or3P [] /eqP -> /=; rewrite /corner /=; kring.
Qed.
(** Two tetrahedra with a common side *)
Example C78_two : encloses K [:: (0%N, 3%N, 2%N); (0%N, 1%N, 3%N); (0%N, 2%N, 1%N); (4%N, 2%N, 3%N); (4%N, 1%N, 2%N); (4%N, 3%N, 1%N)] [:: (0%N, 1%N, 2%N, 3%N); (4%N, 1%N, 3%N, 2%N)].
Proof. move=> f A /=. have [R T] := A 3%N 1%N 2%N. have E : f 1%N 3%N 2%N = - f 1%N 2%N 3%N by rewrite R T. rewrite E. kring. Qed.
(** The same tetrahedron at the origin: all sides are positive, so C79_com_partial applies. *)
Example C79_example : encloses K skin [:: (0%N, 1%N, 2%N, 3%N)] /\
  (forall t v, t \in skin -> signed_volume K 3 3 (points K 4 [:: (0, 0, 0); corner K t.1.1; corner K t.1.2; corner K t.2]) = Util.Ok v -> 0 <= v) /\
  center_of_mass K skin (corner K) = Some (4%:R^-1, 4%:R^-1, 4%:R^-1).
Proof.
  have [E [_ C]] := C79_lifted K 0 (lexx 0). split => //. split.
  - have L : forall x : K, x = 0 \/ x = 1 -> 0 <= x by move=> x [] ->; rewrite ?ler01 ?lexx.
    move=> t v T. rewrite signed_points => [[<-]]. apply: divr_ge0; [|by rewrite ler0n]. move: T. rewrite /skin !inE => /or4P [] /eqP -> /=; rewrite /corner /det3 /vdot /cross /vsub /=; apply: L; first [left; kring | right; kring].
  - exact: com_corner.
Qed.
(** The unit square *)
Example C78_curve_example : closed_line [:: (0%N, 1%N); (1%N, 2%N); (2%N, 3%N); (3%N, 0%N)] /\
  curve_volume K true [:: (0%N, 1%N); (1%N, 2%N); (2%N, 3%N); (3%N, 0%N)] (fun v => nth (0, 0) [:: (0, 0); (1, 0); (1, 1); (0, 1)] v) = Util.Ok 1.
Proof.
  split; [by case=> [|[|[|[|v]]]]|]. rewrite curve_cross !big_cons big_nil addr0 -!mulrDl /=. congr Util.Ok. rewrite -[RHS](@mulfK _ 2%:R) ?pnatr_eq0 //. congr (_ / _). kring.
Qed.
End Examples.
Print Assumptions C78_fills.
Print Assumptions C78_cone.
Print Assumptions C78_translate.
Print Assumptions C78_linear.
Print Assumptions C78_turn.
Print Assumptions C78_normals.
Print Assumptions C78_rows.
Print Assumptions C78_area.
Print Assumptions C78_vertex_areas_refuted.
Print Assumptions C78_open_refuted.
Print Assumptions C79_com_partial.
Print Assumptions C79_lifted.
Print Assumptions C79_translate_refuted.
Print Assumptions C79_outside_refuted.
Print Assumptions C78_curve.
Print Assumptions C78_turned_edge_refuted.
Print Assumptions C78_cut.
