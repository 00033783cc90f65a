(** C90: the metric of meshes on the sphere (pycomplex/complex/simplicial/spherical.py:115-195). *)
Require Import Reals List Arith ZArith Bool Lia Lra Permutation.
From Verif Require Import Util SimpModel SimpSpec BdryModel SubdModel SubdSpec TopProofs OrientProofs SelProofs SimpProps CompProps
  BaryProofs FundProofs SphModel SphSpec SphProofs SphProps SMetModel SMetSpec SMetProofs.
Import ListNotations.
Local Open Scope R_scope.

(** What the theorems assume: an oriented mesh of arcs or triangles on the unit sphere, with the centres of its elements
    inside of the elements. *)
Definition sphere_mesh (row_leb : simplex -> simplex -> bool) (sat : list (Z * Z) -> option (list Z)) (n : nat) (rows : list simplex) (t : topology)
    (d : nat) (vertices : nat -> list R) (bary : nat -> nat -> list R) : Prop :=
  simplices_ok n rows /\ from_simplices row_leb n rows = Ok t /\ (n <= 2)%nat /\ (n = 2%nat -> d = 3%nat) /\
  is_oriented sat t = Ok true /\ on_unit_sphere t d vertices /\ inner_centres n t bary.

Ltac open_mesh M Hn T L2 HD OR SS CC :=
  let OK := fresh in let B := fresh in destruct M as (OK & B & L2 & HD & OR & SS & CC); destruct (from_simplices_top_ok _ _ _ _ OK B) as [Hn T].
Ltac two n Hn L2 H := let H' := fresh in assert (H' : n = 1%nat \/ n = 2%nat) by lia; destruct H' as [H|H].

(** The metric is computed: one number for every element and its dual, points have measure one. *)
Theorem C90_shape : forall row_leb sat n rows t d vertices bary radius, sphere_mesh row_leb sat n rows t d vertices bary ->
  exists P D, metric sat t d vertices bary radius = Ok (P, D) /\ length P = S n /\ length D = S n /\
  (forall k, (k <= n)%nat -> length (nth k P []) = n_elements t k /\ length (nth k D []) = n_elements t (n - k)) /\
  (forall i, (i < n_elements t 0)%nat -> nth i (nth 0 P []) None = Some 1) /\ (forall i, (i < n_elements t n)%nat -> nth i (nth 0 D []) None = Some 1).
Proof.
  intros row_leb sat n rows t d vertices bary radius M. open_mesh M Hn T L2 HD OR SS CC.
  assert (One : forall N i, (i < N)%nat -> nth i (ones N) None = Some 1) by (intros N; unfold ones; induction N; intros [|i] Hi; cbn; auto; try lia; apply IHN; lia).
  two n Hn L2 E.
  - rewrite (metric_curve n rows t Hn L2 T d vertices bary SS CC HD sat radius OR E). eexists. eexists. split; [reflexivity|]. rewrite E in *. do 2 (split; [reflexivity|]). split; [|split; intros i Hi; apply One; auto].
    intros [|[|]] Hk; cbn [nth Nat.sub]; try lia; unfold scaled, ones; rewrite ?map_length, ?repeat_length, ?sums_length; auto.
  - rewrite (metric_surface n rows t Hn L2 T d vertices bary SS CC HD sat radius OR E). eexists. eexists. split; [reflexivity|]. rewrite E in *. do 2 (split; [reflexivity|]). split; [|split; intros i Hi; apply One; auto].
    intros [|[|[|]]] Hk; cbn [nth Nat.sub]; try lia; unfold scaled, ones; rewrite ?map_length, ?repeat_length, ?sums_length, ?seq_length; auto.
Qed.
Print Assumptions C90_shape.

(** The primal measure of an edge is the length of its arc. *)
Theorem C90_edges : forall row_leb sat n rows t d vertices bary radius P D, sphere_mesh row_leb sat n rows t d vertices bary ->
  metric sat t d vertices bary radius = Ok (P, D) -> forall e a b, (e < n_elements t 1)%nat -> element t 1 e = [a; b] ->
  exists l, edge_length (vertices a) (vertices b) = Some l /\ nth e (nth 1 P []) None = Some (l * radius).
Proof.
  intros row_leb sat n rows t d vertices bary radius P D M H e a b He Ee. open_mesh M Hn T L2 HD OR SS CC.
  destruct (arc_halves n rows t Hn L2 T d vertices bary SS CC HD e a b He Ee) as [A1 A2]. exists (arc (vertices a) (vertices b)). split; auto.
  two n Hn L2 E.
  - rewrite (metric_curve n rows t Hn L2 T d vertices bary SS CC HD sat radius OR E) in H. injection H as <- <-. cbn [nth]. unfold sums. rewrite scaled_some, nth_sums by auto.
    f_equal. match goal with |- ?x * _ = ?y * _ => replace x with y; [cbn; ring|symmetry] end.
    subst n. pose proof (rows_of_top 1 rows t Hn L2 T d vertices bary SS CC HD e He) as Q. unfold block in Q. cbn [tails Nat.eqb] in Q. replace (nth e rows []) with [a; b] in Q by (rewrite <- Ee; unfold element; rewrite (to_top _ _ _ T); auto).
    rewrite (Rsum_perm _ _ (Permutation_map _ Q)). cbn [map app]. unfold Rsum, half. cbn [fold_right nth].
    rewrite !(pos_vertex 1 rows t Hn L2 T d vertices bary SS CC HD) by (apply (corner_lt 1 rows t Hn L2 T d vertices bary SS CC HD 1 e); auto; unfold corners; unfold element in Ee; rewrite Ee; cbn; auto). lra.
  - rewrite (metric_surface n rows t Hn L2 T d vertices bary SS CC HD sat radius OR E) in H. injection H as <- <-. cbn [nth]. rewrite scaled_some, nth_sums by auto.
    f_equal. match goal with |- ?x * _ = ?y * _ => replace x with y; [cbn; ring|symmetry] end. apply (edge_value n rows t Hn L2 T d vertices bary SS CC HD e a b He E Ee).
Qed.
Print Assumptions C90_edges.

(** The primal measure of a triangle is its area on the sphere. *)
Theorem C90_triangles : forall row_leb sat rows t d vertices bary radius P D, sphere_mesh row_leb sat 2 rows t d vertices bary ->
  metric sat t d vertices bary radius = Ok (P, D) -> forall f a b c, (f < n_elements t 2)%nat -> element t 2 f = [a; b; c] ->
  nth f (nth 2 P []) None = Some (triangle_area_from_corners (vertices a) (vertices b) (vertices c) * radius ^ 2).
Proof.
  intros row_leb sat rows t d vertices bary radius P D M H f a b c Hf Ef. open_mesh M Hn T L2 HD OR SS CC.
  rewrite (metric_surface 2 rows t Hn L2 T d vertices bary SS CC HD sat radius OR eq_refl) in H. injection H as <- <-. cbn [nth]. unfold sums. rewrite scaled_some, nth_sums by auto.
  do 2 f_equal. apply (face_value 2 rows t Hn L2 T d vertices bary SS CC HD f a b c Hf eq_refl Ef).
Qed.
Print Assumptions C90_triangles.

(** The dual measure of an edge of a surface is the length of the arcs from its centre to the centres of the triangles at
    the edge. *)
Theorem C90_dual_edges : forall row_leb sat rows t d vertices bary radius P D, sphere_mesh row_leb sat 2 rows t d vertices bary ->
  metric sat t d vertices bary radius = Ok (P, D) -> forall e m q, (e < n_elements t 1)%nat ->
  on_sphere d m -> central (map vertices (element t 1 e)) (bary 1%nat e) m ->
  (forall f, (f < n_elements t 2)%nat -> on_sphere d (q f) /\ central (map vertices (element t 2 f)) (bary 2%nat f) (q f)) ->
  exists faces s, NoDup faces /\ (forall f, In f faces <-> (f < n_elements t 2)%nat /\ incl (element t 1 e) (element t 2 f)) /\
    adds_to (map (fun f => edge_length m (q f)) faces) s /\ nth e (nth 1 D []) None = Some (s * radius).
Proof.
  intros row_leb sat rows t d vertices bary radius P D M H e m q He Om Cm Q. open_mesh M Hn T L2 HD OR SS CC.
  rewrite (metric_surface 2 rows t Hn L2 T d vertices bary SS CC HD sat radius OR eq_refl) in H. injection H as <- <-. cbn [nth]. unfold sums. rewrite !scaled_some, nth_sums by auto.
  exists (around t e), (Rsum (map (fun f => arc (pos t d vertices bary 1 e) (pos t d vertices bary 2 f)) (around t e))). split; [apply NoDup_filter, seq_NoDup|]. split.
  - intros f. unfold around. rewrite filter_In, in_seq. unfold inclb. fold (element t 1 e) (element t 2 f) (corners t 1 e) (corners t 2 f). destruct (incl_dec' _ _) as [I|I]; split; intros [A B]; split; auto; try lia; try discriminate.
  - split; [|f_equal; rewrite (dual_edge_value 2 rows t Hn L2 T d vertices bary SS CC HD e He eq_refl); cbn; ring].
    rewrite (map_ext_in _ (fun f => Some (arc (pos t d vertices bary 1 e) (pos t d vertices bary 2 f)))); [apply adds_to_map|]. intros f Hf. apply filter_In in Hf as [Hf _]. apply in_seq in Hf. destruct (Q f ltac:(lia)) as [Qo Qc].
    rewrite (pos_unique 2 rows t Hn L2 T d vertices bary SS CC HD 1 e m Hn He Om Cm), (pos_unique 2 rows t Hn L2 T d vertices bary SS CC HD 2 f (q f) ltac:(lia) ltac:(lia) Qo Qc).
    apply (pos_arc 2 rows t Hn L2 T d vertices bary SS CC HD); auto; lia.
Qed.
Print Assumptions C90_dual_edges.

(** The dual measure of a vertex of a surface is the sum of the areas of the small triangles around it, each with corners at
    the vertex, the centre of an edge and the centre of a triangle at this edge. *)
Theorem C90_dual_cells : forall row_leb sat rows t d vertices bary radius P D, sphere_mesh row_leb sat 2 rows t d vertices bary ->
  metric sat t d vertices bary radius = Ok (P, D) -> forall v m q, (v < n_elements t 0)%nat ->
  (forall e, (e < n_elements t 1)%nat -> on_sphere d (m e) /\ central (map vertices (element t 1 e)) (bary 1%nat e) (m e)) ->
  (forall f, (f < n_elements t 2)%nat -> on_sphere d (q f) /\ central (map vertices (element t 2 f)) (bary 2%nat f) (q f)) ->
  exists pairs s, NoDup pairs /\
    (forall e f, In (e, f) pairs <-> (e < n_elements t 1)%nat /\ (f < n_elements t 2)%nat /\ In v (element t 1 e) /\ incl (element t 1 e) (element t 2 f)) /\
    adds_to (map (fun ef => Some (triangle_area_from_corners (vertices v) (m (fst ef)) (q (snd ef)))) pairs) s /\ nth v (nth 2 D []) None = Some (s * radius ^ 2).
Proof.
  intros row_leb sat rows t d vertices bary radius P D M H v m q Hv Qm Q. open_mesh M Hn T L2 HD OR SS CC.
  rewrite (metric_surface 2 rows t Hn L2 T d vertices bary SS CC HD sat radius OR eq_refl) in H. injection H as <- <-. cbn [nth]. unfold sums. rewrite !scaled_some, nth_sums by auto.
  set (L := filter (fun row => nth 0 row 0%nat =? v) (BaryProofs.D 2 rows t)).
  assert (HL : forall row, In row L -> exists e f, row = [v; e; f] /\ is_flag 2 t f row).
  { intros row Hr. apply filter_In in Hr as [Hr Ev]. apply Nat.eqb_eq in Ev. apply (D_in 2 rows t Hn T) in Hr as (j & Hj & F). pose proof F as (Lr & Ej & _). destruct row as [|v' [|e [|f [|]]]]; cbn in Lr; try lia. cbn in Ev, Ej. subst v' j. exists e, f. auto. }
  exists (map (fun row => (nth 1 row 0%nat, nth 2 row 0%nat)) L), (Rsum (map (tri t d vertices bary) L)).
  split; [|split; [|split]].
  - apply NoDup_map_inj; [|apply NoDup_filter, (D_nodup 2 rows t Hn T)]. intros x y Hx Hy E. destruct (HL x Hx) as (e & f & -> & _). destruct (HL y Hy) as (e' & f' & -> & _). cbn in E. congruence.
  - intros e f. rewrite in_map_iff. split.
    + intros (row & E & Hr). destruct (HL row Hr) as (e' & f' & -> & F). cbn in E. injection E as -> ->. destruct F as (_ & _ & B & I). pose proof (B 1%nat ltac:(lia)) as B1. pose proof (B 2%nat ltac:(lia)) as B2.
      split; auto. split; auto. split; [|apply (I 1%nat); lia]. apply (I 0%nat ltac:(lia)). change (In v (el t 0 v)). rewrite (vert_el 2 rows t T v Hv). left; auto.
    + intros (He & Hf & Iv & I). exists [v; e; f]. split; auto. apply filter_In. split; [|cbn; apply Nat.eqb_refl]. apply (D_in 2 rows t Hn T). exists f. split; [rewrite <- (n_top 2 rows t T); auto|].
      split; [reflexivity|]. split; [reflexivity|]. split; [intros [|[|[|]]] Hk; cbn; auto; lia|]. intros [|[|]] Hk; cbn; try lia; auto. intros x Hx. change (In x (el t 0 v)) in Hx. rewrite (vert_el 2 rows t T v Hv) in Hx. destruct Hx as [<-|[]]. auto.
  - rewrite map_map. rewrite (map_ext_in _ (fun row => Some (tri t d vertices bary row))); [apply adds_to_map|]. intros row Hr. destruct (HL row Hr) as (e & f & -> & (_ & _ & B & _)).
    pose proof (B 1%nat ltac:(lia)) as B1. pose proof (B 2%nat ltac:(lia)) as B2. cbn in B1, B2. unfold tri. cbn [fst snd nth]. destruct (Qm e B1) as [O1 C1]. destruct (Q f B2) as [O2 C2].
    rewrite (pos_vertex 2 rows t Hn L2 T d vertices bary SS CC HD v Hv), <- (pos_unique 2 rows t Hn L2 T d vertices bary SS CC HD 1 e (m e) Hn B1 O1 C1), <- (pos_unique 2 rows t Hn L2 T d vertices bary SS CC HD 2 f (q f) ltac:(lia) B2 O2 C2). auto.
  - reflexivity.
Qed.
Print Assumptions C90_dual_cells.

(** The dual measure of a vertex of a curve is the length of the arcs to the centres of the edges at the vertex. *)
Theorem C90_dual_arcs : forall row_leb sat rows t d vertices bary radius P D, sphere_mesh row_leb sat 1 rows t d vertices bary ->
  metric sat t d vertices bary radius = Ok (P, D) -> forall v m, (v < n_elements t 0)%nat ->
  (forall e, (e < n_elements t 1)%nat -> on_sphere d (m e) /\ central (map vertices (element t 1 e)) (bary 1%nat e) (m e)) ->
  exists edges s, NoDup edges /\ (forall e, In e edges <-> (e < n_elements t 1)%nat /\ In v (element t 1 e)) /\
    adds_to (map (fun e => edge_length (vertices v) (m e)) edges) s /\ nth v (nth 1 D []) None = Some (s * radius).
Proof.
  intros row_leb sat rows t d vertices bary radius P D M H v m Hv Qm. open_mesh M Hn T L2 HD OR SS CC.
  rewrite (metric_curve 1 rows t Hn L2 T d vertices bary SS CC HD sat radius OR eq_refl) in H. injection H as <- <-. cbn [nth]. unfold sums. rewrite !scaled_some, nth_sums by auto.
  set (L := filter (fun row => nth 0 row 0%nat =? v) (BaryProofs.D 1 rows t)).
  assert (HL : forall row, In row L -> exists e, row = [v; e] /\ is_flag 1 t e row).
  { intros row Hr. apply filter_In in Hr as [Hr Ev]. apply Nat.eqb_eq in Ev. apply (D_in 1 rows t Hn T) in Hr as (j & Hj & F). pose proof F as (Lr & Ej & _). destruct row as [|v' [|e [|]]]; cbn in Lr; try lia. cbn in Ev, Ej. subst v' j. exists e. auto. }
  exists (map (fun row => nth 1 row 0%nat) L), (Rsum (map (half t d vertices bary 0) L)).
  split; [|split; [|split]].
  - apply NoDup_map_inj; [|apply NoDup_filter, (D_nodup 1 rows t Hn T)]. intros x y Hx Hy E. destruct (HL x Hx) as (e & -> & _). destruct (HL y Hy) as (e' & -> & _). cbn in E. congruence.
  - intros e. rewrite in_map_iff. split.
    + intros (row & E & Hr). destruct (HL row Hr) as (e' & -> & F). cbn in E. subst e'. destruct F as (_ & _ & B & I). pose proof (B 1%nat ltac:(lia)) as B1.
      split; auto. apply (I 0%nat ltac:(lia)). change (In v (el t 0 v)). rewrite (vert_el 1 rows t T v Hv). left; auto.
    + intros (He & Iv). exists [v; e]. split; auto. apply filter_In. split; [|cbn; apply Nat.eqb_refl]. apply (D_in 1 rows t Hn T). exists e. split; [rewrite <- (n_top 1 rows t T); auto|].
      split; [reflexivity|]. split; [reflexivity|]. split; [intros [|[|]] Hk; cbn; auto; lia|]. intros [|] Hk; cbn; try lia; auto. intros x Hx. change (In x (el t 0 v)) in Hx. rewrite (vert_el 1 rows t T v Hv) in Hx. destruct Hx as [<-|[]]. auto.
  - rewrite map_map. rewrite (map_ext_in _ (fun row => Some (half t d vertices bary 0 row))); [apply adds_to_map|]. intros row Hr. destruct (HL row Hr) as (e & -> & (_ & _ & B & _)).
    pose proof (B 1%nat ltac:(lia)) as B1. cbn in B1. unfold half. cbn [nth]. destruct (Qm e B1) as [O1 C1].
    rewrite <- (pos_arc 1 rows t Hn L2 T d vertices bary SS CC HD) by (auto; lia).
    rewrite (pos_vertex 1 rows t Hn L2 T d vertices bary SS CC HD v Hv), <- (pos_unique 1 rows t Hn L2 T d vertices bary SS CC HD 1 e (m e) Hn B1 O1 C1). auto.
  - f_equal. cbn. fold L. ring.
Qed.
Print Assumptions C90_dual_arcs.

(** The elements of full dimension and the dual cells of the vertices cover the same part of the sphere. *)
Theorem C90_total : forall row_leb sat n rows t d vertices bary radius P D, sphere_mesh row_leb sat n rows t d vertices bary ->
  metric sat t d vertices bary radius = Ok (P, D) -> exists s, adds_to (nth n P []) s /\ adds_to (nth n D []) s.
Proof.
  intros row_leb sat n rows t d vertices bary radius P D M H. open_mesh M Hn T L2 HD OR SS CC. two n Hn L2 E; subst n.
  - rewrite (metric_curve 1 rows t Hn L2 T d vertices bary SS CC HD sat radius OR eq_refl) in H. injection H as <- <-. eexists.
    split; apply adds_scaled; apply (sums_total 1 rows t Hn L2 T d vertices bary SS CC HD sat radius OR); lia.
  - rewrite (metric_surface 2 rows t Hn L2 T d vertices bary SS CC HD sat radius OR eq_refl) in H. injection H as <- <-. eexists.
    split; apply adds_scaled; apply (sums_total 2 rows t Hn L2 T d vertices bary SS CC HD sat radius OR); lia.
Qed.
Print Assumptions C90_total.

(** Meshes that are not oriented, not well centred or of more than two dimensions are refused, and surfaces outside of
    3-space fail. *)
Theorem C90_refused : forall row_leb sat n rows t d vertices bary radius o, simplices_ok n rows -> from_simplices row_leb n rows = Ok t -> is_oriented sat t = Ok o ->
  (o = false \/ (2 < n)%nat \/ (exists k e b, (k <= n)%nat /\ (e < n_elements t k)%nat /\ In b (bary k e) /\ b <= 0) ->
   metric sat t d vertices bary radius = Err AssertionError) /\
  (o = true -> n = 2%nat -> d <> 3%nat -> inner_centres n t bary -> metric sat t d vertices bary radius = Err ValueError).
Proof.
  intros row_leb sat n rows t d vertices bary radius o OK B OR. destruct (from_simplices_top_ok _ _ _ _ OK B) as [Hn T]. unfold metric. rewrite OR. cbn [bind]. rewrite (top_n_dim n rows t T). split.
  - intros H. destruct o; [|reflexivity]. cbn [negb]. destruct (is_well_centered t bary) eqn:W; [|reflexivity]. cbn [negb]. destruct H as [H|[H|H]]; [discriminate| |].
    + destruct (Nat.ltb_spec 2 n); [auto|lia].
    + exfalso. destruct H as (k & e & b & Hk & He & Hb & N). unfold is_well_centered in W. rewrite (top_n_dim n rows t T) in W. rewrite forallb_forall in W. specialize (W k ltac:(apply in_seq; lia)). rewrite forallb_forall in W. specialize (W e ltac:(apply in_seq; lia)). rewrite forallb_forall in W. specialize (W b Hb). destruct (Rlt_dec 0 b); [lra|discriminate].
  - intros -> H2 Nd C. cbn [negb].
    assert (W : is_well_centered t bary = true).
    { unfold is_well_centered. rewrite (top_n_dim n rows t T). apply forallb_forall. intros k Hk. apply in_seq in Hk. apply forallb_forall. intros e He. apply in_seq in He. apply forallb_forall. intros b Hb. destruct (C k e ltac:(lia) ltac:(lia)) as [_ P]. destruct (Rlt_dec 0 b) as [|N]; [auto|]. exfalso. auto. }
    rewrite W. cbn [negb]. subst n. cbn [Nat.ltb Nat.leb Nat.sub]. rewrite (fundamental_domains_ok 2 rows t Hn T). cbn [bind].
    assert (V1 : forall lo l, exists q, mapM (volume t d vertices bary lo 1) l = Ok q).
    { intros lo l. induction l as [|row l [q IH]]; [exists []; auto|]. cbn [mapM]. unfold volume at 1. cbn [Nat.eqb andb seq map]. destruct (position t d vertices bary lo (nth lo row 0%nat)); [destruct (position t d vertices bary (S lo) (nth (S lo) row 0%nat))|]; cbn [all_some fold_right unsigned_volume bind]; rewrite IH; cbn [bind]; eauto. }
    cbn [seq mapM map]. set (DD := flat_map _ _) in *. destruct (V1 0%nat DD) as [p ->]. destruct (V1 1%nat DD) as [q ->]. cbn [bind].
    assert (NE : exists row l, DD = row :: l).
    { destruct OK as [NE _]. pose proof (block_length 2 rows t Hn T 0) as BL. destruct rows as [|r0 rows0]; [contradiction|]. specialize (BL ltac:(cbn; lia)). unfold DD. cbn [length seq flat_map]. destruct (block 2 (r0 :: rows0) t 0) as [|row l]; [discriminate|]. exists row. eexists. reflexivity. }
    destruct NE as (row & l & ->). cbn [mapM]. unfold volume at 1. cbn [Nat.eqb andb]. destruct (Nat.eqb_spec d 3); [contradiction|]. reflexivity.
Qed.
Print Assumptions C90_refused.

(** ---- the octahedron, a mesh of the whole sphere ---- *)
Definition octa : list simplex := [[0;2;4]; [2;1;4]; [1;3;4]; [3;0;4]; [2;0;5]; [1;2;5]; [3;1;5]; [0;3;5]]%nat.
Definition octa_t : topology := Eval vm_compute in built 2 octa.
Lemma octa_ok : simplices_ok 2 octa.
Proof. split; [discriminate|]. repeat constructor; cbn; intuition discriminate. Qed.
Lemma octa_built : from_simplices lex_leb 2 octa = Ok octa_t.
Proof. vm_compute. reflexivity. Qed.
Definition octa_vertices (v : nat) : vec :=
  match v with 0%nat => [1; 0; 0] | 1%nat => [-1; 0; 0] | 2%nat => [0; 1; 0] | 3%nat => [0; -1; 0] | 4%nat => [0; 0; 1] | _ => [0; 0; -1] end.
Definition octa_bary (k e : nat) : list R := repeat (/ INR (S k)) (S k).
Lemma octant : forall a b c, on_sphere 3 a -> on_sphere 3 b -> on_sphere 3 c -> dot a b = 0 -> dot b c = 0 -> dot c a = 0 -> independent a b c ->
  triangle_area_from_corners a b c = PI / 2.
Proof.
  intros a b c A B C AB BC CA I. apply on_sphere_dot in A as [La Da]. apply on_sphere_dot in B as [Lb Db]. apply on_sphere_dot in C as [Lc Dc].
  destruct (area_indep a b c La Lb Lc I) as [-> _]. unfold excess, ang, cosine. rewrite !lagrange by auto. rewrite !(dot_comm b a), !(dot_comm c b), !(dot_comm a c), AB, BC, CA, Da, Db, Dc.
  repeat match goal with |- context [acos (?n / ?d)] => replace (n / d) with 0 by (unfold Rdiv; ring) end. rewrite acos_0. field.
Qed.
Lemma octa_mesh : sphere_mesh lex_leb brute_sat 2 octa octa_t 3 octa_vertices octa_bary.
Proof.
  split; [apply octa_ok|]. split; [apply octa_built|]. split; [auto|]. split; [auto|]. split; [vm_compute; reflexivity|]. split; [split; [|split]|].
  - intros v _. do 5 (destruct v as [|v]; [split; [reflexivity|cbn; ring]|]). split; [reflexivity|cbn; ring].
  - intros e a b He E. change (e < 12)%nat in He. do 12 (destruct e as [|e]; [injection E as <- <-; cbn; intros H; injection H; intros; lra|]). lia.
  - intros f a b c Hf E. change (f < 8)%nat in Hf. do 8 (destruct f as [|f]; [injection E as <- <- <-; apply indep_det3; [reflexivity|reflexivity|reflexivity|unfold det3; cbn; lra]|]). lia.
  - intros k e Hk He. split; [apply repeat_length|]. intros b Hb. apply repeat_spec in Hb. subst b. apply Rinv_0_lt_compat, lt_0_INR. lia.
Qed.
Example C90_example : exists P D, metric brute_sat octa_t 3 octa_vertices octa_bary 2 = Ok (P, D) /\
  nth 1 P [] = repeat (Some PI) 12 /\ nth 2 P [] = repeat (Some (2 * PI)) 8 /\ adds_to (nth 2 P []) (16 * PI) /\ adds_to (nth 2 D []) (16 * PI).
Proof.
  pose proof octa_mesh as M. destruct (C90_shape lex_leb brute_sat 2 octa octa_t 3 octa_vertices octa_bary 2 M) as (P & D & E & _ & _ & L & _). exists P, D. split; [exact E|].
  assert (E1 : nth 1 P [] = repeat (Some PI) 12).
  { apply (nth_ext _ _ None None); [rewrite repeat_length; apply (L 1%nat); lia|]. intros e He. rewrite (proj1 (L 1%nat ltac:(lia))) in He. change (e < 12)%nat in He.
    assert (Q : forall a b, element octa_t 1 e = [a; b] -> dot (octa_vertices a) (octa_vertices b) = 0 -> nth e (nth 1 P []) None = Some PI).
    { intros a b Ee Z. destruct (C90_edges _ _ _ _ _ _ _ _ _ _ _ M E e a b He Ee) as (l & E1 & ->). destruct M as (_ & _ & _ & _ & _ & (On & _) & _).
      unfold edge_length, arccos in E1. rewrite Z in E1. destruct (Rle_dec (-1) 0); [|lra]. destruct (Rle_dec 0 1); [|lra]. injection E1 as <-. rewrite acos_0. f_equal. field. }
    rewrite (nth_indep (repeat (Some PI) 12) None (Some PI)) by (rewrite repeat_length; auto). rewrite nth_repeat.
    do 12 (destruct e as [|e]; [eapply Q; [reflexivity|cbn; ring]|]). lia. }
  assert (E2 : nth 2 P [] = repeat (Some (2 * PI)) 8).
  { apply (nth_ext _ _ None None); [rewrite repeat_length; apply (L 2%nat); lia|]. intros f Hf. rewrite (proj1 (L 2%nat ltac:(lia))) in Hf. change (f < 8)%nat in Hf.
    assert (Q : forall a b c, element octa_t 2 f = [a; b; c] -> dot (octa_vertices a) (octa_vertices b) = 0 -> dot (octa_vertices b) (octa_vertices c) = 0 -> dot (octa_vertices c) (octa_vertices a) = 0 -> (a < 6)%nat -> (b < 6)%nat -> (c < 6)%nat -> nth f (nth 2 P []) None = Some (2 * PI)).
    { intros a b c Ef Z1 Z2 Z3 Ha Hb Hc. rewrite (C90_triangles _ _ _ _ _ _ _ _ _ _ M E f a b c Hf Ef). destruct M as (_ & _ & _ & _ & _ & (On & _ & Ind) & _). rewrite octant; auto; [f_equal; field|eapply Ind; eauto]. }
    rewrite (nth_indep (repeat (Some (2 * PI)) 8) None (Some (2 * PI))) by (rewrite repeat_length; auto). rewrite nth_repeat.
    do 8 (destruct f as [|f]; [eapply Q; [reflexivity|cbn; ring|cbn; ring|cbn; ring|lia|lia|lia]|]). lia. }
  split; auto. split; auto. assert (S1 : adds_to (nth 2 P []) (16 * PI)).
  { rewrite E2. cbn [repeat]. replace (16 * PI) with (2 * PI + (2 * PI + (2 * PI + (2 * PI + (2 * PI + (2 * PI + (2 * PI + (2 * PI + 0)))))))) by ring. repeat constructor. }
  split; auto. destruct (C90_total _ _ _ _ _ _ _ _ _ _ _ M E) as (s & A1 & A2). replace (16 * PI) with s; auto.
  revert A1 S1. clear. generalize (nth 2 P []) (16 * PI). intros l r A. revert r. induction A as [|x l s A IH]; intros r B; inversion B; subst; auto. f_equal. auto.
Qed.
