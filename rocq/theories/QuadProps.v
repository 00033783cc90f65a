(** Property C73: quads cut into triangles. *)
Require Import List Arith ZArith Bool Lia Permutation QArith.
From Verif Require Import Util CombModel CombSpec CombProofs SimpModel SimpSpec ParProofs SimpProofs LevelProofs TopProofs SimpProps.
From Verif Require Import BdryModel BdrySpec OrientProofs SubProofs SubdModel LoopTransfer TriSpec TriMesh.
From Verif Require Import CubeModel CubeSpec CubeBits CubeBd CubeTop CubeChain COrSpec CDomSpec CDomProofs CAvgProps AvgModel AvgProofs AvgProps SmoModel SmoSpec SmoProofs SmoProps.
From Verif Require Import QuadModel QuadSpec QuadProofs QuadTri.
Import ListNotations.
Local Open Scope nat_scope.

Section Setup.
Variables (row_leb : list nat -> list nat -> bool) (rows : list cube) (t : topology).
Hypothesis OK : cubes_ok 2 rows.
Hypothesis F : from_cubes row_leb true 2 rows = Ok t.
Notation n0 := (n_elements t 0).
Notation T := (all_quad_triangles n0 rows).
Lemma setup_ctop : ctop 2 rows t.
Proof. apply (from_cubes_ctop row_leb 2 rows t); auto. Qed.
Lemma setup_quad : Forall quad rows.
Proof. destruct OK as [_ H]. exact H. Qed.
Lemma setup_vused : forall v, In v (concat rows) <-> v < n0.
Proof. apply (ct_vused _ _ _ setup_ctop). Qed.
Lemma setup_ok : simplices_ok 2 T.
Proof. apply cut_ok; [apply setup_quad|apply setup_vused|apply OK]. Qed.
Lemma setup_top : exists s, from_simplices row_leb 2 T = Ok s /\ top_ok 2 T s.
Proof.
  destruct (from_simplices_cases row_leb 2 T ltac:(lia) setup_ok) as [H _]. apply H. exists (n0 + length rows). apply cut_vertices; [apply setup_quad|apply setup_vused].
Qed.
Lemma wt02 : (wt 0 == 1 /\ wt 2 == 1 # 4)%Q.
Proof. split; reflexivity. Qed.
Lemma setup_run : exists s A M, subdivide_simplicial row_leb t = Ok (s, A, M) /\ from_simplices row_leb 2 T = Ok s /\ top_ok 2 T s /\
  (forall V, length V = n0 -> forall k e, k = 0 \/ k = 2 -> e < n_elements t k ->
     (sumQ (map (fun j => A (if k =? 0 then e else n0 + e)%nat j * nth j V 0) (seq 0 (length V)))%Q == wt k * sumQ (map (fun v => nth v V 0) (el t k e)))%Q) /\
  (nrows M = n_elements s 2 /\ ncols M = n_elements t 2 /\ forall i j, i < n_elements s 2 -> entry M i j = if i / 4 =? j then 1%Z else 0%Z).
Proof.
  pose proof setup_ctop as C. pose proof (ct_top _ _ _ C) as Et. destruct setup_top as (s & Es & Ts). unfold subdivide_simplicial. rewrite Et, Es. cbn [bind].
  destruct (c_weights 2 rows t ltac:(lia) ltac:(lia) C) as (A & EA & LA & NA). rewrite EA. cbn [bind].
  destruct (NA 0 ltac:(lia)) as (W0 & E0 & H0). destruct (NA 2 ltac:(lia)) as (W2 & E2 & H2). rewrite (nth_error_nth _ _ _ E0), (nth_error_nth _ _ _ E2). cbn [mapM bind].
  assert (N2 : n_elements s 2 = length rows * 4) by (unfold n_elements; rewrite (to_top _ _ _ Ts); apply cut_length; [apply setup_quad|apply setup_vused]).
  assert (R2 : n_elements t 2 = length rows) by (unfold n_elements; rewrite Et; auto).
  destruct (transfer_entry (seq 0 (n_elements s 2)) (map (fun i => i / 4) (seq 0 (n_elements s 2))) (n_elements s 2) (n_elements t 2)) as (M & EM & M1 & M2 & M3 & _).
  { apply seq_NoDup. } { rewrite map_length. auto. } { intros x Hx. apply in_seq in Hx. lia. }
  { intros x Hx. apply in_map_iff in Hx as (i & <- & Hi). apply in_seq in Hi. apply Nat.div_lt_upper_bound; lia. }
  rewrite EM. cbn [bind]. eexists. eexists. eexists. split; [reflexivity|]. split; auto. split; auto. split.
  - intros V LV k e Hk He. destruct (c_elements_ok 2 rows t ltac:(lia) C) as (_ & _ & E3 & _ & E5).
    rewrite (sumQ_ext _ _ (fun j => wt k * (if memb j (el t k e) then nth j V 0 else 0))%Q).
    + rewrite sumQ_scale. destruct (E3 k e ltac:(lia) He) as [_ ND]. rewrite sumQ_over; [reflexivity|auto|]. intros v Hv. rewrite LV. apply (E5 k e); auto. lia.
    + intros j Hj. apply in_seq in Hj. cbn [combine vstack]. destruct Hk as [-> | ->]; cbn [Nat.eqb].
      * rewrite (proj2 (Nat.ltb_lt _ _) He). rewrite H0 by (auto; lia). destruct (memb j (el t 0 e)); ring.
      * rewrite (proj2 (Nat.ltb_ge _ _)) by lia. replace (n0 + e - n0) with e by lia. rewrite (proj2 (Nat.ltb_lt _ _) He). rewrite H2 by (auto; lia). destruct (memb j (el t 2 e)); ring.
  - split; auto. split; auto. intros i j Hi. specialize (M3 i). rewrite seq_length in M3. specialize (M3 Hi j). rewrite seq_nth, nth_map_seq in M3 by auto. auto.
Qed.
End Setup.

(** ---- C73 ---- *)
Theorem C73_triangles : forall row_leb rows t, cubes_ok 2 rows -> from_cubes row_leb true 2 rows = Ok t ->
  exists s A M, subdivide_simplicial row_leb t = Ok (s, A, M) /\
    simplices_ok 2 (nth 2 (elements s) []) /\ from_simplices row_leb 2 (nth 2 (elements s) []) = Ok s /\
    n_elements s 0 = n_elements t 0 + n_elements t 2 /\ n_elements s 1 = n_elements t 1 + 4 * n_elements t 2 /\ n_elements s 2 = 4 * n_elements t 2 /\
    forall j, j < length rows -> fan (n_elements t 0 + j) (nth j rows []) (map (fun q => nth (4 * j + q) (nth 2 (elements s) []) []) (seq 0 4)).
Proof.
  intros row_leb rows t OK F. destruct (setup_run row_leb rows t OK F) as (s & A & M & E & Fs & Ts & _). pose proof (setup_ctop row_leb rows t OK F) as C. pose proof (setup_quad rows OK) as Q. pose proof (setup_vused row_leb rows t OK F) as V.
  exists s, A, M. split; auto. rewrite (to_top _ _ _ Ts). split; [apply (setup_ok row_leb rows t); auto|]. split; auto.
  assert (R2 : n_elements t 2 = length rows) by (unfold n_elements; rewrite (ct_top _ _ _ C); auto). rewrite R2. split; [|split; [|split]].
  - assert (G : forall v, v < n_elements s 0 <-> v < n_elements t 0 + length rows) by (intros v; rewrite <- (to_vused _ _ _ Ts v); apply cut_vertices; auto).
    pose proof (G (n_elements s 0)). pose proof (G (n_elements t 0 + length rows)). lia.
  - pose proof (quads_edges rows t Q C) as L1. apply (cut_edges rows (n_elements t 0) Q V) in L1.
    assert (HT : Forall triangle (all_quad_triangles (n_elements t 0) rows)) by (apply cut_triangles; auto). pose proof (tris_edges _ s HT Ts) as L2.
    rewrite (cut_length rows (n_elements t 0) Q V) in L2. pose proof (lists_edges_length _ _ _ _ L2 L1) as L. rewrite app_length, (inner_length rows _ Q) in L. unfold n_elements at 1 2. lia.
  - unfold n_elements. rewrite (to_top _ _ _ Ts), (cut_length rows (n_elements t 0) Q V). lia.
  - intros j Hj. apply cut_fan; auto.
Qed.
Print Assumptions C73_triangles.

(** Orientation, manifoldness, connectedness and the boundary are those of the quads. *)
Theorem C73_orientation : forall row_leb rows t s A M, cubes_ok 2 rows -> from_cubes row_leb true 2 rows = Ok t -> subdivide_simplicial row_leb t = Ok (s, A, M) ->
  let T := nth 2 (elements s) [] in
  (COrSpec.consistent 2 rows <-> BdrySpec.consistent 2 T) /\ (COrSpec.at_most_two 2 rows <-> BdrySpec.at_most_two 2 T) /\
  (COrSpec.connected 2 rows <-> BdrySpec.connected 2 T) /\ (forall x y, COrSpec.boundary_face 2 rows [x; y] <-> BdrySpec.boundary_face 2 T [x; y]).
Proof.
  intros row_leb rows t s A M OK F E T. destruct (setup_run row_leb rows t OK F) as (s' & A' & M' & E' & Fs & Ts & _). rewrite E in E'. injection E' as <- <- <-. unfold T. rewrite (to_top _ _ _ Ts).
  pose proof (setup_quad rows OK) as Q. pose proof (setup_vused row_leb rows t OK F) as V. assert (HT : Forall triangle (all_quad_triangles (n_elements t 0) rows)) by (apply cut_triangles; auto).
  split; [|split; [|split]].
  - rewrite quads_cons, tris_cons, (cut_length rows (n_elements t 0) Q V) by auto. apply cut_cons; auto.
  - rewrite quads_two, tris_two, (cut_length rows (n_elements t 0) Q V) by auto. apply cut_two; auto.
  - rewrite quads_connected, tris_connected, (cut_length rows (n_elements t 0) Q V) by auto. apply cut_connected; auto.
  - intros x y. rewrite quads_bd, tris_bd, (cut_length rows (n_elements t 0) Q V) by auto. apply cut_bd; auto.
Qed.
Print Assumptions C73_orientation.

(** Each triangle has the orientation of its quad: it induces the same orientation on their common side. *)
Theorem C73_signs : forall row_leb rows t s A M, cubes_ok 2 rows -> from_cubes row_leb true 2 rows = Ok t -> subdivide_simplicial row_leb t = Ok (s, A, M) ->
  forall j a b g, j < length rows -> a < 2 -> is_slice 2 a b (nth j rows []) g ->
  exists q, q < 4 /\ let T := nth (4 * j + q) (nth 2 (elements s) []) [] in is_face 1 g T /\ incidence_number g T = side_sign a b.
Proof.
  intros row_leb rows t s A M OK F E j a b g Hj Ha S0. destruct (setup_run row_leb rows t OK F) as (s' & A' & M' & E' & Fs & Ts & _). rewrite E in E'. injection E' as <- <- <-. rewrite (to_top _ _ _ Ts).
  pose proof (setup_quad rows OK) as Q. pose proof (setup_vused row_leb rows t OK F) as V. assert (HT : Forall triangle (all_quad_triangles (n_elements t 0) rows)) by (apply cut_triangles; auto).
  destruct (side_edge _ a b g (quad_nth rows Q j Hj) Ha S0) as [I L]. destruct g as [|x [|y [|]]]; simpl in L; try lia. unfold oriented_side in I. cbn [nth] in I.
  destruct (in_side rows (n_elements t 0) Q V j _ Hj I) as (q & Hq & Es). exists q. split; auto. destruct (td_at rows (n_elements t 0) Q V j q Hj Hq) as (Hp & _ & _ & Et). rewrite (Nat.mul_comm 4). cbv zeta.
  set (s0 := nth (j * 4 + q) _ []). assert (P : triangle s0) by (apply tri_nth; auto; rewrite (cut_length rows (n_elements t 0) Q V); auto).
  destruct (side_sign_pm a b) as [B|B]; rewrite B in *; cbn [Z.eqb Pos.eqb] in Es.
  - destruct (dedges_face s0 x y P) as (H1 & H2 & _); [|auto]. change (dedges s0) with (td (all_quad_triangles (n_elements t 0) rows) (j * 4 + q)). rewrite Et, Es. left. auto.
  - destruct (dedges_face s0 y x P) as (H1 & H2 & _ & H3); [change (dedges s0) with (td (all_quad_triangles (n_elements t 0) rows) (j * 4 + q)); rewrite Et, Es; left; auto|]. split.
    + destruct H1 as (A1 & A2 & A3). split; [repeat constructor; cbn; intuition|]. split; auto. intros v Hv. apply A3. cbn in *. tauto.
    + rewrite LoopProofs.inc_swap, H2; auto.
Qed.
Print Assumptions C73_signs.

(** The operator for vertices places them as [ComplexCubical2.subdivide_simplicial] does: those of the mesh, then the centres of the
    quads; the operator for triangles copies the value of the quad. *)
Theorem C73_operators : forall row_leb rows t s A M, cubes_ok 2 rows -> from_cubes row_leb true 2 rows = Ok t -> subdivide_simplicial row_leb t = Ok (s, A, M) ->
  (forall V, length V = n_elements t 0 -> let W := triangle_vertices t V in length W = n_elements s 0 /\
    (forall i, i < n_elements s 0 -> (nth i (apply_operator (n_elements s 0) A V) 0 == nth i W 0)%Q) /\
    (forall v, v < n_elements t 0 -> (nth v W 0 == nth v V 0)%Q) /\
    (forall j, j < length rows -> (nth (n_elements t 0 + j) W 0 == average (map (fun v => nth v V 0) (nth j rows [])))%Q)) /\
  (nrows M = n_elements s 2 /\ ncols M = n_elements t 2 /\ forall j q, j < length rows -> q < 4 -> forall j', entry M (4 * j + q) j' = if j =? j' then 1%Z else 0%Z).
Proof.
  intros row_leb rows t s A M OK F E. destruct (setup_run row_leb rows t OK F) as (s' & A' & M' & E' & Fs & Ts & HA & M1 & M2 & M3). rewrite E in E'. injection E' as <- <- <-.
  destruct (C73_triangles row_leb rows t OK F) as (s' & A' & M' & E' & _ & _ & N0 & N1 & N2 & _). rewrite E in E'. injection E' as <- <- <-.
  pose proof (setup_ctop row_leb rows t OK F) as C. assert (R2 : n_elements t 2 = length rows) by (unfold n_elements; rewrite (ct_top _ _ _ C); auto). pose proof (ct_lenE _ _ _ C) as LE. split.
  - intros V LV W. assert (L0 : length (nth 0 (primal_position t V) []) = n_elements t 0) by apply primal_row_length. assert (L2 : length (nth 2 (primal_position t V) []) = n_elements t 2) by apply primal_row_length.
    assert (LW : length W = n_elements s 0) by (unfold W, triangle_vertices; rewrite app_length; lia).
    assert (W0 : forall v, v < n_elements t 0 -> nth v W 0%Q = mean (map (fun u => nth u V 0%Q) (el t 0 v))) by (intros v Hv; unfold W, triangle_vertices; rewrite app_nth1 by lia; apply primal_nth; lia).
    assert (W2 : forall j, j < length rows -> nth (n_elements t 0 + j) W 0%Q = mean (map (fun u => nth u V 0%Q) (el t 2 j))) by (intros j Hj; unfold W, triangle_vertices; rewrite app_nth2 by lia; rewrite L0; replace (n_elements t 0 + j - n_elements t 0) with j by lia; apply primal_nth; lia).
    split; auto. destruct wt02 as [T0 T2]. destruct (c_elements_ok 2 rows t ltac:(lia) C) as (_ & _ & E3 & _ & _). split; [|split].
    + intros i Hi. unfold apply_operator. rewrite nth_map_seq by auto. destruct (le_lt_dec (n_elements t 0) i) as [H|H].
      * pose proof (HA V LV 2 (i - n_elements t 0) ltac:(auto) ltac:(lia)) as X. cbn [Nat.eqb] in X. replace (n_elements t 0 + (i - n_elements t 0)) with i in X by lia. rewrite X. pose proof (W2 (i - n_elements t 0) ltac:(lia)) as Y. replace (n_elements t 0 + (i - n_elements t 0)) with i in Y by lia. rewrite Y.
        unfold mean. rewrite map_length. destruct (E3 2 (i - n_elements t 0) ltac:(lia) ltac:(lia)) as [-> _]. rewrite T2. change (inject_Z (Z.of_nat (2 ^ 2))) with (4 # 1). field.
      * pose proof (HA V LV 0 i ltac:(auto) ltac:(lia)) as X. cbn [Nat.eqb] in X. rewrite X. rewrite W0 by auto. unfold mean. rewrite map_length. destruct (E3 0 i ltac:(lia) ltac:(lia)) as [-> _]. rewrite T0. change (inject_Z (Z.of_nat (2 ^ 0))) with (1 # 1). field.
    + intros v Hv. rewrite W0 by auto. unfold el. rewrite (ct_verts _ _ _ C). rewrite nth_map_seq by auto. cbn [map mean length sumQ fold_right Z.of_nat]. unfold mean, sumQ. cbn [map length fold_right]. change (inject_Z (Z.of_nat 1)) with 1%Q. field.
    + intros j Hj. rewrite W2 by auto. unfold el. rewrite (ct_top _ _ _ C). reflexivity.
  - split; auto. split; auto. intros j q Hj Hq j'. rewrite M3 by lia. rewrite (Nat.mul_comm 4), Nat.div_add_l by lia. rewrite (Nat.div_small q 4) by lia. rewrite Nat.add_0_r. auto.
Qed.
Print Assumptions C73_operators.

(** Two squares side by side: eight triangles with eight vertices, and the operators on them. *)
Example C73_example : exists t s A M, cubes_ok 2 [[0; 1; 2; 3]; [2; 3; 4; 5]] /\ from_cubes lex_leb true 2 [[0; 1; 2; 3]; [2; 3; 4; 5]] = Ok t /\ subdivide_simplicial lex_leb t = Ok (s, A, M) /\
  (nth 2 (elements s) [] = [[0; 1; 6]; [3; 2; 6]; [2; 0; 6]; [1; 3; 6]; [2; 3; 7]; [5; 4; 7]; [4; 2; 7]; [3; 5; 7]]) /\ length (nth 1 (elements t) []) = 7 /\ length (nth 1 (elements s) []) = 15 /\
  COrSpec.consistent 2 [[0; 1; 2; 3]; [2; 3; 4; 5]].
Proof.
  eexists. eexists. eexists. eexists. split; [|split; [vm_compute; reflexivity|split; [reflexivity|]]].
  - split; [discriminate|]. repeat constructor; cbn; intuition discriminate.
  - split; [vm_compute; reflexivity|]. split; [vm_compute; reflexivity|]. split; [vm_compute; reflexivity|].
    assert (Q : Forall quad [[0; 1; 2; 3]; [2; 3; 4; 5]]) by (repeat constructor; cbn; intuition discriminate). apply quads_cons; auto.
    intros [|[|j1]] [|[|j2]] H1 H2 N e I J; cbn in *; try lia; intuition congruence.
Qed.
