(** Property C74: triangles cut into quads, tetrahedra cut into cubes. *)
Require Import List Arith ZArith Bool Lia Permutation.
From Verif Require Import Util CombModel CombSpec CombProofs SimpModel SimpSpec ParProofs SimpProofs LevelProofs TopProofs SimpProps.
From Verif Require Import BdryModel BdrySpec OrientProofs BdryProps SubdModel TriSpec TriMesh.
From Verif Require Import CubeModel CubeSpec CubeBits CubeBd CubeTop CubeChain COrSpec COrProps CDomSpec.
From Verif Require Import QuadModel QuadSpec QuadProofs QuadProps QuadCut QuadTet.
Import ListNotations.
Local Open Scope nat_scope.

Lemma same_bound : forall (P : nat -> Prop) a b, (forall v, P v <-> v < a) -> (forall v, P v <-> v < b) -> a = b.
Proof. intros P a b A B. assert (G : forall v, v < a <-> v < b) by (intros v; rewrite <- A; apply B). pose proof (G a). pose proof (G b). lia. Qed.
Lemma tris_of : forall rows, simplices_ok 2 rows -> Forall triangle rows.
Proof. intros rows [_ H]. exact H. Qed.
Lemma quads_run : forall row_leb rows t, simplices_ok 2 rows -> from_simplices row_leb 2 rows = Ok t -> top_ok 2 rows t /\
  exists s, QuadModel.subdivide_cubical row_leb t = Ok s /\ from_cubes row_leb true 2 (Qs t) = Ok s /\ ctop 2 (Qs t) s.
Proof.
  intros row_leb rows t OK F. assert (T : top_ok 2 rows t) by (apply (from_simplices_top_ok row_leb 2 rows t); auto). split; auto.
  destruct (from_cubes_cases row_leb 2 (Qs t) ltac:(lia) (Qs_ok rows t OK T)) as (H & _). destruct H as (s & Es & Cs); [lia| | |].
  - intros k Hk. replace k with 1 by lia. apply (Qs_faces t).
  - exists (n_elements t 0 + n_elements t 1 + length rows). apply (Qs_vertices rows t); auto.
  - exists s. split; auto. unfold QuadModel.subdivide_cubical. assert (Dm : n_dim t = 2) by apply (to_lenO _ _ _ T). rewrite Dm. cbn [Nat.eqb]. exact Es.
Qed.
Lemma cubes_run : forall row_leb rows t, simplices_ok 3 rows -> from_simplices row_leb 3 rows = Ok t -> top_ok 3 rows t /\
  exists s, QuadModel.subdivide_cubical row_leb t = Ok s /\ from_cubes row_leb true 3 (Cs rows t) = Ok s /\ ctop 3 (Cs rows t) s.
Proof.
  intros row_leb rows t OK F. assert (T : top_ok 3 rows t) by (apply (from_simplices_top_ok row_leb 3 rows t); auto). split; auto.
  destruct (from_cubes_cases row_leb 3 (Cs rows t) ltac:(lia) (Cs_ok rows t OK T)) as (H & _). destruct H as (s & Es & C); [lia| | |].
  - intros k Hk. apply (Cs_faces rows t); auto.
  - exists (n_elements t 0 + n_elements t 1 + n_elements t 2 + length rows). apply (Cs_vertices rows t); auto.
  - exists s. split; auto. rewrite (Cs_run rows t OK T). exact Es.
Qed.

(** ---- C74 ---- *)
(** Triangles: three quads each, one at each corner; the counts of vertices, edges and quads. *)
Theorem C74_triangles : forall row_leb rows t, simplices_ok 2 rows -> from_simplices row_leb 2 rows = Ok t ->
  exists s, QuadModel.subdivide_cubical row_leb t = Ok s /\
    cubes_ok 2 (nth 2 (elements s) []) /\ from_cubes row_leb true 2 (nth 2 (elements s) []) = Ok s /\
    n_elements s 0 = n_elements t 0 + n_elements t 1 + n_elements t 2 /\ n_elements s 1 = 2 * n_elements t 1 + 3 * n_elements t 2 /\ n_elements s 2 = 3 * n_elements t 2 /\
    forall j c, j < length rows -> c < 3 -> corner_quad t j (nth c (nth j rows []) 0) (nth (3 * j + c) (nth 2 (elements s) []) []).
Proof.
  intros row_leb rows t OK F. destruct (quads_run row_leb rows t OK F) as (T & s & E & Fs & C). exists s. split; auto. rewrite (ct_top _ _ _ C). pose proof (Qs_ok rows t OK T) as QO. split; auto. split; auto.
  assert (R2 : n_elements t 2 = length rows) by (unfold n_elements; rewrite (to_top _ _ _ T); auto). rewrite R2. pose proof (Qs_length rows t T) as QL. split; [|split; [|split]].
  - apply (same_bound (fun v => In v (concat (Qs t)))); [apply (ct_vused _ _ _ C)|apply (Qs_vertices rows t); auto].
  - pose proof (quads_edges _ s (Qs_quads rows t T) C) as L1. rewrite QL in L1. pose proof (lists_edges_length _ _ _ _ L1 (edge_list_edges rows t T)) as L. rewrite (edge_list_length rows t T) in L. exact L.
  - unfold n_elements. rewrite (ct_top _ _ _ C), QL. lia.
  - intros j c Hj Hc. rewrite (Nat.mul_comm 3). destruct (Qs_at rows t T j c Hj Hc) as (_ & _ & _ & ->). pose proof (half_ex rows t T j Hj) as H. destruct (ne_lt c Hc) as (_ & P & _ & _ & _ & PN & _).
    assert (Eb1 : below t 1 = n_elements t 0) by (change below with offset; apply off1). assert (Eb2 : below t 2 = n_elements t 0 + n_elements t 1) by (change below with offset; apply off2).
    exists (ge t j (pr c)), (ge t j c). split; [unfold cq; rewrite Eb1, Eb2, !(Nat.add_comm (n_elements t 0)), (Nat.add_comm _ j); unfold av; repeat f_equal; lia|]. split; [intros X; apply PN, (h_ge _ _ _ H); auto|].
    intros e He. assert (exists i, i < 3 /\ e = ge t j i /\ (i = c \/ i = pr c)) as (i & Hi & -> & Hic) by (destruct He as [-> | ->]; [exists (pr c)|exists c]; auto).
    split; [apply (h_lt _ _ _ H i Hi)|]. rewrite (to_top _ _ _ T).
    change (nth (ge t j i) (nth 1 (elements t) []) []) with (el t 1 (ge t j i)). split; [apply (corner_in rows t T); auto|].
    intros u Hu. destruct (corner_of_half rows t T j i u Hj Hi Hu) as [-> | ->]; unfold av; apply nth_In; rewrite (h_row _ _ _ H); [auto|apply ne_lt; auto].
Qed.
Print Assumptions C74_triangles.

(** Consistency of the orientation, manifoldness and connectedness are those of the triangles; the boundary consists of the halves of
    the boundary edges. *)
Theorem C74_orientation_partial : forall row_leb rows t s, simplices_ok 2 rows -> from_simplices row_leb 2 rows = Ok t -> QuadModel.subdivide_cubical row_leb t = Ok s ->
  let Q := nth 2 (elements s) [] in
  (BdrySpec.consistent 2 rows <-> COrSpec.consistent 2 Q) /\ (BdrySpec.at_most_two 2 rows <-> COrSpec.at_most_two 2 Q) /\ (BdrySpec.connected 2 rows <-> COrSpec.connected 2 Q) /\
  forall x y, x < y -> (COrSpec.boundary_face 2 Q [x; y] <->
    exists e, let E := nth e (nth 1 (elements t) []) [] in e < n_elements t 1 /\ y = below t 1 + e /\ In x E /\ BdrySpec.boundary_face 2 rows E).
Proof.
  intros row_leb rows t s OK F E Q. destruct (quads_run row_leb rows t OK F) as (T & s' & E' & Fs & C). rewrite E in E'. injection E' as <-. unfold Q. rewrite (ct_top _ _ _ C).
  pose proof (tris_of rows OK) as HT. pose proof (Qs_quads rows t T) as HQ. pose proof (Qs_length rows t T) as QL.
  split; [|split; [|split]].
  - rewrite quads_cons, tris_cons, QL by auto. apply (QuadCut.cut_cons rows t T).
  - rewrite quads_two, tris_two, QL by auto. apply (QuadCut.cut_two rows t T).
  - rewrite quads_connected, tris_connected, QL by auto. apply (QuadCut.cut_connected rows t T).
  - assert (Eb1 : below t 1 = n_elements t 0) by (change below with offset; apply off1). intros x y L. rewrite quads_bd, QL, (QuadCut.cut_bd rows t T) by auto. rewrite Eb1. split.
    + intros (e & a & b & He & Hy & Hx & Ee & B). exists e. cbv zeta. change (nth e (nth 1 (elements t) []) []) with (el t 1 e). rewrite Ee in *. rewrite tris_bd by auto. repeat split; auto. lia.
    + intros (e & He & Hy & Hx & B). cbv zeta in *. change (nth e (nth 1 (elements t) []) []) with (el t 1 e) in *. destruct (edge_pair rows t T e He) as (a & b & Ee & _). rewrite Ee in *. rewrite tris_bd in B by auto. exists e, a, b. rewrite Ee. repeat split; auto. lia.
Qed.
Print Assumptions C74_orientation_partial.

(** The quads do not inherit the orientation of their triangle: on the halves of each side they induce the reverse of its direction. *)
Theorem C74_inherited_refuted : forall row_leb rows t s, simplices_ok 2 rows -> from_simplices row_leb 2 rows = Ok t -> QuadModel.subdivide_cubical row_leb t = Ok s ->
  forall j x y, j < length rows -> is_face 1 [x; y] (nth j rows []) -> incidence_number [x; y] (nth j rows []) = 1%Z ->
  exists e c c', e < n_elements t 1 /\ Permutation (nth e (nth 1 (elements t) []) []) [x; y] /\ c < 3 /\ c' < 3 /\ nth c (nth j rows []) 0 = x /\ nth c' (nth j rows []) 0 = y /\
    runs (nth (3 * j + c) (nth 2 (elements s) []) []) (below t 1 + e) x /\ runs (nth (3 * j + c') (nth 2 (elements s) []) []) y (below t 1 + e).
Proof.
  intros row_leb rows t s OK F E j x y Hj Fc I. destruct (quads_run row_leb rows t OK F) as (T & s' & E' & Fs & C). rewrite E in E'. injection E' as <-. rewrite (ct_top _ _ _ C).
  pose proof (tri_nth rows (tris_of rows OK) j Hj) as TJ. assert (Eb1 : below t 1 = n_elements t 0) by (change below with offset; apply off1).
  assert (D : In (x, y) (td rows j)). { destruct (face_dedges _ x y TJ Fc) as [D|D]; auto. exfalso. destruct (dedges_face _ _ _ TJ D) as (_ & B & _). rewrite LoopProofs.inc_swap, B in I; [discriminate|]. destruct Fc as [ND _]. inversion ND; cbn in *; intuition. }
  apply (td_half rows t T j x y Hj) in D as (c & Hc & -> & ->). pose proof (half_ex rows t T j Hj) as H. destruct (ne_lt c Hc) as (Nc & _ & _ & PN & _).
  exists (ge t j c), c, (ne c). split; [apply (h_lt _ _ _ H c Hc)|]. split; [apply (h_ends _ _ _ H c Hc)|]. split; auto. split; auto. split; auto. split; auto.
  assert (RU : forall c0 u v, c0 < 3 -> In (u, v) (qd (Qs t) (j * 3 + c0)) -> runs (nth (3 * j + c0) (Qs t) []) u v).
  { intros c0 u v Hc0 D. destruct (Qs_at rows t T j c0 Hj Hc0) as (Hp & _). rewrite (Nat.mul_comm 3). assert (QJ : quad (nth (j * 3 + c0) (Qs t) [])) by (apply quad_nth; [apply (Qs_quads rows t T)|rewrite (Qs_length rows t T); auto]).
    destruct (edge_side _ u v QJ D) as (a & b & g & Ha & S0 & O & G). exists a, b, g. split; auto. split; auto. destruct (side_edge _ a b g QJ Ha S0) as [_ L]. destruct g as [|g0 [|g1 [|]]]; simpl in L; try lia.
    unfold oriented_side in O. destruct (side_sign_pm a b) as [B|B]; rewrite B in *; cbn in O; injection O as <- <-; auto. }
  rewrite Eb1, (Nat.add_comm (n_elements t 0)). split; apply RU; auto.
  - destruct (Qs_at rows t T j c Hj Hc) as (Hp & Ed & Em & _). apply (qd_cases rows t T); auto. cbv zeta. rewrite Ed, Em. auto.
  - destruct (Qs_at rows t T j (ne c) Hj Nc) as (Hp & Ed & Em & _). apply (qd_cases rows t T); auto. cbv zeta. rewrite Ed, Em, PN. auto.
Qed.
Print Assumptions C74_inherited_refuted.
(** Hence triangles cut into quads and back into triangles all change their orientation. *)
Theorem C74_there_and_back : forall row_leb rows t s, simplices_ok 2 rows -> from_simplices row_leb 2 rows = Ok t -> QuadModel.subdivide_cubical row_leb t = Ok s ->
  exists s' A M, subdivide_simplicial row_leb s = Ok (s', A, M) /\ forall j x y, j < length rows -> is_face 1 [x; y] (nth j rows []) -> incidence_number [x; y] (nth j rows []) = 1%Z ->
  exists e p, e < n_elements t 1 /\ Permutation (nth e (nth 1 (elements t) []) []) [x; y] /\ p / 12 = j /\
    let T := nth p (nth 2 (elements s') []) [] in is_face 1 [below t 1 + e; x] T /\ incidence_number [below t 1 + e; x] T = 1%Z.
Proof.
  intros row_leb rows t s OK F E. destruct (quads_run row_leb rows t OK F) as (T & s0 & E' & Fs & C). rewrite E in E'. injection E' as <-. pose proof (Qs_ok rows t OK T) as QO. pose proof (Qs_length rows t T) as QL.
  destruct (C73_triangles row_leb (Qs t) s QO Fs) as (s' & A & M & Es & _). exists s', A, M. split; auto. intros j x y Hj Fc I.
  destruct (C74_inherited_refuted row_leb rows t s OK F E j x y Hj Fc I) as (e & c & _ & He & P & Hc & _ & _ & _ & (a & b & g & Ha & S0 & G) & _). rewrite (ct_top _ _ _ C) in S0.
  destruct (C73_signs row_leb (Qs t) s s' A M QO Fs Es (3 * j + c) a b g ltac:(lia) Ha S0) as (q & Hq & Fq & Iq). exists e, (4 * (3 * j + c) + q). split; auto. split; auto. split.
  { replace (4 * (3 * j + c) + q) with (j * 12 + (4 * c + q)) by lia. rewrite Nat.div_add_l, (Nat.div_small (4 * c + q)) by lia. lia. }
  cbv zeta. destruct G as [[B ->]|[B ->]]; rewrite B in Iq; auto. split.
  - destruct Fq as (ND & L & In0). split; [|split; auto; intros v Hv; apply In0; cbn in *; tauto]. inversion ND as [|? ? X Y]; subst. cbn [In] in X. repeat constructor; cbn [In]; intuition.
  - rewrite LoopProofs.inc_swap, Iq; [reflexivity|]. destruct Fq as (ND & _). inversion ND as [|? ? X Y]; subst. cbn [In] in X. intuition.
Qed.
Print Assumptions C74_there_and_back.

(** Tetrahedra: four cubes each, one at each corner. *)
Theorem C74_tetrahedra : forall row_leb rows t, simplices_ok 3 rows -> from_simplices row_leb 3 rows = Ok t ->
  exists s, QuadModel.subdivide_cubical row_leb t = Ok s /\
    cubes_ok 3 (nth 3 (elements s) []) /\ from_cubes row_leb true 3 (nth 3 (elements s) []) = Ok s /\
    n_elements s 0 = n_elements t 0 + n_elements t 1 + n_elements t 2 + n_elements t 3 /\ n_elements s 3 = 4 * n_elements t 3 /\
    forall j c, j < length rows -> c < 4 -> corner_cube t j (nth c (nth j rows []) 0) (nth (4 * j + c) (nth 3 (elements s) []) []).
Proof.
  intros row_leb rows t OK F. destruct (cubes_run row_leb rows t OK F) as (T & s & E & Fs & C). exists s. split; auto. rewrite (ct_top _ _ _ C). pose proof (Cs_ok rows t OK T) as QO. split; auto. split; auto.
  assert (R3 : n_elements t 3 = length rows) by (unfold n_elements; rewrite (to_top _ _ _ T); auto). rewrite R3. pose proof (Cs_length rows t) as QL. split; [|split].
  - apply (same_bound (fun v => In v (concat (Cs rows t)))); [apply (ct_vused _ _ _ C)|apply (Cs_vertices rows t); auto].
  - unfold n_elements. rewrite (ct_top _ _ _ C), QL. lia.
  - intros j c Hj Hc. rewrite (Nat.mul_comm 4). destruct (Cs_at rows t j c Hj Hc) as (_ & ->). apply (Cs_corner rows t OK T); auto.
Qed.
Print Assumptions C74_tetrahedra.

(** The cubes are never consistently oriented, however the tetrahedra are. *)
Theorem C74_tetrahedra_oriented_refuted : forall row_leb rows t s, simplices_ok 3 rows -> from_simplices row_leb 3 rows = Ok t -> QuadModel.subdivide_cubical row_leb t = Ok s ->
  ~ COrSpec.consistent 3 (nth 3 (elements s) []).
Proof.
  intros row_leb rows t s OK F E. destruct (cubes_run row_leb rows t OK F) as (T & s' & E' & Fs & C). rewrite E in E'. injection E' as <-. rewrite (ct_top _ _ _ C). apply (Cs_inconsistent rows t OK T).
Qed.
Print Assumptions C74_tetrahedra_oriented_refuted.

(** Other dimensions are refused. *)
Theorem C74_other_dimensions : forall row_leb n rows t, 1 <= n -> n <> 2 -> n <> 3 -> simplices_ok n rows -> from_simplices row_leb n rows = Ok t -> QuadModel.subdivide_cubical row_leb t = Err RuntimeError.
Proof.
  intros row_leb n rows t Hn N2 N3 OK F. assert (T : top_ok n rows t) by (apply (from_simplices_top_ok row_leb n rows t); auto).
  unfold QuadModel.subdivide_cubical. assert (Dm : n_dim t = n) by apply (to_lenO _ _ _ T). rewrite Dm. rewrite (proj2 (Nat.eqb_neq _ _) N2), (proj2 (Nat.eqb_neq _ _) N3). reflexivity.
Qed.
Print Assumptions C74_other_dimensions.

Definition two_tris : list simplex := [[0; 1; 2]; [1; 3; 2]].
Definition two_tets : list simplex := [[0; 1; 2; 3]; [1; 0; 2; 4]].
Example C74_example : exists t s, simplices_ok 2 two_tris /\ from_simplices lex_leb 2 two_tris = Ok t /\ QuadModel.subdivide_cubical lex_leb t = Ok s /\
  nth 1 (elements t) [] = [[0; 1]; [2; 0]; [1; 2]; [1; 3]; [3; 2]] /\
  nth 2 (elements s) [] = [[0; 5; 4; 9]; [1; 4; 6; 9]; [2; 6; 5; 9]; [1; 6; 7; 10]; [3; 7; 8; 10]; [2; 8; 6; 10]] /\
  COrSpec.consistent 2 (nth 2 (elements s) []) /\ is_face 1 [0; 1] [0; 1; 2] /\ incidence_number [0; 1] [0; 1; 2] = 1%Z /\ runs [0; 5; 4; 9] 4 0.
Proof.
  assert (OK : simplices_ok 2 two_tris) by (split; [discriminate|]; repeat constructor; cbn; intuition discriminate).
  eexists. eexists. split; auto. split; [vm_compute; reflexivity|]. split; [vm_compute; reflexivity|]. split; [vm_compute; reflexivity|]. split; [vm_compute; reflexivity|]. split; [apply consistentb_ok; [apply okb_ok; vm_compute; reflexivity|vm_compute; reflexivity]|].
  split; [split; [repeat constructor; cbn; intuition discriminate|split; [reflexivity|intros v; cbn; tauto]]|]. split; [reflexivity|].
  exists 1, false, [0; 4]. split; [lia|]. split; [apply (slice_is_slice 2 1 false [0; 5; 4; 9]); lia|]. right. split; reflexivity.
Qed.
Example C74_tetrahedra_example : exists t s, simplices_ok 3 two_tets /\ from_simplices lex_leb 3 two_tets = Ok t /\ QuadModel.subdivide_cubical lex_leb t = Ok s /\
  BdrySpec.consistent 3 two_tets /\ length (nth 3 (elements s) []) = 8 /\ length (nth 0 (elements s) []) = 23.
Proof.
  assert (OK : simplices_ok 3 two_tets) by (split; [discriminate|]; repeat constructor; cbn; intuition discriminate).
  eexists. eexists. split; auto. split; [vm_compute; reflexivity|]. split; [vm_compute; reflexivity|]. split; [apply BdryProps.consistentb_ok; [lia|auto|reflexivity]|split; vm_compute; reflexivity].
Qed.
