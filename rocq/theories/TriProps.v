(** C45, C47, C54, C61: volume, normals, extrusion and the loop subdivision operator. *)
Require Import List Arith ZArith Bool Lia Permutation Field Sorting.Sorted QArith Qcanon.
From Verif Require Import Util Arr CombProofs SimpModel SimpSpec ParProofs SimpProofs LevelProofs TopProofs SimpProps BdryModel BdrySpec
  OrientProofs SelProofs SubProofs BdryProps BaryProofs LoopProofs AvgModel AvgProofs AvgProps SubdModel SubdSpec SubdProps LinModel Ofield TriModel TriSpec TriProofs TriMesh TriExtrude TriSolid.
Import ListNotations.
Local Open Scope nat_scope.

Section Volume.
Variable F : cfield.
Add Field Ff : (fth F).
Local Open Scope ring_scope'.
Notation det := (det F).

Lemma volume_contribution : forall V t, volume F V t = fdiv (fdiv (rsum (map (contribution F V) (nth 2 (elements t) []))) (three F)) (two F).
Proof. reflexivity. Qed.

(** C45.  Closed meshes: translation invariance; any mesh: reversing the triangles flips the sign. *)
Theorem C45_volume_translation : forall V x t, two F <> r0 -> three F <> r0 ->
  Forall (fun s => length s = 3%nat) (nth 2 (elements t) []) -> closed_surface (nth 2 (elements t) []) ->
  volume F (translate F V x) t = volume F V t.
Proof. intros V x t H2 H3 L3 C. rewrite !volume_contribution, contributions_translate; auto. Qed.

(** The hypothesis in terms of the code: an oriented topology without boundary. *)
Theorem C45_no_boundary_translation : forall row_leb sat rows t V x, sat_contract sat -> simplices_ok 2 rows ->
  from_simplices row_leb 2 rows = Ok t -> at_most_two 2 rows -> boundary row_leb sat t = Ok None ->
  two F <> r0 -> three F <> r0 -> volume F (translate F V x) t = volume F V t.
Proof.
  intros row_leb sat rows t V x SC OK H AM B H2 H3. destruct (from_simplices_top_ok _ _ _ _ OK H) as [Hn T].
  assert (O : is_oriented sat t = Ok true). { unfold boundary in B. destruct (is_oriented sat t) as [[|]|]; simpl in B; congruence. }
  pose proof (C55_is_oriented_sound row_leb sat 2 rows t SC OK H AM O) as CO.
  pose proof (proj1 (proj1 (C11_boundary_none_iff row_leb sat 2 rows t SC OK ltac:(lia) H AM O)) B) as NB.
  pose proof (top_triangles rows t T) as TR. apply C45_volume_translation; auto; rewrite (to_top _ _ _ T).
  - eapply Forall_impl; [|exact TR]. intros s [Q _]; auto.
  - apply no_boundary_closed; auto.
Qed.

Lemma reversed_sum : forall V rows rows', three F <> r0 -> Forall (fun s => length s = 3%nat) rows -> Forall2 (fun s s' => s' = rev s \/ s' = flip s) rows rows' ->
  rsum (map (contribution F V) rows') = - rsum (map (contribution F V) rows).
Proof.
  intros V rows rows' H3 L3 R. revert L3. induction R as [|s s' l l' E R IH]; intros L3; [cbn; ring|]. inversion L3; subst. specialize (IH ltac:(auto)). unfold rsum in *. cbn [map fold_right]. rewrite IH.
  destruct (triple_split s) as (a & b & c & ->); auto. assert (Q : contribution F V s' = - contribution F V [a; b; c]); [|rewrite Q; ring].
  destruct E as [-> | ->]; cbn [rev app flip]; rewrite !contribution_det by auto; unfold TriProofs.det; ring.
Qed.
Theorem C45_volume_reversed : forall V t t', three F <> r0 -> two F <> r0 -> Forall (fun s => length s = 3%nat) (nth 2 (elements t) []) ->
  Forall2 (fun s s' => s' = rev s \/ s' = flip s) (nth 2 (elements t) []) (nth 2 (elements t') []) ->
  volume F V t' = - volume F V t.
Proof. intros V t t' H3 H2 L3 R. rewrite !volume_contribution, (reversed_sum V _ _ H3 L3 R). field. auto. Qed.

(** What the number means: for the surface of a tetrahedron it is a sixth of the determinant of the edge vectors. *)
Theorem C45_tetrahedron : forall V t a b c d, three F <> r0 -> two F <> r0 -> nth 2 (elements t) [] = [[b; c; d]; [a; d; c]; [a; b; d]; [a; c; b]] ->
  volume F V t = fdiv (det (fun i => V b i - V a i) (fun i => V c i - V a i) (fun i => V d i - V a i)) (two F * three F).
Proof.
  intros V t a b c d H3 H2 E. rewrite volume_contribution, E. cbn [map rsum fold_right]. rewrite !contribution_det by auto. unfold TriProofs.det. field. auto.
Qed.

(** C61.  vertex_normals is six times the gradient of the volume: moving one vertex of a closed mesh by any x changes the
    volume by exactly the inner product of x with its normal, divided by six. *)
Lemma repeat_normal : forall v z s, NoDup s -> rsum (map (fun cn : nat * F => if Nat.eqb (fst cn) v then snd cn else r0) (map (fun c => (c, z)) s)) = if existsb (Nat.eqb v) s then z else r0.
Proof.
  intros v z s N. rewrite map_map. cbn [fst snd]. induction s as [|a s IH]; cbn; auto. inversion N; subst. unfold rsum in IH. rewrite IH by auto. rewrite (Nat.eqb_sym v a). destruct (Nat.eqb_spec a v) as [->|E]; cbn [orb].
  - destruct (existsb (Nat.eqb v) s) eqn:X; [|ring]. apply existsb_exists in X as (u & Hu & Q). apply Nat.eqb_eq in Q. subst. contradiction.
  - ring.
Qed.
Lemma vertex_normal_sum : forall V t v i, Forall (fun s => NoDup s) (nth 2 (elements t) []) ->
  vertex_normal F V t v i = rsum (map (fun s => if existsb (Nat.eqb v) s then triangle_normal F V s i else r0) (nth 2 (elements t) [])).
Proof.
  intros V t v i N. unfold vertex_normal. rewrite rsum_flat_map. apply rsum_ext. intros s Hs. rewrite Forall_forall in N. apply repeat_normal; auto.
Qed.
Theorem C61_volume_gradient : forall V t v x, two F <> r0 -> three F <> r0 ->
  Forall (fun s => length s = 3%nat /\ NoDup s) (nth 2 (elements t) []) -> closed_surface (nth 2 (elements t) []) ->
  volume F (fun u i => if Nat.eqb u v then V u i + x i else V u i) t =
  volume F V t + fdiv (vertex_normal F V t v 0 * x 0%nat + vertex_normal F V t v 1 * x 1%nat + vertex_normal F V t v 2 * x 2%nat) (two F * three F).
Proof.
  intros V t v x H2 H3 L C. assert (L3 : Forall (fun s => length s = 3%nat) (nth 2 (elements t) [])) by (eapply Forall_impl; [|exact L]; intros s [Q _]; exact Q).
  assert (ND : Forall (fun s => NoDup s) (nth 2 (elements t) [])) by (eapply Forall_impl; [|exact L]; intros s [_ Q]; exact Q).
  change (fun u i => if Nat.eqb u v then V u i + x i else V u i) with (moved F V v x). rewrite !volume_contribution. rewrite (contributions_moved F _ V L3 C H2 H3 ND v x). rewrite !vertex_normal_sum by auto.
  assert (Q : rsum (map (fun s => if existsb (Nat.eqb v) s then inner3 F (triangle_normal F V s) x else r0) (nth 2 (elements t) [])) =
    rsum (map (fun s => if existsb (Nat.eqb v) s then triangle_normal F V s 0 else r0) (nth 2 (elements t) [])) * x 0%nat +
    rsum (map (fun s => if existsb (Nat.eqb v) s then triangle_normal F V s 1 else r0) (nth 2 (elements t) [])) * x 1%nat +
    rsum (map (fun s => if existsb (Nat.eqb v) s then triangle_normal F V s 2 else r0) (nth 2 (elements t) [])) * x 2%nat).
  { rewrite <- !rsum_mul_r, <- !rsum_add. apply rsum_ext. intros s _. destruct (existsb (Nat.eqb v) s); unfold inner3; ring. }
  rewrite Q. field. auto.
Qed.
(** The vertex normals of a closed mesh cancel. *)
Theorem C61_normals_cancel : forall V t n i, two F <> r0 -> i < 3 -> 
  Forall (fun s => length s = 3%nat /\ NoDup s) (nth 2 (elements t) []) -> closed_surface (nth 2 (elements t) []) ->
  (forall v, In v (concat (nth 2 (elements t) [])) -> v < n) ->
  rsum (map (fun v => vertex_normal F V t v i) (seq 0 n)) = r0.
Proof.
  intros V t n i H2 Hi L C HV. assert (L3 : Forall (fun s => length s = 3%nat) (nth 2 (elements t) [])) by (eapply Forall_impl; [|exact L]; intros s [Q _]; exact Q).
  assert (ND : Forall (fun s => NoDup s) (nth 2 (elements t) [])) by (eapply Forall_impl; [|exact L]; intros s [_ Q]; exact Q).
  rewrite (rsum_ext F _ _ (fun v => rsum (map (fun s => if existsb (Nat.eqb v) s then triangle_normal F V s i else r0) (nth 2 (elements t) [])))) by (intros v _; apply vertex_normal_sum; auto).
  rewrite rsum_swap. rewrite (rsum_ext F _ _ (fun s => three F * triangle_normal F V s i)).
  - rewrite rsum_mul, (normals_cancel F _ V L3 C H2) by auto. ring.
  - intros s Hs. rewrite Forall_forall in L. destruct (L s Hs) as [Ls Ns]. destruct (triple_split s Ls) as (a & b & c & ->).
    assert (K : forall u, In u [a; b; c] -> (u < n)%nat) by (intros u Hu; apply HV, in_concat; eauto).
    assert (S1 : forall u (z : F), (u < n)%nat -> rsum (map (fun v => if Nat.eqb v u then z else r0) (seq 0 n)) = z).
    { intros u z Hu. rewrite (rsum_single F _ _ _ u); [rewrite Nat.eqb_refl; auto|apply seq_NoDup|apply in_seq; lia|]. intros w _ Hw. apply Nat.eqb_neq in Hw. rewrite Hw. auto. }
    apply nodup3 in Ns. set (z := triangle_normal F V [a; b; c] i). rewrite (rsum_ext F _ _ (fun v => (if Nat.eqb v a then z else r0) + ((if Nat.eqb v b then z else r0) + (if Nat.eqb v c then z else r0)))).
    + rewrite !rsum_add, !S1 by (apply K; cbn; auto). unfold three. ring.
    + intros v _. cbn [existsb]. destruct (Nat.eqb_spec v a), (Nat.eqb_spec v b), (Nat.eqb_spec v c); cbn [orb]; subst; try (exfalso; tauto); ring.
Qed.
End Volume.
Print Assumptions C45_volume_translation.
Print Assumptions C45_no_boundary_translation.
Print Assumptions C45_volume_reversed.
Print Assumptions C45_tetrahedron.
Print Assumptions C61_volume_gradient.
Print Assumptions C61_normals_cancel.

(** Decision procedure for the examples. *)
Lemma closedb_ok : forall rows, forallb (fun e => occurs e (mesh_edges rows) =? occurs (reverse e) (mesh_edges rows)) (mesh_edges rows) = true -> closed_surface rows.
Proof.
  intros rows H e. rewrite forallb_forall in H. set (L := mesh_edges rows) in *.
  assert (P : forall e, In e L \/ occurs e L = 0). { intros x. rewrite occurs_count. destruct (in_dec dedge_dec x L); auto. right. apply count_occ_not_In; auto. }
  destruct (P e) as [I|E]; [apply Nat.eqb_eq, H, I|]. destruct (P (reverse e)) as [I|E']; [|congruence].
  apply H, Nat.eqb_eq in I. rewrite reverse_reverse in I. auto.
Qed.

(** A tetrahedron with corners 0, 3e1, 2e2, e3. *)
Definition tet_rows : list simplex := [[1; 2; 3]; [0; 3; 2]; [0; 1; 3]; [0; 2; 1]].
Definition tet_V (v i : nat) : Qfield := match v, i with 1, 0 => Q2Qc 3 | 2, 1 => Q2Qc 2 | 3, 2 => Q2Qc 1 | _, _ => Q2Qc 0 end.
Example C45_example : exists t, from_simplices lex_leb 2 tet_rows = Ok t /\ at_most_two 2 tet_rows /\ boundary lex_leb brute_sat t = Ok None /\
  closed_surface (nth 2 (elements t) []) /\ volume Qfield tet_V t = Q2Qc 1 /\ volume Qfield (translate Qfield tet_V (fun i => Q2Qc 5)) t = Q2Qc 1 /\
  map (fun i => this (vertex_normal Qfield tet_V t 1 i)) [0; 1; 2] = [2; 0; 0]%Q.
Proof.
  eexists. split; [vm_compute; reflexivity|]. split; [two_mesh|]. split; [vm_compute; reflexivity|]. split.
  { apply closedb_ok. reflexivity. }
  split; [apply Qc_is_canon; vm_compute; reflexivity|]. split; [apply Qc_is_canon; vm_compute; reflexivity|]. vm_compute; reflexivity.
Qed.
(** Without closedness translation matters: one triangle. *)
Example C45_open_mesh : exists t, from_simplices lex_leb 2 [[0; 1; 2]] = Ok t /\ volume Qfield tet_V t <> volume Qfield (translate Qfield tet_V (fun i => Q2Qc 1)) t.
Proof. eexists. split; [vm_compute; reflexivity|]. vm_compute. discriminate. Qed.

(** C47.  The solid has the original triangles, their reversed copies on the other sheet, and two triangles for every boundary
    edge; every directed edge is matched by its reverse. *)
Definition boundary_dedge (rows : list simplex) (x y : nat) : Prop := In (x, y) (mesh_edges rows) /\ ~ In (y, x) (mesh_edges rows).
Definition extruded (n : nat) (rows : list simplex) (D : list dedge) : list simplex :=
  rows ++ map (fun s => match s with [a; b; c] => [c + n; b + n; a + n] | _ => [] end) rows ++
  map (fun e => [snd e; fst e; fst e + n]) D ++ map (fun e => [fst e + n; snd e + n; snd e]) D.

Lemma solid_extruded : forall n rows D, Forall triangle rows -> solid_rows n rows (be D) = extruded n rows D.
Proof.
  intros n rows D TR. unfold solid_rows, extruded, strip, be. rewrite !map_map. f_equal. f_equal. apply map_ext_in. intros s Hs. rewrite Forall_forall in TR. destruct (triangle_abc s (TR s Hs)) as (a & b & c & -> & _). reflexivity.
Qed.
Lemma extrude_unfold : forall row_leb sat rows t n b, sat_contract sat -> simplices_ok 2 rows ->
  from_simplices row_leb 2 rows = Ok t -> at_most_two 2 rows -> boundary row_leb sat t = Ok (Some b) ->
  exists D, NoDup D /\ (forall x y, In (x, y) D <-> boundary_dedge rows x y) /\ Permutation (unpaired rows) D /\ D <> [] /\ consistent 2 rows /\
  extrude row_leb sat n t = do solid <- from_simplices row_leb 2 (solid_rows n rows (be D));
    do o' <- is_oriented sat solid; if negb o' then Err AssertionError else Ok solid.
Proof.
  intros row_leb sat rows t n [b idx] SC OK H AM B. destruct (from_simplices_top_ok _ _ _ _ OK H) as [Hn T].
  assert (O : is_oriented sat t = Ok true). { unfold boundary in B. destruct (is_oriented sat t) as [[|]|]; simpl in B; congruence. }
  pose proof (C55_is_oriented_sound row_leb sat 2 rows t SC OK H AM O) as CO. pose proof (top_triangles rows t T) as TR.
  destruct (C12_boundary_elements row_leb sat 2 rows t b idx SC OK ltac:(lia) H AM B) as [SS CH]. change (2 - 1) with 1 in *.
  assert (ND : NoDup (nth 1 idx [])). { clear - SS. induction SS as [|x l SS IH F]; constructor; auto. intros I. rewrite Forall_forall in F. specialize (F x I). lia. }
  pose proof (boundary_pairs rows t T CO (nth 1 idx []) ND CH) as P. set (D := map (fun i => pair_of (el t 1 i)) (nth 1 idx [])) in *.
  assert (PI : forall x y, In (x, y) D <-> boundary_dedge rows x y).
  { intros x y. split; intros I.
    - apply (Permutation_in _ (Permutation_sym P)) in I. unfold unpaired in I. apply filter_In in I as [I U]. rewrite negb_true_iff, <- not_true_iff_false, has_in in U. split; auto.
    - apply (Permutation_in _ P). unfold unpaired. apply filter_In. destruct I as [I U]. rewrite negb_true_iff, <- not_true_iff_false, has_in. auto. }
  exists D. split; [eapply Permutation_NoDup; [exact P|]; apply NoDup_filter, mesh_nodup; auto|]. split; [exact PI|]. split; [exact P|]. split; [|split; [exact CO|]].
  - intros E. assert (E0 : nth 1 idx [] = []) by (unfold D in E; destruct (nth 1 idx []); [auto|discriminate]). assert (NB : boundary row_leb sat t = Ok None); [|congruence].
    apply (proj1 (C11_boundary_none_iff row_leb sat 2 rows t SC OK ltac:(lia) H AM O)). intros f F. pose proof F as (j & Hj & Fc & _). change (2 - 1) with 1 in *. pose proof (tr rows TR j Hj) as Tj. destruct (face_pair f _ Tj Fc) as (x & y & -> & Hxy).
    assert (I : exists i, i < n_elements t 1 /\ Permutation (el t 1 i) [x; y]).
    { destruct (face_dedges _ _ _ Tj Fc) as [I|I]; [apply (edge_index rows t T); apply in_mesh; eauto|]. destruct (edge_index rows t T y x) as (i & Hi & Pi); [apply in_mesh; eauto|]. exists i. split; auto. rewrite Pi. constructor. }
    destruct I as (i & Hi & Pi). assert (X : In i (nth 1 idx [])); [|rewrite E0 in X; destruct X]. apply CH. split; auto. fold (el t 1 i).
    destruct F as (j' & Hj' & F1 & F2). assert (Tr : forall s, is_face 1 (el t 1 i) s <-> is_face 1 [x; y] s).
    { intros s. unfold is_face. rewrite (Permutation_length Pi). split; intros (A1 & A2 & A3); (split; [|split; auto]).
      - eapply Permutation_NoDup; eauto.
      - intros v Hv. apply A3. apply (Permutation_in _ (Permutation_sym Pi)). auto.
      - eapply Permutation_NoDup; [symmetry|]; eauto.
      - intros v Hv. apply A3. apply (Permutation_in _ Pi). auto. }
    exists j'. split; auto. change (2 - 1) with 1 in *. split; [apply Tr; auto|]. intros j2 Hj2 F3. apply F2; auto. apply Tr. auto.
  - unfold extrude. rewrite O. cbn [bind negb]. rewrite B. cbn [bind]. rewrite (to_top _ _ _ T).
    replace (map (fun i => nth i (nth 1 (elements t) []) []) (nth 1 idx [])) with (be D); [reflexivity|]. unfold be, D. rewrite map_map. apply map_ext_in. intros i Hi. apply CH in Hi as [Hi _]. destruct (stored_edge rows t T i Hi) as (x & y & E & _). unfold el in *. rewrite E. reflexivity.
Qed.

Theorem C47_extrude_closed : forall row_leb sat rows t solid, sat_contract sat -> simplices_ok 2 rows ->
  from_simplices row_leb 2 rows = Ok t -> at_most_two 2 rows -> extrude row_leb sat (n_elements t 0) t = Ok solid ->
  closed_surface (nth 2 (elements solid) []) /\ n_elements solid 0 = n_elements t 0 + n_elements t 0 /\
  exists D, NoDup D /\ (forall x y, In (x, y) D <-> boundary_dedge rows x y) /\ nth 2 (elements solid) [] = extruded (n_elements t 0) rows D.
Proof.
  intros row_leb sat rows t solid SC OK H AM E. destruct (from_simplices_top_ok _ _ _ _ OK H) as [Hn T]. pose proof (top_triangles rows t T) as TR.
  assert (B : exists b, boundary row_leb sat t = Ok (Some b)). { unfold extrude in E. destruct (is_oriented sat t) as [[|]|]; cbn [bind negb] in E; try discriminate. destruct (boundary row_leb sat t) as [[b|]|]; cbn [bind] in E; try discriminate. eauto. }
  destruct B as [b B]. destruct (extrude_unfold row_leb sat rows t (n_elements t 0) b SC OK H AM B) as (D & ND & PI & P & NE & CO & EU). rewrite EU in E.
  destruct (from_simplices row_leb 2 (solid_rows (n_elements t 0) rows (be D))) as [s|] eqn:ES; cbn [bind] in E; [|discriminate].
  assert (s = solid) by (destruct (is_oriented sat s) as [[|]|]; cbn [bind negb] in E; congruence). subst s.
  pose proof (to_vused _ _ _ T) as LT.
  assert (OK' : simplices_ok 2 (solid_rows (n_elements t 0) rows (be D))). { split; [|apply (solid_triangles rows (n_elements t 0) D TR P LT)]. destruct OK as [N _]. unfold solid_rows. destruct rows; [congruence|discriminate]. }
  destruct (from_simplices_top_ok _ _ _ _ OK' ES) as [_ T']. rewrite (to_top _ _ _ T'). split; [apply solid_closed; auto|]. split.
  - pose proof (to_vused _ _ _ T') as LT'. pose proof (solid_labels rows (n_elements t 0) D TR P LT) as SL.
    destruct (Nat.lt_trichotomy (n_elements solid 0) (n_elements t 0 + n_elements t 0)) as [Q|[Q|Q]]; auto; exfalso.
    + apply SL, LT' in Q. lia.
    + apply LT', SL in Q. lia.
  - exists D. split; auto. split; auto. apply solid_extruded; auto.
Qed.
Print Assumptions C47_extrude_closed.

(** When it succeeds: connected surfaces with a boundary that passes through every vertex at most once. *)
Theorem C47_extrude_succeeds : forall row_leb sat rows t, sat_contract sat -> simplices_ok 2 rows ->
  from_simplices row_leb 2 rows = Ok t -> at_most_two 2 rows -> connected 2 rows -> consistent 2 rows -> (exists f, boundary_face 2 rows f) ->
  (forall x y y', boundary_dedge rows x y -> boundary_dedge rows x y' -> y = y') ->
  exists solid, extrude row_leb sat (n_elements t 0) t = Ok solid /\ boundary row_leb sat solid = Ok None.
Proof.
  intros row_leb sat rows t SC OK H AM CN CO [f BF] U. destruct (from_simplices_top_ok _ _ _ _ OK H) as [Hn T]. pose proof (top_triangles rows t T) as TR. pose proof (to_vused _ _ _ T) as LT.
  pose proof (C55_is_oriented_complete row_leb sat 2 rows t SC OK H AM CN CO) as O.
  destruct (C11_boundary_none_iff row_leb sat 2 rows t SC OK ltac:(lia) H AM O) as [N1 N2].
  destruct (boundary row_leb sat t) as [[b|]|e] eqn:B; [|exfalso; eapply N1; eauto|exfalso; eapply N2; eauto].
  destruct (extrude_unfold row_leb sat rows t (n_elements t 0) b SC OK H AM B) as (D & ND & PI & P & NE & _ & EU).
  set (n := n_elements t 0) in *.
  assert (OK' : simplices_ok 2 (solid_rows n rows (be D))). { split; [|apply (solid_triangles rows n D TR P LT)]. destruct OK as [N _]. unfold solid_rows. destruct rows; [congruence|discriminate]. }
  destruct (proj1 (from_simplices_cases row_leb 2 _ ltac:(lia) OK') (ex_intro _ _ (solid_labels rows n D TR P LT))) as (s & ES & T').
  assert (HF : NoDup (map fst D)). { apply NoDup_map_inj; auto. intros [x y] [x' y'] I I' Q. cbn in Q. subst x'. f_equal. apply (U x); apply PI; auto. }
  pose proof (solid_nodup rows n D TR CO P LT HF) as SN. pose proof (solid_triangles rows n D TR P LT) as ST.
  pose proof (nodup_consistent _ ST SN) as CO'. pose proof (nodup_at_most_two _ ST SN) as AM'. pose proof (solid_connected rows n D TR P LT CN NE) as CN'.
  pose proof (C55_is_oriented_complete row_leb sat 2 _ s SC OK' ES AM' CN' CO') as O'.
  exists s. rewrite EU, ES. cbn [bind]. rewrite O'. cbn [bind negb]. split; auto.
  apply (proj1 (C11_boundary_none_iff row_leb sat 2 _ s SC OK' ltac:(lia) ES AM' O')). intros g G. pose proof G as (j & Hj & Fc & Un). change (2 - 1) with 1 in *.
  pose proof (tr _ ST j Hj) as Tj. destruct (face_pair g _ Tj Fc) as (x & y & -> & Hxy).
  assert (K : forall x y, In (x, y) (mesh_edges (solid_rows n rows (be D))) -> In (y, x) (mesh_edges (solid_rows n rows (be D)))).
  { intros x0 y0 I. pose proof (solid_closed rows n D TR CO P (x0, y0)) as Q. rewrite !occurs_count in Q. apply (count_occ_In dedge_dec) in I. apply (count_occ_In dedge_dec). unfold reverse in Q. cbn in Q. lia. }
  assert (Z : exists x' y', is_face 1 [x'; y'] (nth j (solid_rows n rows (be D)) []) /\ In (x', y') (dedges (nth j (solid_rows n rows (be D)) [])) /\ (forall s, is_face 1 [x'; y'] s -> is_face 1 [x; y] s)).
  { destruct (face_dedges _ _ _ Tj Fc) as [I|I]; [exists x, y; auto|]. exists y, x. destruct (dedges_face _ _ _ Tj I) as (Fc' & _). split; auto. split; auto. intros s0 (_ & _ & Q). apply face2; auto; apply Q; cbn; auto. }
  destruct Z as (x' & y' & F' & I' & Tr). assert (I2 : In (y', x') (mesh_edges (solid_rows n rows (be D)))) by (apply K, in_mesh; eauto).
  apply in_mesh in I2 as (j2 & Hj2 & I2). pose proof (tr _ ST j2 Hj2) as Tj2. destruct (dedges_face _ _ _ Tj2 I2) as ((_ & _ & F2) & _ & _ & Hne).
  assert (j2 = j). { apply Un; auto. apply Tr. apply face2; [auto| |]; apply F2; cbn; auto. } subst j2.
  destruct (dedges_face _ _ _ Tj I') as (_ & _ & N & _). auto.
Qed.
Print Assumptions C47_extrude_succeeds.

(** Closed surfaces are refused. *)
Theorem C47_closed_refused : forall row_leb sat n t, boundary row_leb sat t = Ok None -> extrude row_leb sat n t = Err AssertionError.
Proof. intros row_leb sat n t B. unfold extrude. rewrite B. unfold boundary in B. destruct (is_oriented sat t) as [[|]|]; cbn [bind negb] in *; congruence. Qed.
Print Assumptions C47_closed_refused.

Example C47_example : exists t solid, from_simplices lex_leb 2 [[0;1;2];[0;2;3]] = Ok t /\ at_most_two 2 [[0;1;2];[0;2;3]] /\
  extrude lex_leb brute_sat (n_elements t 0) t = Ok solid /\ n_elements solid 0 = 8 /\
  nth 2 (elements solid) [] = [[0; 1; 2]; [0; 2; 3]; [6; 5; 4]; [7; 6; 4]; [1; 0; 4]; [0; 3; 7]; [2; 1; 5]; [3; 2; 6]; [4; 5; 1]; [7; 4; 0]; [5; 6; 2]; [6; 7; 3]].
Proof. eexists _, _. split; [vm_compute; reflexivity|]. split; [two_mesh|]. split; [vm_compute; reflexivity|]. split; vm_compute; reflexivity. Qed.
Example C47_hypotheses : connected 2 [[0;1;2];[0;2;3]] /\ consistent 2 [[0;1;2];[0;2;3]] /\ (exists f, boundary_face 2 [[0;1;2];[0;2;3]] f) /\
  (forall x y y', boundary_dedge [[0;1;2];[0;2;3]] x y -> boundary_dedge [[0;1;2];[0;2;3]] x y' -> y = y').
Proof.
  split; [apply C55_example|]. split; [apply C55_example|]. split.
  - exists [0; 1]. exists 0. cbn. split; [lia|]. split; [apply face2; cbn; auto; lia|]. intros j' Hj F. destruct j' as [|[|j']]; [auto| |lia]. exfalso. destruct F as (_ & _ & F). specialize (F 1 ltac:(cbn; auto)). cbn in F. lia.
  - intros x y y' [I N] [I' N']. cbn in I, I', N, N'. repeat destruct I as [I|I]; try contradiction; injection I as <- <-; repeat destruct I' as [I'|I']; try contradiction; try discriminate; injection I' as; auto; exfalso; subst; tauto.
Qed.

(** C54.  The number of rows of the operator is the number of all elements, not of the fine vertices; with smooth=True
    the product is refused. *)
Theorem C54_rows_partial : forall row_leb rows t, simplices_ok 2 rows -> from_simplices row_leb 2 rows = Ok t ->
  subdivide_loop_operator_shape row_leb t false = Ok (n_elements t 0 + (n_elements t 1 + n_elements t 2), n_elements t 0).
Proof.
  intros row_leb rows t OK H. destruct (from_simplices_top_ok _ _ _ _ OK H) as [Hn T]. unfold subdivide_loop_operator_shape, accumulated_operators_0. fold (acc0 t).
  assert (LA : length (acc0 t) = 2) by (unfold acc0; rewrite accumulate_length, map_length; apply (matrices_len 2 rows t T)).
  destruct (acc0_spec 2 rows t Hn T 0 ltac:(lia)) as (R0 & C0 & _). destruct (acc0_spec 2 rows t Hn T 1 ltac:(lia)) as (R1 & C1 & _).
  destruct (acc0 t) as [|a [|b [|]]]; cbn in LA; try lia. cbn [nth] in *. cbn. rewrite C0, C1, R0. repeat f_equal; lia.
Qed.
Print Assumptions C54_rows_partial.
Theorem C54_fine_vertices_refuted : forall row_leb rows t, simplices_ok 2 rows -> from_simplices row_leb 2 rows = Ok t ->
  (exists fine ms r c, subdivide_loop row_leb t = Ok (fine, ms) /\ subdivide_loop_operator_shape row_leb t false = Ok (r, c) /\ r = n_elements fine 0 + length rows /\ r <> n_elements fine 0) /\
  subdivide_loop_operator_shape row_leb t true = Err ValueError.
Proof.
  intros row_leb rows t OK H. pose proof (C54_rows_partial row_leb rows t OK H) as R. destruct (C23_loop_subdivision row_leb rows t OK H) as (fine & ms & E & _ & E0 & _).
  destruct (from_simplices_top_ok _ _ _ _ OK H) as [Hn T]. assert (E2 : n_elements t 2 = length rows) by (unfold n_elements; rewrite (to_top _ _ _ T); auto).
  assert (P : 0 < length rows) by (destruct OK as [N _]; destruct rows; [congruence|cbn; lia]). split.
  - exists fine, ms, (n_elements t 0 + (n_elements t 1 + n_elements t 2)), (n_elements t 0). repeat split; auto; lia.
  - unfold subdivide_loop_operator_shape in *. destruct (accumulated_operators_0 t) as [A|] eqn:EA; cbn [bind] in *; [|discriminate]. rewrite E. cbn [bind]. injection R as R1 R2. rewrite R1, E0.
    destruct (Nat.eqb_spec (n_elements t 0 + n_elements t 1) (n_elements t 0 + (n_elements t 1 + n_elements t 2))); [lia|auto].
Qed.
Print Assumptions C54_fine_vertices_refuted.
Example C54_example : exists t, from_simplices lex_leb 2 two_triangles = Ok t /\ subdivide_loop_operator_shape lex_leb t false = Ok (11, 4) /\
  (do '(f, _) <- subdivide_loop lex_leb t; Ok (n_elements f 0)) = Ok 9.
Proof. eexists. split; [vm_compute; reflexivity|]. split; vm_compute; reflexivity. Qed.
