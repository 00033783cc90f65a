(** Property C65: boundary and sub-meshes of cubical topologies. *)
Require Import List Arith ZArith Bool Lia Permutation Sorting.Sorted.
From Verif Require Import Util CombModel CombSpec CombProofs SimpModel SimpSpec ParProofs SimpProofs LevelProofs TopProofs SimpProps CubeModel CubeSpec CubeBits CubeBd CubeRel CubeLevel CubeTop CubeChain CubeProps.
From Verif Require Import BdryModel BdrySpec OrientProofs FixProofs SubProofs SelProofs SelProps GenOrient COrModel COrSpec COrProofs COrProps CSubProofs CBdProofs.
Import ListNotations.
Local Open Scope nat_scope.

Notation select_subset := COrModel.select_subset.

(** C65.  The boundary of an oriented mesh is [None] exactly when no face belongs to only one cube, and is never an error. *)
Theorem C65_boundary_none_iff : forall row_leb sat n rows t, sat_contract sat -> 1 <= n -> cubes_ok n rows ->
  from_cubes row_leb true n rows = Ok t -> at_most_two n rows -> is_oriented sat t = Ok true ->
  (boundary row_leb sat t = Ok None <-> forall f, ~ boundary_face n rows f) /\
  (forall e, boundary row_leb sat t <> Err e).
Proof.
  intros row_leb sat n rows t SC Hn OK H AM O. destruct (from_cubes_ctop _ _ _ _ Hn OK H) as (H7 & FM & _ & T).
  pose proof (oriented_sound n rows t Hn OK T AM sat SC O) as CO.
  rewrite <- (positions_nil_iff n rows t Hn H7 OK T AM CO).
  destruct (list_eq_dec Nat.eq_dec (boundary_positions t) []) as [E|E].
  - rewrite (boundary_unfold row_leb n rows t T sat O). rewrite E. cbn. split; [tauto|discriminate].
  - destruct (boundary_some row_leb n rows t Hn H7 OK FM H T AM CO sat O E) as (b & idx & Eb & _). rewrite Eb. split; [split; intros; congruence|discriminate].
Qed.
Print Assumptions C65_boundary_none_iff.

Lemma boundary_facts_of : forall row_leb sat n rows t b idx, sat_contract sat -> 1 <= n -> cubes_ok n rows ->
  from_cubes row_leb true n rows = Ok t -> at_most_two n rows -> boundary row_leb sat t = Ok (Some (b, idx)) ->
  n <= 7 /\ (forall k, 1 <= k < n -> faces_match k n rows) /\ ctop n rows t /\ consistent n rows /\ is_oriented sat t = Ok true /\ boundary_facts row_leb n t b idx.
Proof.
  intros row_leb sat n rows t b idx SC Hn OK H AM E. destruct (from_cubes_ctop _ _ _ _ Hn OK H) as (H7 & FM & _ & T).
  assert (O : is_oriented sat t = Ok true) by (unfold COrModel.boundary in E; destruct (is_oriented sat t) as [[|]|]; simpl in E; congruence).
  pose proof (oriented_sound n rows t Hn OK T AM sat SC O) as CO. pose proof (boundary_some_inv row_leb n rows t T sat b idx E O) as Hne.
  destruct (boundary_some row_leb n rows t Hn H7 OK FM H T AM CO sat O Hne) as (b' & idx' & Eb & BF). rewrite E in Eb. injection Eb as <- <-. tauto.
Qed.

(** The boundary is closed: the signed cofaces of each of its ridges cancel, and it has no boundary itself. *)
Theorem C65_boundary_closed : forall row_leb sat n rows t b idx, sat_contract sat -> 2 <= n -> cubes_ok n rows ->
  from_cubes row_leb true n rows = Ok t -> at_most_two n rows -> boundary row_leb sat t = Ok (Some (b, idx)) ->
  n_dim b = n - 1 /\
  (forall i, i < n_elements b (n - 2) ->
     sumZ (map (fun j => entry (matrix b (n - 2)) i j) (seq 0 (n_elements b (n - 1)))) = 0%Z) /\
  (is_oriented sat b = Ok true -> boundary row_leb sat b = Ok None).
Proof.
  intros row_leb sat n rows t b idx SC Hn2 OK H AM E. assert (Hn : 1 <= n) by lia.
  destruct (boundary_facts_of row_leb sat n rows t b idx SC Hn OK H AM E) as (H7 & FM & T & CO & O & BF).
  pose proof (bf_sub _ _ _ _ _ BF) as Sb. pose proof (st_topk _ _ _ _ Sb ltac:(lia)) as Tb.
  assert (Dn : n_dim b = n - 1) by (apply (st_dim _ _ _ _ Sb)).
  pose proof (boundary_rowsum row_leb n rows t Hn H7 OK H T AM CO Hn2 b idx BF) as RS.
  split; [exact Dn|]. split; [exact RS|]. intros Ob. rewrite (boundary_unfold row_leb (n - 1) _ b Tb sat Ob).
  assert (EP : boundary_positions b = []); [|rewrite EP; reflexivity].
  unfold boundary_positions. rewrite Dn. replace (n - 1 - 1) with (n - 2) by lia.
  destruct (c_matrix_shape (n - 1) _ b ltac:(lia) Tb (n - 2) ltac:(lia)) as [R C]. rewrite R, C. replace (S (n - 2)) with (n - 1) by lia.
  assert (B : forall l, (forall i, In i l -> i < n_elements b (n - 2)) ->
      filter (fun i => negb (wrap8 (sumZ (map (fun j => entry (matrix b (n - 2)) i j) (seq 0 (n_elements b (n - 1))))) =? 0)%Z) l = []).
  { induction l as [|i l IH]; intros Hl; auto. cbn [filter]. rewrite RS by (apply Hl; left; auto). change (negb (wrap8 0 =? 0)%Z) with false. cbv iota. apply IH. intros; apply Hl; right; auto. }
  apply B. intros i Hi. apply in_seq in Hi. lia.
Qed.
Print Assumptions C65_boundary_closed.

(** The boundary elements are the faces of exactly one cube, in parent order; each is the stored face itself, and all
    carry the same coefficient in that cube's boundary (so the boundary has the induced orientation, up to one sign). *)
Theorem C65_boundary_elements : forall row_leb sat n rows t b idx, sat_contract sat -> 2 <= n -> cubes_ok n rows ->
  from_cubes row_leb true n rows = Ok t -> at_most_two n rows -> boundary row_leb sat t = Ok (Some (b, idx)) ->
  StronglySorted lt (nth (n - 1) idx []) /\
  (forall i, In i (nth (n - 1) idx []) <-> i < n_elements t (n - 1) /\ boundary_face n rows (nth i (nth (n - 1) (elements t) []) [])) /\
  map (map (fun v => nth v (nth 0 idx []) 0)) (nth (n - 1) (elements b) []) = map (fun i => nth i (nth (n - 1) (elements t) []) []) (nth (n - 1) idx []) /\
  (forall i j, In i (nth (n - 1) idx []) -> j < length rows -> has_side n (nth j rows []) (nth i (nth (n - 1) (elements t) []) []) ->
     entry (matrix t (n - 1)) i j = (-1)%Z).
Proof.
  intros row_leb sat n rows t b idx SC Hn2 OK H AM E. assert (Hn : 1 <= n) by lia.
  destruct (boundary_facts_of row_leb sat n rows t b idx SC Hn OK H AM E) as (H7 & FM & T & CO & O & BF).
  rewrite (parent_idx_top row_leb n rows t Hn H7 OK FM H T AM CO b idx BF). split; [apply positions_sorted|].
  split; [intros i; apply (positions_spec n rows t Hn H7 OK T AM CO)|]. pose proof (bf_sub _ _ _ _ _ BF) as Sb. pose proof (st_topk _ _ _ _ Sb ltac:(lia)) as Tb. split.
  - destruct (bf_idx _ _ _ _ _ BF 0 ltac:(lia)) as [L1 L2]. rewrite (sub_idx0 row_leb n rows t T (n - 1) _ b Sb idx L1 L2). rewrite (ct_top _ _ _ Tb).
    unfold relabel. rewrite map_map. change (map (fun i => nth i (nth (n - 1) (elements t) []) []) (boundary_positions t)) with (bel n t). transitivity (map (fun x => x) (bel n t)); [|apply map_id].
    apply map_ext_in. intros r Hr. change (map (back (smap (bel n t))) (map (rank (smap (bel n t))) r) = r).
    unfold smap. apply (map_back_rank (bel n t)). apply sel_mapping. auto.
  - intros i j Hi Hj F. apply (positions_spec n rows t Hn H7 OK T AM CO) in Hi as [Hi B]. apply (one_coface_iff n rows t) in B as (j' & Hj' & X); auto. fold (el t (n - 1) i) in F. apply X in F; auto. subst j'.
    destruct (rowsum_one n rows t Hn OK T i j Hi Hj X) as [E1 _]. rewrite <- E1. apply (rowsum_rep row_leb n rows t Hn OK H T Hn2 i j Hi Hj X).
Qed.
Print Assumptions C65_boundary_elements.

(** Unlike for simplices, the boundary of an open curve exists: its end points, in order. *)
Theorem C65_open_curve : forall row_leb sat rows t, sat_contract sat -> cubes_ok 1 rows ->
  from_cubes row_leb true 1 rows = Ok t -> at_most_two 1 rows -> is_oriented sat t = Ok true ->
  (exists f, boundary_face 1 rows f) ->
  exists b ends, boundary row_leb sat t = Ok (Some (b, [ends])) /\ n_dim b = 0 /\ n_elements b 0 = length ends /\ StronglySorted lt ends /\
    (forall v, In v ends <-> boundary_face 1 rows [v]).
Proof.
  intros row_leb sat rows t SC OK H AM O (f & B). destruct (from_cubes_ctop _ _ _ _ (le_n 1) OK H) as (H7 & FM & _ & T).
  pose proof (oriented_sound 1 rows t (le_n 1) OK T AM sat SC O) as CO.
  assert (Hne : boundary_positions t <> []) by (intros Q; rewrite (positions_nil_iff 1 rows t (le_n 1) H7 OK T AM CO) in Q; eapply Q; eauto).
  destruct (boundary_some row_leb 1 rows t (le_n 1) H7 OK FM H T AM CO sat O Hne) as (b & idx & Eb & BF).
  pose proof (parent_idx_top row_leb 1 rows t (le_n 1) H7 OK FM H T AM CO b idx BF) as PI. pose proof (bf_sub _ _ _ _ _ BF) as Sb. change (1 - 1) with 0 in PI.
  pose proof (bf_len _ _ _ _ _ BF) as Li. destruct (bf_idx _ _ _ _ _ BF 0 ltac:(lia)) as [L1 _].
  destruct idx as [|ends [|]]; simpl in Li; try lia. cbn [nth] in PI, L1. exists b, ends. split; auto. split; [apply (st_dim _ _ _ _ Sb)|]. split; auto. rewrite PI. split; [apply positions_sorted|].
  assert (EV : forall i, i < n_elements t 0 -> el t (1 - 1) i = [i]) by (intros i Hi; unfold el; change (1 - 1) with 0; rewrite (ct_verts _ _ _ T); apply nth_map_seq; auto).
  intros v. rewrite (positions_spec 1 rows t (le_n 1) H7 OK T AM CO). split.
  - intros [Hv Bv]. rewrite EV in Bv; auto.
  - intros Bv. pose proof Bv as (j & Hj & F & _). destruct (side_index 1 rows t (le_n 1) T [v] j Hj F) as (i & z & Hi & R).
    rewrite EV in R by auto. pose proof (related_perm _ _ _ _ R eq_refl) as P. apply Permutation_length_1 in P. subst i. split; auto. rewrite EV; auto.
Qed.
Print Assumptions C65_open_curve.

(** Meshes that are not consistently oriented are rejected. *)
Theorem C65_inconsistent_raises : forall row_leb sat n rows t, sat_contract sat -> 1 <= n -> cubes_ok n rows ->
  from_cubes row_leb true n rows = Ok t -> at_most_two n rows -> ~ consistent n rows -> boundary row_leb sat t = Err ValueError.
Proof.
  intros row_leb sat n rows t SC Hn OK H AM NC.
  assert (X : is_oriented sat t = Ok false \/ is_oriented sat t = Err ValueError).
  { assert (Y : is_oriented sat t <> Ok true) by (intros O; apply NC; eapply C64_is_oriented_sound; eauto).
    unfold is_oriented, relative_parity in *. destruct (n_dim t =? 0); cbn [bind] in *.
    - destruct (all_equal _); auto; congruence.
    - destruct (length (orientation_clauses t) =? 0); cbn [bind] in *.
      + destruct (all_equal _); auto; congruence.
      + destruct (sat _); cbn [bind] in *; auto. destruct (all_equal _); auto; congruence. }
  unfold COrModel.boundary. destruct X as [-> | ->]; auto.
Qed.
Print Assumptions C65_inconsistent_raises.

(** [parent_idx]: every element of the boundary is found in the parent, uniquely and up to orientation. *)
Theorem C65_parent_idx : forall row_leb sat n rows t b idx, sat_contract sat -> 1 <= n -> cubes_ok n rows ->
  from_cubes row_leb true n rows = Ok t -> at_most_two n rows -> boundary row_leb sat t = Ok (Some (b, idx)) ->
  length idx = n /\
  forall k, k < n ->
    let p := nth k idx [] in
    length p = n_elements b k /\ NoDup p /\
    forall i, i < n_elements b k ->
      nth i p 0 < n_elements t k /\
      forall j, j < n_elements t k ->
        (j = nth i p 0 <-> exists z, related k z (nth j (nth k (elements t) []) [])
                     (map (fun v => nth v (nth 0 idx []) 0) (nth i (nth k (elements b) []) []))).
Proof.
  intros row_leb sat n rows t b idx SC Hn OK H AM E. destruct (boundary_facts_of row_leb sat n rows t b idx SC Hn OK H AM E) as (H7 & FM & T & CO & O & BF).
  pose proof (bf_sub _ _ _ _ _ BF) as Sb. split; [apply (bf_len _ _ _ _ _ BF)|].
  pose proof (bel_sub n rows t Hn H7 OK T AM CO) as BS.
  assert (I0 : nth 0 idx [] = smap (bel n t)) by (destruct (bf_idx _ _ _ _ _ BF 0 ltac:(lia)) as [L1 L2]; apply (sub_idx0 row_leb n rows t T (n - 1) _ b Sb idx L1 L2)).
  intros k Hk. cbn zeta. destruct (bf_idx _ _ _ _ _ BF k Hk) as [L X]. split; [auto|]. split.
  - destruct (Nat.eq_dec k (n - 1)) as [->|Hk1].
    + rewrite (parent_idx_top row_leb n rows t Hn H7 OK FM H T AM CO b idx BF). unfold boundary_positions. apply NoDup_filter, seq_NoDup.
    + apply (proj2 (NoDup_nth (nth k idx []) 0)). intros i j Hi Hj Eij. rewrite L in *. destruct (X i Hi) as [_ P1]. destruct (X j Hj) as [_ P2]. rewrite Eij in P1.
      apply (st_dist _ _ _ _ Sb k); auto; try lia. apply (sub_back_inj row_leb (n - 1) _ b Sb); auto; [lia|]. eapply perm_trans; [apply Permutation_sym; exact P1|exact P2].
  - intros i Hi. destruct (X i Hi) as [P1 P2]. split; [auto|]. intros j Hj. rewrite I0. change (fun v => nth v (smap (bel n t)) 0) with (back (smap (bel n t))). split.
    + intros ->. apply (sub_unique row_leb n rows t Hn H7 OK T (n - 1) (bel n t) ltac:(lia) BS b Sb k i); auto. lia.
    + intros (z & R). apply (c_distinct n rows t T k); auto; [lia|]. eapply perm_trans; [apply (related_perm _ _ _ _ R)|apply Permutation_sym; exact P2]. apply (c_len n rows t Hn T k); [lia|]. apply nth_In. auto.
Qed.
Print Assumptions C65_parent_idx.

(** [select_subset]: the selected cubes, in order and with their orientation, after an order preserving renumbering of
    the vertices that occur; every element is found in the parent. *)
Theorem C65_select_subset : forall row_leb n rows t chain, 1 <= n -> cubes_ok n rows ->
  from_cubes row_leb true n rows = Ok t -> length chain = length rows ->
  (exists i, i < length rows /\ nth i chain false = true) ->
  exists s idx, select_subset row_leb t chain = Ok (s, idx) /\ length idx = S n /\ n_dim s = n /\
    let p0 := nth 0 idx [] in
    StronglySorted lt p0 /\
    (forall v, In v p0 <-> exists i, i < length rows /\ nth i chain false = true /\ In v (nth i rows [])) /\
    map (map (fun v => nth v p0 0)) (nth n (elements s) []) =
      map (fun i => nth i rows []) (filter (fun i => nth i chain false) (seq 0 (length rows))) /\
    (forall d, d <= n ->
      length (nth d idx []) = n_elements s d /\
      forall i, i < n_elements s d ->
        nth i (nth d idx []) 0 < n_elements t d /\
        Permutation (nth (nth i (nth d idx []) 0) (nth d (elements t) []) []) (map (fun v => nth v p0 0) (nth i (nth d (elements s) []) []))) /\
    (* the sub-mesh has exactly the faces of the selected cubes *)
    (forall d i, d <= n -> i < n_elements s d -> exists j f z, j < length rows /\ nth j chain false = true /\ subcube d n (nth j rows []) f /\
        related d z f (map (fun v => nth v p0 0) (nth i (nth d (elements s) []) []))) /\
    (forall d j f, j < length rows -> nth j chain false = true -> subcube d n (nth j rows []) f ->
        exists i z, i < n_elements s d /\ related d z f (map (fun v => nth v p0 0) (nth i (nth d (elements s) []) []))).
Proof.
  intros row_leb n rows t chain Hn OK H L (i0 & Hi0 & C0). destruct (from_cubes_ctop _ _ _ _ Hn OK H) as (H7 & FM & _ & T).
  pose proof (ct_top _ _ _ T) as Top. pose proof (dim_n _ _ _ T) as Dn.
  set (sel := map (fun i => nth i rows []) (flatnonzero chain)).
  assert (Fz : flatnonzero chain = filter (fun i => nth i chain false) (seq 0 (length rows))) by (unfold flatnonzero; rewrite L; auto).
  assert (Hsel : forall s, In s sel -> exists i, i < length rows /\ nth i chain false = true /\ s = nth i rows []).
  { intros s Hs. apply in_map_iff in Hs as (i & <- & Hi). apply flatnonzero_in in Hi. exists i. rewrite <- L. intuition. }
  assert (Hsel' : forall i, i < length rows -> nth i chain false = true -> In (nth i rows []) sel).
  { intros i Hi Hc. apply in_map_iff. exists i. split; auto. apply flatnonzero_in. rewrite L. auto. }
  assert (OKs : cubes_ok n sel).
  { split.
    - pose proof (Hsel' i0 Hi0 C0) as X. intros E. rewrite E in X. destruct X.
    - apply Forall_forall. intros s Hs. destruct (Hsel s Hs) as (i & Hi & _ & ->). apply (row_ok n rows OK); auto. }
  assert (SB : forall s, In s sel -> exists r g z, In r rows /\ subcube n n r g /\ related n z g s).
  { intros s Hs. destruct (Hsel s Hs) as (i & Hi & _ & ->). exists (nth i rows []), (nth i rows []), 1%Z. split; [apply nth_In; auto|]. split; constructor. }
  destruct (sub_pos row_leb n rows Hn H7 OK FM n sel (le_n n) OKs SB Hn) as (s & Ss).
  destruct (sub_correspondence row_leb n rows t Hn H7 OK T n sel (le_n n) SB s Ss) as (idx & Ei & Li & Hi).
  assert (I0 : nth 0 idx [] = smap sel) by (destruct (Hi 0 ltac:(lia)) as [L1 L2]; apply (sub_idx0 row_leb n rows t T n sel s Ss idx L1 L2)).
  exists s, idx. split.
  { unfold COrModel.select_subset. rewrite Dn, Top, L, Nat.eqb_refl. cbn [negb]. cbn zeta. fold sel. fold (smap sel). rewrite (st_from _ _ _ _ Ss). cbn [bind]. rewrite Ei. reflexivity. }
  split; auto. split; [apply (st_dim _ _ _ _ Ss)|]. cbn zeta. rewrite I0. change (fun v => nth v (smap sel) 0) with (back (smap sel)). split; [apply unique_nat_sorted|].
  split; [|split; [|split; [|split]]].
  - intros v. unfold smap. rewrite (mapping_in sel). split.
    + intros (r & Hr & Hv). destruct (Hsel r Hr) as (i & Hi' & Hc & ->). eauto.
    + intros (i & Hi' & Hc & Hv). exists (nth i rows []). auto.
  - destruct (st_top _ _ _ _ Ss) as [|E]; [lia|]. rewrite E. rewrite <- Fz. fold sel. unfold relabel. rewrite map_map. transitivity (map (fun x => x) sel); [|apply map_id].
    apply map_ext_in. intros r Hr. change (map (back (smap sel)) (map (rank (smap sel)) r) = r).
    unfold smap. apply (map_back_rank sel). apply sel_mapping. auto.
  - intros d Hd. apply Hi. auto.
  - intros d i Hd Hi'. destruct (st_elems _ _ _ _ Ss d i Hd Hi') as (r & f & z & Hr & Hf & R). destruct (Hsel r Hr) as (j & Hj & Hc & ->). exists j, f, z. auto.
  - intros d j f Hj Hc Hf. destruct (st_faces _ _ _ _ Ss d (nth j rows []) f (Hsel' j Hj Hc) Hf) as (i & z & Hi' & R). exists i, z. auto.
Qed.
Print Assumptions C65_select_subset.
Theorem C65_select_wrong_length : forall row_leb n rows t chain, 1 <= n -> cubes_ok n rows ->
  from_cubes row_leb true n rows = Ok t -> length chain <> length rows -> select_subset row_leb t chain = Err ValueError.
Proof.
  intros row_leb n rows t chain Hn OK H L. destruct (from_cubes_ctop _ _ _ _ Hn OK H) as (H7 & FM & _ & T).
  unfold COrModel.select_subset. rewrite (dim_n _ _ _ T), (ct_top _ _ _ T). rewrite (proj2 (Nat.eqb_neq _ _) L). reflexivity.
Qed.
Print Assumptions C65_select_wrong_length.

(** Two cubes side by side: boundary of ten quadrilaterals, closed and oriented. *)
Definition bricks : list cube := [[0;1;2;3;4;5;6;7]; [7;10;6;11;5;8;4;9]].
Example C65_example : cubes_ok 3 bricks /\ at_most_two 3 bricks /\ consistent 3 bricks /\
  exists t b idx, from_cubes lex_leb true 3 bricks = Ok t /\ is_oriented brute_sat t = Ok true /\
    boundary lex_leb brute_sat t = Ok (Some (b, idx)) /\ n_elements b 2 = 10 /\ n_elements b 1 = 20 /\ n_elements b 0 = 12 /\
    is_oriented brute_sat b = Ok true /\ boundary lex_leb brute_sat b = Ok None.
Proof.
  assert (OK : cubes_ok 3 bricks) by (apply okb_ok; reflexivity). split; auto. split; [apply two_cubesb_ok; auto; vm_compute; reflexivity|]. split; [apply consistentb_ok; auto; vm_compute; reflexivity|].
  eexists. eexists. eexists. split; [vm_compute; reflexivity|]. split; [vm_compute; reflexivity|]. split; [vm_compute; reflexivity|]. repeat split; vm_compute; reflexivity.
Qed.
(** A strip of quadrilaterals with its boundary curve and the parent indices. *)
Example C65_example2 : exists t b, from_cubes lex_leb true 2 [[0;1;4;5]; [1;2;5;6]] = Err ValueError /\
  from_cubes lex_leb true 2 [[0;1;3;4]; [1;2;4;5]] = Ok t /\
  boundary lex_leb brute_sat t = Ok (Some (b, [[0;1;2;3;4;5]; [0;1;2;4;5;6]])) /\
  nth 1 (elements b) [] = [[0;1];[3;0];[1;2];[2;5];[4;3];[5;4]].
Proof. eexists. eexists. split; [vm_compute; reflexivity|]. split; [vm_compute; reflexivity|]. split; vm_compute; reflexivity. Qed.
(** An open curve of three edges and its two end points. *)
Example C65_curve_example : cubes_ok 1 [[2;0];[0;1];[1;3]] /\ exists t b, from_cubes lex_leb true 1 [[2;0];[0;1];[1;3]] = Ok t /\
  is_oriented brute_sat t = Ok true /\ boundary lex_leb brute_sat t = Ok (Some (b, [[2;3]])) /\ elements b = [[[0];[1]]].
Proof. split; [apply okb_ok; reflexivity|]. eexists. eexists. split; [vm_compute; reflexivity|]. repeat split; vm_compute; reflexivity. Qed.
(** Selecting the second brick. *)
Example C65_select_example : exists t s idx, from_cubes lex_leb true 3 bricks = Ok t /\
  select_subset lex_leb t [false; true] = Ok (s, idx) /\ nth 0 idx [] = [4;5;6;7;8;9;10;11] /\
  nth 3 (elements s) [] = [[3;6;2;7;1;4;0;5]] /\ nth 3 idx [] = [1].
Proof. eexists. eexists. eexists. split; [vm_compute; reflexivity|]. split; [vm_compute; reflexivity|]. repeat split; vm_compute; reflexivity. Qed.
