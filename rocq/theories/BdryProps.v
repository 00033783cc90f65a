(** Properties C10 - C14 and C55: orientation, boundary, subsets, selectors. *)
Require Import List Arith ZArith Bool Lia Permutation Sorting.Sorted.
From Verif Require Import Util CombModel CombSpec CombProofs SimpModel SimpSpec ParProofs SimpProofs LevelProofs TopProofs SimpProps.
From Verif Require Import BdryModel BdrySpec OrientProofs FixProofs SubProofs BdryProofs SelProofs.
Import ListNotations.

(** C10.  [fix_orientation] returns a mesh with the same simplices, each possibly flipped, that is consistently
    oriented; or it raises ValueError and no choice of flips is consistent.  The last hypothesis makes the
    solver's answer cover all simplices (or the solver is not called at all). *)
Theorem C10_fix_orientation : forall row_leb sat n rows t, sat_contract sat -> simplices_ok n rows ->
  from_simplices row_leb n rows = Ok t -> at_most_two n rows ->
  (exists j, adjacent n rows j (length rows - 1)) \/ (forall j1 j2, ~ adjacent n rows j1 j2) ->
  (exists rows' t', fix_orientation row_leb sat t = Ok t' /\ nth n (elements t') [] = rows' /\
     from_simplices row_leb n rows' = Ok t' /\
     Forall2 (fun s s' => s' = s \/ s' = flip s) rows rows' /\ consistent n rows')
  \/
  (fix_orientation row_leb sat t = Err ValueError /\
     forall rows', Forall2 (fun s s' => s' = s \/ s' = flip s) rows rows' -> ~ consistent n rows').
Proof.
  intros row_leb sat n rows t SC OK H AM HL. destruct (from_simplices_top_ok _ _ _ _ OK H) as [Hn T].
  destruct (relative_parity_cases n rows t OK Hn T AM sat SC) as [[NA E]|[A [[E N]|(p & E & L & C)]]].
  - left. destruct (fix_from_parity row_leb n rows t OK Hn T sat _ E) as (t' & E1 & T' & E2).
    { apply repeat_length. }
    exists (choose (repeat false (length rows)) rows), t'. split; auto. split; [apply (to_top _ _ _ T')|].
    split; auto. split; [apply choose_flips|]. apply choose_false_consistent; auto.
  - right. split.
    + unfold fix_orientation. rewrite E. reflexivity.
    + intros rows' F. apply flips_choose in F as (p & ->). apply N.
  - left. assert (Lp : length p = length rows).
    { destruct HL as [HL|HL].
      - rewrite L. apply (max_var_last n rows t Hn T AM); auto.
      - destruct A as (j1 & j2 & A). exfalso. eapply HL; eauto. }
    destruct (fix_from_parity row_leb n rows t OK Hn T sat _ E Lp) as (t' & E1 & T' & E2).
    exists (choose p rows), t'. split; auto. split; [apply (to_top _ _ _ T')|]. split; auto. split; [apply choose_flips|]. auto.
Qed.
Print Assumptions C10_fix_orientation.

(** Without that hypothesis the call always fails: the SAT answer is too short to be broadcast. *)
Theorem C10_isolated_last_simplex_fails : forall row_leb sat n rows t, sat_contract sat -> simplices_ok n rows ->
  from_simplices row_leb n rows = Ok t -> at_most_two n rows ->
  (exists j1 j2, adjacent n rows j1 j2) -> (forall j, ~ adjacent n rows j (length rows - 1)) ->
  fix_orientation row_leb sat t = Err ValueError.
Proof.
  intros row_leb sat n rows t SC OK H AM A NA. destruct (from_simplices_top_ok _ _ _ _ OK H) as [Hn T].
  apply (fix_fails row_leb n rows t OK Hn T AM sat SC A NA).
Qed.
Print Assumptions C10_isolated_last_simplex_fails.

(** Decision procedures for concrete meshes, used in the examples. *)
Definition faces_of (n : nat) (s : simplex) : list simplex := map (fun c => omit c s) (seq 0 (S n)).
Lemma is_face_faces_of : forall n f s, 1 <= n -> length s = S n -> NoDup s -> is_face (n - 1) f s ->
  exists g, In g (faces_of n s) /\ Permutation g f.
Proof.
  intros n f s Hn L N (A & B & C). destruct (incl_omit f s A N) as (c & Hc & P); auto; try lia.
  exists (omit c s). split; auto. apply in_map_iff. exists c. split; auto. apply in_seq. lia.
Qed.
Definition shareb (n : nat) (s1 s2 : simplex) : list simplex :=
  filter (fun g => existsb (same_verts g) (faces_of n s2)) (faces_of n s1).
Definition consistentb (n : nat) (rows : list simplex) : bool :=
  forallb (fun j1 => forallb (fun j2 => (j1 =? j2) ||
    forallb (fun g => (incidence_number g (nth j1 rows []) + incidence_number g (nth j2 rows []) =? 0)%Z)
      (shareb n (nth j1 rows []) (nth j2 rows []))) (seq 0 (length rows))) (seq 0 (length rows)).
Definition at_most_twob (n : nat) (rows : list simplex) : bool :=
  forallb (fun s => forallb (fun g => length (filter (fun j => existsb (same_verts g) (faces_of n (nth j rows []))) (seq 0 (length rows))) <=? 2)
    (faces_of n s)) rows.

Lemma shared_in : forall n f s1 s2, 1 <= n -> length s1 = S n -> NoDup s1 -> length s2 = S n -> NoDup s2 ->
  is_face (n - 1) f s1 -> is_face (n - 1) f s2 -> exists g, In g (shareb n s1 s2) /\ Permutation g f.
Proof.
  intros n f s1 s2 Hn L1 N1 L2 N2 F1 F2.
  destruct (is_face_faces_of n f s1 Hn L1 N1 F1) as (g & Hg & P).
  destruct (is_face_faces_of n f s2 Hn L2 N2 F2) as (g2 & Hg2 & P2).
  exists g. split; auto. apply filter_In. split; auto. apply existsb_exists. exists g2. split; auto.
  apply same_verts_iff. eapply perm_trans; [exact P|apply Permutation_sym; auto].
Qed.

Lemma consistentb_ok : forall n rows, 1 <= n -> simplices_ok n rows -> consistentb n rows = true -> consistent n rows.
Proof.
  intros n rows Hn [_ F] H j1 j2 H1 H2 Hne f F1 F2. rewrite Forall_forall in F.
  destruct (F _ (nth_In rows [] H1)) as [L1 N1]. destruct (F _ (nth_In rows [] H2)) as [L2 N2].
  destruct (shared_in n f _ _ Hn L1 N1 L2 N2 F1 F2) as (g & Hg & P).
  unfold consistentb in H. rewrite forallb_forall in H. specialize (H j1 ltac:(apply in_seq; lia)).
  rewrite forallb_forall in H. specialize (H j2 ltac:(apply in_seq; lia)).
  apply orb_true_iff in H as [H|H]; [apply Nat.eqb_eq in H; lia|].
  rewrite forallb_forall in H. specialize (H g Hg). apply Z.eqb_eq in H.
  rewrite !(incidence_perm_face g f _ P). replace (incidence_number g (nth j1 rows [])) with (- incidence_number g (nth j2 rows []))%Z by lia. ring.
Qed.

Lemma at_most_twob_ok : forall n rows, 1 <= n -> simplices_ok n rows -> at_most_twob n rows = true -> at_most_two n rows.
Proof.
  intros n rows Hn [_ F] H f j1 j2 j3 H1 H2 H3 F1 F2 F3. rewrite Forall_forall in F.
  unfold at_most_twob in H. rewrite forallb_forall in H.
  destruct (F _ (nth_In rows [] H1)) as [L1 N1]. destruct (F _ (nth_In rows [] H2)) as [L2 N2]. destruct (F _ (nth_In rows [] H3)) as [L3 N3].
  specialize (H _ (nth_In rows [] H1)).
  destruct (is_face_faces_of n f _ Hn L1 N1 F1) as (g & Hg & P).
  rewrite forallb_forall in H. specialize (H g Hg). apply Nat.leb_le in H.
  assert (B : forall j, j < length rows -> is_face (n - 1) f (nth j rows []) ->
     In j (filter (fun j => existsb (same_verts g) (faces_of n (nth j rows []))) (seq 0 (length rows)))).
  { intros j Hj Fj. apply filter_In. split; [apply in_seq; lia|]. apply existsb_exists.
    destruct (F _ (nth_In rows [] Hj)) as [Lj Nj].
    destruct (is_face_faces_of n f _ Hn Lj Nj Fj) as (g2 & Hg2 & P2). exists g2. split; auto.
    apply same_verts_iff. eapply perm_trans; [exact P|apply Permutation_sym; auto]. }
  destruct (Nat.eq_dec j1 j2) as [|D1]; auto. destruct (Nat.eq_dec j1 j3) as [|D2]; auto. destruct (Nat.eq_dec j2 j3) as [|D3]; auto.
  exfalso. assert (3 <= length (filter (fun j => existsb (same_verts g) (faces_of n (nth j rows []))) (seq 0 (length rows)))).
  { apply (NoDup_incl_length (l := [j1; j2; j3])).
    - repeat constructor; simpl; intuition.
    - intros x [<-|[<-|[<-|[]]]]; auto. }
  lia.
Qed.

Ltac ok_mesh := split; [discriminate|]; repeat constructor; simpl; intuition discriminate.
Ltac two_mesh := apply at_most_twob_ok; [lia| |reflexivity]; ok_mesh.
Ltac face_wit := split; [repeat constructor; simpl; intuition discriminate|]; split; [reflexivity|];
  intros ? Hx; simpl in *; tauto.

(** Three triangles around a vertex, the middle one reversed: fixed by the procedure. *)
Definition fan : list simplex := [[0;1;2]; [0;3;2]; [0;3;4]].
Example C10_example : sat_contract brute_sat /\ simplices_ok 2 fan /\ at_most_two 2 fan /\
  (exists j, adjacent 2 fan j 2) /\ ~ consistent 2 fan /\
  exists t t', from_simplices lex_leb 2 fan = Ok t /\ fix_orientation lex_leb brute_sat t = Ok t' /\
    nth 2 (elements t') [] = [[0;1;2]; [3;0;2]; [0;3;4]].
Proof.
  split; [apply brute_sat_contract|]. split; [ok_mesh|]. split; [two_mesh|]. split.
  { exists 1. repeat split; simpl; try lia. exists [0; 3]. split; face_wit. }
  split.
  { intros C. specialize (C 0 1 ltac:(simpl; lia) ltac:(simpl; lia) ltac:(lia) [0; 2]).
    assert (X : incidence_number [0; 2]%nat (nth 0 fan []) = (- incidence_number [0; 2]%nat (nth 1 fan []))%Z) by (apply C; face_wit).
    vm_compute in X. discriminate. }
  eexists. eexists. split; [vm_compute; reflexivity|]. split; vm_compute; reflexivity.
Qed.

(** A Moebius strip is rejected; a mesh with an isolated last triangle is rejected although it is consistent. *)
Example C10_moebius : exists t, from_simplices lex_leb 2 [[0;1;2];[1;2;3];[2;3;4];[3;4;0];[4;0;1]] = Ok t /\
  fix_orientation lex_leb brute_sat t = Err ValueError.
Proof. eexists. split; vm_compute; reflexivity. Qed.
Example C10_isolated_example : consistent 2 [[0;1;2];[0;2;3];[4;5;6]] /\
  (exists j1 j2, adjacent 2 [[0;1;2];[0;2;3];[4;5;6]] j1 j2) /\
  exists t, from_simplices lex_leb 2 [[0;1;2];[0;2;3];[4;5;6]] = Ok t /\
  fix_orientation lex_leb brute_sat t = Err ValueError.
Proof.
  split; [apply consistentb_ok; [lia|ok_mesh|reflexivity]|]. split.
  { exists 0, 1. repeat split; simpl; try lia. exists [0; 2]. split; face_wit. }
  eexists. split; vm_compute; reflexivity.
Qed.

(** C55.  [is_oriented] is sound on meshes with at most two cofaces per facet, and complete on connected ones. *)
Theorem C55_is_oriented_sound : forall row_leb sat n rows t, sat_contract sat -> simplices_ok n rows ->
  from_simplices row_leb n rows = Ok t -> at_most_two n rows ->
  is_oriented sat t = Ok true -> consistent n rows.
Proof.
  intros row_leb sat n rows t SC OK H AM. destruct (from_simplices_top_ok _ _ _ _ OK H) as [Hn T].
  apply (is_oriented_consistent n rows t OK Hn T AM sat SC).
Qed.
Print Assumptions C55_is_oriented_sound.

Theorem C55_is_oriented_complete : forall row_leb sat n rows t, sat_contract sat -> simplices_ok n rows ->
  from_simplices row_leb n rows = Ok t -> at_most_two n rows -> connected n rows ->
  consistent n rows -> is_oriented sat t = Ok true.
Proof.
  intros row_leb sat n rows t SC OK H AM. destruct (from_simplices_top_ok _ _ _ _ OK H) as [Hn T].
  apply (is_oriented_complete n rows t OK Hn T AM sat SC).
Qed.
Print Assumptions C55_is_oriented_complete.

Example C55_example : connected 2 [[0;1;2];[0;2;3]] /\ consistent 2 [[0;1;2];[0;2;3]] /\
  exists t, from_simplices lex_leb 2 [[0;1;2];[0;2;3]] = Ok t /\ is_oriented brute_sat t = Ok true.
Proof.
  split.
  { intros j Hj. simpl in Hj. destruct j as [|[|]]; try lia; [constructor|].
    apply linked_step with 0; [constructor|]. repeat split; simpl; try lia. exists [0; 2]. split; face_wit. }
  split; [apply consistentb_ok; [lia|ok_mesh|reflexivity]|].
  eexists. split; vm_compute; reflexivity.
Qed.

(** On disconnected meshes the answer depends on the solver: a solver that keeps its contract may make
    a consistently oriented mesh (two separate pairs of triangles) be reported as not oriented. *)
Definition two_squares : list simplex := [[0;1;2];[0;2;3];[4;5;6];[4;6;7]].
Definition split_sat (cls : list (Z * Z)) : option (list Z) :=
  if forallb (fun c => litb [true; true; false; false] (fst c) || litb [true; true; false; false] (snd c)) cls && (max_var cls =? 4)
  then Some [1; 2; -3; -4]%Z else brute_sat cls.
Lemma split_sat_contract : sat_contract split_sat.
Proof.
  intros cls NZ. unfold split_sat.
  destruct (forallb _ cls && (max_var cls =? 4)) eqn:E; [|apply (brute_sat_contract cls NZ)].
  apply andb_true_iff in E as [E1 E2]. apply Nat.eqb_eq in E2. split; [auto|]. split.
  - intros k Hk. simpl in Hk. destruct k as [|[|[|[|k]]]]; try lia; reflexivity.
  - intros a b Hin. rewrite forallb_forall in E1. specialize (E1 _ Hin). apply orb_true_iff in E1.
    destruct (NZ _ _ Hin). destruct (max_var_ge cls a b Hin) as [M1 M2]. cbn [fst snd] in E1.
    rewrite <- !(litb_lit [true; true; false; false]); simpl length; auto; try lia;
    intros k Hk; destruct k as [|[|[|[|k]]]]; try lia; reflexivity.
Qed.
Theorem C55_is_oriented_disconnected_refuted : exists sat t, sat_contract sat /\
  from_simplices lex_leb 2 two_squares = Ok t /\ at_most_two 2 two_squares /\ consistent 2 two_squares /\
  is_oriented sat t = Ok false /\ is_oriented brute_sat t = Ok true.
Proof.
  exists split_sat. eexists. split; [apply split_sat_contract|]. split; [vm_compute; reflexivity|].
  split; [two_mesh|]. split; [apply consistentb_ok; [lia|ok_mesh|reflexivity]|].
  split; vm_compute; reflexivity.
Qed.
Print Assumptions C55_is_oriented_disconnected_refuted.

(** C11.  Boundary of an oriented mesh of dimension >= 2. *)
Theorem C11_boundary_none_iff : forall row_leb sat n rows t, sat_contract sat -> simplices_ok n rows -> 2 <= n ->
  from_simplices row_leb n rows = Ok t -> at_most_two n rows -> is_oriented sat t = Ok true ->
  (boundary row_leb sat t = Ok None <-> forall f, ~ boundary_face n rows f) /\
  (forall e, boundary row_leb sat t <> Err e).
Proof.
  intros row_leb sat n rows t SC OK Hn2 H AM O. destruct (from_simplices_top_ok _ _ _ _ OK H) as [Hn T].
  pose proof (is_oriented_consistent n rows t OK Hn T AM sat SC O) as CO.
  rewrite <- (positions_nil_iff n rows t OK Hn T AM CO).
  destruct (list_eq_dec Nat.eq_dec (boundary_positions t) []) as [E|E].
  - rewrite (boundary_unfold row_leb n rows t T sat O). rewrite E. cbn. split; [tauto|discriminate].
  - destruct (boundary_some row_leb n rows t OK Hn T AM CO Hn2 sat O E) as (b & idx & Eb & _).
    rewrite Eb. split; [split; intros; congruence|discriminate].
Qed.
Print Assumptions C11_boundary_none_iff.

Theorem C11_boundary_closed : forall row_leb sat n rows t b idx, sat_contract sat -> simplices_ok n rows -> 2 <= n ->
  from_simplices row_leb n rows = Ok t -> at_most_two n rows ->
  boundary row_leb sat t = Ok (Some (b, idx)) ->
  n_dim b = n - 1 /\
  (forall i, i < n_elements b (n - 2) ->
     sumZ (map (fun j => entry (matrix b (n - 2)) i j) (seq 0 (n_elements b (n - 1)))) = 0%Z) /\
  (is_oriented sat b = Ok true -> boundary row_leb sat b = Ok None).
Proof.
  intros row_leb sat n rows t b idx SC OK Hn2 H AM E. destruct (from_simplices_top_ok _ _ _ _ OK H) as [Hn T].
  assert (O : is_oriented sat t = Ok true).
  { unfold boundary in E. destruct (is_oriented sat t) as [[|]|]; simpl in E; congruence. }
  pose proof (is_oriented_consistent n rows t OK Hn T AM sat SC O) as CO.
  pose proof (boundary_some_inv row_leb n rows t T sat b idx E O) as Hne.
  destruct (boundary_some row_leb n rows t OK Hn T AM CO Hn2 sat O Hne) as (b' & idx' & Eb & BF).
  rewrite E in Eb. injection Eb as <- <-.
  pose proof (bf_top _ _ _ _ _ BF) as Tb.
  assert (Dn : n_dim b = n - 1) by (apply (top_n_dim _ _ _ Tb)).
  pose proof (boundary_rowsum row_leb n rows t OK Hn T AM CO Hn2 b idx BF) as RS.
  split; [exact Dn|]. split; [exact RS|].
  intros Ob. rewrite (boundary_unfold row_leb (n - 1) _ b Tb sat Ob).
  assert (EP : boundary_positions b = []).
  { unfold boundary_positions. rewrite Dn. replace (n - 1 - 1) with (n - 2) by lia.
    destruct (matrix_shape (n - 1) _ b ltac:(lia) Tb (n - 2) ltac:(lia)) as [R C].
    rewrite R, C. replace (S (n - 2)) with (n - 1) by lia.
    assert (B : forall l, (forall i, In i l -> i < n_elements b (n - 2)) ->
      filter (fun i => negb (wrap8 (sumZ (map (fun j => entry (matrix b (n - 2)) i j) (seq 0 (n_elements b (n - 1))))) =? 0)%Z) l = []).
    { induction l as [|i l IH]; intros Hl; auto. cbn [filter]. rewrite RS by (apply Hl; left; auto).
      change (negb (wrap8 0 =? 0)%Z) with false. cbv iota. apply IH. intros; apply Hl; right; auto. }
    apply B. intros i Hi. apply in_seq in Hi. lia. }
  rewrite EP. reflexivity.
Qed.
Print Assumptions C11_boundary_closed.

(** Meshes that are not consistently oriented are rejected, by [boundary] and by [dual]. *)
Theorem C11_inconsistent_raises : forall row_leb sat n rows t, sat_contract sat -> simplices_ok n rows ->
  from_simplices row_leb n rows = Ok t -> at_most_two n rows -> ~ consistent n rows ->
  boundary row_leb sat t = Err ValueError /\ dual row_leb sat t = Err ValueError.
Proof.
  intros row_leb sat n rows t SC OK H AM NC.
  assert (X : is_oriented sat t = Ok false \/ is_oriented sat t = Err ValueError).
  { assert (Y : is_oriented sat t <> Ok true) by (intros O; apply NC; eapply C55_is_oriented_sound; eauto).
    unfold is_oriented, relative_parity in *. destruct (n_dim t =? 0); cbn [bind] in *.
    - destruct (all_equal _); auto; congruence.
    - destruct (length (orientation_clauses t) =? 0); cbn [bind] in *.
      + destruct (all_equal _); auto; congruence.
      + destruct (sat _); cbn [bind] in *; auto. destruct (all_equal _); auto; congruence. }
  unfold boundary, dual. destruct X as [-> | ->]; auto.
Qed.
Print Assumptions C11_inconsistent_raises.
Example C11_inconsistent_example : at_most_two 2 fan /\ ~ consistent 2 fan.
Proof. split; apply C10_example. Qed.

(** Open curves (dimension 1): taking the boundary fails with an AssertionError. *)
Theorem C11_open_curve_raises : forall row_leb sat rows t, sat_contract sat -> simplices_ok 1 rows ->
  from_simplices row_leb 1 rows = Ok t -> at_most_two 1 rows -> is_oriented sat t = Ok true ->
  (exists f, boundary_face 1 rows f) -> boundary row_leb sat t = Err AssertionError.
Proof.
  intros row_leb sat rows t SC OK H AM O (f & B). destruct (from_simplices_top_ok _ _ _ _ OK H) as [Hn T].
  pose proof (is_oriented_consistent 1 rows t OK Hn T AM sat SC O) as CO.
  rewrite (boundary_unfold row_leb 1 rows t T sat O).
  destruct (length (boundary_positions t) =? 0) eqn:E.
  - exfalso. apply Nat.eqb_eq, length_zero_iff_nil in E. rewrite (positions_nil_iff 1 rows t OK Hn T AM CO) in E. eapply E; eauto.
  - reflexivity.
Qed.
Print Assumptions C11_open_curve_raises.

Definition two_tets : list simplex := [[2;3;1;0]; [0;4;2;3]].
Example C11_example : at_most_two 3 two_tets /\ consistent 3 two_tets /\
  exists t b idx, from_simplices lex_leb 3 two_tets = Ok t /\ is_oriented brute_sat t = Ok true /\
    boundary lex_leb brute_sat t = Ok (Some (b, idx)) /\ n_elements b 2 = 6 /\ n_elements b 1 = 9 /\
    is_oriented brute_sat b = Ok true.
Proof.
  split; [two_mesh|]. split; [apply consistentb_ok; [lia|ok_mesh|reflexivity]|].
  eexists. eexists. eexists. split; [vm_compute; reflexivity|]. split; [vm_compute; reflexivity|].
  split; [vm_compute; reflexivity|]. repeat split; vm_compute; reflexivity.
Qed.
Example C11_curve_example : exists t, from_simplices lex_leb 1 [[0;1];[1;2]] = Ok t /\
  is_oriented brute_sat t = Ok true /\ boundary_face 1 [[0;1];[1;2]] [0].
Proof.
  eexists. split; [vm_compute; reflexivity|]. split; [vm_compute; reflexivity|].
  exists 0. repeat split; simpl; try lia.
  - repeat constructor. simpl; tauto.
  - intros x [<-|[]]; simpl; auto.
  - intros j Hj (_ & _ & I). destruct j as [|[|]]; auto; try lia. specialize (I 0 (or_introl eq_refl)). simpl in I. lia.
Qed.

(** C12.  [parent_idx]; vertices are mapped back by [parent_idx[0]] itself. *)
Theorem C12_parent_idx : forall row_leb sat n rows t b idx, sat_contract sat -> simplices_ok n rows -> 2 <= n ->
  from_simplices row_leb n rows = Ok t -> at_most_two n rows ->
  boundary row_leb sat t = Ok (Some (b, idx)) ->
  length idx = n /\
  forall k, k < n ->
    let p := nth k idx [] in
    length p = n_elements b k /\ NoDup p /\
    forall i, i < n_elements b k ->
      nth i p 0 < n_elements t k /\
      forall j, j < n_elements t k ->
        (j = nth i p 0 <->
         Permutation (nth j (nth k (elements t) []) [])
                     (map (fun v => nth v (nth 0 idx []) 0) (nth i (nth k (elements b) []) []))).
Proof.
  intros row_leb sat n rows t b idx SC OK Hn2 H AM E. destruct (from_simplices_top_ok _ _ _ _ OK H) as [Hn T].
  assert (O : is_oriented sat t = Ok true).
  { unfold boundary in E. destruct (is_oriented sat t) as [[|]|]; simpl in E; congruence. }
  pose proof (is_oriented_consistent n rows t OK Hn T AM sat SC O) as CO.
  pose proof (boundary_some_inv row_leb n rows t T sat b idx E O) as Hne.
  destruct (boundary_some row_leb n rows t OK Hn T AM CO Hn2 sat O Hne) as (b' & idx' & Eb & BF).
  rewrite E in Eb. injection Eb as <- <-.
  pose proof (bf_top _ _ _ _ _ BF) as Tb. split; [apply (bf_len _ _ _ _ _ BF)|].
  (* the vertex map *)
  assert (V : forall v, v < n_elements b 0 -> nth v (nth 0 idx []) 0 = back (bmap n t) v).
  { intros v Hv. destruct (bf_idx _ _ _ _ _ BF 0 ltac:(lia)) as [_ X]. specialize (X v Hv). cbn zeta in X.
    destruct X as [X1 X2].
    assert (W : forall tt rr nn i, top_ok nn rr tt -> i < n_elements tt 0 -> el tt 0 i = [i]).
    { intros tt rr nn i TT Hi. unfold el. rewrite (to_verts _ _ _ TT). rewrite nth_map_seq by auto. auto. }
    rewrite (W t rows n) in X2 by auto. rewrite (W b _ _ v Tb) in X2 by auto. simpl in X2.
    apply Permutation_length_1 in X2. auto. }
  assert (M : forall k i, k < n -> i < n_elements b k ->
     map (fun v => nth v (nth 0 idx []) 0) (nth i (nth k (elements b) []) []) = map (back (bmap n t)) (el b k i)).
  { intros k i Hk Hi. apply map_ext_in. intros v Hv. apply V.
    apply (to_vused _ _ _ Tb). apply in_concat.
    destruct (proj1 (faces_complete (n - 1) _ b ltac:(lia) Tb (n - 1 - k) k ltac:(lia) (el b k i))) as (s & Hs & (_ & _ & I)).
    { exists (el b k i). split; auto. apply nth_In; auto. }
    exists s. split; auto. }
  intros k Hk. cbn zeta. destruct (bf_idx _ _ _ _ _ BF k Hk) as [L X]. split; [auto|]. split.
  - apply (proj2 (NoDup_nth (nth k idx []) 0)). intros i j Hi Hj Eij. rewrite L in *.
    destruct (X i Hi) as [_ P1]. destruct (X j Hj) as [_ P2]. rewrite Eij in P1.
    assert (P : Permutation (el b k i) (el b k j)).
    { eapply (perm_map_inj (back (bmap n t)) (fun v => v < length (bmap n t))).
      - apply (mono_inj _ _ (back_mono (bel n t))).
      - apply (sub_el_range n ltac:(lia) (n - 1) (bel n t) ltac:(lia) b Tb); auto; lia.
      - apply (sub_el_range n ltac:(lia) (n - 1) (bel n t) ltac:(lia) b Tb); auto; lia.
      - eapply perm_trans; [apply Permutation_sym; exact P1|exact P2]. }
    destruct (Nat.eq_dec k (n - 1)) as [->|Hk1].
    + (* boundary faces are distinct elements of the parent *)
      rewrite (parent_idx_top row_leb n rows t OK Hn T AM CO b idx BF) in *.
      pose proof (boundary_positions_sorted t) as SS.
      assert (ND : NoDup (boundary_positions t)).
      { unfold boundary_positions. apply NoDup_filter, seq_NoDup. }
      apply (proj1 (NoDup_nth (boundary_positions t) 0) ND); auto; lia.
    + apply (faces_unique (n - 1) _ b Tb k); auto; lia.
  - intros i Hi. destruct (X i Hi) as [P1 P2]. split; [auto|]. intros j Hj. rewrite M by auto. split.
    + intros ->. exact P2.
    + intros P. apply (faces_unique n rows t T k); auto.
      eapply perm_trans; [exact P|apply Permutation_sym; exact P2].
Qed.
Print Assumptions C12_parent_idx.

(** The top boundary elements are exactly the facets with one coface, in parent order and parent orientation. *)
Theorem C12_boundary_elements : forall row_leb sat n rows t b idx, sat_contract sat -> simplices_ok n rows -> 2 <= n ->
  from_simplices row_leb n rows = Ok t -> at_most_two n rows ->
  boundary row_leb sat t = Ok (Some (b, idx)) ->
  StronglySorted lt (nth (n - 1) idx []) /\
  (forall j, In j (nth (n - 1) idx []) <->
     j < n_elements t (n - 1) /\ boundary_face n rows (nth j (nth (n - 1) (elements t) []) [])).
Proof.
  intros row_leb sat n rows t b idx SC OK Hn2 H AM E. destruct (from_simplices_top_ok _ _ _ _ OK H) as [Hn T].
  assert (O : is_oriented sat t = Ok true).
  { unfold boundary in E. destruct (is_oriented sat t) as [[|]|]; simpl in E; congruence. }
  pose proof (is_oriented_consistent n rows t OK Hn T AM sat SC O) as CO.
  pose proof (boundary_some_inv row_leb n rows t T sat b idx E O) as Hne.
  destruct (boundary_some row_leb n rows t OK Hn T AM CO Hn2 sat O Hne) as (b' & idx' & Eb & BF).
  rewrite E in Eb. injection Eb as <- <-.
  rewrite (parent_idx_top row_leb n rows t OK Hn T AM CO b idx BF).
  split; [apply boundary_positions_sorted|]. intros j. apply (boundary_positions_spec n rows t OK Hn T AM CO).
Qed.
Print Assumptions C12_boundary_elements.

Example C12_example : exists t b, from_simplices lex_leb 2 [[0;1;2];[0;2;3];[0;3;4];[0;4;5];[0;5;1]] = Ok t /\
  boundary lex_leb brute_sat t = Ok (Some (b, [[1;2;3;4;5]; [5;6;7;8;9]])) /\
  nth 1 (elements b) [] = [[0;1];[4;0];[1;2];[2;3];[3;4]] /\
  nth 1 (elements t) [] = [[0;1];[2;0];[3;0];[4;0];[5;0];[1;2];[5;1];[2;3];[3;4];[4;5]].
Proof. eexists. eexists. split; [vm_compute; reflexivity|]. repeat split; vm_compute; reflexivity. Qed.
