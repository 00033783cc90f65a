(** Property C69: averaging and degree on cubical meshes. *)
Require Import List Arith ZArith Bool Lia Permutation QArith.
From Verif Require Import Util CombModel CombSpec CombProofs SimpModel SimpSpec ParProofs SimpProofs LevelProofs SimpProps.
From Verif Require Import CubeModel CubeSpec CubeBits CubeBd CubeRel CubeTop CubeChain CubeProps CAvgSpec CAvgProofs.
From Verif Require Import BdryModel BdrySpec OrientProofs AvgModel AvgProofs AvgProps.
Import ListNotations.
Local Open Scope nat_scope.

Lemma c_accumulated_0_spec : forall n rows t k, 1 <= n -> ctop n rows t -> k <= n ->
  exists A M, accumulated_operators_0 t = Ok A /\ nth_error A k = Some M /\ nrows M = n_elements t 0 /\ ncols M = n_elements t k /\
  forall v e, v < n_elements t 0 -> e < n_elements t k -> entry M v e = if memb v (el t k e) then wrap8 (Z.of_nat (fact k)) else 0%Z.
Proof.
  intros n rows t k Hn T Hk.
  assert (LA : length (acc0 t) = n) by (unfold acc0; rewrite accumulate_length, map_length; apply (c_matrices_len n rows t T)).
  unfold accumulated_operators_0. fold (acc0 t). destruct (acc0 t) as [|a0 A0] eqn:EA; [simpl in LA; lia|].
  rewrite <- EA in *. exists (identity (nrows a0) :: acc0 t). destruct k as [|k].
  - exists (identity (nrows a0)). split; auto. split; auto.
    destruct (c_acc0_spec n rows t Hn T 0 ltac:(lia)) as (R & _ & _). rewrite EA in R. cbn [nth] in R. rewrite R.
    split; auto. split; auto. intros v e Hv He. rewrite identity_entry by auto.
    assert (El : el t 0 e = [e]). { unfold el. rewrite (ct_verts _ _ _ T). rewrite nth_map_seq by auto. auto. }
    rewrite El. unfold memb. cbn [existsb]. rewrite orb_false_r. reflexivity.
  - exists (nth k (acc0 t) no_coo). split; auto. split.
    { cbn [nth_error]. apply nth_error_nth'. lia. }
    apply (c_acc0_spec n rows t Hn T k). lia.
Qed.
Lemma el_range : forall n rows t k e v, 1 <= n -> ctop n rows t -> k <= n -> e < n_elements t k -> In v (el t k e) -> v < n_elements t 0.
Proof.
  intros n rows t k e v Hn T Hk He Hv. apply (ct_vused _ _ _ T). apply in_concat.
  destruct (proj1 (c_listed n rows t Hn T (n - k) k ltac:(lia)) e He) as (c & g & s & Hc & SC & R). exists c. split; auto.
  assert (Lc : length c = 2 ^ n) by (apply (c_len n rows t Hn T n); auto; rewrite (ct_top _ _ _ T); auto).
  apply (subcube_incl _ _ _ _ SC Lc). eapply Permutation_in; [apply Permutation_sym, (related_perm _ _ _ _ R), (subcube_length _ _ _ _ SC Lc)|exact Hv].
Qed.
Lemma c_column : forall n rows t k, 1 <= n -> ctop n rows t -> k <= n ->
  exists A, averaging_operators_0 t = Ok A /\
  forall e, e < n_elements t k -> exists W, nth_error A k = Some (Some W) /\
   let w := wrap8 (Z.of_nat (fact k)) in
   let q := (1 / (inject_Z (Z.of_nat (2 ^ k)) * inject_Z (abs8 w)) * inject_Z w)%Q in
   (forall v, v < n_elements t 0 -> (W e v == if memb v (el t k e) then q else 0)%Q) /\
   (sumQ (map (W e) (seq 0 (n_elements t 0))) == inject_Z (Z.of_nat (2 ^ k)) * q)%Q.
Proof.
  intros n rows t k Hn T Hk. destruct (c_accumulated_0_spec n rows t k Hn T Hk) as (A & M & EA & EM & R & C & E).
  exists (map normalized_transpose A). split; [unfold averaging_operators_0; rewrite EA; reflexivity|].
  intros e He. destruct (el_ok n rows t Hn T k e Hk He) as [Le Ne].
  destruct (normalized_column M (n_elements t 0) (fun v => memb v (el t k e)) (wrap8 (Z.of_nat (fact k))) e (2 ^ k) R) as (W & EW & X & Y).
  { intros v Hv. apply E; auto. }
  { rewrite filter_memb; auto. intros v Hv. apply (el_range n rows t k e v); auto. }
  exists W. split; [rewrite (map_nth_error _ _ _ EM), EW; auto|]. cbn zeta. split; auto.
Qed.

(** Every corner of a k-dimensional cube gets the weight 1/2^k, for k <= 5.  The full claim has no bound on k;
    it fails at k = 6, see below. *)
Theorem C69_averaging_partial : forall row_leb n rows t k, 1 <= n -> cubes_ok n rows ->
  from_cubes row_leb true n rows = Ok t -> k <= n -> k <= 5 ->
  exists A, averaging_operators_0 t = Ok A /\
  forall e, e < n_elements t k -> exists W, nth_error A k = Some (Some W) /\
    (forall v, v < n_elements t 0 ->
       (In v (nth e (nth k (elements t) []) []) -> (W e v == 1 / inject_Z (2 ^ Z.of_nat k))%Q) /\
       (~ In v (nth e (nth k (elements t) []) []) -> (W e v == 0)%Q)) /\
    (sumQ (map (W e) (seq 0 (n_elements t 0))) == 1)%Q.
Proof.
  intros row_leb n rows t k Hn OK H Hk Hk5. destruct (from_cubes_ctop _ _ _ _ Hn OK H) as (_ & _ & _ & T).
  destruct (c_column n rows t k Hn T Hk) as (A & EA & X). exists A. split; auto. intros e He. destruct (X e He) as (W & EW & X1 & X2). exists W. split; auto. cbn zeta in X1, X2.
  assert (Q : (1 / (inject_Z (Z.of_nat (2 ^ k)) * inject_Z (abs8 (wrap8 (Z.of_nat (fact k))))) * inject_Z (wrap8 (Z.of_nat (fact k))) == 1 / inject_Z (2 ^ Z.of_nat k))%Q).
  { do 6 (destruct k as [|k]; [reflexivity|]). lia. }
  split.
  - intros v Hv. specialize (X1 v Hv). fold (el t k e). destruct (memb v (el t k e)) eqn:Mv.
    + apply memb_iff in Mv. split; [intros _; rewrite X1; auto|tauto].
    + split; [|intros _; auto]. intros I. apply memb_iff in I. congruence.
  - rewrite X2, Q. do 6 (destruct k as [|k]; [reflexivity|]). lia.
Qed.
Print Assumptions C69_averaging_partial.

(** In every mesh of dimension six or seven, the rows of averaging_operators_0[6] sum to -1. *)
Theorem C69_dim6_refuted : forall row_leb n rows t, 1 <= n -> cubes_ok n rows ->
  from_cubes row_leb true n rows = Ok t -> 6 <= n ->
  exists A, averaging_operators_0 t = Ok A /\ 0 < n_elements t 6 /\
  forall e, e < n_elements t 6 -> exists W, nth_error A 6 = Some (Some W) /\
    (sumQ (map (W e) (seq 0 (n_elements t 0))) == -1 # 1)%Q.
Proof.
  intros row_leb n rows t Hn OK H Hk. destruct (from_cubes_ctop _ _ _ _ Hn OK H) as (_ & _ & _ & T).
  destruct (c_column n rows t 6 Hn T Hk) as (A & EA & X). exists A. split; auto. split; [apply (c_n_elements_pos n rows t Hn T); auto|]. intros e He. destruct (X e He) as (W & EW & _ & X2). exists W. split; auto. cbn zeta in X2.
  rewrite X2. assert (F : fact 6 = 720) by reflexivity. rewrite F. reflexivity.
Qed.
Print Assumptions C69_dim6_refuted.
Lemma grid_from_cubes : forall row_leb shape n t, length shape = n -> n_cube_grid row_leb true shape = Ok t -> from_cubes row_leb true n (grid_cubes shape) = Ok t.
Proof. intros row_leb shape n t <- H. exact H. Qed.
(** Such meshes exist: the 6-dimensional cube. *)
Example C69_dim6_example : forall row_leb, exists t, cubes_ok 6 (grid_cubes [1;1;1;1;1;1]) /\ from_cubes row_leb true 6 (grid_cubes [1;1;1;1;1;1]) = Ok t.
Proof.
  intros row_leb. destruct (C29_accepted row_leb [1;1;1;1;1;1]) as (t & Ht & _); [simpl; lia|simpl; lia|repeat constructor|].
  apply (grid_from_cubes _ _ 6) in Ht; [|reflexivity]. exists t. split; [|exact Ht].
  assert (E : grid_cubes [1;1;1;1;1;1] = [seq 0 64]) by (vm_compute; reflexivity). rewrite E. split; [discriminate|]. constructor; [|constructor]. split; [rewrite seq_length; reflexivity|apply seq_NoDup].
Qed.

(** [l] lists the cubes that have element [e] of dimension [k] as a face. *)
Definition cofaces (k n : nat) (rows : list (list nat)) (e : list nat) (l : list nat) : Prop :=
  NoDup l /\ forall j, In j l <-> j < length rows /\ face_of_cube k n (nth j rows []) e.

Lemma c_accumulated_N_spec : forall n rows t k, 1 <= n -> ctop n rows t -> k < n ->
  exists A M, accumulated_operators_N t = Ok A /\ length A = S n /\ nth_error A k = Some M /\ nrows M = length rows /\ ncols M = n_elements t k /\
  forall s e, s < length rows -> e < n_elements t k ->
    entry M s e = if faceb k n (nth s rows []) (el t k e) then wrap8 (Z.of_nat (fact (n - k))) else 0%Z.
Proof.
  intros n rows t k Hn T Hk.
  assert (LA : length (accN t) = n) by (unfold accN; rewrite accumulate_length, map_length, rev_length; apply (c_matrices_len n rows t T)).
  unfold accumulated_operators_N. fold (accN t). destruct (accN t) as [|a0 A0] eqn:EA; [simpl in LA; lia|].
  rewrite <- EA in *. exists (rev (identity (nrows a0) :: accN t)), (nth (n - 1 - k) (accN t) no_coo). split; auto.
  split; [rewrite rev_length; simpl; lia|]. split.
  { rewrite (nth_error_nth' _ no_coo) by (rewrite rev_length; simpl; lia). f_equal.
    rewrite rev_nth by (simpl; lia). simpl length. rewrite LA. replace (S n - S k) with (S (n - 1 - k)) by lia. reflexivity. }
  destruct (c_accN_spec n rows t Hn T (n - 1 - k) ltac:(lia)) as (R & C & E).
  replace (n - 1 - (n - 1 - k)) with k in * by lia. replace (S (n - 1 - k)) with (n - k) in * by lia. auto.
Qed.
Lemma cofaces_count : forall n rows t k e l, 1 <= n -> ctop n rows t -> k < n -> e < n_elements t k -> cofaces k n rows (el t k e) l ->
  length (filter (fun s => faceb k n (nth s rows []) (el t k e)) (seq 0 (length rows))) = length l.
Proof.
  intros n rows t k e l Hn T Hk He [ND Hl]. apply Permutation_length. apply NoDup_Permutation; auto; [apply NoDup_filter, seq_NoDup|].
  intros s. rewrite filter_In, in_seq, Hl. split.
  - intros [Hs F]. assert (s < length rows) by lia. split; auto. apply (faceb_face n rows t Hn T); auto. lia.
  - intros [Hs F]. split; [lia|]. apply (faceb_face n rows t Hn T); auto. lia.
Qed.
Lemma cofaces_pos : forall n rows t k e l, 1 <= n -> ctop n rows t -> k < n -> e < n_elements t k -> cofaces k n rows (el t k e) l -> 1 <= length l.
Proof.
  intros n rows t k e l Hn T Hk He [ND Hl]. destruct (proj1 (c_listed n rows t Hn T (n - k) k ltac:(lia)) e He) as (c & g & s & Hc & SC & R).
  apply In_nth with (d := []) in Hc as (j & Hj & Ec). assert (I : In j l) by (apply Hl; split; auto; rewrite Ec; exists g, s; auto). destruct l; [destruct I|simpl; lia].
Qed.

(** degree counts the incident cubes, up to 127 of them. *)
Theorem C69_degree_partial : forall row_leb n rows t k, 1 <= n -> cubes_ok n rows ->
  from_cubes row_leb true n rows = Ok t -> k < n ->
  exists D d, degree t = Ok D /\ nth_error D k = Some d /\ length d = n_elements t k /\
  forall e l, e < n_elements t k -> cofaces k n rows (nth e (nth k (elements t) []) []) l ->
    (length l < 128 -> nth e d 0%Z = Z.of_nat (length l)) /\ (length l = 128 -> nth e d 0%Z = (-128)%Z).
Proof.
  intros row_leb n rows t k Hn OK H Hk. destruct (from_cubes_ctop _ _ _ _ Hn OK H) as (H7 & _ & _ & T).
  destruct (c_accumulated_N_spec n rows t k Hn T Hk) as (A & M & EA & LA & EM & R & C & E).
  assert (Hw : wrap8 (Z.of_nat (fact (n - k))) <> 0%Z) by (apply fact_nz; lia).
  unfold degree. rewrite EA. cbn [bind]. eexists. eexists. split; [reflexivity|].
  split; [apply (map_nth_error _ _ _ EM)|]. split; [rewrite map_length, seq_length; auto|].
  intros e l He Hl. rewrite nth_map_seq by lia. rewrite R.
  rewrite (sumZ_map_ext _ _ (fun s => if faceb k n (nth s rows []) (el t k e) then 1%Z else 0%Z)).
  - rewrite sumZ_indicator. rewrite (cofaces_count n rows t k e l) by auto. split; intros Q.
    + rewrite wrap8_id by lia. lia.
    + rewrite Q. reflexivity.
  - intros s Hs. apply in_seq in Hs. rewrite E by lia. destruct (faceb k n (nth s rows []) (el t k e)); auto.
    apply Z.eqb_neq in Hw. rewrite Hw. auto.
Qed.
Print Assumptions C69_degree_partial.

(** averaging_operators_N: each k-element averages the cubes it is a face of, with equal weights. *)
Theorem C69_averaging_N_partial : forall row_leb n rows t k, 1 <= n -> cubes_ok n rows ->
  from_cubes row_leb true n rows = Ok t -> k < n -> n - k <= 5 ->
  exists A, averaging_operators_N t = Ok A /\
  forall e l, e < n_elements t k -> cofaces k n rows (nth e (nth k (elements t) []) []) l -> exists W, nth_error A k = Some (Some W) /\
    (forall s, s < length rows -> (In s l -> (W e s == 1 / inject_Z (Z.of_nat (length l)))%Q) /\ (~ In s l -> (W e s == 0)%Q)) /\
    (sumQ (map (W e) (seq 0 (length rows))) == 1)%Q.
Proof.
  intros row_leb n rows t k Hn OK H Hk H5. destruct (from_cubes_ctop _ _ _ _ Hn OK H) as (H7 & _ & _ & T).
  destruct (c_accumulated_N_spec n rows t k Hn T Hk) as (A & M & EA & LA & EM & R & C & E).
  exists (map normalized_transpose A). split; [unfold averaging_operators_N; rewrite EA; reflexivity|].
  intros e l He Hl. fold (el t k e) in Hl.
  destruct (normalized_column M (length rows) (fun s => faceb k n (nth s rows []) (el t k e)) (wrap8 (Z.of_nat (fact (n - k)))) e (length l) R) as (W & EW & X & Y).
  { intros s Hs. apply E; auto. }
  { apply (cofaces_count n rows t); auto. }
  exists W. split; [rewrite (map_nth_error _ _ _ EM), EW; auto|].
  pose proof (cofaces_pos n rows t k e l Hn T Hk He Hl) as Cp. set (c := length l) in *.
  assert (Cq : (~ inject_Z (Z.of_nat c) == 0)%Q) by (unfold Qeq; simpl; lia).
  assert (Q : (1 / (inject_Z (Z.of_nat c) * inject_Z (abs8 (wrap8 (Z.of_nat (fact (n - k)))))) * inject_Z (wrap8 (Z.of_nat (fact (n - k)))) == 1 / inject_Z (Z.of_nat c))%Q).
  { destruct (fact_small (n - k) H5) as [V1 V2]. rewrite V1. field. split; auto. intros Z0. apply V2. unfold Qeq in Z0. simpl in Z0. lia. }
  cbn zeta in X, Y. split.
  - intros s Hs. specialize (X s Hs). cbn beta in X. assert (F : faceb k n (nth s rows []) (el t k e) = true <-> In s l).
    { rewrite (faceb_face n rows t Hn T) by (auto; lia). rewrite (proj2 Hl). tauto. }
    destruct (faceb k n (nth s rows []) (el t k e)).
    + split; [intros _; rewrite X; auto|tauto].
    + split; [|intros _; auto]. intros I. apply F in I. discriminate.
  - rewrite Y, Q. field. auto.
Qed.
Print Assumptions C69_averaging_N_partial.

(** Where the codimension is six or more, the rows of averaging_operators_N sum to -1. *)
Theorem C69_averaging_N_refuted : forall row_leb n rows t k, 1 <= n -> cubes_ok n rows ->
  from_cubes row_leb true n rows = Ok t -> k < n -> 6 <= n - k ->
  exists A, averaging_operators_N t = Ok A /\
  forall e l, e < n_elements t k -> cofaces k n rows (nth e (nth k (elements t) []) []) l -> exists W, nth_error A k = Some (Some W) /\
    (sumQ (map (W e) (seq 0 (length rows))) == -1 # 1)%Q.
Proof.
  intros row_leb n rows t k Hn OK H Hk H6. destruct (from_cubes_ctop _ _ _ _ Hn OK H) as (H7 & _ & _ & T).
  destruct (c_accumulated_N_spec n rows t k Hn T Hk) as (A & M & EA & LA & EM & R & C & E).
  exists (map normalized_transpose A). split; [unfold averaging_operators_N; rewrite EA; reflexivity|].
  intros e l He Hl. fold (el t k e) in Hl.
  destruct (normalized_column M (length rows) (fun s => faceb k n (nth s rows []) (el t k e)) (wrap8 (Z.of_nat (fact (n - k)))) e (length l) R) as (W & EW & X & Y).
  { intros s Hs. apply E; auto. }
  { apply (cofaces_count n rows t); auto. }
  exists W. split; [rewrite (map_nth_error _ _ _ EM), EW; auto|].
  pose proof (cofaces_pos n rows t k e l Hn T Hk He Hl) as Cp. set (c := length l) in *.
  assert (Cq : (~ inject_Z (Z.of_nat c) == 0)%Q) by (unfold Qeq; simpl; lia).
  cbn zeta in Y. rewrite Y.
  assert (V : abs8 (wrap8 (Z.of_nat (fact (n - k)))) = (- wrap8 (Z.of_nat (fact (n - k))))%Z /\ wrap8 (Z.of_nat (fact (n - k))) <> 0%Z).
  { assert (D : n - k = 6 \/ n - k = 7) by lia. destruct D as [-> | ->]; [assert (F : Z.of_nat (fact 6) = 720%Z) by reflexivity|assert (F : Z.of_nat (fact 7) = 5040%Z) by (change (fact 7) with (7 * fact 6); rewrite Nat2Z.inj_mul; reflexivity)]; rewrite F; split; [reflexivity|discriminate|reflexivity|discriminate]. }
  destruct V as [V1 V2]. rewrite V1. rewrite inject_Z_opp. assert (Wq : (~ inject_Z (wrap8 (Z.of_nat (fact (n - k)))) == 0)%Q) by (intros Z0; apply V2; unfold Qeq in Z0; simpl in Z0; lia).
  set (w := inject_Z (wrap8 (Z.of_nat (fact (n - k))))) in *. assert (Wn : (~ - w == 0)%Q) by (intros Z0; apply Wq; rewrite <- (Qopp_involutive w), Z0; reflexivity).
  field. auto.
Qed.
Print Assumptions C69_averaging_N_refuted.

Example C69_example : exists t, from_cubes lex_leb true 2 [[0; 1; 2; 3]; [2; 3; 4; 5]] = Ok t /\
  degree t = Ok [[1; 1; 2; 2; 1; 1]; [1; 1; 1; 2; 1; 1; 1]; [1; 1]]%Z /\
  cofaces 0 2 [[0; 1; 2; 3]; [2; 3; 4; 5]] [2] [0; 1] /\
  match averaging_operators_0 t with Ok A => match nth_error A 2 with Some (Some W) => Qeq_bool (W 1 3) (1 # 4) | _ => false end | Err _ => false end = true.
Proof.
  eexists. split; [vm_compute; reflexivity|]. split; [vm_compute; reflexivity|]. split.
  - split; [repeat constructor; simpl; intuition discriminate|]. intros j. simpl In. split.
    + assert (G : forall (s : bool) (c : cube) v, length c = 4 -> nth (if s then 3 else 0) c 0 = v -> subcube 0 2 c [v]).
      { intros s c v L E. apply (subcube_step 0 2 c [v] 0 s); [lia|]. apply (subcube_step 0 1 _ [v] 0 s); [lia|]. destruct c as [|a [|b [|c [|d [|]]]]]; try discriminate. destruct s; simpl in E; subst v; vm_compute; constructor. }
      assert (G0 : subcube 0 2 [0; 1; 2; 3] [2]). { apply (subcube_step 0 2 _ [2] 0 true); [lia|]. apply (subcube_step 0 1 _ [2] 0 false); [lia|]. vm_compute. constructor. }
      intros [<-|[<-|[]]]; (split; [simpl; lia|]); exists [2], 1%Z; (split; [|constructor]); [exact G0|apply (G false); auto].
    + simpl length. lia.
  - vm_compute. reflexivity.
Qed.
