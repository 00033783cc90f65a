(** Properties C17 - C19, C51, C52, C56. *)
Require Import List Arith ZArith Bool Lia Permutation QArith Qabs Lqa.
From Verif Require Import Util CombModel CombSpec CombProofs SimpModel SimpSpec ParProofs SimpProofs LevelProofs TopProofs SimpProps.
From Verif Require Import BdryModel BdrySpec OrientProofs AvgModel AvgProofs.
Import ListNotations.
Local Open Scope nat_scope.

(** C51.  Entry [i] of [accumulate f l] is the left fold of [f] over the first [i+1] items. *)
Theorem C51_accumulate : forall A (f : A -> A -> A) l, length (accumulate f l) = length l /\
  forall i d, i < length l -> nth i (accumulate f l) d = fold_left f (firstn i (tl l)) (hd d l).
Proof.
  intros A f l. split; [apply accumulate_length|]. intros i d Hi. destruct l as [|x l]; [simpl in Hi; lia|].
  cbn [accumulate tl hd]. destruct i; auto. cbn [nth]. rewrite running_nth by (simpl in Hi; lia). auto.
Qed.
Print Assumptions C51_accumulate.
Example C51_example : accumulate Nat.mul [1;2;3;4;5] = [1;2;6;24;120].
Proof. reflexivity. Qed.

(** C52 *)
Lemma sumQ_ext : forall A (f g : A -> Q) l, (forall x, In x l -> f x == g x)%Q -> (sumQ (map f l) == sumQ (map g l))%Q.
Proof. induction l; intros H; simpl; [reflexivity|]. rewrite (H a (or_introl eq_refl)). rewrite IHl; [reflexivity|]. intros; apply H; right; auto. Qed.
Lemma sumQ_scale : forall A (f : A -> Q) c l, (sumQ (map (fun x => c * f x) l) == c * sumQ (map f l))%Q.
Proof. induction l; simpl; [ring|]. rewrite IHl. ring. Qed.
Lemma sumQ_nonneg : forall A (f : A -> Q) l, (forall x, In x l -> 0 <= f x)%Q -> (0 <= sumQ (map f l))%Q.
Proof.
  induction l; intros H; simpl; [lra|]. pose proof (H a (or_introl eq_refl)).
  assert (0 <= sumQ (map f l))%Q by (apply IHl; intros; apply H; right; auto). lra.
Qed.

Lemma inv_pos : forall q, (0 < q -> 0 < 1 / q)%Q.
Proof. intros q H. unfold Qdiv. rewrite Qmult_1_l. apply Qinv_lt_0_compat; auto. Qed.

(** Real matrices: unit absolute sums along the chosen axis, same signs and zeros. *)
Theorem C52_normalize_l1 : forall r c axis A, axis < 2 ->
  exists B, normalize_l1 Qabs r c axis A = Some B /\
   (axis = 1 -> forall i, i < r -> (~ sumQ (map (fun j => Qabs (A i j)) (seq 0 c)) == 0)%Q ->
      (sumQ (map (fun j => Qabs (B i j)) (seq 0 c)) == 1)%Q /\
      exists k, (0 < k)%Q /\ forall j, (B i j == k * A i j)%Q) /\
   (axis = 0 -> forall j, j < c -> (~ sumQ (map (fun i => Qabs (A i j)) (seq 0 r)) == 0)%Q ->
      (sumQ (map (fun i => Qabs (B i j)) (seq 0 r)) == 1)%Q /\
      exists k, (0 < k)%Q /\ forall i, (B i j == k * A i j)%Q).
Proof.
  intros r c axis A Ha.
  assert (G : forall (f : nat -> Q) l, (~ sumQ (map (fun x => Qabs (f x)) l) == 0)%Q ->
     let s := sumQ (map (fun x => Qabs (f x)) l) in
     (0 < 1 / s)%Q /\ (sumQ (map (fun x => Qabs ((1 / s) * f x)) l) == 1)%Q).
  { intros f l H s. assert (P : (0 < s)%Q).
    { assert (0 <= s)%Q by (apply sumQ_nonneg; intros; apply Qabs_nonneg).
      destruct (Qlt_le_dec 0 s); auto. exfalso. apply H. fold s. lra. }
    split; [apply inv_pos; auto|].
    rewrite (sumQ_ext _ _ (fun x => (1 / s) * Qabs (f x))%Q).
    - rewrite sumQ_scale. fold s. field. lra.
    - intros x _. rewrite Qabs_Qmult. rewrite (Qabs_pos (1 / s)); [reflexivity|]. apply Qlt_le_weak, inv_pos; auto. }
  destruct axis as [|[|]]; [| |lia].
  - eexists. split; [reflexivity|]. split; [discriminate|]. intros _ j Hj H.
    destruct (G (fun i => A i j) _ H) as [P E]. split.
    + rewrite <- E. apply sumQ_ext. intros x _. rewrite Qmult_comm. reflexivity.
    + eexists. split; [exact P|]. intros i. rewrite Qmult_comm. reflexivity.
  - eexists. split; [reflexivity|]. split; [|discriminate]. intros _ i Hi H.
    destruct (G (fun j => A i j) _ H) as [P E]. split.
    + rewrite <- E. reflexivity.
    + eexists. split; [exact P|]. intros j. reflexivity.
Qed.
Print Assumptions C52_normalize_l1.
Example C52_example : exists B, normalize_l1 Qabs 2 2 1 (fun i j => inject_Z (Z.of_nat (i + 2 * j) - 3)) = Some B /\
  (B 0%nat 0%nat == -3 # 4)%Q /\ (B 0%nat 1%nat == -1 # 4)%Q /\ (~ sumQ (map (fun j => Qabs (inject_Z (Z.of_nat (0 + 2 * j) - 3))) (seq 0 2)) == 0)%Q.
Proof. eexists. split; [reflexivity|]. repeat split; try reflexivity. unfold Qeq; simpl; lia. Qed.

(** C17 *)
Lemma sumQ_memb : forall (P : nat -> bool) c l, (sumQ (map (fun v => if P v then c else 0) l) == inject_Z (Z.of_nat (length (filter P l))) * c)%Q.
Proof.
  induction l as [|a l IH]; simpl; [ring|]. rewrite IH. destruct (P a); simpl length; [|ring].
  rewrite Nat2Z.inj_succ, <- Z.add_1_l, inject_Z_plus. ring.
Qed.

Lemma filter_memb : forall s N, NoDup s -> (forall v, In v s -> v < N) -> length (filter (fun v => memb v s) (seq 0 N)) = length s.
Proof.
  intros s N ND H. apply Permutation_length. apply NoDup_Permutation; auto.
  - apply NoDup_filter, seq_NoDup.
  - intros v. rewrite filter_In, in_seq, memb_iff. split; [tauto|]. intros Hv. split; auto. specialize (H v Hv). lia.
Qed.

(** Normalising a column that is constant [w] on the set [P] and zero elsewhere. *)
Lemma normalized_column : forall M N (P : nat -> bool) w e c, nrows M = N -> (forall v, v < N -> entry M v e = if P v then w else 0%Z) ->
  length (filter P (seq 0 N)) = c ->
  exists W, normalized_transpose M = Some W /\
   let q := (1 / (inject_Z (Z.of_nat c) * inject_Z (abs8 w)) * inject_Z w)%Q in
   (forall v, v < N -> (W e v == if P v then q else 0)%Q) /\
   (sumQ (map (W e) (seq 0 N)) == inject_Z (Z.of_nat c) * q)%Q.
Proof.
  intros M N P w e c R E LC. eexists. split; [reflexivity|]. cbn zeta.
  set (S0 := sumQ (map (fun j' => inject_Z (abs8 (Qnum (inject_Z (entry M j' e))))) (seq 0 (nrows M)))).
  assert (ES : (S0 == inject_Z (Z.of_nat c) * inject_Z (abs8 w))%Q).
  { unfold S0. rewrite R. rewrite (sumQ_ext _ _ (fun v => if P v then inject_Z (abs8 w) else 0)%Q).
    - rewrite sumQ_memb, LC. reflexivity.
    - intros v Hv. apply in_seq in Hv. rewrite E by lia. cbn [Qnum inject_Z]. destruct (P v); reflexivity. }
  assert (EW : forall v, v < N -> (1 / S0 * inject_Z (entry M v e) ==
      if P v then 1 / (inject_Z (Z.of_nat c) * inject_Z (abs8 w)) * inject_Z w else 0)%Q).
  { intros v Hv. rewrite E by auto. rewrite ES. destruct (P v); [reflexivity|]. rewrite Qmult_0_r. reflexivity. }
  split; [exact EW|].
  rewrite (sumQ_ext _ _ (fun v => if P v then 1 / (inject_Z (Z.of_nat c) * inject_Z (abs8 w)) * inject_Z w else 0)%Q).
  - rewrite sumQ_memb, LC. reflexivity.
  - intros v Hv. apply in_seq in Hv. apply EW. lia.
Qed.

Lemma identity_entry : forall N v e, v < N -> e < N -> entry (identity N) v e = if v =? e then 1%Z else 0%Z.
Proof.
  intros. unfold identity. rewrite of_entries_entry. rewrite (proj2 (Nat.ltb_lt _ _) H), (proj2 (Nat.ltb_lt _ _) H0). reflexivity.
Qed.

(** The operator from 0-elements to k-elements before normalisation. *)
Lemma accumulated_0_spec : forall n rows t k, 1 <= n -> top_ok n rows t -> k <= n ->
  exists A M, accumulated_operators_0 t = Ok A /\ nth_error A k = Some M /\ nrows M = n_elements t 0 /\ ncols M = n_elements t k /\
  forall v e, v < n_elements t 0 -> e < n_elements t k -> entry M v e = if memb v (el t k e) then wrap8 (Z.of_nat (fact k)) else 0%Z.
Proof.
  intros n rows t k Hn T Hk.
  assert (LA : length (acc0 t) = n) by (unfold acc0; rewrite accumulate_length, map_length; apply (matrices_len n rows t T)).
  unfold accumulated_operators_0. fold (acc0 t). destruct (acc0 t) as [|a0 A0] eqn:EA; [simpl in LA; lia|].
  rewrite <- EA in *. exists (identity (nrows a0) :: acc0 t). destruct k as [|k].
  - exists (identity (nrows a0)). split; auto. split; auto.
    destruct (acc0_spec n rows t Hn T 0 ltac:(lia)) as (R & _ & _). rewrite EA in R. cbn [nth] in R. rewrite R.
    split; auto. split; auto. intros v e Hv He. rewrite identity_entry by auto.
    assert (El : el t 0 e = [e]). { unfold el. rewrite (to_verts _ _ _ T). rewrite nth_map_seq by auto. auto. }
    rewrite El. unfold memb. cbn [existsb]. rewrite orb_false_r. reflexivity.
  - exists (nth k (acc0 t) no_coo). split; auto. split.
    { cbn [nth_error]. apply nth_error_nth'. lia. }
    apply (acc0_spec n rows t Hn T k). lia.
Qed.

(** Every corner of a k-element gets the weight 1/(k+1), for k <= 5.  The full claim has no bound on k;
    it fails at k = 6, see below. *)
Theorem C17_averaging_weights_partial : forall row_leb n rows t k, simplices_ok n rows ->
  from_simplices row_leb n rows = Ok t -> k <= n -> k <= 5 ->
  exists A, averaging_operators_0 t = Ok A /\
  forall e, e < n_elements t k -> exists W, nth_error A k = Some (Some W) /\
    (forall v, v < n_elements t 0 ->
       (In v (nth e (nth k (elements t) []) []) -> (W e v == 1 / inject_Z (Z.of_nat (S k)))%Q) /\
       (~ In v (nth e (nth k (elements t) []) []) -> (W e v == 0)%Q)) /\
    (sumQ (map (W e) (seq 0 (n_elements t 0))) == 1)%Q.
Proof.
  intros row_leb n rows t k OK H Hk Hk5. destruct (from_simplices_top_ok _ _ _ _ OK H) as [Hn T].
  destruct (accumulated_0_spec n rows t k Hn T Hk) as (A & M & EA & EM & R & C & E).
  exists (map normalized_transpose A). split; [unfold averaging_operators_0; rewrite EA; reflexivity|].
  intros e He. destruct (el_len n rows t Hn T k e ltac:(lia) He) as [Le Ne].
  assert (VR : forall v, In v (el t k e) -> v < n_elements t 0).
  { intros v Hv. apply (to_vused _ _ _ T). apply in_concat.
    destruct (proj1 (faces_complete n rows t Hn T (n - k) k ltac:(lia) (el t k e))) as (s & Hs & (_ & _ & I)).
    { exists (el t k e). split; auto. apply nth_In; auto. }
    exists s. split; auto. }
  destruct (normalized_column M (n_elements t 0) (fun v => memb v (el t k e)) (wrap8 (Z.of_nat (fact k))) e (S k) R) as (W & EW & X & Y).
  { intros v Hv. apply E; auto. }
  { rewrite filter_memb; auto. }
  exists W. split; [rewrite (map_nth_error _ _ _ EM), EW; auto|].
  assert (Q : (1 / (inject_Z (Z.of_nat (S k)) * inject_Z (abs8 (wrap8 (Z.of_nat (fact k))))) * inject_Z (wrap8 (Z.of_nat (fact k))) == 1 / inject_Z (Z.of_nat (S k)))%Q).
  { do 6 (destruct k as [|k]; [reflexivity|]). lia. }
  split.
  - intros v Hv. specialize (X v Hv). fold (el t k e). destruct (memb v (el t k e)) eqn:Mv.
    + apply memb_iff in Mv. split; [intros _; rewrite X; auto|tauto].
    + split; [|intros _; auto]. intros I. apply memb_iff in I. congruence.
  - rewrite Y, Q. field. unfold Qeq. simpl. lia.
Qed.
Print Assumptions C17_averaging_weights_partial.

(** From 6! = 720 = -48 (mod 256) on, the weights are wrong: in every mesh all rows of
    averaging_operators_0[6] sum to -1 instead of 1. *)
Theorem C17_averaging_dim6_refuted : forall row_leb n rows t, simplices_ok n rows ->
  from_simplices row_leb n rows = Ok t -> 6 <= n ->
  exists A, averaging_operators_0 t = Ok A /\
  forall e, e < n_elements t 6 -> exists W, nth_error A 6 = Some (Some W) /\
    (sumQ (map (W e) (seq 0 (n_elements t 0))) == -1 # 1)%Q.
Proof.
  intros row_leb n rows t OK H Hk. destruct (from_simplices_top_ok _ _ _ _ OK H) as [Hn T].
  destruct (accumulated_0_spec n rows t 6 Hn T Hk) as (A & M & EA & EM & R & C & E).
  exists (map normalized_transpose A). split; [unfold averaging_operators_0; rewrite EA; reflexivity|].
  intros e He. destruct (el_len n rows t Hn T 6 e ltac:(lia) He) as [Le Ne].
  assert (VR : forall v, In v (el t 6 e) -> v < n_elements t 0).
  { intros v Hv. apply (to_vused _ _ _ T). apply in_concat.
    destruct (proj1 (faces_complete n rows t Hn T (n - 6) 6 ltac:(lia) (el t 6 e))) as (s & Hs & (_ & _ & I)).
    { exists (el t 6 e). split; auto. apply nth_In; auto. }
    exists s. split; auto. }
  destruct (normalized_column M (n_elements t 0) (fun v => memb v (el t 6 e)) (wrap8 (Z.of_nat (fact 6))) e 7 R) as (W & EW & X & Y).
  { intros v Hv. apply E; auto. }
  { rewrite filter_memb; auto. }
  exists W. split; [rewrite (map_nth_error _ _ _ EM), EW; auto|]. rewrite Y.
  assert (F : fact 6 = 720) by reflexivity. rewrite F. reflexivity.
Qed.
Print Assumptions C17_averaging_dim6_refuted.

Example C17_example : simplices_ok 2 [[0;1;2];[0;2;3]] /\ exists t, from_simplices lex_leb 2 [[0;1;2];[0;2;3]] = Ok t /\ n_elements t 2 = 2.
Proof.
  split; [split; [discriminate|]; repeat constructor; simpl; intuition discriminate|].
  eexists. split; [vm_compute; reflexivity|]. vm_compute. reflexivity.
Qed.
Example C17_dim6_example : simplices_ok 6 [[0;1;2;3;4;5;6]] /\ exists t, from_simplices lex_leb 6 [[0;1;2;3;4;5;6]] = Ok t /\ n_elements t 6 = 1.
Proof.
  split; [split; [discriminate|]; repeat constructor; simpl; intuition discriminate|].
  destruct (from_simplices lex_leb 6 [[0;1;2;3;4;5;6]]) as [t|] eqn:E; [|vm_compute in E; discriminate].
  exists t. split; auto. vm_compute in E. injection E as <-. vm_compute. reflexivity.
Qed.

(** C18.  The number of top simplices that contain element [e]. *)
Definition n_cofaces (rows : list simplex) (e : simplex) : nat :=
  length (filter (fun s => forallb (fun v => existsb (Nat.eqb v) s) e) rows).

Lemma contains_inclb : forall e s, forallb (fun v => existsb (Nat.eqb v) s) e = inclb e s.
Proof.
  intros e s. apply Bool.eq_iff_eq_true. rewrite inclb_iff, forallb_forall. unfold incl. split; intros H v Hv.
  - apply H in Hv. apply existsb_exists in Hv as (x & Hx & E). apply Nat.eqb_eq in E. subst. auto.
  - apply existsb_exists. exists v. split; auto. apply Nat.eqb_refl.
Qed.

Lemma n_cofaces_seq : forall rows e, n_cofaces rows e = length (filter (fun s => inclb e (nth s rows [])) (seq 0 (length rows))).
Proof.
  intros rows e. unfold n_cofaces. rewrite (filter_ext _ (inclb e) (contains_inclb e)).
  transitivity (length (filter (inclb e) (map (fun s => nth s rows []) (seq 0 (length rows))))).
  - rewrite map_nth_seq. reflexivity.
  - generalize (seq 0 (length rows)). induction l as [|x l IH]; auto. cbn [map filter]. destruct (inclb e (nth x rows [])); simpl; auto.
Qed.

Lemma accumulated_N_spec : forall n rows t k, 1 <= n -> top_ok n rows t -> k < n ->
  exists A M, accumulated_operators_N t = Ok A /\ length A = S n /\ nth_error A k = Some M /\ nrows M = length rows /\ ncols M = n_elements t k /\
  forall s e, s < length rows -> e < n_elements t k ->
    entry M s e = if inclb (el t k e) (nth s rows []) then wrap8 (Z.of_nat (fact (n - k))) else 0%Z.
Proof.
  intros n rows t k Hn T Hk.
  assert (LA : length (accN t) = n) by (unfold accN; rewrite accumulate_length, map_length, rev_length; apply (matrices_len n rows t T)).
  unfold accumulated_operators_N. fold (accN t). destruct (accN t) as [|a0 A0] eqn:EA; [simpl in LA; lia|].
  rewrite <- EA in *. exists (rev (identity (nrows a0) :: accN t)), (nth (n - 1 - k) (accN t) no_coo). split; auto.
  split; [rewrite rev_length; simpl; lia|]. split.
  { rewrite (nth_error_nth' _ no_coo) by (rewrite rev_length; simpl; lia). f_equal.
    rewrite rev_nth by (simpl; lia). simpl length. rewrite LA. replace (S n - S k) with (S (n - 1 - k)) by lia. reflexivity. }
  destruct (accN_spec n rows t Hn T (n - 1 - k) ltac:(lia)) as (R & C & E).
  replace (n - 1 - (n - 1 - k)) with k in * by lia. replace (S (n - 1 - k)) with (n - k) in * by lia. auto.
Qed.

Lemma degree_general : forall n rows t k, 1 <= n -> top_ok n rows t -> k < n -> (wrap8 (Z.of_nat (fact (n - k))) <> 0)%Z ->
  exists D l, degree t = Ok D /\ nth_error D k = Some l /\ length l = n_elements t k /\
  forall e, e < n_elements t k -> nth e l 0%Z = wrap8 (Z.of_nat (n_cofaces rows (el t k e))).
Proof.
  intros n rows t k Hn T Hk Hw.
  destruct (accumulated_N_spec n rows t k Hn T Hk) as (A & M & EA & LA & EM & R & C & E).
  unfold degree. rewrite EA. cbn [bind]. eexists. eexists. split; [reflexivity|].
  split; [apply (map_nth_error _ _ _ EM)|]. split; [rewrite map_length, seq_length; auto|].
  intros e He. rewrite nth_map_seq by lia. f_equal. rewrite R.
  rewrite (sumZ_map_ext _ _ (fun s => if inclb (el t k e) (nth s rows []) then 1%Z else 0%Z)).
  - rewrite sumZ_indicator, n_cofaces_seq. lia.
  - intros s Hs. apply in_seq in Hs. rewrite E by lia. destruct (inclb (el t k e) (nth s rows [])); auto.
    apply Z.eqb_neq in Hw. rewrite Hw. auto.
Qed.

Lemma fact_nz : forall m, 1 <= m <= 9 -> (wrap8 (Z.of_nat (fact m)) <> 0)%Z.
Proof.
  assert (F : forall m, wrap8 (Z.of_nat (fact (S m))) = wrap8 (wrap8 (Z.of_nat (fact m)) * Z.of_nat (S m))).
  { intros m. rewrite wrap8_wrap8_mul. f_equal. change (fact (S m)) with (S m * fact m). lia. }
  intros m Hm. assert (V : forall k, k <= 9 -> wrap8 (Z.of_nat (fact k)) = nth k [1;1;2;6;24;120;-48;-80;-128;-128]%Z 0%Z).
  { induction k as [|k IH]; intros Hk; [reflexivity|]. rewrite F, IH by lia.
    do 9 (destruct k as [|k]; [reflexivity|]). lia. }
  rewrite V by lia. do 10 (destruct m as [|m]; [cbn; lia|]). lia.
Qed.

(** degree is right for at most 127 incident top simplices and codimension at most 9. *)
Theorem C18_degree_partial : forall row_leb n rows t k, simplices_ok n rows ->
  from_simplices row_leb n rows = Ok t -> k < n -> n - k <= 9 ->
  exists D l, degree t = Ok D /\ nth_error D k = Some l /\ length l = n_elements t k /\
  forall e, e < n_elements t k -> n_cofaces rows (nth e (nth k (elements t) []) []) < 128 ->
    nth e l 0%Z = Z.of_nat (n_cofaces rows (nth e (nth k (elements t) []) [])).
Proof.
  intros row_leb n rows t k OK H Hk H9. destruct (from_simplices_top_ok _ _ _ _ OK H) as [Hn T].
  destruct (degree_general n rows t k Hn T Hk (fact_nz (n - k) ltac:(lia))) as (D & l & ED & EN & L & X).
  exists D, l. split; auto. split; auto. split; auto. intros e He Hc. rewrite X by auto. apply wrap8_id. fold (el t k e) in *. lia.
Qed.
Print Assumptions C18_degree_partial.

(** Whatever the mesh, an element with exactly 128 incident top simplices gets degree -128. *)
Theorem C18_degree_128_refuted : forall row_leb n rows t k, simplices_ok n rows ->
  from_simplices row_leb n rows = Ok t -> k < n -> n - k <= 9 ->
  exists D l, degree t = Ok D /\ nth_error D k = Some l /\
  forall e, e < n_elements t k -> n_cofaces rows (nth e (nth k (elements t) []) []) = 128 -> nth e l 0%Z = (-128)%Z.
Proof.
  intros row_leb n rows t k OK H Hk H9. destruct (from_simplices_top_ok _ _ _ _ OK H) as [Hn T].
  destruct (degree_general n rows t k Hn T Hk (fact_nz (n - k) ltac:(lia))) as (D & l & ED & EN & L & X).
  exists D, l. split; auto. split; auto. intros e He Hc. rewrite X by auto. fold (el t k e) in *. rewrite Hc. reflexivity.
Qed.
Print Assumptions C18_degree_128_refuted.

(** The star of 128 edges around vertex 0. *)
Definition star : list simplex := map (fun i => [0; S i]) (seq 0 128).
Example C18_star : simplices_ok 1 star /\ exists t, from_simplices lex_leb 1 star = Ok t /\
  n_cofaces star (nth 0 (nth 0 (elements t) []) []) = 128.
Proof.
  split.
  - split; [discriminate|]. apply Forall_forall. intros s Hs. apply in_map_iff in Hs as (i & <- & _). split; auto.
    repeat constructor; simpl; intuition discriminate.
  - eexists. split; [vm_compute; reflexivity|]. vm_compute. reflexivity.
Qed.
Example C18_example : exists t, from_simplices lex_leb 2 [[0;1;2];[0;2;3]] = Ok t /\
  degree t = Ok [[2;1;2;1]; [1;2;1;1;1]; [1;1]]%Z.
Proof. eexists. split; [vm_compute; reflexivity|]. vm_compute; reflexivity. Qed.

Lemma fact_small : forall m, m <= 5 -> abs8 (wrap8 (Z.of_nat (fact m))) = wrap8 (Z.of_nat (fact m)) /\ wrap8 (Z.of_nat (fact m)) <> 0%Z.
Proof. intros m Hm. do 6 (destruct m as [|m]; [split; [reflexivity|discriminate]|]). lia. Qed.

(** C56.  averaging_operators_N: each k-element averages its incident top simplices with equal weights. *)
Theorem C56_averaging_N_partial : forall row_leb n rows t k, simplices_ok n rows ->
  from_simplices row_leb n rows = Ok t -> k < n -> n - k <= 5 ->
  exists A, averaging_operators_N t = Ok A /\
  forall e, e < n_elements t k -> exists W, nth_error A k = Some (Some W) /\
    let c := n_cofaces rows (nth e (nth k (elements t) []) []) in
    (forall s, s < length rows ->
       (incl (nth e (nth k (elements t) []) []) (nth s rows []) -> (W e s == 1 / inject_Z (Z.of_nat c))%Q) /\
       (~ incl (nth e (nth k (elements t) []) []) (nth s rows []) -> (W e s == 0)%Q)) /\
    (sumQ (map (W e) (seq 0 (length rows))) == 1)%Q.
Proof.
  intros row_leb n rows t k OK H Hk H5. destruct (from_simplices_top_ok _ _ _ _ OK H) as [Hn T].
  destruct (accumulated_N_spec n rows t k Hn T Hk) as (A & M & EA & LA & EM & R & C & E).
  exists (map normalized_transpose A). split; [unfold averaging_operators_N; rewrite EA; reflexivity|].
  intros e He. fold (el t k e).
  destruct (normalized_column M (length rows) (fun s => inclb (el t k e) (nth s rows [])) (wrap8 (Z.of_nat (fact (n - k)))) e (n_cofaces rows (el t k e)) R) as (W & EW & X & Y).
  { intros s Hs. apply E; auto. }
  { symmetry. apply n_cofaces_seq. }
  exists W. split; [rewrite (map_nth_error _ _ _ EM), EW; auto|]. cbn zeta.
  assert (Cp : 1 <= n_cofaces rows (el t k e)).
  { destruct (proj1 (faces_complete n rows t Hn T (n - k) k ltac:(lia) (el t k e))) as (s & Hs & (_ & _ & I)).
    { exists (el t k e). split; auto. apply nth_In; auto. }
    unfold n_cofaces. rewrite (filter_ext _ (inclb _) (contains_inclb _)).
    destruct (filter _ rows) as [|x l] eqn:F; [|simpl; lia]. exfalso.
    assert (In s (filter (inclb (el t k e)) rows)).
    { apply filter_In. split; auto. apply inclb_iff. auto. }
    rewrite F in H0. destruct H0. }
  set (c := n_cofaces rows (el t k e)) in *.
  assert (Cq : (~ inject_Z (Z.of_nat c) == 0)%Q) by (unfold Qeq; simpl; lia).
  assert (Q : (1 / (inject_Z (Z.of_nat c) * inject_Z (abs8 (wrap8 (Z.of_nat (fact (n - k)))))) * inject_Z (wrap8 (Z.of_nat (fact (n - k)))) == 1 / inject_Z (Z.of_nat c))%Q).
  { assert (V : abs8 (wrap8 (Z.of_nat (fact (n - k)))) = wrap8 (Z.of_nat (fact (n - k))) /\ wrap8 (Z.of_nat (fact (n - k))) <> 0%Z).
    { apply fact_small; auto. }
    destruct V as [V1 V2]. rewrite V1. field. split; auto. intros Z0. apply V2. unfold Qeq in Z0. simpl in Z0. lia. }
  split.
  - intros s Hs. specialize (X s Hs). cbn beta in X. destruct (inclb (el t k e) (nth s rows [])) eqn:Ms.
    + apply inclb_iff in Ms. split; [intros _; rewrite X; auto|tauto].
    + split; [|intros _; auto]. intros I. apply inclb_iff in I. congruence.
  - rewrite Y, Q. field. auto.
Qed.
Print Assumptions C56_averaging_N_partial.

(** C19.  What check_chain does check: products modulo 256 of all but the last pair.
    The full claim (all consecutive products vanish) is refuted below. *)
Lemma mapM_unit : forall A (f : A -> result unit) l r, mapM f l = Ok r -> forall x, In x l -> f x = Ok tt.
Proof.
  induction l as [|a l IH]; intros r H x Hx; [destruct Hx|]. cbn [mapM] in H.
  destruct (f a) as [[]|] eqn:E; cbn [bind] in H; [|discriminate]. destruct (mapM f l) eqn:E2; cbn [bind] in H; [|discriminate].
  destruct Hx as [<-|Hx]; auto. eapply IH; eauto.
Qed.

Lemma mapM_all : forall A (f : A -> result unit) l, (forall x, In x l -> f x = Ok tt) -> exists r, mapM f l = Ok r.
Proof.
  induction l as [|a l IH]; intros H; [exists []; auto|]. cbn [mapM]. rewrite (H a (or_introl eq_refl)). cbn [bind].
  destruct IH as (r & ->); [intros; apply H; right; auto|]. cbn [bind]. eauto.
Qed.

Theorem C19_check_chain_partial : forall t, check_chain t = Ok tt ->
  forall k i j, S (S k) < n_dim t -> i < nrows (matrix t k) -> j < ncols (matrix t (S k)) ->
    (product_entry (matrix t k) (matrix t (S k)) i j mod 256 = 0)%Z.
Proof.
  intros t H k i j Hk Hi Hj. unfold check_chain in H.
  destruct (mapM _ _) as [r|] eqn:E; [|discriminate]. pose proof (mapM_unit _ _ _ _ E k ltac:(apply in_seq; lia)) as X. cbn beta zeta in X.
  assert (NM : forall m, m < n_dim t -> nth m (matrices t) (mkCoo 0 0 []) = matrix t m).
  { intros m Hm. unfold matrices. apply nth_map_seq; auto. }
  rewrite !NM in X by lia. destruct (ncols (matrix t k) =? nrows (matrix t (S k))) eqn:E1; [|discriminate]. cbn [negb] in X.
  destruct (nnz (mul8 (matrix t k) (matrix t (S k))) =? 0) eqn:E2; [|discriminate]. apply Nat.eqb_eq in E2.
  apply of_entries_nnz with (i := i) (j := j) in E2; auto. apply Nat.eqb_eq in E1.
  unfold product_entry. rewrite <- E1, Nat.max_id. apply cong_wrap8 in E2 || idtac.
  match type of E2 with wrap8 ?z = _ => pose proof (wrap8_mod z) as W; rewrite E2 in W end.
  apply Z.mod_divide in W as (q & W); [|lia]. apply Z.mod_divide; [lia|]. exists (- q)%Z. lia.
Qed.
Print Assumptions C19_check_chain_partial.

(** It never rejects a mesh built by from_simplices. *)
Theorem C19_check_chain_accepts : forall row_leb n rows t, simplices_ok n rows ->
  from_simplices row_leb n rows = Ok t -> check_chain t = Ok tt.
Proof.
  intros row_leb n rows t OK H. destruct (from_simplices_top_ok _ _ _ _ OK H) as [Hn T].
  unfold check_chain. rewrite (top_n_dim n rows t T).
  match goal with |- context [mapM ?f ?l] => destruct (mapM_all _ f l) as (r & ->); auto end.
  intros k Hk. apply in_seq in Hk. cbv zeta. rewrite !(matrices_nth n rows t T) by lia.
  destruct (matrix_shape n rows t Hn T k ltac:(lia)) as [_ C]. destruct (matrix_shape n rows t Hn T (S k) ltac:(lia)) as [R _].
  rewrite C, R, Nat.eqb_refl. cbn [negb].
  replace (nnz (mul8 (matrix t k) (matrix t (S k))) =? 0) with true; auto.
  symmetry. apply Nat.eqb_eq. apply of_entries_nnz. intros i j _ _.
  pose proof (chain_zero n rows t Hn T k i j ltac:(lia)) as Z0. unfold product_entry in Z0. rewrite C, R, Nat.max_id in Z0.
  rewrite C, Z0. reflexivity.
Qed.
Print Assumptions C19_check_chain_accepts.

(** A single triangle with all incidences +1 passes although its chain is broken. *)
Definition bad_triangle : topology :=
  mkTop [[[0];[1];[2]]; [[0;1];[1;2];[0;2]]; [[0;1;2]]] [[[0;1];[1;2];[0;2]]; [[0;1;2]]] [[[-1;1];[-1;1];[-1;1]]; [[1;1;1]]]%Z.
Theorem C19_check_chain_refuted :
  make_topology (elements bad_triangle) (boundary_idx bad_triangle) (orientation bad_triangle) = Ok bad_triangle /\
  check_chain bad_triangle = Ok tt /\
  exists k i j, S k < n_dim bad_triangle /\ product_entry (matrix bad_triangle k) (matrix bad_triangle (S k)) i j = 2%Z.
Proof. split; [reflexivity|]. split; [reflexivity|]. exists 0, 2, 0. split; [cbv; lia|reflexivity]. Qed.
Print Assumptions C19_check_chain_refuted.
Example C19_example : exists t, from_simplices lex_leb 3 three_tets = Ok t /\ check_chain t = Ok tt /\ n_dim t = 3.
Proof. eexists. split; [vm_compute; reflexivity|]. split; vm_compute; reflexivity. Qed.
