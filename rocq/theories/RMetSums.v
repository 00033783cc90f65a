(** Lemmas for C92: the sums over the fundamental domains of a cube that touch an element. *)
Require Import List Arith ZArith QArith Qabs Bool Lia Lqa Permutation Sorting.Sorted.
From Verif Require Import Util CombModel CombSpec CombProofs SimpModel SimpSpec SimpProofs BdryModel BdryProofs SubdModel LevelProofs AvgModel AvgProofs AvgProps.
From Verif Require Import CubeModel CubeSpec CubeBits CubeBd CubeRel CubeTop CubeChain CDomModel CDomBits CDomProofs CDomTop CDomSub CDomPairs CAvgSpec CAvgProofs.
From Verif Require Import OrientProofs ParProofs SmoModel SmoProofs RMetModel RMetSpec RMetProofs.
Import ListNotations.
Local Open Scope nat_scope.
Local Notation "x == y" := (Qeq x y) (at level 70, no associativity).

(** ---- group sums and additions ---- *)
Definition qsum {A} (f : A -> Q) (l : list A) : Q := sumQ (map f l).
Lemma group_sum_map : forall A (key : A -> nat) (g : A -> Q) l,
  group_sum (map key l) (map g l) = map (fun k => (k, qsum g (filter (fun x => key x =? k) l))) (unique_nat (map key l)).
Proof.
  intros A key g l. unfold group_sum. apply map_ext. intros k. f_equal. unfold qsum. f_equal. rewrite combine_maps.
  induction l as [|a l IH]; [reflexivity|]. cbn [map filter fst]. destruct (key a =? k); cbn [map snd]; rewrite IH; auto.
Qed.
Lemma find_map_key : forall (h : nat -> Q) ks i, find (fun kv => fst kv =? i) (map (fun k => (k, h k)) ks) = if memb i ks then Some (i, h i) else None.
Proof.
  induction ks as [|k ks IH]; intros i; [reflexivity|]. cbn [map find fst memb existsb]. rewrite (Nat.eqb_sym i k). destruct (Nat.eqb_spec k i) as [->|N]; auto. apply IH.
Qed.
Lemma add_to_length : forall gs arr, length (add_to gs arr) = length arr.
Proof. intros. unfold add_to. rewrite map_length, seq_length. auto. Qed.
Lemma add_to_nth : forall A (key : A -> nat) (g : A -> Q) (w : Q) l arr e, e < length arr ->
  nth e (add_to (map (fun gs => (fst gs, Qdiv (snd gs) w)) (group_sum (map key l) (map g l))) arr) 0%Q == Qplus (nth e arr 0%Q) (Qdiv (qsum g (filter (fun x => key x =? e) l)) w).
Proof.
  intros A key g w l arr e He. unfold add_to. rewrite nth_map_seq by auto.
  rewrite group_sum_map, map_map. cbn [fst snd]. rewrite (find_map_key (fun k => Qdiv (qsum g (filter (fun x => key x =? k) l)) w)). destruct (memb e (unique_nat (map key l))) eqn:M; [reflexivity|].
  assert (F : filter (fun x => key x =? e) l = []).
  { destruct (filter (fun x => key x =? e) l) as [|a q] eqn:F; auto. assert (I : In a (filter (fun x => key x =? e) l)) by (rewrite F; left; auto). apply filter_In in I as [I J]. apply Nat.eqb_eq in J.
    exfalso. assert (X : memb e (unique_nat (map key l)) = true) by (apply memb_iff, unique_nat_in, in_map_iff; exists a; auto). congruence. }
  rewrite F. unfold qsum, Qdiv. cbn. ring.
Qed.
Lemma add_to_nth1 : forall A (key : A -> nat) (g : A -> Q) l arr e, e < length arr ->
  nth e (add_to (group_sum (map key l) (map g l)) arr) 0%Q == Qplus (nth e arr 0%Q) (qsum g (filter (fun x => key x =? e) l)).
Proof.
  intros A key g l arr e He. pose proof (add_to_nth A key g 1%Q l arr e He) as H. unfold add_to in *. rewrite nth_map_seq in H |- * by auto.
  rewrite group_sum_map in H |- *. rewrite map_map in H. cbn [fst snd] in H. rewrite (find_map_key (fun k => Qdiv (qsum g (filter (fun x => key x =? k) l)) 1)) in H. rewrite find_map_key.
  destruct (memb e (unique_nat (map key l))); cbn [snd] in *; [reflexivity|].
  assert (X : Qdiv (qsum g (filter (fun x => key x =? e) l)) 1 == qsum g (filter (fun x => key x =? e) l)) by field. rewrite X in H. exact H.
Qed.
Lemma unique_seq : forall l N, (forall x, In x l <-> x < N) -> unique_nat l = seq 0 N.
Proof.
  intros l N H. assert (C : unique_nat l = seq 0 (length (unique_nat l))).
  { apply unique_nat_contiguous. exists N. intros x. apply H. }
  rewrite C. f_equal. assert (P : Permutation (unique_nat l) (seq 0 N)).
  { apply NoDup_Permutation; [apply unique_nat_nodup|apply seq_NoDup|]. intros x. rewrite unique_nat_in, in_seq, H. lia. }
  rewrite (Permutation_length P), seq_length. auto.
Qed.

(** A loop that adds group sums to arrays of a list. *)
Lemma fold_levels : forall (kap : bits -> nat) (step : bits -> list Q -> list Q) (con : bits -> nat -> Q) cs P,
  (forall c arr, length (step c arr) = length arr) ->
  (forall c arr e, In c cs -> e < length arr -> nth e (step c arr) 0%Q == Qplus (nth e arr 0%Q) (con c e)) -> (forall c, In c cs -> kap c < length P) ->
  let P' := fold_left (fun P c => update (kap c) (step c (nth (kap c) P [])) P) cs P in
  length P' = length P /\ forall k, length (nth k P' []) = length (nth k P []) /\
  forall e, e < length (nth k P []) -> nth e (nth k P' []) 0%Q == Qplus (nth e (nth k P []) 0%Q) (sumQ (map (fun c => if kap c =? k then con c e else 0%Q) cs)).
Proof.
  intros kap step con cs. induction cs as [|c cs IH]; intros P HL HS HK; cbn [fold_left].
  - split; auto. intros k. split; auto. intros e He. cbn. ring.
  - assert (Kc : kap c < length P) by (apply HK; left; auto).
    specialize (IH (update (kap c) (step c (nth (kap c) P [])) P) HL). destruct IH as [I1 I2].
    + intros; apply HS; auto; right; auto.
    + intros c' Hc'. rewrite update_length by auto. apply HK. right; auto.
    + split; [rewrite I1; apply update_length; auto|]. intros k. destruct (I2 k) as [J1 J2]. rewrite nth_update in J1, J2 by auto. cbn [map sumQ fold_right].
      rewrite (Nat.eqb_sym (kap c) k). destruct (Nat.eqb_spec k (kap c)) as [Ek|N].
      * subst k. rewrite HL in J1, J2. split; auto. intros e He. fold (sumQ (map (fun c' => if kap c' =? kap c then con c' e else 0%Q) cs)). rewrite J2, HS by (auto; left; auto). ring.
      * split; auto. intros e He. fold (sumQ (map (fun c' => if kap c' =? k then con c' e else 0%Q) cs)). rewrite J2 by auto. ring.
Qed.

(** ---- the corners strictly between the first and the last ---- *)
Lemma corners_ends : forall n, 1 <= n -> corners n = repeat false n :: inner_corners n ++ [repeat true n].
Proof.
  intros n Hn. assert (F : forall n, exists l, corners n = repeat false n :: l).
  { induction n0 as [|m [l E]]; [exists []; auto|]. cbn [corners repeat]. rewrite E. cbn [map app]. eexists. reflexivity. }
  assert (G : forall n, exists l, corners n = l ++ [repeat true n]).
  { induction n0 as [|m [l E]]; [exists []; auto|]. cbn [corners repeat]. exists (map (cons false) (corners m) ++ map (cons true) l). rewrite <- app_assoc. f_equal. rewrite E, map_app. reflexivity. }
  unfold inner_corners. destruct (F n) as [l E], (G n) as [l' E']. rewrite E. cbn [tl]. f_equal.
  assert (N : l <> []). { intros ->. assert (length (corners n) = 1) by (rewrite E; auto). rewrite corners_length in H. destruct n; [lia|]. cbn in H. pose proof (Nat.pow_nonzero 2 n). lia. }
  rewrite (app_removelast_last [] N) at 1. f_equal. f_equal. assert (last (corners n) [] = repeat true n) by (rewrite E'; apply last_last). rewrite <- H, E. destruct l; [congruence|reflexivity].
Qed.
Lemma zero_bits : forall b, bit_sum b = 0 -> b = repeat false (length b).
Proof. induction b as [|[] b IH]; intros H; auto; rewrite bit_sum_cons in H; cbn [nat_of] in H; [lia|]. cbn [length repeat]. f_equal. apply IH. lia. Qed.
Lemma inner_sums : forall n k (f : bits -> Q), 1 <= k < n ->
  sumQ (map (fun c => if bit_sum c =? k then f c else 0%Q) (inner_corners n)) == sumQ (map (fun c => if bit_sum c =? k then f c else 0%Q) (corners n)).
Proof.
  intros n k f Hk. rewrite (corners_ends n) by lia. cbn [map]. rewrite map_app. cbn [map]. cbn [sumQ fold_right]. fold (sumQ (map (fun c => if bit_sum c =? k then f c else 0%Q) (inner_corners n) ++ [if bit_sum (repeat true n) =? k then f (repeat true n) else 0%Q])).
  rewrite sumQ_app. rewrite !bit_sum_const. cbn [nat_of]. replace (n * 0 =? k) with false by (symmetry; apply Nat.eqb_neq; lia). replace (n * 1 =? k) with false by (symmetry; apply Nat.eqb_neq; lia). cbn. ring.
Qed.
Lemma inner_in : forall n c, 1 <= n -> In c (inner_corners n) -> length c = n /\ 1 <= bit_sum c < n.
Proof.
  intros n c Hn I. pose proof (corners_ends n Hn) as E. assert (J : In c (corners n)) by (rewrite E; right; apply in_or_app; auto). apply corners_in in J.
  pose proof (corners_nodup n) as ND. rewrite E in ND. apply NoDup_cons_iff in ND as [N1 N2]. pose proof (bit_sum_le c). split; auto.
  assert (bit_sum c <> 0). { intros Z. apply zero_bits in Z. apply N1. rewrite J in Z. apply in_or_app. left. rewrite <- Z. auto. }
  assert (bit_sum c <> length c). { intros Z. apply full_bits in Z. apply NoDup_remove_2 in N2. rewrite app_nil_r in N2. apply N2. rewrite J in Z. rewrite <- Z. auto. }
  lia.
Qed.

(** ---- the domains of one cube that touch an element ---- *)
Lemma sumQ_one : forall A (f : A -> Q) (k : A) l, NoDup l -> In k l -> (forall x, In x l -> x <> k -> f x == 0%Q) -> sumQ (map f l) == f k.
Proof.
  induction l as [|a l IH]; intros ND Hk H; [destruct Hk|]. apply NoDup_cons_iff in ND as [N1 N2]. cbn [map sumQ fold_right]. change (fold_right Qplus 0%Q (map f l)) with (sumQ (map f l)). destruct Hk as [->|Hk].
  - rewrite sumQ_zero; [ring|]. intros x Hx. apply H; [right; auto|]. congruence.
  - rewrite IH; auto; [|intros; apply H; auto; right; auto]. rewrite (H a); [ring|left; auto|congruence].
Qed.
Lemma agree_count : forall n a b (P : bits -> bool), length a = n -> length b = n -> (forall z, length z = n -> (P z = true <-> agree n a b z)) -> length (filter P (corners n)) = 2 ^ bit_sum b.
Proof.
  intros n a b P La Lb HP. rewrite <- corners_length, <- (map_length (place b a) (corners (bit_sum b))). apply Permutation_length. apply NoDup_Permutation.
  - apply NoDup_filter, corners_nodup.
  - apply (NoDup_map_inv (restrict b)). rewrite map_map. rewrite (map_ext_in _ (fun f => f)); [rewrite map_id; apply corners_nodup|]. intros f Hf. apply corners_in in Hf. apply restrict_place; auto. lia.
  - intros z. rewrite filter_In, corners_in, in_map_iff. split.
    + intros [Lz Pz]. apply HP in Pz; auto. exists (restrict b z). split; [apply (place_agree n); auto|]. apply corners_in. apply restrict_length. lia.
    + intros (f & <- & Hf). split; [rewrite place_length; auto|]. apply HP; [rewrite place_length; auto|]. apply agree_place. auto.
Qed.
Lemma same_cell : forall n c a b a0 b0, NoDup c -> length c = 2 ^ n -> length a = n -> length b = n -> length a0 = n -> length b0 = n ->
  (Permutation (cell c a b) (cell c a0 b0) <-> b = b0 /\ agree n a0 b0 a).
Proof.
  intros n c a b a0 b0 ND L La Lb La0 Lb0.
  assert (S0 : agree n a0 b0 a -> forall v, In v (cell c a b0) <-> In v (cell c a0 b0)).
  { intros [_ A] v. rewrite !(cell_in n) by auto. split; intros (z & [Lz Az] & E); exists z; (split; [split; auto; intros i Hi Hb; rewrite Az by auto; rewrite A by auto; auto|auto]). }
  split.
  - intros P. assert (A : agree n a0 b0 a).
    { pose proof (cell_self n c a b Lb La) as I. apply (Permutation_in _ P) in I. apply (cell_in n) in I; auto. destruct I as (z & Az & E). apply (cget_inj n) in E; auto; [subst z; auto|apply Az]. }
    split; auto. apply (cell_span_inj n c a); auto. intros v. rewrite S0 by auto. split; apply Permutation_in; auto. apply Permutation_sym. auto.
  - intros [-> A]. apply NoDup_Permutation; [apply (cell_nodup n); auto|apply (cell_nodup n); auto|]. apply S0. auto.
Qed.

Section Top.
Set Default Proof Using "All".
Variables (n : nat) (rows : list cube) (t : topology).
Hypothesis Hn : 1 <= n.
Hypothesis OK : cubes_ok n rows.
Hypothesis T : ctop n rows t.

Lemma row_len : forall j, j < length rows -> length (nth j rows []) = 2 ^ n /\ NoDup (nth j rows []).
Proof. intros j Hj. destruct OK as [_ F]. rewrite Forall_forall in F. apply F. apply nth_In. auto. Qed.
Lemma didx_perm : forall j a b, j < length rows -> length a = n -> length b = n -> Permutation (el t (bit_sum b) (didx n rows t j a b)) (cell (nth j rows []) a b).
Proof.
  intros j a b Hj La Lb. unfold didx. destruct (Nat.eqb_spec (bit_sum b) n) as [E|E].
  - rewrite (cell_full n); auto; [|apply row_len; auto]. unfold el. rewrite E, (ct_top _ _ _ T). auto.
  - pose proof (bit_sum_le b). apply (eidx_ok n rows t Hn OK T); [lia|]. apply (cell_inside n rows OK); auto. apply nth_In. auto.
Qed.
Lemma el_nodup : forall k e, k < n -> e < n_elements t k -> NoDup (el t k e).
Proof.
  intros k e Hk He. destruct (proj1 (c_listed n rows t Hn T (n - k) k ltac:(lia)) e He) as (c & g & z & Hc & SC & R).
  apply In_nth with (d := []) in Hc as (j & Hj & Ec). destruct (row_len j Hj) as [L ND]. rewrite Ec in L, ND.
  apply subcube_cell in SC as (a & b & La & Lb & Eb & ->); auto. assert (NoDup (cell c a b)) by (apply (cell_nodup n); auto).
  unfold el. eapply Permutation_NoDup; [|eassumption]. eapply related_perm; eauto. rewrite cell_length, Eb. auto.
Qed.
Lemma didx_is : forall j a c k e, j < length rows -> length a = n -> length c = n -> bit_sum c = k -> k < n -> e < n_elements t k ->
  (didx n rows t j a c = e <-> Permutation (el t k e) (cell (nth j rows []) a c)).
Proof.
  intros j a c k e Hj La Lc Ec Hk He. split.
  - intros <-. subst k. apply didx_perm; auto.
  - intros P. unfold didx. destruct (Nat.eqb_spec (bit_sum c) n); [lia|]. rewrite Ec. symmetry. apply (eidx_unique n rows t Hn OK T); auto. rewrite <- Ec. apply (cell_inside n rows OK); auto. apply nth_In. auto.
Qed.
Lemma cube_sum : forall j k e (x : bits -> bits -> Q) X, j < length rows -> k < n -> e < n_elements t k ->
  (forall a c, length a = n -> length c = n -> bit_sum c = k -> didx n rows t j a c = e -> x a c == X) ->
  sumQ (map (fun a => sumQ (map (fun c => if bit_sum c =? k then if didx n rows t j a c =? e then x a c else 0%Q else 0%Q) (corners n))) (corners n)) ==
  if faceb k n (nth j rows []) (el t k e) then Qmult (inject_Z (Z.of_nat (2 ^ k))) X else 0%Q.
Proof.
  intros j k e x X Hj Hk He HX. destruct (row_len j Hj) as [L ND]. pose proof (el_nodup k e Hk He) as NE.
  destruct (faceb k n (nth j rows []) (el t k e)) eqn:F.
  - apply faceb_perm in F; auto. destruct F as (a0 & b0 & La0 & Lb0 & E0 & P0).
    assert (D : forall a c, length a = n -> length c = n -> bit_sum c = k -> (didx n rows t j a c = e <-> c = b0 /\ agree n a0 b0 a)).
    { intros a c La Lc Ec. rewrite (didx_is j a c k e) by auto. rewrite <- (same_cell n (nth j rows []) a c a0 b0) by auto. split; intros P; [eapply perm_trans; [apply Permutation_sym; exact P|apply Permutation_sym; exact P0]|].
      eapply perm_trans; [apply Permutation_sym; exact P0|apply Permutation_sym; exact P]. }
    rewrite (sumQ_ext _ _ (fun a => if didx n rows t j a b0 =? e then X else 0%Q)).
    + rewrite sumQ_filter. rewrite sumQ_const. rewrite (agree_count n a0 b0); auto; [rewrite E0; reflexivity|]. intros z Lz. rewrite Nat.eqb_eq. rewrite D by auto. tauto.
    + intros a Ha. apply corners_in in Ha. rewrite (sumQ_one _ _ b0); [|apply corners_nodup|apply corners_in; auto|].
      * rewrite E0, Nat.eqb_refl. destruct (Nat.eqb_spec (didx n rows t j a b0) e); [apply HX; auto|reflexivity].
      * intros c Hc N. apply corners_in in Hc. destruct (Nat.eqb_spec (bit_sum c) k); [|reflexivity]. destruct (Nat.eqb_spec (didx n rows t j a c) e) as [Q|Q]; [|reflexivity]. apply D in Q; auto. tauto.
  - apply sumQ_zero. intros a Ha. apply sumQ_zero. intros c Hc. apply corners_in in Ha, Hc. destruct (Nat.eqb_spec (bit_sum c) k) as [Ec|]; [|reflexivity]. destruct (Nat.eqb_spec (didx n rows t j a c) e) as [Q|Q]; [|reflexivity].
    apply (didx_is j a c k e) in Q; auto. exfalso. assert (faceb k n (nth j rows []) (el t k e) = true); [|congruence]. apply faceb_perm; auto. exists a, c. repeat split; auto. apply Permutation_sym. auto.
Qed.
End Top.
