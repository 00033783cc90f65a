(** Equal oriented cubes: the relation of CubeSpec, the group action and the sign. *)
Require Import List Arith ZArith Bool Lia Permutation.
From Verif Require Import Util CombModel CombSpec CombProofs SimpModel SimpSpec ParProofs SimpProofs LevelProofs CubeModel CubeSpec CubeBits CubeBd.
Import ListNotations.
Local Open Scope nat_scope.

Lemma related_sign : forall n s c d, related n s c d -> s = 1%Z \/ s = (-1)%Z.
Proof. induction 1; auto; destruct IHrelated as [->| ->]; auto. Qed.
Lemma related_length : forall n s c d, related n s c d -> length c = 2 ^ n -> length d = 2 ^ n.
Proof. induction 1; intros; auto; [destruct H1; auto|destruct H1; auto]. Qed.
Lemma related_antisym : forall n s c d f, related n s c d -> length c = 2 ^ n -> cube_antisymmetric n f -> f d = (s * f c)%Z.
Proof.
  induction 1; intros L Hf; [ring|..].
  - destruct (Hf a d e (related_length _ _ _ _ H L)) as [Q _]. rewrite Q, IHrelated by auto. ring.
  - destruct (Hf a d e (related_length _ _ _ _ H L)) as [_ Q]. rewrite Q, IHrelated by auto. ring.
Qed.
Lemma related_trans : forall n s s' c d e, related n s c d -> related n s' d e -> related n (s * s') c e.
Proof.
  intros n s s' c d e R R'. revert s c R. induction R'; intros s0 c0 R.
  - replace (s0 * 1)%Z with s0 by ring. auto.
  - replace (s0 * - s)%Z with (- (s0 * s))%Z by ring. eapply related_mirror; eauto.
  - replace (s0 * - s)%Z with (- (s0 * s))%Z by ring. eapply related_swap; eauto.
Qed.
Lemma mirrored_sym : forall n a c d, a < n -> length c = 2 ^ n -> mirrored n a c d -> mirrored n a d c.
Proof. intros n a c d Ha L M. apply mirrored_flip in M; auto. subst d. rewrite <- (flip_flip n a c L) at 2. apply flip_mirrored. auto. Qed.
Lemma swapc_swapc : forall n a c, S a < n -> length c = 2 ^ n -> swapc n a (swapc n a c) = c.
Proof.
  intros n a c Ha L. apply (cube_ext n); auto; [apply cbuild_length|]. intros bs Lb. unfold swapc. rewrite !cget_build by (rewrite ?swap_bit_length; auto). f_equal.
  apply (bits_ext n); auto; [rewrite !swap_bit_length; auto|]. intros i Hi. pose proof (tr_lt a n i Ha Hi). rewrite !nth_swap by (rewrite ?swap_bit_length; lia). rewrite tr_tr. auto.
Qed.
Lemma swapped_sym : forall n a c d, S a < n -> length c = 2 ^ n -> axes_swapped n a c d -> axes_swapped n a d c.
Proof. intros n a c d Ha L M. apply swapped_swapc in M; auto. subst d. rewrite <- (swapc_swapc n a c Ha L) at 2. apply swapc_swapped. auto. Qed.
Lemma related_one : forall n s c d, s = 1%Z -> c = d -> related n s c d.
Proof. intros n s c d -> ->. constructor. Qed.
Lemma related_sym : forall n s c d, related n s c d -> length c = 2 ^ n -> related n s d c.
Proof.
  induction 1; intros L.
  - constructor.
  - replace (- s)%Z with (- 1 * s)%Z by ring. apply (related_trans n (-1) s e d c); auto. apply (related_mirror n a 1 e e d); auto; [constructor|]. apply mirrored_sym; auto. apply (related_length _ _ _ _ H); auto.
  - replace (- s)%Z with (- 1 * s)%Z by ring. apply (related_trans n (-1) s e d c); auto. apply (related_swap n a 1 e e d); auto; [constructor|]. apply swapped_sym; auto. apply (related_length _ _ _ _ H); auto.
Qed.
Lemma related_flip : forall n a c, a < n -> related n (-1) c (flip n a c).
Proof. intros. apply (related_mirror n a 1 c c); auto; [constructor|apply flip_mirrored; auto]. Qed.
Lemma related_swapc : forall n a c, S a < n -> related n (-1) c (swapc n a c).
Proof. intros. apply (related_swap n a 1 c c); auto; [constructor|apply swapc_swapped; auto]. Qed.

(** Chains of exchanges of neighbours. *)
Lemma swap_chain_P : forall n (F : list nat -> Prop),
  (forall l1 x y l2, Permutation (seq 0 n) (l1 ++ x :: y :: l2) -> F (l1 ++ x :: y :: l2) -> F (l1 ++ y :: x :: l2)) ->
  forall l l', Permutation l l' -> forall pre, Permutation (seq 0 n) (pre ++ l) -> F (pre ++ l) -> F (pre ++ l').
Proof.
  intros n F HF l l' P. induction P; intros pre Q H; auto.
  - assert (Q' : Permutation (seq 0 n) ((pre ++ [x]) ++ l)) by (rewrite <- app_assoc; auto). specialize (IHP (pre ++ [x]) Q'). rewrite <- !app_assoc in IHP. auto.
  - assert (Q' : Permutation (seq 0 n) (pre ++ l')) by (eapply perm_trans; [exact Q|apply Permutation_app_head; auto]). auto.
Qed.
Lemma transpose_id : forall n c, length c = 2 ^ n -> transpose_cube n (seq 0 n) c = c.
Proof.
  intros n c L. apply (cube_ext n); [apply cbuild_length|auto|]. intros bs Lb. unfold transpose_cube. rewrite cget_build by auto. f_equal. apply (bits_ext n); [apply scatter_length; auto|auto|]. intros j Hj. rewrite (nth_scatter n) by auto. f_equal.
  pose proof (idx_nth n (seq 0 n) j (Permutation_refl _) Hj) as X. rewrite seq_nth in X by auto. exact X.
Qed.
Lemma related_transpose : forall n c p, length c = 2 ^ n -> Permutation (seq 0 n) p -> exists s, related n s c (transpose_cube n p c).
Proof.
  intros n c p L P. apply (swap_chain_P n (fun q => exists s, related n s c (transpose_cube n q c))) with (l := seq 0 n) (pre := []); auto.
  - intros l1 x y l2 PP [s H]. pose proof (perm_facts n _ PP) as (LL & ND & _). rewrite app_length in LL. cbn [length] in LL.
    assert (PP' : Permutation (seq 0 n) (l1 ++ y :: x :: l2)) by (eapply perm_trans; [exact PP|apply Permutation_app_head; constructor]).
    exists (s * -1)%Z. apply (related_trans n s (-1) c _ _ H). replace (transpose_cube n (l1 ++ y :: x :: l2) c) with (swapc n (length l1) (transpose_cube n (l1 ++ x :: y :: l2) c)); [apply related_swapc; lia|].
    unfold swapc. apply cbuild_ext. intros bs Lb. unfold transpose_cube. rewrite cget_build by (rewrite swap_bit_length; auto). f_equal.
    apply (bits_ext n); [apply scatter_length; auto..|]. intros j Hj. rewrite !(nth_scatter n) by auto. pose proof (idx_lt n _ j PP Hj). rewrite nth_swap by lia. rewrite (index_swap l1 x y) by auto. auto.
  - cbn [app]. exists 1%Z. rewrite transpose_id by auto. constructor.
Qed.
Lemma related_flips : forall n axes c, length axes <= n -> length c = 2 ^ n -> exists s, related n s c (flips n axes c).
Proof.
  intros n axes c La L. unfold flips. assert (H : forall i, In i (seq 0 (length axes)) -> i < n) by (intros i Hi; apply in_seq in Hi; lia). revert c L H. generalize (seq 0 (length axes)). induction l as [|i l IH]; intros c L H; cbn [fold_left].
  - exists 1%Z. constructor.
  - destruct (nth i axes false); [|apply IH; auto; intros; apply H; right; auto].
    destruct (IH (flip n i c) (cbuild_length _ _) (fun j Hj => H j (or_intror Hj))) as [s Hs]. exists (-1 * s)%Z. eapply related_trans; [|exact Hs]. apply related_flip. apply H. left. auto.
Qed.
Lemma related_act : forall n h c, In h (group n) -> length c = 2 ^ n -> exists s, related n s c (act n h c).
Proof.
  intros n h c H L. rewrite act_flips by auto. apply group_in in H as [P Lf]. destruct (related_transpose n c (fst h) L P) as [s H1].
  destruct (related_flips n (snd h) (transpose_cube n (fst h) c) ltac:(lia) (cbuild_length _ _)) as [s' H2]. exists (s * s')%Z. eapply related_trans; eauto.
Qed.

Definition h_id (n : nat) : list nat * bits := (seq 0 n, repeat false n).
Lemma h_id_in : forall n, In (h_id n) (group n).
Proof. intros. apply group_in. cbn. rewrite repeat_length. auto. Qed.
Lemma act_id : forall n c, length c = 2 ^ n -> act n (h_id n) c = c.
Proof.
  intros n c L. rewrite <- (transpose_id n c L) at 2. apply cbuild_ext. intros bs Lb. cbn [fst snd h_id]. f_equal. f_equal. apply (bits_ext n); auto; [rewrite xor_length; auto|]. intros i Hi. rewrite nth_xor by lia. rewrite nth_repeat. apply xorb_false_r.
Qed.
Lemma csign_self : forall n c, NoDup c -> length c = 2 ^ n -> csign n c c = 1%Z.
Proof.
  intros n c ND L. rewrite <- (act_id n c L) at 2. rewrite csign_act by (auto using h_id_in). unfold gsign, h_id. cbn [fst snd]. rewrite sgn_seq. replace (bit_sum (repeat false n)) with 0; [reflexivity|]. clear. induction n; auto.
Qed.
Lemma related_csign : forall n s c d, related n s c d -> NoDup c -> length c = 2 ^ n -> csign n c d = s.
Proof.
  intros n s c d H ND L. pose proof (related_antisym n s c d (fun x => csign n x d) H L (csign_antisym n d)) as E. cbn beta in E.
  assert (E1 : csign n d d = 1%Z). { apply csign_self; [|apply (related_length _ _ _ _ H L)]. clear E. induction H; auto.
    - apply mirrored_flip in H1; auto. subst e. eapply Permutation_NoDup; [apply flip_perm; auto|auto]. apply (related_length _ _ _ _ H L).
    - apply swapped_swapc in H1; auto. subst e. specialize (IHrelated ND L). apply cbuild_nodup. intros b b' Hb Hb' Q. apply (cget_inj n) in Q; auto; [|apply (related_length _ _ _ _ H L)|rewrite swap_bit_length; auto..].
      apply (bits_ext n); auto. intros i Hi. pose proof (tr_lt a n i H0 Hi) as T. apply (f_equal (fun l => nth (tr a i) l false)) in Q. rewrite !nth_swap in Q by lia. rewrite !tr_tr in Q. auto. }
  rewrite E1 in E. destruct (related_sign _ _ _ _ H) as [->| ->]; lia.
Qed.
Lemma csign_related : forall n c d, NoDup c -> length c = 2 ^ n -> csign n c d <> 0%Z -> related n (csign n c d) c d.
Proof.
  intros n c d ND L H. apply csign_nz in H as (h & Hh & <-). destruct (related_act n h c Hh L) as [s R]. rewrite (related_csign n s c _ R ND L). auto.
Qed.
Lemma related_nodup : forall n s c d, related n s c d -> NoDup c -> length c = 2 ^ n -> NoDup d.
Proof.
  intros n s c d R ND L. pose proof (related_csign n s c d R ND L) as E. eapply Permutation_NoDup; [|exact ND]. apply (csign_perm n); auto. rewrite E. destruct (related_sign _ _ _ _ R); lia.
Qed.
Lemma related_perm : forall n s c d, related n s c d -> length c = 2 ^ n -> Permutation c d.
Proof.
  intros n s c d R L. induction R; auto.
  - apply mirrored_flip in H0; auto. subst e. eapply perm_trans; [apply IHR; auto|]. apply flip_perm; auto. apply (related_length _ _ _ _ R L).
  - apply swapped_swapc in H0; auto. subst e. eapply perm_trans; [apply IHR; auto|].
    replace (swapc n a d) with (act n (h_swap a (h_id n)) d).
    + apply act_perm; [apply (related_length _ _ _ _ R L)|apply h_swap_in; auto; apply h_id_in].
    + rewrite <- act_swap by (auto using h_id_in). rewrite act_id; auto. apply cbuild_length.
Qed.
Lemma slice_related : forall n s c d a b, related n s c d -> length c = 2 ^ n -> a < n -> exists a' b' s', a' < n /\ related (n - 1) s' (slice n a' b' c) (slice n a b d).
Proof.
  intros n s c d a b R L. revert a b. induction R; intros x b Hx.
  - exists x, b, 1%Z. split; auto. constructor.
  - apply mirrored_flip in H0; auto. subst e. pose proof (related_length _ _ _ _ R L) as Ld. destruct (Nat.eq_dec x a) as [->|Hne].
    + rewrite slice_flip_same by auto. apply IHR; auto.
    + rewrite slice_flip_other by auto. destruct (IHR L x b Hx) as (a' & b' & s' & Ha' & R'). exists a', b', (s' * -1)%Z. split; auto. eapply related_trans; [exact R'|]. apply related_flip. destruct (Nat.ltb_spec a x); lia.
  - apply swapped_swapc in H0; auto. subst e. pose proof (related_length _ _ _ _ R L) as Ld. destruct (Nat.eq_dec x a) as [E|Hne]; [|destruct (Nat.eq_dec x (S a)) as [E|Hne']].
    + rewrite slice_swap_same by auto. apply IHR; auto. apply tr_lt; auto.
    + rewrite slice_swap_same by auto. apply IHR; auto. apply tr_lt; auto.
    + rewrite slice_swap_other by auto. destruct (IHR L x b Hx) as (a' & b' & s' & Ha' & R'). exists a', b', (s' * -1)%Z. split; auto. eapply related_trans; [exact R'|]. apply related_swapc. destruct (Nat.ltb_spec a x); lia.
Qed.

(** ---- faces of every dimension ---- *)
Lemma subcube_length : forall k n c f, subcube k n c f -> length c = 2 ^ n -> length f = 2 ^ k.
Proof. induction 1; intros L; auto. apply IHsubcube. destruct H0 as [Q _]. rewrite Q. f_equal. lia. Qed.
Lemma subcube_le : forall k n c f, subcube k n c f -> k <= n.
Proof. induction 1; lia. Qed.
Lemma subcube_nodup : forall k n c f, subcube k n c f -> length c = 2 ^ n -> NoDup c -> NoDup f.
Proof.
  induction 1; intros L ND; auto. apply is_slice_slice in H0; [|lia]. subst d. apply IHsubcube; [rewrite slice_length; f_equal; lia|apply slice_nodup; auto; lia].
Qed.
Lemma subcube_incl : forall k n c f, subcube k n c f -> length c = 2 ^ n -> incl f c.
Proof.
  induction 1; intros L; [apply incl_refl|]. apply is_slice_slice in H0; [|lia]. subst d. eapply incl_tran; [apply IHsubcube; rewrite slice_length; f_equal; lia|]. apply slice_incl; auto. lia.
Qed.
Lemma subcube_step : forall k n c f a s, a < n -> subcube k (n - 1) (slice n a s c) f -> subcube k n c f.
Proof.
  intros k n c f a s Ha H. destruct n; [lia|]. replace (S n - 1) with n in * by lia. apply (subcube_slice k n a s c (slice (S n) a s c)); auto; [lia|apply slice_is_slice; auto].
Qed.
Lemma subcube_inv : forall k n c f, subcube k n c f -> (k = n /\ c = f) \/ (k < n /\ exists a s, a < n /\ subcube k (n - 1) (slice n a s c) f).
Proof.
  intros k n c f H. inversion H; subst; auto. right. pose proof (subcube_le _ _ _ _ H2). split; [lia|]. apply is_slice_slice in H1; [|lia]. subst d. exists a, s. split; [lia|]. replace (S n0 - 1) with n0 by lia. auto.
Qed.
Lemma subcube_top : forall n c f, subcube n n c f <-> c = f.
Proof. intros n c f. split; [|intros ->; constructor]. intros H. apply subcube_inv in H as [[_ H]|[H _]]; auto. lia. Qed.
Lemma subcube_related : forall k n s c d f, related n s c d -> length c = 2 ^ n -> subcube k n d f -> exists g s', subcube k n c g /\ related k s' g f.
Proof.
  intros k n. induction n as [|n IH]; intros s c d f R L H; pose proof (related_length _ _ _ _ R L) as Ld.
  - apply subcube_inv in H as [[-> ->]|[H _]]; [|lia]. exists c, s. split; auto. constructor.
  - apply subcube_inv in H as [[-> ->]|(Hk & a & b & Ha & H)]; [exists c, s; split; auto; constructor|].
    destruct (slice_related (S n) s c d a b R L Ha) as (a' & b' & s' & Ha' & R'). replace (S n - 1) with n in * by lia.
    destruct (IH s' _ _ f R') as (g & s2 & Hg & R2); auto; [rewrite slice_length; f_equal; lia|].
    exists g, s2. split; auto. apply (subcube_step k (S n) c g a' b'); auto. replace (S n - 1) with n by lia. auto.
Qed.
