(** Sub-cubes through a corner, as functions of the corner and of the set of axes they span. *)
Require Import List Arith ZArith Bool Lia Permutation.
From Verif Require Import Util CombModel CombSpec CombProofs SimpModel CubeModel CubeSpec CubeBits CubeBd CubeRel CDomModel.
Import ListNotations.
Local Open Scope nat_scope.

(** Entries of [f] at the positions marked in [m], entries of [y] elsewhere. *)
Fixpoint place (m y f : bits) : bits :=
  match m with
  | [] => []
  | true :: m' => hd false f :: place m' (tl y) (tl f)
  | false :: m' => hd false y :: place m' (tl y) f
  end.
Lemma place_length : forall m y f, length (place m y f) = length m.
Proof. induction m as [|[] m IH]; simpl; intros; auto. Qed.
Lemma bit_sum_cons : forall b m, bit_sum (b :: m) = nat_of b + bit_sum m.
Proof. intros [] m; reflexivity. Qed.
Lemma bit_sum_le : forall m, bit_sum m <= length m.
Proof. induction m as [|[] m IH]; rewrite ?bit_sum_cons; cbn [length nat_of]; [apply le_n| |]; lia. Qed.
Lemma nth_tl : forall (l : bits) i, nth i (tl l) false = nth (S i) l false.
Proof. intros [|x l] i; simpl; auto. destruct i; auto. Qed.
Lemma nth_hd : forall (l : bits), hd false l = nth 0 l false.
Proof. intros [|x l]; auto. Qed.
Lemma nth_place : forall m y f i, i < length m -> nth i (place m y f) false = if nth i m false then nth (bit_sum (firstn i m)) f false else nth i y false.
Proof.
  induction m as [|[] m IH]; simpl; intros y f i Hi; [lia| |].
  - destruct i as [|i]; simpl; [apply nth_hd|]. rewrite IH by lia. rewrite bit_sum_cons. simpl. destruct (nth i m false); rewrite nth_tl; auto.
  - destruct i as [|i]; simpl; [apply nth_hd|]. rewrite IH by lia. rewrite bit_sum_cons. simpl. destruct (nth i m false); auto. rewrite nth_tl. auto.
Qed.
Lemma restrict_length : forall m z, length z = length m -> length (restrict m z) = bit_sum m.
Proof. induction m as [|[] m IH]; destruct z as [|x z]; simpl; intros H; try discriminate; try reflexivity; rewrite ?bit_sum_cons; cbn [nat_of]; rewrite ?IH; lia. Qed.
Lemma restrict_place : forall m y f, length f = bit_sum m -> length y = length m -> restrict m (place m y f) = f.
Proof.
  induction m as [|[] m IH]; intros y f Hf Hy; rewrite ?bit_sum_cons in Hf; simpl in *.
  - destruct f; auto; discriminate.
  - destruct f as [|x f]; simpl in *; [lia|]. destruct y as [|u y]; simpl in *; [lia|]. rewrite IH; auto.
  - destruct y as [|u y]; simpl in *; [lia|]. apply IH; auto.
Qed.
Lemma nth_restrict : forall m z i, length z = length m -> i < length m -> nth i m false = true -> nth (bit_sum (firstn i m)) (restrict m z) false = nth i z false.
Proof.
  induction m as [|[] m IH]; destruct z as [|x z]; intros i Hz Hi Hm; cbn [length] in *; try lia.
  - destruct i as [|i]; auto. cbn [firstn restrict nth] in *. rewrite bit_sum_cons. cbn [nat_of Nat.add nth]. apply IH; auto; lia.
  - destruct i as [|i]; [discriminate|]. cbn [firstn restrict nth] in *. rewrite bit_sum_cons. cbn [nat_of Nat.add]. apply IH; auto; lia.
Qed.
(** Position in the array of the [i]-th marked entry. *)
Lemma rank_lt : forall m i, i < length m -> nth i m false = true -> bit_sum (firstn i m) < bit_sum m.
Proof.
  induction m as [|[] m IH]; intros i Hi Hm; cbn [length] in *; try lia.
  - destruct i as [|i]; cbn [firstn nth] in *; rewrite ?bit_sum_cons; cbn [nat_of]; [unfold bit_sum at 1; simpl; lia|]. specialize (IH i ltac:(lia) Hm). lia.
  - destruct i as [|i]; [discriminate|]. cbn [firstn nth] in *. rewrite ?bit_sum_cons. cbn [nat_of Nat.add]. apply IH; auto; lia.
Qed.
Lemma unrank : forall m r, r < bit_sum m -> exists i, i < length m /\ nth i m false = true /\ bit_sum (firstn i m) = r.
Proof.
  induction m as [|[] m IH]; intros r Hr; rewrite ?bit_sum_cons in Hr; cbn [nat_of Nat.add length] in *; [inversion Hr| |].
  - destruct r as [|r]; [exists 0; cbn; repeat split; lia|]. destruct (IH r ltac:(lia)) as (i & Hi & Hm & E). exists (S i). cbn [firstn nth]. rewrite bit_sum_cons. cbn [nat_of]. repeat split; auto; lia.
  - destruct (IH r ltac:(lia)) as (i & Hi & Hm & E). exists (S i). cbn [firstn nth]. rewrite bit_sum_cons. cbn [nat_of]. repeat split; auto; lia.
Qed.

Definition agree (n : nat) (a b z : bits) : Prop := length z = n /\ forall i, i < n -> nth i b false = false -> nth i z false = nth i a false.
Lemma agree_place : forall n a b f, length b = n -> agree n a b (place b a f).
Proof. intros n a b f Hb. split; [rewrite place_length; auto|]. intros i Hi E. rewrite nth_place by lia. rewrite E. auto. Qed.
Lemma place_agree : forall n a b z, length b = n -> agree n a b z -> place b a (restrict b z) = z.
Proof.
  intros n a b z Hb [L A]. apply (bits_ext n); auto; [rewrite place_length; auto|]. intros i Hi. rewrite nth_place by lia.
  destruct (nth i b false) eqn:E; [apply nth_restrict; auto; lia|]. symmetry. auto.
Qed.

(** The sub-cube of [c] through corner [a] that spans the axes marked in [b]. *)
Definition cell (c : cube) (a b : bits) : cube := cbuild (bit_sum b) (fun f => cget c (place b a f)).
Lemma cell_length : forall c a b, length (cell c a b) = 2 ^ bit_sum b.
Proof. intros. apply cbuild_length. Qed.
Lemma cget_cell : forall c a b f, length f = bit_sum b -> cget (cell c a b) f = cget c (place b a f).
Proof. intros c a b f H. exact (cget_build (bit_sum b) (fun f => cget c (place b a f)) f H). Qed.
Lemma cell_in : forall n c a b v, length b = n -> (In v (cell c a b) <-> exists z, agree n a b z /\ cget c z = v).
Proof.
  intros n c a b v Hb. unfold cell, cbuild. rewrite in_map_iff. split.
  - intros (f & <- & _). exists (place b a f). split; auto. apply agree_place. auto.
  - intros (z & A & <-). exists (restrict b z). rewrite (place_agree n) by auto. split; auto. apply corners_in. apply restrict_length. destruct A. lia.
Qed.
Lemma cell_nodup : forall n c a b, length b = n -> length a = n -> NoDup c -> length c = 2 ^ n -> NoDup (cell c a b).
Proof.
  intros n c a b Hb Ha ND L. apply cbuild_nodup. intros f f' Hf Hf' E. apply (cget_inj n) in E; auto; try (rewrite place_length; auto).
  rewrite <- (restrict_place b a f), <- (restrict_place b a f'), E; auto; lia.
Qed.
Lemma full_bits : forall b, bit_sum b = length b -> b = repeat true (length b).
Proof.
  induction b as [|[] b IH]; intros Hs; rewrite ?bit_sum_cons in Hs; cbn [length nat_of repeat] in *; auto; [f_equal; apply IH; lia|].
  pose proof (bit_sum_le b). lia.
Qed.
Lemma place_full : forall b a f, length f = length b -> bit_sum b = length b -> place b a f = f.
Proof.
  induction b as [|[] b IH]; intros a f Hf Hs; rewrite ?bit_sum_cons in Hs; cbn [length nat_of] in *.
  - destruct f; auto; discriminate.
  - destruct f as [|x f]; [discriminate|]. cbn [place hd tl]. f_equal. apply IH; [simpl in Hf|]; lia.
  - pose proof (bit_sum_le b). lia.
Qed.
Lemma cell_full : forall n c a b, length c = 2 ^ n -> length b = n -> bit_sum b = n -> cell c a b = c.
Proof.
  intros n c a b L Hb Hs. apply (cube_ext n); auto; [rewrite cell_length, Hs; auto|]. intros f Hf. rewrite cget_cell by lia. f_equal. apply place_full; lia.
Qed.
Lemma place_insert : forall i b a s f, i <= length b -> length a = length b -> place (insert_at i false b) (insert_at i s a) f = insert_at i s (place b a f).
Proof.
  induction i as [|i IH]; intros b a s f Hi Ha; [destruct b as [|? b]; destruct a; simpl in *; try lia; reflexivity|].
  destruct b as [|x b]; destruct a as [|y a]; simpl in Hi, Ha; try lia. cbn [insert_at]. destruct x; cbn [place hd tl insert_at]; f_equal; apply IH; lia.
Qed.
Lemma bit_sum_insert : forall i s b, i <= length b -> bit_sum (insert_at i s b) = nat_of s + bit_sum b.
Proof.
  induction i as [|i IH]; intros s b Hi; [destruct b; cbn [insert_at]; rewrite bit_sum_cons; auto|]. destruct b as [|x b]; simpl in Hi; [lia|].
  cbn [insert_at]. rewrite !bit_sum_cons, IH by lia. lia.
Qed.
Lemma cell_slice : forall n c i s a b, i < n -> length b = n - 1 -> length a = n - 1 -> cell c (insert_at i s a) (insert_at i false b) = cell (slice n i s c) a b.
Proof.
  intros n c i s a b Hi Hb Ha. unfold cell. rewrite bit_sum_insert by lia. cbn [nat_of Nat.add]. apply cbuild_ext. intros f Hf. rewrite place_insert by lia. rewrite cget_slice by (rewrite place_length; lia). auto.
Qed.
Lemma missing_bit : forall b, bit_sum b < length b -> exists i, i < length b /\ nth i b false = false.
Proof.
  induction b as [|[] b IH]; intros H; rewrite ?bit_sum_cons in H; cbn [length nat_of] in *; [inversion H| |].
  - destruct IH as (i & Hi & E); [lia|]. exists (S i). split; [lia|auto].
  - exists 0. split; [lia|auto].
Qed.
Lemma cell_subcube : forall n c a b, length c = 2 ^ n -> length a = n -> length b = n -> subcube (bit_sum b) n c (cell c a b).
Proof.
  induction n as [|n IH]; intros c a b L Ha Hb.
  - destruct b; [|discriminate]. rewrite (cell_full 0); auto. constructor.
  - destruct (Nat.eq_dec (bit_sum b) (S n)) as [E|E]; [rewrite (cell_full (S n)); auto; rewrite E; constructor|].
    destruct (missing_bit b) as (i & Hi & Ei); [pose proof (bit_sum_le b); lia|].
    pose proof (remove_insert i b Hi) as Rb. pose proof (remove_insert i a ltac:(lia)) as Ra. rewrite Ei in Rb.
    pose proof (remove_length i b Hi) as Lb. pose proof (remove_length i a ltac:(lia)) as La. rewrite <- Rb, <- Ra. rewrite (cell_slice (S n)) by lia.
    rewrite bit_sum_insert by lia. cbn [nat_of Nat.add]. apply (subcube_step _ (S n) c _ i (nth i a false)); [lia|]. replace (S n - 1) with n by lia. apply IH; try lia.
    rewrite slice_length. f_equal. lia.
Qed.
Lemma subcube_cell : forall k n c g, subcube k n c g -> length c = 2 ^ n -> exists a b, length a = n /\ length b = n /\ bit_sum b = k /\ g = cell c a b.
Proof.
  intros k n. induction n as [|n IH]; intros c g SC L; apply subcube_inv in SC as [(-> & <-)|(Hk & i & s & Hi & SC)]; try lia.
  - exists [], []. repeat split; auto. rewrite (cell_full 0); auto.
  - exists (repeat false (S n)), (repeat true (S n)). rewrite !repeat_length. assert (E : bit_sum (repeat true (S n)) = S n) by (clear; induction (S n); auto; cbn [repeat]; rewrite bit_sum_cons, IHn0; auto).
    repeat split; auto. rewrite (cell_full (S n)); auto. apply repeat_length.
  - replace (S n - 1) with n in SC by lia. destruct (IH _ _ SC) as (a & b & Ha & Hb & Eb & ->); [rewrite slice_length; f_equal; lia|].
    exists (insert_at i s a), (insert_at i false b). rewrite !insert_at_length. repeat split; try lia; [rewrite bit_sum_insert by lia; auto|]. symmetry. apply cell_slice; lia.
Qed.
(** Different spans give different corners. *)
Lemma cell_span : forall n c a b i, NoDup c -> length c = 2 ^ n -> length a = n -> length b = n -> i < n -> (In (cget c (flip_bit i a)) (cell c a b) <-> nth i b false = true).
Proof.
  intros n c a b i ND L Ha Hb Hi. rewrite (cell_in n) by auto. split.
  - intros (z & [Lz A] & E). apply (cget_inj n) in E; auto; [|rewrite flip_bit_length; auto]. subst z. destruct (nth i b false) eqn:Eb; auto. specialize (A i Hi Eb). rewrite nth_flip in A.
    rewrite Nat.eqb_refl in A. replace (i <? length a) with true in A by (symmetry; apply Nat.ltb_lt; lia). destruct (nth i a false); discriminate.
  - intros Eb. exists (flip_bit i a). split; auto. split; [rewrite flip_bit_length; auto|]. intros k Hk Ek. rewrite nth_flip. destruct (k =? i) eqn:E; auto. apply Nat.eqb_eq in E. congruence.
Qed.
Lemma cell_span_inj : forall n c a b b', NoDup c -> length c = 2 ^ n -> length a = n -> length b = n -> length b' = n ->
  (forall v, In v (cell c a b) <-> In v (cell c a b')) -> b = b'.
Proof.
  intros n c a b b' ND L Ha Hb Hb' E. apply (bits_ext n); auto. intros i Hi. specialize (E (cget c (flip_bit i a))). rewrite !(cell_span n) in E by auto.
  destruct (nth i b false), (nth i b' false); auto; [symmetry|]; tauto.
Qed.
Lemma cell_self : forall n c a b, length b = n -> length a = n -> In (cget c a) (cell c a b).
Proof. intros n c a b Hb Ha. apply (cell_in n); auto. exists a. split; auto. split; auto. Qed.

(** Mirrored and exchanged axes. *)
Lemma cell_flip : forall n c i a b v, length c = 2 ^ n -> length a = n -> length b = n -> i < n -> (In v (cell (flip n i c) a b) <-> In v (cell c (flip_bit i a) b)).
Proof.
  intros n c i a b v L Ha Hb Hi. rewrite !(cell_in n) by auto. split; intros (z & [Lz A] & <-); exists (flip_bit i z).
  - split; [split; [rewrite flip_bit_length; auto|]|unfold flip; rewrite cget_build by auto; reflexivity]. intros k Hk Ek. rewrite !nth_flip, Lz, Ha. rewrite A by auto. auto.
  - split; [split; [rewrite flip_bit_length; auto|]|].
    + intros k Hk Ek. specialize (A k Hk Ek). rewrite nth_flip in A. rewrite nth_flip, Lz, A, Ha. destruct ((k =? i) && (k <? n)); auto. apply negb_involutive.
    + unfold flip. rewrite cget_build by (rewrite flip_bit_length; auto). rewrite flip_flip_bit. auto.
Qed.
Lemma tr_same_lt : forall i n k, S i < n -> (tr i k < n <-> k < n).
Proof. intros i n k Hi. unfold tr. destruct (k =? i) eqn:E1; [apply Nat.eqb_eq in E1; lia|]. destruct (k =? S i) eqn:E2; [apply Nat.eqb_eq in E2; lia|]. lia. Qed.
Lemma swap_swap_bit : forall i b n, length b = n -> S i < n -> swap_bit i (swap_bit i b) = b.
Proof. intros i b n L Hi. apply (bits_ext n); rewrite ?swap_bit_length; auto. intros k Hk. rewrite nth_swap by (rewrite swap_bit_length; lia). rewrite nth_swap by (rewrite L; apply tr_lt; lia). rewrite tr_tr. auto. Qed.
Lemma cell_swap : forall n c i a b v, length c = 2 ^ n -> length a = n -> length b = n -> S i < n -> (In v (cell (swapc n i c) a b) <-> In v (cell c (swap_bit i a) (swap_bit i b))).
Proof.
  intros n c i a b v L Ha Hb Hi. rewrite !(cell_in n) by (rewrite ?swap_bit_length; auto). split; intros (z & [Lz A] & <-); exists (swap_bit i z).
  - split; [split; [rewrite swap_bit_length; auto|]|unfold swapc; rewrite cget_build by auto; reflexivity]. intros k Hk Ek. rewrite nth_swap in Ek by lia. rewrite !nth_swap by lia. apply A; auto. apply tr_lt; lia.
  - split; [split; [rewrite swap_bit_length; auto|]|].
    + intros k Hk Ek. rewrite nth_swap by lia. assert (Hk' : tr i k < n) by (apply tr_lt; lia). specialize (A (tr i k) Hk'). rewrite !nth_swap, tr_tr in A by lia. auto.
    + unfold swapc. rewrite cget_build by (rewrite swap_bit_length; auto). rewrite (swap_swap_bit i z n) by auto. auto.
Qed.
