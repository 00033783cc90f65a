(** Faces of cubes and the boundary of the boundary. *)
Require Import List Arith ZArith Bool Lia Permutation.
From Verif Require Import Util CombModel CombSpec CombProofs SimpModel SimpSpec ParProofs SimpProofs LevelProofs CubeModel CubeSpec CubeBits.
Import ListNotations.
Local Open Scope nat_scope.

Definition slice (n a : nat) (s : bool) (c : cube) : cube := cbuild (n - 1) (fun bs => cget c (insert_at a s bs)).
Lemma slice_length : forall n a s c, length (slice n a s c) = 2 ^ (n - 1).
Proof. intros. apply cbuild_length. Qed.
Lemma cget_slice : forall n a s c bs, length bs = n - 1 -> cget (slice n a s c) bs = cget c (insert_at a s bs).
Proof. intros. unfold slice. rewrite cget_build by auto. auto. Qed.
Lemma slice_is_slice : forall n a s c, a < n -> is_slice n a s c (slice n a s c).
Proof. intros n a s c Ha. split; [apply slice_length|]. intros bs L. rewrite <- !cget_corner, cget_slice by auto. rewrite insert_at_with_bit by lia. auto. Qed.
Lemma is_slice_slice : forall n a s c d, a < n -> is_slice n a s c d -> d = slice n a s c.
Proof. intros n a s c d Ha [L H]. apply (cube_ext (n - 1)); [auto|apply slice_length|]. intros bs Lb. rewrite cget_slice by auto. rewrite !cget_corner, H by auto. rewrite insert_at_with_bit by lia. auto. Qed.

Lemma insert_inj : forall a s b b', insert_at a s b = insert_at a s b' -> length b = length b' -> b = b'.
Proof. induction a; destruct b, b'; simpl; intros E L; try congruence; try lia. injection E as -> E. f_equal. apply (IHa s); auto. Qed.
Lemma slice_nodup : forall n a s c, a < n -> NoDup c -> length c = 2 ^ n -> NoDup (slice n a s c).
Proof.
  intros n a s c Ha ND L. apply cbuild_nodup. intros b b' Hb Hb' E. apply (cget_inj n) in E; auto; [|rewrite insert_at_length; lia..]. apply insert_inj in E; auto. congruence.
Qed.
Lemma slice_incl : forall n a s c, a < n -> length c = 2 ^ n -> incl (slice n a s c) c.
Proof. intros n a s c Ha L v Hv. apply (in_cget (n - 1)) in Hv as (bs & Lb & <-); [|apply slice_length]. rewrite cget_slice by auto. apply (cget_in n); auto. rewrite insert_at_length. lia. Qed.

Lemma remove_insert : forall a bs, a < length bs -> insert_at a (nth a bs false) (remove_at a bs) = bs.
Proof. induction a; destruct bs; simpl; intros; try lia; auto. unfold remove_at in *. cbn [firstn skipn app]. f_equal. apply IHa. lia. Qed.
Lemma remove_length : forall a bs, a < length bs -> length (remove_at a bs) = length bs - 1.
Proof. intros. unfold remove_at. rewrite app_length, firstn_length, skipn_length. lia. Qed.
Lemma nth_insert_same : forall a s bs, a <= length bs -> nth a (insert_at a s bs) false = s.
Proof. intros. rewrite nth_insert by auto. rewrite Nat.ltb_irrefl, Nat.eqb_refl. auto. Qed.

(** The vertices of a face determine axis and side. *)
Lemma slice_vert : forall n a s c bs, a < n -> NoDup c -> length c = 2 ^ n -> length bs = n -> (In (cget c bs) (slice n a s c) <-> nth a bs false = s).
Proof.
  intros n a s c bs Ha ND L Lb. split.
  - intros H. apply (in_cget (n - 1)) in H as (x & Lx & E); [|apply slice_length]. rewrite cget_slice in E by auto. apply (cget_inj n) in E; auto; [|rewrite insert_at_length; lia]. subst bs. apply nth_insert_same. lia.
  - intros <-. rewrite <- (remove_insert a bs) at 1 by lia. rewrite <- (cget_slice n) by (rewrite remove_length; lia). apply (cget_in (n - 1)); [apply slice_length|rewrite remove_length; lia].
Qed.
Lemma slice_inj : forall n a s a' s' c, a < n -> a' < n -> NoDup c -> length c = 2 ^ n -> Permutation (slice n a s c) (slice n a' s' c) -> a = a' /\ s = s'.
Proof.
  intros n a s a' s' c Ha Ha' ND L P.
  assert (A : forall bs, length bs = n -> (nth a bs false = s <-> nth a' bs false = s')).
  { intros bs Lb. rewrite <- !(slice_vert n) with (c := c) by auto. split; apply Permutation_in; auto. apply Permutation_sym; auto. }
  set (z := fun i => map (fun k => if k =? i then s else negb s) (seq 0 n)).
  assert (Lz : forall i, length (z i) = n) by (intros; unfold z; rewrite map_length, seq_length; auto).
  assert (Nz : forall i k, k < n -> nth k (z i) false = if k =? i then s else negb s) by (intros i k Hk; apply (nth_map_seq _ (fun k => if k =? i then s else negb s)); auto).
  destruct (Nat.eq_dec a a') as [->|Hne].
  - split; auto. pose proof (A (z a') (Lz _)) as [Q _]. rewrite Nz, Nat.eqb_refl in Q by auto. apply Q. auto.
  - exfalso. pose proof (proj1 (A (z a) (Lz _))) as Q1. rewrite !Nz, Nat.eqb_refl in Q1 by auto. rewrite (proj2 (Nat.eqb_neq a' a)) in Q1 by auto. specialize (Q1 eq_refl).
    pose proof (proj2 (A (z n) (Lz _))) as Q2. rewrite !Nz, (proj2 (Nat.eqb_neq a n)), (proj2 (Nat.eqb_neq a' n)) in Q2 by lia. specialize (Q2 Q1). destruct s; discriminate.
Qed.

(** ---- signed sum over the faces ---- *)
Definition sides : list bool := [false; true].
Definition cbd (n : nat) (f : cube -> Z) (c : cube) : Z :=
  sumZ (map (fun a => sumZ (map (fun s => Z.mul (sgn_pow (a + nat_of s)) (f (slice n a s c))) sides)) (seq 0 n)).

Lemma cbd_ext : forall n f g c, (forall a s, a < n -> f (slice n a s c) = g (slice n a s c)) -> cbd n f c = cbd n g c.
Proof. intros n f g c H. apply sumZ_map_ext. intros a Ha. apply in_seq in Ha. apply sumZ_map_ext. intros s _. rewrite H by lia. auto. Qed.

Lemma insert_insert : forall a b s t bs, a <= b -> b <= length bs -> insert_at a s (insert_at b t bs) = insert_at (S b) t (insert_at a s bs).
Proof.
  intros a b s t bs Hab Hb. apply (bits_ext (S (S (length bs)))); [rewrite !insert_at_length; auto..|]. intros i Hi. rewrite !nth_insert by (rewrite ?insert_at_length; lia).
  repeat match goal with |- context [if ?x <? ?y then _ else _] => destruct (Nat.ltb_spec x y) | |- context [if ?x =? ?y then _ else _] => destruct (Nat.eqb_spec x y) end; try lia; auto; f_equal; lia.
Qed.
Lemma slice_slice : forall n a b s t c, a <= b -> b < n - 1 -> slice (n - 1) b t (slice n a s c) = slice (n - 1) a s (slice n (S b) t c).
Proof.
  intros n a b s t c Hab Hb. apply cbuild_ext. intros bs Lb. rewrite !cget_slice by (rewrite insert_at_length; lia). rewrite insert_insert by lia. auto.
Qed.

Lemma sum_shift : forall (g : nat -> Z) m, sumZ (map g (seq 0 (S m))) = (g 0%nat + sumZ (map (fun i => g (S i)) (seq 0 m)))%Z.
Proof. intros. cbn [seq map sumZ fold_right]. rewrite <- seq_shift, map_map. reflexivity. Qed.

Lemma cbd_cbd : forall n f c, cbd n (cbd (n - 1) f) c = 0%Z.
Proof.
  intros n f c. destruct n as [|m]; [reflexivity|]. replace (S m - 1) with m by lia.
  set (X := fun a b => sumZ (map (fun s => sumZ (map (fun t => (sgn_pow (a + nat_of s) * (sgn_pow (b + nat_of t) * f (slice m b t (slice (S m) a s c))))%Z) sides)) sides)).
  assert (E : cbd (S m) (cbd m f) c = sumZ (map (fun a => sumZ (map (fun b => X a b) (seq 0 m))) (seq 0 (S m)))).
  { apply sumZ_map_ext. intros a Ha. unfold X. rewrite (sumZ_swap _ _ (fun b s => sumZ (map (fun t => (sgn_pow (a + nat_of s) * (sgn_pow (b + nat_of t) * f (slice m b t (slice (S m) a s c))))%Z) sides))). apply sumZ_map_ext. intros s _.
    unfold cbd. rewrite <- sumZ_map_mul. apply sumZ_map_ext. intros b _. rewrite <- sumZ_map_mul. auto. }
  rewrite E. clear E.
  assert (A : forall a b, a <= b -> b < m -> X a b = (- X (S b) a)%Z).
  { intros a b Hab Hb. unfold X. rewrite (sumZ_swap _ _ (fun s t => (sgn_pow (S b + nat_of s) * (sgn_pow (a + nat_of t) * f (slice m a t (slice (S m) (S b) s c))))%Z)). rewrite <- sumZ_map_opp. apply sumZ_map_ext. intros s _. rewrite <- sumZ_map_opp. apply sumZ_map_ext. intros t _.
    pose proof (slice_slice (S m) a b s t c Hab ltac:(lia)) as Q. replace (S m - 1) with m in Q by lia. rewrite Q. rewrite !sgn_pow_add, sgn_pow_S. ring. }
  set (lo := fun a b => if b <? a then X a b else 0%Z). set (hi := fun a b => if b <? a then 0%Z else X a b).
  rewrite (sumZ_map_ext _ _ (fun a => sumZ (map (fun b => lo a b) (seq 0 m)) + sumZ (map (fun b => hi a b) (seq 0 m)))%Z).
  2:{ intros a _. rewrite <- sumZ_map_add. apply sumZ_map_ext. intros b _. unfold lo, hi. destruct (b <? a); ring. }
  rewrite sumZ_map_add.
  assert (E1 : sumZ (map (fun a => sumZ (map (fun b => lo a b) (seq 0 m))) (seq 0 (S m))) = sumZ (map (fun a => sumZ (map (fun b => lo (S a) b) (seq 0 m))) (seq 0 m))).
  { rewrite sum_shift. rewrite (sumZ_map_0 _ (fun b => lo 0 b)) by (intros; reflexivity). ring. }
  assert (E2 : sumZ (map (fun a => sumZ (map (fun b => hi a b) (seq 0 m))) (seq 0 (S m))) = (- sumZ (map (fun a => sumZ (map (fun b => lo (S a) b) (seq 0 m))) (seq 0 m)))%Z).
  { rewrite seq_S, map_app, sumZ_app. cbn [map sumZ fold_right Nat.add]. rewrite (sumZ_map_0 _ (fun b => hi m b)). 2:{ intros b Hb. apply in_seq in Hb. unfold hi. rewrite (proj2 (Nat.ltb_lt b m)) by lia. auto. }
    rewrite !Z.add_0_r. rewrite (sumZ_swap _ _ hi). rewrite <- sumZ_map_opp. apply sumZ_map_ext. intros b Hb. rewrite <- sumZ_map_opp. apply sumZ_map_ext. intros a Ha. apply in_seq in Ha, Hb. unfold hi, lo. destruct (Nat.ltb_spec b a), (Nat.ltb_spec a (S b)); try lia. apply A; lia. }
  rewrite E1, E2. ring.
Qed.

(** ---- the signed sum changes sign with the orientation ---- *)
Ltac bitcase := repeat match goal with
  | |- context [?x <? ?y] => destruct (Nat.ltb_spec x y)
  | |- context [?x =? ?y] => destruct (Nat.eqb_spec x y) end; cbn [andb]; try lia; auto; try (f_equal; lia).

Lemma flip_insert : forall a0 a s bs, a <= length bs -> a0 <= length bs ->
  flip_bit a0 (insert_at a s bs) = if a =? a0 then insert_at a (negb s) bs else insert_at a s (flip_bit (if a0 <? a then a0 else a0 - 1) bs).
Proof.
  intros a0 a s bs Ha H0. apply (bits_ext (S (length bs))).
  - rewrite flip_bit_length, insert_at_length; auto.
  - destruct (a =? a0); rewrite insert_at_length, ?flip_bit_length; auto.
  - intros i Hi. rewrite nth_flip, insert_at_length. destruct (Nat.eqb_spec a a0) as [->|Hne].
    + rewrite !nth_insert by auto. bitcase.
    + rewrite !nth_insert by (rewrite ?flip_bit_length; auto). rewrite !nth_flip. bitcase.
Qed.
Lemma slice_flip_same : forall n a s c, a < n -> length c = 2 ^ n -> slice n a s (flip n a c) = slice n a (negb s) c.
Proof.
  intros n a s c Ha L. apply (cube_ext (n - 1)); [apply slice_length..|]. intros bs Lb. rewrite !cget_slice by auto. unfold flip. rewrite cget_build by (rewrite insert_at_length; lia).
  rewrite flip_insert by lia. rewrite Nat.eqb_refl. auto.
Qed.
Lemma slice_flip_other : forall n a0 a s c, a < n -> a0 < n -> a <> a0 -> length c = 2 ^ n -> slice n a s (flip n a0 c) = flip (n - 1) (if a0 <? a then a0 else a0 - 1) (slice n a s c).
Proof.
  intros n a0 a s c Ha H0 Hne L. apply (cube_ext (n - 1)); [apply slice_length|apply cbuild_length|]. intros bs Lb. rewrite cget_slice by auto. unfold flip at 1 2. rewrite !cget_build by (rewrite ?insert_at_length; lia).
  rewrite flip_insert by lia. rewrite (proj2 (Nat.eqb_neq a a0) Hne). rewrite cget_slice by (rewrite flip_bit_length; auto). auto.
Qed.
Lemma swap_insert : forall a0 a s bs, a <= length bs -> S a0 <= length bs ->
  swap_bit a0 (insert_at a s bs) = if (a =? a0) || (a =? S a0) then insert_at (tr a0 a) s bs else insert_at a s (swap_bit (if a0 <? a then a0 else a0 - 1) bs).
Proof.
  intros a0 a s bs Ha H0. apply (bits_ext (S (length bs))).
  - rewrite swap_bit_length, insert_at_length; auto.
  - destruct ((a =? a0) || (a =? S a0)); rewrite insert_at_length, ?swap_bit_length; auto.
  - intros i Hi. rewrite nth_swap by (rewrite insert_at_length; lia). rewrite !nth_insert by auto. unfold tr.
    destruct (Nat.eqb_spec a a0) as [->|Hne]; [|destruct (Nat.eqb_spec a (S a0)) as [->|Hne']]; cbn [orb].
    + rewrite !nth_insert by lia. destruct (Nat.eqb_spec i a0); [|destruct (Nat.eqb_spec i (S a0))]; bitcase.
    + rewrite !nth_insert by lia. destruct (Nat.eqb_spec i a0); [|destruct (Nat.eqb_spec i (S a0))]; bitcase.
    + rewrite !nth_insert by (rewrite swap_bit_length; lia). destruct (Nat.ltb_spec i a) as [E1|E1]; [|destruct (Nat.eqb_spec i a) as [E2|E2]].
      * rewrite nth_swap by lia. unfold tr. destruct (Nat.eqb_spec i a0); [|destruct (Nat.eqb_spec i (S a0))]; bitcase.
      * destruct (Nat.eqb_spec i a0); [|destruct (Nat.eqb_spec i (S a0))]; bitcase.
      * rewrite nth_swap by lia. unfold tr. destruct (Nat.eqb_spec i a0); [|destruct (Nat.eqb_spec i (S a0))]; bitcase.
Qed.
Lemma slice_swap_same : forall n a0 a s c, S a0 < n -> a = a0 \/ a = S a0 -> length c = 2 ^ n -> slice n a s (swapc n a0 c) = slice n (tr a0 a) s c.
Proof.
  intros n a0 a s c H0 Ha L. apply (cube_ext (n - 1)); [apply slice_length..|]. intros bs Lb. rewrite !cget_slice by auto. unfold swapc. rewrite cget_build by (rewrite insert_at_length; lia).
  rewrite swap_insert by lia. replace ((a =? a0) || (a =? S a0)) with true; auto. symmetry. apply orb_true_iff. rewrite !Nat.eqb_eq. auto.
Qed.
Lemma slice_swap_other : forall n a0 a s c, S a0 < n -> a < n -> a <> a0 -> a <> S a0 -> length c = 2 ^ n -> slice n a s (swapc n a0 c) = swapc (n - 1) (if a0 <? a then a0 else a0 - 1) (slice n a s c).
Proof.
  intros n a0 a s c H0 Ha Hne Hne' L. apply (cube_ext (n - 1)); [apply slice_length|apply cbuild_length|]. intros bs Lb. rewrite cget_slice by auto. unfold swapc at 1 2. rewrite !cget_build by (rewrite ?insert_at_length; lia).
  rewrite swap_insert by lia. rewrite (proj2 (Nat.eqb_neq a a0) Hne), (proj2 (Nat.eqb_neq a (S a0)) Hne'). cbn [orb]. rewrite cget_slice by (rewrite swap_bit_length; auto). auto.
Qed.

Lemma cbd_antisym : forall n f, cube_antisymmetric (n - 1) f -> cube_antisymmetric n (cbd n f).
Proof.
  intros n f Hf. apply antisym_intro.
  - intros a0 c L H0. unfold cbd. rewrite <- sumZ_map_opp. apply sumZ_map_ext. intros a Ha. apply in_seq in Ha. destruct (Nat.eq_dec a a0) as [->|Hne].
    + unfold sides. cbn [map sumZ fold_right]. rewrite !slice_flip_same by auto. cbn [negb nat_of]. rewrite !sgn_pow_add. change (sgn_pow 1) with (-1)%Z. change (sgn_pow 0) with 1%Z. ring.
    + rewrite <- sumZ_map_opp. apply sumZ_map_ext. intros s _. rewrite slice_flip_other by (auto; lia). rewrite (antisym_flip (n - 1)); auto; [ring|apply slice_length|destruct (Nat.ltb_spec a0 a); lia].
  - intros a0 c L H0. unfold cbd. set (I := fun a => sumZ (map (fun s => (sgn_pow (a + nat_of s) * f (slice n a s c))%Z) sides)).
    rewrite (sumZ_map_ext _ _ (fun a => (- I (tr a0 a))%Z)).
    + rewrite (sumZ_map_opp _ (fun a => I (tr a0 a))). rewrite <- (map_map (tr a0) I). rewrite (sumZ_perm _ (map I (seq 0 n))) by (apply Permutation_map, tr_perm; auto). auto.
    + intros a Ha. apply in_seq in Ha. destruct (Nat.eq_dec a a0) as [E|Hne]; [|destruct (Nat.eq_dec a (S a0)) as [E|Hne']].
      * unfold I. rewrite <- sumZ_map_opp. apply sumZ_map_ext. intros s _. rewrite slice_swap_same by auto. subst a. replace (tr a0 a0) with (S a0) by (unfold tr; rewrite Nat.eqb_refl; auto). rewrite !sgn_pow_add, sgn_pow_S. ring.
      * unfold I. rewrite <- sumZ_map_opp. apply sumZ_map_ext. intros s _. rewrite slice_swap_same by auto. subst a. replace (tr a0 (S a0)) with a0 by (unfold tr; rewrite Nat.eqb_refl; bitcase). rewrite !sgn_pow_add, sgn_pow_S. ring.
      * unfold I. rewrite <- sumZ_map_opp. replace (tr a0 a) with a by (unfold tr; bitcase). apply sumZ_map_ext. intros s _. rewrite slice_swap_other by (auto; lia). rewrite (antisym_swap (n - 1)); auto; [ring|apply slice_length|destruct (Nat.ltb_spec a0 a); lia].
Qed.

(** ---- generate_cube_boundary of degree 1 ---- *)
Definition gface (n a : nat) (s : bool) (c : cube) : cube :=
  if xorb (Nat.odd a) s then flip (n - 1) (n - 2) (slice n a s c) else slice n a s c.
Definition gfaces (n : nat) (c : cube) : list cube := flat_map (fun a => map (fun s => gface n a s c) sides) (seq 0 n).

Lemma combinations_1 : forall n, 1 <= n -> combinations 1 (seq 0 n) = map (fun i => (i mod 2, [i])) (seq 0 n).
Proof.
  intros n Hn. cbn [combinations]. rewrite seq_length. replace (n <? 1) with false by (symmetry; apply Nat.ltb_ge; auto). replace (n - 1 + 1) with n by lia.
  assert (G : forall (F : nat -> list (nat * list nat)) g l, (forall i, In i l -> F i = [g i]) -> flat_map F l = map g l).
  { induction l as [|i l IH]; intros H; auto. cbn [flat_map map]. rewrite IH by (intros; apply H; right; auto). rewrite H by (left; auto). reflexivity. }
  apply G. intros i Hi. apply in_seq in Hi. rewrite nth_error_nth' with (d := 0) by (rewrite seq_length; lia). rewrite seq_nth by lia. reflexivity.
Qed.
Lemma front_slice : forall n a s c, a < n -> front n [s] (moveaxis n a 0 c) = slice n a s c.
Proof.
  intros n a s c Ha. unfold front, slice. cbn [length]. apply cbuild_ext. intros bs L. unfold moveaxis. rewrite cget_build by (cbn [app length]; lia). reflexivity.
Qed.
Lemma front_flip : forall n s c, 2 <= n -> length c = 2 ^ n -> front n [s] (flip_last n c) = flip (n - 1) (n - 2) (front n [s] c).
Proof.
  intros n s c Hn L. unfold flip_last. replace (n =? 0) with false by (symmetry; apply Nat.eqb_neq; lia). unfold front, flip. cbn [length]. apply cbuild_ext. intros bs Lb.
  rewrite cget_build by (cbn [app length]; lia). rewrite cget_build by (rewrite flip_bit_length; auto). f_equal. cbn [app]. replace (n - 1) with (S (n - 2)) by lia. reflexivity.
Qed.
Lemma flip_flip : forall n a c, length c = 2 ^ n -> flip n a (flip n a c) = c.
Proof. intros n a c L. apply (cube_ext n); auto; [apply cbuild_length|]. intros bs Lb. unfold flip. rewrite !cget_build by (rewrite ?flip_bit_length; auto). rewrite flip_flip_bit. auto. Qed.
Lemma mod2_odd : forall a, (a mod 2 =? 1) = Nat.odd a.
Proof.
  intros a. destruct (Nat.odd a) eqn:E.
  - apply Nat.odd_spec in E as [k ->]. apply Nat.eqb_eq. rewrite (Nat.mul_comm 2 k), Nat.add_comm, Nat.mod_add by lia. auto.
  - rewrite <- Nat.negb_even in E. apply negb_false_iff, Nat.even_spec in E as [k ->]. apply Nat.eqb_neq. rewrite (Nat.mul_comm 2 k), Nat.mod_mul by lia. lia.
Qed.

Lemma generate_1 : forall n c, 2 <= n -> length c = 2 ^ n -> generate_cube_boundary n 1 true c = map (fun a => map (fun s => gface n a s c) sides) (seq 0 n).
Proof.
  intros n c Hn L. unfold generate_cube_boundary. rewrite combinations_1 by lia. rewrite map_map. apply map_ext_in. intros a Ha. apply in_seq in Ha. cbn [fst snd seq combine fold_left].
  change (corners 1) with [[false]; [true]]. unfold sides. cbn [map forallb id Nat.eqb andb]. rewrite mod2_odd. unfold gface.
  assert (Lm : length (moveaxis n a 0 c) = 2 ^ n) by apply cbuild_length.
  assert (F : forall x, flip_last (n - 1) x = flip (n - 1) (n - 2) x) by (intros x; unfold flip_last; replace (n - 1 =? 0) with false by (symmetry; apply Nat.eqb_neq; lia); f_equal; lia).
  destruct (Nat.odd a); cbn [andb xorb]; rewrite ?front_flip by auto; rewrite !front_slice by lia; rewrite ?F; try reflexivity. rewrite flip_flip by apply slice_length. reflexivity.
Qed.
Lemma gface_length : forall n a s c, length (gface n a s c) = 2 ^ (n - 1).
Proof. intros. unfold gface. destruct (xorb _ s); [apply cbuild_length|apply slice_length]. Qed.
Lemma flip_perm : forall n a c, a < n -> length c = 2 ^ n -> Permutation c (flip n a c).
Proof.
  intros n a c Ha L. set (h := (seq 0 n, map (fun i => i =? a) (seq 0 n)) : list nat * bits). assert (Hh : In h (group n)) by (apply group_in; cbn; rewrite map_length, seq_length; auto).
  replace (flip n a c) with (act n h c); [apply act_perm; auto|]. apply cbuild_ext. intros bs Lb. f_equal.
  apply (bits_ext n); [apply scatter_length; auto|rewrite flip_bit_length; auto|]. intros i Hi. rewrite (nth_scatter n) by (auto; apply Permutation_refl). cbn [fst h].
  assert (E : index_of Nat.eqb i (seq 0 n) = i). { pose proof (idx_nth n (seq 0 n) i (Permutation_refl _) Hi) as Q. rewrite seq_nth in Q by auto. auto. }
  rewrite E, nth_xor, nth_flip by lia. cbn [snd h]. rewrite (nth_map_seq _ (fun i => i =? a)) by auto. rewrite (proj2 (Nat.ltb_lt i (length bs))) by lia. rewrite andb_true_r. destruct (i =? a); [apply xorb_true_r|apply xorb_false_r].
Qed.
Lemma gface_perm : forall n a s c, 2 <= n -> Permutation (slice n a s c) (gface n a s c).
Proof. intros. unfold gface. destruct (xorb _ s); auto. apply flip_perm; [lia|apply slice_length]. Qed.
Lemma gface_nodup : forall n a s c, 2 <= n -> a < n -> NoDup c -> length c = 2 ^ n -> NoDup (gface n a s c).
Proof. intros. apply (Permutation_NoDup (gface_perm n a s c ltac:(auto))). apply slice_nodup; auto. Qed.
Lemma sgn_odd : forall a, sgn_pow a = if Nat.odd a then (-1)%Z else 1%Z.
Proof. reflexivity. Qed.
Lemma gface_sign : forall n f a s c, 2 <= n -> cube_antisymmetric (n - 1) f -> f (gface n a s c) = (sgn_pow (a + nat_of s) * f (slice n a s c))%Z.
Proof.
  intros n f a s c Hn Hf. unfold gface.
  pose proof (sgn_odd a) as O.
  rewrite sgn_pow_add, O. destruct (Nat.odd a), s; cbn [xorb nat_of]; change (sgn_pow 1) with (-1)%Z; change (sgn_pow 0) with 1%Z;
    rewrite ?(antisym_flip (n - 1)) by (auto; try apply slice_length; lia); ring.
Qed.
Lemma gfaces_length : forall n c, length (gfaces n c) = n * 2.
Proof. intros. unfold gfaces. rewrite flat_map_concat_map, (concat_length_rect _ _ 2), map_length, seq_length by (apply Forall_forall; intros x Hx; apply in_map_iff in Hx as (a & <- & _); reflexivity). auto. Qed.
