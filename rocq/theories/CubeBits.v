(** Index arithmetic of cubes and the symmetry group of the cube. *)
Require Import List Arith ZArith Bool Lia Permutation.
From Verif Require Import Util CombModel CombSpec CombProofs SimpModel SimpSpec ParProofs LevelProofs CubeModel CubeSpec.
Import ListNotations.
Local Open Scope nat_scope.

(** ---- multi-indices ---- *)
Lemma corners_in : forall n bs, In bs (corners n) <-> length bs = n.
Proof.
  induction n; intros bs; cbn [corners].
  - simpl. split; [intros [<-|[]]; auto|]. destruct bs; simpl; [auto|lia].
  - rewrite in_app_iff, !in_map_iff. split.
    + intros [(x & <- & H)|(x & <- & H)]; apply IHn in H; simpl; lia.
    + destruct bs as [|[|] bs]; simpl; intros H; [lia| |]; [right|left]; exists bs; (split; auto; apply IHn; lia).
Qed.
Lemma corners_length : forall n, length (corners n) = 2 ^ n.
Proof. induction n; cbn [corners Nat.pow]; auto. rewrite app_length, !map_length, IHn. lia. Qed.
Lemma nodup_app : forall A (a b : list A), NoDup a -> NoDup b -> (forall x, In x a -> ~ In x b) -> NoDup (a ++ b).
Proof.
  induction a as [|x a IH]; simpl; intros b Ha Hb H; auto. inversion Ha; subst. constructor.
  - rewrite in_app_iff. intros [Q|Q]; auto. apply (H x); auto.
  - apply IH; auto.
Qed.
Lemma corners_nodup : forall n, NoDup (corners n).
Proof.
  induction n; cbn [corners]; [repeat constructor; simpl; auto|]. apply nodup_app; try (apply NoDup_map_inj; auto; congruence).
  intros x H1 H2. apply in_map_iff in H1 as (y & <- & _). apply in_map_iff in H2 as (z & E & _). discriminate.
Qed.
Lemma map_add_seq : forall k m a, map (fun x => k + x) (seq a m) = seq (k + a) m.
Proof. induction m; simpl; intros; auto. rewrite IHm. f_equal. f_equal. lia. Qed.
Lemma corners_ravel : forall n, map ravel (corners n) = seq 0 (2 ^ n).
Proof.
  induction n; cbn [corners]; auto. rewrite map_app, !map_map. replace (2 ^ S n) with (2 ^ n + 2 ^ n) by (cbn [Nat.pow]; lia). rewrite seq_app. f_equal.
  - rewrite <- IHn. apply map_ext. intros; simpl; auto.
  - rewrite (map_ext_in _ (fun bs => 2 ^ n + ravel bs)) by (intros bs Hb; apply corners_in in Hb; cbn [ravel]; rewrite Hb; auto).
    rewrite <- (map_map ravel (fun x => 2 ^ n + x)), IHn. rewrite map_add_seq. f_equal. lia.
Qed.
Lemma ravel_lt : forall bs, ravel bs < 2 ^ length bs.
Proof. intros. assert (In (ravel bs) (seq 0 (2 ^ length bs))) by (rewrite <- corners_ravel; apply in_map, corners_in; auto). apply in_seq in H. lia. Qed.
Lemma ravel_inj : forall b b', length b = length b' -> ravel b = ravel b' -> b = b'.
Proof.
  induction b as [|x b IH]; destruct b' as [|y b']; simpl; intros L E; try lia; auto. injection L as L. pose proof (ravel_lt b). pose proof (ravel_lt b'). rewrite L in *.
  assert (x = y) by (destruct x, y; auto; lia). subst y. f_equal. apply IH; auto. lia.
Qed.
Lemma ravel_onto : forall n i, i < 2 ^ n -> exists bs, length bs = n /\ ravel bs = i.
Proof. intros n i H. assert (I : In i (map ravel (corners n))) by (rewrite corners_ravel; apply in_seq; lia). apply in_map_iff in I as (bs & <- & I). exists bs. split; auto. apply corners_in; auto. Qed.

Lemma ravel_position : forall bs, ravel bs = position bs.
Proof.
  intros bs. unfold position. assert (G : forall l k, fold_left (fun k (b : bool) => 2 * k + (if b then 1 else 0)) l k = k * 2 ^ length l + ravel l).
  { induction l as [|b l IH]; intros k; cbn [fold_left length ravel Nat.pow]; [lia|]. rewrite IH. destruct b; lia. }
  rewrite G. lia.
Qed.
Lemma cget_corner : forall c bs, cget c bs = corner c bs.
Proof. intros. unfold cget, corner. rewrite ravel_position. auto. Qed.

(** ---- cubes as functions ---- *)
Lemma cbuild_length : forall n f, length (cbuild n f) = 2 ^ n.
Proof. intros. unfold cbuild. rewrite map_length. apply corners_length. Qed.
Lemma cget_build : forall n f bs, length bs = n -> cget (cbuild n f) bs = f bs.
Proof.
  intros n f bs L. unfold cget, cbuild. pose proof (ravel_lt bs) as B. rewrite L in B.
  rewrite (nth_map_lt _ _ f _ _ []) by (rewrite corners_length; auto). f_equal.
  assert (Q : nth (ravel bs) (map ravel (corners n)) 0 = ravel bs) by (rewrite corners_ravel, seq_nth; auto).
  rewrite (nth_map_lt _ _ ravel _ _ []) in Q by (rewrite corners_length; auto). apply ravel_inj; auto.
  rewrite L. apply corners_in, nth_In. rewrite corners_length. auto.
Qed.
Lemma cbuild_get : forall n c, length c = 2 ^ n -> cbuild n (cget c) = c.
Proof. intros n c L. unfold cbuild, cget. rewrite <- (map_map ravel (fun i => nth i c 0)), corners_ravel, <- L. apply map_nth_seq. Qed.
Lemma cube_ext : forall n c d, length c = 2 ^ n -> length d = 2 ^ n -> (forall bs, length bs = n -> cget c bs = cget d bs) -> c = d.
Proof. intros n c d L1 L2 E. rewrite <- (cbuild_get n c L1), <- (cbuild_get n d L2). unfold cbuild. apply map_ext_in. intros bs H. apply E, corners_in; auto. Qed.
Lemma cbuild_ext : forall n f g, (forall bs, length bs = n -> f bs = g bs) -> cbuild n f = cbuild n g.
Proof. intros. unfold cbuild. apply map_ext_in. intros bs Hb. apply H, corners_in; auto. Qed.
Lemma cget_in : forall n c bs, length c = 2 ^ n -> length bs = n -> In (cget c bs) c.
Proof. intros n c bs L Lb. apply nth_In. rewrite L, <- Lb. apply ravel_lt. Qed.
Lemma in_cget : forall n c v, length c = 2 ^ n -> In v c -> exists bs, length bs = n /\ cget c bs = v.
Proof. intros n c v L H. apply In_nth with (d := 0) in H as (i & Hi & <-). rewrite L in Hi. destruct (ravel_onto n i Hi) as (bs & Lb & <-). exists bs. auto. Qed.
Lemma cget_inj : forall n c b b', NoDup c -> length c = 2 ^ n -> length b = n -> length b' = n -> cget c b = cget c b' -> b = b'.
Proof.
  intros n c b b' ND L L1 L2 E. apply ravel_inj; [congruence|]. eapply (proj1 (NoDup_nth c 0)); eauto; rewrite L; [rewrite <- L1|rewrite <- L2]; apply ravel_lt.
Qed.
Lemma cbuild_nodup : forall n f, (forall b b', length b = n -> length b' = n -> f b = f b' -> b = b') -> NoDup (cbuild n f).
Proof. intros n f H. apply NoDup_map_inj; [|apply corners_nodup]. intros b b' Hb Hb' E. apply H; auto; apply corners_in; auto. Qed.

(** ---- single index operations ---- *)
Definition tr (a j : nat) : nat := if j =? a then S a else if j =? S a then a else j.
Lemma tr_tr : forall a j, tr a (tr a j) = j.
Proof. intros. unfold tr. destruct (j =? a) eqn:E; rewrite ?Nat.eqb_eq, ?Nat.eqb_neq in E; [rewrite Nat.eqb_refl; destruct (S a =? a) eqn:Q; rewrite ?Nat.eqb_eq in Q; lia|]. destruct (j =? S a) eqn:E2; rewrite ?Nat.eqb_eq, ?Nat.eqb_neq in E2; [rewrite Nat.eqb_refl; lia|]. apply Nat.eqb_neq in E, E2. rewrite E, E2. auto. Qed.
Lemma tr_lt : forall a n j, S a < n -> j < n -> tr a j < n.
Proof. intros. unfold tr. repeat destruct (_ =? _); lia. Qed.
Lemma tr_inj : forall a i j, tr a i = tr a j -> i = j.
Proof. intros a i j H. rewrite <- (tr_tr a i), H. apply tr_tr. Qed.

Definition swap_bit (a : nat) (bs : bits) : bits := map (fun j => nth (tr a j) bs false) (seq 0 (length bs)).
Definition xor (bs ph : bits) : bits := map (fun i => xorb (nth i bs false) (nth i ph false)) (seq 0 (length bs)).

Lemma bits_ext : forall n (b b' : bits), length b = n -> length b' = n -> (forall i, i < n -> nth i b false = nth i b' false) -> b = b'.
Proof. intros n b b' L L' H. apply nth_ext with (d := false) (d' := false); [congruence|]. intros i Hi. apply H. lia. Qed.
Lemma nth_flip : forall a bs i, nth i (flip_bit a bs) false = if (i =? a) && (i <? length bs) then negb (nth i bs false) else nth i bs false.
Proof.
  induction a; destruct bs as [|x bs]; intros i; cbn [flip_bit nth length].
  - destruct i; destruct (_ =? _); reflexivity.
  - destruct i; cbn; auto.
  - rewrite (proj2 (Nat.ltb_ge i 0)), andb_false_r by lia. auto.
  - destruct i; cbn [nth]; auto. rewrite IHa. reflexivity.
Qed.
Lemma flip_bit_length : forall a bs, length (flip_bit a bs) = length bs.
Proof. induction a; destruct bs; simpl; auto. Qed.
Lemma nth_swap : forall a bs i, i < length bs -> nth i (swap_bit a bs) false = nth (tr a i) bs false.
Proof. intros. unfold swap_bit. apply nth_map_seq. auto. Qed.
Lemma swap_bit_length : forall a bs, length (swap_bit a bs) = length bs.
Proof. intros. unfold swap_bit. rewrite map_length, seq_length. auto. Qed.
Lemma nth_xor : forall bs ph i, i < length bs -> nth i (xor bs ph) false = xorb (nth i bs false) (nth i ph false).
Proof. intros. unfold xor. apply nth_map_seq. auto. Qed.
Lemma xor_length : forall bs ph, length (xor bs ph) = length bs.
Proof. intros. unfold xor. rewrite map_length, seq_length. auto. Qed.
Lemma insert_at_length : forall a b bs, length (insert_at a b bs) = S (length bs).
Proof. induction a; destruct bs; simpl; auto. Qed.
Lemma nth_insert : forall a b bs i, a <= length bs -> nth i (insert_at a b bs) false = if i <? a then nth i bs false else if i =? a then b else nth (i - 1) bs false.
Proof.
  induction a; intros b bs i H; cbn [insert_at].
  - destruct i; cbn; auto. rewrite Nat.sub_0_r. auto.
  - destruct bs as [|x bs]; cbn [length] in H; [lia|]. destruct i; cbn [nth]; auto. rewrite IHa by lia. change (S i <? S a) with (i <? a). change (S i =? S a) with (i =? a).
    destruct (i <? a) eqn:E; auto. destruct (i =? a) eqn:E2; auto. apply Nat.ltb_ge in E. apply Nat.eqb_neq in E2. destruct i; [lia|]. cbn [Nat.sub nth]. rewrite Nat.sub_0_r. auto.
Qed.

Lemma insert_at_with_bit : forall a s bs, a <= length bs -> insert_at a s bs = with_bit a s bs.
Proof. induction a; destruct bs; simpl; intros; auto; try lia. rewrite IHa by lia. reflexivity. Qed.
Lemma flip_bit_reversed : forall a bs, a < length bs -> flip_bit a bs = reversed a bs.
Proof. induction a; destruct bs; simpl; intros; auto; try lia. rewrite IHa by lia. reflexivity. Qed.
Lemma nth_exchanged : forall a bs i, S a < length bs -> i < length bs -> nth i (exchanged a bs) false = nth (tr a i) bs false.
Proof.
  induction a; destruct bs as [|x bs]; cbn [length]; intros i H Hi; try lia.
  - destruct bs as [|y bs]; cbn [length] in *; [lia|]. destruct i as [|[|i]]; reflexivity.
  - change (exchanged (S a) (x :: bs)) with (x :: exchanged a bs). destruct i; cbn [nth]; auto. rewrite IHa by lia.
    unfold tr. change (S i =? S a) with (i =? a). change (S i =? S (S a)) with (i =? S a). destruct (i =? a); auto. destruct (i =? S a); auto.
Qed.
Lemma exchanged_length : forall a bs, S a < length bs -> length (exchanged a bs) = length bs.
Proof. intros. unfold exchanged. rewrite app_length, firstn_length. cbn [length]. rewrite skipn_length. lia. Qed.
Lemma swap_bit_exchanged : forall a bs, S a < length bs -> swap_bit a bs = exchanged a bs.
Proof.
  intros a bs H. apply (bits_ext (length bs)); [apply swap_bit_length|apply exchanged_length; auto|]. intros i Hi. rewrite nth_swap, nth_exchanged by auto. auto.
Qed.

Lemma flip_flip_bit : forall a bs, flip_bit a (flip_bit a bs) = bs.
Proof. induction a; destruct bs; simpl; auto; [rewrite negb_involutive; auto|congruence]. Qed.

(** ---- elementary symmetries ---- *)
Definition swapc (n a : nat) (c : cube) : cube := cbuild n (fun bs => cget c (swap_bit a bs)).
Lemma flip_mirrored : forall n a c, a < n -> mirrored n a c (flip n a c).
Proof. intros n a c Ha. split; [apply cbuild_length|]. intros bs L. rewrite <- !cget_corner. unfold flip. rewrite cget_build by auto. rewrite flip_bit_reversed by lia. auto. Qed.
Lemma mirrored_flip : forall n a c d, a < n -> mirrored n a c d -> d = flip n a c.
Proof.
  intros n a c d Ha [L H]. apply (cube_ext n); [auto|apply cbuild_length|]. intros bs Lb. unfold flip. rewrite cget_build by auto. rewrite !cget_corner, H by auto. rewrite flip_bit_reversed by lia. auto.
Qed.
Lemma swapc_swapped : forall n a c, S a < n -> axes_swapped n a c (swapc n a c).
Proof. intros n a c Ha. split; [apply cbuild_length|]. intros bs L. rewrite <- !cget_corner. unfold swapc. rewrite cget_build by auto. rewrite swap_bit_exchanged by lia. auto. Qed.
Lemma swapped_swapc : forall n a c d, S a < n -> axes_swapped n a c d -> d = swapc n a c.
Proof.
  intros n a c d Ha [L H]. apply (cube_ext n); [auto|apply cbuild_length|]. intros bs Lb. unfold swapc. rewrite cget_build by auto. rewrite !cget_corner, H by auto. rewrite swap_bit_exchanged by lia. auto.
Qed.
Lemma antisym_flip : forall n f a c, cube_antisymmetric n f -> length c = 2 ^ n -> a < n -> f (flip n a c) = (- f c)%Z.
Proof. intros n f a c F L Ha. destruct (F a c (flip n a c) L) as [X _]. apply X; auto. apply flip_mirrored; auto. Qed.
Lemma antisym_swap : forall n f a c, cube_antisymmetric n f -> length c = 2 ^ n -> S a < n -> f (swapc n a c) = (- f c)%Z.
Proof. intros n f a c F L Ha. destruct (F a c (swapc n a c) L) as [_ X]. apply X; auto. apply swapc_swapped; auto. Qed.
Lemma antisym_intro : forall n f, (forall a c, length c = 2 ^ n -> a < n -> f (flip n a c) = (- f c)%Z) ->
  (forall a c, length c = 2 ^ n -> S a < n -> f (swapc n a c) = (- f c)%Z) -> cube_antisymmetric n f.
Proof. intros n f H1 H2 a c d L. split; intros Ha H; [rewrite (mirrored_flip n a c d Ha H)|rewrite (swapped_swapc n a c d Ha H)]; auto. Qed.

(** ---- the group ---- *)
Definition perms (n : nat) : list (list nat) := match n with 0 => [[]] | _ => map snd (permutations (seq 0 n)) end.
Definition group (n : nat) : list (list nat * bits) := list_prod (perms n) (corners n).
Definition act (n : nat) (h : list nat * bits) (c : cube) : cube := cbuild n (fun bs => cget c (scatter (fst h) (xor bs (snd h)))).
Definition gsign (h : list nat * bits) : Z := (sgn (fst h) * sgn_pow (bit_sum (snd h)))%Z.

Lemma perms_in : forall n p, In p (perms n) <-> Permutation (seq 0 n) p.
Proof.
  intros [|n] p.
  - simpl. split; [intros [<-|[]]; auto|]. intros H. apply Permutation_nil in H. auto.
  - unfold perms. split; [apply permutations_sound|]. apply permutations_complete. discriminate.
Qed.
Lemma perms_nodup : forall n, NoDup (perms n).
Proof. intros [|n]; [repeat constructor; simpl; auto|]. apply permutations_nodup. apply seq_NoDup. Qed.

Section Group.
Variable n : nat.

Lemma perm_facts : forall p, Permutation (seq 0 n) p -> length p = n /\ NoDup p /\ (forall j, In j p <-> j < n).
Proof.
  intros p P. split; [rewrite <- (Permutation_length P); apply seq_length|]. split; [eapply Permutation_NoDup; [exact P|apply seq_NoDup]|].
  intros j. split; intros H; [apply (Permutation_in _ (Permutation_sym P)) in H; apply in_seq in H; lia|]. apply (Permutation_in _ P). apply in_seq. lia.
Qed.
Lemma idx_lt : forall p j, Permutation (seq 0 n) p -> j < n -> index_of Nat.eqb j p < n.
Proof. intros p j P Hj. destruct (perm_facts p P) as (L & _ & I). rewrite <- L. apply index_of_lt; [apply nat_eqb_ok|]. apply I; auto. Qed.
Lemma nth_idx : forall p j, Permutation (seq 0 n) p -> j < n -> nth (index_of Nat.eqb j p) p 0 = j.
Proof. intros p j P Hj. apply nth_index_of; [apply nat_eqb_ok|]. apply (perm_facts p P); auto. Qed.
Lemma idx_nth : forall p i, Permutation (seq 0 n) p -> i < n -> index_of Nat.eqb (nth i p 0) p = i.
Proof. intros p i P Hi. destruct (perm_facts p P) as (L & ND & _). apply index_of_nth; auto; [apply nat_eqb_ok|lia]. Qed.
Lemma nth_perm_lt : forall p i, Permutation (seq 0 n) p -> i < n -> nth i p 0 < n.
Proof. intros p i P Hi. destruct (perm_facts p P) as (L & ND & I). apply I, nth_In. lia. Qed.

Lemma scatter_length : forall p bs, Permutation (seq 0 n) p -> length (scatter p bs) = n.
Proof. intros. unfold scatter. rewrite map_length, seq_length. apply perm_facts; auto. Qed.
Lemma nth_scatter : forall p bs j, Permutation (seq 0 n) p -> j < n -> nth j (scatter p bs) false = nth (index_of Nat.eqb j p) bs false.
Proof. intros p bs j P Hj. unfold scatter. rewrite (proj1 (perm_facts p P)). apply nth_map_seq. auto. Qed.
Lemma scatter_inj : forall p b b', Permutation (seq 0 n) p -> length b = n -> length b' = n -> scatter p b = scatter p b' -> b = b'.
Proof.
  intros p b b' P L L' E. apply (bits_ext n); auto. intros i Hi. pose proof (nth_perm_lt p i P Hi) as B.
  assert (Q : nth (nth i p 0) (scatter p b) false = nth (nth i p 0) (scatter p b') false) by (rewrite E; auto). rewrite !nth_scatter, idx_nth in Q by auto. auto.
Qed.
Lemma xor_xor : forall b f, xor (xor b f) f = b.
Proof.
  intros b f. apply (bits_ext (length b)); [rewrite !xor_length; auto|auto|]. intros i Hi. rewrite !nth_xor by (rewrite ?xor_length; auto). destruct (nth i b false), (nth i f false); reflexivity.
Qed.
Lemma xor_inj : forall b b' f, length b = n -> length b' = n -> xor b f = xor b' f -> b = b'.
Proof. intros b b' f L L' E. rewrite <- (xor_xor b f), E. apply xor_xor. Qed.

Lemma group_in : forall h, In h (group n) <-> Permutation (seq 0 n) (fst h) /\ length (snd h) = n.
Proof. intros [p f]. unfold group. rewrite in_prod_iff, perms_in, corners_in. reflexivity. Qed.
Lemma nodup_prod : forall A B (a : list A) (b : list B), NoDup a -> NoDup b -> NoDup (list_prod a b).
Proof.
  induction a as [|x a IH]; simpl; intros b Ha Hb; [constructor|]. inversion Ha; subst. apply nodup_app; auto.
  - apply NoDup_map_inj; auto. congruence.
  - intros [u v] H H'. apply in_map_iff in H as (y & E & _). injection E as <- <-. apply in_prod_iff in H' as [H' _]. auto.
Qed.
Lemma group_nodup : NoDup (group n).
Proof. apply nodup_prod; [apply perms_nodup|apply corners_nodup]. Qed.

Lemma act_length : forall h c, length (act n h c) = 2 ^ n.
Proof. intros. apply cbuild_length. Qed.
Lemma cget_act : forall h c bs, length bs = n -> cget (act n h c) bs = cget c (scatter (fst h) (xor bs (snd h))).
Proof. intros. unfold act. rewrite cget_build by auto. auto. Qed.

Lemma act_inj : forall c h h', NoDup c -> length c = 2 ^ n -> In h (group n) -> In h' (group n) -> act n h c = act n h' c -> h = h'.
Proof.
  intros c [p f] [p' f'] ND L H H' E. apply group_in in H as [P Lf]. apply group_in in H' as [P' Lf']. cbn [fst snd] in *.
  assert (A : forall bs, length bs = n -> scatter p (xor bs f) = scatter p' (xor bs f')).
  { intros bs Lb. assert (Q : cget (act n (p, f) c) bs = cget (act n (p', f') c) bs) by (rewrite E; auto). rewrite !cget_act in Q by auto. cbn [fst snd] in Q. apply (cget_inj n) in Q; auto; apply scatter_length; auto. }
  assert (Ef : f = f').
  { apply (bits_ext n); auto. intros i Hi. pose proof (A f Lf) as Q. pose proof (nth_perm_lt p' i P' Hi) as B.
    assert (Q2 : nth (nth i p' 0) (scatter p (xor f f)) false = nth (nth i p' 0) (scatter p' (xor f f')) false) by (rewrite Q; auto).
    rewrite !nth_scatter, idx_nth in Q2 by auto. rewrite !nth_xor in Q2 by (rewrite Lf; auto; apply idx_lt; auto). rewrite xorb_nilpotent in Q2. destruct (nth i f false), (nth i f' false); auto; discriminate. }
  subst f'. f_equal.
  assert (A2 : forall bs, length bs = n -> scatter p bs = scatter p' bs). { intros bs Lb. rewrite <- (xor_xor bs f). apply A. rewrite xor_length. auto. }
  destruct (perm_facts p P) as (Lp & NDp & Ip). destruct (perm_facts p' P') as (Lp' & NDp' & Ip').
  apply nth_ext with (d := 0) (d' := 0); [congruence|]. intros i Hi. rewrite Lp in Hi.
  set (e := map (fun k => k =? i) (seq 0 n)). assert (Le : length e = n) by (unfold e; rewrite map_length, seq_length; auto).
  assert (Ne : forall k, k < n -> nth k e false = (k =? i)) by (intros k Hk; apply (nth_map_seq _ (fun k => k =? i)); auto).
  pose proof (nth_perm_lt p i P Hi) as B. assert (Q : nth (nth i p 0) (scatter p e) false = nth (nth i p 0) (scatter p' e) false) by (rewrite A2; auto).
  rewrite !nth_scatter, idx_nth in Q by auto. rewrite !Ne in Q by (auto; apply idx_lt; auto). rewrite Nat.eqb_refl in Q. symmetry in Q. apply Nat.eqb_eq in Q. rewrite <- Q at 2. rewrite nth_idx; auto.
Qed.

Lemma act_perm : forall c h, length c = 2 ^ n -> In h (group n) -> Permutation c (act n h c).
Proof.
  intros c [p f] L H. apply group_in in H as [P Lf]. cbn [fst snd] in *. rewrite <- (cbuild_get n c L) at 1. unfold act, cbuild. rewrite <- (map_map (fun bs => scatter p (xor bs f)) (cget c)). apply Permutation_map.
  apply Permutation_sym, NoDup_Permutation_bis.
  - apply NoDup_map_inj; [|apply corners_nodup]. intros b b' Hb Hb' E. apply corners_in in Hb, Hb'. cbn [fst snd] in E. apply scatter_inj in E; auto; [|rewrite xor_length; auto..]. apply xor_inj in E; auto.
  - rewrite map_length. auto.
  - intros b Hb. apply in_map_iff in Hb as (b' & <- & _). apply corners_in, scatter_length. auto.
Qed.

(** composing with an elementary symmetry *)
Definition h_flip (a : nat) (h : list nat * bits) := (fst h, flip_bit (index_of Nat.eqb a (fst h)) (snd h)).
Definition h_swap (a : nat) (h : list nat * bits) := (map (tr a) (fst h), snd h).

Lemma tr_perm : forall a, S a < n -> Permutation (map (tr a) (seq 0 n)) (seq 0 n).
Proof.
  intros a Ha. apply NoDup_Permutation_bis; [|rewrite map_length; auto|].
  - apply NoDup_map_inj; [|apply seq_NoDup]. intros i j _ _. apply tr_inj.
  - intros j Hj. apply in_map_iff in Hj as (i & <- & Hi). apply in_seq in Hi. apply in_seq. pose proof (tr_lt a n i Ha). lia.
Qed.
Lemma h_flip_in : forall a h, In h (group n) -> In (h_flip a h) (group n).
Proof. intros a h H. apply group_in in H as [P L]. apply group_in. unfold h_flip. cbn [fst snd]. rewrite flip_bit_length. auto. Qed.
Lemma h_swap_in : forall a h, S a < n -> In h (group n) -> In (h_swap a h) (group n).
Proof.
  intros a h Ha H. apply group_in in H as [P L]. apply group_in. unfold h_swap. cbn [fst snd]. split; auto. eapply perm_trans; [apply Permutation_sym, (tr_perm a Ha)|]. apply Permutation_map. auto.
Qed.
Lemma h_flip_invol : forall a h, h_flip a (h_flip a h) = h.
Proof. intros a [p f]. unfold h_flip. cbn [fst snd]. rewrite flip_flip_bit. auto. Qed.
Lemma h_swap_invol : forall a h, h_swap a (h_swap a h) = h.
Proof. intros a [p f]. unfold h_swap. cbn [fst snd]. rewrite map_map. f_equal. rewrite (map_ext _ (fun x => x)) by apply tr_tr. apply map_id. Qed.
Lemma invol_perm : forall (g : list nat * bits -> list nat * bits), (forall h, g (g h) = h) -> (forall h, In h (group n) -> In (g h) (group n)) -> Permutation (map g (group n)) (group n).
Proof.
  intros g I H. apply NoDup_Permutation_bis; [|rewrite map_length; auto|].
  - apply NoDup_map_inj; [|apply group_nodup]. intros x y _ _ E. rewrite <- (I x), E. auto.
  - intros h Hh. apply in_map_iff in Hh as (x & <- & Hx). auto.
Qed.

Lemma index_map_tr : forall a p j, index_of Nat.eqb j (map (tr a) p) = index_of Nat.eqb (tr a j) p.
Proof.
  intros a p j. induction p as [|x p IH]; simpl; auto. rewrite IH. destruct (j =? tr a x) eqn:E, (tr a j =? x) eqn:E2; auto; rewrite ?Nat.eqb_eq, ?Nat.eqb_neq in *; subst; rewrite ?tr_tr in *; congruence.
Qed.

Lemma act_flip : forall a h c, a < n -> In h (group n) -> act n h (flip n a c) = act n (h_flip a h) c.
Proof.
  intros a [p f] c Ha H. apply group_in in H as [P L]. cbn [fst snd] in *. apply cbuild_ext. intros bs Lb. unfold flip, h_flip. cbn [fst snd]. rewrite cget_build by (apply scatter_length; auto). f_equal.
  apply (bits_ext n); [rewrite flip_bit_length; apply scatter_length; auto|apply scatter_length; auto|]. intros j Hj. rewrite nth_flip, scatter_length, !nth_scatter by auto. rewrite (proj2 (Nat.ltb_lt j n) Hj), andb_true_r.
  pose proof (idx_lt p j P Hj). rewrite !nth_xor by lia. rewrite nth_flip. destruct (j =? a) eqn:E; rewrite ?Nat.eqb_eq, ?Nat.eqb_neq in E.
  - subst j. rewrite Nat.eqb_refl. rewrite (proj2 (Nat.ltb_lt _ (length f))) by lia. cbn. destruct (nth _ bs false), (nth _ f false); reflexivity.
  - destruct (_ =? _) eqn:E2; auto. exfalso. apply Nat.eqb_eq in E2. apply E. rewrite <- (nth_idx p j P Hj), E2. apply nth_idx; auto.
Qed.
Lemma act_swap : forall a h c, S a < n -> In h (group n) -> act n h (swapc n a c) = act n (h_swap a h) c.
Proof.
  intros a h c Ha H. pose proof (h_swap_in a h Ha H) as H'. apply group_in in H as [P L]. apply group_in in H' as [P' _]. apply cbuild_ext. intros bs Lb. unfold swapc. rewrite cget_build by (apply scatter_length; auto). f_equal.
  apply (bits_ext n); [rewrite swap_bit_length; apply scatter_length; auto|apply scatter_length; auto|]. intros j Hj. rewrite nth_swap, !nth_scatter by (rewrite ?scatter_length; auto using tr_lt). unfold h_swap. cbn [fst snd]. rewrite index_map_tr. auto.
Qed.

Lemma bit_sum_flip : forall bs a, a < length bs -> sgn_pow (bit_sum (flip_bit a bs)) = (- sgn_pow (bit_sum bs))%Z.
Proof.
  induction bs as [|x bs IH]; intros a Ha; cbn [length] in Ha; [lia|].
  assert (C : forall y l, bit_sum (y :: l) = (if y : bool then 1 else 0) + bit_sum l) by reflexivity.
  destruct a; cbn [flip_bit]; rewrite !C, !sgn_pow_add.
  - destruct x; cbn [negb]; change (sgn_pow 1) with (-1)%Z; change (sgn_pow 0) with 1%Z; ring.
  - rewrite IH by lia. ring.
Qed.
Lemma gsign_flip : forall a h, a < n -> In h (group n) -> gsign (h_flip a h) = (- gsign h)%Z.
Proof. intros a [p f] Ha H. apply group_in in H as [P L]. cbn [fst snd] in *. unfold gsign, h_flip. cbn [fst snd]. rewrite bit_sum_flip; [ring|]. rewrite L. apply idx_lt; auto. Qed.

Lemma sgn_tr : forall a p, S a < n -> Permutation (seq 0 n) p -> sgn (map (tr a) p) = (- sgn p)%Z.
Proof.
  intros a p Ha P. assert (ND : NoDup (map (tr a) (seq 0 n))) by (apply NoDup_map_inj; [|apply seq_NoDup]; intros i j _ _; apply tr_inj).
  pose proof (sgn_map _ _ P (tr a) (seq_NoDup _ _) ND) as Q. rewrite sgn_seq in Q.
  assert (E : sgn (map (tr a) (seq 0 n)) = (-1)%Z).
  { assert (S3 : seq 0 n = seq 0 a ++ [a; S a] ++ seq (S (S a)) (n - S (S a))).
    { replace n with (a + (2 + (n - S (S a)))) at 1 by lia. rewrite seq_app. f_equal. }
    rewrite S3, !map_app. rewrite (map_ext_in (tr a) (fun x => x) (seq 0 a)), map_id. 2:{ intros x Hx. apply in_seq in Hx. unfold tr. rewrite (proj2 (Nat.eqb_neq x a)), (proj2 (Nat.eqb_neq x (S a))) by lia. auto. }
    rewrite (map_ext_in (tr a) (fun x => x) (seq _ _)), map_id. 2:{ intros x Hx. apply in_seq in Hx. unfold tr. rewrite (proj2 (Nat.eqb_neq x a)), (proj2 (Nat.eqb_neq x (S a))) by lia. auto. }
    cbn [map]. unfold tr. rewrite !Nat.eqb_refl. replace (S a =? a) with false by (symmetry; apply Nat.eqb_neq; lia).
    assert (G : forall l x y r, x <> y -> sgn (l ++ [y; x] ++ r) = (- sgn (l ++ [x; y] ++ r))%Z).
    { induction l as [|z l IH]; intros x y r Hxy; cbn [app]; [apply sgn_swap; auto|]. rewrite !(sgn_cons z). change (l ++ y :: x :: r) with (l ++ [y; x] ++ r). change (l ++ x :: y :: r) with (l ++ [x; y] ++ r). rewrite IH by auto.
      rewrite (count_lt_perm z (l ++ [y; x] ++ r) (l ++ [x; y] ++ r)) by (apply Permutation_app_head; simpl; constructor). ring. }
    rewrite G by lia. rewrite <- S3. rewrite sgn_seq. auto. }
  rewrite E in Q. rewrite Z.mul_1_l in Q. rewrite Q. ring.
Qed.
Lemma gsign_swap : forall a h, S a < n -> In h (group n) -> gsign (h_swap a h) = (- gsign h)%Z.
Proof. intros a [p f] Ha H. apply group_in in H as [P L]. cbn [fst snd] in *. unfold gsign, h_swap. cbn [fst snd]. rewrite sgn_tr by auto. ring. Qed.

(** ---- relative orientation of two cubes ---- *)
Definition csign (c d : cube) : Z := sumZ (map (fun h => if list_eqb (act n h c) d then gsign h else 0%Z) (group n)).

Lemma gsign_cases : forall h, gsign h = 1%Z \/ gsign h = (-1)%Z.
Proof. intros h. unfold gsign. destruct (sgn_cases (fst h)) as [->| ->], (sgn_pow_cases (bit_sum (snd h))) as [->| ->]; auto. Qed.
Lemma gsign_sq : forall h, (gsign h * gsign h = 1)%Z.
Proof. intros h. destruct (gsign_cases h) as [->| ->]; auto. Qed.

Lemma sumZ_unique : forall A (f : A -> Z) (l : list A) x, NoDup l -> In x l -> (forall y, In y l -> y <> x -> f y = 0%Z) -> sumZ (map f l) = f x.
Proof.
  intros A f l x ND I H. apply in_split in I as (l1 & l2 & ->). rewrite map_app, sumZ_app. cbn [map sumZ fold_right]. fold (sumZ (map f l2)). apply NoDup_remove_2 in ND. rewrite in_app_iff in ND.
  rewrite !sumZ_map_0; [ring| |]; intros y Hy; apply H; try (intros ->; apply ND; auto); apply in_app_iff; simpl; auto.
Qed.
Lemma csign_act : forall c h, NoDup c -> length c = 2 ^ n -> In h (group n) -> csign c (act n h c) = gsign h.
Proof.
  intros c h ND L H. unfold csign. rewrite (sumZ_unique _ _ _ h group_nodup H).
  - rewrite (proj2 (list_eqb_eq _ _) eq_refl). auto.
  - intros h' H' Hne. destruct (list_eqb _ _) eqn:E; auto. exfalso. apply list_eqb_eq in E. apply Hne. eapply act_inj; eauto.
Qed.
Lemma csign_nz : forall c d, csign c d <> 0%Z -> exists h, In h (group n) /\ act n h c = d.
Proof.
  intros c d H. destruct (Exists_dec (fun h => act n h c = d) (group n)) as [E|E].
  - intros h. apply (list_eq_dec Nat.eq_dec).
  - apply Exists_exists in E. auto.
  - exfalso. apply H. apply sumZ_map_0. intros h Hh. destruct (list_eqb _ _) eqn:Q; auto. exfalso. apply E, Exists_exists. exists h. split; auto. apply list_eqb_eq; auto.
Qed.
Lemma csign_perm : forall c d, length c = 2 ^ n -> csign c d <> 0%Z -> Permutation c d.
Proof. intros c d L H. destruct (csign_nz c d H) as (h & Hh & <-). apply act_perm; auto. Qed.

Lemma csign_antisym : forall d, cube_antisymmetric n (fun c => csign c d).
Proof.
  intros d. apply antisym_intro.
  - intros a c L Ha. unfold csign. rewrite <- sumZ_map_opp. rewrite <- (sumZ_perm _ _ (Permutation_map _ (invol_perm (h_flip a) (h_flip_invol a) (h_flip_in a)))). rewrite map_map. apply sumZ_map_ext. intros h Hh.
    rewrite act_flip, h_flip_invol, gsign_flip by (auto using h_flip_in). destruct (list_eqb _ _); ring.
  - intros a c L Ha. unfold csign. rewrite <- sumZ_map_opp. rewrite <- (sumZ_perm _ _ (Permutation_map _ (invol_perm (h_swap a) (h_swap_invol a) (fun h => h_swap_in a h Ha)))). rewrite map_map. apply sumZ_map_ext. intros h Hh.
    rewrite act_swap, h_swap_invol, gsign_swap by (auto using h_swap_in). destruct (list_eqb _ _); ring.
Qed.

(** ---- antisymmetric quantities under the whole group ---- *)
Lemma swap_chain : forall (F : list nat -> Z),
  (forall l1 x y l2, Permutation (seq 0 n) (l1 ++ x :: y :: l2) -> F (l1 ++ y :: x :: l2) = (- F (l1 ++ x :: y :: l2))%Z) ->
  forall l l', Permutation l l' -> forall pre, Permutation (seq 0 n) (pre ++ l) -> F (pre ++ l') = (sgn l * sgn l' * F (pre ++ l))%Z.
Proof.
  intros F HF l l' P. induction P; intros pre Q.
  - rewrite sgn_sq. ring.
  - rewrite !sgn_cons, (count_lt_perm x l l' P). assert (Q' : Permutation (seq 0 n) ((pre ++ [x]) ++ l)) by (rewrite <- app_assoc; auto).
    specialize (IHP (pre ++ [x]) Q'). rewrite <- !app_assoc in IHP. cbn [app] in IHP. rewrite IHP.
    transitivity ((sgn_pow (count_lt x l') * sgn_pow (count_lt x l')) * (sgn l * sgn l' * F (pre ++ x :: l)))%Z; [rewrite sgn_pow_sq|]; ring.
  - rewrite (HF pre y x l Q). assert (y <> x). { apply Permutation_NoDup in Q; [|apply seq_NoDup]. intros ->. apply NoDup_remove_2 in Q. apply Q. apply in_app_iff. simpl. auto. }
    rewrite (sgn_swap y x l) by auto. transitivity (- (sgn (y :: x :: l) * sgn (y :: x :: l)) * F (pre ++ y :: x :: l))%Z; [rewrite sgn_sq|]; ring.
  - assert (Q' : Permutation (seq 0 n) (pre ++ l')) by (eapply perm_trans; [exact Q|apply Permutation_app_head; auto]). rewrite (IHP2 pre Q'), (IHP1 pre Q).
    transitivity ((sgn l' * sgn l') * (sgn l * sgn l'' * F (pre ++ l)))%Z; [|rewrite sgn_sq]; ring.
Qed.

Lemma index_swap : forall l1 x y l2 j, NoDup (l1 ++ x :: y :: l2) -> index_of Nat.eqb j (l1 ++ y :: x :: l2) = tr (length l1) (index_of Nat.eqb j (l1 ++ x :: y :: l2)).
Proof.
  induction l1 as [|z l1 IH]; intros x y l2 j ND; cbn [app index_of length].
  - assert (x <> y). { intros ->. inversion ND; subst. apply H1. left. auto. } destruct (j =? y) eqn:E1, (j =? x) eqn:E2; rewrite ?Nat.eqb_eq, ?Nat.eqb_neq in *; try congruence; reflexivity.
  - destruct (j =? z); [reflexivity|]. rewrite IH by (inversion ND; auto). generalize (index_of Nat.eqb j (l1 ++ x :: y :: l2)). intros i. unfold tr. change (S i =? S (length l1)) with (i =? length l1). change (S i =? S (S (length l1))) with (i =? S (length l1)).
    destruct (i =? length l1); auto. destruct (i =? S (length l1)); auto.
Qed.

Lemma antisym_transpose : forall f c p, cube_antisymmetric n f -> length c = 2 ^ n -> Permutation (seq 0 n) p -> f (transpose_cube n p c) = (sgn p * f c)%Z.
Proof.
  intros f c p Hf L P. pose proof (swap_chain (fun q => f (transpose_cube n q c))) as Q. cbn beta in Q. specialize (fun H => Q H _ _ P []). cbn [app] in Q. rewrite Q; auto.
  - rewrite sgn_seq. assert (E : transpose_cube n (seq 0 n) c = c).
    { apply (cube_ext n); [apply cbuild_length|auto|]. intros bs Lb. unfold transpose_cube. rewrite cget_build by auto. f_equal. apply (bits_ext n); [apply scatter_length; auto|auto|]. intros j Hj. rewrite nth_scatter by auto. f_equal.
      pose proof (idx_nth (seq 0 n) j (Permutation_refl _) Hj) as X. rewrite seq_nth in X by auto. exact X. }
    rewrite E. ring.
  - intros l1 x y l2 PP. pose proof (perm_facts _ PP) as (LL & ND & _). rewrite app_length in LL. cbn [length] in LL.
    assert (PP' : Permutation (seq 0 n) (l1 ++ y :: x :: l2)) by (eapply perm_trans; [exact PP|apply Permutation_app_head; constructor]).
    rewrite <- (antisym_swap n f (length l1) (transpose_cube n (l1 ++ x :: y :: l2) c)); auto; [|apply cbuild_length|lia]. f_equal. unfold swapc. apply cbuild_ext. intros bs Lb. unfold transpose_cube. rewrite cget_build by (rewrite swap_bit_length; auto). f_equal.
    apply (bits_ext n); [apply scatter_length; auto..|]. intros j Hj. rewrite !nth_scatter by auto. pose proof (idx_lt _ j PP Hj). rewrite nth_swap by lia. rewrite index_swap by auto. auto.
Qed.

Lemma flips_get : forall axes c bs, length axes <= n -> length c = 2 ^ n -> length bs = n -> cget (flips n axes c) bs = cget c (xor bs axes).
Proof.
  intros axes c bs La L Lb. unfold flips.
  assert (G : forall k, k <= length axes -> forall bs, length bs = n -> cget (fold_left (fun v i => if nth i axes false then flip n i v else v) (seq 0 k) c) bs = cget c (xor bs (firstn k axes))).
  { induction k; intros Hk b Hb.
    - cbn [seq fold_left firstn]. f_equal. apply (bits_ext n); [auto|rewrite xor_length; auto|]. intros i Hi. rewrite nth_xor by lia. replace (nth i [] false) with false by (destruct i; auto). destruct (nth i b false); auto.
    - rewrite seq_S, fold_left_app. cbn [fold_left Nat.add]. assert (E : forall b, length b = n -> xor b (firstn (S k) axes) = xor (if nth k axes false then flip_bit k b else b) (firstn k axes)).
      { intros b' Hb'. apply (bits_ext n); [rewrite xor_length; auto|rewrite xor_length; destruct (nth k axes false); rewrite ?flip_bit_length; auto|]. intros i Hi.
        rewrite !nth_xor by (destruct (nth k axes false); rewrite ?flip_bit_length; lia).
        assert (F1 : forall m, m <= length axes -> nth i (firstn m axes) false = if i <? m then nth i axes false else false).
        { intros m Hm. destruct (i <? m) eqn:E1; rewrite ?Nat.ltb_lt, ?Nat.ltb_ge in E1; [|apply nth_overflow; rewrite firstn_length; lia]. rewrite <- (firstn_skipn m axes) at 2. rewrite app_nth1; auto. rewrite firstn_length. lia. }
        rewrite !F1 by lia. destruct (Nat.eq_dec i k) as [->|Hne].
        - rewrite (proj2 (Nat.ltb_lt k (S k))), (proj2 (Nat.ltb_ge k k)) by lia. destruct (nth k axes false); [rewrite nth_flip, Nat.eqb_refl, (proj2 (Nat.ltb_lt k (length b'))) by lia; cbn|]; destruct (nth k b' false); reflexivity.
        - assert (E2 : (i <? S k) = (i <? k)). { destruct (i <? k) eqn:E3; rewrite ?Nat.ltb_lt, ?Nat.ltb_ge in *; lia. } rewrite E2. f_equal. destruct (nth k axes false); auto. rewrite nth_flip, (proj2 (Nat.eqb_neq i k)) by auto. reflexivity. }
      rewrite E by auto. destruct (nth k axes false).
      + unfold flip. rewrite cget_build by auto. apply IHk; [lia|rewrite flip_bit_length; auto].
      + apply IHk; auto. lia. }
  rewrite G by auto. rewrite firstn_all. auto.
Qed.
Lemma flips_length : forall axes c, length c = 2 ^ n -> length (flips n axes c) = 2 ^ n.
Proof.
  intros axes c L. unfold flips. revert c L. generalize (seq 0 (length axes)). induction l; simpl; intros c L; auto. apply IHl. destruct (nth a axes false); auto. apply cbuild_length.
Qed.
Lemma act_flips : forall h c, In h (group n) -> act n h c = flips n (snd h) (transpose_cube n (fst h) c).
Proof.
  intros h c H. apply group_in in H as [P L]. apply (cube_ext n); [apply act_length|apply flips_length, cbuild_length|]. intros bs Lb. rewrite flips_get by (auto; try lia; apply cbuild_length). rewrite cget_act by auto. unfold transpose_cube. rewrite cget_build by (rewrite xor_length; auto). auto.
Qed.
Lemma antisym_flips : forall f axes c, cube_antisymmetric n f -> length axes = n -> length c = 2 ^ n -> f (flips n axes c) = (sgn_pow (bit_sum axes) * f c)%Z.
Proof.
  intros f axes c Hf La L. unfold flips. rewrite La.
  assert (G : forall k, k <= n -> f (fold_left (fun v i => if nth i axes false then flip n i v else v) (seq 0 k) c) = (sgn_pow (bit_sum (firstn k axes)) * f c)%Z /\ length (fold_left (fun v i => if nth i axes false then flip n i v else v) (seq 0 k) c) = 2 ^ n).
  { induction k; intros Hk; [cbn; split; auto; destruct (f c); auto|]. destruct (IHk ltac:(lia)) as [E1 E2]. rewrite seq_S, fold_left_app. cbn [fold_left Nat.add].
    assert (E3 : firstn (S k) axes = firstn k axes ++ [nth k axes false]). { clear -Hk La. subst n. revert k Hk. induction axes as [|x axes IH]; intros k Hk; cbn [length] in Hk; [lia|]. destruct k; auto. change (firstn (S (S k)) (x :: axes)) with (x :: firstn (S k) axes). rewrite IH by lia. reflexivity. }
    rewrite E3. unfold bit_sum. rewrite map_app, list_sum_app, sgn_pow_add. cbn [map list_sum fold_right]. rewrite Nat.add_0_r. fold (bit_sum (firstn k axes)). destruct (nth k axes false).
    - split; [|apply cbuild_length]. rewrite antisym_flip, E1 by (auto; lia). unfold sgn_pow at 3. cbn. ring.
    - split; auto. rewrite E1. unfold sgn_pow at 3. cbn. ring. }
  destruct (G n (le_n _)) as [E _]. rewrite E. rewrite <- La, firstn_all. auto.
Qed.
Lemma antisym_act : forall f h c, cube_antisymmetric n f -> In h (group n) -> length c = 2 ^ n -> f (act n h c) = (gsign h * f c)%Z.
Proof.
  intros f h c Hf H L. rewrite act_flips by auto. apply group_in in H as [P Lf]. rewrite antisym_flips by (auto; apply cbuild_length). rewrite antisym_transpose by auto. unfold gsign. ring.
Qed.
End Group.
