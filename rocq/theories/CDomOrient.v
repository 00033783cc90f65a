(** Orientation, manifoldness and connectedness of the subdivided cubes. *)
Require Import List Arith ZArith Bool Lia Permutation Sorting.Sorted.
From Verif Require Import Util CombModel CombSpec CombProofs SimpModel SimpSpec SimpProofs BdryModel BdryProofs SubdModel FundProofs SubProofs SelProps OrientProofs BdryProps ParProofs LevelProofs.
From Verif Require Import CubeModel CubeSpec CubeBits CubeBd CubeRel CubeLevel CubeTop CubeChain CubeGrid COrSpec COrProofs CDomModel CDomBits CDomProofs CDomTop CDomSub.
Import ListNotations.
Local Open Scope nat_scope.

Notation consistent := COrSpec.consistent.

Lemma xor_insert : forall i s x u w, i <= length u -> length w = length u -> xor (insert_at i s u) (insert_at i x w) = insert_at i (xorb s x) (xor u w).
Proof.
  intros i s x u w Hu Lw. apply (bits_ext (S (length u))); rewrite ?xor_length, ?insert_at_length, ?xor_length; auto. intros k Hk. rewrite nth_xor by (rewrite insert_at_length; auto). rewrite !nth_insert by (rewrite ?xor_length; lia).
  destruct (Nat.ltb_spec k i); [rewrite nth_xor by lia; auto|]. destruct (Nat.eqb_spec k i); auto. rewrite nth_xor by lia. auto.
Qed.
Lemma xor_flip : forall i b a, length b = length a -> xor (flip_bit i b) (flip_bit i a) = xor b a.
Proof.
  intros i b a L. apply (bits_ext (length b)); rewrite ?xor_length, ?flip_bit_length; auto. intros x Hx. rewrite !nth_xor by (rewrite ?flip_bit_length; auto). rewrite !nth_flip. rewrite <- L.
  destruct ((x =? i) && (x <? length b)); auto. destruct (nth x b false), (nth x a false); auto.
Qed.
Lemma xor_swap : forall i b a n, length b = n -> length a = n -> S i < n -> xor (swap_bit i b) (swap_bit i a) = swap_bit i (xor b a).
Proof.
  intros i b a n Lb La Hi. apply (bits_ext n); rewrite ?xor_length, ?swap_bit_length, ?xor_length; auto. intros x Hx. rewrite nth_xor by (rewrite swap_bit_length; lia). rewrite !nth_swap by (rewrite ?xor_length; lia). rewrite nth_xor by (rewrite Lb; apply tr_lt; auto). auto.
Qed.
Lemma bit_sum_swap : forall i b n, length b = n -> S i < n -> bit_sum (swap_bit i b) = bit_sum b.
Proof.
  intros i b n L Hi. apply bit_sum_perm. unfold swap_bit. rewrite L.
  apply perm_trans with (map (fun k => nth k b false) (seq 0 n)); [|rewrite <- L, map_nth_seq; apply Permutation_refl].
  rewrite <- (map_map (tr i) (fun k => nth k b false)). apply Permutation_map. apply tr_perm. auto.
Qed.
Definition only (n i : nat) : bits := flip_bit i (repeat false n).
Lemma only_length : forall n i, length (only n i) = n.
Proof. intros. unfold only. rewrite flip_bit_length, repeat_length. auto. Qed.
Lemma nth_repeat_false : forall n i, nth i (repeat false n) false = false.
Proof. induction n; destruct i; auto. cbn [repeat nth]. auto. Qed.
Lemma nth_only : forall n i x, x < n -> nth x (only n i) false = (x =? i).
Proof. intros n i x Hx. unfold only. rewrite nth_flip, nth_repeat_false, repeat_length. replace (x <? n) with true by (symmetry; apply Nat.ltb_lt; auto). rewrite andb_true_r. destruct (x =? i); auto. Qed.
Lemma bit_sum_only : forall n i, i < n -> bit_sum (only n i) = 1.
Proof.
  induction n as [|n IH]; intros i Hi; [lia|]. destruct i as [|i]; unfold only in *; cbn [repeat flip_bit negb]; rewrite bit_sum_cons; cbn [nat_of Nat.add]; [rewrite bit_sum_repeat; simpl; lia|apply IH; lia].
Qed.
Lemma bits_only : forall n b i, length b = n -> bit_sum b = 1 -> i < n -> nth i b false = true -> b = only n i.
Proof.
  induction n as [|n IH]; intros b i L B Hi E; [lia|]. destruct b as [|x b]; [discriminate|]. injection L as L. rewrite bit_sum_cons in B. destruct i as [|i]; unfold only in *; cbn [repeat flip_bit negb nth] in *.
  - subst x. f_equal. cbn [nat_of] in B. rewrite <- L. apply empty_bits. lia.
  - destruct x; cbn [nat_of] in B.
    + rewrite (empty_bits b) in E by lia. rewrite nth_repeat_false in E. discriminate.
    + f_equal. apply IH; auto; lia.
Qed.
Lemma bits_but_at : forall n b i, length b = n -> S (bit_sum b) = n -> i < n -> nth i b false = false -> b = but n i.
Proof. intros n b i L B Hi E. destruct (bits_but n b L B) as (i' & Hi' & ->). rewrite nth_but in E by auto. destruct (Nat.eqb_spec i i'); [subst; auto|discriminate]. Qed.
Lemma but_insert : forall n i, i < n -> but n i = insert_at i false (repeat true (n - 1)).
Proof.
  intros n i Hi. apply (bits_ext n); [apply but_length|rewrite insert_at_length, repeat_length; lia|]. intros x Hx. rewrite nth_but by auto. rewrite nth_insert by (rewrite repeat_length; lia).
  destruct (Nat.ltb_spec x i); [rewrite nth_repeat_true by lia; destruct (Nat.eqb_spec x i); auto; lia|]. destruct (Nat.eqb_spec x i); auto. rewrite nth_repeat_true by lia. auto.
Qed.
Lemma bit_sum_flip_true : forall a i, i < length a -> nth i a false = true -> S (bit_sum (flip_bit i a)) = bit_sum a.
Proof.
  induction a as [|x a IH]; intros i Hi E; [simpl in Hi; lia|]. destruct i as [|i]; cbn [flip_bit nth] in *; rewrite !bit_sum_cons; [subst x; cbn [nat_of negb]; lia|]. rewrite <- (IH i) by (auto; simpl in Hi; lia). lia.
Qed.
Lemma some_bit : forall a, bit_sum a <> 0 -> exists i, i < length a /\ nth i a false = true.
Proof.
  induction a as [|[] a IH]; intros H; [exfalso; apply H; reflexivity|exists 0; split; [simpl; lia|auto]|]. rewrite bit_sum_cons in H. cbn [nat_of Nat.add] in H. destruct (IH H) as (i & Hi & E). exists (S i). split; [simpl; lia|auto].
Qed.
Lemma flip_bit_neq : forall i a, i < length a -> flip_bit i a <> a.
Proof. intros i a Hi E. apply (f_equal (fun l => nth i l false)) in E. rewrite nth_flip, Nat.eqb_refl in E. replace (i <? length a) with true in E by (symmetry; apply Nat.ltb_lt; auto). destruct (nth i a false); discriminate. Qed.
Lemma linked_trans : forall n rows j1 j2 j3, linked n rows j1 j2 -> linked n rows j2 j3 -> linked n rows j1 j3.
Proof. intros n rows j1 j2 j3 H1 H2. induction H2 as [|j2 j3 j4 H2 IH A]; auto. apply linked_step with j3; auto. Qed.
Lemma adjacent_sym : forall n rows j1 j2, adjacent n rows j1 j2 -> adjacent n rows j2 j1.
Proof. intros n rows j1 j2 (A & B & C & f & F1 & F2). repeat split; auto. exists f. auto. Qed.
Lemma linked_sym : forall n rows j1 j2, linked n rows j1 j2 -> linked n rows j2 j1.
Proof. intros n rows j1 j2 H. induction H; [constructor|]. eapply linked_trans; [eapply linked_step; [constructor|apply adjacent_sym; eauto]|auto]. Qed.

Section Or.
Variables (n : nat) (rows : list cube) (t : topology).
Hypothesis Hn : 1 <= n.
Hypothesis OK : cubes_ok n rows.
Hypothesis T : ctop n rows t.
Hypothesis FM : forall k, 1 <= k < n -> faces_match k n rows.
Notation row j := (nth j rows []).
Notation lab := (lab n rows t).
Notation fine := (fine n rows t).
Notation fines := (fines n rows t).

(** Subdividing a k-cube, keeping the part at corner [a], in terms of the elements spanned. *)
Definition LL (d : nat) (C : cube) : nat := eidx t d C + offset t d.
Definition sub (k : nat) (C : cube) (a : bits) : cube := cbuild k (fun b => LL (bit_sum (xor b a)) (cell C a (xor b a))).
Lemma cget_sub : forall k C a b, length b = k -> cget (sub k C a) b = LL (bit_sum (xor b a)) (cell C a (xor b a)).
Proof. intros k C a b L. unfold sub. rewrite cget_build; auto. Qed.
Lemma sub_length : forall k C a, length (sub k C a) = 2 ^ k.
Proof. intros. apply cbuild_length. Qed.
Lemma LL_members : forall d C D, NoDup C -> NoDup D -> (forall v, In v C <-> In v D) -> LL d C = LL d D.
Proof. intros d C D NC ND H. unfold LL. f_equal. apply eidx_perm. apply NoDup_Permutation; auto. Qed.
Lemma flip_nodup : forall k i C, i < k -> length C = 2 ^ k -> NoDup C -> NoDup (flip k i C).
Proof. intros k i C Hi L ND. eapply Permutation_NoDup; [apply (flip_perm k i); auto|auto]. Qed.
Lemma sub_related : forall k z C D, related k z C D -> length C = 2 ^ k -> NoDup C -> forall a, length a = k -> exists a', length a' = k /\ cget C a' = cget D a /\ related k z (sub k C a') (sub k D a).
Proof.
  intros k z C D R LC NC. induction R as [c|i s c d e R IH Hi M|i s c d e R IH Hi M]; intros a La; [exists a; repeat split; auto; constructor| |].
  - pose proof (related_length _ _ _ _ R LC) as LD. pose proof (related_nodup _ _ _ _ R NC LC) as ND. apply mirrored_flip in M; auto. subst e.
    destruct (IH LC NC (flip_bit i a)) as (a' & La' & E & R'); [rewrite flip_bit_length; auto|]. exists a'. split; auto. split; [rewrite E; unfold CubeModel.flip; rewrite cget_build; auto|].
    replace (sub k (flip k i d) a) with (flip k i (sub k d (flip_bit i a))); [eapply related_mirror; [exact R'|exact Hi|apply flip_mirrored; auto]|].
    apply (cube_ext k); [apply cbuild_length|apply sub_length|]. intros b Lb. unfold CubeModel.flip at 1. rewrite cget_build by auto. rewrite !cget_sub by (rewrite ?flip_bit_length; auto). rewrite xor_flip by lia.
    assert (Lx : length (xor b a) = k) by (rewrite xor_length; auto). assert (Lf : length (flip_bit i a) = k) by (rewrite flip_bit_length; auto). apply LL_members; [apply (cell_nodup k); auto|apply (cell_nodup k); auto; [apply flip_nodup; auto|apply cbuild_length]|].
    intros v. rewrite (cell_flip k) by auto. tauto.
  - pose proof (related_length _ _ _ _ R LC) as LD. pose proof (related_nodup _ _ _ _ R NC LC) as ND. apply swapped_swapc in M; auto. subst e.
    destruct (IH LC NC (swap_bit i a)) as (a' & La' & E & R'); [rewrite swap_bit_length; auto|]. exists a'. split; auto. split; [rewrite E; unfold swapc; rewrite cget_build; auto|].
    replace (sub k (swapc k i d) a) with (swapc k i (sub k d (swap_bit i a))); [eapply related_swap; [exact R'|exact Hi|apply swapc_swapped; auto]|].
    apply (cube_ext k); [apply cbuild_length|apply sub_length|]. intros b Lb. unfold swapc at 1. rewrite cget_build by auto. rewrite !cget_sub by (rewrite ?swap_bit_length; auto). rewrite (xor_swap i b a k) by auto.
    assert (Lx : length (xor b a) = k) by (rewrite xor_length; auto). assert (Lf : length (swap_bit i a) = k) by (rewrite swap_bit_length; auto). assert (Ly : length (swap_bit i (xor b a)) = k) by (rewrite swap_bit_length; auto). rewrite (bit_sum_swap i (xor b a) k) by auto.
    assert (NS : NoDup (swapc k i d)). { eapply Permutation_NoDup; [|exact ND]. apply (related_perm k (-1)); auto. apply related_swapc. auto. }
    apply LL_members; [apply (cell_nodup k); auto|apply (cell_nodup k); auto; apply cbuild_length|].
    intros v. rewrite (cell_swap k) by auto. tauto.
Qed.

Lemma lab_low : forall j a b, bit_sum b < n -> lab j a b = LL (bit_sum b) (cell (row j) a b).
Proof. intros j a b H. unfold CDomSub.lab, didx, LL. destruct (Nat.eqb_spec (bit_sum b) n); [lia|]. auto. Qed.
Lemma outer_slice : forall j a i, i < n -> length a = n -> slice n i (nth i a false) (fine j a) = sub (n - 1) (slice n i (nth i a false) (row j)) (remove_at i a).
Proof.
  intros j a i Hi La. set (x := nth i a false). set (w := remove_at i a). assert (Lw : length w = n - 1) by (unfold w; rewrite remove_length; lia). assert (Ea : a = insert_at i x w) by (symmetry; apply remove_insert; lia).
  apply (cube_ext (n - 1)); [apply slice_length|apply sub_length|]. intros u Lu. rewrite cget_slice by auto. rewrite cget_fine by (rewrite insert_at_length; lia). rewrite cget_sub by auto.
  rewrite Ea. rewrite xor_insert by lia. rewrite xorb_nilpotent. pose proof (bit_sum_le (xor u w)) as B. rewrite xor_length in B. assert (E : bit_sum (insert_at i false (xor u w)) = bit_sum (xor u w)) by (rewrite bit_sum_insert; [auto|rewrite xor_length; lia]).
  rewrite lab_low by (rewrite E; lia). rewrite E. rewrite (cell_slice n) by (rewrite ?xor_length; lia). auto.
Qed.
Lemma lab_indep : forall j a a' b, length a = n -> length a' = n -> length b = n -> (forall x, x < n -> nth x b false = false -> nth x a false = nth x a' false) -> lab j a b = lab j a' b.
Proof.
  intros j a a' b La La' Lb H. unfold CDomSub.lab, didx. f_equal. destruct (bit_sum b =? n); auto. f_equal. unfold cell. apply cbuild_ext. intros f Lf. f_equal.
  apply (bits_ext n); rewrite ?place_length; auto. intros x Hx. rewrite !nth_place by lia. destruct (nth x b false) eqn:E; auto.
Qed.
Lemma inner_slice : forall j a a' i, i < n -> length a = n -> length a' = n -> (forall x, x < n -> x <> i -> nth x a false = nth x a' false) ->
  slice n i (negb (nth i a false)) (fine j a) = slice n i (negb (nth i a' false)) (fine j a').
Proof.
  intros j a a' i Hi La La' H. apply (cube_ext (n - 1)); try apply slice_length. intros u Lu. rewrite !cget_slice by auto. rewrite !cget_fine by (rewrite insert_at_length; lia).
  assert (LI : forall s, length (insert_at i s u) = n) by (intros; rewrite insert_at_length; lia).
  assert (B : forall a0, length a0 = n -> nth i (xor (insert_at i (negb (nth i a0 false)) u) a0) false = true).
  { intros a0 L0. rewrite nth_xor by (rewrite LI; lia). rewrite nth_insert_same by lia. destruct (nth i a0 false); auto. }
  assert (E : xor (insert_at i (negb (nth i a false)) u) a = xor (insert_at i (negb (nth i a' false)) u) a').
  { apply (bits_ext n); rewrite ?xor_length; auto. intros x Hx. destruct (Nat.eq_dec x i) as [->|Hxi]; [rewrite !B; auto|]. rewrite !nth_xor by (rewrite LI; lia). rewrite (H x) by auto. rewrite !nth_insert by lia. destruct (Nat.eqb_spec x i); [lia|]. auto. }
  rewrite <- E. apply lab_indep; rewrite ?xor_length; auto. intros x Hx Ex. apply H; auto. intros ->. rewrite B in Ex by auto. discriminate.
Qed.
Lemma slice_fine_in : forall j a i s v, i < n -> length a = n -> (In v (slice n i s (fine j a)) <-> exists b, length b = n /\ nth i b false = xorb s (nth i a false) /\ v = lab j a b).
Proof.
  intros j a i s v Hi La. split.
  - intros H. apply (in_cget (n - 1)) in H as (u & Lu & <-); [|apply slice_length]. assert (LI : length (insert_at i s u) = n) by (rewrite insert_at_length; lia). exists (xor (insert_at i s u) a). rewrite xor_length. split; auto. split; [rewrite nth_xor, nth_insert_same by lia; auto|].
    rewrite cget_slice by auto. rewrite cget_fine by auto. auto.
  - intros (b & Lb & Eb & ->). assert (Lx : length (xor b a) = n) by (rewrite xor_length; auto). assert (Ei : nth i (xor b a) false = s) by (rewrite nth_xor, Eb by lia; rewrite xorb_assoc, xorb_nilpotent, xorb_false_r; auto).
    replace (lab j a b) with (cget (slice n i s (fine j a)) (remove_at i (xor b a))); [apply (cget_in (n - 1)); [apply slice_length|rewrite remove_length; lia]|].
    rewrite cget_slice by (rewrite remove_length; lia). rewrite <- Ei at 1. rewrite remove_insert by lia. rewrite cget_fine by auto. rewrite xor_xor. auto.
Qed.
Lemma cell_but : forall c a i, length c = 2 ^ n -> i < n -> length a = n -> cell c a (but n i) = slice n i (nth i a false) c.
Proof.
  intros c a i L Hi La. rewrite but_insert by auto. transitivity (cell c (insert_at i (nth i a false) (remove_at i a)) (insert_at i false (repeat true (n - 1)))); [rewrite remove_insert by lia; auto|]. rewrite (cell_slice n) by (rewrite ?repeat_length, ?remove_length; lia). apply (cell_full (n - 1)); [apply slice_length|apply repeat_length|rewrite bit_sum_repeat; simpl; lia].
Qed.
Lemma cell_zero : forall c a, length a = n -> cell c a (repeat false n) = [cget c a].
Proof.
  intros c a La. unfold cell. rewrite bit_sum_repeat. cbn [nat_of Nat.mul]. unfold cbuild. cbn [corners map]. f_equal. f_equal. apply (bits_ext n); auto; [rewrite place_length, repeat_length; auto|]. intros x Hx. rewrite nth_place, nth_repeat_false by (rewrite repeat_length; auto). auto.
Qed.
Lemma xorb_true : forall s x, xorb s x = true -> s = negb x.
Proof. intros [] []; simpl; congruence. Qed.
Lemma xorb_false : forall s x, xorb s x = false -> s = x.
Proof. intros [] []; simpl; congruence. Qed.
Lemma share_half : forall j a i1 s1 j' a' i2 s2, j < length rows -> j' < length rows -> length a = n -> length a' = n -> i1 < n -> i2 < n ->
  Permutation (slice n i1 s1 (fine j a)) (slice n i2 s2 (fine j' a')) ->
  forall b, length b = n -> nth i1 b false = xorb s1 (nth i1 a false) -> exists b', length b' = n /\ nth i2 b' false = xorb s2 (nth i2 a' false) /\ lab j a b = lab j' a' b' /\ bit_sum b = bit_sum b'.
Proof.
  intros j a i1 s1 j' a' i2 s2 Hj Hj' La La' Hi1 Hi2 P b Lb Eb. assert (I : In (lab j a b) (slice n i1 s1 (fine j a))) by (apply slice_fine_in; eauto). apply (Permutation_in _ P) in I. apply slice_fine_in in I as (b' & Lb' & Eb' & E); auto.
  exists b'. repeat split; auto. eapply (lab_dim n rows t Hn OK T j a b j' a' b'); auto.
Qed.
Lemma fine_share : forall j a i1 s1 j' a' i2 s2, j < length rows -> j' < length rows -> length a = n -> length a' = n -> i1 < n -> i2 < n ->
  Permutation (slice n i1 s1 (fine j a)) (slice n i2 s2 (fine j' a')) ->
  (s1 = negb (nth i1 a false) /\ s2 = negb (nth i2 a' false) /\ j = j' /\ i1 = i2 /\ (forall x, x < n -> x <> i1 -> nth x a false = nth x a' false)) \/
  (s1 = nth i1 a false /\ s2 = nth i2 a' false /\ Permutation (slice n i1 s1 (row j)) (slice n i2 s2 (row j')) /\ cget (row j) a = cget (row j') a').
Proof.
  intros j a i1 s1 j' a' i2 s2 Hj Hj' La La' Hi1 Hi2 P. pose proof (share_half j a i1 s1 j' a' i2 s2 Hj Hj' La La' Hi1 Hi2 P) as F. pose proof (share_half j' a' i2 s2 j a i1 s1 Hj' Hj La' La Hi2 Hi1 (Permutation_sym P)) as G.
  destruct (row_ok' n rows OK j Hj) as [L ND]. destruct (row_ok' n rows OK j' Hj') as [L' ND'].
  assert (L1 : length (repeat true n) = n) by apply repeat_length. assert (B1 : bit_sum (repeat true n) = n) by (rewrite bit_sum_repeat; simpl; lia).
  destruct (xorb s1 (nth i1 a false)) eqn:S1.
  - destruct (F (repeat true n) L1) as (b & Lb & Eb & E & D); [apply nth_repeat_true; auto|]. rewrite (full_bits b), Lb in Eb by lia. rewrite nth_repeat_true in Eb by auto. symmetry in Eb.
    apply lab_top in E as [_ Ejj]; auto. left. apply xorb_true in S1. pose proof (xorb_true _ _ Eb) as S2. split; auto. split; auto. split; auto. subst j'.
    destruct (Nat.eq_dec n 1) as [N1|N1]; [split; [lia|intros; lia]|].
    destruct (F (only n i1) (only_length n i1)) as (b' & Lb' & Eb' & E' & D'); [rewrite nth_only, Nat.eqb_refl by auto; auto|]. rewrite bit_sum_only in D' by auto. rewrite Eb in Eb'.
    rewrite (bits_only n b' i2) in E' by auto. apply lab_eq in E' as [_ PC]; auto using only_length; [|rewrite bit_sum_only by auto; lia].
    assert (AG : forall z, length z = n -> In (cget (row j) z) (cell (row j) a (only n i1)) -> forall x, x < n -> x <> i2 -> nth x z false = nth x a' false).
    { intros z Lz Hz x Hx Hxi. apply (Permutation_in _ PC) in Hz. apply (cell_in n) in Hz as (z' & [Lz' A] & E0); [|apply only_length]. apply (cget_inj n) in E0; auto. subst z'. apply A; auto. rewrite nth_only by auto. apply Nat.eqb_neq. auto. }
    assert (A1 := AG a La ltac:(apply (cell_self n); auto using only_length)).
    assert (A2 := AG (flip_bit i1 a) ltac:(rewrite flip_bit_length; auto) ltac:(apply (cell_span n); auto using only_length; rewrite nth_only, Nat.eqb_refl by auto; auto)).
    assert (EI : i1 = i2). { destruct (Nat.eq_dec i1 i2); auto. exfalso. specialize (A1 i1 Hi1 n0). specialize (A2 i1 Hi1 n0). rewrite nth_flip, Nat.eqb_refl, La in A2. replace (i1 <? n) with true in A2 by (symmetry; apply Nat.ltb_lt; auto). simpl in A2. destruct (nth i1 a false), (nth i1 a' false); discriminate. }
    split; auto. subst i2. auto.
  - destruct (xorb s2 (nth i2 a' false)) eqn:S2.
    { destruct (G (repeat true n) L1) as (b & Lb & Eb & E & D); [apply nth_repeat_true; auto|]. rewrite (full_bits b), Lb in Eb by lia. rewrite nth_repeat_true in Eb by auto. discriminate. }
    right. apply xorb_false in S1. apply xorb_false in S2. split; auto. split; auto. split.
    + destruct (F (but n i1) (but_length n i1)) as (b & Lb & Eb & E & D); [rewrite nth_but, Nat.eqb_refl by auto; auto|]. pose proof (bit_sum_but n i1 Hi1). rewrite (bits_but_at n b i2) in E by (auto; lia).
      apply lab_eq in E as [_ PC]; auto using but_length; [|lia]. rewrite !cell_but in PC by auto. rewrite <- S1, <- S2 in PC. auto.
    + assert (Z : forall i, nth i (repeat false n) false = false) by (intros; apply nth_repeat_false). assert (B0 : bit_sum (repeat false n) = 0) by (rewrite bit_sum_repeat; auto).
      destruct (F (repeat false n)) as (b & Lb & Eb & E & D); [apply repeat_length|apply Z|]. rewrite (empty_bits b), Lb in E by lia. apply lab_eq in E as [_ PC]; auto; rewrite ?repeat_length; auto; [|lia].
      rewrite !cell_zero in PC by auto. apply Permutation_length_1 in PC. auto.
Qed.

Lemma face_rel : forall j j' i1 s1 i2 s2, j < length rows -> j' < length rows -> i1 < n -> i2 < n -> Permutation (slice n i1 s1 (row j)) (slice n i2 s2 (row j')) -> exists z, related (n - 1) z (slice n i1 s1 (row j)) (slice n i2 s2 (row j')).
Proof.
  intros j j' i1 s1 i2 s2 Hj Hj' Hi1 Hi2 P. destruct (row_ok' n rows OK j Hj) as [L ND]. destruct (row_ok' n rows OK j' Hj') as [L' ND']. destruct (Nat.eq_dec n 1) as [N1|N1].
  - exists 1%Z. pose proof (slice_length n i1 s1 (row j)) as X. pose proof (slice_length n i2 s2 (row j')) as X'. replace (2 ^ (n - 1)) with 1 in X, X' by (subst n; auto).
    destruct (slice n i1 s1 (row j)) as [|v [|]]; try discriminate. destruct (slice n i2 s2 (row j')) as [|v' [|]]; try discriminate. apply Permutation_length_1 in P. subst. constructor.
  - apply (FM (n - 1) ltac:(lia) (row j) (row j')); auto; try (apply nth_In; auto).
    + apply subcube_step with (a := i1) (s := s1); auto. constructor.
    + apply subcube_step with (a := i2) (s := s2); auto. constructor.
Qed.
Lemma fine_ok' : forall j a, j < length rows -> length a = n -> length (fine j a) = 2 ^ n /\ NoDup (fine j a).
Proof. intros. split; [apply fine_length|apply fine_nodup; auto]. Qed.
(** Fine faces on the outside are related exactly as the coarse faces they subdivide. *)
Lemma outer_related : forall j a i1 j' a' i2 z, j < length rows -> j' < length rows -> length a = n -> length a' = n -> i1 < n -> i2 < n -> cget (row j) a = cget (row j') a' ->
  related (n - 1) z (slice n i1 (nth i1 a false) (row j)) (slice n i2 (nth i2 a' false) (row j')) -> related (n - 1) z (slice n i1 (nth i1 a false) (fine j a)) (slice n i2 (nth i2 a' false) (fine j' a')).
Proof.
  intros j a i1 j' a' i2 z Hj Hj' La La' Hi1 Hi2 E R. destruct (row_ok' n rows OK j Hj) as [L ND]. destruct (sub_related _ _ _ _ R (slice_length _ _ _ _) (slice_nodup n i1 _ _ Hi1 ND L) (remove_at i2 a')) as (w & Lw & Ew & R'); [rewrite remove_length; lia|].
  rewrite !outer_slice by auto. replace (remove_at i1 a) with w; auto. apply (cget_inj (n - 1) (slice n i1 (nth i1 a false) (row j))); auto; [apply slice_nodup; auto|apply slice_length|rewrite remove_length; lia|].
  rewrite Ew. rewrite !cget_slice by (rewrite remove_length; lia). rewrite !remove_insert by lia. auto.
Qed.
(** Related coarse faces have fine faces that are related in the same way. *)
Lemma outer_lift : forall j i1 s1 j' a' i2 z, j < length rows -> j' < length rows -> length a' = n -> i1 < n -> i2 < n ->
  related (n - 1) z (slice n i1 s1 (row j)) (slice n i2 (nth i2 a' false) (row j')) -> exists a, length a = n /\ nth i1 a false = s1 /\ related (n - 1) z (slice n i1 s1 (fine j a)) (slice n i2 (nth i2 a' false) (fine j' a')).
Proof.
  intros j i1 s1 j' a' i2 z Hj Hj' La' Hi1 Hi2 R. destruct (row_ok' n rows OK j Hj) as [L ND]. destruct (sub_related _ _ _ _ R (slice_length _ _ _ _) (slice_nodup n i1 _ _ Hi1 ND L) (remove_at i2 a')) as (w & Lw & Ew & R'); [rewrite remove_length; lia|].
  assert (La : length (insert_at i1 s1 w) = n) by (rewrite insert_at_length; lia). assert (Ea : nth i1 (insert_at i1 s1 w) false = s1) by (apply nth_insert_same; lia). exists (insert_at i1 s1 w). split; auto. split; auto.
  rewrite <- Ea at 1. rewrite !outer_slice by auto. rewrite Ea. replace (remove_at i1 (insert_at i1 s1 w)) with w; auto.
  apply (insert_inj i1 s1); [|rewrite remove_length; lia]. pose proof (remove_insert i1 (insert_at i1 s1 w)) as X. rewrite Ea in X. symmetry. apply X. lia.
Qed.

Definition fnum (j : nat) (a : bits) : nat := j * 2 ^ n + ravel a.
Lemma fines_length : length fines = length rows * 2 ^ n.
Proof. unfold CDomSub.fines. rewrite (flat_map_const_length _ _ _ _ (2 ^ n)); [rewrite seq_length; auto|]. intros. rewrite map_length, corners_length. auto. Qed.
Lemma fnum_lt : forall j a, j < length rows -> length a = n -> fnum j a < length fines.
Proof. intros j a Hj La. rewrite fines_length. unfold fnum. pose proof (ravel_lt a) as R. rewrite La in R. assert (S j * 2 ^ n <= length rows * 2 ^ n) by (apply Nat.mul_le_mono_r; lia). cbn [Nat.mul] in *. lia. Qed.
Lemma nth_corners : forall a, length a = n -> nth (ravel a) (corners n) [] = a.
Proof.
  intros a La. pose proof (ravel_lt a) as R. rewrite La in R. apply ravel_inj; [|change 0 with (ravel []); rewrite <- (map_nth ravel), corners_ravel, seq_nth by auto; auto].
  assert (I : In (nth (ravel a) (corners n) []) (corners n)) by (apply nth_In; rewrite corners_length; auto). apply corners_in in I. lia.
Qed.
Lemma fnum_nth : forall j a, j < length rows -> length a = n -> nth (fnum j a) fines [] = fine j a.
Proof.
  intros j a Hj La. unfold fnum, CDomSub.fines. pose proof (ravel_lt a) as R. rewrite La in R. rewrite (nth_flat_map_const _ _ _ _ (2 ^ n)) with (da := 0); auto; [|intros; rewrite map_length, corners_length; auto|rewrite seq_length; auto].
  rewrite seq_nth by auto. rewrite (nth_map_lt _ _ _ _ _ []) by (rewrite corners_length; auto). rewrite nth_corners by auto. auto.
Qed.
Lemma fnum_onto : forall p, p < length fines -> exists j a, j < length rows /\ length a = n /\ p = fnum j a.
Proof.
  intros p Hp. rewrite fines_length in Hp. assert (N : 2 ^ n <> 0) by (apply Nat.pow_nonzero; lia). destruct (ravel_onto n (p mod 2 ^ n)) as (a & La & Ea); [apply Nat.mod_upper_bound; auto|].
  exists (p / 2 ^ n), a. split; [apply Nat.div_lt_upper_bound; auto; lia|]. split; auto. unfold fnum. rewrite Ea. rewrite (Nat.div_mod p (2 ^ n)) at 1 by auto. lia.
Qed.
Lemma fnum_inj : forall j a j' a', length a = n -> length a' = n -> fnum j a = fnum j' a' -> j = j' /\ a = a'.
Proof.
  intros j a j' a' La La' E. unfold fnum in E. pose proof (ravel_lt a) as R. rewrite La in R. pose proof (ravel_lt a') as R'. rewrite La' in R'.
  assert (Ej : j = j'). { assert (N : 2 ^ n <> 0) by (apply Nat.pow_nonzero; lia). transitivity ((j * 2 ^ n + ravel a) / 2 ^ n); [|rewrite E]; rewrite Nat.div_add_l by auto; rewrite Nat.div_small by auto; lia. }
  split; auto. subst j'. apply ravel_inj; lia.
Qed.

Lemma fines_consistent : consistent n rows <-> consistent n fines.
Proof.
  split.
  - intros CO p1 p2 Hp1 Hp2 Np. destruct (fnum_onto p1 Hp1) as (j & a & Hj & La & ->). destruct (fnum_onto p2 Hp2) as (j' & a' & Hj' & La' & ->). rewrite !fnum_nth by auto.
    destruct (fine_ok' j a Hj La) as [Lf Nf]. destruct (fine_ok' j' a' Hj' La') as [Lf' Nf']. intros i1 s1 g1 i2 s2 g2 z Hi1 Hi2 S1 S2 R. apply is_slice_slice in S1; auto. apply is_slice_slice in S2; auto. subst g1 g2.
    pose proof (related_perm _ _ _ _ R (slice_length _ _ _ _)) as P. pose proof (slice_nodup n i1 s1 _ Hi1 Nf Lf) as NS.
    destruct (fine_share j a i1 s1 j' a' i2 s2 Hj Hj' La La' Hi1 Hi2 P) as [(-> & -> & <- & <- & Hx)|(-> & -> & PD & EV)].
    + rewrite <- (inner_slice j a a' i1) in R by auto. apply related_csign in R; auto; [|apply slice_length]. rewrite csign_self in R by (auto; apply slice_length). subst z.
      assert (Ne : nth i1 a false <> nth i1 a' false). { intros E. apply Np. f_equal. apply (bits_ext n); auto. intros x Hx'. destruct (Nat.eq_dec x i1); [subst; auto|auto]. }
      rewrite !side_sign_pow, !sgn_odd. destruct (nth i1 a false), (nth i1 a' false); try congruence; cbn [negb nat_of]; rewrite ?Nat.add_0_r, ?Nat.add_1_r, ?Nat.odd_succ, <- ?Nat.negb_odd; destruct (Nat.odd i1); reflexivity.
    + destruct (face_rel j j' i1 _ i2 _ Hj Hj' Hi1 Hi2 PD) as [z' R']. pose proof (outer_related j a i1 j' a' i2 z' Hj Hj' La La' Hi1 Hi2 EV R') as R2.
      apply related_csign in R; auto; [|apply slice_length]. apply related_csign in R2; auto; [|apply slice_length]. assert (z = z') by congruence. clear R2. subst z'.
      destruct (Nat.eq_dec j j') as [<-|Nj].
      * exfalso. apply Np. f_equal. destruct (row_ok' n rows OK j Hj) as [L ND]. apply (cget_inj n (row j)); auto.
      * apply (CO j j' Hj Hj' Nj i1 _ (slice n i1 (nth i1 a false) (row j)) i2 _ (slice n i2 (nth i2 a' false) (row j')) z); auto using slice_is_slice.
  - intros CO j j' Hj Hj' Nj i1 s1 g1 i2 s2 g2 z Hi1 Hi2 S1 S2 R. apply is_slice_slice in S1; auto. apply is_slice_slice in S2; auto. subst g1 g2.
    set (a' := insert_at i2 s2 (repeat false (n - 1))). assert (La' : length a' = n) by (unfold a'; rewrite insert_at_length, repeat_length; lia). assert (E2 : nth i2 a' false = s2) by (apply nth_insert_same; rewrite repeat_length; lia).
    rewrite <- E2 in R. destruct (outer_lift j i1 s1 j' a' i2 z Hj Hj' La' Hi1 Hi2 R) as (a & La & E1 & R'). rewrite E2 in R'.
    apply (CO (fnum j a) (fnum j' a') (fnum_lt _ _ Hj La) (fnum_lt _ _ Hj' La')) with (g1 := slice n i1 s1 (fine j a)) (g2 := slice n i2 s2 (fine j' a')); auto; rewrite ?fnum_nth by auto; auto using slice_is_slice.
    intros E. apply fnum_inj in E as [E _]; auto.
Qed.
Lemma share_face : forall j a j' a' f, j < length rows -> j' < length rows -> length a = n -> length a' = n -> has_side n (fine j a) f -> has_side n (fine j' a') f ->
  exists i1 s1 i2 s2 z1 z2, i1 < n /\ i2 < n /\ related (n - 1) z1 (slice n i1 s1 (fine j a)) f /\ related (n - 1) z2 (slice n i2 s2 (fine j' a')) f /\ Permutation (slice n i1 s1 (fine j a)) (slice n i2 s2 (fine j' a')).
Proof.
  intros j a j' a' f Hj Hj' La La' H1 H2. apply has_side_slice in H1 as (i1 & s1 & z1 & Hi1 & R1). apply has_side_slice in H2 as (i2 & s2 & z2 & Hi2 & R2). exists i1, s1, i2, s2, z1, z2. repeat split; auto.
  eapply perm_trans; [apply (related_perm _ _ _ _ R1 (slice_length _ _ _ _))|apply Permutation_sym; apply (related_perm _ _ _ _ R2 (slice_length _ _ _ _))].
Qed.
Lemma fines_at_most_two : at_most_two n rows -> at_most_two n fines.
Proof.
  intros AM f p1 p2 p3 Hp1 Hp2 Hp3 H1 H2 H3. destruct (fnum_onto p1 Hp1) as (j1 & a1 & Hj1 & La1 & ->). destruct (fnum_onto p2 Hp2) as (j2 & a2 & Hj2 & La2 & ->). destruct (fnum_onto p3 Hp3) as (j3 & a3 & Hj3 & La3 & ->).
  rewrite fnum_nth in H1, H2, H3 by auto. apply has_side_slice in H1 as (i1 & s1 & z1 & Hi1 & R1). apply has_side_slice in H2 as (i2 & s2 & z2 & Hi2 & R2). apply has_side_slice in H3 as (i3 & s3 & z3 & Hi3 & R3).
  assert (P12 : Permutation (slice n i1 s1 (fine j1 a1)) (slice n i2 s2 (fine j2 a2))) by (eapply perm_trans; [apply (related_perm _ _ _ _ R1 (slice_length _ _ _ _))|apply Permutation_sym; apply (related_perm _ _ _ _ R2 (slice_length _ _ _ _))]).
  assert (P13 : Permutation (slice n i1 s1 (fine j1 a1)) (slice n i3 s3 (fine j3 a3))) by (eapply perm_trans; [apply (related_perm _ _ _ _ R1 (slice_length _ _ _ _))|apply Permutation_sym; apply (related_perm _ _ _ _ R3 (slice_length _ _ _ _))]).
  destruct (fine_share _ _ _ _ _ _ _ _ Hj1 Hj2 La1 La2 Hi1 Hi2 P12) as [(-> & -> & <- & <- & X2)|(E1 & E2 & PD2 & V2)]; destruct (fine_share _ _ _ _ _ _ _ _ Hj1 Hj3 La1 La3 Hi1 Hi3 P13) as [(F1 & F2 & Ej & Ei & X3)|(F1 & F2 & PD3 & V3)].
  - subst j3 i3. assert (Q : forall a a', length a = n -> length a' = n -> (forall x, x < n -> x <> i1 -> nth x a false = nth x a' false) -> nth i1 a false = nth i1 a' false -> a = a').
    { intros a a' La La' X E. apply (bits_ext n); auto. intros x Hx. destruct (Nat.eq_dec x i1); [subst; auto|auto]. }
    destruct (bool_dec (nth i1 a1 false) (nth i1 a2 false)) as [E|N]; [left; f_equal; apply Q; auto|]. destruct (bool_dec (nth i1 a1 false) (nth i1 a3 false)) as [E|N']; [right; left; f_equal; apply Q; auto|].
    right. right. f_equal. apply Q; auto; [intros x Hx Nx; rewrite <- X2, <- X3; auto|]. destruct (nth i1 a1 false), (nth i1 a2 false), (nth i1 a3 false); congruence.
  - exfalso. destruct (nth i1 a1 false); discriminate.
  - exfalso. subst s1. destruct (nth i1 a1 false); discriminate.
  - assert (HS : forall j i s, j < length rows -> i < n -> Permutation (slice n i1 s1 (row j1)) (slice n i s (row j)) -> has_side n (row j) (slice n i1 s1 (row j1))).
    { intros j i s Hj Hi P. apply has_side_slice. destruct (face_rel j j1 i s i1 s1 Hj Hj1 Hi Hi1 (Permutation_sym P)) as [z R]. eauto. }
    assert (EQ : forall j j' a a', j < length rows -> length a = n -> length a' = n -> j = j' -> cget (row j) a = cget (row j') a' -> fnum j a = fnum j' a').
    { intros j j' a a' Hj La La' <- E. f_equal. destruct (row_ok' n rows OK j Hj) as [L ND]. apply (cget_inj n (row j)); auto. }
    destruct (AM (slice n i1 s1 (row j1)) j1 j2 j3 Hj1 Hj2 Hj3) as [E|[E|E]]; eauto using Permutation_refl.
    right. right. apply EQ; auto. congruence.
Qed.
Lemma boundary_lift : forall j a i s, j < length rows -> length a = n -> i < n ->
  (boundary_face n fines (slice n i s (fine j a)) <-> s = nth i a false /\ boundary_face n rows (slice n i s (row j))).
Proof.
  intros j a i s Hj La Hi. assert (Self : has_side n (fine j a) (slice n i s (fine j a))) by (apply has_side_slice; exists i, s, 1%Z; split; auto; constructor). split.
  - intros (p & Hp & HS & U). destruct (bool_dec s (nth i a false)) as [->|Ns].
    + split; auto. exists j. split; auto. split; [apply has_side_slice; exists i, (nth i a false), 1%Z; split; auto; constructor|]. intros j' Hj' H'. apply has_side_slice in H' as (i' & s' & z & Hi' & R).
      destruct (outer_lift j' i' s' j a i z Hj' Hj La Hi' Hi R) as (a' & La' & E' & R').
      assert (X : fnum j a = p) by (apply U; [apply fnum_lt; auto|rewrite fnum_nth by auto; auto]). assert (X' : fnum j' a' = p) by (apply U; [apply fnum_lt; auto|rewrite fnum_nth by auto; apply has_side_slice; eauto]).
      rewrite <- X in X'. apply fnum_inj in X' as [X' _]; auto.
    + exfalso. assert (Lf : length (flip_bit i a) = n) by (rewrite flip_bit_length; auto).
      assert (Es : s = negb (nth i a false)) by (destruct s, (nth i a false); auto; congruence).
      assert (X : fnum j a = p) by (apply U; [apply fnum_lt; auto|rewrite fnum_nth by auto; auto]).
      assert (X' : fnum j (flip_bit i a) = p).
      { apply U; [apply fnum_lt; auto|rewrite fnum_nth by auto]. apply has_side_slice. exists i, (negb (nth i (flip_bit i a) false)), 1%Z. split; auto. rewrite Es. rewrite (inner_slice j a (flip_bit i a) i) by (auto; intros x Hx Nx; rewrite nth_flip; destruct (Nat.eqb_spec x i); auto; lia). constructor. }
      rewrite <- X in X'. apply fnum_inj in X' as [_ X']; auto. apply (flip_bit_neq i a); auto. lia.
  - intros [Es (q & Hq & HS & U)]. exists (fnum j a). split; [apply fnum_lt; auto|]. rewrite fnum_nth by auto. split; auto. intros p' Hp' H'. destruct (fnum_onto p' Hp') as (j' & a' & Hj' & La' & ->). rewrite fnum_nth in H' by auto.
    apply has_side_slice in H' as (i' & s' & z & Hi' & R). pose proof (related_perm _ _ _ _ R (slice_length _ _ _ _)) as P.
    destruct (fine_share j a i s j' a' i' s' Hj Hj' La La' Hi Hi' (Permutation_sym P)) as [(E & _)|(E1 & E2 & PD & V)]; [exfalso; rewrite Es in E; destruct (nth i a false); discriminate|].
    destruct (face_rel j' j i' s' i s Hj' Hj Hi' Hi (Permutation_sym PD)) as [z' R']. assert (X1 : j = q) by (apply U; auto; apply has_side_slice; exists i, s, 1%Z; split; auto; constructor).
    assert (X2 : j' = q) by (apply U; auto; apply has_side_slice; eauto). assert (EJ : j' = j) by lia. clear X1 X2. subst j'. f_equal. destruct (row_ok' n rows OK j Hj) as [L ND]. symmetry. apply (cget_inj n (row j)); auto.
Qed.
Lemma step_inside : forall j a i, j < length rows -> length a = n -> i < n -> adjacent n fines (fnum j a) (fnum j (flip_bit i a)).
Proof.
  intros j a i Hj La Hi. assert (Lf : length (flip_bit i a) = n) by (rewrite flip_bit_length; auto). split; [apply fnum_lt; auto|]. split; [apply fnum_lt; auto|]. split.
  - intros E. apply fnum_inj in E as [_ E]; auto. apply (flip_bit_neq i a); [lia|auto].
  - rewrite !fnum_nth by auto. exists (slice n i (negb (nth i a false)) (fine j a)). split; apply has_side_slice; [exists i, (negb (nth i a false)), 1%Z; split; auto; constructor|].
    exists i, (negb (nth i (flip_bit i a) false)), 1%Z. split; auto. rewrite (inner_slice j a (flip_bit i a) i) by (auto; intros x Hx Nx; rewrite nth_flip; destruct (Nat.eqb_spec x i); auto; lia). constructor.
Qed.
Lemma linked_inside : forall j a, j < length rows -> length a = n -> linked n fines (fnum j (repeat false n)) (fnum j a).
Proof.
  intros j a Hj La. remember (bit_sum a) as m eqn:E. revert a La E. induction m as [|m IH]; intros a La E.
  - rewrite (empty_bits a), La by auto. constructor.
  - destruct (some_bit a) as (i & Hi & Ei); [lia|]. assert (Lf : length (flip_bit i a) = n) by (rewrite flip_bit_length; auto). pose proof (bit_sum_flip_true a i Hi Ei). eapply linked_step; [apply (IH (flip_bit i a)); auto; lia|].
    rewrite <- (flip_flip_bit i a) at 2. apply step_inside; auto. lia.
Qed.
Lemma step_across : forall j j', adjacent n rows j j' -> linked n fines (fnum j (repeat false n)) (fnum j' (repeat false n)).
Proof.
  intros j j' (Hj & Hj' & Nj & f & F1 & F2). apply has_side_slice in F1 as (i1 & s1 & z1 & Hi1 & R1). apply has_side_slice in F2 as (i2 & s2 & z2 & Hi2 & R2).
  assert (R : related (n - 1) (z1 * z2) (slice n i1 s1 (row j)) (slice n i2 s2 (row j'))) by (eapply related_trans; [exact R1|apply related_sym; auto; apply slice_length]).
  set (a' := insert_at i2 s2 (repeat false (n - 1))). assert (La' : length a' = n) by (unfold a'; rewrite insert_at_length, repeat_length; lia). assert (E2 : nth i2 a' false = s2) by (apply nth_insert_same; rewrite repeat_length; lia).
  rewrite <- E2 in R. destruct (outer_lift j i1 s1 j' a' i2 _ Hj Hj' La' Hi1 Hi2 R) as (a & La & E1 & R').
  eapply linked_trans; [apply (linked_inside j a); auto|]. eapply linked_trans; [|apply linked_sym; apply (linked_inside j' a'); auto]. eapply linked_step; [constructor|].
  split; [apply fnum_lt; auto|]. split; [apply fnum_lt; auto|]. split; [intros E; apply fnum_inj in E as [E _]; auto|]. rewrite !fnum_nth by auto. exists (slice n i2 (nth i2 a' false) (fine j' a')). split; apply has_side_slice; [eauto|].
  exists i2, (nth i2 a' false), 1%Z. split; auto. constructor.
Qed.
Lemma fines_linked : forall j1 j2, linked n rows j1 j2 -> linked n fines (fnum j1 (repeat false n)) (fnum j2 (repeat false n)).
Proof. intros j1 j2 H. induction H; [constructor|]. eapply linked_trans; [eauto|]. apply step_across. auto. Qed.
Lemma ravel_zero : forall m, ravel (repeat false m) = 0.
Proof. induction m; auto. Qed.
Lemma fines_connected : connected n rows -> connected n fines.
Proof.
  intros C p Hp. destruct (fnum_onto p Hp) as (j & a & Hj & La & ->). replace 0 with (fnum 0 (repeat false n)) by (unfold fnum; rewrite ravel_zero; auto).
  eapply linked_trans; [apply fines_linked; apply (C j Hj)|apply linked_inside; auto].
Qed.
End Or.
