(** Correctness of cubical_domains. *)
Require Import List Arith ZArith Bool Lia Permutation Sorting.Sorted.
From Verif Require Import Util CombModel CombSpec CombProofs SimpModel SimpSpec SimpProofs BdryModel BdryProofs SubdModel FundProofs SubProofs SelProps OrientProofs.
From Verif Require Import CubeModel CubeSpec CubeBits CubeBd CubeRel CubeLevel CubeTop CubeChain CDomModel CDomBits.
Import ListNotations.
Local Open Scope nat_scope.

(** Selected axes moved to the front: where the entries end up. *)
Fixpoint ins (axes : list nat) (j : nat) (s f : bits) : bits :=
  match axes, s with
  | a :: ax, x :: s' => insert_at (a - j) x (ins ax (S j) s' f)
  | _, _ => f
  end.
Lemma ins_length : forall axes j s f, length s = length axes -> length (ins axes j s f) = length axes + length f.
Proof. induction axes as [|a ax IH]; intros j [|x s] f L; simpl in *; try lia. rewrite insert_at_length, IH; lia. Qed.
Lemma insert_app : forall (s : bits) a x r, length s <= a -> insert_at a x (s ++ r) = s ++ insert_at (a - length s) x r.
Proof. induction s as [|y s IH]; intros a x r H; simpl in *; [rewrite Nat.sub_0_r; auto|]. destruct a as [|a]; [lia|]. simpl. f_equal. apply IH. lia. Qed.
Lemma remove_app : forall (s : bits) x r, remove_at (length s) (s ++ x :: r) = s ++ r.
Proof. intros. unfold remove_at. rewrite firstn_app, firstn_all, Nat.sub_diag. cbn [firstn]. rewrite app_nil_r. f_equal. rewrite skipn_app. replace (S (length s) - length s) with 1 by lia. rewrite skipn_all2 by lia. reflexivity. Qed.
Lemma fold_move : forall n axes j v s0 s f, StronglySorted lt axes -> Forall (fun a => j <= a < n) axes -> length s0 = j -> length s = length axes -> length f + length axes + j = n ->
  cget (fold_left (fun v ja => moveaxis n (snd ja) (fst ja) v) (combine (seq j (length axes)) axes) v) (s0 ++ s ++ f) = cget v (s0 ++ ins axes j s f).
Proof.
  intros n. induction axes as [|a ax IH]; intros j v s0 s f SS F L0 L Lf; destruct s as [|x s]; simpl in L; try discriminate; [reflexivity|].
  cbn [length seq combine fold_left fst snd]. apply StronglySorted_inv in SS as [SS' Fa]. pose proof (Forall_inv F) as Ha. pose proof (Forall_inv_tail F) as F'. cbv beta in Ha.
  replace (s0 ++ (x :: s) ++ f) with ((s0 ++ [x]) ++ s ++ f) by (rewrite <- app_assoc; reflexivity). cbn [length] in Lf.
  rewrite IH; auto; [| |rewrite app_length; simpl; lia|lia].
  - subst j. cbn [ins]. unfold moveaxis. rewrite cget_build by (rewrite !app_length, ins_length by lia; simpl; lia). f_equal.
    rewrite <- app_assoc. cbn [app]. rewrite app_nth2, Nat.sub_diag by lia. cbn [nth]. rewrite remove_app. apply insert_app. lia.
  - rewrite Forall_forall in *. intros b Hb. specialize (Fa b Hb). specialize (F' b Hb). lia.
Qed.
Lemma nth_remove : forall a (y : bits) i, a < length y -> nth i (remove_at a y) false = if i <? a then nth i y false else nth (S i) y false.
Proof.
  intros a y i Ha. pose proof (remove_insert a y Ha) as E. pose proof (remove_length a y Ha) as L. revert E L. generalize (remove_at a y) as z. generalize (nth a y false) as x. intros x z E L. rewrite <- E. rewrite !nth_insert by lia. destruct (Nat.ltb_spec i a); auto.
  destruct (Nat.ltb_spec (S i) a); [lia|]. destruct (Nat.eqb_spec (S i) a); [lia|]. f_equal. lia.
Qed.
Lemma ins_spec : forall n axes j s y, StronglySorted lt axes -> Forall (fun a => j <= a < n) axes -> length s = length axes -> length y + j = n ->
  ((exists f, length f + length axes = length y /\ y = ins axes j s f) <-> forall i, i < length axes -> nth (nth i axes 0 - j) y false = nth i s false).
Proof.
  intros n. induction axes as [|a ax IH]; intros j s y SS F L Ly; destruct s as [|x s]; simpl in L; try discriminate.
  - split; [intros _ i Hi; inversion Hi|]. intros _. exists y. split; [simpl; lia|auto].
  - apply StronglySorted_inv in SS as [SS' Fa]. pose proof (Forall_inv F) as Ha. pose proof (Forall_inv_tail F) as F'. cbv beta in Ha. rewrite Forall_forall in Fa.
    assert (F'' : Forall (fun a => S j <= a < n) ax) by (rewrite Forall_forall in *; intros b Hb; specialize (Fa b Hb); specialize (F' b Hb); lia).
    assert (Hay : a - j < length y) by lia. pose proof (remove_length (a - j) y Hay) as Lr. cbn [length].
    specialize (IH (S j) s (remove_at (a - j) y) SS' ltac:(auto) ltac:(lia) ltac:(lia)).
    assert (Q : forall i, i < length ax -> nth (nth i ax 0 - S j) (remove_at (a - j) y) false = nth (nth i ax 0 - j) y false).
    { intros i Hi. assert (Hin : In (nth i ax 0) ax) by (apply nth_In; auto). specialize (Fa _ Hin). rewrite nth_remove by auto. destruct (Nat.ltb_spec (nth i ax 0 - S j) (a - j)); [lia|]. f_equal. lia. }
    split.
    + intros (f & Lf & E). cbn [ins] in E.
      assert (Li : length (ins ax (S j) s f) = length ax + length f) by (apply ins_length; lia). assert (N : nth (a - j) y false = x) by (rewrite E; apply nth_insert_same; lia).
      assert (R : remove_at (a - j) y = ins ax (S j) s f). { apply (insert_inj (a - j) x); [|lia]. rewrite <- N at 1. rewrite remove_insert by auto. auto. }
      intros [|i] Hi; [exact N|]. cbn [nth]. rewrite <- Q by lia. apply IH; [|lia]. exists f. split; [lia|auto].
    + intros H. destruct (proj2 IH) as (f & Lf & E); [intros i Hi; rewrite Q by auto; apply (H (S i)); lia|]. exists f. split; [lia|]. cbn [ins]. rewrite <- E.
      pose proof (H 0 ltac:(lia)) as H0. cbn [nth] in H0. rewrite <- H0. symmetry. apply remove_insert. auto.
Qed.

(** Increasing lists of axes and their marks. *)
Lemma nth_axes_corner : forall n axes i, i < n -> nth i (axes_corner n axes) false = existsb (Nat.eqb i) axes.
Proof. intros. unfold axes_corner. rewrite (nth_map_lt _ _ _ _ _ 0) by (rewrite seq_length; auto). rewrite seq_nth; auto. Qed.
Lemma axes_corner_length : forall n axes, length (axes_corner n axes) = n.
Proof. intros. unfold axes_corner. rewrite map_length, seq_length. auto. Qed.
Lemma restrict_map : forall (p : nat -> bool) (g : nat -> bool) l, restrict (map p l) (map g l) = map g (filter p l).
Proof. induction l as [|x l IH]; auto. cbn [map filter]. destruct (p x); cbn [restrict map]; [f_equal|]; auto. Qed.
Lemma existsb_eqb : forall i l, existsb (Nat.eqb i) l = true <-> In i l.
Proof. intros. rewrite existsb_exists. split; [intros (x & Hx & E); apply Nat.eqb_eq in E; subst; auto|intros H; exists i; split; auto; apply Nat.eqb_refl]. Qed.
Lemma axes_filter : forall n axes, StronglySorted lt axes -> Forall (fun a => a < n) axes -> filter (fun i => existsb (Nat.eqb i) axes) (seq 0 n) = axes.
Proof.
  intros n axes SS F. apply sorted_same_eq; auto.
  - apply StronglySorted_filter, seq_sorted.
  - intros v. rewrite filter_In, existsb_eqb, in_seq. rewrite Forall_forall in F. split; [tauto|]. intros H. specialize (F v H). split; auto; lia.
Qed.
Lemma restrict_axes : forall n axes a, StronglySorted lt axes -> Forall (fun a => a < n) axes -> length a = n -> restrict (axes_corner n axes) a = map (fun i => nth i a false) axes.
Proof.
  intros n axes a SS F L. rewrite <- (axes_filter n axes SS F) at 2. rewrite <- restrict_map. f_equal. rewrite <- L. symmetry. apply map_nth_seq.
Qed.
Lemma bit_sum_filter : forall (p : nat -> bool) l, bit_sum (map p l) = length (filter p l).
Proof. induction l as [|x l IH]; auto. cbn [map filter]. rewrite bit_sum_cons. destruct (p x); cbn [nat_of length]; lia. Qed.
Lemma axes_bit_sum : forall n axes, StronglySorted lt axes -> Forall (fun a => a < n) axes -> bit_sum (axes_corner n axes) = length axes.
Proof. intros. unfold axes_corner. rewrite bit_sum_filter, axes_filter; auto. Qed.
Lemma bit_sum_neg : forall b, bit_sum (map negb b) = length b - bit_sum b.
Proof. induction b as [|[] b IH]; auto; cbn [map negb length]; rewrite !bit_sum_cons; cbn [nat_of]; pose proof (bit_sum_le b); lia. Qed.

Lemma combos_seq : forall n d axes, d <= n -> (In axes (map snd (combinations d (seq 0 n))) <-> StronglySorted lt axes /\ length axes = d /\ Forall (fun a => a < n) axes).
Proof.
  intros n d axes Hd. destruct (combinations_enum nat (seq 0 n) d) as (P & F2 & _ & HP & _); [rewrite seq_length; auto|]. rewrite seq_length in HP.
  assert (E : map snd (combinations d (seq 0 n)) = P).
  { assert (HP' : forall ps, In ps P -> is_selection n d ps) by (intros; apply HP; auto). clear HP. revert F2 HP'. generalize (map snd (combinations d (seq 0 n))) as M. intros M F2. induction F2 as [|ps l P' M' S F2 IH]; intros HP'; auto.
    f_equal; [|apply IH; intros; apply HP'; right; auto]. destruct (HP' ps (or_introl eq_refl)) as (_ & _ & F). unfold selects in S. clear - S F. revert l S. induction ps as [|p ps IH]; intros [|x l] S; simpl in S; try discriminate; auto.
    inversion F; subst. injection S as S1 S2. f_equal; [|auto]. destruct (nth_error (seq 0 n) p) eqn:E; [|discriminate]. injection S1 as ->. apply nth_error_nth with (d := 0) in E. rewrite seq_nth in E by auto. auto. }
  rewrite E, HP. unfold is_selection. tauto.
Qed.

(** Corners of the faces generated for a combination of axes. *)
Lemma nth_ravel_corners : forall A (g : bits -> A) d bs x, length bs = d -> nth (ravel bs) (map g (corners d)) x = g bs.
Proof.
  intros A g d bs x L. assert (Hr : ravel bs < length (corners d)) by (rewrite corners_length, <- L; apply ravel_lt).
  rewrite (nth_map_lt _ _ _ _ _ []) by auto. f_equal. apply ravel_inj; [rewrite L; apply (proj1 (corners_in d _)); apply nth_In; auto|].
  { pose proof (corners_ravel d) as E. apply (f_equal (fun l => nth (ravel bs) l 0)) in E. rewrite (nth_map_lt _ _ _ _ _ []) in E by auto. rewrite seq_nth in E by (rewrite corners_length in Hr; auto). auto. }
Qed.

Definition face_of (n d : nat) (c : cube) (pa : nat * list nat) (side : bits) : cube :=
  let s_view := fold_left (fun v ja => moveaxis n (snd ja) (fst ja) v) (combine (seq 0 d) (snd pa)) c in
  let s_view := if (fst pa =? 1) && true then flip_last n s_view else s_view in
  let f := front n side s_view in if (d =? 1) && true && forallb id side then flip_last (n - d) f else f.
Lemma generate_faces : forall n d c, generate_cube_boundary n d true c = map (fun pa => map (face_of n d c pa) (corners d)) (combinations d (seq 0 n)).
Proof. reflexivity. Qed.
Lemma flip_last_length : forall n c, length c = 2 ^ n -> length (flip_last n c) = 2 ^ n.
Proof. intros n c L. unfold flip_last. destruct (n =? 0); auto. apply cbuild_length. Qed.
Lemma flip_last_in : forall n c v, length c = 2 ^ n -> (In v (flip_last n c) <-> In v c).
Proof.
  intros n c v L. unfold flip_last. destruct (n =? 0) eqn:E; [tauto|]. apply Nat.eqb_neq in E. pose proof (flip_perm n (n - 1) c ltac:(lia) L) as P. split; apply Permutation_in; auto. apply Permutation_sym. auto.
Qed.
Lemma flip_bit_app : forall (s f : bits) k, flip_bit (length s + k) (s ++ f) = s ++ flip_bit k f.
Proof. induction s as [|x s IH]; intros f k; auto. cbn [length app Nat.add flip_bit]. f_equal. auto. Qed.
Lemma front_in : forall n side w v, length side < n -> length w = 2 ^ n -> (In v (front n side (flip_last n w)) <-> In v (front n side w)).
Proof.
  intros n side w v Hs L. unfold flip_last. destruct (n =? 0) eqn:E; [tauto|]. apply Nat.eqb_neq in E. unfold front, cbuild. rewrite !in_map_iff.
  assert (Q : forall f, length f = n - length side -> cget (flip n (n - 1) w) (side ++ f) = cget w (side ++ flip_bit (n - 1 - length side) f)).
  { intros f Hf. unfold flip. rewrite cget_build by (rewrite app_length; lia). f_equal. rewrite <- flip_bit_app. f_equal. lia. }
  split; intros (f & <- & Hf); apply corners_in in Hf; exists (flip_bit (n - 1 - length side) f); (split; [|apply corners_in; rewrite flip_bit_length; auto]).
  - rewrite Q by auto. auto.
  - rewrite Q by (rewrite flip_bit_length; auto). rewrite flip_flip_bit. auto.
Qed.
Lemma fold_move_length : forall n l (v : cube), length v = 2 ^ n -> length (fold_left (fun v (ja : nat * nat) => moveaxis n (snd ja) (fst ja) v) l v) = 2 ^ n.
Proof. intros n. induction l as [|x l IH]; intros v L; auto. cbn [fold_left]. apply IH. apply cbuild_length. Qed.
Lemma face_of_in : forall n d c pa side v, length c = 2 ^ n -> d < n -> length side = d -> In pa (combinations d (seq 0 n)) ->
  (In v (face_of n d c pa side) <-> exists y, length y = n /\ (forall i, i < d -> nth (nth i (snd pa) 0) y false = nth i side false) /\ cget c y = v) /\ length (face_of n d c pa side) = 2 ^ (n - d).
Proof.
  intros n d c pa side v L Hd Ls Hpa. assert (Hx : In (snd pa) (map snd (combinations d (seq 0 n)))) by (apply in_map; auto). apply (proj1 (combos_seq n d (snd pa) ltac:(lia))) in Hx as (SS & Lx & Fx).
  set (w := fold_left (fun v ja => moveaxis n (snd ja) (fst ja) v) (combine (seq 0 d) (snd pa)) c).
  assert (Lw : length w = 2 ^ n) by (apply fold_move_length; auto).
  assert (Lf : forall w', length (front n side w') = 2 ^ (n - d)) by (intros; unfold front; rewrite cbuild_length, Ls; auto).
  assert (E1 : In v (face_of n d c pa side) <-> In v (front n side w)).
  { unfold face_of. cbv zeta. fold w. destruct ((d =? 1) && true && forallb id side); destruct ((fst pa =? 1) && true); rewrite ?flip_last_in by (apply Lf); rewrite ?front_in by lia; tauto. }
  split.
  - rewrite E1. unfold front, cbuild. rewrite in_map_iff, Ls.
    assert (FM : forall f, length f = n - d -> cget w (side ++ f) = cget c (ins (snd pa) 0 side f)).
    { intros f Hf. pose proof (fold_move n (snd pa) 0 c [] side f SS) as Q. rewrite Lx in Q. cbn [app] in Q. apply Q; auto; try lia. rewrite Forall_forall in *. intros b Hb. specialize (Fx b Hb). lia. }
    assert (IS : forall y, length y = n -> (exists f, length f + length (snd pa) = length y /\ y = ins (snd pa) 0 side f) <-> (forall i, i < d -> nth (nth i (snd pa) 0) y false = nth i side false)).
    { intros y Hy. rewrite (ins_spec n (snd pa) 0 side y SS) by (auto; try lia; rewrite Forall_forall in *; intros b Hb; specialize (Fx b Hb); lia). rewrite Lx. split; intros H i Hi; specialize (H i Hi); rewrite Nat.sub_0_r in *; auto. }
    split.
    + intros (f & <- & Hf). apply corners_in in Hf. rewrite FM by auto. exists (ins (snd pa) 0 side f). assert (Li : length (ins (snd pa) 0 side f) = n) by (rewrite ins_length; lia). split; auto. split; auto. apply IS; auto. exists f. split; [lia|auto].
    + intros (y & Hy & A & <-). apply IS in A as (f & Lf' & ->); auto. exists f. assert (length f = n - d) by lia. split; [apply FM; auto|]. apply corners_in. auto.
  - unfold face_of. cbv zeta. fold w. destruct ((d =? 1) && true && forallb id side); auto. apply flip_last_length. auto.
Qed.
Lemma face_of_cell : forall n d c pa a, length c = 2 ^ n -> NoDup c -> d < n -> length a = n -> In pa (combinations d (seq 0 n)) ->
  Permutation (cell c a (map negb (axes_corner n (snd pa)))) (face_of n d c pa (restrict (axes_corner n (snd pa)) a)).
Proof.
  intros n d c pa a L ND Hd La Hpa. assert (Hx : In (snd pa) (map snd (combinations d (seq 0 n)))) by (apply in_map; auto). apply (proj1 (combos_seq n d (snd pa) ltac:(lia))) in Hx as (SS & Lx & Fx).
  assert (Lc : length (map negb (axes_corner n (snd pa))) = n) by (rewrite map_length; apply axes_corner_length).
  assert (Ls : length (restrict (axes_corner n (snd pa)) a) = d) by (rewrite restrict_axes by auto; rewrite map_length; auto).
  apply NoDup_Permutation_bis.
  - apply (cell_nodup n); auto.
  - destruct (face_of_in n d c pa _ 0 L Hd Ls Hpa) as [_ E]. rewrite E, cell_length, bit_sum_neg, axes_corner_length, axes_bit_sum, Lx by auto. auto.
  - intros v Hv. apply (face_of_in n d c pa _ v L Hd Ls Hpa). apply (cell_in n) in Hv as (z & [Lz A] & <-); auto. exists z. split; auto. split; auto. intros i Hi. rewrite restrict_axes by auto.
    rewrite (nth_map_lt _ _ _ _ _ 0) by lia. assert (Hin : In (nth i (snd pa) 0) (snd pa)) by (apply nth_In; lia). rewrite Forall_forall in Fx. specialize (Fx _ Hin). apply A; auto.
    rewrite (nth_map_lt _ _ _ _ _ false) by (rewrite axes_corner_length; auto). rewrite nth_axes_corner by auto. rewrite (proj2 (existsb_eqb _ _) Hin). auto.
Qed.
