(** Barycentric coordinates in boxes. *)
Require Import List Arith ZArith Bool Lia Field.
From Verif Require Import Util Arr LinModel Ofield SimpModel CubeModel CubeBits SampModel SampSpec SampProofs.
Import ListNotations.

Section Box.
Variable F : ofield.
Add Field Fsb : (fth F).
Local Open Scope ring_scope'.
Lemma map2_length : forall A B C (f : A -> B -> C) l m, length (map2 f l m) = Nat.min (length l) (length m).
Proof. intros. unfold map2. rewrite map_length, combine_length. auto. Qed.
Lemma map2_nth : forall A B C (f : A -> B -> C) l m i da db dc, (i < length l)%nat -> (i < length m)%nat -> nth i (map2 f l m) dc = f (nth i l da) (nth i m db).
Proof.
  intros A B C f l. induction l as [|x l IH]; intros [|y m] i da db dc Hl Hm; cbn in Hl, Hm; try lia. destruct i as [|i]; [reflexivity|].
  change (nth i (map2 f l m) dc = f (nth i l da) (nth i m db)). apply IH; lia.
Qed.
Lemma last_nth : forall A (l : list A) d, last l d = nth (length l - 1) l d.
Proof. induction l as [|x l IH]; intros d; auto. destruct l as [|y l]; auto. change (last (y :: l) d = nth (length (y :: l)) (x :: y :: l) d). rewrite IH. cbn. rewrite Nat.sub_0_r. auto. Qed.
Lemma ravel_false : forall n, ravel (repeat false n) = 0%nat.
Proof. induction n; cbn; auto. Qed.
Lemma ravel_true : forall n, ravel (repeat true n) = (2 ^ n - 1)%nat.
Proof. induction n; cbn -[Nat.pow]; auto. rewrite IHn, repeat_length. cbn [Nat.pow]. pose proof (Nat.pow_nonzero 2 n ltac:(lia)). lia. Qed.
Lemma corner_nth : forall A n (f : bits -> A) bs d, length bs = n -> nth (ravel bs) (map f (corners n)) d = f bs.
Proof.
  intros A n f bs d L. assert (R : (ravel bs < length (corners n))%nat) by (rewrite corners_length; rewrite <- L; apply ravel_lt).
  rewrite (nth_indep _ d (f [])) by (rewrite map_length; auto). rewrite (map_nth f). f_equal. apply ravel_inj.
  - rewrite L. apply corners_in. apply nth_In. auto.
  - assert (E : nth (ravel bs) (map ravel (corners n)) (ravel []) = ravel bs) by (rewrite corners_ravel, seq_nth; [auto|rewrite <- L; apply ravel_lt]). rewrite (map_nth ravel) in E. auto.
Qed.
Lemma nth_repeat' : forall A (x : A) n i d, (i < n)%nat -> nth i (repeat x n) d = x.
Proof. induction n; intros [|i] d H; cbn; try lia; auto. apply IHn. lia. Qed.
Lemma spans_box_of : forall n pos lo hi, spans_box n pos lo hi -> box_of F (map pos (corners n)) = (lo, map2 rsub hi lo).
Proof.
  intros n pos lo hi (Ll & Lh & Ne & H). unfold box_of.
  assert (E0 : nth 0 (map pos (corners n)) [] = lo).
  { rewrite <- (ravel_false n), corner_nth by apply repeat_length. destruct (H (repeat false n) (repeat_length _ _)) as [L E]. apply (nth_ext _ _ r0 r0); [lia|].
    intros i Hi. rewrite E by lia. rewrite nth_repeat' by lia. auto. }
  assert (E1 : last (map pos (corners n)) [] = hi).
  { rewrite last_nth, map_length, corners_length, <- ravel_true, corner_nth by apply repeat_length. destruct (H (repeat true n) (repeat_length _ _)) as [L E]. apply (nth_ext _ _ r0 r0); [lia|].
    intros i Hi. rewrite E by lia. rewrite nth_repeat' by lia. auto. }
  rewrite E0, E1. auto.
Qed.
Lemma baries_length : forall n lo hi p, length lo = n -> length hi = n -> length p = n -> length (compute_baries F (lo, map2 rsub hi lo) p) = n.
Proof. intros. unfold compute_baries. cbn. rewrite !map2_length. lia. Qed.
Lemma baries_nth : forall n lo hi p i, length lo = n -> length hi = n -> length p = n -> (i < n)%nat ->
  nth i (compute_baries F (lo, map2 rsub hi lo) p) r0 = fdiv (nth i p r0 - nth i lo r0) (nth i hi r0 - nth i lo r0).
Proof.
  intros. unfold compute_baries. cbn [fst snd]. rewrite (map2_nth _ _ _ _ _ _ _ r0 r0) by (rewrite map2_length; lia). f_equal; apply map2_nth; lia.
Qed.
(** Order. *)
Lemma at_most_antisym : forall x y : F, at_most x y -> at_most y x -> x = y.
Proof. unfold at_most, fltb. intros x y A B. replace x with (x - y + y) by ring. rewrite (pos_zero F (x - y)); auto; [ring|]. replace (ropp (x - y)) with (y - x) by ring. auto. Qed.
Lemma at_most_trans : forall x y z : F, at_most x y -> at_most y z -> at_most x z.
Proof.
  intros x y z A B. pose proof (nonneg_add F (y - x) (z - y) (proj2 (nonneg_sub F x y) A) (proj2 (nonneg_sub F y z) B)) as H.
  unfold at_most. apply nonneg_sub. replace (z - x) with (y - x + (z - y)) by ring. auto.
Qed.
Lemma at_most_total : forall x y : F, at_most x y \/ at_most y x.
Proof. intros x y. unfold at_most, fltb. destruct (pos (x - y)) eqn:E; auto. right. apply neg_pos in E. rewrite <- E. f_equal. ring. Qed.
Lemma lt_at_most : forall x y : F, fltb x y = true -> at_most x y.
Proof. intros x y H. unfold at_most, fltb in *. apply neg_pos in H. rewrite <- H. f_equal. ring. Qed.
Lemma nearest1_unique : forall a b x y y' : F, nearest1 a b x y -> nearest1 a b x y' -> y = y'.
Proof.
  assert (M : forall a b x y y' : F, at_most a b -> ((at_most x a /\ y = a) \/ (at_most a x /\ at_most x b /\ y = x) \/ (at_most b x /\ y = b)) ->
    ((at_most x a /\ y' = a) \/ (at_most a x /\ at_most x b /\ y' = x) \/ (at_most b x /\ y' = b)) -> y = y').
  { intros a b x y y' L [(A & ->)|[(A & B & ->)|(A & ->)]] [(C & ->)|[(C & D & ->)|(C & ->)]]; auto using at_most_antisym.
    - apply at_most_antisym; auto. apply (at_most_trans b x a); auto.
    - apply at_most_antisym; auto. apply (at_most_trans b x a); auto. }
  intros a b x y y' [[L H]|[L H]] [[L' H']|[L' H']]; [apply (M a b x)| | |apply (M b a x)]; auto.
  - assert (a = b) by (apply at_most_antisym; auto). subst b. apply (M a a x); auto.
  - assert (a = b) by (apply at_most_antisym; auto). subst b. apply (M a a x); auto.
Qed.
(** Clipping finds the nearest point. *)
Lemma div_nonneg : forall x y : F, at_most r0 x -> pos y = true -> at_most r0 (fdiv x y).
Proof.
  intros x y A P. unfold at_most. rewrite (F.(fth).(Fdiv_def)). apply nonneg_mul; auto. unfold fltb. replace (r0 - finv y) with (ropp (finv y)) by ring. apply neg_pos, pos_inv. auto.
Qed.
Lemma clip_pos : forall a b x : F, pos (b - a) = true -> at_most a b /\ ((at_most x a /\ a + clip01 F (fdiv (x - a) (b - a)) * (b - a) = a) \/
  (at_most a x /\ at_most x b /\ a + clip01 F (fdiv (x - a) (b - a)) * (b - a) = x) \/ (at_most b x /\ a + clip01 F (fdiv (x - a) (b - a)) * (b - a) = b)).
Proof.
  intros a b x P. pose proof (pos_neq F _ P) as N. split; [apply lt_at_most; auto|]. set (t := fdiv (x - a) (b - a)).
  assert (Ex : x - a = t * (b - a)) by (unfold t; field; auto).
  assert (Nn : fltb (b - a) r0 = false). { unfold fltb. replace (r0 - (b - a)) with (ropp (b - a)) by ring. apply neg_pos. auto. }
  unfold clip01. destruct (fltb t r0) eqn:A; [left|right; destruct (fltb r1 t) eqn:B; [right|left]].
  - split; [|ring]. unfold at_most. apply nonneg_sub. replace (a - x) with ((r0 - t) * (b - a)) by (replace (a - x) with (r0 - (x - a)) by ring; rewrite Ex; ring).
    apply nonneg_mul; auto. apply nonneg_sub. apply lt_at_most in A. auto.
  - split; [|ring]. unfold at_most. apply nonneg_sub. replace (x - b) with ((t - r1) * (b - a)) by (replace (x - b) with (x - a - (b - a)) by ring; rewrite Ex; ring).
    apply nonneg_mul; auto. apply nonneg_sub. apply lt_at_most in B. auto.
  - repeat split.
    + unfold at_most. apply nonneg_sub. rewrite Ex. apply nonneg_mul; auto.
    + unfold at_most. apply nonneg_sub. replace (b - x) with ((r1 - t) * (b - a)) by (replace (b - x) with (b - a - (x - a)) by ring; rewrite Ex; ring). apply nonneg_mul; auto. apply nonneg_sub. auto.
    + rewrite <- Ex. ring.
Qed.
(** Reflecting an axis leaves the barycentric coordinate alone. *)
Lemma at_most_opp : forall x y : F, at_most (ropp x) (ropp y) -> at_most y x.
Proof. intros x y. unfold at_most, fltb. intros H. rewrite <- H. f_equal. ring. Qed.
Lemma clip_nearest : forall a b x : F, a <> b -> nearest1 a b x (a + clip01 F (fdiv (x - a) (b - a)) * (b - a)).
Proof.
  intros a b x N. destruct (pos_cases F (b - a)) as [[P|P]|Z].
  - left. apply clip_pos. auto.
  - right. assert (P' : pos (ropp b - ropp a) = true) by (rewrite <- P; f_equal; ring).
    destruct (clip_pos (ropp a) (ropp b) (ropp x) P') as [L H]. assert (Nz : b - a <> r0). { intros Z. apply (pos_neq F _ P). rewrite Z. ring. }
    replace (fdiv (ropp x - ropp a) (ropp b - ropp a)) with (fdiv (x - a) (b - a)) in H. 2:{ field. split; auto. intros Z. apply Nz. transitivity (ropp (ropp b - ropp a)); [ring|]. rewrite Z. ring. }
    set (c := clip01 F (fdiv (x - a) (b - a))) in *. split; [apply at_most_opp; auto|].
    replace (ropp a + c * (ropp b - ropp a)) with (ropp (a + c * (b - a))) in H by ring.
    assert (I : forall u v : F, ropp u = ropp v -> u = v). { intros u v E. replace u with (ropp (ropp u)) by ring. rewrite E. ring. }
    destruct H as [(A & B)|[(A & B & C)|(A & B)]].
    + right. right. split; [apply at_most_opp; auto|apply I; auto].
    + right. left. repeat split; try (apply at_most_opp; auto). apply I; auto.
    + left. split; [apply at_most_opp; auto|apply I; auto].
  - exfalso. apply N. replace b with (b - a + a) by ring. rewrite Z. ring.
Qed.
(** Interpolating coordinates and affine functions. *)
Lemma interpolate_rsum : forall n bs (l : list nat) (a : nat -> F) (v : nat -> bits -> F), length bs = n ->
  interpolate F n bs (fun c => rsum (map (fun i => a i * v i c) l)) = rsum (map (fun i => a i * interpolate F n bs (v i)) l).
Proof.
  intros n bs l a v L. induction l as [|i l IH]; cbn [map]; [apply (interpolate_const F n bs r0 L)|]. unfold rsum in *. cbn [fold_right]. rewrite (interpolate_lin F n bs (a i) (v i)) by auto. rewrite IH. auto.
Qed.
Lemma interpolate_affine : forall n pos lo hi bs k a, spans_box n pos lo hi -> length bs = n ->
  interpolate F n bs (fun c => affine n k a (pos c)) = affine n k a (map (fun i => nth i lo r0 + nth i bs r0 * (nth i hi r0 - nth i lo r0)) (seq 0 n)).
Proof.
  intros n pos lo hi bs k a (Ll & Lh & Ne & H) L. unfold affine.
  rewrite (interpolate_ext F n bs _ (fun c => r1 * k + rsum (map (fun i => a i * nth i (pos c) r0) (seq 0 n))) L) by (intros; ring).
  rewrite (interpolate_lin F n bs r1 (fun _ => k)) by auto. rewrite interpolate_const, (interpolate_rsum n bs (seq 0 n) a (fun i c => nth i (pos c) r0)) by auto.
  replace (r1 * k) with k by ring. f_equal. f_equal. apply map_ext_in. intros i Hi. apply in_seq in Hi. f_equal.
  rewrite (interpolate_ext F n bs _ (fun c => (nth i hi r0 - nth i lo r0) * bit F (nth i c false) + nth i lo r0) L).
  - rewrite (interpolate_lin F n bs _ (fun c => bit F (nth i c false)) (fun _ => nth i lo r0)) by auto. rewrite interpolate_const, interpolate_coord by (auto; lia).
    rewrite (nth_map_lt _ _ (fun i => nth i lo r0 + nth i bs r0 * (nth i hi r0 - nth i lo r0)) (seq 0 n) i 0%nat r0) by (rewrite seq_length; lia). rewrite seq_nth by lia. cbn [Nat.add]. ring.
  - intros c Lc. destruct (H c Lc) as [_ ->]; [|lia]. destruct (nth i c false); cbn [bit]; ring.
Qed.
End Box.
