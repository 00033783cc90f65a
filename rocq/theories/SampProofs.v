(** Multilinear interpolation. *)
Require Import List Arith ZArith Bool Lia Field.
From Verif Require Import Util Arr LinModel Ofield SimpModel CubeModel SampModel.
Import ListNotations.

Section Interp.
Variable F : ofield.
Add Field Fsp : (fth F).
Local Open Scope ring_scope'.
Lemma fold_mul : forall (l : list F) a, fold_left rmul l a = a * fold_left rmul l r1.
Proof. induction l as [|x l IH]; intros a; cbn; [ring|]. rewrite IH, (IH (r1 * x)). ring. Qed.
Lemma weight_nil : forall c, weight F [] c = r1.
Proof. reflexivity. Qed.
Lemma weight_cons : forall b bs c cs, weight F (b :: bs) (c :: cs) = (if c then b else r1 - b) * weight F bs cs.
Proof. intros. unfold weight, map2. cbn. rewrite fold_mul. destruct c; cbn; ring. Qed.
Lemma fold_sum : forall A (f : A -> F) l a, fold_left (fun t c => t + f c) l a = a + rsum (map f l).
Proof. induction l as [|x l IH]; intros a; cbn; [ring|]. rewrite IH. unfold rsum. ring. Qed.
Lemma interpolate_sum : forall n bary v, interpolate F n bary v = rsum (map (fun c => v c * weight F bary c) (corners n)).
Proof. intros. unfold interpolate. rewrite (fold_sum _ (fun c => v c * weight F bary c)). ring. Qed.
Lemma interpolate_0 : forall v, interpolate F 0 [] v = v [].
Proof. intros. unfold interpolate. cbn [corners fold_left]. rewrite weight_nil. ring. Qed.
Lemma interpolate_S : forall n b bs v, interpolate F (S n) (b :: bs) v =
  (r1 - b) * interpolate F n bs (fun c => v (false :: c)) + b * interpolate F n bs (fun c => v (true :: c)).
Proof.
  intros. rewrite !interpolate_sum. cbn [corners]. rewrite map_app, rsum_app, !map_map. unfold rsum. f_equal.
  - induction (corners n) as [|c l IH]; cbn [map fold_right]; [ring|]. rewrite IH, weight_cons. ring.
  - induction (corners n) as [|c l IH]; cbn [map fold_right]; [ring|]. rewrite IH, weight_cons. ring.
Qed.
Lemma interpolate_ext : forall n bs v w, length bs = n -> (forall c, length c = n -> v c = w c) -> interpolate F n bs v = interpolate F n bs w.
Proof.
  induction n as [|n IH]; intros [|b bs] v w L H; cbn in L; try discriminate; [rewrite !interpolate_0; apply H; auto|].
  rewrite !interpolate_S. f_equal; f_equal; apply IH; auto; intros; apply H; cbn; auto.
Qed.
Lemma interpolate_const : forall n bs k, length bs = n -> interpolate F n bs (fun _ => k) = k.
Proof. induction n as [|n IH]; intros [|b bs] k L; cbn in L; try discriminate; [apply interpolate_0|]. rewrite interpolate_S, !IH by auto. ring. Qed.
Lemma interpolate_lin : forall n bs a v w, length bs = n -> interpolate F n bs (fun c => a * v c + w c) = a * interpolate F n bs v + interpolate F n bs w.
Proof.
  induction n as [|n IH]; intros [|b bs] a v w L; cbn in L; try discriminate; [rewrite !interpolate_0; auto|].
  rewrite !interpolate_S, (IH bs a (fun c => v (false :: c)) (fun c => w (false :: c))), (IH bs a (fun c => v (true :: c)) (fun c => w (true :: c))) by auto. ring.
Qed.
Lemma interpolate_corner : forall n c v, length c = n -> interpolate F n (map (bit F) c) v = v c.
Proof.
  induction n as [|n IH]; intros [|b c] v L; cbn in L; try discriminate; [apply interpolate_0|]. cbn [map]. rewrite interpolate_S, !IH by auto.
  destruct b; cbn; ring.
Qed.
(** Coordinates. *)
Lemma interpolate_coord : forall n bs i, length bs = n -> (i < n)%nat -> interpolate F n bs (fun c => bit F (nth i c false)) = nth i bs r0.
Proof.
  induction n as [|n IH]; intros [|b bs] i L H; cbn in L; try discriminate; [lia|]. rewrite interpolate_S. destruct i as [|i]; cbn [nth].
  - rewrite !interpolate_const by auto. cbn. ring.
  - rewrite !IH by lia. ring.
Qed.
Definition unit_interval (x : F) : Prop := fltb x r0 = false /\ fltb r1 x = false.
Lemma clip01_unit : forall x, unit_interval (clip01 F x).
Proof.
  intros x. unfold clip01, unit_interval. pose proof (pos_one F) as P1. destruct (fltb x r0) eqn:A; [|destruct (fltb r1 x) eqn:B; auto]; unfold fltb in *.
  - split; [replace (r0 - r0) with (r0 : F) by ring; apply pos_0|]. replace (r0 - r1) with (ropp r1 : F) by ring. apply neg_pos, P1.
  - split; [replace (r0 - r1) with (ropp r1 : F) by ring; apply neg_pos, P1|]. replace (r1 - r1) with (r0 : F) by ring. apply pos_0.
Qed.
Lemma clip01_id : forall x, unit_interval x -> clip01 F x = x.
Proof. intros x [A B]. unfold clip01. rewrite A, B. auto. Qed.
Lemma nonneg_mul : forall x y : F, fltb x r0 = false -> fltb y r0 = false -> fltb (x * y) r0 = false.
Proof.
  intros x y A B. unfold fltb in *. replace (r0 - x) with (ropp x) in A by ring. replace (r0 - y) with (ropp y) in B by ring. replace (r0 - x * y) with (ropp (x * y)) by ring.
  destruct (pos_cases F x) as [[P|P]| ->]; [|congruence|replace (ropp (r0 * y)) with (r0 : F) by ring; apply pos_0].
  destruct (pos_cases F y) as [[Q|Q]| ->]; [|congruence|replace (ropp (x * r0)) with (r0 : F) by ring; apply pos_0]. apply neg_pos, pos_mul; auto.
Qed.
Lemma nonneg_add : forall x y : F, fltb x r0 = false -> fltb y r0 = false -> fltb (x + y) r0 = false.
Proof.
  intros x y A B. unfold fltb in *. replace (r0 - x) with (ropp x) in A by ring. replace (r0 - y) with (ropp y) in B by ring. replace (r0 - (x + y)) with (ropp (x + y)) by ring.
  destruct (pos_cases F x) as [[P|P]| ->]; [|congruence|replace (r0 + y) with y by ring; auto].
  destruct (pos_cases F y) as [[Q|Q]| ->]; [|congruence|replace (x + r0) with x by ring; apply neg_pos; auto]. apply neg_pos, pos_add; auto.
Qed.
Lemma nonneg_sub : forall x y : F, fltb (y - x) r0 = false <-> fltb y x = false.
Proof. intros. unfold fltb. replace (r0 - (y - x)) with (x - y) by ring. tauto. Qed.
Lemma weight_nonneg : forall bs c, Forall unit_interval bs -> length c = length bs -> fltb (weight F bs c) r0 = false.
Proof.
  induction bs as [|b bs IH]; intros c H L.
  - rewrite weight_nil. unfold fltb. replace (r0 - r1) with (ropp r1 : F) by ring. apply neg_pos, pos_one.
  - destruct c as [|x c]; [discriminate|]. inversion H as [|? ? [A B] H']; subst. rewrite weight_cons. apply nonneg_mul; [|apply IH; auto].
    destruct x; auto. apply nonneg_sub. auto.
Qed.
Lemma interpolate_nonneg : forall n bs v, length bs = n -> Forall unit_interval bs -> (forall c, length c = n -> fltb (v c) r0 = false) -> fltb (interpolate F n bs v) r0 = false.
Proof.
  induction n as [|n IH]; intros [|b bs] v L H Hv; cbn in L; try discriminate; [rewrite interpolate_0; apply Hv; auto|].
  inversion H as [|? ? [A B] H']; subst. rewrite interpolate_S. apply nonneg_add; apply nonneg_mul; try (apply IH; auto; intros; apply Hv; cbn; auto); auto. apply nonneg_sub. auto.
Qed.
End Interp.
