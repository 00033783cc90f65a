(** The closest centroid of a grid of equal boxes. *)
Require Import List Arith ZArith Bool Lia Field.
From Verif Require Import Util Arr LinModel Ofield SimpModel CubeModel CubeBits SampModel SampSpec SampProofs SampBox.
Import ListNotations.

Section Pick.
Variable F : ofield.
Add Field Fpk : (fth F).
Local Open Scope ring_scope'.
Notation two := (r1 + r1 : F).
Lemma two_nz : two <> r0.
Proof. apply pos_neq, pos_two. Qed.
Definition half : F := finv two.
Lemma half_half : r1 - half = half.
Proof. unfold half. field. apply two_nz. Qed.
Fixpoint hpow (n : nat) : F := match n with O => r1 | S m => half * hpow m end.
Lemma weight_half : forall n c, length c = n -> weight F (repeat half n) c = hpow n.
Proof.
  induction n as [|n IH]; intros [|b c] L; cbn in L; try discriminate; [reflexivity|]. cbn [repeat hpow]. rewrite weight_cons, IH by lia.
  rewrite half_half. destruct b; auto.
Qed.
Lemma hpow_sum : forall n, hpow n * rsum (map (fun _ : bits => r1) (corners n)) = r1.
Proof.
  intros n. transitivity (interpolate F n (repeat half n) (fun _ => r1)); [|apply interpolate_const; apply repeat_length]. rewrite interpolate_sum, <- rsum_mul. f_equal. apply map_ext_in.
  intros c Hc. apply corners_in in Hc. rewrite weight_half by auto. ring.
Qed.
Lemma mean_corners : forall n (v : bits -> F), mean F (map v (corners n)) = interpolate F n (repeat half n) v.
Proof.
  intros n v. unfold mean. rewrite map_map. pose proof (hpow_sum n) as S1.
  assert (N : rsum (map (fun _ : bits => r1) (corners n)) <> (r0 : F)). { intros Z. rewrite Z in S1. apply (F_1_neq_0 (fth F)). rewrite <- S1. ring. }
  rewrite interpolate_sum. rewrite (map_ext_in (fun c => v c * weight F (repeat half n) c) (fun c => v c * hpow n)) by (intros c Hc; apply corners_in in Hc; rewrite weight_half by auto; auto).
  rewrite (rsum_mul_r F _ v). transitivity (rsum (map v (corners n)) * (fdiv r1 (rsum (map (fun _ : bits => r1) (corners n))))); [field; auto|]. f_equal. rewrite <- S1 at 1. field. auto.
Qed.
Lemma centroid_nth : forall n pos lo hi i, spans_box n pos lo hi -> (i < n)%nat -> nth i (centroid F n (map pos (corners n))) r0 = nth i lo r0 + (nth i hi r0 - nth i lo r0) * half.
Proof.
  intros n pos lo hi i B Hi. unfold centroid. rewrite (nth_map_lt _ _ (fun i => mean F (map (fun c => nth i c r0) (map pos (corners n)))) (seq 0 n) i 0%nat r0) by (rewrite seq_length; auto).
  rewrite seq_nth by auto. cbn [Nat.add]. rewrite map_map, mean_corners. destruct B as (Ll & Lh & Ne & H).
  rewrite (interpolate_ext F n _ _ (fun c => (nth i hi r0 - nth i lo r0) * bit F (nth i c false) + nth i lo r0) (repeat_length _ _)).
  - rewrite (interpolate_lin F n _ _ (fun c => bit F (nth i c false)) (fun _ => nth i lo r0)), interpolate_const, interpolate_coord by (auto; apply repeat_length).
    rewrite nth_repeat' by auto. ring.
  - intros c Lc. destruct (H c Lc) as [_ ->]; auto. destruct (nth i c false); cbn [bit]; ring.
Qed.
(** One axis. *)
Lemma nonneg_sum_zero : forall A (f : A -> F) l, (forall x, In x l -> at_most r0 (f x)) -> at_most (rsum (map f l)) r0 -> forall x, In x l -> f x = r0.
Proof.
  intros A f l. assert (N : (forall x, In x l -> at_most r0 (f x)) -> at_most r0 (rsum (map f l))).
  { induction l as [|a l IH]; intros H; unfold at_most in *; cbn; [unfold fltb; replace (r0 - r0) with (r0 : F) by ring; apply pos_0|]. apply nonneg_add; [apply H; cbn; auto|apply IH; intros; apply H; cbn; auto]. }
  revert N. induction l as [|a l IH]; intros N H S x Hx; [contradiction|]. cbn in S. fold (rsum (map f l)) in S.
  assert (Ha : at_most r0 (f a)) by (apply H; cbn; auto). assert (Hl : forall y, In y l -> at_most r0 (f y)) by (intros; apply H; cbn; auto).
  assert (N' : at_most r0 (rsum (map f l))). { clear -Hl. induction l as [|b l IH]; unfold at_most in *; cbn; [unfold fltb; replace (r0 - r0) with (r0 : F) by ring; apply pos_0|]. apply nonneg_add; [apply Hl; cbn; auto|apply IH; intros; apply Hl; cbn; auto]. }
  assert (Za : f a = r0). { apply at_most_antisym; auto. apply (at_most_trans F _ (f a + rsum (map f l))); auto. unfold at_most. apply nonneg_sub. replace (f a + rsum (map f l) - f a) with (rsum (map f l)) by ring. auto. }
  destruct Hx as [<-|Hx]; auto. apply IH; auto. rewrite Za in S. replace (r0 + rsum (map f l)) with (rsum (map f l)) in S by ring. auto.
Qed.
Lemma am_sub : forall x y : F, at_most x y <-> at_most r0 (y - x).
Proof. intros. unfold at_most. rewrite nonneg_sub. tauto. Qed.
Lemma mul_zero : forall x y : F, x * y = r0 -> x = r0 \/ y = r0.
Proof.
  intros x y E. destruct (pos_cases F x) as [[P|P]|P]; auto; right; (assert (N : x <> r0) by (intros ->; revert P; try replace (ropp r0) with (r0 : F) by ring; rewrite pos_0; discriminate));
    (transitivity (x * y * finv x); [field; auto|rewrite E; ring]).
Qed.
(** Another slab of the same width above: farther away, unless the point is on the common face. *)
Lemma slab_above : forall lo s x lo' : F, pos s = true -> at_most lo x -> at_most x (lo + s) -> at_most (lo + s) lo' ->
  at_most r0 ((x - (lo' + s * half)) * (x - (lo' + s * half)) - (x - (lo + s * half)) * (x - (lo + s * half))) /\
  ((x - (lo' + s * half)) * (x - (lo' + s * half)) - (x - (lo + s * half)) * (x - (lo + s * half)) = r0 -> x = lo').
Proof.
  intros lo s x lo' P A B C. pose proof half_half as HH.
  assert (T : at_most r0 (lo' - x)) by (apply (proj1 (am_sub _ _)); apply (at_most_trans F _ (lo + s)); auto).
  assert (E1 : (lo' + s * half - x) - (x - (lo + s * half)) = (lo' - x) + (lo + s - x)). { transitivity (lo' - x + (lo - x) + s * (half + half)); [ring|]. replace (half + half) with (r1 : F) by (rewrite <- HH at 1; ring). ring. }
  assert (E2 : (lo' + s * half - x) + (x - (lo + s * half)) = (lo' - x) + (x - lo)) by ring.
  assert (E : (x - (lo' + s * half)) * (x - (lo' + s * half)) - (x - (lo + s * half)) * (x - (lo + s * half)) = ((lo' - x) + (lo + s - x)) * ((lo' - x) + (x - lo))) by (rewrite <- E1, <- E2; ring).
  rewrite E. apply am_sub in A. apply am_sub in B. split.
  - apply nonneg_mul; apply nonneg_add; auto.
  - intros Z. assert (D : forall t u : F, at_most r0 t -> at_most r0 u -> t + u = r0 -> t = r0).
    { intros t u Ht Hu Q. apply at_most_antisym; auto. apply am_sub. replace (r0 - t) with u by (rewrite <- Q; ring). auto. }
    assert (R : lo' - x = r0) by (apply mul_zero in Z as [Z|Z]; [apply (D _ _ T B Z)|apply (D _ _ T A Z)]). replace lo' with (lo' - x + x) by ring. rewrite R. ring.
Qed.
Lemma slab_below : forall lo s x lo' : F, pos s = true -> at_most lo x -> at_most x (lo + s) -> at_most (lo' + s) lo ->
  at_most r0 ((x - (lo' + s * half)) * (x - (lo' + s * half)) - (x - (lo + s * half)) * (x - (lo + s * half))) /\
  ((x - (lo' + s * half)) * (x - (lo' + s * half)) - (x - (lo + s * half)) * (x - (lo + s * half)) = r0 -> x = lo' + s).
Proof.
  intros lo s x lo' P A B C. pose proof half_half as HH. assert (H2 : half + half = r1) by (rewrite <- HH at 1; ring).
  destruct (slab_above (ropp (lo + s)) s (ropp x) (ropp (lo' + s)) P) as [U V].
  - apply am_sub. replace (ropp x - ropp (lo + s)) with (lo + s - x) by ring. apply am_sub in B. auto.
  - apply am_sub. replace (ropp (lo + s) + s - ropp x) with (x - lo) by ring. apply am_sub in A. auto.
  - apply am_sub. replace (ropp (lo' + s) - (ropp (lo + s) + s)) with (lo - (lo' + s)) by ring. apply am_sub in C. auto.
  - assert (S1 : forall l : F, (ropp x - (ropp (l + s) + s * half)) * (ropp x - (ropp (l + s) + s * half)) = (x - (l + s * half)) * (x - (l + s * half))).
    { intros l. replace (ropp x - (ropp (l + s) + s * half)) with (ropp (x - (l + s * half)) ); [ring|]. transitivity (ropp x + l + s * (half + half) - s * half); [ring|]. rewrite H2. ring. }
    rewrite !S1 in U, V. split; auto. intros Z. specialize (V Z). replace x with (ropp (ropp x)) by ring. rewrite V. ring.
Qed.
End Pick.
