(** Invariants of solve_cg. *)
Require Import List Arith ZArith Bool Lia Field.
From Verif Require Import Util Arr LinModel Ofield CgModel CgSpec.
Import ListNotations.

Section Laws.
Variable F : ofield.
Add Field Fcg : (fth F).
Local Open Scope ring_scope'.
Ltac vi := intros; repeat match goal with x : vec F (S _) |- _ => destruct x end; cbn; repeat match goal with |- (_, _) = (_, _) => f_equal end; try ring; auto.
Lemma vec0 : forall x y : vec F 0, x = y.
Proof. intros [] []. auto. Qed.
Lemma vadd_comm : forall n (x y : vec F n), vadd x y = vadd y x.
Proof. induction n; vi. Qed.
Lemma vadd_assoc : forall n (x y z : vec F n), vadd x (vadd y z) = vadd (vadd x y) z.
Proof. induction n; vi. Qed.
Lemma vadd_0 : forall n (x : vec F n), vadd x (vzero n) = x.
Proof. induction n; [intros; apply vec0|vi]. Qed.
Lemma vsub_add : forall n (x y : vec F n), vsub x y = vadd x (vscale (ropp r1) y).
Proof. induction n; vi. Qed.
Lemma vscale_add : forall n a (x y : vec F n), vscale a (vadd x y) = vadd (vscale a x) (vscale a y).
Proof. induction n; vi. Qed.
Lemma vscale_mul : forall n a b (x : vec F n), vscale a (vscale b x) = vscale (a * b) x.
Proof. induction n; vi. Qed.
Lemma vscale_plus : forall n a b (x : vec F n), vadd (vscale a x) (vscale b x) = vscale (a + b) x.
Proof. induction n; vi. Qed.
Lemma vscale_1 : forall n (x : vec F n), vscale r1 x = x.
Proof. induction n; [intros; apply vec0|vi]. Qed.
Lemma vscale_0 : forall n (x : vec F n), vscale r0 x = vzero n.
Proof. induction n; vi. Qed.
Lemma vdot_comm : forall n (x y : vec F n), vdot x y = vdot y x.
Proof. induction n; vi. rewrite IHn. ring. Qed.
Lemma vdot_add : forall n (x y z : vec F n), vdot x (vadd y z) = vdot x y + vdot x z.
Proof. induction n; vi. rewrite IHn. ring. Qed.
Lemma vdot_scale : forall n a (x y : vec F n), vdot x (vscale a y) = a * vdot x y.
Proof. induction n; vi. rewrite IHn. ring. Qed.
Lemma vdot_add_l : forall n (x y z : vec F n), vdot (vadd x y) z = vdot x z + vdot y z.
Proof. intros. rewrite vdot_comm, vdot_add, (vdot_comm n x), (vdot_comm n y). auto. Qed.
Lemma vdot_scale_l : forall n a (x y : vec F n), vdot (vscale a x) y = a * vdot x y.
Proof. intros. rewrite vdot_comm, vdot_scale, vdot_comm. auto. Qed.
Lemma vdot_0 : forall n (x : vec F n), vdot x (vzero n) = r0.
Proof. induction n; vi. rewrite IHn. ring. Qed.
(** Positive definite. *)
Lemma square_nonneg : forall x : F, x = r0 \/ pos (x * x) = true.
Proof. intros x. destruct (pos_cases F x) as [[P|P]|P]; auto; right; [apply pos_mul; auto|]. replace (x * x) with (ropp x * ropp x) by ring. apply pos_mul; auto. Qed.
Lemma vdot_self : forall n (x : vec F n), x = vzero n \/ pos (vdot x x) = true.
Proof.
  induction n as [|n IH]; intros x; [left; apply vec0|]. destruct x as [a x]. cbn. destruct (IH x) as [->|P], (square_nonneg a) as [->|Q]; auto; right; rewrite ?vdot_0.
  - replace (a * a + r0) with (a * a) by ring. auto.
  - replace (r0 * r0 + vdot x x) with (vdot x x) by ring. auto.
  - apply pos_add; auto.
Qed.
Lemma vec_ext : forall n (x y : vec F n), (forall z, vdot z x = vdot z y) -> x = y.
Proof.
  intros n x y H. assert (E : vadd x (vscale (ropp r1) y) = vzero n).
  { destruct (vdot_self n (vadd x (vscale (ropp r1) y))) as [E|P]; auto. exfalso. apply (pos_neq F _ P). rewrite vdot_add, vdot_scale, H. ring. }
  rewrite <- (vadd_0 n y), <- E. rewrite (vadd_comm n x), vadd_assoc. rewrite <- (vscale_1 n y) at 1. rewrite vscale_plus. replace (r1 + ropp r1) with (r0 : F) by ring. rewrite vscale_0, vadd_comm, vadd_0. auto.
Qed.
End Laws.
Ltac vdots := rewrite ?vsub_add, ?vdot_add, ?vdot_add_l, ?vdot_scale, ?vdot_scale_l, ?vdot_0.
Ltac vring := apply vec_ext; intros; repeat progress vdots; ring.

Section Run.
Variable F : ofield.
Add Field Fcg2 : (fth F).
Local Open Scope ring_scope'.
Variable n : nat.
Variables (P A : vec F n -> vec F n) (b : vec F n) (eps huge : F).
Hypothesis HP : projection P.
Hypothesis HA : linear A.
Hypothesis He : pos eps = true.
Definition Padd := proj1 (proj1 HP). Definition Pscale := proj2 (proj1 HP). Definition Pidem := proj2 HP.
Lemma Psub : forall x y, P (vsub x y) = vsub (P x) (P y).
Proof. intros. rewrite !vsub_add, Padd, Pscale. auto. Qed.
Lemma Asub : forall x y, A (vsub x y) = vsub (A x) (A y).
Proof. intros. rewrite !vsub_add, (proj1 HA), (proj2 HA). auto. Qed.

(** The update without the rounding-error refresh and without the tests. *)
Definition pq (s : cg_state F n) := P (A (cg_d s)).
Definition pdq (s : cg_state F n) := vdot (cg_d s) (pq s).
Definition pnext (s : cg_state F n) : cg_state F n :=
  let alpha := fdiv (cg_delta s) (pdq s) in
  let r := vsub (cg_r s) (vscale alpha (pq s)) in
  mkCg (vadd (cg_x s) (vscale alpha (cg_d s))) r (vadd r (vscale (fdiv (vdot r r) (cg_delta s)) (cg_d s))) (vdot r r).
Record good (s : cg_state F n) : Prop := {
  g_x : P (cg_x s) = cg_x s;
  g_r : cg_r s = P (vsub b (A (cg_x s)));
  g_d : P (cg_d s) = cg_d s;
  g_delta : cg_delta s = vdot (cg_r s) (cg_r s);
  g_rd : vdot (cg_r s) (cg_d s) = vdot (cg_r s) (cg_r s) }.
Lemma good_Pr : forall s, good s -> P (cg_r s) = cg_r s.
Proof. intros s G. rewrite (g_r s G). apply Pidem. Qed.
Lemma good_init : forall x0, good (cg_init F n P A b x0).
Proof. intros x0. unfold cg_init. split; cbn; auto; apply Pidem. Qed.
Lemma big_dq : forall s, fltb (fabs (pdq s)) eps = false -> pdq s <> r0.
Proof. intros s H Z. rewrite Z in H. unfold fabs, fltb in H. rewrite pos_0 in H. replace (eps - ropp r0) with eps in H by ring. congruence. Qed.
Lemma good_next : forall s, good s -> pdq s <> r0 -> good (pnext s).
Proof.
  intros s G N. pose proof (good_Pr s G) as Gr. destruct G as [Gx Gr0 Gd Gdel Grd]. unfold pnext. set (al := fdiv (cg_delta s) (pdq s)).
  assert (Er : P (vsub b (A (vadd (cg_x s) (vscale al (cg_d s))))) = vsub (cg_r s) (vscale al (pq s))).
  { rewrite Gr0. unfold pq. rewrite (proj1 HA), (proj2 HA), <- Pscale, <- Psub. f_equal. vring. }
  split; cbn; auto.
  - rewrite Padd, Pscale, Gx, Gd. auto.
  - rewrite Padd, Pscale, Gd, Psub, Pscale, Gr. unfold pq at 1. rewrite Pidem. auto.
  - rewrite vdot_add, vdot_scale. set (r := vsub (cg_r s) (vscale al (pq s))).
    assert (Z : vdot r (cg_d s) = r0). { unfold r. rewrite vsub_add, vdot_add_l, !vdot_scale_l, Grd, <- Gdel, (vdot_comm F n (pq s)). fold (pdq s). unfold al. field. auto. }
    rewrite Z. ring.
Qed.
Lemma step_cases : forall x0 delta_0 i s, good s ->
  (fltb (fabs (pdq s)) eps = true /\ cg_step F n P A b eps huge x0 delta_0 i s = (s, Some end_small_dq)) \/
  (fltb (fabs (pdq s)) eps = false /\
   ((fltb (fdiv (cg_delta s) delta_0) eps = true /\ exists s', cg_step F n P A b eps huge x0 delta_0 i s = (s', Some end_converged) /\ cg_x s' = cg_x (pnext s) /\ cg_r s' = cg_r (pnext s)) \/
    (fltb (fdiv (cg_delta s) delta_0) eps = false /\
     ((pos (vdot x0 x0) && fltb huge (fdiv (vdot x0 (cg_x (pnext s))) (vdot x0 x0)) = true /\ exists s', cg_step F n P A b eps huge x0 delta_0 i s = (s', Some end_runaway) /\ cg_x s' = cg_x (pnext s) /\ cg_r s' = cg_r (pnext s)) \/
      (pos (vdot x0 x0) && fltb huge (fdiv (vdot x0 (cg_x (pnext s))) (vdot x0 x0)) = false /\ cg_step F n P A b eps huge x0 delta_0 i s = (pnext s, None)))))).
Proof.
  intros x0 delta_0 i s G. pose proof (g_d s G) as Gd. unfold cg_step. rewrite Gd. fold (pq s). fold (pdq s).
  destruct (fltb (fabs (pdq s)) eps) eqn:E; [left; auto|right]. split; auto. pose proof (big_dq s E) as N. pose proof (good_next s G N) as G'.
  assert (Ex : P (vadd (cg_x s) (vscale (fdiv (cg_delta s) (pdq s)) (cg_d s))) = cg_x (pnext s)) by (exact (g_x _ G')).
  rewrite !Ex. assert (Er : P (if Nat.eqb (i mod 50) 49 then vsub b (A (cg_x (pnext s))) else vsub (cg_r s) (vscale (fdiv (cg_delta s) (pdq s)) (pq s))) = cg_r (pnext s)).
  { destruct (Nat.eqb (i mod 50) 49); [symmetry; apply (g_r _ G')|]. exact (good_Pr _ G'). }
  rewrite !Er. destruct (fltb (fdiv (cg_delta s) delta_0) eps); [left; split; eauto|right; split; auto].
  destruct (_ && _); [left; split; eauto|right; split; auto].
Qed.

(** The states of a run. *)
Fixpoint st (s : cg_state F n) (k : nat) : cg_state F n := match k with O => s | S m => st (pnext s) m end.
Lemma st_S : forall k s, st s (S k) = pnext (st s k).
Proof. induction k; intros s; [auto|]. cbn [st]. apply (IHk (pnext s)). Qed.
Definition goes_on (delta_0 : F) (s : cg_state F n) : Prop := fltb (fabs (pdq s)) eps = false /\ fltb (fdiv (cg_delta s) delta_0) eps = false.
Definition ended (x0 : vec F n) (delta_0 : F) (todo k : nat) (s0 s : cg_state F n) (e : cg_end) : Prop :=
  match e with
  | end_max_iter => k = todo /\ s = st s0 k
  | end_small_dq => k < todo /\ s = st s0 k /\ fltb (fabs (pdq (st s0 k))) eps = true
  | end_converged => k < todo /\ fltb (fabs (pdq (st s0 k))) eps = false /\ fltb (fdiv (cg_delta (st s0 k)) delta_0) eps = true /\
      cg_x s = cg_x (st s0 (S k)) /\ cg_r s = cg_r (st s0 (S k))
  | end_runaway => k < todo /\ goes_on delta_0 (st s0 k) /\ fltb huge (fdiv (vdot x0 (cg_x (st s0 (S k)))) (vdot x0 x0)) = true /\
      cg_x s = cg_x (st s0 (S k)) /\ cg_r s = cg_r (st s0 (S k))
  end.
Lemma loop_trace : forall x0 delta_0 todo i s0, good s0 ->
  exists k, (forall j, j < k -> goes_on delta_0 (st s0 j)) /\
    ended x0 delta_0 todo k s0 (fst (cg_loop F n P A b eps huge x0 delta_0 todo i s0)) (snd (cg_loop F n P A b eps huge x0 delta_0 todo i s0)).
Proof.
  intros x0 delta_0 todo. induction todo as [|todo IH]; intros i s0 G; [exists 0; split; [lia|cbn; auto]|]. cbn [cg_loop].
  destruct (step_cases x0 delta_0 i s0 G) as [(E & ->)|(E & [(C & s' & -> & X & R)|(C & [(H & s' & -> & X & R)|(H & ->)])])].
  - exists 0. split; [lia|]. cbn. split; [lia|auto].
  - exists 0. split; [lia|]. cbn. repeat split; auto; lia.
  - exists 0. split; [lia|]. apply andb_prop in H. cbn. repeat split; auto; try lia. tauto.
  - destruct (IH (S i) (pnext s0) (good_next s0 G (big_dq s0 E))) as (k & Hk & Q). exists (S k). split.
    + intros [|j] L; [split; auto|]. apply Hk. lia.
    + unfold ended in *. destruct (snd _); cbn [st] in *; intuition lia.
Qed.
Lemma st_good : forall k s0 d0, good s0 -> (forall j, j < k -> goes_on d0 (st s0 j)) -> good (st s0 k).
Proof. induction k; intros s0 d0 G H; auto. rewrite st_S. apply good_next; [apply (IHk s0 d0); auto|]. apply big_dq. apply (H k). lia. Qed.
End Run.
