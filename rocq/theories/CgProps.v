(** C53 and C62: the conjugate gradient solver. *)
Require Import List Arith ZArith Bool Lia Field QArith Qcanon.
From Verif Require Import Util Arr LinModel Ofield CgModel CgSpec CgProofs CgConj.
Import ListNotations.

Section Props.
Variable F : ofield.
Add Field Fcp : (fth F).
Local Open Scope ring_scope'.
Notation start x0 := (match x0 with Some x => x | None => vzero _ end).

(** Whatever way the loop ends, the tracked residual is the residual of the returned vector, recomputed or not,
    and the returned vector meets the constraints. *)
Theorem C53_residual : forall n (P A : vec F n -> vec F n) b eps huge max_iter x0, projection P -> linear A -> pos eps = true ->
  let s := fst (solve_cg F n P A b eps huge max_iter x0) in
  cg_r s = residual P A b (cg_x s) /\ P (cg_x s) = cg_x s.
Proof.
  intros n P A b eps huge max_iter x0 HP HA He. unfold solve_cg. set (x := start x0).
  destruct (loop_trace F n P A b eps huge HP HA He x (cg_delta (cg_init F n P A b x)) max_iter 0 _ (good_init F n P A b HP x)) as (k & Hk & E).
  set (out := cg_loop _ _ _ _ _ _ _ _ _ _ _ _) in *. set (s0 := cg_init F n P A b x) in *.
  pose proof (st_good F n P A b eps HP HA He k s0 _ (good_init F n P A b HP x) Hk) as G.
  assert (Done : forall j, cg_x (fst out) = cg_x (st F n P A s0 j) -> cg_r (fst out) = cg_r (st F n P A s0 j) -> good F n P A b (st F n P A s0 j) ->
    cg_r (fst out) = residual P A b (cg_x (fst out)) /\ P (cg_x (fst out)) = cg_x (fst out)).
  { intros j X R Gj. rewrite X, R. split; [apply (g_r _ _ _ _ _ _ Gj)|apply (g_x _ _ _ _ _ _ Gj)]. }
  destruct (snd out); cbn [ended] in E.
  - destruct E as (_ & E & _). apply (Done k); auto; rewrite E; auto.
  - destruct E as (_ & B & _ & X & R). apply (Done (S k)); auto. rewrite st_S. apply good_next; auto. apply (big_dq F n P A eps He _ B).
  - destruct E as (_ & [B _] & _ & X & R). apply (Done (S k)); auto. rewrite st_S. apply good_next; auto. apply (big_dq F n P A eps He _ B).
  - destruct E as (_ & E). apply (Done k); auto; rewrite E; auto.
Qed.

(** The convergence test promises a small residual, but of the vector before the last update.
    Missing: the same bound for the returned vector, which is refuted below. *)
Theorem C53_converged_partial : forall n (P A : vec F n -> vec F n) b eps huge max_iter x0, projection P -> linear A -> pos eps = true ->
  let out := solve_cg F n P A b eps huge max_iter x0 in
  snd out = end_converged ->
  exists y d a, P y = y /\ P d = d /\ cg_x (fst out) = vadd y (vscale a d) /\
    let r := residual P A b y in let r_start := residual P A b (P (start x0)) in
    vdot r_start r_start <> r0 /\ fltb (fdiv (vdot r r) (vdot r_start r_start)) eps = true.
Proof.
  intros n P A b eps huge max_iter x0 HP HA He. unfold solve_cg. set (x := start x0).
  pose proof (good_init F n P A b HP x) as G0.
  destruct (loop_trace F n P A b eps huge HP HA He x (cg_delta (cg_init F n P A b x)) max_iter 0 _ G0) as (k & Hk & E).
  set (s0 := cg_init F n P A b x) in *. set (out := cg_loop _ _ _ _ _ _ _ _ _ _ _ _) in *. intros Q. rewrite Q in E. cbn [ended] in E. destruct E as (_ & B & C & X & R).
  pose proof (st_good F n P A b eps HP HA He k s0 _ G0 Hk) as G.
  exists (cg_x (st F n P A s0 k)), (cg_d (st F n P A s0 k)), (fdiv (cg_delta (st F n P A s0 k)) (pdq F n P A (st F n P A s0 k))).
  split; [apply (g_x _ _ _ _ _ _ G)|]. split; [apply (g_d _ _ _ _ _ _ G)|]. split; [rewrite X, st_S; reflexivity|].
  unfold residual. rewrite <- (g_r _ _ _ _ _ _ G), <- (g_delta _ _ _ _ _ _ G).
  change (vdot (P (vsub b (A (P x)))) (P (vsub b (A (P x))))) with (cg_delta s0). split; auto.
  (* the first residual is not zero, else the first pass stops *)
  assert (N : pdq F n P A s0 <> r0). { destruct k; [apply (big_dq F n P A eps He _ B)|]. apply (big_dq F n P A eps He _ (proj1 (Hk 0%nat ltac:(lia)))). }
  intros Z. apply N. destruct (vdot_self F n (cg_r s0)) as [V|V].
  - unfold pdq. replace (cg_d s0) with (vzero n : vec F n) by (rewrite <- V; reflexivity). rewrite vdot_comm. apply vdot_0.
  - rewrite <- (g_delta _ _ _ _ _ _ G0), Z, pos_0 in V. discriminate.
Qed.

(** The direction test is absolute: with a small right hand side no step is taken at all. *)
Theorem C53_small_rhs : forall n (P A : vec F n -> vec F n) b eps huge max_iter, projection P -> linear A -> pos eps = true ->
  fltb (fabs (vdot (P b) (P (A (P b))))) eps = true ->
  cg_x (fst (solve_cg F n P A b eps huge max_iter None)) = vzero n.
Proof.
  intros n P A b eps huge max_iter HP HA He H. unfold solve_cg.
  assert (Z : forall f : vec F n -> vec F n, linear f -> f (vzero n) = vzero n). { intros f Hf. rewrite <- (vscale_0 F n (vzero n)) at 1. rewrite (proj2 Hf), vscale_0. auto. }
  destruct max_iter; [apply Z; apply HP|]. cbn [cg_loop]. destruct (step_cases F n P A b eps huge HP HA He (vzero n) (cg_delta (cg_init F n P A b (vzero n))) 0 _ (good_init F n P A b HP (vzero n))) as [(E & ->)|(E & _)].
  - apply Z, HP.
  - exfalso. revert E. unfold pdq, pq, cg_init. cbn [cg_d]. rewrite (Z P (proj1 HP)), (Z A HA). replace (vsub b (vzero n)) with b by vring. congruence.
Qed.

(** For symmetric systems that are positive on the constrained space every step lowers the energy that the solution minimises. *)
Lemma step_energy : forall n (P A : vec F n -> vec F n) b s, projection P -> linear A -> symmetric P -> symmetric A -> good F n P A b s -> pdq F n P A s <> r0 ->
  energy A b (cg_x (pnext F n P A s)) = energy A b (cg_x s) - fdiv (cg_delta s * cg_delta s) (pdq F n P A s).
Proof.
  intros n P A b s HP HA SP SA G N. unfold energy. change (cg_x (pnext F n P A s)) with (vadd (cg_x s) (vscale (fdiv (cg_delta s) (pdq F n P A s)) (cg_d s))).
  set (al := fdiv (cg_delta s) (pdq F n P A s)). rewrite (proj1 HA), (proj2 HA). vdots.
  assert (E1 : vdot b (cg_d s) - vdot (A (cg_x s)) (cg_d s) = cg_delta s).
  { rewrite (g_delta _ _ _ _ _ _ G), <- (g_rd _ _ _ _ _ _ G), (g_r _ _ _ _ _ _ G), <- SP, (g_d _ _ _ _ _ _ G), vsub_add, vdot_add_l, vdot_scale_l. ring. }
  assert (E2 : vdot (cg_d s) (A (cg_d s)) = pdq F n P A s). { unfold pdq, pq. rewrite SP, (g_d _ _ _ _ _ _ G). auto. }
  rewrite E2, (vdot_comm F n (cg_d s) (A (cg_x s))), (SA (cg_x s) (cg_d s)).
  replace (vdot b (cg_d s)) with (cg_delta s + vdot (A (cg_x s)) (cg_d s)) by (rewrite <- E1; ring). unfold al. field. auto.
Qed.
Theorem C62_energy : forall n (P A : vec F n -> vec F n) b eps huge max_iter x0, projection P -> linear A -> symmetric P -> symmetric A -> positive_on P A -> pos eps = true ->
  let x := cg_x (fst (solve_cg F n P A b eps huge max_iter x0)) in
  x = P (start x0) \/ fltb (energy A b x) (energy A b (P (start x0))) = true.
Proof.
  intros n P A b eps huge max_iter x0 HP HA SP SA PA He. unfold solve_cg. set (x := start x0).
  pose proof (good_init F n P A b HP x) as G0.
  destruct (loop_trace F n P A b eps huge HP HA He x (cg_delta (cg_init F n P A b x)) max_iter 0 _ G0) as (k & Hk & E).
  set (s0 := cg_init F n P A b x) in *. set (out := cg_loop _ _ _ _ _ _ _ _ _ _ _ _) in *.
  change (P x) with (cg_x s0).
  assert (K : forall j, (forall i, (i < j)%nat -> fltb (fabs (pdq F n P A (st F n P A s0 i))) eps = false) -> good F n P A b (st F n P A s0 j) /\
    (cg_x (st F n P A s0 j) = cg_x s0 \/ fltb (energy A b (cg_x (st F n P A s0 j))) (energy A b (cg_x s0)) = true)).
  { induction j as [|j IH]; intros H; [auto|]. destruct IH as [G IH]; [intros i L; apply H; lia|].
    pose proof (big_dq F n P A eps He _ (H j ltac:(lia))) as N. rewrite st_S. split; [apply good_next; auto|].
    pose proof (step_energy n P A b _ HP HA SP SA G N) as En. set (s := st F n P A s0 j) in *.
    assert (Pq : pos (pdq F n P A s) = true).
    { unfold pdq, pq. rewrite SP, (g_d _ _ _ _ _ _ G). apply PA; [apply (g_d _ _ _ _ _ _ G)|]. intros Z. apply N. unfold pdq. rewrite Z, vdot_comm. apply vdot_0. }
    destruct (vdot_self F n (cg_r s)) as [V|V].
    - assert (Zd : cg_delta s = r0) by (rewrite (g_delta _ _ _ _ _ _ G), V; apply vdot_0).
      assert (Ex : cg_x (pnext F n P A s) = cg_x s).
      { unfold pnext. cbn. rewrite Zd, (F.(fth).(Fdiv_def)). replace (r0 * finv (pdq F n P A s)) with (r0 : F) by ring. rewrite vscale_0. apply vadd_0. }
      rewrite Ex. auto.
    - right. rewrite <- (g_delta _ _ _ _ _ _ G) in V. unfold fltb in *. rewrite En. pose proof (pos_div F _ _ (pos_mul F _ _ V V) Pq) as W. destruct IH as [->|IH].
      + replace (_ - _) with (fdiv (cg_delta s * cg_delta s) (pdq F n P A s)) by ring. auto.
      + pose proof (pos_add F _ _ IH W) as T. replace (_ - _) with (energy A b (cg_x s0) - energy A b (cg_x s) + fdiv (cg_delta s * cg_delta s) (pdq F n P A s)) by ring. auto. }
  assert (Hk' : forall i, (i < k)%nat -> fltb (fabs (pdq F n P A (st F n P A s0 i))) eps = false) by (intros i L; apply (Hk i L)).
  destruct (snd out); cbn [ended] in E.
  - destruct E as (_ & -> & _). apply (K k); auto.
  - destruct E as (_ & B & _ & -> & _). apply (K (S k)). intros i L. destruct (Nat.eq_dec i k) as [->|]; auto. apply Hk'. lia.
  - destruct E as (_ & [B _] & _ & -> & _). apply (K (S k)). intros i L. destruct (Nat.eq_dec i k) as [->|]; auto. apply Hk'. lia.
  - destruct E as (_ & ->). apply (K k); auto.
Qed.

(** Symmetric systems: the residuals of the passes are orthogonal, so more passes than unknowns are never needed. *)
Theorem C62_terminates : forall n (P A : vec F n -> vec F n) b eps huge max_iter x0, projection P -> linear A -> symmetric P -> symmetric A -> pos eps = true ->
  (n < max_iter)%nat -> snd (solve_cg F n P A b eps huge max_iter x0) <> end_max_iter.
Proof.
  intros n P A b eps huge max_iter x0 HP HA SP SA He L. unfold solve_cg. set (x := start x0).
  pose proof (good_init F n P A b HP x) as G0.
  destruct (loop_trace F n P A b eps huge HP HA He x (cg_delta (cg_init F n P A b x)) max_iter 0 _ G0) as (k & Hk & E).
  intros Q. rewrite Q in E. cbn [ended] in E. destruct E as (-> & _).
  pose proof (onward_bound F n P A b eps HP HA He SP SA _ _ G0 eq_refl max_iter Hk). lia.
Qed.
(** Without an early stop, as many passes as unknowns give the exact solution. *)
Theorem C62_exact : forall n (P A : vec F n -> vec F n) b eps huge x0, projection P -> linear A -> symmetric P -> symmetric A -> pos eps = true ->
  let out := solve_cg F n P A b eps huge n x0 in
  snd out = end_max_iter -> residual P A b (cg_x (fst out)) = vzero n.
Proof.
  intros n P A b eps huge x0 HP HA SP SA He out Q. unfold out. rewrite <- (proj1 (C53_residual n P A b eps huge n x0 HP HA He)). fold out.
  revert Q. unfold out, solve_cg. set (x := start x0). pose proof (good_init F n P A b HP x) as G0.
  destruct (loop_trace F n P A b eps huge HP HA He x (cg_delta (cg_init F n P A b x)) n 0 _ G0) as (k & Hk & E). intros Q. rewrite Q in E. cbn [ended] in E. destruct E as (-> & ->).
  apply (exact_n F n P A b eps HP HA He SP SA _ _ G0 eq_refl Hk).
Qed.
End Props.
Print Assumptions C53_residual.
Print Assumptions C53_converged_partial.
Print Assumptions C53_small_rhs.
Print Assumptions C62_energy.
Print Assumptions C62_terminates.
Print Assumptions C62_exact.

(** Concrete systems over the rationals. *)
Definition qz (z : Z) : Qofield := Q2Qc (inject_Z z).
Definition diag3 (a b c : Qofield) (x : vec Qofield 3) : vec Qofield 3 :=
  match x with (u, (v, (w, t))) => (Qcmult a u, (Qcmult b v, (Qcmult c w, t))) end.
Definition v3 (a b c : Qofield) : vec Qofield 3 := (a, (b, (c, tt))).
Definition same3 (x : vec Qofield 3) : vec Qofield 3 := x.
Definition eps9 : Qofield := Q2Qc (1 # 1000000000).
Definition huge30 : Qofield := qz 1000000000000000000000000000000.
Lemma same3_projection : projection same3.
Proof. repeat split; auto. Qed.
Lemma same3_symmetric : symmetric same3.
Proof. intros x y. auto. Qed.
Ltac qring := repeat match goal with |- @eq _ (_, _) (_, _) => apply (f_equal2 pair) end; auto; match goal with |- @eq _ ?x ?y => change (@eq Qc x y) end; cbv [radd rmul rsub ropp r0 r1 ofc fcar Qofield Qfield Qring]; ring.
Lemma diag3_linear : forall a b c, linear (diag3 a b c).
Proof. intros a b c. split; [intros (u, (v, (w, []))) (u', (v', (w', [])))|intros k (u, (v, (w, [])))]; cbn [diag3 vadd vscale fst snd]; qring. Qed.
Lemma diag3_symmetric : forall a b c, symmetric (diag3 a b c).
Proof. intros a b c (u, (v, (w, []))) (u', (v', (w', []))). cbn [diag3 vdot fst snd]. qring. Qed.
(** Holding the third unknown at zero, as a constraint. *)
Definition pin3 : vec Qofield 3 -> vec Qofield 3 := diag3 (qz 1) (qz 1) (qz 0).
Lemma pin3_projection : projection pin3.
Proof. split; [apply diag3_linear|]. intros (u, (v, (w, []))). unfold pin3, diag3. change (qz 1) with (1%Qc : Qofield). change (qz 0) with (0%Qc : Qofield). qring. Qed.
Lemma pin3_symmetric : symmetric pin3.
Proof. apply diag3_symmetric. Qed.
Lemma diag3_positive : forall P a b c, pos a = true -> pos b = true -> pos c = true -> positive_on P (diag3 a b c).
Proof.
  intros P a b c Ha Hb Hc (u, (v, (w, []))) _ N.
  assert (S : forall k x : Qofield, pos k = true -> x = r0 \/ pos (rmul x (rmul k x)) = true).
  { intros k x K. destruct (square_nonneg Qofield x) as [|W]; auto. right. replace (rmul x (rmul k x)) with (rmul k (rmul x x)) by qring. apply pos_mul; auto. }
  pose proof (pos_add Qofield) as PA.
  destruct (S a u Ha) as [->|U], (S b v Hb) as [->|V], (S c w Hc) as [->|W]; [contradiction N; reflexivity| | | | | | |];
    cbn [vdot diag3 fst snd]; cbn in *; repeat rewrite ?Qcmult_0_l, ?Qcmult_0_r, ?Qcplus_0_l, ?Qcplus_0_r; auto.
Qed.

(** The test on the previous residual: the returned vector of this positive symmetric system fails it eighteen times over. *)
Theorem C53_converged_refuted : exists (A : vec Qofield 3 -> vec Qofield 3) b,
  linear A /\ symmetric A /\ positive_on same3 A /\
  let out := solve_cg Qofield 3 same3 A b eps9 huge30 3000 None in
  let r := residual same3 A b (cg_x (fst out)) in
  snd out = end_converged /\ fltb (rmul (rmul (qz 18) eps9) (vdot b b)) (vdot r r) = true.
Proof.
  exists (diag3 (qz 10) (qz 1) (qz 100)), (v3 (qz 3303784) (qz 100) (qz 1)).
  split; [apply diag3_linear|]. split; [apply diag3_symmetric|]. split; [apply diag3_positive; reflexivity|]. vm_compute. auto.
Qed.
Print Assumptions C53_converged_refuted.
(** The identity system with right hand side 1e-5: the answer is zero and the residual is the whole right hand side. *)
Theorem C53_small_rhs_refuted : exists b : vec Qofield 3, b <> vzero 3 /\
  let out := solve_cg Qofield 3 same3 same3 b eps9 huge30 3000 None in
  cg_x (fst out) = vzero 3 /\ residual same3 same3 b (cg_x (fst out)) = b.
Proof.
  exists (v3 (Q2Qc (1 # 100000)) (qz 0) (qz 0)). split; [intros E; apply (f_equal (fun v => this (fst v))) in E; vm_compute in E; discriminate|].
  assert (E : cg_x (fst (solve_cg Qofield 3 same3 same3 (v3 (Q2Qc (1 # 100000)) (qz 0) (qz 0)) eps9 huge30 3000 None)) = vzero 3).
  { apply C53_small_rhs; [apply same3_projection|split; auto|reflexivity|vm_compute; reflexivity]. }
  cbn zeta. rewrite E. split; auto.
Qed.
Print Assumptions C53_small_rhs_refuted.

(** A constrained run: two passes reach the exact answer (1, 2, 0) and the third stops. *)
Example C53_example : let out := solve_cg Qofield 3 pin3 (diag3 (qz 1) (qz 2) (qz 3)) (v3 (qz 1) (qz 4) (qz 7)) eps9 huge30 3000 (Some (v3 (qz 5) (qz 5) (qz 5))) in
  snd out = end_small_dq /\ map (fun q : Qc => this q) [fst (cg_x (fst out)); fst (snd (cg_x (fst out))); fst (snd (snd (cg_x (fst out))))] = [1 # 1; 2 # 1; 0 # 1]%Q /\
  cg_r (fst out) = residual pin3 (diag3 (qz 1) (qz 2) (qz 3)) (v3 (qz 1) (qz 4) (qz 7)) (cg_x (fst out)).
Proof.
  split; [vm_compute; auto|]. split; [vm_compute; auto|]. exact (proj1 (C53_residual Qofield 3 pin3 _ _ eps9 huge30 3000 _ pin3_projection (diag3_linear _ _ _) eq_refl)).
Qed.
Example C62_example : let A := diag3 (qz 1) (qz 2) (qz 3) in let b := (v3 (qz 1) (qz 4) (qz 7)) : vec Qofield 3 in
  snd (solve_cg Qofield 3 pin3 A b eps9 huge30 2 None) = end_max_iter /\
  snd (solve_cg Qofield 3 pin3 A b eps9 huge30 4 None) <> end_max_iter /\
  snd (solve_cg Qofield 3 same3 A b eps9 huge30 3 None) = end_max_iter /\
  residual same3 A b (cg_x (fst (solve_cg Qofield 3 same3 A b eps9 huge30 3 None))) = vzero 3 /\
  fltb (energy A b (cg_x (fst (solve_cg Qofield 3 pin3 A b eps9 huge30 2 None)))) (energy A b (vzero 3)) = true.
Proof.
  cbn zeta. split; [vm_compute; auto|]. split; [exact (C62_terminates Qofield 3 pin3 _ _ eps9 huge30 4 _ pin3_projection (diag3_linear _ _ _) pin3_symmetric (diag3_symmetric _ _ _) eq_refl ltac:(lia))|].
  split; [vm_compute; auto|]. split; [refine (C62_exact Qofield 3 same3 _ _ eps9 huge30 _ same3_projection (diag3_linear _ _ _) same3_symmetric (diag3_symmetric _ _ _) eq_refl _); vm_compute; auto|]. vm_compute. auto.
Qed.
