(** The residuals of a run are orthogonal, so there are at most n of them. *)
Require Import List Arith ZArith Bool Lia Field.
From Verif Require Import Util Arr LinModel Ofield CgModel CgSpec CgProofs.
Import ListNotations.

Section Dim.
Variable F : ofield.
Add Field Fcj : (fth F).
Local Open Scope ring_scope'.
Fixpoint comb {n} (c : list F) (l : list (vec F n)) : vec F n :=
  match c, l with a :: c, x :: l => vadd (vscale a x) (comb c l) | _, _ => vzero n end.
Lemma comb_app : forall n c1 c2 (l1 l2 : list (vec F n)), length c1 = length l1 -> comb (c1 ++ c2) (l1 ++ l2) = vadd (comb c1 l1) (comb c2 l2).
Proof.
  intros n c1. induction c1 as [|a c1 IH]; intros c2 [|x l1] l2 L; cbn in L; try discriminate.
  - cbn. rewrite vadd_comm, vadd_0. auto.
  - cbn. rewrite IH by lia. apply vadd_assoc.
Qed.
Definition vtl {n} (x : vec F (S n)) : vec F n := snd x.
Lemma comb_head : forall n c (l : list (vec F (S n))), Forall (fun x => fst x = r0) l -> comb c l = (r0, comb c (map vtl l)).
Proof. intros n c. induction c as [|a c IH]; intros [|x l] H; auto. inversion H; subst. cbn. rewrite IH by auto. cbn. rewrite H2. f_equal. ring. Qed.
(** Subtracting multiples of one vector. *)
Lemma comb_shift : forall n c (l : list (vec F n)) (t : vec F n -> F) p, length c = length l ->
  exists a, comb c (map (fun x => vadd x (vscale (t x) p)) l) = vadd (comb c l) (vscale a p).
Proof.
  intros n c. induction c as [|a c IH]; intros [|x l] t p L; cbn in L; try discriminate; cbn.
  - exists r0. rewrite vscale_0, vadd_0. auto.
  - destruct (IH l t p) as [s E]; [lia|]. exists (a * t x + s). rewrite E. vring.
Qed.
Lemma feq_dec : forall x y : F, {x = y} + {x <> y}.
Proof.
  intros x y. destruct (pos_cases F (x - y)) as [[P|P]|P].
  - right. intros ->. apply (pos_neq F _ P). ring.
  - right. intros ->. apply (pos_neq F _ P). ring.
  - left. replace x with (x - y + y) by ring. rewrite P. ring.
Qed.
Lemma heads : forall n (l : list (vec F (S n))), Forall (fun x => fst x = r0) l \/ exists l1 p l2, l = l1 ++ p :: l2 /\ fst p <> r0.
Proof.
  intros n l. induction l as [|x l [IH|(l1 & p & l2 & -> & H)]]; auto.
  - destruct (feq_dec (fst x) r0) as [E|E]; [left; auto|]. right. exists [], x, l. auto.
  - right. exists (x :: l1), p, l2. auto.
Qed.
Lemma dependent : forall n (l : list (vec F n)), n < length l ->
  exists c, length c = length l /\ comb c l = vzero n /\ Exists (fun a => a <> r0) c.
Proof.
  induction n as [|n IH]; intros l L.
  - exists (map (fun _ => r1) l). rewrite map_length. split; [auto|]. split; [apply vec0|]. destruct l; [cbn in L; lia|]. left. apply (F_1_neq_0 (fth F)).
  - destruct (heads n l) as [H|(l1 & p & l2 & -> & Hp)].
    + destruct (IH (map vtl l)) as (c & Lc & E & X); [rewrite map_length; lia|]. exists c. rewrite map_length in Lc. split; auto. split; auto. rewrite comb_head by auto. rewrite E. auto.
    + set (t := fun x : vec F (S n) => ropp (fdiv (fst x) (fst p))). set (g := fun x : vec F (S n) => vadd x (vscale (t x) p)).
      rewrite app_length in L. change (length (p :: l2)) with (S (length l2)) in L.
      destruct (IH (map vtl (map g (l1 ++ l2)))) as (c & Lc & E & X); [rewrite !map_length, app_length; lia|].
      rewrite !map_length in Lc.
      assert (Z : comb c (map g (l1 ++ l2)) = vzero (S n)).
      { rewrite comb_head, E; auto. apply Forall_forall. intros y Hy. apply in_map_iff in Hy as (x & <- & _). unfold g, t. destruct x as [h x], p as [hp p]. cbn in *. field. auto. }
      destruct (comb_shift (S n) c (l1 ++ l2) t p Lc) as [a Ea]. fold g in Ea.
      rewrite app_length in Lc. rewrite <- (firstn_skipn (length l1) c) in Z, Ea, X.
      assert (L1 : length (firstn (length l1) c) = length l1) by (rewrite firstn_length; lia).
      assert (L2 : length (skipn (length l1) c) = length l2) by (rewrite skipn_length; lia).
      exists (firstn (length l1) c ++ a :: skipn (length l1) c). split; [rewrite !app_length; change (length (p :: l2)) with (S (length l2)); change (length (a :: skipn (length l1) c)) with (S (length (skipn (length l1) c))); lia|]. split.
      * rewrite <- Z, Ea, !comb_app by auto. change (comb (a :: skipn (length l1) c) (p :: l2)) with (vadd (vscale a p) (comb (skipn (length l1) c) l2)). rewrite (vadd_comm F _ (vscale a p)). apply vadd_assoc.
      * apply Exists_app in X. apply Exists_app. destruct X; [left; auto|right; right; auto].
Qed.
Definition orthogonal {n} (l : list (vec F n)) : Prop := ForallOrdPairs (fun x y => vdot x y = r0) l.
Lemma dot_comb_0 : forall n c (l : list (vec F n)) x, Forall (fun y => vdot x y = r0) l -> vdot x (comb c l) = r0.
Proof. intros n c. induction c as [|a c IH]; intros [|y l] x H; cbn; try apply vdot_0. inversion H; subst. rewrite vdot_add, vdot_scale, H2, IH by auto. ring. Qed.
Lemma orthogonal_independent : forall n c (l : list (vec F n)), length c = length l -> orthogonal l -> Forall (fun x => x <> vzero n) l -> comb c l = vzero n -> Forall (fun a => a = r0) c.
Proof.
  intros n c. induction c as [|a c IH]; intros [|x l] L O N E; cbn in L; try discriminate; auto. inversion O; subst. inversion N; subst. cbn in E.
  assert (Z : a = r0).
  { assert (Q : vdot x (vadd (vscale a x) (comb c l)) = r0) by (rewrite E; apply vdot_0). rewrite vdot_add, vdot_scale, dot_comb_0 in Q by auto.
    destruct (vdot_self F n x) as [V|V]; [contradiction|]. apply pos_neq in V. transitivity ((a * vdot x x + r0) * finv (vdot x x)); [field; auto|rewrite Q; ring]. }
  constructor; auto. apply (IH l); auto. rewrite Z, vscale_0, vadd_comm, vadd_0 in E. auto.
Qed.
Lemma orthogonal_bound : forall n (l : list (vec F n)), orthogonal l -> Forall (fun x => x <> vzero n) l -> length l <= n.
Proof.
  intros n l O N. destruct (le_lt_dec (length l) n) as [|L]; auto. exfalso. destruct (dependent n l L) as (c & Lc & E & X).
  pose proof (orthogonal_independent n c l Lc O N E) as Z. apply Exists_exists in X as (a & Ha & Na). rewrite Forall_forall in Z. auto.
Qed.
End Dim.

Section Conj.
Variable F : ofield.
Add Field Fcj2 : (fth F).
Local Open Scope ring_scope'.
Variable n : nat.
Variables (P A : vec F n -> vec F n) (b : vec F n) (eps huge : F).
Hypothesis HP : projection P.
Hypothesis HA : linear A.
Hypothesis He : pos eps = true.
Hypothesis SP : symmetric P.
Hypothesis SA : symmetric A.
Variable d0 : F.
Variable s0 : cg_state F n.
Hypothesis G0 : good F n P A b s0.
Hypothesis D0 : cg_d s0 = cg_r s0.
Notation S_ k := (st F n P A s0 k).
Notation R k := (cg_r (S_ k)).
Notation D k := (cg_d (S_ k)).
Notation Q k := (pq F n P A (S_ k)).
Notation del k := (cg_delta (S_ k)).
Notation dq k := (pdq F n P A (S_ k)).
Definition onward (k : nat) : Prop := forall j, j < k -> goes_on F n P A eps d0 (S_ j).
Lemma onward_S : forall k, onward (S k) -> onward k.
Proof. intros k H j L. apply H. lia. Qed.
Lemma dq_nz : forall s, goes_on F n P A eps d0 s -> pdq F n P A s <> r0.
Proof. intros s [H _]. apply (big_dq F n P A eps He s H). Qed.
Lemma del_nz : forall s, goes_on F n P A eps d0 s -> cg_delta s <> r0.
Proof. intros s [_ H] Z. rewrite Z in H. unfold fltb in H. rewrite (F.(fth).(Fdiv_def)) in H. replace (eps - r0 * finv d0) with eps in H by ring. congruence. Qed.
Lemma good_k : forall k, onward k -> good F n P A b (S_ k).
Proof. intros k H. exact (st_good F n P A b eps HP HA He k s0 d0 G0 H). Qed.
Lemma q_sym : forall j k, onward j -> onward k -> vdot (D j) (Q k) = vdot (D k) (Q j).
Proof.
  intros j k Hj Hk. unfold pq. rewrite !SP, (g_d _ _ _ _ _ _ (good_k j Hj)), (g_d _ _ _ _ _ _ (good_k k Hk)), SA, vdot_comm. auto.
Qed.
Lemma r_next : forall k, R (S k) = vsub (R k) (vscale (fdiv (del k) (dq k)) (Q k)).
Proof. intros k. rewrite st_S. reflexivity. Qed.
Lemma d_next : forall k, D (S k) = vadd (R (S k)) (vscale (fdiv (vdot (R (S k)) (R (S k))) (del k)) (D k)).
Proof. intros k. rewrite st_S. reflexivity. Qed.
Lemma mul_cancel : forall a x : F, a <> r0 -> a * x = r0 -> x = r0.
Proof. intros a x N E. transitivity (a * x * finv a); [field; auto|rewrite E; ring]. Qed.
Lemma conjugate : forall k, onward k -> forall j, j < k -> vdot (R k) (R j) = r0 /\ vdot (R k) (D j) = r0 /\ vdot (D k) (Q j) = r0.
Proof.
  induction k as [|k IH]; intros H j Lj; [lia|]. pose proof (onward_S k H) as Hk. specialize (IH Hk).
  assert (Gk : goes_on F n P A eps d0 (S_ k)) by (apply H; lia). pose proof (dq_nz _ Gk) as Nq. pose proof (del_nz _ Gk) as Nd.
  assert (Hj : forall j, j <= k -> onward j) by (intros i L m Lm; apply H; lia).
  assert (RD : forall j, j <= k -> vdot (R (S k)) (D j) = r0).
  { intros i L. rewrite r_next, vsub_add, vdot_add_l, !vdot_scale_l, (vdot_comm F n (Q k)), (q_sym i k) by auto. destruct (Nat.eq_dec i k) as [->|Ne].
    - rewrite (g_rd _ _ _ _ _ _ (good_k k Hk)), <- (g_delta _ _ _ _ _ _ (good_k k Hk)). fold (dq k). field. auto.
    - destruct (IH i ltac:(lia)) as (_ & -> & ->). ring. }
  assert (RR : forall j, j <= k -> vdot (R (S k)) (R j) = r0).
  { intros [|i] L; [cbn [st]; rewrite <- D0; apply (RD 0); auto|].
    pose proof (RD (S i) L) as E. rewrite d_next, vdot_add, vdot_scale, (RD i) in E by lia. rewrite <- E. ring. }
  split; [apply RR; lia|]. split; [apply RD; lia|].
  assert (Gj : goes_on F n P A eps d0 (S_ j)) by (apply H; lia). pose proof (dq_nz _ Gj) as Nqj. pose proof (del_nz _ Gj) as Ndj.
  assert (E : fdiv (del j) (dq j) * vdot (R (S k)) (Q j) = vdot (R (S k)) (R j) - vdot (R (S k)) (R (S j))).
  { rewrite (r_next j), vsub_add, vdot_add, !vdot_scale. ring. }
  rewrite (RR j) in E by lia.
  rewrite d_next, vdot_add_l, vdot_scale_l. destruct (Nat.eq_dec j k) as [->|Ne].
  - fold (dq k). set (w := vdot (R (S k)) (R (S k))) in *. set (u := vdot (R (S k)) (Q k)) in *.
    assert (Eu : u = ropp (fdiv (w * dq k) (del k))). { transitivity (fdiv (dq k) (del k) * (fdiv (del k) (dq k) * u)); [field; auto|]. rewrite E. field. auto. }
    rewrite Eu. field. auto.
  - rewrite (RR (S j)) in E by lia. destruct (IH j ltac:(lia)) as (_ & _ & ->).
    rewrite (mul_cancel (fdiv (del j) (dq j)) (vdot (R (S k)) (Q j))); [ring| |rewrite E; ring].
    intros Z. apply Ndj. transitivity (fdiv (del j) (dq j) * dq j); [field; auto|rewrite Z; ring].
Qed.
Lemma residuals_orthogonal : forall k, onward k -> orthogonal F (map (fun j => R j) (rev (seq 0 k))).
Proof.
  induction k as [|k IH]; intros H; [constructor|]. rewrite seq_S, rev_app_distr. cbn. constructor; [|apply IH, onward_S, H].
  apply Forall_forall. intros x Hx. apply in_map_iff in Hx as (j & <- & Hj). apply in_rev, in_seq in Hj. apply (conjugate k (onward_S k H)). lia.
Qed.
Lemma residuals_nonzero : forall k, onward k -> Forall (fun x => x <> vzero n) (map (fun j => R j) (rev (seq 0 k))).
Proof.
  intros k H. apply Forall_forall. intros x Hx. apply in_map_iff in Hx as (j & <- & Hj). apply in_rev, in_seq in Hj. intros Z.
  apply (del_nz (S_ j)); [apply H; lia|]. rewrite (g_delta _ _ _ _ _ _ (good_k j ltac:(intros m Lm; apply H; lia))), Z. apply vdot_0.
Qed.
Lemma onward_bound : forall k, onward k -> k <= n.
Proof.
  intros k H. pose proof (orthogonal_bound F n _ (residuals_orthogonal k H) (residuals_nonzero k H)) as L. rewrite map_length, rev_length, seq_length in L. auto.
Qed.
Lemma exact_n : onward n -> R n = vzero n.
Proof.
  intros H. destruct (vdot_self F n (R n)) as [|V]; auto. exfalso.
  assert (O : orthogonal F (map (fun j => R j) (rev (seq 0 (S n))))).
  { rewrite seq_S, rev_app_distr. cbn. constructor; [|apply residuals_orthogonal; auto]. apply Forall_forall. intros x Hx. apply in_map_iff in Hx as (j & <- & Hj). apply in_rev, in_seq in Hj. apply (conjugate n H). lia. }
  assert (N : Forall (fun x => x <> vzero n) (map (fun j => R j) (rev (seq 0 (S n))))).
  { rewrite seq_S, rev_app_distr. cbn. constructor; [|apply residuals_nonzero; auto]. intros Z. rewrite Z, vdot_0, pos_0 in V. discriminate. }
  pose proof (orthogonal_bound F n _ O N) as L. rewrite map_length, rev_length, seq_length in L. lia.
Qed.
End Conj.
