(** Proofs about coarsen and refine of stencil complexes. *)
Require Import List Arith Bool Lia Permutation Ring.
From Verif Require StProps.
From Verif Require Import Util Arr StModel GenProofs StProofs TransferProofs OpModel OpProofs TrProofs BlkModel MgModel SmProofs.
Import ListNotations.

Definition topo_ok (row_leb : list nat -> list nat -> bool) (t : stopo) : Prop := stencil_topology row_leb (st_shape t) (st_periodic t) = Ok t.
Lemma coarse_facts : forall row_leb t co, topo_ok row_leb t -> coarse row_leb t = Ok co ->
  topo_ok row_leb co /\ st_shape t = map (fun m => m * 2) (st_shape co) /\ st_symbols co = st_symbols t /\ st_periodic co = st_periodic t.
Proof.
  intros row_leb t co Ht Eco. unfold coarse in Eco. destruct (is_even t) eqn:Ev; [|discriminate].
  assert (S : st_shape co = map (fun s => s / 2) (st_shape t) /\ st_periodic co = st_periodic t /\ topo_ok row_leb co).
  { apply StProps.st_self. auto. }
  destruct S as (ES' & EP' & Ht'). split; auto.
  assert (X : st_shape t = map (fun m => m * 2) (st_shape co)).
  { rewrite ES', map_map. unfold is_even in Ev. rewrite forallb_forall in Ev. rewrite <- (map_id (st_shape t)) at 1. apply map_ext_in.
    intros a Ha. apply Ev in Ha. apply Nat.even_spec in Ha as (b & ->). replace (2 * b) with (b * 2) by lia. rewrite Nat.div_mul; lia. }
  split; auto. split; auto.
  assert (EL : st_levels co = st_levels t).
  { pose proof (st_gen row_leb t Ht) as G1. pose proof (st_gen row_leb co Ht') as G2. rewrite X, map_length in G1. congruence. }
  unfold st_symbols. rewrite EL. auto.
Qed.

Lemma bins_size : forall t s, size (bins t s) = 2 ^ (length (st_shape t) - count_off s (seq 0 (length (st_shape t)))) /\ count_off s (seq 0 (length (st_shape t))) <= length (st_shape t).
Proof.
  intros t s. unfold bins. assert (H : forall l, size (map (fun i => if memb_axis i s then 2 else 1) l) = 2 ^ (length l - count_off s l) /\ count_off s l <= length l).
  { induction l as [|a l [IH1 IH2]]; [auto|]. cbn [map length count_off]. change (size (?x :: ?r)) with (x * size r). rewrite IH1. destruct (memb_axis a s); [replace (S (length l) - (0 + count_off s l)) with (S (length l - count_off s l)) by lia|replace (S (length l) - (1 + count_off s l)) with (length l - count_off s l) by lia]; cbn [Nat.pow]; lia. }
  specialize (H (seq 0 (length (st_shape t)))). rewrite seq_length in H. auto.
Qed.
Lemma axes_ok : forall (shape : list nat), Forall (fun a => a < length shape) (seq 0 (length shape)).
Proof. intros. apply Forall_forall. intros a Ha. apply in_seq in Ha. lia. Qed.
Lemma dbl_range : forall t s cs, st_shape t = map (fun m => m * 2) cs -> forall i j, in_range cs i -> in_range (bins t s) j -> in_range (st_shape t) (dbl i j).
Proof.
  intros t s cs H2 i j Hi Hj. pose proof (lens t s cs H2) as (L1 & L2 & L3). pose proof (in_range_len _ _ Hi) as Li. pose proof (in_range_len _ _ Hj) as Lj.
  apply Forall2_nth_intro with (d1 := 0) (d2 := 0); [rewrite dbl_len; lia|]. intros a Ha. rewrite dbl_len in Ha by lia. rewrite dbl_nth by lia. rewrite H2, (nth_map_lt _ _ _ _ _ 0) by lia.
  pose proof (in_range_nth _ _ a Hi ltac:(lia)). pose proof (in_range_nth _ _ a Hj ltac:(lia)) as B. destruct (memb_rk t s cs H2 a ltac:(lia)) as [(_ & E & _)|(_ & E & _)]; rewrite E in B; lia.
Qed.
Lemma halve_range : forall t cs, st_shape t = map (fun m => m * 2) cs -> forall idx, in_range (st_shape t) idx -> in_range cs (halve idx).
Proof.
  intros t cs H2 idx H. rewrite H2 in H. pose proof (in_range_len _ _ H) as L. rewrite map_length in L. apply Forall2_nth_intro with (d1 := 0) (d2 := 0); unfold halve; rewrite map_length; [lia|].
  intros a Ha. rewrite (nth_map_lt _ _ _ _ _ 0) by lia. pose proof (in_range_nth _ _ a H) as B. rewrite map_length, (nth_map_lt _ _ _ _ _ 0) in B by lia. specialize (B ltac:(lia)). apply Nat.div_lt_upper_bound; lia.
Qed.

Section Ring.
Variable K : cring.
Add Ring Kc : (rth K).
Local Open Scope ring_scope'.
Variable inv : nat -> K.

Lemma checked_ok : forall s x f y, ashape x = snd s -> f x = Ok y -> ashape y = fst s -> checked K s x f = Ok y.
Proof. intros s x f y Sx E Sy. unfold checked. rewrite Sx, list_eqb_refl', E. cbn [bind]. rewrite Sy, list_eqb_refl'. auto. Qed.

Lemma smoother_val : forall t sc n (f : array K) c idx, aget (smoother K inv t sc n f) (c :: idx) =
  steps K (st_shape t) (fst (smooth_weights K inv sc)) (snd (smooth_weights K inv sc)) (nth c (nth n (st_symbols t) []) []) (seq 0 (length (st_shape t))) (fun i => aget f (c :: i)) idx.
Proof. reflexivity. Qed.

Lemma smoother_sym : forall t sc n (f g : array K), ashape f = st_n_elements t n -> ashape g = st_n_elements t n -> inner (smoother K inv t sc n f) g = inner f (smoother K inv t sc n g).
Proof.
  intros t sc n f g Sf Sg. rewrite (inner_components K (length (nth n (st_symbols t) [])) (st_shape t)) by (exact Sf). rewrite (inner_components K (length (nth n (st_symbols t) [])) (st_shape t)) by (exact Sf).
  apply rsum_ext. intros c _. erewrite rsum_ext by (intros i _; rewrite smoother_val; reflexivity). erewrite (rsum_ext K _ (fun i => aget f (c :: i) * aget (smoother K inv t sc n g) (c :: i))) by (intros i _; rewrite smoother_val; reflexivity).
  apply (steps_sym K (st_shape t) _ _ _ _ (fun i => aget f (c :: i)) (fun i => aget g (c :: i))). apply axes_ok.
Qed.

Section Two.
Variables (t co : stopo).
Hypothesis H2 : st_shape t = map (fun m => m * 2)%nat (st_shape co).
Hypothesis HS : st_symbols co = st_symbols t.
Notation sym n c := (nth c (nth n (st_symbols t) []) []).
Notation axes := (seq 0 (length (st_shape t))).
Notation ncomp n := (length (nth n (st_symbols t) [])).

Lemma ne_co : forall n, st_n_elements co n = ncomp n :: st_shape co.
Proof. intros. unfold st_n_elements. rewrite HS. auto. Qed.

Lemma coarsen_val : forall n (f : array K), ashape f = st_n_elements t n -> exists z, coarsen K inv t co n f = Ok z /\ ashape z = st_n_elements co n /\
  forall c i, c < ncomp n -> in_range (st_shape co) i ->
    aget z (c :: i) = inv (size (bins t (sym n c))) * rsum (map (fun j => steps K (st_shape t) (inv 4) (inv 2) (sym n c) axes (fun i => aget f (c :: i)) (dbl i j)) (indices (bins t (sym n c)))).
Proof.
  intros n f Sf. unfold coarsen. destruct (bin_ok K inv t co n (st_shape co) H2 eq_refl (smoother K inv t true n f)) as (z & E & S & V); [exact Sf|].
  assert (Sz : ashape z = st_n_elements co n) by (rewrite ne_co; auto). exists z. split.
  - apply checked_ok; [exact Sf| |exact Sz]. rewrite (checked_ok _ f _ (smoother K inv t true n f)); [|exact Sf|reflexivity|exact Sf]. cbn [bind]. apply checked_ok; [exact Sf|exact E|exact Sz].
  - split; [exact Sz|exact V].
Qed.
Lemma refine_val : forall n (g : array K), ashape g = st_n_elements co n -> exists z, refine K inv t co n g = Ok z /\ ashape z = st_n_elements t n /\
  forall c idx, c < ncomp n -> in_range (st_shape t) idx ->
    aget z (c :: idx) = steps K (st_shape t) (inv 2) r1 (sym n c) axes (fun i => if even_off (sym n c) (length (st_shape co)) i then aget g (c :: halve i) else r0) idx.
Proof.
  intros n g Sg. unfold refine. destruct (tile_ok K t n (st_shape co) H2 g) as (y & E & S & V); [rewrite Sg; apply ne_co|].
  exists (smoother K inv t false n y). split.
  - apply checked_ok; [exact Sg| |exact S]. rewrite (checked_ok _ g _ y); [|exact Sg|exact E|exact S]. cbn [bind]. apply checked_ok; [exact S|reflexivity|exact S].
  - split; auto. intros c idx Hc Hi. rewrite smoother_val. cbn [smooth_weights fst snd]. apply steps_ext; auto using axes_ok. intros i Ri. apply V; auto.
Qed.

Lemma coarsen_zero : forall n (f : array K), ashape f = st_n_elements t n -> (forall idx, in_range (ashape f) idx -> aget f idx = r0) ->
  exists z, coarsen K inv t co n f = Ok z /\ ashape z = st_n_elements co n /\ forall idx, in_range (ashape z) idx -> aget z idx = r0.
Proof.
  intros n f Sf Zf. destruct (coarsen_val n f Sf) as (z & E & S & V). exists z. split; auto. split; auto. intros idx R. rewrite S, ne_co in R. inversion R as [|c ? i ? Hc Hi]; subst. rewrite V by auto.
  rewrite rsum_0; [ring|]. intros j Hj. apply indices_in in Hj. apply (steps_zero K (st_shape t)); [apply axes_ok| |eapply dbl_range; eauto].
  intros k Rk. apply Zf. rewrite Sf. constructor; auto.
Qed.
Lemma refine_zero : forall n (g : array K), ashape g = st_n_elements co n -> (forall idx, in_range (ashape g) idx -> aget g idx = r0) ->
  exists z, refine K inv t co n g = Ok z /\ ashape z = st_n_elements t n /\ forall idx, in_range (ashape z) idx -> aget z idx = r0.
Proof.
  intros n g Sg Zg. destruct (refine_val n g Sg) as (z & E & S & V). exists z. split; auto. split; auto. intros idx R. rewrite S in R. inversion R as [|c ? i ? Hc Hi]; subst. rewrite V by auto.
  rewrite (steps_zero K (st_shape t)); auto using axes_ok. intros k Rk. destruct (even_off _ _ _); auto. apply Zg. rewrite Sg, ne_co. constructor; auto. eapply halve_range; eauto.
Qed.

Hypothesis inv_ok : forall m, (0 < m)%nat -> inv m * of_nat K m = r1.
Lemma of_nat_mul : forall a b, of_nat K (a * b) = of_nat K a * of_nat K b.
Proof. assert (A : forall a b, of_nat K (a + b) = of_nat K a + of_nat K b) by (induction a; intros; cbn; [ring|rewrite IHa; ring]). induction a; intros b; cbn [Nat.mul of_nat]; [ring|]. rewrite A, IHa. ring. Qed.
Lemma inv_uniq : forall m a, (0 < m)%nat -> a * of_nat K m = r1 -> a = inv m.
Proof. intros m a Hm H. transitivity (a * (inv m * of_nat K m)); [rewrite inv_ok by auto; ring|]. transitivity ((a * of_nat K m) * inv m); [ring|]. rewrite H. ring. Qed.
Lemma two_quarters : (r1 + r1) * inv 4 = inv 2.
Proof.
  apply inv_uniq; [lia|]. transitivity (inv 4 * of_nat K 4); [|apply inv_ok; lia]. cbn [of_nat]. ring.
Qed.
Lemma two_halves : (r1 + r1) * inv 2 = r1.
Proof. transitivity (inv 2 * of_nat K 2); [|apply inv_ok; lia]. cbn [of_nat]. ring. Qed.
Lemma of_nat_pow : forall n, of_nat K (2 ^ n) = kpow K (r1 + r1) n.
Proof. induction n; [cbn; ring|]. cbn [Nat.pow kpow]. replace (2 ^ n + (2 ^ n + 0))%nat with (2 * 2 ^ n)%nat by lia. rewrite of_nat_mul, IHn. cbn [of_nat]. ring. Qed.
Lemma kpow_add : forall v a b, kpow K v (a + b) = kpow K v a * kpow K v b.
Proof. induction a; intros b; cbn [kpow Nat.add]; [ring|]. rewrite IHa. ring. Qed.

Lemma coarsen_refine_adjoint : forall n (f g cf rg : array K), ashape f = st_n_elements t n -> ashape g = st_n_elements co n -> coarsen K inv t co n f = Ok cf -> refine K inv t co n g = Ok rg ->
  of_nat K (2 ^ length (st_shape t)) * inner cf g = inner f rg.
Proof.
  intros n f g cf rg Sf Sg Ec Er. destruct (coarsen_val n f Sf) as (z & E & S & V). rewrite E in Ec. injection Ec as <-. destruct (refine_val n g Sg) as (z' & E' & S' & V'). rewrite E' in Er. injection Er as <-.
  rewrite (inner_components K (ncomp n) (st_shape co)) by (rewrite S; apply ne_co). rewrite (inner_components K (ncomp n) (st_shape t)) by (exact Sf).
  rewrite <- rsum_mul. apply rsum_ext. intros c Hc. apply in_seq in Hc. set (s := sym n c) in *.
  set (F := steps K (st_shape t) (inv 4) (inv 2) s axes (fun i => aget f (c :: i))).
  rewrite (rsum_ext K _ _ (fun i => inv (size (bins t s)) * (rsum (map (fun j => F (dbl i j)) (indices (bins t s))) * aget g (c :: i)))).
  2:{ intros i Hi. apply indices_in in Hi. rewrite V by (auto; lia). unfold F, s. ring. }
  rewrite rsum_mul. rewrite (bin_tile_adjoint K t s (st_shape co) H2 F (fun i => aget g (c :: i))).
  set (T := fun idx => if even_off s (length (st_shape co)) idx then aget g (c :: halve idx) else r0).
  etransitivity; [apply (f_equal (fun u => of_nat K (2 ^ length (st_shape t)) * (inv (size (bins t s)) * u))); exact (steps_sym K (st_shape t) (inv 4) (inv 2) s axes (fun i => aget f (c :: i)) T (axes_ok _))|].
  rewrite (rsum_ext K _ (fun i => aget f (c :: i) * aget z' (c :: i)) (fun i => kpow K (r1 + r1) (count_off s axes) * (aget f (c :: i) * steps K (st_shape t) (inv 4) (inv 2) s axes T i))).
  2:{ intros i Hi. apply indices_in in Hi. rewrite V' by (auto; lia). fold s. fold T. pose proof (steps_scale K (st_shape t) (inv 4) (inv 2) s (r1 + r1) axes T (axes_ok _) i Hi) as Q. rewrite two_quarters, two_halves in Q.
    change (aget f (c :: i) * steps K (st_shape t) (inv 2) r1 s axes T i = kpow K (r1 + r1) (count_off s axes) * (aget f (c :: i) * steps K (st_shape t) (inv 4) (inv 2) s axes T i)). rewrite Q. ring. }
  rewrite rsum_mul.
  destruct (bins_size t s) as [BS BL]. 
  transitivity (of_nat K (2 ^ length (st_shape t)) * inv (size (bins t s)) * rsum (map (fun i => aget f (c :: i) * steps K (st_shape t) (inv 4) (inv 2) s axes T i) (indices (st_shape t)))); [ring|]. f_equal.
  rewrite BS. replace (length (st_shape t)) with (length (st_shape t) - count_off s axes + count_off s axes)%nat at 1 by lia. rewrite of_nat_pow, kpow_add.
  transitivity (inv (2 ^ (length (st_shape t) - count_off s axes)) * of_nat K (2 ^ (length (st_shape t) - count_off s axes)) * kpow K (r1 + r1) (count_off s axes)); [rewrite of_nat_pow; ring|].
  rewrite inv_ok; [ring|]. pose proof (Nat.pow_nonzero 2 (length (st_shape t) - count_off s axes)). lia.
Qed.

Lemma coarsen_const : forall n (f : array K) (v : nat -> K), ashape f = st_n_elements t n -> (forall c i, in_range (ashape f) (c :: i) -> aget f (c :: i) = v c) ->
  exists z, coarsen K inv t co n f = Ok z /\ ashape z = st_n_elements co n /\ forall c i, in_range (ashape z) (c :: i) -> aget z (c :: i) = v c.
Proof.
  intros n f v Sf Cf. destruct (coarsen_val n f Sf) as (z & E & S & V). exists z. split; auto. split; auto. intros c i R. rewrite S, ne_co in R. inversion R as [|? ? ? ? Hc Hi]; subst. rewrite V by auto.
  rewrite (rsum_ext K _ _ (fun _ => v c)).
  2:{ intros j Hj. apply indices_in in Hj. apply (steps_const K (st_shape t)); auto using axes_ok.
    - transitivity ((r1 + r1) * inv 4 + inv 2); [ring|]. rewrite two_quarters. transitivity ((r1 + r1) * inv 2); [ring|apply two_halves].
    - intros k Rk. apply Cf. rewrite Sf. constructor; auto.
    - eapply dbl_range; eauto. }
  rewrite rsum_const, indices_length. transitivity (inv (size (bins t (sym n c))) * of_nat K (size (bins t (sym n c))) * v c); [ring|]. rewrite inv_ok; [ring|].
  destruct (bins_size t (sym n c)) as [-> _]. pose proof (Nat.pow_nonzero 2 (length (st_shape t) - count_off (sym n c) axes)). lia.
Qed.
Lemma refine_const : forall n (g : array K) (v : nat -> K), ashape g = st_n_elements co n -> (forall c i, in_range (ashape g) (c :: i) -> aget g (c :: i) = v c) ->
  exists z, refine K inv t co n g = Ok z /\ ashape z = st_n_elements t n /\ forall c i, in_range (ashape z) (c :: i) -> aget z (c :: i) = v c.
Proof.
  intros n g v Sg Cg. destruct (refine_val n g Sg) as (z & E & S & V). exists z. split; auto. split; auto. intros c i R. rewrite S in R. inversion R as [|? ? ? ? Hc Hi]; subst. rewrite V by auto.
  apply (steps_fill K (st_shape t) (inv 2) (sym n c) (v c)); auto using axes_ok, seq_NoDup.
  - transitivity ((r1 + r1) * inv 2); [ring|apply two_halves].
  - intros a Ha. rewrite H2 in *. rewrite map_length in Ha. rewrite (nth_map_lt _ _ _ _ _ 0%nat) by auto. rewrite Nat.even_mul. apply orb_true_r.
  - intros k Rk. unfold even_in, even_off. assert (Ll : length (st_shape co) = length (st_shape t)) by (rewrite H2, map_length; auto). rewrite Ll. destruct (forallb _ _); auto. apply Cg. rewrite Sg, ne_co. constructor; auto. eapply halve_range; eauto.
Qed.
End Two.
End Ring.
