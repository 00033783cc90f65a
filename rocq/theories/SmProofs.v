(** Proofs about the multigrid transfers of a stencil complex: binning, tiling, smoothing. *)
Require Import List Arith Bool Lia Permutation Ring.
From Verif Require Import Util Arr StModel GenProofs StProofs TransferProofs OpModel BlkModel MgModel.
Import ListNotations.

(** 2 i + j on every axis. *)
Definition dbl (i j : list nat) : list nat := map (fun p => fst p * 2 + snd p) (combine i j).
Definition halve (idx : list nat) : list nat := map (fun v => v / 2) idx.
(** Even along every axis that is not in the symbol. *)
Definition even_off (s : list nat) (d : nat) (idx : list nat) : bool := forallb (fun a => memb_axis a s || Nat.even (nth a idx 0)) (seq 0 d).

Lemma mod2_even : forall n, (n mod 2 =? 0) = Nat.even n.
Proof.
  intros n. destruct (Nat.even n) eqn:E.
  - apply Nat.even_spec in E as (m & ->). rewrite Nat.mul_comm, Nat.mod_mul by lia. auto.
  - apply Nat.eqb_neq. intros H. apply Nat.mod_divides in H as (m & ->); [|lia]. rewrite Nat.even_mul in E. discriminate.
Qed.


Lemma Forall2_nth_intro : forall A B (R : A -> B -> Prop) l m d1 d2, length l = length m -> (forall i, i < length l -> R (nth i l d1) (nth i m d2)) -> Forall2 R l m.
Proof.
  induction l as [|a l IH]; intros [|b m] d1 d2 L H; simpl in L; try lia; constructor; [apply (H 0); simpl; lia|]. apply (IH m d1 d2); [lia|]. intros i Hi. apply (H (S i)). simpl. lia.
Qed.
Lemma forallb_ext_in' : forall A (f g : A -> bool) l, (forall x, In x l -> f x = g x) -> forallb f l = forallb g l.
Proof. induction l as [|a l IH]; intros H; auto. simpl. rewrite H, IH; auto; [intros; apply H; right; auto|left; auto]. Qed.

Lemma glue_nth : forall r i j a, length i = length r -> length j = length r -> a < length r -> nth a (glue_idx r i j) 0 = nth a i 0 * nth a r 0 + nth a j 0.
Proof.
  induction r as [|x r' IH]; intros [|y i] [|z j] a L1 L2 La; simpl in *; try lia. destruct a; auto. apply IH; lia.
Qed.
Lemma glue_len : forall r i j, length i = length r -> length j = length r -> length (glue_idx r i j) = length r.
Proof. induction r as [|x r' IH]; intros [|y i] [|z j] L1 L2; simpl in *; try lia. rewrite IH; lia. Qed.

Lemma dbl_len : forall i j, length i = length j -> length (dbl i j) = length i.
Proof. intros. unfold dbl. rewrite map_length, combine_length. lia. Qed.
Lemma dbl_nth : forall i j a, length i = length j -> a < length i -> nth a (dbl i j) 0 = nth a i 0 * 2 + nth a j 0.
Proof. intros. unfold dbl. rewrite (nth_map_lt _ _ _ _ _ (0, 0)) by (rewrite combine_length; lia). rewrite combine_nth by auto. auto. Qed.

Section Ring.
Variable K : cring.
Add Ring Kr3 : (rth K).
Local Open Scope ring_scope'.
Variable inv : nat -> K.

Section Component.
Variables (t : stopo) (s cs : list nat).
Hypothesis Hcs : st_shape t = map (fun n => n * 2)%nat cs.
Let r := bins t s.
Let k := skips t s.

Lemma memb_rk : forall i, i < length cs -> (memb_axis i s = true /\ nth i r 0 = 2 /\ nth i k 0 = 1) \/ (memb_axis i s = false /\ nth i r 0 = 1 /\ nth i k 0 = 2).
Proof.
  intros i Hi. pose proof (lens t s cs Hcs) as (L & _ & _). unfold r, k, bins, skips.
  rewrite !(nth_map_lt _ _ _ _ _ 0) by (rewrite seq_length; lia). rewrite !seq_nth by lia. cbn [Nat.add]. destruct (memb_axis i s); auto.
Qed.

(** The position read by a bin. *)
Lemma skip_glue : forall i j, in_range cs i -> in_range r j -> skip_idx k (glue_idx r i j) = dbl i j.
Proof.
  intros i j Hi Hj. pose proof (lens t s cs Hcs) as (L1 & L2 & L3). pose proof (in_range_len _ _ Hi) as Li. pose proof (in_range_len _ _ Hj) as Lj. fold r in L2. fold k in L3.
  assert (Lg : length (glue_idx r i j) = length r) by (apply glue_len; lia).
  apply nth_ext with (d := 0) (d' := 0).
  - unfold skip_idx. rewrite map_length, combine_length, Lg, dbl_len; lia.
  - intros a Ha. unfold skip_idx in *. rewrite map_length, combine_length, Lg in Ha. rewrite nth_combine_map by lia. cbn [fst snd]. rewrite glue_nth by lia. rewrite dbl_nth by lia.
    pose proof (in_range_nth _ _ a Hj ltac:(lia)) as B. destruct (memb_rk a ltac:(lia)) as [(_ & E1 & E2)|(_ & E1 & E2)]; rewrite E1, E2 in *; lia.
Qed.

Lemma bin_component_val : forall y : array K, ashape y = st_shape t ->
  exists z, bin_component K inv t s y = Ok z /\ ashape z = cs /\
   forall i, in_range cs i -> aget z i = inv (size r) * rsum (map (fun j => aget y (dbl i j)) (indices r)).
Proof.
  intros y Sy. pose proof (lens t s cs Hcs) as (L1 & L2 & L3). fold r in L2. fold k in L3. unfold bin_component, binning, skip. cbn [ashape]. fold k r. rewrite Sy.
  unfold k. rewrite (skip_shape_eq t s cs Hcs). fold r k.
  assert (Rp : forall p, p < length cs -> nth p r 0 <> 0) by (intros p Hp; destruct (rk_nth t s cs Hcs p Hp) as [[E _]|[E _]]; fold r in E; rewrite E; lia).
  assert (EB : map (fun ab => fst ab / snd ab) (combine (mul2 cs r) r) = cs).
  { assert (Lm : length (mul2 cs r) = length cs) by (unfold mul2; rewrite map_length, combine_length; lia).
    apply nth_ext with (d := 0) (d' := 0); [rewrite map_length, combine_length; lia|].
    intros p Hp. rewrite map_length, combine_length in Hp. rewrite nth_combine_map by lia. cbn [fst snd]. unfold mul2.
    rewrite nth_combine_map by lia. cbn [fst snd]. apply Nat.div_mul. apply Rp. lia. }
  rewrite EB. rewrite reshape_ok by (cbn [ashape]; symmetry; apply size_interleave; auto). cbn [bind].
  eexists. split; [reflexivity|]. split; auto. intros i Hi. cbn [aget ashape]. pose proof (in_range_len _ _ Hi) as Li. f_equal. apply rsum_ext.
  intros j Hj. apply indices_in in Hj. pose proof (in_range_len _ _ Hj) as Lj.
  rewrite ravel_interleave by lia. rewrite unravel_ravel by (apply glue_range; auto; lia). rewrite skip_glue by auto. auto.
Qed.

Lemma tile_component_val : forall c : array K, ashape c = cs ->
  exists y, tile_component K t s c = Ok y /\ ashape y = st_shape t /\
   forall idx, in_range (st_shape t) idx -> aget y idx = if even_off s (length cs) idx then aget c (halve idx) else r0.
Proof.
  intros c Sc. pose proof (lens t s cs Hcs) as (L1 & L2 & L3). fold r in L2. fold k in L3. unfold tile_component. rewrite Sc. fold r. fold (mul2 cs r).
  rewrite reshape_ok by (apply size_interleave; auto). cbn [bind ashape].
  unfold assign_skip. cbn [ashape aget]. fold k. unfold k. rewrite (skip_shape_eq t s cs Hcs). fold r k. rewrite (proj2 (list_eqb_eq _ _) eq_refl).
  eexists. split; [reflexivity|]. split; auto. intros idx Hi. cbn [aget].
  pose proof (in_range_len _ _ Hi) as Li.
  assert (C1 : forallb (fun si => snd si mod fst si =? 0) (combine k idx) = even_off s (length cs) idx).
  { apply eq_true_iff_eq. unfold even_off. rewrite !forallb_forall. split; intros H.
    - intros a Ha. apply in_seq in Ha. specialize (H (nth a k 0, nth a idx 0)). rewrite <- combine_nth in H by lia.
      assert (Q : In (nth a (combine k idx) (0, 0)) (combine k idx)) by (apply nth_In; rewrite combine_length; lia). specialize (H Q). clear Q. rewrite combine_nth in H by lia. cbn [fst snd] in H.
      destruct (memb_rk a ltac:(lia)) as [(M & _ & _)|(M & _ & E)]; rewrite M; auto. rewrite E in H. cbn [orb]. rewrite <- mod2_even. auto.
    - intros [x v] Q. apply (In_nth _ _ (0, 0)) in Q as (a & Ha & Q). rewrite combine_length in Ha. rewrite combine_nth in Q by lia. injection Q as <- <-. cbn [fst snd].
      specialize (H a ltac:(apply in_seq; lia)). destruct (memb_rk a ltac:(lia)) as [(M & _ & E)|(M & _ & E)]; rewrite M in H; rewrite E; [rewrite Nat.mod_1_r; auto|].
      cbn [orb] in H. rewrite mod2_even. auto. }
  rewrite C1. destruct (even_off s (length cs) idx) eqn:EO; auto.
  set (q := map (fun si => snd si / fst si) (combine k idx)).
  assert (Lq : length q = length cs) by (unfold q; rewrite map_length, combine_length; lia).
  assert (Nq : forall a, a < length cs -> nth a q 0 = nth a idx 0 / nth a k 0) by (intros; unfold q; rewrite nth_combine_map by lia; auto).
  assert (Rq : in_range (mul2 cs r) q).
  { unfold in_range. apply Forall2_nth_intro with (d1 := 0) (d2 := 0).
    - unfold mul2. rewrite map_length, combine_length. lia.
    - intros a Ha. rewrite Lq in Ha. rewrite Nq by auto. unfold mul2. rewrite nth_combine_map by lia. cbn [fst snd].
      pose proof (in_range_nth _ _ a Hi ltac:(lia)) as B. rewrite Hcs, (nth_map_lt _ _ _ _ _ 0) in B by lia.
      destruct (memb_rk a ltac:(lia)) as [(M & E1 & E2)|(M & E1 & E2)]; rewrite E1, E2; [rewrite Nat.div_1_r; lia|apply Nat.div_lt_upper_bound; lia]. }
  destruct (split_idx cs r q ltac:(lia) Rq) as (i & j & Ri & Rj & Eq). pose proof (in_range_len _ _ Ri). pose proof (in_range_len _ _ Rj).
  rewrite Eq. rewrite <- ravel_interleave by lia. rewrite unravel_ravel by (apply interleave_range; auto; lia).
  rewrite evens_interleave by lia. f_equal. apply nth_ext with (d := 0) (d' := 0). { unfold halve. rewrite map_length. lia. }
  intros a Ha. unfold halve. rewrite (nth_map_lt _ _ _ _ _ 0) by lia. specialize (Nq a ltac:(lia)). rewrite Eq, glue_nth in Nq by lia.
  pose proof (in_range_nth _ _ a Rj ltac:(lia)) as B. destruct (memb_rk a ltac:(lia)) as [(M & E1 & E2)|(M & E1 & E2)]; rewrite E1, E2 in *.
  - rewrite Nat.div_1_r in Nq. rewrite <- Nq. rewrite Nat.div_add_l by lia. rewrite (Nat.div_small (nth a j 0)) by lia. lia.
  - rewrite <- Nq. lia.
Qed.

Lemma rsum_seq2 : forall (F : nat -> K) n, rsum (map F (seq 0 (n * 2))) = rsum (map (fun a => rsum (map (fun b => F (a * 2 + b)%nat) (seq 0 2))) (seq 0 n)).
Proof.
  intros F. induction n as [|n IH]; auto. rewrite (seq_S n 0). rewrite map_app, (rsum_app K), <- IH. replace (S n * 2)%nat with (S (S (n * 2))) by lia.
  rewrite !seq_S, !map_app, !(rsum_app K). cbn [map Nat.add]. unfold rsum. simpl. replace (n * 2 + 0)%nat with (n * 2)%nat by lia. replace (n * 2 + 1)%nat with (S (n * 2)) by lia. ring.
Qed.
Lemma rsum_dbl : forall (cs : list nat) (F : list nat -> K), rsum (map F (indices (map (fun n => n * 2)%nat cs))) =
  rsum (map (fun i => rsum (map (fun j => F (dbl i j)) (indices (map (fun _ => 2) cs)))) (indices cs)).
Proof.
  induction cs0 as [|n cs' IH]; intros F; [simpl; unfold dbl; simpl; ring|]. cbn [map indices]. rewrite !(rsum_flat_map K).
  rewrite rsum_seq2. apply rsum_ext. intros a Ha. rewrite (rsum_ext K _ _ (fun b => rsum (map (fun i => rsum (map (fun j => F ((a * 2 + b)%nat :: dbl i j)) (indices (map (fun _ => 2) cs')))) (indices cs')))).
  2:{ intros b _. rewrite map_map. apply (IH (fun rest => F ((a * 2 + b)%nat :: rest))). }
  rewrite rsum_swap, map_map. apply rsum_ext. intros i _. rewrite (rsum_flat_map K). apply rsum_ext. intros b _. rewrite map_map. reflexivity.
Qed.

(** Binning is the transpose of tiling but for the number of binned cells. *)
Lemma bin_tile_adjoint : forall (f g : list nat -> K),
  rsum (map (fun i => rsum (map (fun j => f (dbl i j)) (indices r)) * g i) (indices cs)) =
  rsum (map (fun idx => f idx * (if even_off s (length cs) idx then g (halve idx) else r0)) (indices (st_shape t))).
Proof.
  intros f g. pose proof (lens t s cs Hcs) as (L1 & L2 & L3). fold r in L2. rewrite Hcs, rsum_dbl. apply rsum_ext. intros i Hi. apply indices_in in Hi. pose proof (in_range_len _ _ Hi) as Li.
  set (two := map (fun _ => 2) cs). assert (Lt : length two = length cs) by (unfold two; rewrite map_length; auto).
  set (P := fun j => forallb (fun a => memb_axis a s || (nth a j 0 =? 0)) (seq 0 (length cs))).
  assert (EV : forall j, In j (indices two) -> even_off s (length cs) (dbl i j) = P j /\ halve (dbl i j) = i).
  { intros j Hj. apply indices_in in Hj. pose proof (in_range_len _ _ Hj) as Lj.
    assert (Bj : forall a, a < length cs -> nth a j 0 < 2).
    { intros a Ha. pose proof (in_range_nth _ _ a Hj ltac:(lia)) as B. unfold two in B. rewrite (nth_map_lt _ _ _ _ _ 0) in B by lia. auto. }
    split.
    - unfold even_off, P. apply forallb_ext_in'. intros a Ha. apply in_seq in Ha. f_equal. rewrite dbl_nth by lia. specialize (Bj a ltac:(lia)).
      rewrite Nat.mul_comm, Nat.even_add, Nat.even_mul. cbn [Nat.even orb]. destruct (nth a j 0) as [|[|x]]; auto; lia.
    - apply nth_ext with (d := 0) (d' := 0); [unfold halve; rewrite map_length, dbl_len; lia|]. intros a Ha. unfold halve in *. rewrite map_length, dbl_len in Ha by lia.
      rewrite (nth_map_lt _ _ _ _ _ 0) by (rewrite dbl_len; lia). rewrite dbl_nth by lia. rewrite Nat.div_add_l by lia. rewrite Nat.div_small by (apply Bj; lia). lia. }
  rewrite (rsum_ext K _ (fun j => f (dbl i j) * _) (fun j => (if P j then f (dbl i j) else r0) * g i)).
  2:{ intros j Hj. destruct (EV j Hj) as [-> ->]. destruct (P j); ring. }
  rewrite rsum_mul_r. f_equal.
  assert (PE : Permutation (filter P (indices two)) (indices r)).
  { apply NoDup_Permutation; [apply NoDup_filter, indices_nodup|apply indices_nodup|]. intros j. rewrite filter_In, !indices_in. unfold P. rewrite forallb_forall. split.
    - intros [Hj Q]. pose proof (in_range_len _ _ Hj) as Lj. apply Forall2_nth_intro with (d1 := 0) (d2 := 0); [lia|]. intros a Ha.
      pose proof (in_range_nth _ _ a Hj ltac:(lia)) as B. unfold two in B. rewrite (nth_map_lt _ _ _ _ _ 0) in B by lia.
      specialize (Q a ltac:(apply in_seq; lia)). destruct (memb_rk a ltac:(lia)) as [(M & E1 & _)|(M & E1 & _)]; rewrite M in Q; rewrite E1; [lia|]. cbn [orb] in Q. apply Nat.eqb_eq in Q. lia.
    - intros Hj. pose proof (in_range_len _ _ Hj) as Lj. split.
      + apply Forall2_nth_intro with (d1 := 0) (d2 := 0); [lia|]. intros a Ha. pose proof (in_range_nth _ _ a Hj ltac:(lia)) as B. unfold two. rewrite (nth_map_lt _ _ _ _ _ 0) by lia.
        destruct (memb_rk a ltac:(lia)) as [(M & E1 & _)|(M & E1 & _)]; rewrite E1 in B; lia.
      + intros a Ha. apply in_seq in Ha. pose proof (in_range_nth _ _ a Hj ltac:(lia)) as B. destruct (memb_rk a ltac:(lia)) as [(M & E1 & _)|(M & E1 & _)]; rewrite M, E1 in *; auto.
        cbn [orb]. apply Nat.eqb_eq. lia. }
  rewrite <- (rsum_perm K _ _ (Permutation_map (fun j => f (dbl i j)) PE)). generalize (indices two). clear. induction l as [|a l IH]; auto. cbn [filter map]. destruct (P a).
  - cbn [map]. unfold rsum in *. simpl. rewrite IH. auto.
  - unfold rsum in *. simpl. rewrite IH. ring.
Qed.
End Component.
(** ---- whole forms ---- *)
Lemma bin_ok : forall t co n cs, st_shape t = map (fun m => m * 2)%nat cs -> st_shape co = cs ->
  forall y : array K, ashape y = st_n_elements t n ->
  exists z, bin K inv t co n y = Ok z /\ ashape z = length (nth n (st_symbols t) []) :: cs /\
  forall c i, c < length (nth n (st_symbols t) []) -> in_range cs i ->
    let r := bins t (nth c (nth n (st_symbols t) []) []) in aget z (c :: i) = inv (size r) * rsum (map (fun j => aget y (c :: dbl i j)) (indices r)).
Proof.
  intros t co n cs H2 Hco y Sy. set (syms := nth n (st_symbols t) []) in *. unfold bin. fold syms.
  set (L := combine (seq 0 (length syms)) syms).
  assert (EL : length L = length syms) by (unfold L; rewrite combine_length, seq_length; lia).
  destruct (mapM_Forall2 _ _ (fun cs0 => bin_component K inv t (snd cs0) (comp_arr K y (fst cs0)))
    (fun cs0 z => ashape z = cs /\ forall i, in_range cs i -> aget z i = inv (size (bins t (snd cs0))) * rsum (map (fun j => aget y (fst cs0 :: dbl i j)) (indices (bins t (snd cs0))))) L) as (zs & Ez & Fz).
  { intros [c s] I. cbn [fst snd]. destruct (bin_component_val t s cs H2 (comp_arr K y c)) as (z & E' & S & V); [|eauto].
    unfold comp_arr. cbn [ashape]. rewrite Sy. auto. }
  rewrite Ez. cbn [bind]. pose proof (Forall2_len _ _ _ _ _ Fz) as Lz. rewrite Hco.
  destruct (stack_ok K (length syms) cs zs) as (z & E' & Sz & Vz); [lia| |].
  { intros a Ha. apply (In_nth _ _ (mkArr [] (fun _ => r0))) in Ha as (p & Hp & <-).
    apply (Forall2_nth _ _ _ _ _ (0, []) (mkArr [] (fun _ => r0)) Fz p). lia. }
  exists z. split; auto. split; auto. intros c i Hc Hi. rewrite Vz.
  pose proof (Forall2_nth _ _ _ _ _ (0, []) (mkArr [] (fun _ => r0)) Fz c ltac:(lia)) as [_ X].
  unfold L in X. rewrite combine_nth in X by (apply seq_length). rewrite seq_nth in X by auto. cbn [fst snd] in X. apply X; auto.
Qed.

Lemma tile_ok : forall t n cs, st_shape t = map (fun m => m * 2)%nat cs ->
  forall x : array K, ashape x = length (nth n (st_symbols t) []) :: cs ->
  exists y, tile K t n x = Ok y /\ ashape y = st_n_elements t n /\
  forall c idx, c < length (nth n (st_symbols t) []) -> in_range (st_shape t) idx ->
    aget y (c :: idx) = if even_off (nth c (nth n (st_symbols t) []) []) (length cs) idx then aget x (c :: halve idx) else r0.
Proof.
  intros t n cs H2 x Sx. set (syms := nth n (st_symbols t) []) in *. unfold tile. fold syms.
  set (L := combine (seq 0 (length syms)) syms).
  assert (EL : length L = length syms) by (unfold L; rewrite combine_length, seq_length; lia).
  destruct (mapM_Forall2 _ _ (fun cs0 => tile_component K t (snd cs0) (comp_arr K x (fst cs0)))
    (fun cs0 y => ashape y = st_shape t /\ forall idx, in_range (st_shape t) idx -> aget y idx = if even_off (snd cs0) (length cs) idx then aget x (fst cs0 :: halve idx) else r0) L) as (ys & Ey & Fy).
  { intros [c s] I. cbn [fst snd]. destruct (tile_component_val t s cs H2 (comp_arr K x c)) as (y & E & S & V); [|eauto].
    unfold comp_arr. cbn [ashape]. rewrite Sx. auto. }
  rewrite Ey. cbn [bind]. pose proof (Forall2_len _ _ _ _ _ Fy) as Ly.
  destruct (stack_ok K (length syms) (st_shape t) ys) as (y & E & Sy & Vy); [lia| |].
  { intros a Ha. apply (In_nth _ _ (mkArr [] (fun _ => r0))) in Ha as (p & Hp & <-).
    apply (Forall2_nth _ _ _ _ _ (0, []) (mkArr [] (fun _ => r0)) Fy p). lia. }
  exists y. split; auto. split; auto. intros c idx Hc Hi. rewrite Vy.
  pose proof (Forall2_nth _ _ _ _ _ (0, []) (mkArr [] (fun _ => r0)) Fy c ltac:(lia)) as [_ X].
  unfold L in X. rewrite combine_nth in X by (apply seq_length). rewrite seq_nth in X by auto. cbn [fst snd] in X. apply X; auto.
Qed.

(** ---- smoothing ---- *)
Section Smooth.
Variables (shape : list nat) (v w : K) (s : list nat).
Definition eqr (f g : list nat -> K) : Prop := forall idx, in_range shape idx -> f idx = g idx.
Definition step (g : list nat -> K) (i : nat) : list nat -> K := if memb_axis i s then g else convolve3 K shape i v w g.
Definition steps (l : list nat) (f : list nat -> K) := fold_left step l f.

Lemma step_ext : forall f g a, a < length shape -> eqr f g -> eqr (step f a) (step g a).
Proof.
  intros f g a La E. unfold step. destruct (memb_axis a s); auto. intros idx R. unfold convolve3. rewrite !E; auto using next_range, prev_range.
Qed.
Lemma steps_ext : forall l f g, Forall (fun a => a < length shape) l -> eqr f g -> eqr (steps l f) (steps l g).
Proof. induction l as [|a l IH]; intros f g F E; auto. inversion F; subst. cbn [steps fold_left]. apply IH; auto. apply step_ext; auto. Qed.

Lemma np_comm : forall (u1 u2 : nat -> nat -> nat) a b idx, a < length idx -> b < length idx -> a <> b ->
  set_at a (u1 (nth a (set_at b (u2 (nth b idx 0%nat) b) idx) 0%nat) a) (set_at b (u2 (nth b idx 0%nat) b) idx) =
  set_at b (u2 (nth b (set_at a (u1 (nth a idx 0%nat) a) idx) 0%nat) b) (set_at a (u1 (nth a idx 0%nat) a) idx).
Proof.
  intros u1 u2 a b idx La Lb D. rewrite !set_at_nth by auto. rewrite (proj2 (Nat.eqb_neq a b) D), (proj2 (Nat.eqb_neq b a) (Nat.neq_sym _ _ D)). apply set_at_comm. auto.
Qed.
Lemma step_comm : forall f a b, a < length shape -> b < length shape -> eqr (step (step f a) b) (step (step f b) a).
Proof.
  intros f a b La Lb idx R. destruct (Nat.eq_dec a b) as [->|D]; auto. unfold step. destruct (memb_axis a s), (memb_axis b s); auto. unfold convolve3.
  pose proof (in_range_len _ _ R) as Li.
  set (un := fun x c => (x + 1) mod nth c shape 0%nat). set (up := fun x c => (x + (nth c shape 0%nat - 1)) mod nth c shape 0%nat).
  pose proof (np_comm un un a b idx ltac:(lia) ltac:(lia) D) as E1. pose proof (np_comm un up a b idx ltac:(lia) ltac:(lia) D) as E2.
  pose proof (np_comm up un a b idx ltac:(lia) ltac:(lia) D) as E3. pose proof (np_comm up up a b idx ltac:(lia) ltac:(lia) D) as E4.
  unfold un, up in E1, E2, E3, E4. unfold next_idx, prev_idx. rewrite E1, E2, E3, E4. ring.
Qed.
Lemma steps_perm : forall l l', Permutation l l' -> Forall (fun a => a < length shape) l -> forall f, eqr (steps l f) (steps l' f).
Proof.
  intros l l' P. induction P; intros F f.
  - intros idx R. auto.
  - inversion F; subst. cbn [steps fold_left]. apply IHP. auto.
  - inversion F as [|? ? Hy F']; subst. inversion F' as [|? ? Hx F'']; subst. cbn [steps fold_left]. apply (steps_ext l); auto. apply step_comm; auto.
  - intros idx R. rewrite IHP1, IHP2; auto. eapply Permutation_Forall; eauto.
Qed.

Notation dot f g := (rsum (map (fun i => f i * g i) (indices shape))).
Lemma dot_ext : forall f f' g g', eqr f f' -> eqr g g' -> dot f g = dot f' g'.
Proof. intros f f' g g' E E'. apply rsum_ext. intros i Hi. apply indices_in in Hi. rewrite E, E'; auto. Qed.
Lemma prev_perm : forall a, a < length shape -> Permutation (map (prev_idx shape a) (indices shape)) (indices shape).
Proof.
  intros a La. eapply Permutation_trans; [apply Permutation_map, Permutation_sym, (next_perm shape a La)|].
  rewrite map_map. rewrite <- (map_id (indices shape)) at 2. erewrite map_ext_in; [apply Permutation_refl|]. intros i Hi. apply prev_next; auto. apply indices_in; auto.
Qed.
Lemma step_sym : forall f g a, a < length shape -> dot (step f a) g = dot f (step g a).
Proof.
  intros f g a La. unfold step. destruct (memb_axis a s); auto. unfold convolve3.
  rewrite (rsum_ext K _ (fun i => (v * f (prev_idx shape a i) + w * f i + v * f (next_idx shape a i)) * g i)
    (fun i => (v * (f (prev_idx shape a i) * g i) + w * (f i * g i)) + v * (f (next_idx shape a i) * g i))) by (intros; ring).
  rewrite (rsum_ext K _ (fun i => f i * (v * g (prev_idx shape a i) + w * g i + v * g (next_idx shape a i)))
    (fun i => (v * (f i * g (next_idx shape a i)) + w * (f i * g i)) + v * (f i * g (prev_idx shape a i)))) by (intros; ring).
  rewrite !rsum_add, !rsum_mul.
  assert (E1 : dot (fun i => f (prev_idx shape a i)) g = dot f (fun i => g (next_idx shape a i))).
  { rewrite <- (rsum_perm K _ _ (Permutation_map (fun i => f i * g (next_idx shape a i)) (prev_perm a La))). rewrite map_map. apply rsum_ext. intros i Hi. rewrite next_prev; auto. apply indices_in; auto. }
  assert (E2 : dot (fun i => f (next_idx shape a i)) g = dot f (fun i => g (prev_idx shape a i))).
  { rewrite <- (rsum_perm K _ _ (Permutation_map (fun i => f i * g (prev_idx shape a i)) (next_perm shape a La))). rewrite map_map. apply rsum_ext. intros i Hi. rewrite prev_next; auto. apply indices_in; auto. }
  rewrite E1, E2. ring.
Qed.
Lemma steps_sym : forall l f g, Forall (fun a => a < length shape) l -> dot (steps l f) g = dot f (steps l g).
Proof.
  intros l f g F. transitivity (dot f (steps (rev l) g)).
  - revert f g. induction F as [|a l La F IH]; intros f g; auto. assert (E : steps (rev (a :: l)) g = step (steps (rev l) g) a) by (unfold steps; cbn [rev]; rewrite fold_left_app; auto). rewrite E. change (steps (a :: l) f) with (steps l (step f a)). rewrite <- step_sym by auto. apply IH.
  - apply dot_ext; [intros idx _; auto|]. apply steps_perm; [apply Permutation_sym, Permutation_rev|]. apply Forall_rev. auto.
Qed.

Lemma steps_zero : forall l f, Forall (fun a => a < length shape) l -> eqr f (fun _ => r0) -> eqr (steps l f) (fun _ => r0).
Proof.
  induction l as [|a l IH]; intros f F E; auto. inversion F; subst. cbn [steps fold_left]. apply IH; auto.
  unfold step. destruct (memb_axis a s); auto. intros idx R. unfold convolve3. rewrite !E by auto using next_range, prev_range. ring.
Qed.
Lemma steps_const : forall c l f, v + w + v = r1 -> Forall (fun a => a < length shape) l -> eqr f (fun _ => c) -> eqr (steps l f) (fun _ => c).
Proof.
  intros c l f W. revert f. induction l as [|a l IH]; intros f F E; auto. inversion F; subst. cbn [steps fold_left]. apply IH; auto.
  unfold step. destruct (memb_axis a s); auto. intros idx R. unfold convolve3. rewrite !E by auto using next_range, prev_range. transitivity ((v + w + v) * c); [ring|]. rewrite W. ring.
Qed.
End Smooth.


(** Scaling both weights by c scales the result once for every direction smoothed. *)
Fixpoint count_off (s l : list nat) : nat := match l with [] => 0 | a :: r => ((if memb_axis a s then 0 else 1) + count_off s r)%nat end.
Lemma steps_lin : forall shape v w s l k f, Forall (fun a => a < length shape) l -> eqr shape (steps shape v w s l (fun i => k * f i)) (fun i => k * steps shape v w s l f i).
Proof.
  intros shape v w s. induction l as [|a l IH]; intros k f F idx R; auto. inversion F; subst. cbn [steps fold_left]. fold (steps shape v w s l (step shape v w s (fun i => k * f i) a)). fold (steps shape v w s l (step shape v w s f a)).
  rewrite <- IH; auto. apply steps_ext; auto. intros i Hi. unfold step. destruct (memb_axis a s); auto. unfold convolve3. ring.
Qed.
Lemma steps_scale : forall shape v w s c l f, Forall (fun a => a < length shape) l -> eqr shape (steps shape (c * v) (c * w) s l f) (fun i => kpow K c (count_off s l) * steps shape v w s l f i).
Proof.
  intros shape v w s c. induction l as [|a l IH]; intros f F idx R; [cbn; ring|]. inversion F; subst. cbn [steps fold_left count_off].
  fold (steps shape (c * v) (c * w) s l (step shape (c * v) (c * w) s f a)). fold (steps shape v w s l (step shape v w s f a)). rewrite IH by auto.
  assert (Q : forall v w, step shape v w s f a = if memb_axis a s then f else convolve3 K shape a v w f) by reflexivity. rewrite !Q. clear Q.
  destruct (memb_axis a s); [reflexivity|]. cbn [Nat.add kpow].
  rewrite (steps_ext shape v w s l (convolve3 K shape a (c * v) (c * w) f) (fun i => c * convolve3 K shape a v w f i)); auto; [|intros i Hi; unfold convolve3; ring].
  rewrite steps_lin by auto. ring.
Qed.

(** Smoothing with weights 1/2, 1, 1/2 fills the gaps left by tiling a constant. *)
Definition even_in (s l : list nat) (idx : list nat) : bool := forallb (fun a => memb_axis a s || Nat.even (nth a idx 0%nat)) l.
Lemma steps_fill : forall shape v s c, v + v = r1 -> (forall a, a < length shape -> Nat.even (nth a shape 0%nat) = true) ->
  forall l f, Forall (fun a => a < length shape) l -> NoDup l -> eqr shape f (fun idx => if even_in s l idx then c else r0) -> eqr shape (steps shape v r1 s l f) (fun _ => c).
Proof.
  intros shape v s c V EV. induction l as [|a l IH]; intros f F ND E; [intros idx R; cbn; rewrite E by auto; auto|].
  inversion F as [|? ? La F']; subst. inversion ND as [|? ? NI ND']; subst. cbn [steps fold_left]. apply IH; auto.
  unfold step. destruct (memb_axis a s) eqn:M.
  - intros idx R. rewrite E by auto. cbn [even_in forallb]. rewrite M. auto.
  - intros idx R. pose proof (in_range_len _ _ R) as Li. pose proof (in_range_nth _ _ a R La) as Ba. unfold convolve3. rewrite !E by auto using next_range, prev_range. cbn [even_in forallb]. rewrite M. cbn [orb].
    assert (O : forall u, forallb (fun a0 => memb_axis a0 s || Nat.even (nth a0 (set_at a u idx) 0%nat)) l = even_in s l idx).
    { intros u. apply forallb_ext_in'. intros b Hb. rewrite set_at_nth by lia. destruct (b =? a) eqn:AB; auto. apply Nat.eqb_eq in AB. subst. contradiction. }
    unfold next_idx, prev_idx. rewrite !O. rewrite !set_at_nth by lia. rewrite Nat.eqb_refl.
    assert (P1 : forall u, u = 1%nat \/ u = (nth a shape 0%nat - 1)%nat -> Nat.even ((nth a idx 0%nat + u) mod nth a shape 0%nat) = negb (Nat.even (nth a idx 0%nat))).
    { intros u Hu. specialize (EV a La). set (n := nth a shape 0%nat) in *. apply Nat.even_spec in EV as (h & En).
      assert (EM : forall x, Nat.even (x mod n) = Nat.even x).
      { intros x. rewrite (Nat.div_mod x n) at 2 by lia. rewrite Nat.even_add, En, <- Nat.mul_assoc, (Nat.even_mul 2). cbn [Nat.even orb]. destruct (Nat.even _); auto. }
      rewrite EM, Nat.even_add. assert (Nat.even u = false) as ->. { destruct Hu as [->| ->]; auto. destruct h; [lia|]. replace (n - 1)%nat with (2 * h + 1)%nat by lia. rewrite Nat.even_add, Nat.even_mul. auto. }
      destruct (Nat.even _); auto. }
    rewrite !P1 by auto. fold (even_in s l idx). destruct (Nat.even (nth a idx 0%nat)); cbn [negb andb]; destruct (even_in s l idx); try ring.
    transitivity ((v + v) * c); [ring|]. rewrite V. ring.
Qed.
End Ring.
