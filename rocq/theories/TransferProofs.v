(** Proofs about the stencil transfer operators. *)
Require Import List Arith ZArith Bool Lia Permutation Sorting.Sorted Ring.
From Verif Require Import Util CombModel SimpModel Arr StModel GenProofs StProofs.
Import ListNotations.

Definition mul2 (a b : list nat) : list nat := map (fun sr => (fst sr * snd sr)%nat) (combine a b).

Lemma size_interleave : forall a b, length a = length b -> size (interleave a b) = size (mul2 a b).
Proof.
  unfold size, mul2. induction a as [|x a IH]; intros [|y b] L; simpl in *; try discriminate; auto. rewrite IH by lia. lia.
Qed.

Lemma ravel_lt : forall shape idx, in_range shape idx -> ravel shape idx < size shape.
Proof.
  unfold in_range, size. intros shape idx H. induction H as [|i n idx shape L H IH]; simpl; [lia|].
  fold (size shape) in *. nia.
Qed.

Lemma unravel_ravel : forall shape idx, in_range shape idx -> unravel shape (ravel shape idx) = idx.
Proof.
  intros shape idx H. induction H as [|i n idx shape L H IH]; simpl; auto.
  pose proof (ravel_lt shape idx H) as B. unfold size in B. set (m := fold_right Nat.mul 1 shape) in *.
  f_equal.
  - rewrite Nat.div_add_l by lia. rewrite Nat.div_small by auto. lia.
  - rewrite Nat.add_comm, Nat.mod_add by lia. rewrite Nat.mod_small by auto. auto.
Qed.

(** Index pairs (i, j) and i * r + j name the same position. *)
Fixpoint glue_idx (r i j : list nat) : list nat :=
  match r, i, j with
  | a :: r', x :: i', y :: j' => (x * a + y) :: glue_idx r' i' j'
  | _, _, _ => []
  end.

Lemma ravel_interleave : forall cs r i j, length cs = length r -> length i = length r -> length j = length r ->
  ravel (interleave cs r) (interleave i j) = ravel (mul2 cs r) (glue_idx r i j).
Proof.
  induction cs as [|c cs IH]; intros [|a r] [|x i] [|y j] L1 L2 L3; simpl in *; try discriminate; auto.
  fold (mul2 cs r). rewrite IH by lia. fold (size (interleave cs r)). fold (size (mul2 cs r)). rewrite size_interleave by lia. lia.
Qed.

Lemma glue_range : forall cs r i j, length cs = length r -> in_range cs i -> in_range r j -> in_range (mul2 cs r) (glue_idx r i j).
Proof.
  unfold in_range. induction cs as [|c cs IH]; intros [|a r] i j L Hi Hj; simpl in *; try discriminate.
  - inversion Hi; inversion Hj. constructor.
  - inversion Hi as [|x n0 i' ? Lx Hi' E1 E2]; inversion Hj as [|y n1 j' ? Ly Hj' E3 E4]; subst. cbn [glue_idx fst snd]. constructor; [|apply IH; auto].
    cbn [fst snd]. apply Nat.lt_le_trans with (x * a + 1 * a); [lia|]. rewrite <- Nat.mul_add_distr_r. apply Nat.mul_le_mono_r. lia.
Qed.

Lemma interleave_range : forall cs r i j, length cs = length r -> in_range cs i -> in_range r j -> in_range (interleave cs r) (interleave i j).
Proof.
  unfold in_range. induction cs as [|c cs IH]; intros [|a r] i j L Hi Hj; simpl in *; try discriminate.
  - inversion Hi; inversion Hj. constructor.
  - inversion Hi; inversion Hj; subst. simpl. constructor; auto. 
Qed.

Lemma split_idx : forall cs r k, length cs = length r -> in_range (mul2 cs r) k ->
  exists i j, in_range cs i /\ in_range r j /\ k = glue_idx r i j.
Proof.
  unfold in_range. induction cs as [|c cs IH]; intros [|a r] k L H; simpl in *; try discriminate.
  - inversion H. exists [], []. repeat split; constructor.
  - inversion H as [|k0 n k' sh L0 H' E1 E2]; subst. destruct (IH r k' ltac:(lia) H') as (i & j & Hi & Hj & ->).
    cbn [fst snd] in L0. assert (a <> 0) by nia.
    exists (k0 / a :: i), (k0 mod a :: j). split; [constructor; auto; apply Nat.div_lt_upper_bound; lia|].
    split; [constructor; auto; apply Nat.mod_upper_bound; auto|]. cbn [glue_idx]. f_equal.
    rewrite Nat.mul_comm. apply Nat.div_mod. auto.
Qed.

Lemma evens_interleave : forall i j, length i = length j -> evens (interleave i j) = i.
Proof. induction i as [|x i IH]; intros [|y j] L; simpl in *; try discriminate; auto. rewrite IH; auto. Qed.

Section Ring.
Variable K : cring.
Add Ring Kr3 : (rth K).
Local Open Scope ring_scope'.

Fixpoint of_nat (m : nat) : K := match m with 0 => r0 | S k => r1 + of_nat k end.

Variable inv : nat -> K.
Hypothesis inv_ok : forall m, 0 < m -> inv m * of_nat m = r1.

Lemma rsum_const : forall A (c : K) (l : list A), rsum (map (fun _ => c) l) = of_nat (length l) * c.
Proof. induction l; cbn [map rsum fold_right length of_nat]; [ring|]. fold (rsum (map (fun _ : A => c) l)). rewrite IHl. ring. Qed.

Lemma indices_length : forall shape, length (indices shape) = size shape.
Proof.
  unfold size. induction shape as [|n r IH]; simpl; auto.
  assert (H : forall l, length (flat_map (fun i => map (cons i) (indices r)) l) = (length l * length (indices r))%nat).
  { induction l; simpl; auto. rewrite app_length, map_length, IHl. auto. }
  rewrite H, seq_length, IH. auto.
Qed.

Lemma reshape_ok : forall a sh, size (ashape a) = size sh -> reshape K a sh = Ok (mkArr sh (fun idx => aget a (unravel (ashape a) (ravel sh idx)))).
Proof. intros a sh E. unfold reshape. rewrite (proj2 (Nat.eqb_eq _ _) E). auto. Qed.

Section Component.
Variables (t : stopo) (s cs : list nat).
Hypothesis Hcs : st_shape t = map (fun n => n * 2)%nat cs.
Let r := bins t s.
Let k := skips t s.

Lemma lens : length cs = length (st_shape t) /\ length r = length cs /\ length k = length cs.
Proof.
  assert (length cs = length (st_shape t)) by (rewrite Hcs, map_length; auto).
  unfold r, k, bins, skips. rewrite !map_length, !seq_length. repeat split; auto.
Qed.

Lemma rk_nth : forall i, i < length cs -> (nth i r 0 = 2 /\ nth i k 0 = 1) \/ (nth i r 0 = 1 /\ nth i k 0 = 2).
Proof.
  intros i Hi. pose proof lens as (L & _ & _). unfold r, k, bins, skips.
  rewrite !(nth_map_lt _ _ _ _ _ 0) by (rewrite seq_length; lia). rewrite !seq_nth by lia. destruct (memb_axis (0 + i) s); auto.
Qed.

Lemma nth_combine_map : forall (f : nat * nat -> nat) a b i, length a = length b -> i < length a ->
  nth i (map f (combine a b)) 0 = f (nth i a 0, nth i b 0).
Proof.
  intros f a b i L Hi. rewrite (nth_map_lt _ _ _ _ _ (0, 0)) by (rewrite combine_length; lia). rewrite combine_nth by auto. auto.
Qed.

Lemma skip_shape_eq : skip_shape (st_shape t) k = mul2 cs r.
Proof.
  pose proof lens as (L1 & L2 & L3). unfold skip_shape, mul2. apply nth_ext with (d := 0) (d' := 0).
  - rewrite !map_length, !combine_length. lia.
  - intros i Hi. rewrite map_length, combine_length in Hi. rewrite !nth_combine_map by lia. cbn [fst snd].
    rewrite Hcs, (nth_map_lt _ _ _ _ _ 0) by lia. destruct (rk_nth i ltac:(lia)) as [[-> ->]|[-> ->]].
    + rewrite Nat.div_1_r. lia.
    + replace (nth i cs 0 * 2 + 2 - 1)%nat with (1 + nth i cs 0 * 2)%nat by lia. rewrite Nat.div_add by lia. rewrite Nat.div_small by lia. lia.
Qed.

Lemma tile_component_ok : forall c : array K, ashape c = cs ->
  exists y, tile_component K t s c = Ok y /\ ashape y = st_shape t /\
   forall i j, in_range cs i -> in_range r j -> aget y (skip_idx k (glue_idx r i j)) = aget c i.
Proof.
  intros c Sc. pose proof lens as (L1 & L2 & L3). unfold tile_component. rewrite Sc. fold r. fold (mul2 cs r).
  rewrite reshape_ok by (apply size_interleave; auto). cbn [bind ashape].
  unfold assign_skip. cbn [ashape aget]. fold k. rewrite skip_shape_eq, (proj2 (list_eqb_eq _ _) eq_refl).
  eexists. split; [reflexivity|]. split; auto. intros i j Hi Hj. cbn [aget].
  pose proof (in_range_len _ _ Hi) as Li. pose proof (in_range_len _ _ Hj) as Lj.
  pose proof (glue_range cs r i j ltac:(lia) Hi Hj) as Hg. pose proof (in_range_len _ _ Hg) as Lg.
  unfold mul2 in Lg. rewrite map_length, combine_length in Lg.
  assert (C1 : forallb (fun si => snd si mod fst si =? 0) (combine k (skip_idx k (glue_idx r i j))) = true).
  { apply forallb_forall. intros [x y] I. apply (In_nth _ _ (0, 0)) in I as (p & Hp & E).
    unfold skip_idx in *. rewrite combine_length, map_length, combine_length in Hp.
    rewrite combine_nth in E by (rewrite map_length, combine_length; lia). rewrite nth_combine_map in E by lia. cbn [fst snd] in E.
    injection E as <- <-. cbn [fst snd]. apply Nat.eqb_eq. rewrite Nat.mul_comm. destruct (rk_nth p ltac:(lia)) as [[_ ->]|[_ ->]]; apply Nat.mod_mul; lia. }
  rewrite C1.
  assert (C2 : map (fun si => snd si / fst si) (combine k (skip_idx k (glue_idx r i j))) = glue_idx r i j).
  { apply nth_ext with (d := 0) (d' := 0).
    - unfold skip_idx. rewrite map_length, combine_length, map_length, combine_length. lia.
    - intros p Hp. unfold skip_idx in *. rewrite map_length, combine_length, map_length, combine_length in Hp.
      rewrite nth_combine_map by (try rewrite map_length, combine_length; lia). rewrite nth_combine_map by lia. cbn [fst snd].
      rewrite Nat.mul_comm. destruct (rk_nth p ltac:(lia)) as [[_ ->]|[_ ->]]; apply Nat.div_mul; lia. }
  rewrite C2. cbn [ashape]. rewrite <- ravel_interleave by lia. rewrite unravel_ravel by (apply interleave_range; auto; lia).
  rewrite evens_interleave by lia. auto.
Qed.

Lemma bin_component_ok : forall y : array K, ashape y = st_shape t ->
  exists z, bin_component K inv t s y = Ok z /\ ashape z = cs /\
   forall i v, in_range cs i -> (forall j, in_range r j -> aget y (skip_idx k (glue_idx r i j)) = v) -> aget z i = v.
Proof.
  intros y Sy. pose proof lens as (L1 & L2 & L3). unfold bin_component, binning, skip. cbn [ashape]. fold k r. rewrite Sy, skip_shape_eq.
  assert (Rp : forall p, p < length cs -> nth p r 0 <> 0) by (intros p Hp; destruct (rk_nth p Hp) as [[-> _]|[-> _]]; lia).
  assert (EB : map (fun ab => fst ab / snd ab) (combine (mul2 cs r) r) = cs).
  { assert (Lm : length (mul2 cs r) = length cs) by (unfold mul2; rewrite map_length, combine_length; lia).
    apply nth_ext with (d := 0) (d' := 0); [rewrite map_length, combine_length; lia|].
    intros p Hp. rewrite map_length, combine_length in Hp. rewrite nth_combine_map by lia. cbn [fst snd]. unfold mul2.
    rewrite nth_combine_map by lia. cbn [fst snd]. apply Nat.div_mul. apply Rp. lia. }
  rewrite EB. rewrite reshape_ok by (cbn [ashape]; symmetry; apply size_interleave; auto). cbn [bind].
  eexists. split; [reflexivity|]. split; auto. intros i v Hi Hv. cbn [aget ashape].
  pose proof (in_range_len _ _ Hi) as Li.
  rewrite (rsum_ext _ _ _ (fun _ => v)).
  - rewrite rsum_const, indices_length.
    assert (size r > 0).
    { unfold size. assert (F : forall l, (forall p, p < length l -> nth p l 0 <> 0) -> fold_right Nat.mul 1 l > 0).
      { induction l as [|a l IH]; simpl; intros H; [lia|]. pose proof (H 0 ltac:(lia)). simpl in H0.
        assert (fold_right Nat.mul 1 l > 0) by (apply IH; intros p Hp; apply (H (S p)); lia). nia. }
      apply F. intros p Hp. apply Rp. lia. }
    replace (inv (size r) * (of_nat (size r) * v)) with (inv (size r) * of_nat (size r) * v) by ring.
    rewrite inv_ok by lia. ring.
  - intros j Hj. apply indices_in in Hj. pose proof (in_range_len _ _ Hj) as Lj.
    rewrite ravel_interleave by lia. rewrite unravel_ravel by (apply glue_range; auto; lia). apply Hv. auto.
Qed.
End Component.

Lemma mapM_Forall2 : forall A B (f : A -> result B) (R : A -> B -> Prop) l, (forall x, In x l -> exists y, f x = Ok y /\ R x y) ->
  exists l', mapM f l = Ok l' /\ Forall2 R l l'.
Proof.
  induction l as [|a l IH]; intros H; [exists []; split; auto|]. destruct (H a (or_introl eq_refl)) as (y & E & Ry).
  destruct IH as (l' & E' & F); [intros; apply H; right; auto|]. exists (y :: l'). cbn [mapM]. rewrite E. cbn [bind]. rewrite E'. cbn [bind]. auto.
Qed.

Lemma stack_ok : forall C sh (l : list (array K)), length l = C -> (forall a, In a l -> ashape a = sh) ->
  exists z, stack K C sh l = Ok z /\ ashape z = C :: sh /\ forall c idx, aget z (c :: idx) = aget (nth c l (mkArr [] (fun _ => r0))) idx.
Proof.
  intros C sh l L H. unfold stack. replace (forallb _ l) with true; [eexists; split; [reflexivity|]; auto|].
  symmetry. apply forallb_forall. intros a Ha. apply list_eqb_eq. auto.
Qed.

Lemma bin_tile : forall t co n cs, st_shape t = map (fun m => m * 2)%nat cs -> st_shape co = cs ->
  forall x : array K, ashape x = length (nth n (st_symbols t) []) :: cs ->
  exists y z, tile K t n x = Ok y /\ ashape y = st_n_elements t n /\ bin K inv t co n y = Ok z /\ aeq z x.
Proof.
  intros t co n cs H2 Hco x Sx. set (syms := nth n (st_symbols t) []) in *. unfold tile, bin. fold syms.
  set (L := combine (seq 0 (length syms)) syms).
  assert (EL : length L = length syms) by (unfold L; rewrite combine_length, seq_length; lia).
  destruct (mapM_Forall2 _ _ (fun cs0 => tile_component K t (snd cs0) (comp_arr K x (fst cs0)))
    (fun cs0 y => ashape y = st_shape t /\ forall i j, in_range cs i -> in_range (bins t (snd cs0)) j ->
       aget y (skip_idx (skips t (snd cs0)) (glue_idx (bins t (snd cs0)) i j)) = aget x (fst cs0 :: i)) L) as (ys & Ey & Fy).
  { intros [c s] I. cbn [fst snd]. destruct (tile_component_ok t s cs H2 (comp_arr K x c)) as (y & E & S & V).
    - unfold comp_arr. cbn [ashape]. rewrite Sx. auto.
    - exists y. split; auto. }
  rewrite Ey. cbn [bind]. pose proof (Forall2_len _ _ _ _ _ Fy) as Ly.
  destruct (stack_ok (length syms) (st_shape t) ys) as (y & E & Sy & Vy); [lia| |].
  { intros a Ha. apply (In_nth _ _ (mkArr [] (fun _ => r0))) in Ha as (p & Hp & <-).
    apply (Forall2_nth _ _ _ _ _ (0, []) (mkArr [] (fun _ => r0)) Fy p). lia. }
  rewrite E. exists y.
  destruct (mapM_Forall2 _ _ (fun cs0 => bin_component K inv t (snd cs0) (comp_arr K y (fst cs0)))
    (fun cs0 z => ashape z = cs /\ forall i, in_range cs i -> aget z i = aget x (fst cs0 :: i)) L) as (zs & Ez & Fz).
  { intros [c s] I. cbn [fst snd]. destruct (bin_component_ok t s cs H2 (comp_arr K y c)) as (z & E' & S & V).
    - unfold comp_arr. cbn [ashape]. rewrite Sy. auto.
    - exists z. split; auto. split; auto. intros i Hi. apply V; auto. intros j Hj. unfold comp_arr, component. cbn [aget].
      rewrite Vy. apply (in_combine_seq _ _ _ _ []) in I as [Hc Es].
      pose proof (Forall2_nth _ _ _ _ _ (0, []) (mkArr [] (fun _ => r0)) Fy c ltac:(lia)) as [_ X].
      unfold L in X. rewrite combine_nth in X by (apply seq_length). rewrite seq_nth in X by auto. cbn [fst snd] in X. rewrite <- Es in X. apply X; auto. }
  rewrite Ez. cbn [bind]. pose proof (Forall2_len _ _ _ _ _ Fz) as Lz. rewrite Hco.
  destruct (stack_ok (length syms) cs zs) as (z & E' & Sz & Vz); [lia| |].
  { intros a Ha. apply (In_nth _ _ (mkArr [] (fun _ => r0))) in Ha as (p & Hp & <-).
    apply (Forall2_nth _ _ _ _ _ (0, []) (mkArr [] (fun _ => r0)) Fz p). lia. }
  exists z. split; auto. split; [rewrite Sy; reflexivity|]. split; auto. split; [rewrite Sz, Sx; auto|].
  rewrite Sz. intros idx R. inversion R as [|c m i sh Lc R' E1 E2]; subst. rewrite Vz.
  pose proof (Forall2_nth _ _ _ _ _ (0, []) (mkArr [] (fun _ => r0)) Fz c ltac:(lia)) as [_ X].
  unfold L in X. rewrite combine_nth in X by (apply seq_length). rewrite seq_nth in X by auto. cbn [fst snd] in X. apply X; auto.
Qed.

End Ring.
