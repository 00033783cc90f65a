(** Lemmas for C92: the metric as sums over cubes. *)
Require Import List Arith ZArith QArith Qabs Bool Lia Lqa Permutation.
From Verif Require Import Util CombModel CombSpec CombProofs SimpModel SimpSpec SimpProofs BdryModel BdryProofs SubdModel LevelProofs AvgModel AvgProofs AvgProps.
From Verif Require Import CubeModel CubeSpec CubeBits CubeBd CubeRel CubeTop CubeChain CDomModel CDomBits CDomProofs CDomTop CDomSub CDomPairs CAvgSpec CAvgProofs CAvgProps.
From Verif Require Import OrientProofs SmoModel SmoProofs RMetModel RMetSpec RMetProofs RMetSums.
Import ListNotations.
Local Open Scope nat_scope.
Local Notation "x == y" := (Qeq x y) (at level 70, no associativity).

Lemma sumQ_flat_map : forall A B (f : B -> Q) (g : A -> list B) l, sumQ (map f (flat_map g l)) == sumQ (map (fun j => sumQ (map f (g j))) l).
Proof. induction l as [|a l IH]; [reflexivity|]. cbn [flat_map map]. rewrite map_app, sumQ_app, IH. reflexivity. Qed.
Lemma list_as_map : forall A (d : A) l, l = map (fun j => nth j l d) (seq 0 (length l)).
Proof. intros A d l. apply (nth_ext _ _ d d); [rewrite map_length, seq_length; auto|]. intros i Hi. rewrite nth_map_seq by auto. auto. Qed.

Section Top.
Set Default Proof Using "All".
Variables (n : nat) (rows : list cube) (t : topology) (V : nat -> list Q) (Ds : list domain).
Hypothesis Hn : 1 <= n.
Hypothesis OK : cubes_ok n rows.
Hypothesis T : ctop n rows t.
Hypothesis LD : length Ds = length rows.
Hypothesis ED : forall j a b, j < length rows -> length a = n -> length b = n -> nth j Ds (fun _ _ => None) a b = Some (didx n rows t j a b).
Hypothesis B : forall c, In c rows -> box n V c.
Hypothesis N : n_dim t = n.

Notation D := (didx n rows t).
Definition R (j : nat) (a : bits) : bits -> nat := fun b => match nth j Ds (fun _ _ => None) a b with Some i => i | None => 0 end.
Lemma R_didx : forall j a b, j < length rows -> length a = n -> length b = n -> R j a b = D j a b.
Proof. intros. unfold R. rewrite ED; auto. Qed.
Lemma rows_R : domain_rows t Ds = flat_map (fun j => map (R j) (corners n)) (seq 0 (length rows)).
Proof.
  unfold domain_rows. rewrite N, <- LD. transitivity (flat_map (fun D0 : domain => map (fun a b => match D0 a b with Some i => i | None => 0 end) (corners n)) (map (fun j => nth j Ds (fun _ _ => None)) (seq 0 (length Ds)))).
  - f_equal. apply list_as_map.
  - rewrite !flat_map_concat_map, map_map. reflexivity.
Qed.
(** Sums over all rows of domains with key [e] at corner [c]. *)
Lemma group_total : forall c e (g : (bits -> nat) -> Q) (x : nat -> bits -> Q), length c = n ->
  (forall j a, j < length rows -> length a = n -> D j a c = e -> g (R j a) == x j a) ->
  qsum g (filter (fun row => row c =? e) (domain_rows t Ds)) == sumQ (map (fun j => sumQ (map (fun a => if D j a c =? e then x j a else 0%Q) (corners n))) (seq 0 (length rows))).
Proof.
  intros c e g x Lc H. unfold qsum. rewrite <- sumQ_filter, rows_R, sumQ_flat_map. apply sumQ_ext. intros j Hj. apply in_seq in Hj. rewrite map_map. apply sumQ_ext. intros a Ha. apply corners_in in Ha.
  rewrite R_didx by (auto; lia). destruct (Nat.eqb_spec (D j a c) e); [apply H; auto; lia|reflexivity].
Qed.
Lemma pos_R : forall j a b, j < length rows -> length a = n -> length b = n ->
  domain_position t V (R j a) b = element_position n V (el t (bit_sum b) (D j a b)).
Proof. intros. unfold domain_position. rewrite N, R_didx by auto. reflexivity. Qed.

Lemma hv_first : forall j a c, j < length rows -> length a = n -> length c = n ->
  hypervolume (domain_position t V (R j a) (first_corner n)) (domain_position t V (R j a) c) (bit_sum c) == (measure n V (el t (bit_sum c) (D j a c)) / inject_Z (Z.of_nat (2 ^ bit_sum c)))%Q.
Proof.
  intros j a c Hj La Lc. assert (L0 : length (first_corner n) = n) by apply repeat_length. rewrite !pos_R by auto. destruct (row_len n rows t Hn OK T j Hj) as [L ND].
  destruct (B (nth j rows []) ltac:(apply nth_In; auto)) as (axis & o & s & A1 & A2 & A3).
  apply (first_hypervolume n V (nth j rows []) axis o s L A1 A2 A3 a c); auto; apply (didx_perm n rows t Hn OK T); auto.
Qed.
Lemma hv_last : forall j a c, j < length rows -> length a = n -> length c = n ->
  hypervolume (domain_position t V (R j a) c) (domain_position t V (R j a) (last_corner n)) (n - bit_sum c) == dual_part n V (el t (bit_sum c) (D j a c)) (nth j rows []).
Proof.
  intros j a c Hj La Lc. assert (L1 : length (last_corner n) = n) by apply repeat_length. rewrite !pos_R by auto. destruct (row_len n rows t Hn OK T j Hj) as [L ND].
  destruct (B (nth j rows []) ltac:(apply nth_In; auto)) as (axis & o & s & A1 & A2 & A3).
  assert (E : el t (bit_sum (last_corner n)) (D j a (last_corner n)) = nth j rows []).
  { unfold didx, last_corner. rewrite bit_sum_const. cbn [nat_of]. rewrite Nat.mul_1_r, Nat.eqb_refl. unfold el. rewrite (ct_top _ _ _ T). auto. }
  rewrite E. apply (last_hypervolume n V (nth j rows []) axis o s L A1 A2 A3 a c (cell (nth j rows []) a (repeat false n))); auto; apply (didx_perm n rows t Hn OK T); auto.
Qed.
(** Cubes having element [e] as a face. *)
Definition around (k e : nat) : list nat := filter (fun j => faceb k n (nth j rows []) (el t k e)) (seq 0 (length rows)).
Definition loop_sum (k e : nat) (con : bits -> nat -> Q) : Q := sumQ (map (fun c => if bit_sum c =? k then con c e else 0%Q) (corners n)).
Lemma loop_total : forall k e (con : bits -> nat -> Q) (x : nat -> bits -> bits -> Q) (X : nat -> Q), k < n -> e < n_elements t k ->
  (forall c, length c = n -> bit_sum c = k -> con c e == sumQ (map (fun j => sumQ (map (fun a => if D j a c =? e then x j a c else 0%Q) (corners n))) (seq 0 (length rows)))) ->
  (forall j a c, j < length rows -> length a = n -> length c = n -> bit_sum c = k -> D j a c = e -> x j a c == X j) ->
  loop_sum k e con == sumQ (map (fun j => Qmult (inject_Z (Z.of_nat (2 ^ k))) (X j)) (around k e)).
Proof.
  intros k e con x X Hk He HC HX. unfold loop_sum.
  rewrite (sumQ_ext _ _ (fun c => sumQ (map (fun j => sumQ (map (fun a => if bit_sum c =? k then if D j a c =? e then x j a c else 0%Q else 0%Q) (corners n))) (seq 0 (length rows))))).
  2: { intros c Hc. apply corners_in in Hc. destruct (Nat.eqb_spec (bit_sum c) k); [apply HC; auto|]. symmetry. apply sumQ_zero. intros. apply sumQ_zero. reflexivity. }
  rewrite sumQ_swap. unfold around. rewrite <- sumQ_filter. apply sumQ_ext. intros j Hj. apply in_seq in Hj. rewrite sumQ_swap.
  apply (cube_sum n rows t Hn OK T); auto; [lia|]. intros a c La Lc Ec Ed. apply HX; auto. lia.
Qed.
Definition con_first (c : bits) (e : nat) : Q := qsum (fun row => hypervolume (domain_position t V row (first_corner n)) (domain_position t V row c) (bit_sum c)) (filter (fun row => row c =? e) (domain_rows t Ds)).
Definition con_last (c : bits) (e : nat) : Q := Qdiv (qsum (fun row => hypervolume (domain_position t V row c) (domain_position t V row (last_corner n)) (n - bit_sum c)) (filter (fun row => row c =? e) (domain_rows t Ds))) (inject_Z (2 ^ Z.of_nat (bit_sum c))).
Lemma pow_Z : forall k, inject_Z (2 ^ Z.of_nat k) = inject_Z (Z.of_nat (2 ^ k)).
Proof using. intros k. f_equal. rewrite Nat2Z.inj_pow. reflexivity. Qed.
Lemma first_total : forall k e, k < n -> e < n_elements t k -> loop_sum k e con_first == Qmult (inject_Z (Z.of_nat (length (around k e)))) (measure n V (el t k e)).
Proof.
  intros k e Hk He. rewrite (loop_total k e con_first (fun j a c => (measure n V (el t (bit_sum c) (D j a c)) / inject_Z (Z.of_nat (2 ^ bit_sum c)))%Q) (fun _ => (measure n V (el t k e) / inject_Z (Z.of_nat (2 ^ k)))%Q)); auto.
  - rewrite (sumQ_ext _ _ (fun _ => measure n V (el t k e))); [apply sumQ_const|]. intros j _. field. apply pow2_nz.
  - intros c Lc Ec. apply group_total; auto. intros j a Hj La Ed. apply hv_first; auto.
  - intros j a c Hj La Lc Ec Ed. rewrite Ed, Ec. reflexivity.
Qed.
Lemma last_total : forall k e, k < n -> e < n_elements t k -> loop_sum k e con_last == sumQ (map (fun j => dual_part n V (el t k e) (nth j rows [])) (around k e)).
Proof.
  intros k e Hk He. rewrite (loop_total k e con_last (fun j a c => (dual_part n V (el t (bit_sum c) (D j a c)) (nth j rows []) / inject_Z (Z.of_nat (2 ^ bit_sum c)))%Q) (fun j => (dual_part n V (el t k e) (nth j rows []) / inject_Z (Z.of_nat (2 ^ k)))%Q)); auto.
  - apply sumQ_ext. intros j _. field. apply pow2_nz.
  - intros c Lc Ec. unfold con_last. rewrite pow_Z.
    rewrite (group_total c e _ (fun j a => dual_part n V (el t (bit_sum c) (D j a c)) (nth j rows []))) by (auto; intros; apply hv_last; auto).
    unfold Qdiv. rewrite Qmult_comm. rewrite <- sumQ_scale. apply sumQ_ext. intros j Hj. rewrite <- sumQ_scale. apply sumQ_ext. intros a Ha. destruct (D j a c =? e); ring.
  - intros j a c Hj La Lc Ec Ed. rewrite Ed, Ec. reflexivity.
Qed.

(** The keys at the first and at the last corner. *)
Lemma keys_in : forall c x, length c = n -> (In x (map (fun row => row c) (domain_rows t Ds)) <-> exists j a, j < length rows /\ length a = n /\ D j a c = x).
Proof.
  intros c x Lc. rewrite rows_R, in_map_iff. split.
  - intros (row & <- & I). apply in_flat_map in I as (j & Hj & I). apply in_map_iff in I as (a & <- & Ha). apply in_seq in Hj. apply corners_in in Ha. exists j, a. rewrite R_didx by (auto; lia). repeat split; auto; lia.
  - intros (j & a & Hj & La & E). exists (R j a). split; [rewrite R_didx; auto|]. apply in_flat_map. exists j. split; [apply in_seq; lia|]. apply in_map. apply corners_in. auto.
Qed.
Lemma keys_last : unique_nat (map (fun row => row (last_corner n)) (domain_rows t Ds)) = seq 0 (length rows).
Proof.
  assert (E : forall j a, D j a (last_corner n) = j). { intros j a. unfold didx, last_corner. rewrite bit_sum_const. cbn [nat_of]. rewrite Nat.mul_1_r, Nat.eqb_refl. auto. }
  apply unique_seq. intros x. rewrite keys_in by apply repeat_length. split.
  - intros (j & a & Hj & La & <-). rewrite E. auto.
  - intros Hx. exists x, (repeat false n). rewrite E, repeat_length. auto.
Qed.
Lemma keys_first : unique_nat (map (fun row => row (first_corner n)) (domain_rows t Ds)) = seq 0 (n_elements t 0).
Proof.
  assert (L0 : length (first_corner n) = n) by apply repeat_length. assert (B0 : bit_sum (first_corner n) = 0) by (unfold first_corner; rewrite bit_sum_const; cbn [nat_of]; lia).
  apply unique_seq. intros x. rewrite keys_in by auto. split.
  - intros (j & a & Hj & La & <-). rewrite <- B0. apply (didx_lt n rows t Hn OK T); auto.
  - intros Hx. destruct (proj1 (c_listed n rows t Hn T n 0 ltac:(lia)) x Hx) as (c & g & z & Hc & SC & Rl).
    apply In_nth with (d := []) in Hc as (j & Hj & Ec). destruct (row_len n rows t Hn OK T j Hj) as [L ND]. rewrite Ec in L, ND.
    apply subcube_cell in SC as (a & b & La & Lb & Eb & ->); auto. apply zero_bits in Eb as Eb'. rewrite Lb in Eb'. exists j, a. repeat split; auto.
    apply (didx_is n rows t Hn OK T j a (first_corner n) 0 x); auto. rewrite Ec. unfold first_corner. rewrite <- Eb'. apply Permutation_sym. eapply related_perm; eauto. rewrite cell_length, Eb. auto.
Qed.
Lemma top_total : forall j, j < length rows -> con_first (last_corner n) j == measure n V (nth j rows []).
Proof.
  intros j Hj. assert (L1 : length (last_corner n) = n) by apply repeat_length. assert (B1 : bit_sum (last_corner n) = n) by (unfold last_corner; rewrite bit_sum_const; cbn [nat_of]; lia).
  unfold con_first. rewrite (group_total _ _ _ (fun j a => (measure n V (el t (bit_sum (last_corner n)) (D j a (last_corner n))) / inject_Z (Z.of_nat (2 ^ bit_sum (last_corner n))))%Q)) by (auto; intros; apply hv_first; auto).
  rewrite B1. assert (E : forall j a, D j a (last_corner n) = j). { intros i a. unfold didx. rewrite B1, Nat.eqb_refl. auto. }
  rewrite (sumQ_single _ j); [|apply seq_NoDup|apply in_seq; lia|].
  - rewrite (sumQ_ext _ _ (fun _ => (measure n V (nth j rows []) / inject_Z (Z.of_nat (2 ^ n)))%Q)).
    + rewrite sumQ_const, corners_length. field. apply pow2_nz.
    + intros a _. rewrite E, Nat.eqb_refl. unfold el. rewrite (ct_top _ _ _ T). reflexivity.
  - intros i Hi Ne. apply sumQ_zero. intros a _. rewrite E. destruct (Nat.eqb_spec i j); [tauto|reflexivity].
Qed.
Lemma vertex_total : forall e, e < n_elements t 0 -> con_last (first_corner n) e == sumQ (map (fun j => dual_part n V (el t 0 e) (nth j rows [])) (around 0 e)).
Proof.
  intros e He. rewrite <- last_total by (auto; lia). unfold loop_sum. rewrite (sumQ_one _ _ (first_corner n)); [|apply corners_nodup|apply corners_in, repeat_length|].
  - unfold first_corner at 2. rewrite bit_sum_const. cbn [nat_of]. rewrite Nat.mul_0_r. reflexivity.
  - intros c Hc Ne. apply corners_in in Hc. destruct (Nat.eqb_spec (bit_sum c) 0) as [Z|]; [|reflexivity]. apply zero_bits in Z. rewrite Hc in Z. tauto.
Qed.

Lemma top_count : n_elements t n = length rows.
Proof. unfold n_elements. rewrite (ct_top _ _ _ T). auto. Qed.
Lemma inner_con : forall k e con, 1 <= k < n -> sumQ (map (fun c => if bit_sum c =? k then con c e else 0%Q) (inner_corners n)) == loop_sum k e con.
Proof. intros k e con Hk. apply (inner_sums n k (fun c => con c e)). auto. Qed.
Lemma nth_repeat_Q : forall (x d : Q) m e, e < m -> nth e (repeat x m) d = x.
Proof. clear. induction m as [|m IH]; intros e He; [lia|]. destruct e; cbn [repeat nth]; auto. apply IH. lia. Qed.
Lemma metric_ok : forall sat deg, is_oriented sat t = Ok true -> cubical_domains t = Ok Ds -> degree t = Ok deg -> (forall k, k < n -> length (nth k deg []) = n_elements t k) ->
  exists PM DM, metric sat t V = Ok (PM, DM) /\ length PM = S n /\ length DM = S n /\
  (forall k, k <= n -> length (nth k PM []) = n_elements t k /\ length (nth (n - k) DM []) = n_elements t k) /\
  (forall e, e < n_elements t 0 -> exists x, nth e (nth 0 PM []) None = Some x /\ x == 1%Q) /\
  (forall k e, 1 <= k < n -> e < n_elements t k -> exists x, nth e (nth k PM []) None = over_degree x (nth e (nth k deg []) 0%Z) /\
    x == Qmult (inject_Z (Z.of_nat (length (around k e)))) (measure n V (el t k e))) /\
  (forall j, j < length rows -> exists x, nth j (nth n PM []) None = Some x /\ x == measure n V (nth j rows [])) /\
  (forall j, j < length rows -> nth j (nth 0 DM []) 0%Q == 1%Q) /\
  (forall k e, k < n -> e < n_elements t k -> nth e (nth (n - k) DM []) 0%Q == sumQ (map (fun j => dual_part n V (el t k e) (nth j rows [])) (around k e))).
Proof.
  intros sat deg HO HD HG LG. unfold metric. rewrite HO, HD, HG, N. cbn [bind negb].
  set (PN := map (n_elements t) (seq 0 (S n))). set (rws := domain_rows t Ds).
  assert (LPN : length PN = S n) by (unfold PN; rewrite map_length, seq_length; auto).
  assert (NPN : forall k, k <= n -> nth k PN 0 = n_elements t k) by (intros k Hk; unfold PN; apply nth_map_seq; lia).
  assert (RPN : forall k, k <= n -> nth k (rev PN) 0 = n_elements t (n - k)) by (intros k Hk; rewrite rev_nth by lia; rewrite LPN; replace (S n - S k) with (n - k) by lia; apply NPN; lia).
  set (PM0 := update 0 (repeat 1%Q (nth 0 PN 0)) (map (fun k => repeat 0%Q k) PN)).
  set (DM0 := update 0 (repeat 1%Q (nth 0 (rev PN) 0)) (map (fun k => repeat 0%Q k) (rev PN))).
  assert (LP0 : length PM0 = S n) by (unfold PM0; rewrite update_length; rewrite map_length; lia).
  assert (LD0 : length DM0 = S n) by (unfold DM0; rewrite update_length; rewrite map_length, rev_length; lia).
  assert (NP0 : forall k, k <= n -> nth k PM0 [] = repeat (if k =? 0 then 1%Q else 0%Q) (n_elements t k)).
  { intros k Hk. unfold PM0. rewrite nth_update by (rewrite map_length; lia). destruct (Nat.eqb_spec k 0) as [->|]; [rewrite NPN by lia; auto|]. rewrite (nth_map_lt _ _ _ _ _ 0) by lia. rewrite NPN by lia. auto. }
  assert (ND0 : forall k, k <= n -> nth k DM0 [] = repeat (if k =? 0 then 1%Q else 0%Q) (n_elements t (n - k))).
  { intros k Hk. unfold DM0. rewrite nth_update by (rewrite map_length, rev_length; lia). destruct (Nat.eqb_spec k 0) as [->|]; [rewrite RPN by lia; auto|]. rewrite (nth_map_lt _ _ _ _ _ 0) by (rewrite rev_length; lia). rewrite RPN by lia. auto. }
  set (stepP := fun (c : bits) (arr : list Q) => add_to (group_sum (map (fun row => row c) rws) (map (fun row => hypervolume (domain_position t V row (first_corner n)) (domain_position t V row c) (bit_sum c)) rws)) arr).
  set (stepD := fun (c : bits) (arr : list Q) => add_to (map (fun gs => (fst gs, Qdiv (snd gs) (inject_Z (2 ^ Z.of_nat (bit_sum c))))) (group_sum (map (fun row => row c) rws) (map (fun row => hypervolume (domain_position t V row c) (domain_position t V row (last_corner n)) (n - bit_sum c)) rws))) arr).
  destruct (fold_levels bit_sum stepP con_first (inner_corners n) PM0) as [FP1 FP2].
  { intros. apply add_to_length. }
  { intros c arr e Hc He. unfold stepP, con_first. apply add_to_nth1. auto. }
  { intros c Hc. apply inner_in in Hc; auto. lia. }
  destruct (fold_levels (fun c => n - bit_sum c) stepD con_last (inner_corners n) DM0) as [FD1 FD2].
  { intros. apply add_to_length. }
  { intros c arr e Hc He. unfold stepD, con_last. apply add_to_nth. auto. }
  { intros c Hc. apply inner_in in Hc; auto. lia. }
  unfold stepP, stepD in FP1, FP2, FD1, FD2. cbv beta in FP1, FP2, FD1, FD2.
  match type of FP1 with length ?x = _ => set (PM1 := x) in * end. match type of FD1 with length ?x = _ => set (DM1 := x) in * end.
  match goal with |- context [update n _ (map ?f (seq 0 (S n)))] => set (PM2 := map f (seq 0 (S n))) end.
  assert (LP2 : length PM2 = S n) by (unfold PM2; rewrite map_length, seq_length; auto).
  assert (NP2 : forall k, k <= n -> nth k PM2 [] = if (1 <=? k) && (k <? n) then map (fun xd => over_degree (fst xd) (snd xd)) (combine (nth k PM1 []) (nth k deg [])) else map Some (nth k PM1 [])) by (intros k Hk; unfold PM2; rewrite nth_map_seq by lia; auto).
  eexists. eexists. split; [reflexivity|]. rewrite !update_length by lia. split; [auto|]. split; [lia|].
  assert (LG1 : forall k, k <= n -> length (nth k PM1 []) = n_elements t k) by (intros k Hk; rewrite (proj1 (FP2 k)), NP0 by auto; apply repeat_length).
  assert (LGD : forall k, k <= n -> length (nth k DM1 []) = n_elements t (n - k)) by (intros k Hk; rewrite (proj1 (FD2 k)), ND0 by auto; apply repeat_length).
  assert (ZZ : forall e, sumQ (map (fun c => if bit_sum c =? 0 then con_first c e else 0%Q) (inner_corners n)) == 0%Q).
  { intros e. apply sumQ_zero. intros c Hc. apply inner_in in Hc; auto. destruct (Nat.eqb_spec (bit_sum c) 0); [lia|reflexivity]. }
  assert (ZD : forall e, sumQ (map (fun c => if n - bit_sum c =? 0 then con_last c e else 0%Q) (inner_corners n)) == 0%Q).
  { intros e. apply sumQ_zero. intros c Hc. apply inner_in in Hc; auto. destruct (Nat.eqb_spec (n - bit_sum c) 0); [lia|reflexivity]. }
  split; [|split; [|split; [|split; [|split]]]].
  - intros k Hk. rewrite !nth_update by lia. split.
    + destruct (Nat.eqb_spec k n) as [->|Ne]; [rewrite map_length, group_sum_map, map_length; unfold rws; rewrite keys_last, seq_length, top_count; auto|].
      rewrite NP2 by auto. destruct ((1 <=? k) && (k <? n)); [rewrite map_length, combine_length, LG1, LG by lia; lia|rewrite map_length; auto].
    + destruct (Nat.eqb_spec (n - k) n) as [E|Ne]; [rewrite map_length, group_sum_map, map_length; unfold rws; rewrite keys_first, seq_length; f_equal; lia|].
      rewrite LGD by lia. f_equal. lia.
  - intros e He. rewrite nth_update by lia. destruct (Nat.eqb_spec 0 n); [lia|]. rewrite NP2 by lia. cbn [Nat.leb andb]. rewrite (nth_map_lt _ _ _ _ _ 0%Q) by (rewrite LG1; lia). eexists. split; [reflexivity|].
    rewrite (proj2 (FP2 0)) by (rewrite NP0, repeat_length; lia). rewrite NP0, ZZ by lia. cbn [Nat.eqb]. rewrite nth_repeat_Q by auto. ring.
  - intros k e Hk He. rewrite nth_update by lia. destruct (Nat.eqb_spec k n); [lia|]. rewrite NP2 by lia. replace (1 <=? k) with true by (symmetry; apply Nat.leb_le; lia). replace (k <? n) with true by (symmetry; apply Nat.ltb_lt; lia). cbn [andb].
    rewrite (nth_map_lt _ _ _ _ _ (0%Q, 0%Z)) by (rewrite combine_length, LG1, LG by lia; lia). rewrite combine_nth by (rewrite LG1, LG by lia; auto). cbn [fst snd]. eexists. split; [reflexivity|].
    rewrite (proj2 (FP2 k)) by (rewrite NP0, repeat_length; lia). rewrite NP0, inner_con, first_total by (auto; lia). destruct (Nat.eqb_spec k 0); [lia|]. rewrite nth_repeat_Q by auto. ring.
  - intros j Hj. rewrite nth_update by lia. rewrite Nat.eqb_refl. rewrite group_sum_map, map_map. unfold rws. rewrite keys_last. rewrite nth_map_seq by auto. cbn [snd]. eexists. split; [reflexivity|].
    rewrite <- top_total by auto. unfold con_first. replace (bit_sum (last_corner n)) with n by (unfold last_corner; rewrite bit_sum_const; cbn [nat_of]; lia). reflexivity.
  - intros j Hj. rewrite nth_update by lia. destruct (Nat.eqb_spec 0 n); [lia|].
    rewrite (proj2 (FD2 0)) by (rewrite ND0, repeat_length, Nat.sub_0_r, top_count; lia). rewrite ND0, ZD by lia. cbn [Nat.eqb]. rewrite nth_repeat_Q by (rewrite Nat.sub_0_r, top_count; auto). ring.
  - intros k e Hk He. rewrite nth_update by lia. destruct (Nat.eqb_spec (n - k) n) as [E|Ne].
    + assert (k = 0) by lia. subst k. rewrite group_sum_map, map_map. unfold rws. rewrite keys_first. rewrite nth_map_seq by auto. cbn [snd]. rewrite <- vertex_total by auto. unfold con_last.
      replace (bit_sum (first_corner n)) with 0 by (unfold first_corner; rewrite bit_sum_const; cbn [nat_of]; lia). cbn [Z.of_nat Z.pow]. rewrite Nat.sub_0_r. unfold Qdiv. change (Qinv (inject_Z 1)) with 1%Q. ring.
    + rewrite (proj2 (FD2 (n - k))) by (rewrite ND0, repeat_length by lia; replace (n - (n - k)) with k by lia; auto). rewrite ND0 by lia. destruct (Nat.eqb_spec (n - k) 0); [lia|].
      rewrite nth_repeat_Q by (replace (n - (n - k)) with k by lia; auto). rewrite <- last_total by auto. rewrite <- inner_con by lia.
      rewrite (sumQ_ext _ (fun c => if n - bit_sum c =? n - k then con_last c e else 0%Q) (fun c => if bit_sum c =? k then con_last c e else 0%Q)); [ring|].
      intros c Hc. apply inner_in in Hc; auto. destruct (Nat.eqb_spec (n - bit_sum c) (n - k)), (Nat.eqb_spec (bit_sum c) k); try lia; reflexivity.
Qed.
End Top.

(** ---- counting the faces of a cube ---- *)
Lemma binom_corners : forall n k, sumQ (map (fun c => if bit_sum c =? k then 1%Q else 0%Q) (corners n)) == inject_Z (Z.of_nat (binom n k)).
Proof.
  induction n as [|n IH]; intros k; [destruct k; reflexivity|]. cbn [corners]. rewrite map_app, sumQ_app, !map_map.
  rewrite (sumQ_ext _ (fun c => if bit_sum (false :: c) =? k then _ else _) (fun c => if bit_sum c =? k then 1%Q else 0%Q)) by (intros; rewrite bit_sum_cons; reflexivity). rewrite IH.
  destruct k as [|k].
  - rewrite sumQ_zero by (intros c _; rewrite bit_sum_cons; reflexivity). destruct n; cbn [binom]; ring.
  - rewrite (sumQ_ext _ (fun c => if bit_sum (true :: c) =? S k then _ else _) (fun c => if bit_sum c =? k then 1%Q else 0%Q)) by (intros; rewrite bit_sum_cons; reflexivity). rewrite IH.
    cbn [binom]. rewrite Nat2Z.inj_add, inject_Z_plus. ring.
Qed.
Section Count.
Set Default Proof Using "All".
Variables (n : nat) (rows : list cube) (t : topology) (V : nat -> list Q).
Hypothesis Hn : 1 <= n.
Hypothesis OK : cubes_ok n rows.
Hypothesis T : ctop n rows t.
Hypothesis B : forall c, In c rows -> box n V c.
Lemma faces_count : forall j k, j < length rows -> k < n ->
  sumQ (map (fun e => if faceb k n (nth j rows []) (el t k e) then 1%Q else 0%Q) (seq 0 (n_elements t k))) == inject_Z (Z.of_nat (binom n k * 2 ^ (n - k))).
Proof.
  intros j k Hj Hk. set (S1 := sumQ _).
  assert (H : Qmult (inject_Z (Z.of_nat (2 ^ k))) S1 == Qmult (inject_Z (Z.of_nat (2 ^ n))) (inject_Z (Z.of_nat (binom n k)))).
  { unfold S1. rewrite <- sumQ_scale.
    rewrite (sumQ_ext _ _ (fun e => sumQ (map (fun a => sumQ (map (fun c => if bit_sum c =? k then if didx n rows t j a c =? e then 1%Q else 0%Q else 0%Q) (corners n))) (corners n)))).
    2: { intros e He. apply in_seq in He. rewrite (cube_sum n rows t Hn OK T j k e (fun _ _ => 1%Q) 1%Q) by (auto; try lia; reflexivity). destruct (faceb k n (nth j rows []) (el t k e)); ring. }
    rewrite sumQ_swap. rewrite (sumQ_ext _ _ (fun _ => inject_Z (Z.of_nat (binom n k)))); [rewrite sumQ_const, corners_length; reflexivity|].
    intros a Ha. apply corners_in in Ha. rewrite sumQ_swap. rewrite <- binom_corners. apply sumQ_ext. intros c Hc. apply corners_in in Hc. destruct (Nat.eqb_spec (bit_sum c) k) as [Ec|]; [|apply sumQ_zero; reflexivity].
    pose proof (didx_lt n rows t Hn OK T j a c Hj Ha Hc) as Lt. rewrite Ec in Lt. rewrite (sumQ_single _ (didx n rows t j a c)); [rewrite Nat.eqb_refl; reflexivity|apply seq_NoDup|apply in_seq; lia|].
    intros x _ Ne. destruct (Nat.eqb_spec (didx n rows t j a c) x); [congruence|reflexivity]. }
  replace (2 ^ n) with (2 ^ k * 2 ^ (n - k)) in H by (rewrite <- Nat.pow_add_r; f_equal; lia). rewrite Nat2Z.inj_mul, inject_Z_mult in H. rewrite Nat2Z.inj_mul, inject_Z_mult.
  apply (Qmult_inj_l _ _ (inject_Z (Z.of_nat (2 ^ k)))); [apply pow2_nz|]. rewrite H. ring.
Qed.
Lemma face_volume : forall j k e, j < length rows -> k < n -> e < n_elements t k -> faceb k n (nth j rows []) (el t k e) = true ->
  Qmult (measure n V (el t k e)) (dual_part n V (el t k e) (nth j rows [])) == (measure n V (nth j rows []) / inject_Z (Z.of_nat (2 ^ (n - k))))%Q.
Proof.
  intros j k e Hj Hk He F. destruct (row_len n rows t Hn OK T j Hj) as [L ND]. pose proof (el_nodup n rows t Hn OK T k e Hk He) as NE.
  apply faceb_perm in F; auto. destruct F as (a & b & La & Lb & Eb & P). destruct (B (nth j rows []) ltac:(apply nth_In; auto)) as (axis & o & s & A1 & A2 & A3). rewrite <- Eb.
  apply (measure_dual n V (nth j rows []) axis o s L A1 A2 A3 a b (cell (nth j rows []) a (repeat false n)) (el t (bit_sum b) e)); auto. rewrite Eb. apply Permutation_sym. auto.
Qed.
Lemma totals : forall k, k < n ->
  sumQ (map (fun e => Qmult (measure n V (el t k e)) (sumQ (map (fun j => dual_part n V (el t k e) (nth j rows [])) (around n rows t k e)))) (seq 0 (n_elements t k))) ==
  Qmult (inject_Z (Z.of_nat (binom n k))) (sumQ (map (fun j => measure n V (nth j rows [])) (seq 0 (length rows)))).
Proof.
  intros k Hk.
  rewrite (sumQ_ext _ _ (fun e => sumQ (map (fun j => if faceb k n (nth j rows []) (el t k e) then (measure n V (nth j rows []) / inject_Z (Z.of_nat (2 ^ (n - k))))%Q else 0%Q) (seq 0 (length rows))))).
  2: { intros e He. apply in_seq in He. unfold around. rewrite <- sumQ_filter, <- sumQ_scale. apply sumQ_ext. intros j Hj. apply in_seq in Hj. destruct (faceb k n (nth j rows []) (el t k e)) eqn:F; [apply face_volume; auto; lia|ring]. }
  rewrite sumQ_swap, <- sumQ_scale. apply sumQ_ext. intros j Hj. apply in_seq in Hj.
  rewrite (sumQ_ext _ _ (fun e => Qmult (measure n V (nth j rows []) / inject_Z (Z.of_nat (2 ^ (n - k))))%Q (if faceb k n (nth j rows []) (el t k e) then 1%Q else 0%Q))) by (intros e _; destruct (faceb k n (nth j rows []) (el t k e)); ring).
  rewrite sumQ_scale, faces_count by (auto; lia). rewrite Nat2Z.inj_mul, inject_Z_mult. field. apply pow2_nz.
Qed.
End Count.
