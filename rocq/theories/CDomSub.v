(** The cubes of the subdivision: their labels, their faces and why they form a topology. *)
Require Import List Arith ZArith Bool Lia Permutation Sorting.Sorted.
From Verif Require Import Util CombModel CombSpec CombProofs SimpModel SimpSpec SimpProofs BdryModel BdryProofs SubdModel FundProofs SubProofs SelProps OrientProofs BdryProps ParProofs LevelProofs.
From Verif Require Import CubeModel CubeSpec CubeBits CubeBd CubeRel CubeLevel CubeTop CubeChain CDomModel CDomBits CDomProofs CDomTop.
Import ListNotations.
Local Open Scope nat_scope.

Lemma finite_choice : forall k (P : nat -> nat -> Prop), (forall i, i < k -> exists q, P i q) -> exists p, length p = k /\ forall i, i < k -> P i (nth i p 0).
Proof.
  induction k as [|k IH]; intros P H; [exists []; split; auto; intros; lia|]. destruct (IH P) as (p & L & Hp); [intros; apply H; lia|]. destruct (H k (Nat.lt_succ_diag_r k)) as (q & Hq).
  exists (p ++ [q]). split; [rewrite app_length; simpl; lia|]. intros i Hi. destruct (Nat.eq_dec i k) as [->|]; [rewrite app_nth2, L, Nat.sub_diag by lia; auto|]. rewrite app_nth1 by lia. apply Hp. lia.
Qed.
Lemma bit_sum_place : forall m w u, length u = bit_sum m -> bit_sum (place m w u) = bit_sum u + bit_sum (place m w (repeat false (bit_sum m))).
Proof.
  induction m as [|[] m IH]; intros w u L; rewrite bit_sum_cons in * || idtac; cbn [nat_of Nat.add] in *.
  - destruct u; [reflexivity|discriminate].
  - destruct u as [|x u]; [discriminate|]. cbn [place hd tl repeat]. rewrite !bit_sum_cons. injection L as L. rewrite (IH (tl w) u L). cbn [nat_of]. lia.
  - cbn [place]. rewrite !bit_sum_cons. rewrite (IH (tl w) u L). lia.
Qed.
Lemma xor_place : forall n m y a u, length m = n -> length y = n -> length a = n -> length u = bit_sum m ->
  xor (place m y (xor u (restrict m a))) a = place m (xor y a) u.
Proof.
  intros n m y a u Lm Ly La Lu. apply (bits_ext n); rewrite ?xor_length, ?place_length; auto. intros i Hi. rewrite nth_xor by (rewrite place_length; lia). rewrite !nth_place by lia.
  destruct (nth i m false) eqn:E; [|rewrite nth_xor by lia; auto]. rewrite nth_xor by (rewrite Lu; apply rank_lt; auto; lia). rewrite nth_restrict by (auto; lia). rewrite xorb_assoc, xorb_nilpotent, xorb_false_r. auto.
Qed.
Lemma xor_perm : forall a b, length a = length b -> xor (xor a b) b = a.
Proof. intros a b L. apply (xor_xor). Qed.
Definition but (k i : nat) : bits := flip_bit i (repeat true k).
Lemma but_length : forall k i, length (but k i) = k.
Proof. intros. unfold but. rewrite flip_bit_length, repeat_length. auto. Qed.
Lemma nth_repeat_true : forall k i, i < k -> nth i (repeat true k) false = true.
Proof. induction k; intros i Hi; [lia|]. destruct i; auto. cbn [repeat nth]. apply IHk. lia. Qed.
Lemma nth_but : forall k i x, x < k -> nth x (but k i) false = negb (x =? i).
Proof. intros k i x Hx. unfold but. rewrite nth_flip, repeat_length, nth_repeat_true by auto. replace (x <? k) with true by (symmetry; apply Nat.ltb_lt; auto). rewrite andb_true_r. destruct (x =? i); auto. Qed.
Lemma bit_sum_but : forall k i, i < k -> S (bit_sum (but k i)) = k.
Proof.
  induction k as [|k IH]; intros i Hi; [lia|]. destruct i as [|i]; unfold but in *; cbn [repeat flip_bit negb]; rewrite bit_sum_cons; cbn [nat_of Nat.add].
  - rewrite bit_sum_repeat. simpl. lia.
  - rewrite IH; lia.
Qed.
Lemma bits_but : forall k u, length u = k -> S (bit_sum u) = k -> exists i, i < k /\ u = but k i.
Proof.
  induction k as [|k IH]; intros u L E; [lia|]. destruct u as [|[] u]; [discriminate| |]; rewrite bit_sum_cons in E; cbn [nat_of Nat.add] in E; injection L as L.
  - destruct (IH u L ltac:(lia)) as (i & Hi & ->). exists (S i). split; [lia|]. reflexivity.
  - exists 0. split; [lia|]. unfold but. cbn [repeat flip_bit negb]. f_equal. rewrite <- L. apply full_bits. lia.
Qed.
Lemma bit_sum_perm : forall u v, Permutation u v -> bit_sum u = bit_sum v.
Proof. intros u v P. induction P; rewrite ?bit_sum_cons; lia. Qed.
Lemma scatter_perm : forall k p u, Permutation (seq 0 k) p -> length u = k -> Permutation (scatter p u) u.
Proof.
  intros k p u P L. destruct (perm_facts k p P) as (Lp & ND & Hp). unfold scatter. rewrite Lp.
  assert (E : u = map (fun j => nth (index_of Nat.eqb j p) u false) p).
  { transitivity (map (fun i => nth i u false) (seq 0 k)); [rewrite <- L; symmetry; apply map_nth_seq|]. transitivity (map (fun j => nth (index_of Nat.eqb j p) u false) (map (fun i => nth i p 0) (seq 0 k))).
    - rewrite map_map. apply map_ext_in. intros i Hi. apply in_seq in Hi. rewrite (idx_nth k p i) by (auto; lia). auto.
    - f_equal. rewrite <- Lp. apply map_nth_seq. }
  eapply perm_trans; [apply Permutation_map; exact P|]. rewrite <- E. apply Permutation_refl.
Qed.

Section Top.
Variables (n : nat) (rows : list cube) (t : topology).
Hypothesis Hn : 1 <= n.
Hypothesis OK : cubes_ok n rows.
Hypothesis T : ctop n rows t.
Notation row j := (nth j rows []).
Notation didx := (didx n rows t).

Definition lab (j : nat) (a b : bits) : nat := didx j a b + offset t (bit_sum b).
Definition fine (j : nat) (a : bits) : cube := cbuild n (fun b => lab j a (xor b a)).
Definition fines : list cube := flat_map (fun j => map (fine j) (corners n)) (seq 0 (length rows)).

Lemma fine_length : forall j a, length (fine j a) = 2 ^ n.
Proof. intros. apply cbuild_length. Qed.
Lemma cget_fine : forall j a b, length b = n -> cget (fine j a) b = lab j a (xor b a).
Proof. intros j a b Hb. unfold fine. rewrite cget_build; auto. Qed.

Lemma subdivided_ok : exists Ds, cubical_domains t = Ok Ds /\ length Ds = length rows /\
  (forall j a b, j < length rows -> length a = n -> length b = n -> nth j Ds (fun _ _ => None) a b = Some (didx j a b)) /\ subdivided_cubes t Ds = fines.
Proof.
  destruct (cubical_domains_ok n rows t Hn OK T) as (Ds & E & L & H). exists Ds. repeat split; auto. unfold subdivided_cubes. rewrite (dim_t n rows t T). unfold fines.
  rewrite <- (map_nth_seq _ Ds (fun _ _ => None)) at 1. rewrite L, flat_map_concat_map, map_map, <- flat_map_concat_map. 
  assert (Q : forall l, (forall j, In j l -> j < length rows) -> flat_map (fun x => map (fun a => flips n a (cbuild n (domain_label t (nth x Ds (fun _ _ => None)) a))) (corners n)) l = flat_map (fun j => map (fine j) (corners n)) l).
  { induction l as [|j l IH]; intros Hl; auto. cbn [flat_map]. f_equal; [|apply IH; intros; apply Hl; right; auto]. apply map_ext_in. intros a Ha. apply corners_in in Ha.
    apply (cube_ext n); [apply flips_length, cbuild_length|apply fine_length|]. intros b Hb. rewrite (flips_get n a _ b) by (rewrite ?cbuild_length; auto; lia). rewrite cget_build by (rewrite xor_length; auto). rewrite cget_fine by auto.
    unfold domain_label. rewrite H by (rewrite ?xor_length; auto; apply Hl; left; auto). reflexivity. }
  apply Q. intros j Hj. apply in_seq in Hj. lia.
Qed.

Lemma row_ok' : forall j, j < length rows -> length (row j) = 2 ^ n /\ NoDup (row j).
Proof. intros j Hj. apply (row_facts n rows OK). apply nth_In. auto. Qed.
Lemma didx_lt : forall j a b, j < length rows -> length a = n -> length b = n -> didx j a b < n_elements t (bit_sum b).
Proof.
  intros j a b Hj La Lb. unfold CDomTop.didx. pose proof (bit_sum_le b). destruct (Nat.eqb_spec (bit_sum b) n) as [E|E]; [rewrite E; unfold n_elements; rewrite (ct_top _ _ _ T); auto|].
  apply (eidx_ok n rows t Hn OK T); [lia|]. apply (cell_inside n rows OK); auto. apply nth_In. auto.
Qed.
Lemma lab_range : forall j a b, j < length rows -> length a = n -> length b = n -> offset t (bit_sum b) <= lab j a b < offset t (S (bit_sum b)).
Proof. intros j a b Hj La Lb. unfold lab. rewrite offset_S. pose proof (didx_lt j a b Hj La Lb). lia. Qed.
Lemma lab_dim : forall j a b j' a' b', j < length rows -> j' < length rows -> length a = n -> length b = n -> length a' = n -> length b' = n ->
  lab j a b = lab j' a' b' -> bit_sum b = bit_sum b'.
Proof.
  intros j a b j' a' b' Hj Hj' La Lb La' Lb' E. pose proof (lab_range j a b Hj La Lb) as R. pose proof (lab_range j' a' b' Hj' La' Lb') as R'. rewrite E in R.
  destruct (lt_eq_lt_dec (bit_sum b) (bit_sum b')) as [[H|H]|H]; auto; [pose proof (offset_mono t (S (bit_sum b)) (bit_sum b') H)|pose proof (offset_mono t (S (bit_sum b')) (bit_sum b) H)]; lia.
Qed.
Lemma lab_eq : forall j a b j' a' b', j < length rows -> j' < length rows -> length a = n -> length b = n -> length a' = n -> length b' = n -> bit_sum b < n ->
  (lab j a b = lab j' a' b' <-> bit_sum b = bit_sum b' /\ Permutation (cell (row j) a b) (cell (row j') a' b')).
Proof.
  intros j a b j' a' b' Hj Hj' La Lb La' Lb' Hb.
  assert (Q : bit_sum b = bit_sum b' -> (lab j a b = lab j' a' b' <-> Permutation (cell (row j) a b) (cell (row j') a' b'))).
  { intros D. unfold lab, CDomTop.didx. rewrite <- D. destruct (Nat.eqb_spec (bit_sum b) n) as [E|_]; [lia|].
    rewrite <- (eidx_eq n rows t Hn OK T (bit_sum b)); [lia|auto|apply (cell_inside n rows OK); auto; apply nth_In; auto|rewrite D; apply (cell_inside n rows OK); auto; apply nth_In; auto]. }
  split; [|intros [D P]; apply Q; auto]. intros E. pose proof (lab_dim j a b j' a' b' Hj Hj' La Lb La' Lb' E) as D. split; auto. apply Q; auto.
Qed.
Lemma lab_top : forall j a b j' a' b', j < length rows -> j' < length rows -> length a = n -> length b = n -> length a' = n -> length b' = n -> bit_sum b = n ->
  (lab j a b = lab j' a' b' <-> bit_sum b' = n /\ j = j').
Proof.
  intros j a b j' a' b' Hj Hj' La Lb La' Lb' Hb. split.
  - intros E. pose proof (lab_dim j a b j' a' b' Hj Hj' La Lb La' Lb' E) as D. split; [lia|]. unfold lab, CDomTop.didx in E. rewrite <- D, Hb, Nat.eqb_refl in E. lia.
  - intros [D ->]. unfold lab, CDomTop.didx. rewrite D, Hb, Nat.eqb_refl. auto.
Qed.
Lemma lab_span_inj : forall j a b b', j < length rows -> length a = n -> length b = n -> length b' = n -> lab j a b = lab j a b' -> b = b'.
Proof.
  intros j a b b' Hj La Lb Lb' E. destruct (row_ok' j Hj) as [L ND]. pose proof (lab_dim j a b j a b' Hj Hj La Lb La Lb' E) as D. pose proof (bit_sum_le b). pose proof (bit_sum_le b').
  destruct (Nat.eq_dec (bit_sum b) n) as [F|F]; [rewrite (full_bits b), (full_bits b') by lia; congruence|].
  apply lab_eq in E as [_ P]; auto; [|lia]. apply (cell_span_inj n (row j) a); auto. intros v. split; apply Permutation_in; auto. apply Permutation_sym. auto.
Qed.
Lemma xor_inj_r : forall b b' a, length b = n -> length b' = n -> xor b a = xor b' a -> b = b'.
Proof. intros b b' a L L' E. rewrite <- (xor_xor b a), <- (xor_xor b' a), E. auto. Qed.
Lemma fine_nodup : forall j a, j < length rows -> length a = n -> NoDup (fine j a).
Proof.
  intros j a Hj La. apply cbuild_nodup. intros b b' Lb Lb' E. apply lab_span_inj in E; rewrite ?xor_length; auto. apply (xor_inj_r _ _ a); auto.
Qed.
Lemma fines_in : forall c, In c fines <-> exists j a, j < length rows /\ length a = n /\ c = fine j a.
Proof.
  intros c. unfold fines. rewrite in_flat_map. split.
  - intros (j & Hj & Hc). apply in_seq in Hj. apply in_map_iff in Hc as (a & <- & Ha). apply corners_in in Ha. exists j, a. repeat split; auto. lia.
  - intros (j & a & Hj & La & ->). exists j. split; [apply in_seq; lia|]. apply in_map, corners_in. auto.
Qed.
Lemma fines_ok : cubes_ok n fines.
Proof.
  split.
  - destruct OK as [Hne _]. assert (H0 : 0 < length rows) by (destruct rows; [congruence|simpl; lia]). intros E.
    assert (I : In (fine 0 (repeat false n)) fines) by (apply fines_in; exists 0, (repeat false n); rewrite repeat_length; auto). rewrite E in I. destruct I.
  - apply Forall_forall. intros c Hc. apply fines_in in Hc as (j & a & Hj & La & ->). split; [apply fine_length|apply fine_nodup; auto].
Qed.

(** A face of a fine cube, mirrored so that the dimension of the corners' cells increases along every axis. *)
Definition norm (j : nat) (a m w : bits) : cube := cbuild (bit_sum m) (fun u => lab j a (place m w u)).
Lemma cget_norm : forall j a m w u, length u = bit_sum m -> cget (norm j a m w) u = lab j a (place m w u).
Proof. intros j a m w u L. unfold norm. rewrite cget_build; auto. Qed.
Lemma face_norm : forall j a k g, j < length rows -> length a = n -> subcube k n (fine j a) g ->
  exists m w s, length m = n /\ length w = n /\ bit_sum m = k /\ related k s g (norm j a m w).
Proof.
  intros j a k g Hj La S. apply subcube_cell in S as (y & m & Ly & Lm & Bm & ->); [|apply fine_length]. exists m, (xor y a).
  assert (LC : length (cell (fine j a) y m) = 2 ^ k) by (rewrite cell_length, Bm; auto). assert (Lr : length (restrict m a) = k) by (rewrite restrict_length; lia).
  destruct (related_flips k (restrict m a) (cell (fine j a) y m)) as [s R]; [lia|auto|]. exists s. rewrite xor_length. repeat split; auto.
  replace (norm j a m (xor y a)) with (flips k (restrict m a) (cell (fine j a) y m)); auto. apply (cube_ext k); [apply flips_length; auto|unfold norm; rewrite cbuild_length, Bm; auto|].
  intros u Lu. rewrite (flips_get k) by (auto; lia). rewrite cget_cell by (rewrite xor_length; lia). rewrite cget_fine by (rewrite place_length; auto). rewrite cget_norm by lia. rewrite (xor_place n) by (auto; lia). auto.
Qed.
Lemma norm_length : forall j a m w, length (norm j a m w) = 2 ^ bit_sum m.
Proof. intros. apply cbuild_length. Qed.
Lemma norm_nodup : forall j a m w, j < length rows -> length a = n -> length m = n -> length w = n -> NoDup (norm j a m w).
Proof.
  intros j a m w Hj La Lm Lw. apply cbuild_nodup. intros u u' Lu Lu' E. apply lab_span_inj in E; rewrite ?place_length; auto. rewrite <- (restrict_place m w u), <- (restrict_place m w u'), E; auto; lia.
Qed.
(** Corners common to the cells of codimension one are the corners of the smaller cell. *)
Lemma cell_meet : forall j a m w u v, j < length rows -> length a = n -> length m = n -> length w = n -> length u = bit_sum m -> bit_sum u < bit_sum m ->
  (In v (cell (row j) a (place m w u)) <-> forall i, i < bit_sum m -> nth i u false = false -> In v (cell (row j) a (place m w (but (bit_sum m) i)))).
Proof.
  intros j a m w u v Hj La Lm Lw Lu Hu. destruct (row_ok' j Hj) as [L ND]. set (k := bit_sum m) in *. split.
  - intros Hv i Hi Eu. apply (cell_in n) in Hv as (z & [Lz A] & <-); [|rewrite place_length; auto]. apply (cell_in n); [rewrite place_length; auto|]. exists z. split; auto. split; auto.
    intros x Hx Ex. apply A; auto. rewrite nth_place in * by lia. destruct (nth x m false) eqn:Em; auto. pose proof (rank_lt m x ltac:(lia) Em) as Hr. fold k in Hr. rewrite nth_but in Ex by auto.
    destruct (Nat.eqb_spec (bit_sum (firstn x m)) i) as [->|]; [auto|discriminate].
  - intros H. destruct (missing_bit u) as (i0 & Hi0 & E0); [lia|]. pose proof (H i0 ltac:(lia) E0) as H0. apply (cell_in n) in H0 as (z & [Lz A] & <-); [|rewrite place_length; auto].
    apply (cell_in n); [rewrite place_length; auto|]. exists z. split; auto. split; auto. intros x Hx Ex. rewrite nth_place in Ex by lia. destruct (nth x m false) eqn:Em.
    + pose proof (rank_lt m x ltac:(lia) Em) as Hr. fold k in Hr. specialize (H _ Hr Ex). apply (cell_in n) in H as (z' & [Lz' A'] & E'); [|rewrite place_length; auto].
      apply (cget_inj n) in E'; auto. subst z'. apply A'; auto. rewrite nth_place, Em, nth_but, Nat.eqb_refl by (auto; lia). auto.
    + apply A; auto. rewrite nth_place, Em by lia. auto.
Qed.
Lemma norm_related : forall j a m w j' a' m' w', j < length rows -> length a = n -> length m = n -> length w = n ->
  j' < length rows -> length a' = n -> length m' = n -> length w' = n -> bit_sum m = bit_sum m' -> Permutation (norm j a m w) (norm j' a' m' w') ->
  exists p, Permutation (seq 0 (bit_sum m)) p /\ norm j a m w = transpose_cube (bit_sum m) p (norm j' a' m' w').
Proof.
  intros j a m w j' a' m' w' Hj La Lm Lw Hj' La' Lm' Lw' Bm P. set (k := bit_sum m) in *. set (f := norm j a m w) in *. set (g := norm j' a' m' w') in *.
  assert (Lf : length f = 2 ^ k) by apply norm_length. assert (Lg : length g = 2 ^ k) by (unfold g; rewrite norm_length, <- Bm; auto).
  assert (NDf : NoDup f) by (apply norm_nodup; auto). assert (NDg : NoDup g) by (apply norm_nodup; auto).
  assert (Gf : forall u, length u = k -> cget f u = lab j a (place m w u)) by (intros; apply cget_norm; auto).
  assert (Gg : forall u, length u = k -> cget g u = lab j' a' (place m' w' u)) by (intros; apply cget_norm; lia).
  set (l := bit_sum (place m w (repeat false k))). set (l' := bit_sum (place m' w' (repeat false k))).
  assert (Df : forall u, length u = k -> bit_sum (place m w u) = bit_sum u + l) by (intros; unfold l; apply bit_sum_place; auto).
  assert (Dg : forall u, length u = k -> bit_sum (place m' w' u) = bit_sum u + l') by (intros; unfold l'; rewrite Bm; apply bit_sum_place; lia).
  assert (PL : forall u, length (place m w u) = n) by (intros; rewrite place_length; auto). assert (PL' : forall u, length (place m' w' u) = n) by (intros; rewrite place_length; auto).
  assert (FG : forall u, length u = k -> exists u', length u' = k /\ cget f u = cget g u' /\ bit_sum u + l = bit_sum u' + l').
  { intros u Lu. assert (I : In (cget f u) g) by (apply (Permutation_in _ P); apply (cget_in k); auto). apply (in_cget k) in I as (u' & Lu' & E); auto. exists u'. split; auto. split; auto. rewrite <- Df, <- Dg by auto.
    apply (lab_dim j a _ j' a'); auto. rewrite <- Gf, <- Gg by auto. auto. }
  assert (GF : forall u, length u = k -> exists u', length u' = k /\ cget g u = cget f u' /\ bit_sum u + l' = bit_sum u' + l).
  { intros u Lu. assert (I : In (cget g u) f) by (apply (Permutation_in _ (Permutation_sym P)); apply (cget_in k); auto). apply (in_cget k) in I as (u' & Lu' & E); auto. exists u'. split; auto. split; auto. rewrite <- Df, <- Dg by auto.
    apply (lab_dim j' a' _ j a); auto. rewrite <- Gf, <- Gg by auto. auto. }
  set (ones := repeat true k). assert (L1 : length ones = k) by apply repeat_length. assert (B1 : bit_sum ones = k) by (unfold ones; rewrite bit_sum_repeat; simpl; lia).
  assert (El : l = l').
  { destruct (FG ones L1) as (u & Lu & _ & E1). destruct (GF ones L1) as (u' & Lu' & _ & E2). pose proof (bit_sum_le u). pose proof (bit_sum_le u'). lia. }
  assert (Hkl : k + l <= n). { rewrite <- B1. rewrite <- Df by auto. rewrite <- (PL ones). apply bit_sum_le. }
  assert (F1 : cget f ones = cget g ones).
  { destruct (FG ones L1) as (u & Lu & E & D). rewrite E. f_equal. rewrite (full_bits u), Lu by lia. auto. }
  destruct (finite_choice k (fun i q => q < k /\ cget f (but k i) = cget g (but k q))) as (p & Lp & Hp).
  { intros i Hi. destruct (FG (but k i) (but_length k i)) as (u & Lu & E & D). pose proof (bit_sum_but k i Hi). destruct (bits_but k u Lu ltac:(lia)) as (q & Hq & ->). exists q. auto. }
  assert (BI : forall i i', i < k -> i' < k -> but k i = but k i' -> i = i').
  { intros i i' Hi Hi' E. apply (f_equal (fun l => nth i l false)) in E. rewrite !nth_but in E by auto. rewrite Nat.eqb_refl in E. destruct (Nat.eqb_spec i i'); auto. discriminate. }
  assert (PP : Permutation (seq 0 k) p).
  { apply Permutation_sym. apply NoDup_Permutation_bis; [|rewrite seq_length; lia|intros x Hx; apply In_nth with (d := 0) in Hx as (i & Hi & <-); rewrite Lp in Hi; apply in_seq; destruct (Hp i Hi); lia].
    apply (proj2 (NoDup_nth p 0)). rewrite Lp. intros i i' Hi Hi' E. destruct (Hp i Hi) as [_ E1]. destruct (Hp i' Hi') as [_ E2]. rewrite E in E1. rewrite <- E2 in E1. apply (cget_inj k) in E1; auto using but_length. }
  exists p. split; auto. apply (cube_ext k); auto; [apply cbuild_length|]. intros u Lu. unfold transpose_cube. rewrite cget_build by auto.
  assert (Ls : length (scatter p u) = k) by (apply (scatter_length k); auto). pose proof (bit_sum_perm _ _ (scatter_perm k p u PP Lu)) as Bs.
  destruct (Nat.eq_dec (bit_sum u) k) as [Eu|Eu].
  - replace (scatter p u) with ones by (rewrite (full_bits (scatter p u)), Ls by lia; auto). replace u with ones by (rewrite (full_bits u), Lu by lia; auto). auto.
  - pose proof (bit_sum_le u) as Ule. rewrite Gf, Gg by auto. apply lab_eq; auto; [rewrite Df by auto; lia|]. split; [rewrite Df, Dg by auto; lia|].
    destruct (row_ok' j Hj) as [Lr NDr]. destruct (row_ok' j' Hj') as [Lr' NDr'].
    apply NoDup_Permutation; [apply (cell_nodup n); auto|apply (cell_nodup n); auto|]. intros v. rewrite (cell_meet j a m w u v), (cell_meet j' a' m' w' (scatter p u) v); auto; try (fold k; lia). rewrite <- Bm. fold k.
    assert (CE : forall i, i < k -> (In v (cell (row j) a (place m w (but k i))) <-> In v (cell (row j') a' (place m' w' (but k (nth i p 0)))))).
    { intros i Hi. destruct (Hp i Hi) as [Hq E]. rewrite Gf, Gg in E by apply but_length. apply lab_eq in E as [_ E]; auto; [|rewrite Df by apply but_length; pose proof (bit_sum_but k i Hi); lia]. split; apply Permutation_in; auto. apply Permutation_sym. auto. }
    split.
    + intros H q Hq E. rewrite (nth_scatter k) in E by auto. pose proof (idx_lt k p q PP Hq) as Hi. specialize (H _ Hi E). apply CE in H; auto. rewrite (nth_idx k) in H by auto. auto.
    + intros H i Hi E. apply CE; auto. apply H; [apply (nth_perm_lt k); auto|]. rewrite (nth_scatter k) by (auto; apply (nth_perm_lt k); auto). rewrite (idx_nth k) by auto. auto.
Qed.
Lemma fines_match : forall k, faces_match k n fines.
Proof.
  intros k c d f g Hc Hd Sf Sg P. apply fines_in in Hc as (j & a & Hj & La & ->). apply fines_in in Hd as (j' & a' & Hj' & La' & ->).
  assert (Lf : length f = 2 ^ k) by (apply (subcube_length _ _ _ _ Sf), fine_length). assert (Lg : length g = 2 ^ k) by (apply (subcube_length _ _ _ _ Sg), fine_length).
  destruct (face_norm j a k f Hj La Sf) as (m & w & s & Lm & Lw & Bm & R). destruct (face_norm j' a' k g Hj' La' Sg) as (m' & w' & s' & Lm' & Lw' & Bm' & R').
  assert (PN : Permutation (norm j a m w) (norm j' a' m' w')).
  { eapply perm_trans; [apply Permutation_sym; apply (related_perm _ _ _ _ R Lf)|]. eapply perm_trans; [exact P|]. apply (related_perm _ _ _ _ R' Lg). }
  destruct (norm_related j a m w j' a' m' w') as (p & PP & E); auto; [lia|]. rewrite Bm in *.
  destruct (related_transpose k (norm j' a' m' w') p) as [z Z]; [rewrite norm_length, Bm'; auto|auto|]. rewrite <- E in Z.
  exists (s * (z * s'))%Z. apply (related_trans k s (z * s')%Z f (norm j a m w) g); auto. apply (related_trans k z s' _ (norm j' a' m' w') g).
  - apply related_sym; auto. rewrite norm_length, Bm'. auto.
  - apply related_sym; auto.
Qed.
Lemma offset_find : forall m v, v < offset t m -> exists k i, k < m /\ i < n_elements t k /\ v = i + offset t k.
Proof.
  induction m as [|m IH]; intros v Hv; [unfold offset in Hv; simpl in Hv; lia|]. destruct (lt_dec v (offset t m)) as [H|H].
  - destruct (IH v H) as (k & i & Hk & Hi & E). exists k, i. repeat split; auto; lia.
  - rewrite offset_S in Hv. exists m, (v - offset t m). repeat split; lia.
Qed.
(** Every element of the coarse mesh is the cell of a cube. *)
Lemma element_cell : forall k i, k <= n -> i < n_elements t k -> exists j a b, j < length rows /\ length a = n /\ length b = n /\ bit_sum b = k /\ didx j a b = i /\ exists s, related k s (cell (row j) a b) (el t k i).
Proof.
  intros k i Hk Hi. destruct (Nat.eq_dec k n) as [->|Hk'].
  - unfold n_elements in Hi. rewrite (ct_top _ _ _ T) in Hi. exists i, (repeat false n), (repeat true n). rewrite !repeat_length. assert (B : bit_sum (repeat true n) = n) by (rewrite bit_sum_repeat; simpl; lia). repeat split; auto.
    + unfold CDomTop.didx. rewrite B, Nat.eqb_refl. auto.
    + exists 1%Z. destruct (row_ok' i Hi) as [L _]. rewrite (cell_full n) by (auto; rewrite repeat_length; auto). unfold el. rewrite (ct_top _ _ _ T). constructor.
  - destruct (c_listed n rows t Hn T (n - k) k ltac:(lia)) as [H _]. destruct (H i Hi) as (c & g & s & Hc & S & R). destruct (row_facts n rows OK c Hc) as [L ND].
    destruct (subcube_cell _ _ _ _ S L) as (a & b & La & Lb & Bb & ->). apply In_nth with (d := []) in Hc as (j & Hj & <-). exists j, a, b. repeat split; auto; [|exists s; exact R].
    unfold CDomTop.didx. rewrite Bb. destruct (Nat.eqb_spec k n); [lia|]. symmetry. apply (eidx_unique n rows t Hn OK T); auto; [lia| |].
    + rewrite <- Bb. apply (cell_inside n rows OK); auto. apply nth_In. auto.
    + apply Permutation_sym. apply (related_perm _ _ _ _ R). rewrite cell_length, Bb. auto.
Qed.
Lemma fines_verts : forall v, In v (concat fines) <-> v < offset t (S n).
Proof.
  intros v. rewrite in_concat. split.
  - intros (c & Hc & Hv). apply fines_in in Hc as (j & a & Hj & La & ->). apply (in_cget n) in Hv as (b & Lb & <-); [|apply fine_length]. rewrite cget_fine by auto.
    pose proof (lab_range j a (xor b a) Hj La ltac:(rewrite xor_length; auto)) as R. pose proof (bit_sum_le (xor b a)) as B. rewrite xor_length in B. pose proof (offset_mono t (S (bit_sum (xor b a))) (S n) ltac:(lia)). lia.
  - intros Hv. destruct (offset_find (S n) v Hv) as (k & i & Hk & Hi & ->). destruct (element_cell k i ltac:(lia) Hi) as (j & a & b & Hj & La & Lb & Bb & <- & _).
    exists (fine j a). split; [apply fines_in; eauto|]. replace (didx j a b + offset t k) with (cget (fine j a) (xor b a)); [apply (cget_in n); [apply fine_length|rewrite xor_length; auto]|].
    rewrite cget_fine by (rewrite xor_length; auto). rewrite xor_xor. unfold lab. rewrite Bb. auto.
Qed.
Lemma fines_topology : forall row_leb, n <= 7 -> exists s, from_cubes row_leb true n fines = Ok s /\ ctop n fines s /\ n_elements s 0 = offset t (S n).
Proof.
  intros row_leb H7. destruct (from_cubes_cases row_leb n fines Hn fines_ok) as (H1 & _). destruct H1 as (s & E & Ts); auto; [intros; apply fines_match|exists (offset t (S n)); apply fines_verts|].
  exists s. split; auto. split; auto. assert (Q : forall v, v < n_elements s 0 <-> v < offset t (S n)) by (intros; rewrite <- fines_verts, <- (ct_vused _ _ _ Ts); tauto).
  pose proof (proj1 (Q (offset t (S n)))). pose proof (proj2 (Q (n_elements s 0))). lia.
Qed.
End Top.
