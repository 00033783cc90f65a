(** The small cubes at the corners of coarse elements, and the transfer pairs. *)
Require Import List Arith ZArith Bool Lia Permutation Sorting.Sorted.
From Verif Require Import Util CombModel CombSpec CombProofs SimpModel SimpSpec SimpProofs BdryModel BdryProofs SubdModel FundProofs SubProofs SelProps OrientProofs BdryProps ParProofs LevelProofs.
From Verif Require Import CubeModel CubeSpec CubeBits CubeBd CubeRel CubeLevel CubeTop CubeChain CubeGrid COrSpec COrProofs CDomModel CDomBits CDomProofs CDomTop CDomSub CDomOrient CDomSpec.
Import ListNotations.
Local Open Scope nat_scope.

Lemma halves_grid : forall a b, length a = length b -> halves (grid a b) = bit_sum (xor b a).
Proof.
  intros a b L. assert (Q : forall a b, length a = length b -> xor b a = map (fun ab : bool * bool => xorb (snd ab) (fst ab)) (combine a b)).
  { clear. intros a b L. apply (bits_ext (length b)); [apply xor_length|rewrite map_length, combine_length; lia|]. intros i Hi. rewrite nth_xor by auto. rewrite (nth_map_lt _ _ _ _ _ (false, false)) by (rewrite combine_length; lia). rewrite combine_nth by auto. auto. }
  rewrite Q by auto. clear Q. revert b L. induction a as [|x a IH]; intros [|y b] L; try discriminate; [reflexivity|]. injection L as L. unfold halves, grid in *. cbn [combine map fst snd]. rewrite bit_sum_cons. rewrite <- (IH b L). cbn [count_occ]. destruct x, y; cbn [Nat.add xorb nat_of]; destruct (Nat.eq_dec _ 1); try congruence; lia.
Qed.
Lemma nth_grid : forall a b i, i < length a -> length a = length b -> nth i (grid a b) 0 = nat_of (nth i a false) + nat_of (nth i b false).
Proof. intros a b i Hi L. unfold grid. rewrite (nth_map_lt _ _ _ _ _ (false, false)) by (rewrite combine_length; lia). rewrite combine_nth by auto. reflexivity. Qed.
Lemma centred_cell : forall k c a b e, length a = k -> length b = k -> (centred k c (grid a b) e <-> forall v, In v e <-> In v (cell c a (xor b a))).
Proof.
  intros k c a b e La Lb. assert (Q : forall v, In v (cell c a (xor b a)) <-> exists y, length y = k /\ corner c y = v /\ forall i, i < k -> nth i (grid a b) 0 = 1 \/ nth i (grid a b) 0 = 2 * (if nth i y false then 1 else 0)).
  { intros v. rewrite (cell_in k) by (rewrite xor_length; auto). split.
    - intros (y & [Ly A] & <-). exists y. split; auto. split; [symmetry; apply cget_corner|]. intros i Hi. specialize (A i Hi). rewrite nth_xor in A by lia. rewrite nth_grid by lia. destruct (nth i a false), (nth i b false); cbn [nat_of xorb] in *; auto; rewrite A by auto; auto.
    - intros (y & Ly & <- & H). exists y. split; [|apply cget_corner]. split; auto. intros i Hi E. rewrite nth_xor in E by lia. specialize (H i Hi). rewrite nth_grid in H by lia. destruct (nth i a false), (nth i b false), (nth i y false); cbn [nat_of xorb] in *; auto; try discriminate; lia. }
  unfold centred. split; intros H v; rewrite (H v); [symmetry|]; apply Q.
Qed.
Lemma below_offset : forall t k, below t k = offset t k.
Proof. reflexivity. Qed.
Lemma bits_ones : forall k u, length u = k -> bit_sum u = k -> u = repeat true k.
Proof. intros k u L B. rewrite (full_bits u) by lia. f_equal. auto. Qed.
Lemma bits_zeros : forall k u, length u = k -> bit_sum u = 0 -> u = repeat false k.
Proof. intros k u L B. rewrite (empty_bits u) by lia. f_equal. auto. Qed.
Lemma place_zero : forall n m w, length m = n -> length w = n -> bit_sum (place m w (repeat false (bit_sum m))) = 0 -> forall u, length u = bit_sum m -> place m w u = place m (repeat false n) u.
Proof.
  intros n m w Lm Lw B u Lu. apply (bits_ext n); rewrite ?place_length; auto. intros i Hi. rewrite !nth_place by lia. destruct (nth i m false) eqn:E; auto. rewrite nth_repeat_false.
  apply bits_zeros with (k := n) in B; [|rewrite place_length; auto]. apply (f_equal (fun l => nth i l false)) in B. rewrite nth_place, E, nth_repeat_false in B by lia. auto.
Qed.
Lemma bit_sum_place0 : forall n m u, length m = n -> length u = bit_sum m -> bit_sum (place m (repeat false n) u) = bit_sum u.
Proof.
  intros n m u Lm Lu. rewrite bit_sum_place by auto. replace (place m (repeat false n) (repeat false (bit_sum m))) with (repeat false n); [rewrite bit_sum_repeat; cbn [nat_of]; lia|].
  apply (bits_ext n); [apply repeat_length|rewrite place_length; auto|]. intros i Hi. rewrite nth_place, !nth_repeat_false by lia. destruct (nth i m false); auto.
Qed.
Lemma place_place : forall m a u f, length a = length m -> length u = bit_sum m -> place m a (place u (restrict m a) f) = place (place m (repeat false (length m)) u) a f.
Proof.
  induction m as [|[] m IH]; intros a u f La Lu; auto; destruct a as [|x a]; try discriminate; injection La as La; rewrite bit_sum_cons in Lu; cbn [nat_of Nat.add] in Lu.
  - destruct u as [|[] u]; try discriminate; injection Lu as Lu; cbn [length repeat restrict place hd tl]; f_equal; apply (IH a); auto.
  - cbn [length repeat restrict place hd tl]. f_equal. apply (IH a); auto.
Qed.
Lemma cell_cell : forall n c a m u, length a = n -> length m = n -> length u = bit_sum m -> cell (cell c a m) (restrict m a) u = cell c a (place m (repeat false n) u).
Proof.
  intros n c a m u La Lm Lu. unfold cell at 1 3. rewrite (bit_sum_place0 n) by auto. apply cbuild_ext. intros f Lf. rewrite cget_cell by (rewrite place_length; auto). rewrite place_place by lia. rewrite Lm. auto.
Qed.
Lemma filter_le_one : forall (P : nat -> bool) l, NoDup l -> (forall x y, In x l -> In y l -> P x = true -> P y = true -> x = y) -> filter P l = [] \/ exists x, In x l /\ P x = true /\ filter P l = [x].
Proof.
  intros P l ND H. destruct (filter P l) as [|x [|y q]] eqn:E; auto.
  - right. exists x. assert (I : In x (filter P l)) by (rewrite E; left; auto). apply filter_In in I as [I1 I2]. auto.
  - exfalso. assert (Ix : In x (filter P l)) by (rewrite E; left; auto). assert (Iy : In y (filter P l)) by (rewrite E; right; left; auto). apply filter_In in Ix as [I1 I2]. apply filter_In in Iy as [I3 I4].
    assert (x = y) by auto. subst y. pose proof (NoDup_filter P ND) as N. rewrite E in N. apply NoDup_cons_iff in N as [N _]. apply N. left. auto.
Qed.
Lemma filter_nil : forall A (f : A -> bool) l, (forall x, In x l -> f x = false) -> filter f l = [].
Proof. induction l as [|x l IH]; intros H; auto. cbn [filter]. rewrite (H x) by (left; auto). apply IH. intros; apply H; right; auto. Qed.
Lemma filter_map_comm : forall A B (P : B -> bool) (f : A -> B) l, filter P (map f l) = map f (filter (fun x => P (f x)) l).
Proof. induction l as [|x l IH]; auto. cbn [map filter]. destruct (P (f x)); cbn [map]; rewrite IH; auto. Qed.

Section Tr.
Variables (n : nat) (rows : list cube) (t s : topology).
Hypothesis Hn : 1 <= n.
Hypothesis OK : cubes_ok n rows.
Hypothesis T : ctop n rows t.
Hypothesis FM : forall k, 1 <= k < n -> faces_match k n rows.
Notation row j := (nth j rows []).
Notation lab := (lab n rows t).
Notation didx := (didx n rows t).
Notation fine := (fine n rows t).
Notation fines := (fines n rows t).
Notation norm := (norm n rows t).
Notation LL := (LL t).
Notation sub := (sub t).
Hypothesis Ts : ctop n fines s.

(** The small cube at corner [w] of element [i] of dimension [k]. *)
Definition psub (k i : nat) (w : bits) : cube :=
  cbuild k (fun b => let q := xor b w in if bit_sum q =? k then i + offset t k else LL (bit_sum q) (cell (el t k i) w q)).
Lemma el_ok : forall k i, k <= n -> i < n_elements t k -> length (el t k i) = 2 ^ k /\ NoDup (el t k i).
Proof. intros k i Hk Hi. apply (c_len n rows t Hn T); auto. apply nth_In. auto. Qed.
Lemma el_s_ok : forall k r, k <= n -> r < n_elements s k -> length (el s k r) = 2 ^ k /\ NoDup (el s k r).
Proof. intros k r Hk Hr. apply (c_len n fines s Hn Ts); auto. apply nth_In. auto. Qed.
Lemma el_inside : forall k i, k <= n -> i < n_elements t k -> inside n rows k (el t k i).
Proof.
  intros k i Hk Hi. destruct (element_cell n rows t Hn OK T k i Hk Hi) as (j & a & b & Hj & La & Lb & Bb & Ed & z & R). exists (row j). split; [apply nth_In; auto|]. destruct (row_ok' n rows OK j Hj) as [L _].
  exists (cell (row j) a b). rewrite <- Bb at 1. split; [apply cell_subcube; auto|]. apply (related_perm _ _ _ _ R). rewrite cell_length, Bb. auto.
Qed.
Lemma el_cell_inside : forall k i w q, k <= n -> i < n_elements t k -> length w = k -> length q = k -> inside n rows (bit_sum q) (cell (el t k i) w q).
Proof.
  intros k i w q Hk Hi Lw Lq. destruct (element_cell n rows t Hn OK T k i Hk Hi) as (j & a & b & Hj & La & Lb & Bb & Ed & z & R). destruct (row_ok' n rows OK j Hj) as [L _]. destruct (el_ok k i Hk Hi) as [Le Ne].
  assert (S : subcube (bit_sum q) k (el t k i) (cell (el t k i) w q)) by (apply cell_subcube; auto).
  assert (LC : length (cell (row j) a b) = 2 ^ k) by (rewrite cell_length, Bb; auto).
  destruct (subcube_related _ _ _ _ _ _ R LC S) as (g & z' & Sg & Rg). exists (row j). split; [apply nth_In; auto|]. exists g. split.
  - clear - Sg L La Lb Bb. destruct (subcube_cell _ _ _ _ Sg) as (a' & b' & La' & Lb' & B' & ->); [rewrite cell_length, Bb; auto|].
    assert (X : exists a'' b'', length a'' = n /\ length b'' = n /\ bit_sum b'' = bit_sum q /\ cell (cell (row j) a b) a' b' = cell (row j) a'' b'').
    { exists (place b a a'), (place b (repeat false n) b'). rewrite !place_length. repeat split; auto; [rewrite (bit_sum_place0 n) by lia; auto|]. rewrite <- (cell_cell n) by (rewrite ?place_length; lia). rewrite restrict_place by lia. f_equal.
      unfold cell. apply cbuild_ext. intros f Lf. f_equal. apply (bits_ext n); rewrite ?place_length; auto. intros i Hi. rewrite !nth_place by lia. destruct (nth i b false); auto. }
    destruct X as (a'' & b'' & La'' & Lb'' & B'' & ->). rewrite <- B''. apply cell_subcube; auto.
  - apply (related_perm _ _ _ _ Rg). apply (subcube_length _ _ _ _ Sg). auto.
Qed.
Lemma psub_length : forall k i w, length (psub k i w) = 2 ^ k.
Proof. intros. apply cbuild_length. Qed.
Lemma psub_part : forall k i w, k <= n -> i < n_elements t k -> length w = k -> part t k i w (psub k i w).
Proof.
  intros k i w Hk Hi Lw. split; [apply psub_length|]. intros b Lb. rewrite <- cget_corner. unfold psub. rewrite cget_build by auto. cbv zeta. rewrite halves_grid by lia. set (q := xor b w). assert (Lq : length q = k) by (unfold q; rewrite xor_length; auto).
  destruct (el_ok k i Hk Hi) as [Le Ne]. pose proof (bit_sum_le q) as Bq. destruct (Nat.eqb_spec (bit_sum q) k) as [E|E].
  - exists i. change below with offset. rewrite E. split; auto. split; [lia|]. split; auto. fold (el t k i). apply centred_cell; auto. fold q. rewrite (cell_full k) by auto. tauto.
  - destruct (eidx_ok n rows t Hn OK T (bit_sum q) (cell (el t k i) w q) ltac:(lia) (el_cell_inside k i w q Hk Hi Lw Lq)) as [E1 E2].
    exists (eidx t (bit_sum q) (cell (el t k i) w q)). split; auto. split; [change below with offset; unfold CDomOrient.LL; lia|]. split; [intros; lia|]. apply centred_cell; auto. fold q. intros v. split; apply Permutation_in; [exact E2|apply Permutation_sym; exact E2].
Qed.
Lemma psub_sub : forall k i w, k < n -> i < n_elements t k -> length w = k -> psub k i w = sub k (el t k i) w.
Proof.
  intros k i w Hk Hi Lw. destruct (el_ok k i ltac:(lia) Hi) as [Le Ne]. unfold psub, CDomOrient.sub. apply cbuild_ext. intros b Lb. cbv zeta. destruct (Nat.eqb_spec (bit_sum (xor b w)) k) as [E|]; auto. rewrite E. rewrite (cell_full k) by (auto; rewrite xor_length; auto).
  unfold CDomOrient.LL. f_equal. apply (eidx_unique n rows t Hn OK T); auto. apply el_inside; auto. lia.
Qed.
Lemma psub_top : forall j a, j < length rows -> length a = n -> psub n j a = fine j a.
Proof.
  intros j a Hj La. unfold psub, CDomSub.fine. apply cbuild_ext. intros b Lb. cbv zeta. unfold CDomSub.lab, CDomTop.didx. destruct (Nat.eqb_spec (bit_sum (xor b a)) n) as [E|E]; [rewrite E; auto|]. unfold CDomOrient.LL, el. rewrite (ct_top _ _ _ T). auto.
Qed.
(** The parts are determined. *)
Lemma part_unique : forall k i w g, k <= n -> i < n_elements t k -> length w = k -> part t k i w g -> g = psub k i w.
Proof.
  intros k i w g Hk Hi Lw [Lg P]. apply (cube_ext k); auto; [apply psub_length|]. intros b Lb. destruct (P b Lb) as (e & He & Eg & Et & C). destruct (psub_part k i w Hk Hi Lw) as [_ P']. destruct (P' b Lb) as (e' & He' & Eg' & Et' & C'). rewrite !cget_corner, Eg, Eg'. f_equal.
  rewrite halves_grid in * by lia. pose proof (bit_sum_le (xor b w)) as B. rewrite xor_length in B. destruct (Nat.eq_dec (bit_sum (xor b w)) k) as [E|E]; [rewrite Et, Et'; auto|].
  apply (c_distinct n rows t T (bit_sum (xor b w))); auto; try lia. destruct (el_ok (bit_sum (xor b w)) e ltac:(lia) He) as [_ N]. destruct (el_ok (bit_sum (xor b w)) e' ltac:(lia) He') as [_ N'].
  apply NoDup_Permutation; auto. intros v. rewrite (C v), (C' v). tauto.
Qed.

(** A face of a fine cube that touches a coarse vertex is the small cube of the coarse element spanned by its axes. *)
Lemma cell_related_el : forall j a m, j < length rows -> length a = n -> length m = n -> bit_sum m < n -> exists z, related (bit_sum m) z (el t (bit_sum m) (didx j a m)) (cell (row j) a m).
Proof.
  intros j a m Hj La Lm Hm. set (k := bit_sum m) in *. destruct (row_ok' n rows OK j Hj) as [L ND]. pose proof (didx_lt n rows t Hn OK T j a m Hj La Lm) as Hd. fold k in Hd.
  destruct (c_listed n rows t Hn T (n - k) k ltac:(lia)) as [_ H]. destruct (H (row j) (cell (row j) a m)) as (i & z & Hi & R); [apply nth_In; auto|apply cell_subcube; auto|].
  assert (E : i = didx j a m).
  { unfold CDomTop.didx. fold k. destruct (Nat.eqb_spec k n); [lia|]. apply (eidx_unique n rows t Hn OK T); auto; [apply (cell_inside n rows OK); auto; apply nth_In; auto|]. apply Permutation_sym. apply (related_perm _ _ _ _ R). apply cell_length. }
  exists z. rewrite <- E. apply related_sym; auto. apply cell_length.
Qed.
Lemma norm0_related : forall j a m, j < length rows -> length a = n -> length m = n -> exists w z, length w = bit_sum m /\ related (bit_sum m) z (psub (bit_sum m) (didx j a m) w) (norm j a m (repeat false n)) /\
  cget (el t (bit_sum m) (didx j a m)) w = cget (row j) a.
Proof.
  intros j a m Hj La Lm. set (k := bit_sum m). assert (Kn : k <= n) by (unfold k; rewrite <- Lm; apply bit_sum_le). destruct (row_ok' n rows OK j Hj) as [L ND]. pose proof (didx_lt n rows t Hn OK T j a m Hj La Lm) as Hd. fold k in Hd.
  destruct (Nat.eq_dec k n) as [Ek|Ek].
  - assert (Ej : didx j a m = j) by (unfold CDomTop.didx; fold k; rewrite Ek, Nat.eqb_refl; auto). exists a. rewrite Ek, Ej. rewrite psub_top by auto.
    destruct (related_flips n a (fine j a)) as [z R]; [lia|apply fine_length|]. exists z. split; auto. split; [|unfold el; rewrite (ct_top _ _ _ T); auto].
    replace (norm j a m (repeat false n)) with (flips n a (fine j a)); auto. apply (cube_ext n); [apply flips_length, fine_length|unfold CDomSub.norm; rewrite cbuild_length; fold k; congruence|].
    intros b Lb. rewrite (flips_get n) by (rewrite ?fine_length; auto; lia). rewrite cget_fine by (rewrite xor_length; auto). rewrite xor_xor. rewrite cget_norm by (fold k; lia). rewrite place_full by (fold k; lia). auto.
  - assert (Hkn : k < n) by lia. destruct (cell_related_el j a m Hj La Lm Hkn) as [z R]. fold k in R. set (C := el t k (didx j a m)) in *. set (D := cell (row j) a m) in *. destruct (el_ok k (didx j a m) Kn Hd) as [LC NC]. fold C in LC, NC.
    assert (Lr : length (restrict m a) = k) by (rewrite restrict_length; [auto|lia]). destruct (sub_related n t Hn k z C D R LC NC (restrict m a) Lr) as (w & Lw & Ew & R').
    destruct (related_flips k (restrict m a) (sub k D (restrict m a))) as [z' R2]; [lia|apply sub_length|]. exists w, (z * z')%Z. split; auto. split.
    + rewrite psub_sub by auto. eapply related_trans; [exact R'|]. replace (norm j a m (repeat false n)) with (flips k (restrict m a) (sub k D (restrict m a))); auto. apply (cube_ext k); [apply flips_length, sub_length|apply norm_length|].
      intros u Lu. rewrite (flips_get k) by (rewrite ?sub_length; auto; lia). rewrite cget_sub by (rewrite xor_length; auto). rewrite xor_xor. rewrite cget_norm by auto. unfold D. rewrite (cell_cell n) by auto. assert (B : bit_sum (place m (repeat false n) u) = bit_sum u) by (apply bit_sum_place0; auto).
      rewrite (lab_low n rows t Hn) by (rewrite B; pose proof (bit_sum_le u); lia). rewrite B. auto.
    + rewrite Ew. unfold D. rewrite cget_cell by auto. rewrite (place_agree n) by (auto; split; auto). auto.
Qed.
(** A fine element as a face of a fine cube. *)
Lemma fine_element : forall k r, k <= n -> r < n_elements s k -> exists j a m w z, j < length rows /\ length a = n /\ length m = n /\ length w = n /\ bit_sum m = k /\ related k z (norm j a m w) (el s k r).
Proof.
  intros k r Hk Hr. assert (X : exists c g z, In c fines /\ subcube k n c g /\ related k z g (el s k r)).
  { destruct (Nat.eq_dec k n) as [->|Ek]; [|apply (c_listed n fines s Hn Ts (n - k) k ltac:(lia)); auto]. exists (el s n r), (el s n r), 1%Z. split; [|split; constructor]. unfold el. rewrite <- (ct_top _ _ _ Ts). apply nth_In. auto. }
  destruct X as (c & g & z & Hc & S & R). apply (fines_in n rows t Hn) in Hc as (j & a & Hj & La & ->). destruct (face_norm n rows t Hn j a k g Hj La S) as (m & w & z' & Lm & Lw & Bm & R'). exists j, a, m, w, (z' * z)%Z. repeat split; auto.
  eapply related_trans; [|exact R]. apply related_sym; auto. apply (subcube_length _ _ _ _ S). apply fine_length.
Qed.
Lemma norm_in : forall j a m w v, In v (norm j a m w) <-> exists u, length u = bit_sum m /\ v = lab j a (place m w u).
Proof.
  intros j a m w v. split.
  - intros H. apply (in_cget (bit_sum m)) in H as (u & Lu & <-); [|apply norm_length]. exists u. rewrite cget_norm by auto. auto.
  - intros (u & Lu & ->). rewrite <- cget_norm by auto. apply (cget_in (bit_sum m)); auto. apply norm_length.
Qed.

Lemma order_of : forall d e, d <= n -> e < n_elements t d -> vertex_order t (e + offset t d) = d /\ vertex_parent t (e + offset t d) = e.
Proof.
  intros d e Hd He. assert (E : vertex_order t (e + offset t d) = d).
  { unfold vertex_order. rewrite (dim_t n rows t T). assert (Q : filter (fun k => offset t k <=? e + offset t d) (seq 1 (S n)) = seq 1 d).
    { replace (S n) with (d + (S n - d)) by lia. rewrite seq_app, filter_app.
      replace (filter (fun k => offset t k <=? e + offset t d) (seq (1 + d) (S n - d))) with (@nil nat); [rewrite app_nil_r|].
      - apply CombProofs.filter_id. intros k Hk. apply in_seq in Hk. apply Nat.leb_le. pose proof (offset_mono t k d ltac:(lia)). lia.
      - symmetry. apply filter_nil. intros k Hk. apply in_seq in Hk. apply Nat.leb_gt. pose proof (offset_mono t (S d) k ltac:(lia)). rewrite offset_S in H. lia. }
    rewrite Q, seq_length. auto. }
  split; auto. unfold vertex_parent. rewrite E. lia.
Qed.
Lemma order_lab : forall j a b, j < length rows -> length a = n -> length b = n -> vertex_order t (lab j a b) = bit_sum b /\ vertex_parent t (lab j a b) = didx j a b.
Proof. intros j a b Hj La Lb. unfold CDomSub.lab. apply order_of; [rewrite <- Lb; apply bit_sum_le|apply didx_lt; auto]. Qed.

(** A fine element of dimension [k] that contains a coarse vertex, and the coarse element it is a part of. *)
Definition hitb (k r : nat) : bool := existsb (fun v => v <? n_elements t 0) (el s k r).
Definition topp (k r : nat) : nat := hd 0 (map (vertex_parent t) (filter (fun v => vertex_order t v =? k) (el s k r))).
Lemma hitb_iff : forall k r, hitb k r = true <-> exists v, In v (el s k r) /\ v < n_elements t 0.
Proof. intros k r. unfold hitb. rewrite existsb_exists. split; intros (v & Hv & E); exists v; split; auto; apply Nat.ltb_lt; auto. Qed.
Lemma offset_1 : offset t 1 = n_elements t 0.
Proof. unfold offset. cbn [seq map list_sum fold_right]. lia. Qed.
Lemma lab_small : forall j a b, j < length rows -> length a = n -> length b = n -> (lab j a b < n_elements t 0 <-> bit_sum b = 0).
Proof.
  intros j a b Hj La Lb. pose proof (lab_range n rows t Hn OK T j a b Hj La Lb) as R. rewrite <- offset_1. destruct (Nat.eq_dec (bit_sum b) 0) as [E|E].
  - rewrite E in R. split; auto. lia.
  - pose proof (offset_mono t 1 (bit_sum b) ltac:(lia)). split; lia.
Qed.
Lemma order_zero : forall j a b, j < length rows -> length a = n -> length b = n -> ((vertex_order t (lab j a b) =? 0) = (lab j a b <? n_elements t 0)).
Proof. intros j a b Hj La Lb. rewrite (proj1 (order_lab j a b Hj La Lb)). apply eq_iff_eq_true. rewrite Nat.eqb_eq, Nat.ltb_lt. symmetry. apply lab_small; auto. Qed.
Lemma hit_element : forall k r, k <= n -> r < n_elements s k -> hitb k r = true ->
  exists j a m, j < length rows /\ length a = n /\ length m = n /\ bit_sum m = k /\ topp k r = didx j a m /\ filter (fun v => vertex_order t v =? k) (el s k r) = [lab j a m] /\
    (exists z, related k z (norm j a m (repeat false n)) (el s k r)) /\ forall v, In v (el s k r) -> v < n_elements t 0 -> v = lab j a (repeat false n).
Proof.
  intros k r Hk Hr Hh. destruct (fine_element k r Hk Hr) as (j & a & m & w & z & Hj & La & Lm & Lw & Bm & R). destruct (el_s_ok k r Hk Hr) as [Le Ne].
  assert (P : Permutation (norm j a m w) (el s k r)) by (apply (related_perm _ _ _ _ R); rewrite norm_length, Bm; auto).
  assert (IN : forall v, In v (el s k r) <-> exists u, length u = bit_sum m /\ v = lab j a (place m w u)). { intros v. rewrite <- norm_in. split; apply Permutation_in; auto. apply Permutation_sym. auto. }
  assert (PL : forall u, length (place m w u) = n) by (intros; rewrite place_length; auto).
  apply hitb_iff in Hh as (v & Hv & Sv). apply IN in Hv as (u & Lu & ->). apply lab_small in Sv; auto. rewrite bit_sum_place in Sv by auto.
  assert (B0 : bit_sum (place m w (repeat false (bit_sum m))) = 0) by lia.
  assert (W0 : forall u, length u = bit_sum m -> place m w u = place m (repeat false n) u) by (apply (place_zero n); auto).
  assert (N0 : norm j a m w = norm j a m (repeat false n)). { apply cbuild_ext. intros u' Lu'. rewrite W0 by auto. auto. }
  assert (L1 : length (repeat true k) = bit_sum m) by (rewrite repeat_length; auto).
  assert (Eone : place m (repeat false n) (repeat true k) = m). { apply (bits_ext n); rewrite ?place_length; auto. intros i Hi. rewrite nth_place by lia. destruct (nth i m false) eqn:E; [|apply nth_repeat_false]. apply nth_repeat_true. rewrite <- Bm. apply rank_lt; auto. lia. }
  assert (F : filter (fun v => vertex_order t v =? k) (el s k r) = [lab j a m]).
  { destruct (filter_le_one (fun v => vertex_order t v =? k) (el s k r) Ne) as [E|(x & Hx & Px & E)].
    - intros x y Hx Hy Px Py. apply IN in Hx as (u1 & Lu1 & ->). apply IN in Hy as (u2 & Lu2 & ->). rewrite (proj1 (order_lab j a _ Hj La (PL _))) in Px. rewrite (proj1 (order_lab j a _ Hj La (PL _))) in Py. apply Nat.eqb_eq in Px, Py. rewrite W0, (bit_sum_place0 n) in Px, Py by auto.
      rewrite (bits_ones k u1), (bits_ones k u2) by lia. auto.
    - exfalso. assert (I : In (lab j a m) (filter (fun v => vertex_order t v =? k) (el s k r))); [|rewrite E in I; destruct I]. apply filter_In. split; [apply IN; exists (repeat true k); rewrite W0, Eone by auto; auto|]. rewrite (proj1 (order_lab j a m Hj La Lm)), Bm. apply Nat.eqb_refl.
    - rewrite E. f_equal. apply IN in Hx as (u1 & Lu1 & ->). rewrite (proj1 (order_lab j a _ Hj La (PL _))) in Px. apply Nat.eqb_eq in Px. rewrite W0, (bit_sum_place0 n) in Px by auto. rewrite (bits_ones k u1) by lia. rewrite W0, Eone by auto. auto. }
  exists j, a, m. split; auto. split; auto. split; auto. split; auto. split; [unfold topp; rewrite F; cbn [map hd]; apply order_lab; auto|]. split; auto. split; [exists z; rewrite <- N0; auto|].
  intros x Hx Sx. apply IN in Hx as (u1 & Lu1 & ->). apply lab_small in Sx; auto. f_equal. apply bits_zeros; auto.
Qed.
Lemma level_ok : forall k, k <= n ->
  level_transfer k (map (map (vertex_order t)) (nth k (elements s) [])) (map (map (vertex_parent t)) (nth k (elements s) [])) = (filter (hitb k) (seq 0 (n_elements s k)), map (topp k) (filter (hitb k) (seq 0 (n_elements s k)))).
Proof.
  intros k Hk. unfold level_transfer. rewrite map_length. fold (n_elements s k).
  assert (No : forall r, r < n_elements s k -> nth r (map (map (vertex_order t)) (nth k (elements s) [])) [] = map (vertex_order t) (el s k r)) by (intros; rewrite (nth_map_lt _ _ _ _ _ []) by auto; auto).
  assert (Np : forall r, r < n_elements s k -> nth r (map (map (vertex_parent t)) (nth k (elements s) [])) [] = map (vertex_parent t) (el s k r)) by (intros; rewrite (nth_map_lt _ _ _ _ _ []) by auto; auto).
  assert (F : flat_map (fun r => repeat r (length (filter (Nat.eqb 0) (nth r (map (map (vertex_order t)) (nth k (elements s) [])) [])))) (seq 0 (n_elements s k)) = filter (hitb k) (seq 0 (n_elements s k))).
  { assert (Q : forall l, (forall r, In r l -> r < n_elements s k) -> flat_map (fun r => repeat r (length (filter (Nat.eqb 0) (nth r (map (map (vertex_order t)) (nth k (elements s) [])) [])))) l = filter (hitb k) l).
    { induction l as [|r l IH]; intros H; auto. assert (Hr : r < n_elements s k) by (apply H; left; auto). cbn [flat_map filter]. rewrite IH by (intros; apply H; right; auto). rewrite No by auto. rewrite filter_map_comm, map_length.
      destruct (fine_element k r Hk Hr) as (j & a & m & w & z & Hj & La & Lm & Lw & Bm & R). destruct (el_s_ok k r Hk Hr) as [Le Ne].
      assert (P : Permutation (norm j a m w) (el s k r)) by (apply (related_perm _ _ _ _ R); rewrite norm_length, Bm; auto).
      assert (E0 : filter (fun x => 0 =? vertex_order t x) (el s k r) = filter (fun v => v <? n_elements t 0) (el s k r)).
      { apply filter_ext_in. intros v Hv. apply (Permutation_in _ (Permutation_sym P)) in Hv. apply norm_in in Hv as (u & Lu & ->). rewrite Nat.eqb_sym. apply order_zero; auto. rewrite place_length; auto. }
      rewrite E0. destruct (hitb k r) eqn:Eh.
      - destruct (hit_element k r Hk Hr Eh) as (j' & a' & m' & _ & _ & _ & _ & _ & _ & _ & U). apply hitb_iff in Eh as (v & Hv & Sv).
        destruct (filter_le_one (fun v => v <? n_elements t 0) (el s k r) Ne) as [E|(x & Hx & Px & E)].
        + intros x y Hx Hy Px Py. apply Nat.ltb_lt in Px, Py. rewrite (U x Hx Px), (U y Hy Py). auto.
        + exfalso. assert (I : In v (filter (fun v => v <? n_elements t 0) (el s k r))) by (apply filter_In; split; auto; apply Nat.ltb_lt; auto). rewrite E in I. destruct I.
        + rewrite E. reflexivity.
      - rewrite filter_nil; auto. intros v Hv. apply Nat.ltb_ge. destruct (le_lt_dec (n_elements t 0) v) as [|Q]; auto. exfalso. assert (X : hitb k r = true) by (apply hitb_iff; eauto). congruence. }
    apply Q. intros r Hr. apply in_seq in Hr. lia. }
  rewrite F. f_equal.
  assert (Q : forall l, (forall r, In r l -> r < n_elements s k /\ hitb k r = true) -> flat_map (fun r => map snd (filter (fun op => fst op =? k) (combine (nth r (map (map (vertex_order t)) (nth k (elements s) [])) []) (nth r (map (map (vertex_parent t)) (nth k (elements s) [])) [])))) l = map (topp k) l).
  { induction l as [|r l IH]; intros H; auto. destruct (H r) as [Hr Eh]; [left; auto|]. cbn [flat_map map]. rewrite IH by (intros; apply H; right; auto). rewrite No, Np by auto. rewrite combine_maps, filter_map_comm, map_map. cbn [fst snd].
    destruct (hit_element k r Hk Hr Eh) as (j & a & m & Hj & La & Lm & Bm & Et & Ef & _). rewrite Ef. cbn [map app]. rewrite Et. rewrite (proj2 (order_lab j a m Hj La Lm)). auto. }
  apply Q. intros r Hr. apply filter_In in Hr as [Hr Eh]. apply in_seq in Hr. split; auto. lia.
Qed.
Lemma transfers_ok : subdivide_cubical_transfers t s = map (fun k => (filter (hitb k) (seq 0 (n_elements s k)), map (topp k) (filter (hitb k) (seq 0 (n_elements s k))))) (seq 0 (S n)).
Proof.
  unfold subdivide_cubical_transfers, subdivide_cubical_relations. rewrite map_length, (ct_lenE _ _ _ Ts).
  rewrite combine_maps. assert (E : elements s = map (fun k => nth k (elements s) []) (seq 0 (S n))) by (rewrite <- (ct_lenE _ _ _ Ts); symmetry; apply map_nth_seq). rewrite E at 1. rewrite map_map.
  assert (Q : forall (f : nat -> list (list nat) * list (list nat)) l, combine l (map f l) = map (fun k => (k, f k)) l) by (intros f l; induction l; auto; cbn [map combine]; f_equal; auto).
  rewrite Q, map_map. apply map_ext_in. intros k Hk. apply in_seq in Hk. cbn [fst snd]. apply level_ok. lia.
Qed.
End Tr.
