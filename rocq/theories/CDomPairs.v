(** Which fine and coarse elements the transfers relate. *)
Require Import List Arith ZArith Bool Lia Permutation Sorting.Sorted.
From Verif Require Import Util CombModel CombSpec CombProofs SimpModel SimpSpec SimpProofs BdryModel BdryProofs SubdModel FundProofs SubProofs SelProps OrientProofs BdryProps ParProofs LevelProofs BaryProofs LoopTransfer.
From Verif Require Import CubeModel CubeSpec CubeBits CubeBd CubeRel CubeLevel CubeTop CubeChain CubeGrid COrSpec COrProofs CDomModel CDomBits CDomProofs CDomTop CDomSub CDomOrient CDomSpec CDomTrans.
Import ListNotations.
Local Open Scope nat_scope.

Lemma in_combine_map : forall (f : nat -> nat) l r i, In (r, i) (combine l (map f l)) <-> In r l /\ i = f r.
Proof.
  intros f l r i. induction l as [|x l IH]; [simpl; tauto|]. cbn [map combine]. split.
  - intros [E|H]; [injection E as <- <-; split; [left|]; auto|]. apply IH in H as [H ->]. split; [right|]; auto.
  - intros [[->|H] ->]; [left; auto|right; apply IH; auto].
Qed.

Lemma nth_repeat_b : forall (b : bool) m i, i < m -> nth i (repeat b m) false = b.
Proof. intros b m. induction m as [|m IH]; intros i Hi; [lia|]. destruct i; cbn [repeat nth]; auto. apply IH. lia. Qed.
Lemma xor_self : forall n a, length a = n -> xor a a = repeat false n.
Proof. intros n a La. apply (bits_ext n); [rewrite xor_length; auto|apply repeat_length|]. intros i Hi. rewrite nth_xor, nth_repeat_b by lia. apply xorb_nilpotent. Qed.
Lemma bit_sum_const : forall b m, bit_sum (repeat b m) = m * nat_of b.
Proof. intros b m. induction m as [|m IH]; auto. cbn [repeat Nat.mul]. rewrite bit_sum_cons, IH. auto. Qed.
Section Pairs.
Variables (n : nat) (rows : list cube) (t s : topology).
Hypothesis Hn : 1 <= n.
Hypothesis OK : cubes_ok n rows.
Hypothesis T : ctop n rows t.
Hypothesis FM : forall k, 1 <= k < n -> faces_match k n rows.
Notation row j := (nth j rows []).
Notation lab := (lab n rows t).
Notation didx := (didx n rows t).
Notation fine := (fine n rows t).
Notation fines := (fines n rows t).
Notation norm := (norm n rows t).
Notation psub := (psub t).
Notation hitb := (hitb t s).
Notation topp := (topp t s).
Hypothesis Ts : ctop n fines s.

Definition hits (k : nat) : list nat := filter (hitb k) (seq 0 (n_elements s k)).
Lemma hits_in : forall k r, In r (hits k) <-> r < n_elements s k /\ exists v, In v (el s k r) /\ v < n_elements t 0.
Proof. intros k r. unfold hits. rewrite filter_In, in_seq, hitb_iff. split; intros [H1 H2]; split; auto; lia. Qed.
Lemma hits_sorted : forall k, StronglySorted lt (hits k).
Proof. intros k. apply StronglySorted_filter. apply seq_sorted. Qed.
Lemma el_zero : forall v, v < n_elements t 0 -> el t 0 v = [v].
Proof. intros v Hv. unfold el. rewrite (ct_verts _ _ _ T). rewrite (nth_map_lt _ _ _ _ _ 0) by (rewrite seq_length; auto). rewrite seq_nth by auto. auto. Qed.
Lemma row_vertex : forall j a, j < length rows -> length a = n -> cget (row j) a < n_elements t 0.
Proof.
  intros j a Hj La. apply (ct_vused _ _ _ T). apply in_concat. exists (row j). split; [apply nth_In; auto|]. destruct (row_ok' n rows OK j Hj) as [L _]. apply (cget_in n); auto.
Qed.
Lemma lab_vertex : forall j a, j < length rows -> length a = n -> lab j a (repeat false n) = cget (row j) a.
Proof.
  intros j a Hj La. unfold CDomSub.lab, CDomTop.didx. assert (B : bit_sum (repeat false n) = 0) by (rewrite bit_sum_const; auto). rewrite B. destruct (Nat.eqb_spec 0 n); [lia|]. unfold offset. cbn [seq map list_sum fold_right]. rewrite Nat.add_0_r.
  rewrite (cell_zero n) by auto. symmetry. pose proof (row_vertex j a Hj La) as Hv. apply (eidx_unique n rows t Hn OK T); auto; [|rewrite el_zero by auto; apply Permutation_refl].
  pose proof (cell_inside n rows OK (row j) a (repeat false n)) as C. rewrite B, (cell_zero n) in C by auto. apply C; auto; [apply nth_In; auto|apply repeat_length].
Qed.
Lemma el_vertex : forall k i v, k <= n -> i < n_elements t k -> In v (el t k i) -> v < n_elements t 0.
Proof.
  intros k i v Hk Hi Hv. destruct (element_cell n rows t Hn OK T k i Hk Hi) as (j & a & b & Hj & La & Lb & Bb & Ed & z & R). assert (I : In v (cell (row j) a b)) by (apply (Permutation_in _ (Permutation_sym (related_perm _ _ _ _ R ltac:(rewrite cell_length, Bb; auto)))); auto).
  apply (cell_in n) in I as (y & [Ly _] & <-); auto. apply row_vertex; auto.
Qed.

(** A paired fine element is a part of its coarse element; its only coarse vertex is a corner of that element. *)
Lemma hit_part : forall k r, k <= n -> In r (hits k) -> topp k r < n_elements t k /\
  exists w z, length w = k /\ related k z (psub k (topp k r) w) (el s k r) /\ forall v, In v (el s k r) -> (v < n_elements t 0 <-> v = cget (el t k (topp k r)) w).
Proof.
  intros k r Hk Hr. pose proof Hr as Hr'. apply hits_in in Hr as [Hr (v & Hv & Sv)]. unfold hits in Hr'. apply filter_In in Hr' as [_ Eh].
  destruct (hit_element n rows t s Hn OK T Ts k r Hk Hr Eh) as (j & a & m & Hj & La & Lm & Bm & Et & Ef & (z & R) & U). rewrite Et. split; [rewrite <- Bm; apply didx_lt; auto|].
  destruct (norm0_related n rows t Hn OK T j a m Hj La Lm) as (w & z' & Lw & R' & Ew). rewrite Bm in *. exists w, (z' * z)%Z. split; auto. split; [eapply related_trans; eauto|].
  intros x Hx. rewrite Ew. split; [intros Sx; rewrite (U x Hx Sx); apply lab_vertex; auto|intros ->; apply row_vertex; auto].
Qed.
(** The number of the coarse element is stored in the fine element. *)
Lemma hit_label : forall k r i, k <= n -> In r (hits k) -> i < n_elements t k -> (In (offset t k + i) (el s k r) <-> i = topp k r).
Proof.
  intros k r i Hk Hr Hi. pose proof Hr as Hr'. apply hits_in in Hr as [Hr (v & Hv & Sv)]. unfold hits in Hr'. apply filter_In in Hr' as [_ Eh].
  destruct (hit_element n rows t s Hn OK T Ts k r Hk Hr Eh) as (j & a & m & Hj & La & Lm & Bm & Et & Ef & _). rewrite Et. split.
  - intros H. assert (I : In (offset t k + i) (filter (fun v => vertex_order t v =? k) (el s k r))). { apply filter_In. split; auto. rewrite Nat.add_comm. rewrite (proj1 (order_of n rows t Hn T k i Hk Hi)). apply Nat.eqb_refl. }
    rewrite Ef in I. destruct I as [I|[]]. unfold CDomSub.lab in I. rewrite Bm in I. lia.
  - intros ->. assert (I : In (lab j a m) (filter (fun v => vertex_order t v =? k) (el s k r))) by (rewrite Ef; left; auto). apply filter_In in I as [I _]. unfold CDomSub.lab in I. rewrite Bm in I. rewrite Nat.add_comm. auto.
Qed.
Lemma fine_of_row : forall r, r < n_elements s n -> exists j a, j < length rows /\ length a = n /\ r = fnum n j a /\ el s n r = fine j a.
Proof.
  intros r Hr. unfold n_elements in Hr. rewrite (ct_top _ _ _ Ts) in Hr. destruct (fnum_onto n rows t Hn r Hr) as (j & a & Hj & La & ->). exists j, a. repeat split; auto. unfold el. rewrite (ct_top _ _ _ Ts). apply fnum_nth; auto.
Qed.
Lemma topp_fine : forall j a, j < length rows -> length a = n -> In (fnum n j a) (hits n) /\ topp n (fnum n j a) = j.
Proof.
  intros j a Hj La. assert (Hr : fnum n j a < n_elements s n) by (unfold n_elements; rewrite (ct_top _ _ _ Ts); apply fnum_lt; auto). assert (E : el s n (fnum n j a) = fine j a) by (unfold el; rewrite (ct_top _ _ _ Ts); apply fnum_nth; auto).
  assert (Hin : In (fnum n j a) (hits n)). { apply hits_in. split; auto. exists (cget (row j) a). split; [|apply row_vertex; auto]. rewrite E. rewrite <- lab_vertex by auto. replace (lab j a (repeat false n)) with (cget (fine j a) a); [apply (cget_in n); auto; apply fine_length|].
    rewrite cget_fine by auto. f_equal. apply xor_self; auto. }
  split; auto. assert (Hj' : j < n_elements t n) by (unfold n_elements; rewrite (ct_top _ _ _ T); auto). symmetry. apply (hit_label n _ j (le_n n) Hin Hj'). rewrite E. replace (offset t n + j) with (cget (fine j a) (xor (repeat true n) a)); [apply (cget_in n); [apply fine_length|rewrite xor_length, repeat_length; auto]|].
  rewrite cget_fine by (rewrite xor_length, repeat_length; auto). rewrite xor_xor. unfold CDomSub.lab, CDomTop.didx. assert (B : bit_sum (repeat true n) = n) by (rewrite bit_sum_const; simpl; lia). rewrite B, Nat.eqb_refl. lia.
Qed.
(** Every corner of a coarse element has its fine element. *)
Lemma hit_exists : forall k i w, k <= n -> i < n_elements t k -> length w = k -> exists r z, In r (hits k) /\ topp k r = i /\ related k z (psub k i w) (el s k r).
Proof.
  intros k i w Hk Hi Lw. destruct (Nat.eq_dec k n) as [->|Ek].
  - assert (Hj : i < length rows) by (unfold n_elements in Hi; rewrite (ct_top _ _ _ T) in Hi; auto). destruct (topp_fine i w Hj Lw) as [H1 H2]. exists (fnum n i w), 1%Z. repeat split; auto. rewrite (psub_top n rows t T) by auto. unfold el. rewrite (ct_top _ _ _ Ts), fnum_nth by auto. constructor.
  - destruct (element_cell n rows t Hn OK T k i Hk Hi) as (j & a & m & Hj & La & Lm & Bm & Ed & z & R). destruct (row_ok' n rows OK j Hj) as [L ND]. set (D := cell (row j) a m) in *. assert (LD : length D = 2 ^ k) by (unfold D; rewrite cell_length, Bm; auto).
    assert (NDD : NoDup D) by (apply (cell_nodup n); auto). destruct (sub_related n t Hn k z D (el t k i) R LD NDD w Lw) as (a0 & La0 & Ea0 & R0).
    set (a1 := place m a a0). assert (La1 : length a1 = n) by (unfold a1; rewrite place_length; auto). assert (Er : restrict m a1 = a0) by (apply restrict_place; lia).
    assert (ED : cell (row j) a1 m = D). { unfold D, cell. apply cbuild_ext. intros f Lf. f_equal. apply (bits_ext n); rewrite ?place_length; auto. intros x Hx. rewrite !nth_place by lia. destruct (nth x m false) eqn:E; auto. unfold a1. rewrite nth_place, E by lia. auto. }
    assert (Ei : didx j a1 m = i). { rewrite <- Ed. unfold CDomTop.didx. rewrite ED. auto. }
    assert (RN : exists z1, related k z1 (sub t k D a0) (norm j a1 m (repeat false n))).
    { destruct (related_flips k a0 (sub t k D a0)) as [z1 R1]; [lia|apply sub_length|]. exists z1. replace (norm j a1 m (repeat false n)) with (flips k a0 (sub t k D a0)); auto. apply (cube_ext k); [apply flips_length, sub_length|unfold CDomSub.norm; rewrite cbuild_length, Bm; auto|].
      intros u Lu. rewrite (flips_get k) by (rewrite ?sub_length; auto; lia). rewrite cget_sub by (rewrite xor_length; auto). rewrite xor_xor. rewrite cget_norm by lia. rewrite <- ED, <- Er. rewrite (cell_cell n) by (auto; lia). assert (B : bit_sum (place m (repeat false n) u) = bit_sum u) by (apply bit_sum_place0; auto; lia).
      rewrite (lab_low n rows t Hn) by (rewrite B; pose proof (bit_sum_le u); lia). rewrite B. auto. }
    destruct RN as [z1 R1].
    assert (Sub : subcube k n (fine j a1) (cell (fine j a1) a1 m)) by (rewrite <- Bm; apply cell_subcube; auto; apply fine_length).
    destruct (c_listed n fines s Hn Ts (n - k) k ltac:(lia)) as [_ HL]. destruct (HL (fine j a1) (cell (fine j a1) a1 m)) as (r & z2 & Hr & R2); [apply fines_in; eauto|auto|]. fold (el s k r) in R2.
    assert (RC : exists z3, related k z3 (cell (fine j a1) a1 m) (norm j a1 m (repeat false n))).
    { destruct (related_flips k a0 (cell (fine j a1) a1 m)) as [z3 R3]; [lia|rewrite cell_length, Bm; auto|]. exists z3. replace (norm j a1 m (repeat false n)) with (flips k a0 (cell (fine j a1) a1 m)); auto. apply (cube_ext k); [apply flips_length; rewrite cell_length, Bm; auto|unfold CDomSub.norm; rewrite cbuild_length, Bm; auto|].
      intros u Lu. rewrite (flips_get k) by (rewrite ?cell_length, ?Bm; auto; lia). rewrite cget_cell by (rewrite xor_length; lia). rewrite cget_fine by (rewrite place_length; auto). rewrite cget_norm by lia. f_equal. rewrite <- Er. rewrite (xor_place n) by (auto; lia). f_equal. apply xor_self; auto. }
    destruct RC as [z3 R3]. assert (LS : length (sub t k D a0) = 2 ^ k) by apply sub_length.
    assert (R4 : related k (z * (z1 * (z3 * z2))) (psub k i w) (el s k r)).
    { rewrite (psub_sub n rows t Hn OK T) by (auto; lia). eapply related_trans; [apply related_sym; [exact R0|auto]|]. eapply related_trans; [exact R1|]. eapply related_trans; [apply related_sym; [exact R3|rewrite cell_length, Bm; auto]|exact R2]. }
    pose proof (related_perm _ _ _ _ R4 (psub_length t k i w)) as P4.
    assert (P2 : Permutation (norm j a1 m (repeat false n)) (el s k r)). { apply (related_perm k (z3 * z2)%Z); [|unfold CDomSub.norm; rewrite cbuild_length, Bm; auto]. eapply related_trans; [apply related_sym; [exact R3|rewrite cell_length, Bm; auto]|exact R2]. }
    assert (Hh : In r (hits k)).
    { apply hits_in. split; auto. exists (lab j a1 (repeat false n)). split; [|rewrite lab_vertex by auto; apply row_vertex; auto]. apply (Permutation_in _ P2). apply norm_in. exists (repeat false k). rewrite repeat_length. split; auto. f_equal.
      apply (bits_ext n); [apply repeat_length|rewrite place_length; auto|]. intros x Hx. rewrite nth_place, !nth_repeat by lia. destruct (nth x m false); auto. }
    exists r, (z * (z1 * (z3 * z2)))%Z. split; auto. split; auto. symmetry. apply (hit_label k r i Hk Hh Hi). apply (Permutation_in _ P2). apply norm_in. exists (repeat true k). rewrite repeat_length. split; auto.
    assert (Eone : place m (repeat false n) (repeat true k) = m). { apply (bits_ext n); rewrite ?place_length; auto. intros x Hx. rewrite nth_place by lia. destruct (nth x m false) eqn:E; [|apply nth_repeat]. apply nth_repeat_b. rewrite <- Bm. apply rank_lt; auto. lia. }
    rewrite Eone. unfold CDomSub.lab. rewrite Ei, Bm. lia.
Qed.
Lemma hit_unique : forall k r r', k <= n -> In r (hits k) -> In r' (hits k) -> topp k r = topp k r' -> (exists v, v < n_elements t 0 /\ In v (el s k r) /\ In v (el s k r')) -> r = r'.
Proof.
  intros k r r' Hk Hr Hr' E (v & Sv & V & V'). destruct (hit_part k r Hk Hr) as (Ht & w & z & Lw & R & W). destruct (hit_part k r' Hk Hr') as (Ht' & w' & z' & Lw' & R' & W').
  pose proof (proj1 (W v V) Sv) as E1. pose proof (proj1 (W' v V') Sv) as E2. rewrite <- E in *. destruct (el_ok n rows t Hn T k (topp k r) Hk Ht) as [Le Ne].
  assert (Ew : w = w') by (apply (cget_inj k (el t k (topp k r))); auto; congruence). subst w'.
  assert (P : Permutation (el s k r) (el s k r')) by (eapply perm_trans; [apply Permutation_sym; apply (related_perm _ _ _ _ R (psub_length t _ _ _))|apply (related_perm _ _ _ _ R' (psub_length t _ _ _))]).
  apply hits_in in Hr as [Lr _]. apply hits_in in Hr' as [Lr' _]. destruct (Nat.eq_dec k n) as [->|Ek]; [|apply (c_distinct n fines s Ts k); auto; lia].
  destruct (fine_of_row r Lr) as (j & a & Hj & La & -> & Er). destruct (fine_of_row r' Lr') as (j' & a' & Hj' & La' & -> & Er').
  rewrite (proj2 (topp_fine j a Hj La)), (proj2 (topp_fine j' a' Hj' La')) in E. subst j'. f_equal. rewrite Er in V. rewrite Er' in V'. destruct (row_ok' n rows OK j Hj) as [L ND].
  assert (Q : forall a, length a = n -> In v (fine j a) -> cget (row j) a = v).
  { intros a0 L0 I. apply (in_cget n) in I as (b & Lb & <-); [|apply fine_length]. rewrite cget_fine in * by auto. apply (lab_small n rows t Hn OK T) in Sv; rewrite ?xor_length; auto. apply bits_zeros with (k := n) in Sv; [|rewrite xor_length; auto]. rewrite Sv. symmetry. apply lab_vertex; auto. }
  apply (cget_inj n (row j)); auto. rewrite (Q a), (Q a'); auto.
Qed.
(** Each coarse element is paired with one fine element per corner. *)
Lemma hit_count : forall k i, k <= n -> i < n_elements t k -> length (filter (fun r => topp k r =? i) (hits k)) = 2 ^ k.
Proof.
  intros k i Hk Hi. destruct (el_ok n rows t Hn T k i Hk Hi) as [Le Ne]. rewrite <- Le.
  set (fv := fun r => hd 0 (filter (fun v => v <? n_elements t 0) (el s k r))). set (F := filter (fun r => topp k r =? i) (hits k)).
  assert (FI : forall r, In r F <-> In r (hits k) /\ topp k r = i) by (intros r; unfold F; rewrite filter_In, Nat.eqb_eq; tauto).
  assert (FV : forall r, In r F -> In (fv r) (el s k r) /\ fv r < n_elements t 0 /\ In (fv r) (el t k i)).
  { intros r Hr. apply FI in Hr as [Hr E]. destruct (hit_part k r Hk Hr) as (Ht & w & z & Lw & R & W). rewrite E in *. assert (Q : In (fv r) (filter (fun v => v <? n_elements t 0) (el s k r))).
    { unfold fv. apply hits_in in Hr as [_ (v & Hv & Sv)]. assert (I : In v (filter (fun v => v <? n_elements t 0) (el s k r))) by (apply filter_In; split; auto; apply Nat.ltb_lt; auto). destruct (filter (fun v => v <? n_elements t 0) (el s k r)); [destruct I|left; auto]. }
    apply filter_In in Q as [Q1 Q2]. apply Nat.ltb_lt in Q2. repeat split; auto. rewrite (proj1 (W _ Q1) Q2). apply (cget_in k); auto. }
  rewrite <- (map_length fv F). apply Permutation_length. apply NoDup_Permutation; auto.
  - assert (NF : NoDup F). { apply NoDup_filter. unfold hits. apply NoDup_filter. apply seq_NoDup. }
    assert (Inj : forall x y, In x F -> In y F -> fv x = fv y -> x = y).
    { intros x y Hx Hy E. destruct (FV x Hx) as (A1 & A2 & _). destruct (FV y Hy) as (B1 & _ & _). apply FI in Hx as [Hx Ex]. apply FI in Hy as [Hy Ey]. apply (hit_unique k x y Hk Hx Hy); [congruence|]. exists (fv x). repeat split; auto. rewrite E. auto. }
    clear - NF Inj. induction F as [|x F IH]; [constructor|]. cbn [map]. apply NoDup_cons_iff in NF as [N1 N2]. constructor; [|apply IH; auto; intros; apply Inj; auto; right; auto].
    intros I. apply in_map_iff in I as (y & E & Hy). assert (x = y) by (apply Inj; [left; auto|right; auto|auto]). subst y. auto.
  - intros v. split.
    + intros I. apply in_map_iff in I as (r & <- & Hr). apply FV. auto.
    + intros Hv. pose proof (el_vertex k i v Hk Hi Hv) as Sv. apply (in_cget k) in Hv as (w & Lw & Ew); auto. destruct (hit_exists k i w Hk Hi Lw) as (r & z & Hr & Et & R).
      assert (HrF : In r F) by (apply FI; auto). destruct (FV r HrF) as (A1 & A2 & A3). apply in_map_iff. exists r. split; auto.
      assert (V : In v (el s k r)). { apply (Permutation_in _ (related_perm _ _ _ _ R (psub_length t _ _ _))). destruct (Nat.eq_dec k n) as [->|Ek].
        - assert (Hj : i < length rows) by (unfold n_elements in Hi; rewrite (ct_top _ _ _ T) in Hi; auto). rewrite (psub_top n rows t T) by auto. rewrite <- Ew. unfold el. rewrite (ct_top _ _ _ T). rewrite <- lab_vertex by auto.
          replace (lab i w (repeat false n)) with (cget (fine i w) w); [apply (cget_in n); auto; apply fine_length|]. rewrite cget_fine by auto. f_equal. apply xor_self; auto.
        - rewrite (psub_sub n rows t Hn OK T) by (auto; lia). replace v with (cget (sub t k (el t k i) w) w); [apply (cget_in k); auto; apply sub_length|]. rewrite cget_sub by auto.
          assert (X : xor w w = repeat false k) by (apply (bits_ext k); [rewrite xor_length; auto|apply repeat_length|]; intros x Hx; rewrite nth_xor, nth_repeat_b by lia; apply xorb_nilpotent).
          rewrite X. rewrite (cell_zero k) by auto. rewrite bit_sum_const. cbn [nat_of]. rewrite Nat.mul_0_r. unfold LL, offset. cbn [seq map list_sum fold_right]. rewrite Nat.add_0_r, Ew. symmetry. apply (eidx_unique n rows t Hn OK T); auto.
          + pose proof (el_cell_inside n rows t Hn OK T k i w (repeat false k) Hk Hi Lw (repeat_length false k)) as C. rewrite (cell_zero k), bit_sum_const, Ew in C by auto. cbn [nat_of] in C. rewrite Nat.mul_0_r in C. exact C.
          + rewrite el_zero by auto. apply Permutation_refl. }
      destruct (hit_part k r Hk Hr) as (Ht & w' & z' & Lw' & R' & W). rewrite (proj1 (W _ A1) A2), (proj1 (W _ V) Sv). auto.
Qed.
(** The matrices are built without error. *)
Lemma matrices_ok : exists ms, mapM (fun nt => transfer_matrix (fst (snd nt)) (snd (snd nt)) (n_elements s (fst nt)) (n_elements t (fst nt))) (combine (seq 0 (length (subdivide_cubical_transfers t s))) (subdivide_cubical_transfers t s)) = Ok ms /\
  length ms = S n /\ forall k, k <= n -> nrows (nth k ms (mkCoo 0 0 [])) = n_elements s k /\ ncols (nth k ms (mkCoo 0 0 [])) = n_elements t k /\
    forall r i, entry (nth k ms (mkCoo 0 0 [])) r i = if existsb (Nat.eqb r) (hits k) && (topp k r =? i) then 1%Z else 0%Z.
Proof.
  rewrite (transfers_ok n rows t s Hn OK T Ts). rewrite map_length, seq_length.
  assert (Q : forall (f : nat -> list nat * list nat) l, combine l (map f l) = map (fun k => (k, f k)) l) by (intros f l; induction l; auto; cbn [map combine]; f_equal; auto). rewrite Q.
  assert (G : forall k, k <= n -> exists m, transfer_matrix (hits k) (map (topp k) (hits k)) (n_elements s k) (n_elements t k) = Ok m /\ nrows m = n_elements s k /\ ncols m = n_elements t k /\
    forall r i, entry m r i = if existsb (Nat.eqb r) (hits k) && (topp k r =? i) then 1%Z else 0%Z).
  { intros k Hk. assert (NH : NoDup (hits k)) by (unfold hits; apply NoDup_filter, seq_NoDup). destruct (transfer_entry (hits k) (map (topp k) (hits k)) (n_elements s k) (n_elements t k) NH) as (m & E & E1 & E2 & E3 & E4).
    - rewrite map_length. auto.
    - intros r Hr. apply hits_in in Hr as [Hr _]. auto.
    - intros i Hi. apply in_map_iff in Hi as (r & <- & Hr). apply hit_part; auto.
    - exists m. repeat (split; auto). intros r i. destruct (existsb (Nat.eqb r) (hits k)) eqn:Ex.
      + apply existsb_exists in Ex as (r' & Hr & Er). apply Nat.eqb_eq in Er. subst r'. apply In_nth with (d := 0) in Hr as (p & Hp & <-). rewrite E3 by auto. rewrite (nth_map_lt _ _ _ _ _ 0) by auto. auto.
      + cbn [andb]. apply E4. intros I. assert (X : existsb (Nat.eqb r) (hits k) = true) by (apply existsb_exists; exists r; split; auto; apply Nat.eqb_refl). congruence. }
  assert (H : forall l, (forall k, In k l -> k <= n) -> exists ms, mapM (fun nt : nat * (list nat * list nat) => transfer_matrix (fst (snd nt)) (snd (snd nt)) (n_elements s (fst nt)) (n_elements t (fst nt))) (map (fun k => (k, (hits k, map (topp k) (hits k)))) l) = Ok ms /\
    length ms = length l /\ forall p, p < length l -> let k := nth p l 0 in nrows (nth p ms (mkCoo 0 0 [])) = n_elements s k /\ ncols (nth p ms (mkCoo 0 0 [])) = n_elements t k /\
    forall r i, entry (nth p ms (mkCoo 0 0 [])) r i = if existsb (Nat.eqb r) (hits k) && (topp k r =? i) then 1%Z else 0%Z).
  { induction l as [|k l IH]; intros Hl; [exists []; repeat split; auto; simpl in *; lia|]. destruct (G k) as (m & Em & Fm); [apply Hl; left; auto|]. destruct IH as (ms & Ems & Lms & Fms); [intros; apply Hl; right; auto|].
    exists (m :: ms). cbn [map mapM fst snd]. rewrite Em. cbn [bind]. rewrite Ems. cbn [bind]. split; auto. split; [simpl; lia|]. intros [|p] Hp; [exact Fm|]. apply Fms. simpl in Hp. lia. }
  destruct (H (seq 0 (S n))) as (ms & E & L & F); [intros k Hk; apply in_seq in Hk; lia|]. exists ms. split; [exact E|]. rewrite seq_length in *. split; auto. intros k Hk. specialize (F k ltac:(lia)). cbv zeta in F. rewrite seq_nth in F by lia. exact F.
Qed.
End Pairs.
