(** Proofs about boundary, select_subset and the selectors. *)
Require Import List Arith ZArith Bool Lia Permutation Sorting.Sorted.
From Verif Require Import Util CombModel CombSpec CombProofs SimpModel SimpSpec ParProofs SimpProofs LevelProofs TopProofs.
From Verif Require Import BdryModel BdrySpec OrientProofs FixProofs SubProofs.
Import ListNotations.

Lemma boundary_face_perm : forall n rows f g, Permutation f g -> boundary_face n rows f -> boundary_face n rows g.
Proof.
  intros n rows f g P (j & Hj & F & U).
  assert (B : forall s, is_face (n - 1) g s <-> is_face (n - 1) f s).
  { intros s. unfold is_face. rewrite (Permutation_length P). split; intros (A & C & D); repeat split; auto.
    - eapply Permutation_NoDup; [apply Permutation_sym; exact P|auto].
    - intros x Hx. apply D. eapply Permutation_in; eauto.
    - eapply Permutation_NoDup; eauto.
    - intros x Hx. apply D. eapply Permutation_in; [apply Permutation_sym; exact P|auto]. }
  exists j. rewrite B. repeat split; auto; try apply F. intros j' Hj'. rewrite B. auto.
Qed.

Section Top.
Variable row_leb : list nat -> list nat -> bool.
Variables (n : nat) (rows : list simplex) (t : topology).
Hypothesis OK : simplices_ok n rows.
Hypothesis Hn : 1 <= n.
Hypothesis T : top_ok n rows t.
Hypothesis AM : at_most_two n rows.
Hypothesis CO : consistent n rows.

Let rowsum i := sumZ (map (fun j => incidence_number (el t (n - 1) i) (nth j rows [])) (seq 0 (length rows))).

Lemma incidence_not_incl : forall i j, i < n_elements t (n - 1) -> j < length rows ->
  ~ incl (el t (n - 1) i) (nth j rows []) -> incidence_number (el t (n - 1) i) (nth j rows []) = 0%Z.
Proof.
  intros i j Hi Hj NI. destruct (el_len n rows t Hn T (n - 1) i ltac:(lia) Hi) as [L N].
  destruct OK as [_ F]. rewrite Forall_forall in F. destruct (F (nth j rows []) (nth_In _ _ Hj)) as [L2 N2].
  apply (incidence_values _ _ N N2); auto. lia.
Qed.

Lemma coface_cases : forall i, i < n_elements t (n - 1) ->
  (exists j, j < length rows /\ forall j', j' < length rows -> incl (el t (n - 1) i) (nth j' rows []) <-> j' = j) \/
  (exists j1 j2, exactly_two n rows t i j1 j2).
Proof.
  intros i Hi.
  destruct (proj1 (faces_complete n rows t Hn T 1 (n - 1) ltac:(lia) (el t (n - 1) i))) as (s & Hs & F).
  { exists (el t (n - 1) i). split; auto. apply nth_In; auto. }
  apply In_nth with (d := []) in Hs as (j & Hj & <-).
  destruct F as (_ & _ & I).
  assert (D : {j' | j' < length rows /\ j' <> j /\ incl (el t (n - 1) i) (nth j' rows [])} + {forall j', j' < length rows -> j' <> j -> ~ incl (el t (n - 1) i) (nth j' rows [])}).
  { generalize (length rows). intros N. induction N as [|N IH].
    - right. intros; lia.
    - destruct IH as [(j' & A & B & C)|IH]; [left; exists j'; repeat split; auto; lia|].
      destruct (Nat.eq_dec N j) as [->|Hne]; [right; intros j' A B; apply IH; lia|].
      destruct (incl_dec' (el t (n - 1) i) (nth N rows [])); [left; exists N; repeat split; auto; lia|].
      right. intros j' A B. destruct (Nat.eq_dec j' N) as [->|]; auto. apply IH; lia. }
  destruct D as [(j' & A & B & C)|D].
  - right.
    assert (X : forall x, x < length rows -> incl (el t (n - 1) i) (nth x rows []) -> x = j \/ x = j').
    { intros x Hx Ix. destruct (AM (el t (n - 1) i) j j' x) as [E|[E|E]]; auto; try apply (el_face n rows t Hn T); auto. lia. }
    destruct (Nat.lt_total j j') as [L|[L|L]]; try lia.
    + exists j, j'. split; auto. split; [lia|]. intros x Hx. split; [apply X; auto|]. intros [->| ->]; auto.
    + exists j', j. split; auto. split; [lia|]. intros x Hx. split; [intros Ix; apply X in Ix; auto; tauto|]. intros [->| ->]; auto.
  - left. exists j. split; auto. intros x Hx. split; [|intros ->; auto].
    intros Ix. destruct (Nat.eq_dec x j); auto. exfalso. eapply D; eauto.
Qed.

Lemma rowsum_two : forall i j1 j2, exactly_two n rows t i j1 j2 -> rowsum i = 0%Z.
Proof.
  intros i j1 j2 X. pose proof (proj1 (consistent_iff n rows t Hn T AM) CO _ _ _ X) as E.
  destruct X as (Hi & Hj & X). unfold rowsum.
  rewrite (sumZ_map_ext _ _ (fun j => (if (j =? j1)%nat then incidence_number (el t (n - 1) i) (nth j1 rows []) else 0) +
      (if (j =? j2)%nat then incidence_number (el t (n - 1) i) (nth j2 rows []) else 0))%Z).
  - rewrite sumZ_map_add. rewrite (sumZ_single _ _ j1), (sumZ_single _ _ j2); try lia.
    + rewrite !Nat.eqb_refl. lia.
    + intros j _ Hne. apply Nat.eqb_neq in Hne. rewrite Hne. auto.
    + intros j _ Hne. apply Nat.eqb_neq in Hne. rewrite Hne. auto.
  - intros j Hj'. apply in_seq in Hj'.
    destruct (j =? j1) eqn:E1; [apply Nat.eqb_eq in E1; subst|apply Nat.eqb_neq in E1].
    + destruct (j1 =? j2) eqn:E2; [apply Nat.eqb_eq in E2; lia|]. lia.
    + destruct (j =? j2) eqn:E2; [apply Nat.eqb_eq in E2; subst; lia|apply Nat.eqb_neq in E2].
      rewrite incidence_not_incl; auto; try lia. rewrite X by lia. lia.
Qed.

Lemma rowsum_one : forall i j, i < n_elements t (n - 1) -> j < length rows ->
  (forall j', j' < length rows -> incl (el t (n - 1) i) (nth j' rows []) <-> j' = j) ->
  rowsum i = incidence_number (el t (n - 1) i) (nth j rows []) /\ (rowsum i = 1 \/ rowsum i = -1)%Z.
Proof.
  intros i j Hi Hj X. unfold rowsum.
  assert (E : sumZ (map (fun j => incidence_number (el t (n - 1) i) (nth j rows [])) (seq 0 (length rows))) = incidence_number (el t (n - 1) i) (nth j rows [])).
  { rewrite (sumZ_single _ _ j); auto. intros x Hx Hne. apply incidence_not_incl; auto. rewrite X by auto. auto. }
  split; auto. rewrite E.
  destruct (el_len n rows t Hn T (n - 1) i ltac:(lia) Hi) as [L N].
  destruct OK as [_ F]. rewrite Forall_forall in F. destruct (F (nth j rows []) (nth_In _ _ Hj)) as [L2 N2].
  apply (incidence_values _ _ N N2); [lia|]. apply X; auto.
Qed.

(** The stored representative of a facet with one coface is the outward face itself. *)
Lemma rowsum_rep : 2 <= n -> forall i j, i < n_elements t (n - 1) -> j < length rows ->
  (forall j', j' < length rows -> incl (el t (n - 1) i) (nth j' rows []) <-> j' = j) -> rowsum i = 1%Z.
Proof.
  intros Hn2 i j Hi Hj X. destruct (rowsum_one i j Hi Hj X) as [E _]. rewrite E.
  pose proof (to_rep _ _ _ T (n - 1) ltac:(lia) i Hi) as R.
  replace (S (n - 1)) with n in R by lia. rewrite (to_top _ _ _ T) in R.
  fold (el t (n - 1) i) in R. apply in_full in R as (s & c & Hs & Hc & R).
  apply In_nth with (d := []) in Hs as (j' & Hj' & <-).
  destruct OK as [_ F]. rewrite Forall_forall in F. destruct (F (nth j' rows []) (nth_In _ _ Hj')) as [L N].
  assert (j' = j).
  { apply X; auto. rewrite R. intros x Hx. eapply omit_incl. eapply Permutation_in; [apply Permutation_sym, (facet_perm n c)|]; eauto. lia. }
  subst j'. rewrite R. unfold incidence_number. rewrite (sumZ_single _ _ c).
  - rewrite rel_sign_perm by (apply facet_perm; lia). rewrite sgn_facet by (auto; lia). sgn_ring.
  - lia.
  - intros c' Hc' Hne. rewrite rel_sign_neq; [lia|]. intros P. apply Hne.
    apply (omit_perm_inj c' c (nth j rows [])); auto; try lia.
    eapply perm_trans; [exact P|]. apply Permutation_sym, facet_perm. lia.
Qed.

Lemma rowsum_values : forall i, i < n_elements t (n - 1) ->
  (rowsum i = 0 \/ rowsum i = 1 \/ rowsum i = -1)%Z.
Proof.
  intros i Hi. destruct (coface_cases i Hi) as [(j & Hj & X)|(j1 & j2 & X)].
  - destruct (rowsum_one i j Hi Hj X) as [_ H]. lia.
  - rewrite (rowsum_two i j1 j2); auto.
Qed.

Lemma wrap8_small : forall z, (-128 <= z < 128)%Z -> wrap8 z = z.
Proof. intros. unfold wrap8. rewrite Z.mod_small by lia. lia. Qed.

Lemma one_coface_iff : forall i, i < n_elements t (n - 1) ->
  (boundary_face n rows (el t (n - 1) i) <->
   exists j, j < length rows /\ forall j', j' < length rows -> incl (el t (n - 1) i) (nth j' rows []) <-> j' = j).
Proof.
  intros i Hi. split.
  - intros (j & Hj & F & U). exists j. split; auto. intros j' Hj'. split.
    + intros I. apply U; auto. apply (el_face n rows t Hn T); auto.
    + intros ->. apply F.
  - intros (j & Hj & X). exists j. split; auto. split.
    + apply (el_face n rows t Hn T); auto. apply X; auto.
    + intros j' Hj' F. apply X; auto. apply F.
Qed.

Lemma matrix_rowsum : forall i, i < n_elements t (n - 1) ->
  sumZ (map (fun j => entry (matrix t (n - 1)) i j) (seq 0 (length rows))) = (eps n * rowsum i)%Z.
Proof.
  intros i Hi. unfold rowsum. rewrite <- sumZ_map_mul. apply sumZ_map_ext. intros j Hj. apply in_seq in Hj.
  apply (entry_top n rows t Hn T); auto. lia.
Qed.

Lemma boundary_positions_spec : forall i, In i (boundary_positions t) <->
  i < n_elements t (n - 1) /\ boundary_face n rows (el t (n - 1) i).
Proof.
  intros i. unfold boundary_positions. rewrite (top_n_dim n rows t T).
  destruct (matrix_shape n rows t Hn T (n - 1) ltac:(lia)) as [R C].
  rewrite R, C, filter_In, in_seq. replace (S (n - 1)) with n by lia. rewrite (n_top n rows t T).
  split.
  - intros [H1 H2]. assert (Hi : i < n_elements t (n - 1)) by lia. split; auto.
    rewrite matrix_rowsum in H2 by auto.
    destruct (coface_cases i Hi) as [H|(j1 & j2 & X)].
    + apply one_coface_iff; auto.
    + rewrite (rowsum_two _ _ _ X) in H2. rewrite Z.mul_0_r in H2. discriminate.
  - intros [Hi B]. split; [lia|]. rewrite matrix_rowsum by auto.
    apply one_coface_iff in B as (j & Hj & X); auto. destruct (rowsum_one i j Hi Hj X) as [_ H].
    destruct (eps_cases n) as [E|E], H as [H|H]; rewrite E, H; reflexivity.
Qed.

Lemma boundary_positions_sorted : StronglySorted lt (boundary_positions t).
Proof. unfold boundary_positions. apply StronglySorted_filter. apply seq_sorted. Qed.

Definition bel : list simplex := map (fun i => el t (n - 1) i) (boundary_positions t).

Lemma bel_ok : boundary_positions t <> [] -> simplices_ok (n - 1) bel.
Proof.
  intros Hne. split.
  - unfold bel. destruct (boundary_positions t); simpl; congruence.
  - apply Forall_forall. intros s Hs. apply in_map_iff in Hs as (i & <- & Hi).
    apply boundary_positions_spec in Hi as [Hi _]. apply (el_len n rows t Hn T); auto. lia.
Qed.

Lemma bel_sub : forall s, In s bel -> exists r, In r rows /\ incl s r.
Proof.
  intros s Hs. apply in_map_iff in Hs as (i & <- & Hi). apply boundary_positions_spec in Hi as [Hi (j & Hj & F & _)].
  exists (nth j rows []). split; [apply nth_In; auto|apply F].
Qed.

Lemma positions_nil_iff : boundary_positions t = [] <-> forall f, ~ boundary_face n rows f.
Proof.
  split.
  - intros E f B. pose proof B as (j & Hj & F & _).
    destruct (facet_index n rows t Hn T f j Hj F) as (i & Hi & P).
    assert (In i (boundary_positions t)).
    { apply boundary_positions_spec. split; auto. eapply boundary_face_perm; [apply Permutation_sym; exact P|auto]. }
    rewrite E in H. destruct H.
  - intros H. destruct (boundary_positions t) as [|i l] eqn:E; auto. exfalso.
    assert (I : In i (boundary_positions t)) by (rewrite E; left; auto).
    apply boundary_positions_spec in I as [_ B]. eapply H; eauto.
Qed.

(** Signed sum of the stored boundary faces has no boundary. *)
Lemma bel_closed : 2 <= n -> forall f, sumZ (map (fun s => incidence_number f s) bel) = 0%Z.
Proof.
  intros Hn2 f.
  assert (E1 : sumZ (map (fun s => incidence_number f s) bel) =
     sumZ (map (fun i => incidence_number f (el t (n - 1) i) * rowsum i)%Z (seq 0 (n_elements t (n - 1))))).
  { unfold bel. rewrite map_map.
    assert (EQ : boundary_positions t = filter (fun i => existsb (Nat.eqb i) (boundary_positions t)) (seq 0 (n_elements t (n - 1)))).
    { symmetry. apply filter_seq_eq. split; [apply boundary_positions_sorted|]. intros j.
      rewrite existsb_exists. split.
      - intros H. split; [apply boundary_positions_spec in H; tauto|]. exists j. split; auto. apply Nat.eqb_refl.
      - intros [_ (x & Hx & E)]. apply Nat.eqb_eq in E. subst; auto. }
    rewrite EQ at 1.
    assert (SF : forall (p : nat -> bool) (g : nat -> Z) l, sumZ (map g (filter p l)) = sumZ (map (fun i => if p i then g i else 0%Z) l)).
    { intros p g. induction l; simpl; auto. destruct (p a); simpl; rewrite IHl; lia. }
    rewrite SF. apply sumZ_map_ext. intros i Hi. apply in_seq in Hi.
    destruct (existsb (Nat.eqb i) (boundary_positions t)) eqn:E.
    - apply existsb_exists in E as (x & Hx & E). apply Nat.eqb_eq in E. subst x.
      apply boundary_positions_spec in Hx as [_ B]. apply one_coface_iff in B as (j & Hj & X); [|lia].
      rewrite (rowsum_rep Hn2 i j) by (auto; lia). lia.
    - destruct (coface_cases i ltac:(lia)) as [H|(j1 & j2 & X)].
      + apply one_coface_iff in H; [|lia]. exfalso.
        assert (X : existsb (Nat.eqb i) (boundary_positions t) = true).
        { apply existsb_exists. exists i. split; [|apply Nat.eqb_refl]. apply boundary_positions_spec. split; auto. lia. }
        congruence.
      + rewrite (rowsum_two _ _ _ X). lia. }
  rewrite E1. unfold rowsum.
  rewrite (sumZ_map_ext _ _ (fun i => sumZ (map (fun j => incidence_number f (el t (n - 1) i) * incidence_number (el t (n - 1) i) (nth j rows []))%Z (seq 0 (length rows))))).
  2:{ intros i _. rewrite sumZ_map_mul. auto. }
  rewrite sumZ_swap. apply sumZ_map_0. intros j Hj. apply in_seq in Hj.
  pose proof (to_level _ _ _ T (n - 1) ltac:(lia)) as L. replace (S (n - 1)) with n in L by lia.
  rewrite (to_top _ _ _ T) in L. destruct OK as [_ F]. rewrite Forall_forall in F.
  assert (Hin : In (nth j rows []) rows) by (apply nth_In; lia).
  destruct (F _ Hin) as [Ls Ns].
  apply (incidence_incidence n rows _ _ _ L (nth j rows []) Hin Ls Ns f).
Qed.

(** ---- the boundary object ---- *)
Definition bmap : list nat := unique_nat (concat bel).

Lemma boundary_unfold : forall sat, is_oriented sat t = Ok true ->
  boundary row_leb sat t =
   if length (boundary_positions t) =? 0 then Ok None
   else do b <- from_simplices row_leb (n - 1) (relabel bmap bel);
        do parent_idx <- find_correspondence t b bmap;
        Ok (Some (b, parent_idx)).
Proof.
  intros sat H. unfold boundary. rewrite H. cbn [bind negb]. rewrite (top_n_dim n rows t T). reflexivity.
Qed.

Record boundary_facts (b : topology) (idx : list (list nat)) : Prop := {
  bf_top : top_ok (n - 1) (relabel bmap bel) b;
  bf_from : from_simplices row_leb (n - 1) (relabel bmap bel) = Ok b;
  bf_len : length idx = n;
  bf_idx : forall d, d < n -> length (nth d idx []) = n_elements b d /\
    forall i, i < n_elements b d ->
      let j := nth i (nth d idx []) 0 in
      j < n_elements t d /\ Permutation (el t d j) (map (back bmap) (el b d i))
}.

Lemma boundary_some : 2 <= n -> forall sat, is_oriented sat t = Ok true -> boundary_positions t <> [] ->
  exists b idx, boundary row_leb sat t = Ok (Some (b, idx)) /\ boundary_facts b idx.
Proof.
  intros Hn2 sat O Hne. rewrite boundary_unfold by auto.
  assert (E : (length (boundary_positions t) =? 0) = false) by (apply Nat.eqb_neq; destruct (boundary_positions t); simpl; [congruence|lia]).
  rewrite E.
  destruct (sub_built row_leb n Hn (n - 1) bel ltac:(lia) (bel_ok Hne)) as (b & Eb & Tb).
  fold bmap in Eb, Tb. rewrite Eb. cbn [bind].
  destruct (correspondence_ok n rows t Hn T (n - 1) bel ltac:(lia) bel_sub b Tb) as (idx & Ei & Li & Hi).
  fold bmap in Ei, Hi. rewrite Ei. cbn [bind].
  exists b, idx. split; auto. constructor; auto; try lia.
  intros d Hd. destruct (Hi d ltac:(lia)) as [L1 L2]. split; auto.
  intros i Hi'. destruct (L2 i Hi') as (A & B & _). auto.
Qed.

Lemma boundary_some_inv : forall sat b idx, boundary row_leb sat t = Ok (Some (b, idx)) -> is_oriented sat t = Ok true ->
  boundary_positions t <> [].
Proof.
  intros sat b idx H O E. rewrite boundary_unfold in H by auto. rewrite E in H. discriminate.
Qed.

(** parent_idx of the top boundary elements are the boundary positions. *)
Lemma parent_idx_top : forall b idx, boundary_facts b idx -> nth (n - 1) idx [] = boundary_positions t.
Proof.
  intros b idx [Tb _ Li Hi]. destruct (Hi (n - 1) ltac:(lia)) as [L1 L2].
  assert (Lb : n_elements b (n - 1) = length (boundary_positions t)).
  { unfold n_elements. rewrite (to_top _ _ _ Tb). unfold bmap. rewrite relabel_length. unfold bel. rewrite map_length. auto. }
  apply nth_ext with (d := 0) (d' := 0); [lia|]. intros i Hi'. rewrite L1 in Hi'.
  destruct (L2 i Hi') as [A B].
  assert (EB : map (back bmap) (el b (n - 1) i) = el t (n - 1) (nth i (boundary_positions t) 0)).
  { unfold el at 1. rewrite (to_top _ _ _ Tb). unfold bmap. rewrite (relabel_nth bel) by (unfold bel; rewrite map_length; lia).
    rewrite (map_back_rank bel).
    - unfold bel. rewrite (nth_map_lt _ _ _ _ _ 0) by lia. auto.
    - apply sel_mapping. apply nth_In. unfold bel. rewrite map_length. lia. }
  rewrite EB in B. apply (faces_unique n rows t T (n - 1)); auto; try lia.
  assert (In (nth i (boundary_positions t) 0) (boundary_positions t)) by (apply nth_In; lia).
  apply boundary_positions_spec in H. tauto.
Qed.

(** All coface sums of the boundary vanish. *)
Lemma boundary_rowsum : 2 <= n -> forall b idx, boundary_facts b idx -> forall i, i < n_elements b (n - 2) ->
  sumZ (map (fun j => entry (matrix b (n - 2)) i j) (seq 0 (n_elements b (n - 1)))) = 0%Z.
Proof.
  intros Hn2 b idx [Tb _ _ _] i Hi.
  assert (Hb1 : 1 <= n - 1) by lia.
  assert (E : forall j, j < n_elements b (n - 1) -> entry (matrix b (n - 2)) i j =
     (eps (n - 1) * incidence_number (map (back bmap) (el b (n - 2) i)) (nth j bel []))%Z).
  { intros j Hj. rewrite (matrix_entry_el (n - 1) (relabel bmap bel) b Hb1 Tb) by (auto; try lia; replace (S (n - 2)) with (n - 1) by lia; auto).
    replace (S (n - 2)) with (n - 1) by lia. f_equal.
    rewrite <- (incidence_back n Hn (n - 1) bel ltac:(lia) b Tb) by (auto; lia).
    f_equal. apply (sub_top_el (n - 1) bel b Tb).
    unfold n_elements in Hj. rewrite (to_top _ _ _ Tb) in Hj. unfold bmap in Hj. rewrite relabel_length in Hj. auto. }
  rewrite (sumZ_map_ext _ _ (fun j => eps (n - 1) * incidence_number (map (back bmap) (el b (n - 2) i)) (nth j bel []))%Z).
  2:{ intros j Hj. apply in_seq in Hj. apply E. lia. }
  rewrite sumZ_map_mul.
  assert (Ln : n_elements b (n - 1) = length bel).
  { unfold n_elements. rewrite (to_top _ _ _ Tb). apply relabel_length. }
  rewrite Ln.
  rewrite <- (map_map (fun j => nth j bel []) (fun s => incidence_number (map (back bmap) (el b (n - 2) i)) s)).
  rewrite map_nth_seq. rewrite bel_closed by auto. lia.
Qed.

End Top.
