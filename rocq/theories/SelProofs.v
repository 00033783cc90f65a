(** Selection matrices, and a reference SAT solver used in examples. *)
Require Import List Arith ZArith Bool Lia Permutation Sorting.Sorted.
From Verif Require Import Util CombModel CombSpec CombProofs SimpModel SimpSpec ParProofs SimpProofs LevelProofs TopProofs.
From Verif Require Import BdryModel BdrySpec OrientProofs FixProofs SubProofs BdryProofs.
Import ListNotations.

(** ---- selection matrices ---- *)
Lemma entry_combine_ones : forall cols i c a,
  sumZ (map (fun t => match t with (r, c', v) => if (r =? i) && (c' =? c) then v else 0%Z end)
     (combine (combine (seq a (length cols)) cols) (map (fun _ => 1%Z) cols)))
  = if (a <=? i) && (i <? a + length cols) && (nth (i - a) cols 0 =? c) then 1%Z else 0%Z.
Proof.
  induction cols as [|x cols IH]; intros i c a.
  - simpl. destruct (a <=? i) eqn:E1, (i <? a + 0) eqn:E2; simpl; auto.
    apply Nat.leb_le in E1. apply Nat.ltb_lt in E2. lia.
  - cbn [length seq combine map sumZ fold_right]. change (fold_right Z.add 0%Z) with sumZ. rewrite IH.
    destruct (Nat.lt_total i a) as [L|[L|L]].
    + assert (E1 : (a =? i) = false) by (apply Nat.eqb_neq; lia).
      assert (E2 : (a <=? i) = false) by (apply Nat.leb_gt; lia).
      assert (E3 : (S a <=? i) = false) by (apply Nat.leb_gt; lia).
      rewrite E1, E2, E3. reflexivity.
    + subst i. rewrite Nat.eqb_refl, Nat.leb_refl, Nat.sub_diag.
      assert (E3 : (S a <=? a) = false) by (apply Nat.leb_gt; lia).
      assert (E4 : (a <? a + S (length cols)) = true) by (apply Nat.ltb_lt; lia).
      rewrite E3, E4. cbn [nth andb]. destruct (x =? c); reflexivity.
    + assert (E1 : (a =? i) = false) by (apply Nat.eqb_neq; lia).
      assert (E2 : (a <=? i) = true) by (apply Nat.leb_le; lia).
      assert (E3 : (S a <=? i) = true) by (apply Nat.leb_le; lia).
      rewrite E1, E2, E3. cbn [andb].
      replace (i - a) with (S (i - S a)) by lia. cbn [nth].
      replace (S a + length cols) with (a + S (length cols)) by lia. lia.
Qed.

Lemma selection_entry : forall d i c, entry (selection_matrix d) i c =
  if (i <? length (flatnonzero d)) && (nth i (flatnonzero d) 0 =? c) then 1%Z else 0%Z.
Proof.
  intros. unfold entry, selection_matrix. cbn [triples]. rewrite entry_combine_ones.
  cbn [Nat.leb andb]. rewrite Nat.sub_0_r, Nat.add_0_l. auto.
Qed.

Lemma transpose_entry : forall M i j, entry (transpose M) i j = entry M j i.
Proof.
  intros. unfold entry, transpose. cbn [triples]. rewrite map_map. apply sumZ_map_ext.
  intros [[r c] v] _. rewrite andb_comm. auto.
Qed.

Lemma flatnonzero_in : forall d i, In i (flatnonzero d) <-> i < length d /\ nth i d false = true.
Proof. intros. unfold flatnonzero. rewrite filter_In, in_seq. intuition lia. Qed.
Lemma flatnonzero_sorted : forall d, StronglySorted lt (flatnonzero d).
Proof. intros. unfold flatnonzero. apply StronglySorted_filter, seq_sorted. Qed.
Lemma flatnonzero_nodup : forall d, NoDup (flatnonzero d).
Proof. intros. unfold flatnonzero. apply NoDup_filter, seq_NoDup. Qed.
Lemma flatnonzero_nth : forall d i, i < length (flatnonzero d) ->
  nth i (flatnonzero d) 0 < length d /\ nth (nth i (flatnonzero d) 0) d false = true.
Proof. intros. apply flatnonzero_in. apply nth_In; auto. Qed.

Lemma selection_SSt : forall d d' i j,
  product_entry (selection_matrix d) (transpose (selection_matrix d')) i j =
  if (i <? length (flatnonzero d)) && (j <? length (flatnonzero d')) && (nth i (flatnonzero d) 0 =? nth j (flatnonzero d') 0)
  then 1%Z else 0%Z.
Proof.
  intros d d' i j. unfold product_entry.
  assert (LM : forall m, Nat.max (ncols (selection_matrix d)) (nrows (transpose (selection_matrix d'))) = m ->
    sumZ (map (fun k => entry (selection_matrix d) i k * entry (transpose (selection_matrix d')) k j)%Z (seq 0 m)) =
    if (i <? length (flatnonzero d)) && (j <? length (flatnonzero d')) && (nth i (flatnonzero d) 0 =? nth j (flatnonzero d') 0)
    then 1%Z else 0%Z).
  { intros m Em. unfold transpose, selection_matrix in Em. cbn [ncols nrows] in Em.
    destruct (i <? length (flatnonzero d)) eqn:Ei.
    2:{ apply sumZ_map_0. intros k _. rewrite selection_entry, Ei. auto. }
    apply Nat.ltb_lt in Ei. destruct (flatnonzero_nth d i Ei) as [H1 _].
    assert (Ei' : (i <? length (flatnonzero d)) = true) by (apply Nat.ltb_lt; auto).
    rewrite (sumZ_single _ _ (nth i (flatnonzero d) 0)); [|lia|].
    2:{ intros k Hk Hne. rewrite selection_entry, Ei'. destruct (nth i (flatnonzero d) 0 =? k) eqn:E.
        - apply Nat.eqb_eq in E; congruence.
        - reflexivity. }
    rewrite transpose_entry, !selection_entry, Ei', Nat.eqb_refl. cbn [andb].
    destruct (j <? length (flatnonzero d')); cbn [andb]; auto.
    rewrite Nat.eqb_sym. destruct (_ =? _); auto. }
  apply LM; auto.
Qed.

Lemma selection_StS : forall d i j, i < length d -> j < length d ->
  product_entry (transpose (selection_matrix d)) (selection_matrix d) i j =
  if (i =? j) && nth i d false then 1%Z else 0%Z.
Proof.
  intros d i j Hi Hj. unfold product_entry.
  change (ncols (transpose (selection_matrix d))) with (length (flatnonzero d)).
  change (nrows (selection_matrix d)) with (length (flatnonzero d)). rewrite Nat.max_id.
  destruct (nth i d false) eqn:E.
  - assert (Hin : In i (flatnonzero d)) by (apply flatnonzero_in; auto).
    apply In_nth with (d := 0) in Hin as (r & Hr & Er).
    rewrite (sumZ_single _ _ r).
    + rewrite transpose_entry, !selection_entry. apply Nat.ltb_lt in Hr. rewrite Hr, Er, Nat.eqb_refl. cbn [andb].
      rewrite andb_true_r. destruct (i =? j); auto.
    + auto.
    + intros k Hk Hne. rewrite transpose_entry, selection_entry.
      destruct ((k <? length (flatnonzero d)) && (nth k (flatnonzero d) 0 =? i)) eqn:Q; [|auto].
      apply andb_true_iff in Q as [_ Q]. apply Nat.eqb_eq in Q. exfalso. apply Hne.
      apply (proj1 (NoDup_nth (flatnonzero d) 0) (flatnonzero_nodup d)); auto. congruence.
  - rewrite andb_false_r. apply sumZ_map_0. intros k Hk. apply in_seq in Hk.
    rewrite transpose_entry, selection_entry.
    destruct ((k <? length (flatnonzero d)) && (nth k (flatnonzero d) 0 =? i)) eqn:Q; [|auto].
    apply andb_true_iff in Q as [Q1 Q]. apply Nat.ltb_lt in Q1. apply Nat.eqb_eq in Q.
    destruct (flatnonzero_nth d k Q1) as [_ H]. rewrite Q in H. congruence.
Qed.

(** ---- the 0/1 chains behind the selectors ---- *)
Section Chains.
Variable row_leb : list nat -> list nat -> bool.
Variable sat : list (Z * Z) -> option (list Z).
Variable t : topology.

Lemma boundary_chain_length : forall fill k, length (boundary_chain row_leb sat t fill k) = n_elements t k.
Proof.
  intros. unfold boundary_chain.
  assert (R : length (repeat fill (n_elements t k)) = n_elements t k) by apply repeat_length.
  destruct (boundary row_leb sat t) as [[[b idx]|]|]; auto.
  destruct (nth_error idx k); auto. unfold put. destruct (forallb _ _); auto.
  rewrite map_length, seq_length. auto.
Qed.

Lemma nth_repeat' : forall A (x d : A) m i, i < m -> nth i (repeat x m) d = x.
Proof. induction m; simpl; intros i Hi; [lia|]. destruct i; auto. apply IHm. lia. Qed.

Lemma boundary_chain_compl : forall k i, i < n_elements t k ->
  nth i (boundary_chain row_leb sat t true k) false = negb (nth i (boundary_chain row_leb sat t false k) false).
Proof.
  intros k i Hi. unfold boundary_chain.
  assert (B : nth i (repeat true (n_elements t k)) false = negb (nth i (repeat false (n_elements t k)) false))
    by (rewrite !nth_repeat' by auto; auto).
  destruct (boundary row_leb sat t) as [[[b idx]|]|]; auto.
  destruct (nth_error idx k) as [ix|]; auto. unfold put. rewrite !repeat_length.
  destruct (forallb (fun i0 => i0 <? n_elements t k) ix); auto.
  rewrite !nth_map_seq by auto. rewrite !nth_repeat' by auto.
  destruct (existsb (Nat.eqb i) ix); auto.
Qed.
End Chains.

(** ---- flips and [choose] ---- *)
Lemma flips_choose : forall rows rows', Forall2 (fun s s' => s' = s \/ s' = flip s) rows rows' ->
  exists p, rows' = choose p rows.
Proof.
  induction 1 as [|s s' rows rows' H F IH].
  - exists []. reflexivity.
  - destruct IH as (p & ->). destruct H as [-> | ->].
    + exists (true :: p). unfold choose. cbn [length seq map nth]. f_equal. rewrite <- seq_shift, map_map. auto.
    + exists (false :: p). unfold choose. cbn [length seq map nth]. f_equal. rewrite <- seq_shift, map_map. auto.
Qed.

Lemma choose_flips : forall p rows, Forall2 (fun s s' => s' = s \/ s' = flip s) rows (choose p rows).
Proof.
  intros p rows. revert p. induction rows as [|s rows IH]; intros p.
  - constructor.
  - unfold choose. cbn [length seq map nth]. constructor.
    + destruct (nth 0 p false); auto.
    + rewrite <- seq_shift, map_map. destruct p as [|b p].
      * rewrite (map_ext _ (fun j => if nth j [] false then nth j rows [] else flip (nth j rows []))).
        { apply (IH []). } intros j. destruct j; reflexivity.
      * apply (IH p).
Qed.

(** ---- a reference SAT solver: exhaustive search ---- *)
Fixpoint all_assign (N : nat) : list (list bool) :=
  match N with
  | 0 => [[]]
  | S m => map (cons false) (all_assign m) ++ map (cons true) (all_assign m)
  end.
Definition litb (v : list bool) (z : Z) : bool :=
  if (0 <? z)%Z then nth (Z.to_nat z - 1) v false else negb (nth (Z.to_nat (- z) - 1) v false).
Definition brute_sat (cls : list (Z * Z)) : option (list Z) :=
  match find (fun v => forallb (fun c => litb v (fst c) || litb v (snd c)) cls) (all_assign (max_var cls)) with
  | Some v => Some (map (fun k => if nth k v false then Z.of_nat k + 1 else - (Z.of_nat k + 1))%Z (seq 0 (max_var cls)))
  | None => None
  end.

Lemma all_assign_in : forall N v, length v = N -> In v (all_assign N).
Proof.
  induction N; destruct v as [|b v]; simpl; intros L; try lia; auto.
  apply in_app_iff. destruct b; [right|left]; apply in_map; apply IHN; lia.
Qed.

Lemma litb_lit : forall v z (w : nat -> bool), (z <> 0)%Z -> Z.abs_nat z <= length v ->
  (forall k, k < length v -> nth k v false = w k) -> litb v z = true <-> lit_true w z.
Proof.
  intros v z w Hz L E. unfold litb, lit_true. destruct (0 <? z)%Z eqn:S.
  - apply Z.ltb_lt in S. rewrite E by lia. split; [auto|]. intros [[_ H]|[H _]]; auto. lia.
  - apply Z.ltb_ge in S. rewrite E by lia. rewrite negb_true_iff. split; [right; split; auto; lia|].
    intros [[H _]|[_ H]]; auto. lia.
Qed.

Lemma brute_sat_contract : sat_contract brute_sat.
Proof.
  intros cls NZ. unfold brute_sat.
  assert (MV : forall a b, In (a, b) cls -> Z.abs_nat a <= max_var cls /\ Z.abs_nat b <= max_var cls).
  { intros. apply max_var_ge; auto. }
  assert (LEN : forall N v, In v (all_assign N) -> length v = N).
  { induction N; simpl; intros v Hv.
    - destruct Hv as [<-|[]]; auto.
    - apply in_app_iff in Hv as [Hv|Hv]; apply in_map_iff in Hv as (u & <- & Hu); simpl; rewrite (IHN u); auto. }
  destruct (find _ _) as [v|] eqn:F.
  - apply find_some in F as [Hv F]. apply LEN in Hv. rewrite forallb_forall in F.
    rewrite map_length, seq_length. split; auto. split.
    + intros k Hk. rewrite (nth_map_seq Z) by auto. destruct (nth k v false); lia.
    + intros a b Hin. specialize (F _ Hin). simpl in F. apply orb_true_iff in F.
      destruct (NZ _ _ Hin), (MV _ _ Hin).
      assert (W : forall k, k < length v -> nth k v false = (0 <? nth k (map (fun k => if nth k v false then Z.of_nat k + 1 else - (Z.of_nat k + 1)) (seq 0 (max_var cls))) 0)%Z).
      { intros k Hk. rewrite (nth_map_seq Z) by lia. destruct (nth k v false); symmetry; [apply Z.ltb_lt|apply Z.ltb_ge]; lia. }
      rewrite <- !(litb_lit v _ (fun k => (0 <? nth k (map (fun k => if nth k v false then Z.of_nat k + 1 else - (Z.of_nat k + 1)) (seq 0 (max_var cls))) 0)%Z)) by (auto; lia).
      auto.
  - intros w S. pose proof (find_none _ _ F (map w (seq 0 (max_var cls)))) as N.
    specialize (N ltac:(apply all_assign_in; rewrite map_length, seq_length; auto)).
    assert (X : forallb (fun c => litb (map w (seq 0 (max_var cls))) (fst c) || litb (map w (seq 0 (max_var cls))) (snd c)) cls = true).
    { apply forallb_forall. intros [a b] Hin. simpl. apply orb_true_iff. destruct (NZ _ _ Hin), (MV _ _ Hin).
      assert (LL : length (map w (seq 0 (max_var cls))) = max_var cls) by (rewrite map_length, seq_length; auto).
      assert (LN : forall k, k < length (map w (seq 0 (max_var cls))) -> nth k (map w (seq 0 (max_var cls))) false = w k)
        by (intros k Hk; rewrite LL in Hk; rewrite (nth_map_seq bool) by auto; auto).
      rewrite !(litb_lit _ _ w) by (auto; lia). auto. }
    cbv beta in N. congruence.
Qed.
