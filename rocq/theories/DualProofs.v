(** Lemmas for the dual matrices (C15, C16). *)
Require Import List Arith ZArith Bool Lia Permutation Sorting.Sorted.
From Verif Require Import Util CombModel CombSpec CombProofs SimpModel SimpSpec ParProofs SimpProofs LevelProofs TopProofs SimpProps.
From Verif Require Import BdryModel BdrySpec OrientProofs FixProofs SubProofs BdryProofs SelProofs BdryProps SelProps.
Import ListNotations.

Lemma sumZ_split : forall f a b, sumZ (map f (seq 0 (a + b))) = (sumZ (map f (seq 0 a)) + sumZ (map (fun k => f (a + k)%nat) (seq 0 b)))%Z.
Proof.
  intros. rewrite seq_app, map_app, sumZ_app. f_equal.
  rewrite Nat.add_0_l. replace (seq a b) with (map (fun k => a + k) (seq 0 b)).
  - rewrite map_map. auto.
  - clear. revert a. induction b; intros a; simpl; auto. f_equal; [lia|]. rewrite <- seq_shift, map_map.
    transitivity (map (fun k => S a + k) (seq 0 b)); [|apply IHb]. apply map_ext. intros; lia.
Qed.

Lemma transpose_product : forall A B i j, product_entry (transpose A) (transpose B) i j = product_entry B A j i.
Proof.
  intros. unfold product_entry. change (ncols (transpose A)) with (nrows A). change (nrows (transpose B)) with (ncols B).
  rewrite Nat.max_comm. apply sumZ_map_ext. intros k _. rewrite !transpose_entry. ring.
Qed.

Definition glued (T B S : coo) : coo :=
  mkCoo (nrows T + nrows B) (ncols T + nrows S)
     (triples T
      ++ map (fun x => match x with (r, c, v) => (c, ncols T + r, v) end) (triples S)
      ++ map (fun x => match x with (r, c, v) => (nrows T + r, ncols T + c, (- v)%Z) end) (triples B)).
Lemma glue_ok : forall T B S, nrows T = ncols S -> nrows S = ncols B -> glue T B S = Ok (glued T B S).
Proof. intros. unfold glue. rewrite (proj2 (Nat.eqb_eq _ _) H), (proj2 (Nat.eqb_eq _ _) H0). reflexivity. Qed.

Lemma glued_entry : forall T B S i j, entry (glued T B S) i j =
  (entry T i j + (if (ncols T <=? j)%nat then entry S (j - ncols T)%nat i else 0) +
   (if (nrows T <=? i)%nat && (ncols T <=? j)%nat then - entry B (i - nrows T)%nat (j - ncols T)%nat else 0))%Z.
Proof.
  intros. unfold entry at 1, glued. cbn [triples]. rewrite !map_app, !sumZ_app, !map_map.
  fold (entry T i j). rewrite Z.add_assoc. f_equal; [f_equal|].
  - destruct (ncols T <=? j) eqn:E.
    + unfold entry. apply sumZ_map_ext. intros [[r c] v] _. apply Nat.leb_le in E.
      rewrite andb_comm. replace (ncols T + r =? j) with (r =? j - ncols T); auto.
      destruct (r =? j - ncols T) eqn:E1; symmetry; [apply Nat.eqb_eq in E1; apply Nat.eqb_eq; lia|apply Nat.eqb_neq in E1; apply Nat.eqb_neq; lia].
    + apply Nat.leb_gt in E. apply sumZ_map_0. intros [[r c] v] _.
      replace (ncols T + r =? j) with false by (symmetry; apply Nat.eqb_neq; lia). rewrite andb_false_r. auto.
  - destruct ((nrows T <=? i) && (ncols T <=? j)) eqn:E.
    + apply andb_true_iff in E as [E1 E2]. apply Nat.leb_le in E1, E2. unfold entry. rewrite <- sumZ_map_opp.
      apply sumZ_map_ext. intros [[r c] v] _.
      replace (nrows T + r =? i) with (r =? i - nrows T).
      2:{ destruct (r =? i - nrows T) eqn:E; symmetry; [apply Nat.eqb_eq in E; apply Nat.eqb_eq; lia|apply Nat.eqb_neq in E; apply Nat.eqb_neq; lia]. }
      replace (ncols T + c =? j) with (c =? j - ncols T).
      2:{ destruct (c =? j - ncols T) eqn:E; symmetry; [apply Nat.eqb_eq in E; apply Nat.eqb_eq; lia|apply Nat.eqb_neq in E; apply Nat.eqb_neq; lia]. }
      destruct (_ && _); lia.
    + apply sumZ_map_0. intros [[r c] v] _.
      replace ((nrows T + r =? i) && (ncols T + c =? j)) with false; auto. symmetry.
      apply andb_false_iff in E as [E|E]; apply Nat.leb_gt in E; apply andb_false_iff; [left|right]; apply Nat.eqb_neq; lia.
Qed.

(** Entries outside the shape vanish. *)
Definition bounded (M : coo) : Prop := forall i j, nrows M <= i \/ ncols M <= j -> entry M i j = 0%Z.

Lemma product_entry_n : forall A B m i j, ncols A = m -> nrows B = m ->
  product_entry A B i j = sumZ (map (fun k => entry A i k * entry B k j)%Z (seq 0 m)).
Proof. intros. unfold product_entry. rewrite H, H0, Nat.max_id. auto. Qed.

(** Product of two glued matrices: everything but the coupling block vanishes. *)
Lemma glued_product : forall T0 B0 S0 T1 B1 S1,
  bounded T0 -> bounded T1 -> bounded B0 -> bounded B1 -> bounded S0 -> bounded S1 ->
  nrows T0 = ncols S0 -> nrows S0 = ncols B0 -> nrows T1 = ncols S1 -> nrows S1 = ncols B1 ->
  ncols T0 = nrows T1 -> ncols B0 = nrows B1 ->
  (forall i j, product_entry T0 T1 i j = 0%Z) -> (forall i j, product_entry B0 B1 i j = 0%Z) ->
  ((forall i j, product_entry (glued T0 B0 S0) (glued T1 B1 S1) i j = 0%Z) <->
   (forall i j, product_entry T0 (transpose S1) i j = product_entry (transpose S0) B1 i j)).
Proof.
  intros T0 B0 S0 T1 B1 S1 bT0 bT1 bB0 bB1 bS0 bS1 H1 H2 H3 H4 H5 H6 CT CB.
  set (m := ncols T0). set (p := ncols B0).
  assert (U : forall i j, product_entry (glued T0 B0 S0) (glued T1 B1 S1) i j =
     if ncols T1 <=? j then
       (product_entry T0 (transpose S1) i (j - ncols T1) - product_entry (transpose S0) B1 i (j - ncols T1))%Z
     else 0%Z).
  { intros i j. rewrite (product_entry_n _ _ (m + p)) by (unfold glued; cbn [ncols nrows]; unfold m, p; lia).
    rewrite sumZ_split.
    assert (A : sumZ (map (fun k => entry (glued T0 B0 S0) i k * entry (glued T1 B1 S1) k j)%Z (seq 0 m)) =
      if ncols T1 <=? j then product_entry T0 (transpose S1) i (j - ncols T1) else 0%Z).
    { transitivity (sumZ (map (fun k => entry T0 i k * entry T1 k j +
         (if (ncols T1 <=? j)%nat then entry T0 i k * entry (transpose S1) k (j - ncols T1)%nat else 0))%Z (seq 0 m))).
      - apply sumZ_map_ext. intros k Hk. apply in_seq in Hk. rewrite !glued_entry.
        rewrite (proj2 (Nat.leb_gt (ncols T0) k)) by (unfold m in Hk; lia).
        rewrite (proj2 (Nat.leb_gt (nrows T1) k)) by (unfold m in Hk; lia).
        rewrite andb_false_r. cbn [andb]. rewrite transpose_entry. destruct (ncols T1 <=? j); ring.
      - rewrite sumZ_map_add. rewrite <- (product_entry_n T0 T1 m) by (unfold m; lia). rewrite CT.
        destruct (ncols T1 <=? j).
        + rewrite <- (product_entry_n T0 (transpose S1) m); [lia|auto|]. unfold transpose; cbn [nrows]; unfold m; lia.
        + rewrite sumZ_map_0; auto. }
    assert (B : sumZ (map (fun k => entry (glued T0 B0 S0) i (m + k)%nat * entry (glued T1 B1 S1) (m + k)%nat j)%Z (seq 0 p)) =
      if ncols T1 <=? j then (- product_entry (transpose S0) B1 i (j - ncols T1))%Z else 0%Z).
    { transitivity (sumZ (map (fun k => (if (ncols T1 <=? j)%nat then
         - (entry (transpose S0) i k * entry B1 k (j - ncols T1)%nat)
         + (if (nrows T0 <=? i)%nat then entry B0 (i - nrows T0)%nat k * entry B1 k (j - ncols T1)%nat else 0) else 0))%Z (seq 0 p))).
      - apply sumZ_map_ext. intros k Hk. apply in_seq in Hk. rewrite !glued_entry.
        rewrite (proj2 (Nat.leb_le (ncols T0) (m + k))) by (unfold m; lia).
        rewrite (proj2 (Nat.leb_le (nrows T1) (m + k))) by (unfold m; lia).
        replace (m + k - ncols T0) with k by (unfold m; lia). replace (m + k - nrows T1) with k by (unfold m; lia).
        rewrite (bT0 i (m + k)) by (unfold m; lia). rewrite (bT1 (m + k)%nat j) by (unfold m; lia).
        rewrite andb_true_r. cbn [andb].
        rewrite (bS1 (j - ncols T1) (m + k)%nat) by (unfold m; lia). rewrite transpose_entry.
        destruct (ncols T1 <=? j) eqn:Ej, (nrows T0 <=? i) eqn:Ei; ring.
      - destruct (ncols T1 <=? j) eqn:Ej.
        2:{ rewrite sumZ_map_0; auto. }
        rewrite sumZ_map_add, sumZ_map_opp.
        rewrite <- (product_entry_n (transpose S0) B1 p); [| unfold transpose; cbn [ncols]; unfold p; lia | unfold p; lia].
        destruct (nrows T0 <=? i).
        + rewrite <- (product_entry_n B0 B1 p) by (unfold p; lia). rewrite CB. lia.
        + rewrite sumZ_map_0; auto; lia. }
    rewrite A, B. destruct (ncols T1 <=? j); lia. }
  split.
  - intros H i j. specialize (H i (ncols T1 + j)). rewrite U in H.
    rewrite (proj2 (Nat.leb_le (ncols T1) (ncols T1 + j))) in H by lia.
    replace (ncols T1 + j - ncols T1) with j in H by lia. lia.
  - intros H i j. rewrite U. destruct (ncols T1 <=? j); auto. rewrite H. lia.
Qed.

(** ---- the pieces are bounded ---- *)
Lemma selection_bounded : forall d, bounded (selection_matrix d).
Proof.
  intros d i j H. rewrite selection_entry. unfold selection_matrix in H. cbn [nrows ncols] in H.
  destruct (i <? length (flatnonzero d)) eqn:E; auto. apply Nat.ltb_lt in E. cbn [andb].
  destruct (_ =? _) eqn:E2; auto. apply Nat.eqb_eq in E2. destruct (flatnonzero_nth d i E). lia.
Qed.
Lemma zeros_bounded : forall r c, bounded (sparse_zeros r c).
Proof. intros r c i j _. reflexivity. Qed.
Lemma matrix_bounded : forall n rows t, 1 <= n -> top_ok n rows t -> forall k, k < n -> bounded (matrix t k).
Proof.
  intros n rows t Hn T k Hk i j H. destruct (matrix_shape n rows t Hn T k Hk) as [R C]. rewrite R, C in H.
  destruct (Nat.ltb_spec i (n_elements t k)) as [Hi|Hi].
  - rewrite (matrix_entry_gen n rows t Hn T) by auto. rewrite (proj2 (Nat.ltb_ge j _)) by lia. auto.
  - apply (entry_row_out n rows t Hn T); auto.
Qed.

(** ---- boundary selector of a mesh with boundary ---- *)
Section Sel.
Variables (row_leb : list nat -> list nat -> bool) (sat : list (Z * Z) -> option (list Z)) (n : nat) (rows : list simplex) (t b : topology) (idx : list (list nat)).
Hypothesis OK : simplices_ok n rows.
Hypothesis Hn2 : 2 <= n.
Hypothesis T : top_ok n rows t.
Hypothesis Eb : boundary row_leb sat t = Ok (Some (b, idx)).
Hypothesis BF : boundary_facts row_leb n t b idx.
Hypothesis ND : forall k, k < n -> NoDup (nth k idx []).

Lemma bsel_flat : forall k, k < n -> forall c, In c (flatnonzero (boundary_chain row_leb sat t false k)) <-> In c (nth k idx []).
Proof.
  intros k Hk c. rewrite flatnonzero_in, boundary_chain_length. unfold boundary_chain. rewrite Eb.
  destruct (bf_idx _ _ _ _ _ BF k Hk) as [Lk X].
  rewrite (nth_error_nth' idx []) by (rewrite (bf_len _ _ _ _ _ BF); lia).
  unfold put. rewrite repeat_length.
  assert (R : forall i, In i (nth k idx []) -> i < n_elements t k).
  { intros i Hi. apply In_nth with (d := 0) in Hi as (p & Hp & <-). rewrite Lk in Hp. apply (X p Hp). }
  assert (FB : forallb (fun i => i <? n_elements t k) (nth k idx []) = true).
  { apply forallb_forall. intros i Hi. apply Nat.ltb_lt. auto. }
  rewrite FB. cbn [negb]. split.
  - intros [Hc E]. rewrite nth_map_seq in E by auto. destruct (existsb (Nat.eqb c) (nth k idx [])) eqn:Ex.
    + apply existsb_exists in Ex as (y & Hy & Ey). apply Nat.eqb_eq in Ey. subst y. auto.
    + rewrite nth_repeat' in E by auto. discriminate.
  - intros I. split; auto. rewrite nth_map_seq by auto.
    replace (existsb (Nat.eqb c) (nth k idx [])) with true; auto. symmetry. apply existsb_exists. exists c. split; auto. apply Nat.eqb_refl.
Qed.

Lemma bsel_nrows : forall k, k < n -> nrows (selector_boundary row_leb sat t k) = n_elements b k.
Proof.
  intros k Hk. unfold selector_boundary, selection_matrix. cbn [nrows].
  destruct (bf_idx _ _ _ _ _ BF k Hk) as [Lk _]. rewrite <- Lk. apply Permutation_length.
  apply NoDup_Permutation; auto. apply flatnonzero_nodup. apply bsel_flat; auto.
Qed.

Lemma bsel_sorted : forall k, k < n -> StronglySorted lt (nth k idx []) ->
  flatnonzero (boundary_chain row_leb sat t false k) = nth k idx [].
Proof. intros k Hk S. apply sorted_same_eq; auto. apply flatnonzero_sorted. apply bsel_flat; auto. Qed.

(** The matrix [b_m] used in the list [B] of dual.py:158. *)
Definition bmat (m : nat) : coo := match m with O => sparse_zeros 0 (n_elements b 0) | S p => matrix b p end.

Lemma bmat_bounded : forall m, m < n -> bounded (bmat m).
Proof.
  intros [|m] Hm; [apply zeros_bounded|].
  apply (matrix_bounded (n - 1) (relabel (bmap n t) (bel n t))); [lia|apply (bf_top _ _ _ _ _ BF)|lia].
Qed.
Lemma bmat_ncols : forall m, m < n -> ncols (bmat m) = n_elements b m.
Proof.
  intros [|m] Hm; auto. cbn [bmat].
  apply (matrix_shape (n - 1) _ b ltac:(lia) (bf_top _ _ _ _ _ BF) m). lia.
Qed.

Lemma dual_matrices_eq : dual_matrices row_leb sat t b =
  Ok (rev (map (fun m => transpose (glued (matrix t m) (bmat m) (selector_boundary row_leb sat t m))) (seq 0 n))).
Proof.
  pose proof (top_n_dim _ _ _ T) as Dn. pose proof (top_n_dim _ _ _ (bf_top _ _ _ _ _ BF)) as Db.
  unfold dual_matrices, matrices. rewrite Dn, Db.
  assert (E : combine (map (matrix t) (seq 0 n)) (combine (sparse_zeros 0 (n_elements b 0) :: map (matrix b) (seq 0 (n - 1)))
      (map (selector_boundary row_leb sat t) (seq 0 (S n)))) =
     map (fun m => (matrix t m, (bmat m, selector_boundary row_leb sat t m))) (seq 0 n)).
  { assert (E1 : sparse_zeros 0 (n_elements b 0) :: map (matrix b) (seq 0 (n - 1)) = map bmat (seq 0 n)).
    { replace n with (S (n - 1)) at 2 by lia. cbn [seq map bmat]. f_equal. rewrite <- seq_shift, map_map. auto. }
    rewrite E1. replace (S n) with (n + 1) by lia. rewrite seq_app, map_app.
    rewrite <- (app_nil_r (map bmat (seq 0 n))).
    assert (CA : forall A B (a : list A) (c c' : list B), length a = length c -> combine (a ++ []) (c ++ c') = combine a c).
    { intros A B a c c'. rewrite app_nil_r. revert c. induction a as [|x a IH]; intros [|y c] L; simpl in *; try lia; auto.
      f_equal. apply IH. lia. }
    rewrite CA by (rewrite !map_length; auto).
    clear. generalize (seq 0 n). induction l; simpl; auto. f_equal. auto. }
  rewrite E. clear E.
  assert (M : forall l, (forall m, In m l -> m < n) ->
     mapM (fun x => match x with (ta, (bb, ss)) => do g <- glue ta bb ss; Ok (transpose g) end)
       (map (fun m => (matrix t m, (bmat m, selector_boundary row_leb sat t m))) l) =
     Ok (map (fun m => transpose (glued (matrix t m) (bmat m) (selector_boundary row_leb sat t m))) l)).
  { induction l as [|m l IH]; intros Hl; auto. cbn [map mapM].
    assert (Hm : m < n) by (apply Hl; left; auto).
    rewrite glue_ok.
    - cbn [bind]. rewrite IH; auto. intros; apply Hl; right; auto.
    - destruct (matrix_shape n rows t ltac:(lia) T m Hm) as [R _]. rewrite R.
      unfold selector_boundary, selection_matrix. cbn [ncols]. rewrite boundary_chain_length. auto.
    - rewrite bsel_nrows, bmat_ncols by auto. auto. }
  rewrite M; [reflexivity|]. intros m Hm. apply in_seq in Hm. lia.
Qed.

Lemma glued_pair : forall m, S m < n ->
  ((forall i j, product_entry (glued (matrix t m) (bmat m) (selector_boundary row_leb sat t m))
                             (glued (matrix t (S m)) (bmat (S m)) (selector_boundary row_leb sat t (S m))) i j = 0%Z) <->
   (forall i j, product_entry (matrix t m) (transpose (selector_boundary row_leb sat t (S m))) i j =
                product_entry (transpose (selector_boundary row_leb sat t m)) (matrix b m) i j)).
Proof.
  intros m Hm. pose proof (bf_top _ _ _ _ _ BF) as Tb.
  destruct (matrix_shape n rows t ltac:(lia) T m ltac:(lia)) as [R0 C0].
  destruct (matrix_shape n rows t ltac:(lia) T (S m) ltac:(lia)) as [R1 C1].
  assert (NS : forall k, ncols (selector_boundary row_leb sat t k) = n_elements t k).
  { intros. unfold selector_boundary, selection_matrix. cbn [ncols]. apply boundary_chain_length. }
  apply (glued_product (matrix t m) (bmat m) (selector_boundary row_leb sat t m) (matrix t (S m)) (bmat (S m)) (selector_boundary row_leb sat t (S m))).
  - apply (matrix_bounded n rows); auto; lia.
  - apply (matrix_bounded n rows); auto; lia.
  - apply bmat_bounded; lia.
  - apply bmat_bounded; lia.
  - apply selection_bounded.
  - apply selection_bounded.
  - rewrite R0, NS; auto.
  - rewrite bsel_nrows, bmat_ncols by lia; auto.
  - rewrite R1, NS; auto.
  - rewrite bsel_nrows, bmat_ncols by lia; auto.
  - lia.
  - rewrite bmat_ncols by lia. cbn [bmat]. symmetry. apply (matrix_shape (n - 1) _ b ltac:(lia) Tb m). lia.
  - intros. apply (chain_zero n rows t ltac:(lia) T). auto.
  - intros i j. destruct m as [|m].
    + cbn [bmat]. unfold product_entry. apply sumZ_map_0. intros k _. rewrite Z.mul_comm. apply Z.mul_0_r.
    + cbn [bmat]. apply (chain_zero (n - 1) _ b ltac:(lia) Tb). lia.
Qed.

(** The coupling condition holds for the vertices and edges of a surface. *)
Lemma couple_2d : n = 2 -> (nth 1 idx []) = boundary_positions t ->
  forall i j, product_entry (matrix t 0) (transpose (selector_boundary row_leb sat t 1)) i j =
              product_entry (transpose (selector_boundary row_leb sat t 0)) (matrix b 0) i j.
Proof.
  intros E2 Etop i j. pose proof (bf_top _ _ _ _ _ BF) as Tb.
  assert (Hn : 1 <= n) by lia. assert (Hb : 1 <= n - 1) by lia.
  destruct (matrix_shape n rows t Hn T 0 ltac:(lia)) as [R0 C0].
  destruct (matrix_shape (n - 1) _ b Hb Tb 0 ltac:(lia)) as [R1 C1].
  assert (F1 : flatnonzero (boundary_chain row_leb sat t false 1) = boundary_positions t).
  { rewrite bsel_sorted; auto; try lia. rewrite Etop. apply boundary_positions_sorted. }
  assert (W : forall tt rr nn i, top_ok nn rr tt -> i < n_elements tt 0 -> el tt 0 i = [i]).
  { intros tt rr nn i0 TT Hi. unfold el. rewrite (to_verts _ _ _ TT). rewrite nth_map_seq by auto. auto. }
  assert (NV : n_elements b 0 = length (bmap n t)).
  { destruct (Nat.lt_total (n_elements b 0) (length (bmap n t))) as [Lt|[E|Lt]]; auto; exfalso.
    - pose proof (proj2 (relabel_verts (bel n t) (n_elements b 0)) Lt) as V. apply (to_vused _ _ _ Tb) in V. lia.
    - pose proof (proj2 (to_vused _ _ _ Tb (length (bmap n t))) Lt) as V. apply relabel_verts in V. unfold bmap in Lt. unfold bmap in V. lia. }
  assert (P0 : nth 0 idx [] = bmap n t).
  { destruct (bf_idx _ _ _ _ _ BF 0 ltac:(lia)) as [L0 X0]. apply nth_ext with (d := 0) (d' := 0); [lia|].
    intros v Hv. rewrite L0 in Hv. destruct (X0 v Hv) as (A & B). rewrite (W t rows n) in B by auto.
    rewrite (W b _ _ v Tb) in B by auto. apply Permutation_length_1 in B. auto. }
  assert (F0 : flatnonzero (boundary_chain row_leb sat t false 0) = bmap n t).
  { rewrite bsel_sorted; auto; try lia. rewrite P0. apply unique_nat_sorted. }
  assert (NB1 : n_elements b 1 = length (boundary_positions t)).
  { destruct (bf_idx _ _ _ _ _ BF 1 ltac:(lia)) as [L0 X0]. rewrite <- L0, Etop. auto. }
  (* left side *)
  assert (LHS : product_entry (matrix t 0) (transpose (selector_boundary row_leb sat t 1)) i j =
    if j <? length (boundary_positions t) then entry (matrix t 0) i (nth j (boundary_positions t) 0) else 0%Z).
  { rewrite (product_entry_n _ _ (n_elements t 1)).
    2: auto.
    2:{ unfold transpose, selector_boundary, selection_matrix. cbn [nrows ncols]. apply boundary_chain_length. }
    destruct (j <? length (boundary_positions t)) eqn:Ej.
    - rewrite (sumZ_single _ _ (nth j (boundary_positions t) 0)).
      + rewrite transpose_entry. unfold selector_boundary. rewrite selection_entry, F1, Ej, Nat.eqb_refl. cbn [andb]. ring.
      + apply Nat.ltb_lt in Ej. rewrite <- F1. rewrite <- F1 in Ej. destruct (flatnonzero_nth _ _ Ej) as [A _].
        rewrite boundary_chain_length in A. lia.
      + intros k Hk Hne. rewrite transpose_entry. unfold selector_boundary. rewrite selection_entry, F1, Ej.
        rewrite (proj2 (Nat.eqb_neq _ _)) by congruence. cbn [andb]. ring.
    - apply sumZ_map_0. intros k _. rewrite transpose_entry. unfold selector_boundary. rewrite selection_entry, F1, Ej. cbn [andb]. ring. }
  rewrite LHS. clear LHS.
  rewrite (product_entry_n _ _ (n_elements b 0)).
  2:{ unfold transpose. cbn [ncols]. apply bsel_nrows. lia. }
  2:{ auto. }
  destruct (j <? length (boundary_positions t)) eqn:Ej.
  2:{ symmetry. apply sumZ_map_0. intros k Hk. rewrite (matrix_bounded (n - 1) _ b Hb Tb 0 ltac:(lia) k j); [ring|].
      right. apply Nat.ltb_ge in Ej. lia. }
  apply Nat.ltb_lt in Ej. set (e := nth j (boundary_positions t) 0).
  assert (He : e < n_elements t 1).
  { rewrite <- F1 in Ej. destruct (flatnonzero_nth _ _ Ej) as [A _]. rewrite boundary_chain_length, F1 in A. auto. }
  assert (Ebel : nth j (bel n t) [] = el t 1 e).
  { unfold bel. rewrite (nth_map_lt _ _ _ _ _ 0) by auto. rewrite E2. auto. }
  assert (Eel : map (back (bmap n t)) (el b 1 j) = el t 1 e).
  { rewrite <- Ebel. pose proof (sub_top_el (n - 1) (bel n t) b Tb j) as X. unfold bel in X at 1. rewrite map_length in X.
    specialize (X Ej). rewrite <- X. unfold bmap. replace (n - 1) with 1 by lia. auto. }
  assert (NIv : forall v e, incidence_number [v] e <> 0%Z -> In v e).
  { intros v l Hv. destruct (in_dec Nat.eq_dec v l) as [|NI]; auto. exfalso. apply Hv.
    unfold incidence_number. apply sumZ_map_0. intros c Hc. apply in_seq in Hc.
    replace (rel_sign (omit c l) [v]) with 0%Z; [ring|]. unfold rel_sign.
    destruct (same_verts (omit c l) [v]) eqn:SV; auto. exfalso. apply same_verts_iff in SV. apply NI.
    apply (omit_incl c). eapply Permutation_in; [apply Permutation_sym; exact SV|]. left; auto. }
  destruct (in_dec Nat.eq_dec i (bmap n t)) as [Ii|Ii].
  - set (r := rank (bmap n t) i).
    assert (Hr : r < length (bmap n t)) by (apply (rank_lt (bel n t)); auto).
    assert (Br : back (bmap n t) r = i) by (apply (back_rank (bel n t)); auto).
    rewrite (sumZ_single _ _ r).
    + rewrite transpose_entry. unfold selector_boundary. rewrite selection_entry, F0.
      rewrite (proj2 (Nat.ltb_lt r _)) by lia. unfold back in Br. rewrite Br, Nat.eqb_refl. cbn [andb]. rewrite Z.mul_1_l.
      assert (Hi : i < n_elements t 0).
      { rewrite <- F0 in Ii. apply flatnonzero_in in Ii as [A _]. rewrite boundary_chain_length in A. auto. }
      rewrite (matrix_entry_el n rows t Hn T) by (auto; lia).
      rewrite (matrix_entry_el (n - 1) _ b Hb Tb) by (auto; lia).
      f_equal. rewrite <- Eel. rewrite (W t rows n) by auto.
      rewrite <- (incidence_back n Hn (n - 1) (bel n t) ltac:(lia) b Tb 0 r 1 j) by lia.
      rewrite (W b _ _ r Tb) by lia. cbn [map]. unfold bmap, back in *. rewrite Br. auto.
    + lia.
    + intros k Hk Hne. rewrite transpose_entry. unfold selector_boundary. rewrite selection_entry, F0.
      rewrite (proj2 (Nat.ltb_lt k _)) by lia. cbn [andb]. rewrite (proj2 (Nat.eqb_neq _ _)); [ring|].
      intros E. apply Hne. unfold r. rewrite <- E. symmetry. apply (rank_back (bel n t)). unfold bmap in *. lia.
  - transitivity 0%Z.
    + destruct (Nat.ltb_spec i (n_elements t 0)) as [Hi|Hi].
      * rewrite (matrix_entry_el n rows t Hn T) by (auto; lia).
        destruct (Z.eq_dec (incidence_number (el t 0 i) (el t 1 e)) 0) as [->|D]; [ring|].
        exfalso. apply Ii. rewrite (W t rows n) in D by auto. apply NIv in D.
        unfold bmap. apply (mapping_in (bel n t)). exists (el t 1 e). split; auto. rewrite <- Ebel. apply nth_In.
        unfold bel. rewrite map_length. auto.
      * apply (entry_row_out n rows t Hn T); auto; lia.
    + symmetry. apply sumZ_map_0. intros k Hk. rewrite transpose_entry. unfold selector_boundary. rewrite selection_entry, F0.
      destruct (k <? length (bmap n t)) eqn:Ek; cbn [andb]; [|ring].
      rewrite (proj2 (Nat.eqb_neq _ _)); [ring|]. intros E. apply Ii. rewrite <- E. apply nth_In. apply Nat.ltb_lt; auto.
Qed.
End Sel.
