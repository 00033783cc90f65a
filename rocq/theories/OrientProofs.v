(** Proofs about orientation clauses, fix_orientation and is_oriented. *)
Require Import List Arith ZArith Bool Lia Permutation Sorting.Sorted.
From Verif Require Import Util CombModel CombSpec CombProofs SimpModel SimpSpec ParProofs SimpProofs LevelProofs TopProofs.
From Verif Require Import BdryModel BdrySpec.
Import ListNotations.

Lemma in_combine_nth : forall A B (a : list A) (b : list B) da db x y, In (x, y) (combine a b) ->
  exists k, k < length a /\ k < length b /\ nth k a da = x /\ nth k b db = y.
Proof.
  induction a as [|u a IH]; destruct b; simpl; intros da db x y H; try tauto.
  destruct H as [H|H].
  - injection H as -> ->. exists 0. repeat split; lia.
  - destruct (IH _ da db _ _ H) as (k & ? & ? & ? & ?). exists (S k). repeat split; auto; lia.
Qed.

Lemma nth_concat_rect : forall A m (ll : list (list A)) d k, 0 < m -> Forall (fun l => length l = m) ll ->
  k < length (concat ll) -> nth k (concat ll) d = nth (k mod m) (nth (k / m) ll []) d /\ k / m < length ll.
Proof.
  intros A m ll d k Hm F. revert k. induction F as [|l ll Hl F IH]; simpl; intros k Hk; [lia|].
  rewrite app_length in Hk. destruct (Nat.ltb_spec k m) as [H|H].
  - rewrite Nat.div_small, Nat.mod_small by auto. rewrite app_nth1 by lia. split; auto; lia.
  - rewrite app_nth2 by lia. rewrite Hl. destruct (IH (k - m) ltac:(lia)) as [E L].
    assert (E1 : k / m = S ((k - m) / m)).
    { replace k with ((k - m) + 1 * m) at 1 by lia. rewrite Nat.div_add by lia. lia. }
    assert (E2 : k mod m = (k - m) mod m).
    { replace k with ((k - m) + 1 * m) at 1 by lia. rewrite Nat.mod_add by lia. auto. }
    rewrite E1, E2. split; [exact E|lia].
Qed.

Lemma in_topology_triples : forall m B Or r c v, 0 < m -> Forall (fun l => length l = m) B ->
  In (r, c, v) (triples (topology_matrix B Or)) -> c < length B /\ In r (nth c B []).
Proof.
  intros m B Or r c v Hm F H. unfold topology_matrix in H. cbn [triples] in H.
  apply in_combine_l in H.
  apply (in_combine_nth _ _ _ _ 0 0) in H as (k & H1 & _ & H3 & H4).
  assert (Hne : 0 < length B).
  { destruct B; simpl in *; lia. }
  rewrite (concat_length_rect _ B m F) in *.
  rewrite Nat.mul_comm, Nat.div_mul in H4 by lia.
  rewrite nth_map_seq in H4 by lia.
  destruct (nth_concat_rect _ m B 0 k Hm F ltac:(rewrite (concat_length_rect _ B m F); lia)) as [E L].
  rewrite H4 in *. split; auto. rewrite <- H3, E. apply nth_In.
  rewrite Forall_forall in F. rewrite F by (apply nth_In; auto). apply Nat.mod_upper_bound. lia.
Qed.

Lemma filter_seq_eq : forall p N l, filter p (seq 0 N) = l <->
  StronglySorted lt l /\ forall j, In j l <-> j < N /\ p j = true.
Proof.
  intros p N l. split.
  - intros <-. split.
    + apply StronglySorted_filter. apply seq_sorted.
    + intros j. rewrite filter_In, in_seq. intuition lia.
  - intros [S H]. apply (sorted_perm_eq nat lt); auto. { lia. }
    { apply StronglySorted_filter. apply seq_sorted. }
    assert (ND : forall l, StronglySorted lt l -> NoDup l).
    { induction 1 as [|a l0 SS IH F]; constructor; auto. intros Hi. rewrite Forall_forall in F. specialize (F _ Hi). lia. }
    apply NoDup_Permutation; auto. { apply NoDup_filter, seq_NoDup. }
    intros j. rewrite filter_In, in_seq, H. intuition lia.
Qed.

Section Top.
Variables (n : nat) (rows : list simplex) (t : topology).
Hypothesis Hn : 1 <= n.
Hypothesis T : top_ok n rows t.

Lemma top_n_dim : n_dim t = n.
Proof. unfold n_dim. apply (to_lenO _ _ _ T). Qed.

Definition el (k i : nat) : simplex := nth i (nth k (elements t) []) [].

Lemma el_in : forall k i, i < n_elements t k -> In (el k i) (nth k (elements t) []).
Proof. intros. apply nth_In. auto. Qed.
Lemma el_len : forall k i, k <= n -> i < n_elements t k -> length (el k i) = S k /\ NoDup (el k i).
Proof. intros. apply (top_len n rows t Hn T k); auto. apply el_in; auto. Qed.
Lemma el_top : forall j, el n j = nth j rows [].
Proof. intros. unfold el. rewrite (to_top _ _ _ T). auto. Qed.
Lemma n_top : n_elements t n = length rows.
Proof. unfold n_elements. rewrite (to_top _ _ _ T). auto. Qed.

Definition inclb (f s : list nat) : bool := if incl_dec' f s then true else false.
Lemma inclb_iff : forall f s, inclb f s = true <-> incl f s.
Proof. intros. unfold inclb. destruct (incl_dec' f s); split; intros; auto; congruence. Qed.

Lemma matrix_entry_el : forall k i j, k < n -> i < n_elements t k -> j < n_elements t (S k) ->
  entry (matrix t k) i j = (eps (S k) * incidence_number (el k i) (el (S k) j))%Z.
Proof.
  intros. rewrite (matrix_entry_gen n rows t Hn T) by auto.
  assert (E : (j <? n_elements t (S k)) = true) by (apply Nat.ltb_lt; auto). rewrite E. auto.
Qed.

Lemma csr_row_eq : forall k i, k < n -> i < n_elements t k ->
  csr_row (matrix t k) i =
    map (fun j => (j, entry (matrix t k) i j)) (filter (fun j => inclb (el k i) (el (S k) j)) (seq 0 (n_elements t (S k)))).
Proof.
  intros k i Hk Hi. unfold csr_row.
  destruct (matrix_shape n rows t Hn T k Hk) as [R C]. rewrite C. f_equal.
  apply filter_ext_in. intros j Hj. apply in_seq in Hj.
  pose proof (to_level _ _ _ T k Hk) as L.
  destruct (entry_values n rows t Hn T k i j Hk Hi ltac:(lia)) as [V1 V2].
  fold (el k i) in V1, V2. fold (el (S k) j) in V1, V2.
  apply eq_true_iff_eq. rewrite inclb_iff. rewrite existsb_exists. split.
  - intros ([[r c] v] & Hin & E). apply andb_true_iff in E as [E1 E2].
    apply Nat.eqb_eq in E1, E2. subst r c.
    apply (in_topology_triples (S (S k))) in Hin as [H1 H2]; [|lia|apply (lv_rectB _ _ _ _ _ L)].
    apply In_nth with (d := 0) in H2 as (c & Hc & E).
    pose proof (lv_rectB _ _ _ _ _ L) as FB. rewrite Forall_forall in FB. rewrite FB in Hc by (apply nth_In; auto).
    destruct (lv_idx _ _ _ _ _ L j c) as (_ & P & _); [rewrite <- (lv_lenB _ _ _ _ _ L); auto|auto|].
    rewrite E in P. unfold el. intros x Hx. eapply omit_incl. eapply Permutation_in; [apply Permutation_sym; exact P|exact Hx].
  - intros I. specialize (V1 I).
    destruct (existsb (fun t0 => match t0 with (r, c, _) => (r =? i) && (c =? j) end) (triples (matrix t k))) eqn:E.
    + apply existsb_exists in E as (x & H1 & H2). exists x. split; auto.
    + exfalso. assert (entry (matrix t k) i j = 0%Z).
      { unfold entry. apply sumZ_map_0. intros [[r c] v] Hin.
        destruct ((r =? i) && (c =? j)) eqn:E2; auto. exfalso.
        assert (X : existsb (fun t0 => match t0 with (r, c, _) => (r =? i) && (c =? j) end) (triples (matrix t k)) = true).
        { apply existsb_exists. exists (r, c, v). split; auto. }
        congruence. }
      lia.
Qed.

(** The facets, as seen by the specification. *)
Lemma face_iff : forall f j, is_face (n - 1) f (nth j rows []) <->
  NoDup f /\ length f = n /\ incl f (nth j rows []).
Proof. intros. unfold is_face. replace (S (n - 1)) with n by lia. tauto. Qed.

Lemma facet_index : forall f j, j < length rows -> is_face (n - 1) f (nth j rows []) ->
  exists i, i < n_elements t (n - 1) /\ Permutation (el (n - 1) i) f.
Proof.
  intros f j Hj F.
  destruct (proj2 (faces_complete n rows t Hn T 1 (n - 1) ltac:(lia) f)) as (e & He & P).
  { exists (nth j rows []). split; auto. apply nth_In; auto. }
  apply In_nth with (d := []) in He as (i & Hi & E). exists i. split; auto. unfold el. rewrite E. auto.
Qed.

Lemma el_face : forall i, i < n_elements t (n - 1) -> forall j, incl (el (n - 1) i) (nth j rows []) ->
  is_face (n - 1) (el (n - 1) i) (nth j rows []).
Proof. intros i Hi j I. destruct (el_len (n - 1) i ltac:(lia) Hi). apply face_iff. repeat split; auto. lia. Qed.

Definition exactly_two (i j1 j2 : nat) : Prop :=
  i < n_elements t (n - 1) /\ j1 < j2 < length rows /\
  forall j, j < length rows -> incl (el (n - 1) i) (nth j rows []) <-> (j = j1 \/ j = j2).

Lemma clauses_spec : forall a b, In (a, b) (orientation_clauses t) <->
  exists i j1 j2, exactly_two i j1 j2 /\
    a = ((Z.of_nat j1 + 1) * entry (matrix t (n - 1)) i j1)%Z /\
    b = ((Z.of_nat j2 + 1) * entry (matrix t (n - 1)) i j2)%Z.
Proof.
  intros a b. unfold orientation_clauses. rewrite top_n_dim.
  destruct (matrix_shape n rows t Hn T (n - 1) ltac:(lia)) as [R C].
  rewrite R. rewrite in_flat_map.
  assert (KEY : forall i, i < n_elements t (n - 1) -> forall j1 j2,
     filter (fun j => inclb (el (n - 1) i) (el (S (n - 1)) j)) (seq 0 (n_elements t (S (n - 1)))) = [j1; j2] <->
     exactly_two i j1 j2).
  { intros i Hi j1 j2. replace (S (n - 1)) with n by lia. rewrite filter_seq_eq, n_top. unfold exactly_two. split.
    - intros [S H]. inversion S; subst. inversion H3; subst.
      assert (A2 : j2 < length rows) by (apply H; simpl; auto).
      split; auto. split; [lia|]. intros j Hj. rewrite <- el_top, <- inclb_iff.
      specialize (H j). simpl in H. rewrite el_top in *. split.
      + intros E. destruct (proj2 H (conj Hj E)) as [X|[X|[]]]; auto.
      + intros X. apply H. destruct X; auto.
    - intros (_ & Hj & H). split.
      + repeat constructor. lia.
      + intros j. simpl. split.
        * intros [<-|[<-|[]]]; (split; [lia|]); rewrite inclb_iff, el_top; apply H; auto; lia.
        * intros [Hl E]. rewrite inclb_iff, el_top in E. apply H in E; auto. intuition. }
  split.
  - intros (i & Hi & H). apply in_seq in Hi. rewrite csr_row_eq in H by lia.
    remember (filter (fun j => inclb (el (n - 1) i) (el (S (n - 1)) j)) (seq 0 (n_elements t (S (n - 1))))) as l eqn:El.
    destruct l as [|j1 [|j2 [|j3 l]]]; simpl in H; try tauto.
    destruct H as [H|[]]. injection H as <- <-. exists i, j1, j2. repeat split; auto.
    + symmetry in El. apply KEY in El; [|lia]. apply El.
    + symmetry in El. apply KEY in El; [|lia]. apply El.
    + symmetry in El. apply KEY in El; [|lia]. apply El.
    + symmetry in El. apply KEY in El; [|lia]. apply El; auto.
    + symmetry in El. apply KEY in El; [|lia]. apply El; auto.
  - intros (i & j1 & j2 & X & -> & ->). exists i. split; [apply in_seq; destruct X; lia|].
    rewrite csr_row_eq by (destruct X; lia).
    rewrite (proj2 (KEY i (proj1 X) j1 j2) X). simpl. auto.
Qed.

Lemma entry_pm : forall i j, i < n_elements t (n - 1) -> j < length rows -> incl (el (n - 1) i) (nth j rows []) ->
  entry (matrix t (n - 1)) i j = 1%Z \/ entry (matrix t (n - 1)) i j = (-1)%Z.
Proof.
  intros i j Hi Hj I. destruct (entry_values n rows t Hn T (n - 1) i j ltac:(lia) Hi) as [V _].
  { replace (S (n - 1)) with n by lia. rewrite n_top. auto. }
  apply V. fold (el (n - 1) i). replace (S (n - 1)) with n by lia. fold (el n j). rewrite el_top. auto.
Qed.

Lemma entry_top : forall i j, i < n_elements t (n - 1) -> j < length rows ->
  entry (matrix t (n - 1)) i j = (eps n * incidence_number (el (n - 1) i) (nth j rows []))%Z.
Proof.
  intros i j Hi Hj. rewrite matrix_entry_el; try lia.
  - replace (S (n - 1)) with n by lia. rewrite el_top. auto.
  - replace (S (n - 1)) with n by lia. rewrite n_top. auto.
Qed.

(** Sign attached to a truth value. *)
Definition zsign (b : bool) : Z := if b then 1%Z else (-1)%Z.

Lemma lit_true_entry : forall v j e, (e = 1 \/ e = -1)%Z ->
  lit_true v ((Z.of_nat j + 1) * e) <-> (zsign (v j) * e = 1)%Z.
Proof.
  intros v j e [-> | ->]; unfold lit_true, zsign.
  - replace ((Z.of_nat j + 1) * 1)%Z with (Z.of_nat j + 1)%Z by lia.
    replace (Z.to_nat (Z.of_nat j + 1) - 1) with j by lia.
    destruct (v j); split; intros H; try lia; try (left; split; [lia|auto]); destruct H as [[? ?]|[? ?]]; try lia; discriminate.
  - replace ((Z.of_nat j + 1) * -1)%Z with (- (Z.of_nat j + 1))%Z by lia.
    replace (Z.to_nat (- - (Z.of_nat j + 1)) - 1) with j by lia.
    destruct (v j); split; intros H; try lia; try (right; split; [lia|auto]); destruct H as [[? ?]|[? ?]]; try lia; discriminate.
Qed.

Definition full_clauses := orientation_clauses t ++ map (fun c => (- fst c, - snd c)%Z) (orientation_clauses t).

Lemma zsign_pm : forall b, (zsign b = 1 \/ zsign b = -1)%Z.
Proof. destruct b; auto. Qed.

(** An assignment satisfies the clauses iff it makes all facets with two cofaces cancel. *)
Lemma satisfies_iff : forall v, satisfies v full_clauses <->
  forall i j1 j2, exactly_two i j1 j2 ->
    (zsign (v j1) * entry (matrix t (n - 1)) i j1 = - (zsign (v j2) * entry (matrix t (n - 1)) i j2))%Z.
Proof.
  intros v. unfold satisfies, full_clauses. split.
  - intros H i j1 j2 X.
    pose proof X as X'. destruct X as (Hi & Hj & X).
    assert (P1 := entry_pm i j1 Hi ltac:(lia) (proj2 (X j1 ltac:(lia)) (or_introl eq_refl))).
    assert (P2 := entry_pm i j2 Hi ltac:(lia) (proj2 (X j2 ltac:(lia)) (or_intror eq_refl))).
    set (e1 := entry (matrix t (n - 1)) i j1) in *. set (e2 := entry (matrix t (n - 1)) i j2) in *.
    assert (I1 : In ((Z.of_nat j1 + 1) * e1, (Z.of_nat j2 + 1) * e2)%Z (orientation_clauses t)).
    { apply clauses_spec. exists i, j1, j2. auto. }
    pose proof (H _ _ (proj2 (in_app_iff _ _ _) (or_introl I1))) as C1.
    pose proof (H (- ((Z.of_nat j1 + 1) * e1))%Z (- ((Z.of_nat j2 + 1) * e2))%Z) as C2.
    specialize (C2 ltac:(apply in_app_iff; right; apply in_map_iff; eexists; split; [|exact I1]; reflexivity)).
    rewrite <- !Z.mul_opp_r in C2.
    rewrite !lit_true_entry in C1, C2 by lia.
    destruct (zsign_pm (v j1)) as [E1|E1], (zsign_pm (v j2)) as [E2|E2]; rewrite E1, E2 in *; lia.
  - intros H a b Hin. apply in_app_iff in Hin as [Hin|Hin].
    + apply clauses_spec in Hin as (i & j1 & j2 & X & -> & ->). specialize (H _ _ _ X).
      destruct X as (Hi & Hj & X).
      assert (P1 := entry_pm i j1 Hi ltac:(lia) (proj2 (X j1 ltac:(lia)) (or_introl eq_refl))).
      assert (P2 := entry_pm i j2 Hi ltac:(lia) (proj2 (X j2 ltac:(lia)) (or_intror eq_refl))).
      rewrite !lit_true_entry by auto.
      destruct (zsign_pm (v j1)) as [E1|E1], (zsign_pm (v j2)) as [E2|E2]; rewrite E1, E2 in *; lia.
    + apply in_map_iff in Hin as ((a' & b') & E & Hin). apply pair_equal_spec in E as [<- <-]. simpl.
      apply clauses_spec in Hin as (i & j1 & j2 & X & -> & ->). specialize (H _ _ _ X).
      destruct X as (Hi & Hj & X).
      assert (P1 := entry_pm i j1 Hi ltac:(lia) (proj2 (X j1 ltac:(lia)) (or_introl eq_refl))).
      assert (P2 := entry_pm i j2 Hi ltac:(lia) (proj2 (X j2 ltac:(lia)) (or_intror eq_refl))).
      rewrite <- !Z.mul_opp_r. rewrite !lit_true_entry by lia.
      destruct (zsign_pm (v j1)) as [E1|E1], (zsign_pm (v j2)) as [E2|E2]; rewrite E1, E2 in *; lia.
Qed.

Lemma clauses_nonzero : forall a b, In (a, b) full_clauses -> (a <> 0 /\ b <> 0)%Z.
Proof.
  assert (B : forall a b, In (a, b) (orientation_clauses t) -> (a <> 0 /\ b <> 0)%Z).
  { intros a b Hin. apply clauses_spec in Hin as (i & j1 & j2 & X & -> & ->). destruct X as (Hi & Hj & X).
    assert (P1 := entry_pm i j1 Hi ltac:(lia) (proj2 (X j1 ltac:(lia)) (or_introl eq_refl))).
    assert (P2 := entry_pm i j2 Hi ltac:(lia) (proj2 (X j2 ltac:(lia)) (or_intror eq_refl))).
    destruct P1 as [-> | ->], P2 as [-> | ->]; lia. }
  intros a b Hin. unfold full_clauses in Hin. apply in_app_iff in Hin as [Hin|Hin]; auto.
  apply in_map_iff in Hin as ((a' & b') & E & Hin). apply pair_equal_spec in E as [<- <-]. apply B in Hin. simpl. lia.
Qed.

(** Shared facets have a stored element with exactly two cofaces. *)
Lemma shared_exactly_two : at_most_two n rows -> forall f j1 j2, j1 < length rows -> j2 < length rows -> j1 < j2 ->
  is_face (n - 1) f (nth j1 rows []) -> is_face (n - 1) f (nth j2 rows []) ->
  exists i, exactly_two i j1 j2 /\ Permutation (el (n - 1) i) f.
Proof.
  intros AM f j1 j2 H1 H2 Hlt F1 F2.
  destruct (facet_index f j1 H1 F1) as (i & Hi & P). exists i. split; auto.
  split; auto. split; [lia|]. intros j Hj. split.
  - intros I. assert (F3 : is_face (n - 1) f (nth j rows [])).
    { apply face_iff in F1. apply face_iff. repeat split; try tauto.
      intros x Hx. apply I. eapply Permutation_in; [apply Permutation_sym; exact P|auto]. }
    destruct (AM f j1 j2 j) as [E|[E|E]]; auto; lia.
  - intros [->| ->]; intros x Hx.
    + apply face_iff in F1. apply F1. eapply Permutation_in; eauto.
    + apply face_iff in F2. apply F2. eapply Permutation_in; eauto.
Qed.

Lemma incidence_perm_face : forall f g s, Permutation f g ->
  incidence_number g s = (sgn f * sgn g * incidence_number f s)%Z.
Proof.
  intros f g s P. unfold incidence_number. rewrite <- sumZ_map_mul. apply sumZ_map_ext. intros c _.
  unfold rel_sign. destruct (same_verts (omit c s) f) eqn:E.
  - apply same_verts_iff in E. assert (P2 : same_verts (omit c s) g = true) by (apply same_verts_iff; eapply perm_trans; eauto).
    rewrite P2. sgn_ring.
  - assert (P2 : same_verts (omit c s) g = false).
    { apply same_verts_false. apply same_verts_false in E. intros Q. apply E. eapply perm_trans; [exact Q|]. apply Permutation_sym; auto. }
    rewrite P2. ring.
Qed.

(** Consistent orientation in terms of the stored facets. *)
Lemma consistent_iff : at_most_two n rows -> (consistent n rows <->
  forall i j1 j2, exactly_two i j1 j2 ->
    incidence_number (el (n - 1) i) (nth j1 rows []) = (- incidence_number (el (n - 1) i) (nth j2 rows []))%Z).
Proof.
  intros AM. split.
  - intros C i j1 j2 (Hi & Hj & X). apply (C j1 j2); try lia; apply el_face; auto; apply X; auto; lia.
  - intros H.
    assert (B : forall j1 j2, j1 < j2 < length rows -> consistent_pair n (nth j1 rows []) (nth j2 rows [])).
    { intros j1 j2 Hj f F1 F2. destruct (shared_exactly_two AM f j1 j2) as (i & X & P); auto; try lia.
      specialize (H _ _ _ X). rewrite !(incidence_perm_face _ f _ P). rewrite H. ring. }
    intros j1 j2 H1 H2 Hne. destruct (Nat.lt_total j1 j2) as [L|[L|L]]; try lia.
    + apply B; lia.
    + intros f F1 F2. specialize (B j2 j1 ltac:(lia) f F2 F1). lia.
Qed.

End Top.
