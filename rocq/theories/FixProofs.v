(** Proofs about relative_parity, fix_orientation and is_oriented. *)
Require Import List Arith ZArith Bool Lia Permutation Sorting.Sorted.
From Verif Require Import Util CombModel CombSpec CombProofs SimpModel SimpSpec ParProofs SimpProofs LevelProofs TopProofs.
From Verif Require Import BdryModel BdrySpec OrientProofs.
Import ListNotations.

Lemma flip_perm : forall s, Permutation s (flip s).
Proof. destruct s as [|a [|b s]]; simpl; auto. constructor. Qed.
Lemma flip_sgn : forall s, NoDup s -> 2 <= length s -> sgn (flip s) = (- sgn s)%Z.
Proof.
  destruct s as [|a [|b s]]; simpl; intros ND L; try lia. apply sgn_swap.
  inversion ND; subst. intros ->. apply H1. left; auto.
Qed.
Lemma incidence_flip : forall f s, NoDup s -> 2 <= length s ->
  incidence_number f (flip s) = (- incidence_number f s)%Z.
Proof.
  intros f s ND L. rewrite (incidence_antisym_simplex f s (flip s) ND (flip_perm s)).
  rewrite flip_sgn by auto. destruct (sgn_cases s) as [-> | ->]; ring.
Qed.

Lemma swap01_flip : forall s, 2 <= length s -> swap01 s = Ok (flip s).
Proof. destruct s as [|a [|b s]]; simpl; intros; try lia. auto. Qed.

(** Choice between a row and its flip. *)
Definition choose (p : list bool) (rows : list simplex) : list simplex :=
  map (fun j => if nth j p false then nth j rows [] else flip (nth j rows [])) (seq 0 (length rows)).

Lemma choose_combine : forall rows p, length p = length rows ->
  map (fun pef : bool * (simplex * simplex) => match pef with (b, (e, f)) => if b : bool then e else f end) (combine p (combine rows (map flip rows)))
  = choose p rows.
Proof.
  unfold choose. induction rows as [|s rows IH]; destruct p as [|b p]; simpl; intros L; try lia; auto.
  f_equal. rewrite IH by lia. rewrite <- seq_shift, map_map. auto.
Qed.

Lemma choose_length : forall p rows, length (choose p rows) = length rows.
Proof. intros. unfold choose. rewrite map_length, seq_length. auto. Qed.
Lemma choose_nth : forall p rows j, j < length rows ->
  nth j (choose p rows) [] = if nth j p false then nth j rows [] else flip (nth j rows []).
Proof. intros. unfold choose. rewrite nth_map_seq by auto. auto. Qed.

Lemma choose_perm : forall p rows j, j < length rows -> Permutation (nth j rows []) (nth j (choose p rows) []).
Proof. intros. rewrite choose_nth by auto. destruct (nth j p false); auto. apply flip_perm. Qed.

Lemma choose_ok : forall p n rows, simplices_ok n rows -> simplices_ok n (choose p rows).
Proof.
  intros p n rows [Hne F]. split.
  - intros E. apply (f_equal (@length _)) in E. rewrite choose_length in E. destruct rows; simpl in *; try lia. congruence.
  - apply Forall_forall. intros s Hs. apply In_nth with (d := []) in Hs as (j & Hj & <-). rewrite choose_length in Hj.
    pose proof (choose_perm p rows j Hj) as P. rewrite Forall_forall in F.
    destruct (F (nth j rows []) (nth_In _ _ Hj)) as [L ND]. split.
    + rewrite <- (Permutation_length P); auto.
    + eapply Permutation_NoDup; eauto.
Qed.

Lemma choose_verts : forall p rows v, In v (concat (choose p rows)) <-> In v (concat rows).
Proof.
  intros p rows v. rewrite !in_concat. split; intros (s & Hs & Hv).
  - apply In_nth with (d := []) in Hs as (j & Hj & <-). rewrite choose_length in Hj.
    exists (nth j rows []). split; [apply nth_In; auto|].
    eapply Permutation_in; [apply Permutation_sym, (choose_perm p rows j Hj)|auto].
  - apply In_nth with (d := []) in Hs as (j & Hj & <-).
    exists (nth j (choose p rows) []). split; [apply nth_In; rewrite choose_length; auto|].
    eapply Permutation_in; [apply (choose_perm p rows j Hj)|auto].
Qed.

Lemma is_face_perm : forall k f s s', Permutation s s' -> is_face k f s <-> is_face k f s'.
Proof.
  intros k f s s' P. unfold is_face. split; intros (A & B & C); repeat split; auto;
    intros x Hx; (eapply Permutation_in; [|apply C, Hx]); auto. apply Permutation_sym; auto.
Qed.

Lemma choose_incidence : forall n rows p f j, 1 <= n -> simplices_ok n rows -> j < length rows ->
  incidence_number f (nth j (choose p rows) []) = (zsign (nth j p false) * incidence_number f (nth j rows []))%Z.
Proof.
  intros n rows p f j Hn [_ F] Hj. rewrite Forall_forall in F.
  destruct (F (nth j rows []) (nth_In _ _ Hj)) as [L ND].
  rewrite choose_nth by auto. unfold zsign. destruct (nth j p false).
  - lia.
  - rewrite incidence_flip by (auto; lia). lia.
Qed.

Lemma max_var_ge : forall cls a b, In (a, b) cls -> Z.abs_nat a <= max_var cls /\ Z.abs_nat b <= max_var cls.
Proof.
  intros cls a b H. unfold max_var.
  pose proof (proj1 (list_max_le (map (fun c => Nat.max (Z.abs_nat (fst c)) (Z.abs_nat (snd c))) cls) _) (le_n _)) as F.
  rewrite Forall_forall in F. specialize (F (Nat.max (Z.abs_nat a) (Z.abs_nat b))).
  specialize (F ltac:(apply in_map_iff; exists (a, b); auto)). lia.
Qed.

Lemma max_var_le : forall cls N, (forall a b, In (a, b) cls -> Z.abs_nat a <= N /\ Z.abs_nat b <= N) -> max_var cls <= N.
Proof.
  intros cls N H. unfold max_var. apply list_max_le. apply Forall_forall. intros x Hx.
  apply in_map_iff in Hx as ((a & b) & <- & Hin). simpl. apply H in Hin. lia.
Qed.

Section Top.
Variable row_leb : list nat -> list nat -> bool.
Variables (n : nat) (rows : list simplex) (t : topology).
Hypothesis OK : simplices_ok n rows.
Hypothesis Hn : 1 <= n.
Hypothesis T : top_ok n rows t.
Hypothesis AM : at_most_two n rows.
Variable sat : list (Z * Z) -> option (list Z).
Hypothesis SC : sat_contract sat.

(** A choice of flips is consistent iff its signs make all doubly covered facets cancel. *)
Lemma choose_consistent : forall p, consistent n (choose p rows) <->
  (forall i j1 j2, exactly_two n rows t i j1 j2 ->
    (zsign (nth j1 p false) * entry (matrix t (n - 1)) i j1 = - (zsign (nth j2 p false) * entry (matrix t (n - 1)) i j2))%Z).
Proof.
  intros p.
  assert (IF : forall f j, j < length rows -> is_face (n - 1) f (nth j (choose p rows) []) <-> is_face (n - 1) f (nth j rows [])).
  { intros f j Hj. apply is_face_perm. apply Permutation_sym, choose_perm; auto. }
  assert (EE : (eps n * eps n = 1)%Z) by (destruct (eps_cases n) as [-> | ->]; auto).
  split.
  - intros C i j1 j2 (Hi & Hj & X).
    assert (F1 : is_face (n - 1) (el t (n - 1) i) (nth j1 rows [])) by (apply (el_face n rows t Hn T); auto; apply X; auto; lia).
    assert (F2 : is_face (n - 1) (el t (n - 1) i) (nth j2 rows [])) by (apply (el_face n rows t Hn T); auto; apply X; auto; lia).
    specialize (C j1 j2). rewrite choose_length in C. specialize (C ltac:(lia) ltac:(lia) ltac:(lia) (el t (n - 1) i)).
    rewrite !IF in C by lia. specialize (C F1 F2).
    rewrite !(choose_incidence n rows p _ _ Hn OK) in C by lia.
    rewrite !(entry_top n rows t Hn T) by (auto; lia).
    replace (zsign (nth j1 p false) * (eps n * incidence_number (el t (n - 1) i) (nth j1 rows [])))%Z
      with (eps n * (zsign (nth j1 p false) * incidence_number (el t (n - 1) i) (nth j1 rows [])))%Z by ring.
    rewrite C. ring.
  - intros H.
    assert (B : forall j1 j2, j1 < j2 < length rows -> consistent_pair n (nth j1 (choose p rows) []) (nth j2 (choose p rows) [])).
    { intros j1 j2 Hj f F1 F2. rewrite IF in F1, F2 by lia.
      destruct (shared_exactly_two n rows t Hn T AM f j1 j2) as (i & X & P); auto; try lia.
      pose proof (H _ _ _ X) as H'. destruct X as (Hi & _ & _).
      rewrite !(entry_top n rows t Hn T) in H' by (auto; lia).
      rewrite !(choose_incidence n rows p _ _ Hn OK) by lia.
      rewrite !(incidence_perm_face _ f _ P).
      assert (H2 : (zsign (nth j1 p false) * incidence_number (el t (n - 1) i) (nth j1 rows []) =
                   - (zsign (nth j2 p false) * incidence_number (el t (n - 1) i) (nth j2 rows [])))%Z).
      { destruct (eps_cases n) as [E|E]; rewrite E in H'; lia. }
      replace (zsign (nth j1 p false) * (sgn (el t (n - 1) i) * sgn f * incidence_number (el t (n - 1) i) (nth j1 rows [])))%Z
       with (sgn (el t (n - 1) i) * sgn f * (zsign (nth j1 p false) * incidence_number (el t (n - 1) i) (nth j1 rows [])))%Z by ring.
      rewrite H2. ring. }
    intros j1 j2 H1 H2 Hne. rewrite choose_length in *. destruct (Nat.lt_total j1 j2) as [L|[L|L]]; try lia.
    + apply B; lia.
    + intros f F1 F2. specialize (B j2 j1 ltac:(lia) f F2 F1). lia.
Qed.

Lemma full_clause_vars : forall a b, In (a, b) (full_clauses t) ->
  exists i j1 j2, exactly_two n rows t i j1 j2 /\ Z.abs_nat a = S j1 /\ Z.abs_nat b = S j2.
Proof.
  assert (B : forall a b, In (a, b) (orientation_clauses t) ->
    exists i j1 j2, exactly_two n rows t i j1 j2 /\ Z.abs_nat a = S j1 /\ Z.abs_nat b = S j2).
  { intros a b H. apply (clauses_spec n rows t Hn T) in H as (i & j1 & j2 & X & -> & ->).
    exists i, j1, j2. split; auto. destruct X as (Hi & Hj & X).
    destruct (entry_pm n rows t Hn T i j1 Hi ltac:(lia) (proj2 (X j1 ltac:(lia)) (or_introl eq_refl))) as [-> | ->],
      (entry_pm n rows t Hn T i j2 Hi ltac:(lia) (proj2 (X j2 ltac:(lia)) (or_intror eq_refl))) as [-> | ->]; lia. }
  intros a b H. unfold full_clauses in H. apply in_app_iff in H as [H|H]; auto.
  apply in_map_iff in H as ((a' & b') & E & H). apply pair_equal_spec in E as [<- <-]. simpl.
  apply B in H as (i & j1 & j2 & X & A1 & A2). exists i, j1, j2. repeat split; try apply X; auto; lia.
Qed.

Lemma exactly_two_clause : forall i j1 j2, exactly_two n rows t i j1 j2 ->
  exists a b, In (a, b) (orientation_clauses t) /\ Z.abs_nat a = S j1 /\ Z.abs_nat b = S j2.
Proof.
  intros i j1 j2 X. eexists _, _. split.
  - apply (clauses_spec n rows t Hn T). exists i, j1, j2. eauto.
  - destruct X as (Hi & Hj & X).
    destruct (entry_pm n rows t Hn T i j1 Hi ltac:(lia) (proj2 (X j1 ltac:(lia)) (or_introl eq_refl))) as [-> | ->],
      (entry_pm n rows t Hn T i j2 Hi ltac:(lia) (proj2 (X j2 ltac:(lia)) (or_intror eq_refl))) as [-> | ->]; lia.
Qed.

Lemma adjacent_exactly_two : forall j1 j2, adjacent n rows j1 j2 -> exists i,
  exactly_two n rows t i (Nat.min j1 j2) (Nat.max j1 j2).
Proof.
  intros j1 j2 (H1 & H2 & Hne & f & F1 & F2).
  destruct (Nat.lt_total j1 j2) as [L|[L|L]]; try lia.
  - destruct (shared_exactly_two n rows t Hn T AM f j1 j2) as (i & X & _); auto.
    exists i. rewrite Nat.min_l, Nat.max_r by lia. auto.
  - destruct (shared_exactly_two n rows t Hn T AM f j2 j1) as (i & X & _); auto.
    exists i. rewrite Nat.min_r, Nat.max_l by lia. auto.
Qed.

Lemma exactly_two_adjacent : forall i j1 j2, exactly_two n rows t i j1 j2 -> adjacent n rows j1 j2.
Proof.
  intros i j1 j2 (Hi & Hj & X). split; [lia|]. split; [lia|]. split; [lia|].
  exists (el t (n - 1) i). split; apply (el_face n rows t Hn T); auto; apply X; auto; lia.
Qed.

(** Result of [relative_parity]. *)
Lemma relative_parity_cases :
  ((forall j1 j2, ~ adjacent n rows j1 j2) /\ relative_parity sat t = Ok (repeat false (length rows))) \/
  ((exists j1 j2, adjacent n rows j1 j2) /\
    ((relative_parity sat t = Err ValueError /\ forall p, ~ consistent n (choose p rows)) \/
     (exists p, relative_parity sat t = Ok p /\ length p = max_var (full_clauses t) /\ consistent n (choose p rows)))).
Proof.
  unfold relative_parity. rewrite (top_n_dim n rows t T).
  destruct (n =? 0) eqn:E0; [apply Nat.eqb_eq in E0; lia|].
  rewrite (to_top _ _ _ T).
  destruct (length (orientation_clauses t) =? 0) eqn:El.
  - left. split.
    + intros j1 j2 A. apply adjacent_exactly_two in A as (i & X).
      apply exactly_two_clause in X as (a & b & Hin & _). apply Nat.eqb_eq in El.
      apply length_zero_iff_nil in El. rewrite El in Hin. destruct Hin.
    + f_equal. clear. induction rows; simpl; congruence.
  - right. apply Nat.eqb_neq in El.
    assert (NE : exists c, In c (orientation_clauses t)).
    { destruct (orientation_clauses t) as [|c l]; [simpl in El; lia|]. exists c. left; auto. }
    destruct NE as ([a b] & Hin).
    split.
    { apply (clauses_spec n rows t Hn T) in Hin as (i & j1 & j2 & X & _). exists j1, j2. eapply exactly_two_adjacent; eauto. }
    fold (full_clauses t). pose proof (SC (full_clauses t) (clauses_nonzero n rows t Hn T)) as S.
    destruct (sat (full_clauses t)) as [l|] eqn:Es.
    + right. destruct S as (L1 & L2 & L3). exists (map (fun x => (x <? 0)%Z) l). split; auto.
      rewrite map_length. split; auto.
      rewrite (satisfies_iff n rows t Hn T) in L3. apply choose_consistent.
      intros i j1 j2 X. specialize (L3 _ _ _ X).
      assert (B : forall j, (j = j1 \/ j = j2) -> zsign (nth j (map (fun x => (x <? 0)%Z) l) false) = (- zsign (0 <? nth j l 0)%Z)%Z).
      { intros j Hj. assert (Hl : j < length l).
        { rewrite L1. destruct (exactly_two_clause _ _ _ X) as (a1 & b1 & Hi1 & A1 & A2).
          destruct (max_var_ge (full_clauses t) a1 b1); [unfold full_clauses; apply in_app_iff; auto|]. lia. }
        rewrite (nth_map_lt _ _ _ _ _ 0%Z) by auto. specialize (L2 j Hl).
        destruct (nth j l 0 <? 0)%Z eqn:Q1, (0 <? nth j l 0)%Z eqn:Q2; unfold zsign; lia. }
      rewrite !B by auto. lia.
    + left. split; auto. intros p C. apply (S (fun j => nth j p false)).
      apply (satisfies_iff n rows t Hn T). apply choose_consistent; auto.
Qed.

Lemma max_var_bound : max_var (full_clauses t) <= length rows.
Proof.
  apply max_var_le. intros a b H. apply full_clause_vars in H as (i & j1 & j2 & X & A1 & A2).
  destruct X as (_ & Hj & _). lia.
Qed.

Lemma max_var_last : (exists j, adjacent n rows j (length rows - 1)) -> max_var (full_clauses t) = length rows.
Proof.
  intros (j & A). pose proof max_var_bound. pose proof A as (H1 & H2 & H3 & _).
  apply adjacent_exactly_two in A as (i & X). apply exactly_two_clause in X as (a & b & Hin & A1 & A2).
  destruct (max_var_ge (full_clauses t) a b); [unfold full_clauses; apply in_app_iff; auto|]. lia.
Qed.

Lemma max_var_not_last : (forall j, ~ adjacent n rows j (length rows - 1)) -> max_var (full_clauses t) <= length rows - 1.
Proof.
  intros NA. apply max_var_le. intros a b H. apply full_clause_vars in H as (i & j1 & j2 & X & A1 & A2).
  pose proof (exactly_two_adjacent _ _ _ X) as A. destruct X as (_ & Hj & _).
  assert (j2 <> length rows - 1) by (intros ->; apply (NA j1); auto). lia.
Qed.

Lemma max_var_two : (exists j1 j2, adjacent n rows j1 j2) -> 2 <= max_var (full_clauses t).
Proof.
  intros (j1 & j2 & A). apply adjacent_exactly_two in A as (i & X). pose proof X as (_ & Hj & _).
  apply exactly_two_clause in X as (a & b & Hin & A1 & A2).
  destruct (max_var_ge (full_clauses t) a b); [unfold full_clauses; apply in_app_iff; auto|]. lia.
Qed.

Lemma mapM_swap : mapM swap01 rows = Ok (map flip rows).
Proof.
  apply mapM_map_ok. intros s Hs. apply swap01_flip. destruct OK as [_ F]. rewrite Forall_forall in F.
  destruct (F s Hs). lia.
Qed.

Lemma fix_from_parity : forall p, relative_parity sat t = Ok p -> length p = length rows ->
  exists t', fix_orientation row_leb sat t = Ok t' /\ top_ok n (choose p rows) t' /\
             from_simplices row_leb n (choose p rows) = Ok t'.
Proof.
  intros p E L. unfold fix_orientation. rewrite E. cbn [bind].
  rewrite (top_n_dim n rows t T), (to_top _ _ _ T), mapM_swap. cbn [bind].
  unfold broadcast. rewrite L, Nat.eqb_refl. cbn [bind]. rewrite choose_combine by auto.
  destruct (from_simplices_cases row_leb n (choose p rows) Hn (choose_ok p n rows OK)) as [H1 _].
  destruct H1 as (t' & E' & T'); [|eauto].
  destruct (to_contig _ _ _ T) as (m & Hm). exists m. intros v. rewrite choose_verts. auto.
Qed.

Lemma fix_fails : (exists j1 j2, adjacent n rows j1 j2) -> (forall j, ~ adjacent n rows j (length rows - 1)) ->
  fix_orientation row_leb sat t = Err ValueError.
Proof.
  intros A NA. unfold fix_orientation.
  destruct relative_parity_cases as [[NA2 _]|[_ [[E _]|(p & E & L & _)]]].
  - destruct A as (j1 & j2 & A). exfalso. eapply NA2; eauto.
  - rewrite E. reflexivity.
  - rewrite E. cbn [bind]. rewrite (top_n_dim n rows t T), (to_top _ _ _ T), mapM_swap. cbn [bind].
    pose proof (max_var_not_last NA). pose proof (max_var_two A).
    unfold broadcast. assert (E2 : (length p =? length rows) = false) by (apply Nat.eqb_neq; lia). rewrite E2.
    destruct p as [|b [|b' p]]; simpl in L; try lia; reflexivity.
Qed.

Lemma choose_false_consistent : (forall j1 j2, ~ adjacent n rows j1 j2) -> forall p, consistent n (choose p rows).
Proof.
  intros NA p j1 j2 H1 H2 Hne f F1 F2. rewrite choose_length in *. exfalso. apply (NA j1 j2).
  repeat split; auto. exists f. split; (eapply is_face_perm; [apply (choose_perm p); auto|auto]).
Qed.

(** Consistent meshes, in terms of [choose]. *)
Lemma choose_true : choose (repeat true (length rows)) rows = rows.
Proof.
  unfold choose. etransitivity; [|apply (map_nth_seq _ rows [])]. apply map_ext_in. intros j Hj. apply in_seq in Hj.
  rewrite (nth_indep _ false true) by (rewrite repeat_length; lia). rewrite nth_repeat. auto.
Qed.

Lemma all_equal_iff : forall l, all_equal l = true <-> forall i j, i < length l -> j < length l -> nth i l false = nth j l false.
Proof.
  destruct l as [|x l]; cbn [all_equal].
  - split; auto. simpl. intros; lia.
  - rewrite forallb_forall. split.
    + intros H i j Hi Hj.
      assert (B : forall i, i < S (length l) -> nth i (x :: l) false = x).
      { intros [|k] Hk; auto. cbn [nth]. symmetry. apply Bool.eqb_true_iff. apply H. apply nth_In. lia. }
      simpl in Hi, Hj. rewrite !B by lia. auto.
    + intros H b Hb. apply In_nth with (d := false) in Hb as (k & Hk & <-). apply Bool.eqb_true_iff.
      apply (H 0 (S k)); simpl; lia.
Qed.

(** [is_oriented = True] is reliable on meshes with at most two cofaces per facet ... *)
Lemma is_oriented_consistent : is_oriented sat t = Ok true -> consistent n rows.
Proof.
  unfold is_oriented. destruct relative_parity_cases as [[NA E]|[A [[E _]|(p & E & L & C)]]]; rewrite E; cbn [bind].
  - intros _. rewrite <- choose_true. apply choose_false_consistent; auto.
  - discriminate.
  - intros H. injection H as H. rewrite all_equal_iff in H.
    rewrite <- choose_true. apply choose_consistent. rewrite choose_consistent in C.
    intros i j1 j2 X. specialize (C _ _ _ X).
    destruct (exactly_two_clause _ _ _ X) as (a & b & Hin & A1 & A2).
    destruct (max_var_ge (full_clauses t) a b); [unfold full_clauses; apply in_app_iff; auto|].
    rewrite (H j1 j2) in C by lia. destruct X as (_ & Hj & _).
    rewrite !(nth_indep _ false true) by (rewrite repeat_length; lia). rewrite !nth_repeat.
    destruct (zsign_pm (nth j2 p false)) as [Q|Q]; rewrite Q in C; unfold zsign; lia.
Qed.

(** ... and complete on connected meshes. *)
Lemma linked_equal : forall p, consistent n rows -> consistent n (choose p rows) ->
  forall j1 j2, linked n rows j1 j2 -> nth j1 p false = nth j2 p false.
Proof.
  intros p C1 C2. rewrite <- choose_true in C1. rewrite choose_consistent in C1, C2.
  assert (B : forall i j1 j2, exactly_two n rows t i j1 j2 -> nth j1 p false = nth j2 p false).
  { intros i j1 j2 X. specialize (C1 _ _ _ X). specialize (C2 _ _ _ X).
    destruct X as (Hi & Hj & X).
    assert (P1 := entry_pm n rows t Hn T i j1 Hi ltac:(lia) (proj2 (X j1 ltac:(lia)) (or_introl eq_refl))).
    rewrite !(nth_indep _ false true) in C1 by (rewrite repeat_length; lia). rewrite !nth_repeat in C1.
    unfold zsign in *. destruct (nth j1 p false), (nth j2 p false); auto; lia. }
  induction 1 as [|j1 j2 j3 L IH A]; auto. rewrite IH.
  apply adjacent_exactly_two in A as (i & X). apply B in X.
  destruct (Nat.lt_total j2 j3) as [Q|[Q|Q]].
  - rewrite Nat.min_l, Nat.max_r in X by lia. auto.
  - congruence.
  - rewrite Nat.min_r, Nat.max_l in X by lia. auto.
Qed.

Lemma is_oriented_complete : connected n rows -> consistent n rows -> is_oriented sat t = Ok true.
Proof.
  intros CN C. unfold is_oriented. destruct relative_parity_cases as [[NA E]|[A [[E N]|(p & E & L & C2)]]]; rewrite E; cbn [bind].
  - f_equal. apply all_equal_iff. intros. rewrite !nth_repeat. auto.
  - exfalso. apply (N (repeat true (length rows))). rewrite choose_true. auto.
  - f_equal. apply all_equal_iff. intros i j Hi Hj. pose proof max_var_bound.
    rewrite <- (linked_equal p C C2 0 i), <- (linked_equal p C C2 0 j); auto; apply CN; lia.
Qed.

End Top.
