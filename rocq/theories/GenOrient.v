(** relative_parity in terms of the last topology matrix alone: used for cubical topologies. *)
Require Import List Arith ZArith Bool Lia Permutation Sorting.Sorted.
From Verif Require Import Util SimpModel BdryModel BdrySpec OrientProofs FixProofs.
Import ListNotations.
Local Open Scope nat_scope.

Section Gen.
Variable t : topology.
Definition cells : nat := length (nth (n_dim t) (elements t) []).
Definition lastm : coo := matrix t (n_dim t - 1).
Hypothesis Hdim : 1 <= n_dim t.
Hypothesis HC : ncols lastm = cells.
Hypothesis HV : forall i j v, In (i, j, v) (triples lastm) -> i < nrows lastm -> (entry lastm i j = 1 \/ entry lastm i j = -1)%Z.

Definition pair_at (i j1 j2 : nat) : Prop :=
  i < nrows lastm /\ j1 < j2 < cells /\ forall j, j < cells -> (entry lastm i j <> 0%Z <-> j = j1 \/ j = j2).

Lemma entry_stored : forall M i j, entry M i j <> 0%Z -> exists v, In (i, j, v) (triples M).
Proof.
  intros M i j H. destruct (existsb (fun t0 => match t0 with (r, c, _) => (r =? i) && (c =? j) end) (triples M)) eqn:E.
  - apply existsb_exists in E as ([[r c] v] & Hin & E). apply andb_true_iff in E as [E1 E2]. apply Nat.eqb_eq in E1, E2. subst. eauto.
  - exfalso. apply H. unfold entry. apply sumZ_map_0. intros [[r c] v] Hin. destruct ((r =? i) && (c =? j)) eqn:E2; auto. exfalso.
    assert (X : existsb (fun t0 => match t0 with (r, c, _) => (r =? i) && (c =? j) end) (triples M) = true) by (apply existsb_exists; exists (r, c, v); auto). congruence.
Qed.
Lemma entry_pm1 : forall i j, i < nrows lastm -> entry lastm i j <> 0%Z -> (entry lastm i j = 1 \/ entry lastm i j = -1)%Z.
Proof. intros i j Hi H. apply entry_stored in H as [v Hv]. eauto. Qed.
Lemma pair_entries : forall i j1 j2, pair_at i j1 j2 -> (entry lastm i j1 = 1 \/ entry lastm i j1 = -1)%Z /\ (entry lastm i j2 = 1 \/ entry lastm i j2 = -1)%Z.
Proof. intros i j1 j2 (Hi & Hj & X). split; apply entry_pm1; auto; apply X; auto; lia. Qed.

Lemma csr_gen : forall i, i < nrows lastm -> csr_row lastm i = map (fun j => (j, entry lastm i j)) (filter (fun j => negb (entry lastm i j =? 0)%Z) (seq 0 cells)).
Proof.
  intros i Hi. unfold csr_row. rewrite HC. f_equal. apply filter_ext_in. intros j Hj. apply eq_true_iff_eq. rewrite existsb_exists, negb_true_iff, Z.eqb_neq. split.
  - intros ([[r c] v] & Hin & E). apply andb_true_iff in E as [E1 E2]. apply Nat.eqb_eq in E1, E2. subst. destruct (HV _ _ _ Hin Hi); lia.
  - intros H. apply entry_stored in H as [v Hv]. exists (i, j, v). split; auto. rewrite !Nat.eqb_refl. auto.
Qed.

Lemma clauses_gen : forall a b, In (a, b) (orientation_clauses t) <->
  exists i j1 j2, pair_at i j1 j2 /\ a = ((Z.of_nat j1 + 1) * entry lastm i j1)%Z /\ b = ((Z.of_nat j2 + 1) * entry lastm i j2)%Z.
Proof.
  intros a b. unfold orientation_clauses. fold lastm. rewrite in_flat_map.
  assert (KEY : forall i, i < nrows lastm -> forall j1 j2, filter (fun j => negb (entry lastm i j =? 0)%Z) (seq 0 cells) = [j1; j2] <-> pair_at i j1 j2).
  { intros i Hi j1 j2. rewrite filter_seq_eq. unfold pair_at. split.
    - intros [S H]. inversion S; subst. inversion H3; subst. assert (A2 : j2 < cells) by (apply H; simpl; auto). split; auto. split; [lia|]. intros j Hj. specialize (H j). simpl in H. rewrite negb_true_iff, Z.eqb_neq in H. split.
      + intros E. destruct (proj2 H (conj Hj E)) as [X|[X|[]]]; auto.
      + intros X. apply H. destruct X; auto.
    - intros (_ & Hj & H). split; [repeat constructor; lia|]. intros j. simpl. rewrite negb_true_iff, Z.eqb_neq. split.
      + intros [<-|[<-|[]]]; (split; [lia|]); apply H; auto; lia.
      + intros [Hl E]. apply H in E; auto. intuition. }
  split.
  - intros (i & Hi & H). apply in_seq in Hi. rewrite csr_gen in H by lia. remember (filter _ (seq 0 cells)) as l eqn:El. destruct l as [|j1 [|j2 [|j3 l]]]; simpl in H; try tauto.
    destruct H as [H|[]]. injection H as <- <-. exists i, j1, j2. split; auto. apply KEY; auto; lia.
  - intros (i & j1 & j2 & X & -> & ->). exists i. split; [apply in_seq; destruct X; lia|]. rewrite csr_gen by (destruct X; lia). rewrite (proj2 (KEY i (proj1 X) j1 j2) X). simpl. auto.
Qed.

(** Signs that make every doubly covered row cancel. *)
Definition cancels (v : nat -> bool) : Prop := forall i j1 j2, pair_at i j1 j2 -> (zsign (v j1) * entry lastm i j1 = - (zsign (v j2) * entry lastm i j2))%Z.

Lemma in_full_gen : forall a b, In (a, b) (full_clauses t) <-> In (a, b) (orientation_clauses t) \/ In (- a, - b)%Z (orientation_clauses t).
Proof.
  intros a b. unfold full_clauses. rewrite in_app_iff, in_map_iff. split; intros [H|H]; auto.
  - destruct H as ([a' b'] & E & H). apply pair_equal_spec in E as [<- <-]. right. cbn [fst snd]. rewrite !Z.opp_involutive. auto.
  - right. exists (- a, - b)%Z. cbn [fst snd]. rewrite !Z.opp_involutive. auto.
Qed.
Lemma satisfies_gen : forall v, satisfies v (full_clauses t) <-> cancels v.
Proof.
  intros v. unfold satisfies, cancels. split.
  - intros H i j1 j2 X. destruct (pair_entries _ _ _ X) as [P1 P2].
    assert (I1 : In ((Z.of_nat j1 + 1) * entry lastm i j1, (Z.of_nat j2 + 1) * entry lastm i j2)%Z (orientation_clauses t)) by (apply clauses_gen; exists i, j1, j2; auto).
    pose proof (H _ _ (proj2 (in_full_gen _ _) (or_introl I1))) as C1.
    pose proof (H (- ((Z.of_nat j1 + 1) * entry lastm i j1))%Z (- ((Z.of_nat j2 + 1) * entry lastm i j2))%Z) as C2. rewrite in_full_gen, !Z.opp_involutive in C2. specialize (C2 (or_intror I1)).
    set (e1 := entry lastm i j1) in *. set (e2 := entry lastm i j2) in *. clearbody e1 e2. rewrite <- !Z.mul_opp_r in C2. assert (P1' : (- e1 = 1 \/ - e1 = -1)%Z) by lia. assert (P2' : (- e2 = 1 \/ - e2 = -1)%Z) by lia.
    rewrite (lit_true_entry 1 (le_n 1) v j1 e1 P1), (lit_true_entry 1 (le_n 1) v j2 e2 P2) in C1. rewrite (lit_true_entry 1 (le_n 1) v j1 _ P1'), (lit_true_entry 1 (le_n 1) v j2 _ P2') in C2.
    destruct (zsign_pm (v j1)) as [E1|E1], (zsign_pm (v j2)) as [E2|E2]; rewrite E1, E2 in *; lia.
  - intros H a b Hin. apply in_full_gen in Hin as [Hin|Hin]; apply clauses_gen in Hin as (i & j1 & j2 & X & Ea & Eb); specialize (H _ _ _ X); destruct (pair_entries _ _ _ X) as [P1 P2].
    + subst. rewrite !(lit_true_entry 1 (le_n 1)) by auto. destruct (zsign_pm (v j1)) as [E1|E1], (zsign_pm (v j2)) as [E2|E2]; rewrite E1, E2 in *; lia.
    + set (e1 := entry lastm i j1) in *. set (e2 := entry lastm i j2) in *. clearbody e1 e2. replace a with ((Z.of_nat j1 + 1) * - e1)%Z by (rewrite Z.mul_opp_r; lia). replace b with ((Z.of_nat j2 + 1) * - e2)%Z by (rewrite Z.mul_opp_r; lia). rewrite !(lit_true_entry 1 (le_n 1)) by lia. destruct (zsign_pm (v j1)) as [E1|E1], (zsign_pm (v j2)) as [E2|E2]; rewrite E1, E2 in *; lia.
Qed.
Lemma clause_vars : forall a b, In (a, b) (full_clauses t) -> exists i j1 j2, pair_at i j1 j2 /\ Z.abs_nat a = S j1 /\ Z.abs_nat b = S j2.
Proof. intros a b H. apply in_full_gen in H as [H|H]; apply clauses_gen in H as (i & j1 & j2 & X & Ea & Eb); exists i, j1, j2; (split; [auto|]); destruct (pair_entries _ _ _ X) as [[Q1|Q1] [Q2|Q2]]; rewrite Q1 in Ea; rewrite Q2 in Eb; lia. Qed.
Lemma pair_clause : forall i j1 j2, pair_at i j1 j2 -> exists a b, In (a, b) (orientation_clauses t) /\ Z.abs_nat a = S j1 /\ Z.abs_nat b = S j2.
Proof. intros i j1 j2 X. eexists _, _. split; [apply clauses_gen; exists i, j1, j2; eauto|]. destruct (pair_entries _ _ _ X) as [[-> | ->] [-> | ->]]; lia. Qed.
Lemma nonzero_gen : forall a b, In (a, b) (full_clauses t) -> (a <> 0 /\ b <> 0)%Z.
Proof. intros a b H. apply clause_vars in H as (i & j1 & j2 & _ & A & B). lia. Qed.
Lemma pair_var : forall i j1 j2, pair_at i j1 j2 -> S j2 <= max_var (full_clauses t).
Proof. intros i j1 j2 X. destruct (pair_clause _ _ _ X) as (a & b & H & _ & A). destruct (max_var_ge (full_clauses t) a b); [apply in_full_gen; auto|]. lia. Qed.

Variable sat : list (Z * Z) -> option (list Z).
Hypothesis SC : sat_contract sat.

Lemma parity_gen :
  ((forall i j1 j2, ~ pair_at i j1 j2) /\ relative_parity sat t = Ok (repeat false cells)) \/
  ((exists i j1 j2, pair_at i j1 j2) /\
    ((relative_parity sat t = Err ValueError /\ forall v, ~ cancels v) \/
     (exists p, relative_parity sat t = Ok p /\ cancels (fun j => nth j p false) /\
        (forall i j1 j2, pair_at i j1 j2 -> j2 < length p) /\
        (forall m, (forall i j1 j2, pair_at i j1 j2 -> j2 < m) -> length p <= m)))).
Proof.
  unfold relative_parity. destruct (n_dim t =? 0) eqn:E0; [apply Nat.eqb_eq in E0; lia|].
  destruct (length (orientation_clauses t) =? 0) eqn:El.
  - left. split.
    + intros i j1 j2 X. apply pair_clause in X as (a & b & Hin & _). apply Nat.eqb_eq, length_zero_iff_nil in El. rewrite El in Hin. destruct Hin.
    + f_equal. unfold cells. clear. induction (nth (n_dim t) (elements t) []); simpl; congruence.
  - right. apply Nat.eqb_neq in El.
    assert (NE : exists c, In c (orientation_clauses t)) by (destruct (orientation_clauses t) as [|c l]; [simpl in El; lia|]; exists c; left; auto).
    destruct NE as ([a b] & Hin). split. { apply clauses_gen in Hin as (i & j1 & j2 & X & _). eauto. }
    fold (full_clauses t). pose proof (SC (full_clauses t) nonzero_gen) as S. destruct (sat (full_clauses t)) as [l|] eqn:Es.
    + right. destruct S as (L1 & L2 & L3). exists (map (fun x => (x <? 0)%Z) l). split; auto. rewrite map_length.
      assert (V : forall i j1 j2, pair_at i j1 j2 -> j2 < length l) by (intros i j1 j2 X; apply pair_var in X; lia). split; [|split; auto].
      * apply satisfies_gen in L3. intros i j1 j2 X. specialize (L3 _ _ _ X). cbv beta in L3. pose proof (V _ _ _ X) as V2. pose proof X as (_ & Hj & _).
        assert (B : forall j, j < length l -> zsign (nth j (map (fun x => (x <? 0)%Z) l) false) = (- zsign (0 <? nth j l 0)%Z)%Z).
        { intros j Hl. rewrite (nth_map_lt _ _ _ _ _ 0%Z) by auto. specialize (L2 j Hl). destruct (nth j l 0 <? 0)%Z eqn:Q1, (0 <? nth j l 0)%Z eqn:Q2; unfold zsign; lia. }
        rewrite !B by lia. lia.
      * intros m Hm. rewrite L1. apply max_var_le. intros a1 b1 H1. apply clause_vars in H1 as (i & j1 & j2 & X & A1 & A2). specialize (Hm _ _ _ X). pose proof X as (_ & Hj & _). lia.
    + left. split; auto. intros v C. apply (S v). apply satisfies_gen. auto.
Qed.
End Gen.
