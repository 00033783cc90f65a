(** Consequences of the construction for whole simplicial topologies. *)
Require Import List Arith ZArith Bool Lia Permutation Sorting.Sorted.
From Verif Require Import Util CombModel CombSpec CombProofs SimpModel SimpSpec ParProofs SimpProofs LevelProofs.
Import ListNotations.

Section Order.
Variable row_leb : list nat -> list nat -> bool.

Record top_ok (n : nat) (rows : list simplex) (t : topology) : Prop := {
  to_lenE : length (elements t) = S n;
  to_lenB : length (boundary_idx t) = n;
  to_lenO : length (orientation t) = n;
  to_top : nth n (elements t) [] = rows;
  to_contig : exists m, forall v, In v (concat rows) <-> v < m;
  to_verts : nth 0 (elements t) [] = map (fun v => [v]) (seq 0 (n_elements t 0));
  to_vused : forall v, In v (concat rows) <-> v < n_elements t 0;
  to_ok : forall k, 1 <= k <= n -> simplices_ok k (nth k (elements t) []);
  to_level : forall k, k < n -> level_ok (S k) (nth (S k) (elements t) []) (nth k (elements t) [])
                (nth k (boundary_idx t) []) (nth k (orientation t) []);
  to_rep : forall k, 1 <= k < n -> forall i, i < n_elements t k ->
             In (nth i (nth k (elements t) []) []) (concat (full (S k) (nth (S k) (elements t) [])))
}.

Lemma from_simplices_cases : forall n rows, 1 <= n -> simplices_ok n rows ->
  ((exists m, forall v, In v (concat rows) <-> v < m) ->
     exists t, from_simplices row_leb n rows = Ok t /\ top_ok n rows t) /\
  (~ (exists m, forall v, In v (concat rows) <-> v < m) ->
     from_simplices row_leb n rows = Err ValueError).
Proof.
  intros n rows Hn OK.
  destruct (build_ok row_leb n rows Hn OK) as (E & B & Or & Eb & LE & LB & LO & HN & HU & HL & Hok & Hlev & Hedge & H0).
  unfold from_simplices. destruct (n =? 0) eqn:En; [apply Nat.eqb_eq in En; lia|].
  rewrite Eb. cbn [bind]. unfold make_topology.
  rewrite HL, HU. split.
  - intros C. pose proof C as C'. apply unique_nat_contiguous in C.
    assert (El : list_eqb (unique_nat (concat rows)) (seq 0 (length (unique_nat (concat rows)))) = true)
      by (apply list_eqb_eq; auto).
    rewrite El. eexists. split; [reflexivity|].
    assert (CV : contiguous_verts E) by (unfold contiguous_verts; rewrite HU, HL; auto).
    constructor; cbn [elements boundary_idx orientation]; auto.
    + unfold n_elements. cbn [elements]. rewrite HL, H0, C. rewrite seq_length. auto.
    + intros v. unfold n_elements. cbn [elements]. rewrite HL.
      rewrite <- unique_nat_in. rewrite C at 1. rewrite in_seq. lia.
    + intros k Hk. destruct k as [|k]; [apply Hedge; auto|]. apply Hlev. lia.
    + intros k Hk i Hi. apply Hlev; auto.
  - intros NC. destruct (list_eqb _ _) eqn:El; auto.
    apply list_eqb_eq in El. exfalso. apply NC. apply unique_nat_contiguous; auto.
Qed.

Lemma from_simplices_top_ok : forall n rows t, simplices_ok n rows ->
  from_simplices row_leb n rows = Ok t -> 1 <= n /\ top_ok n rows t.
Proof.
  intros n rows t OK H.
  assert (Hn : 1 <= n). { destruct n; [discriminate|lia]. }
  split; auto.
  destruct (from_simplices_cases n rows Hn OK) as [H1 H2].
  pose proof (proj1 (unique_nat_contiguous (concat rows))) as U.
  destruct (list_eq_dec Nat.eq_dec (unique_nat (concat rows)) (seq 0 (length (unique_nat (concat rows))))) as [C|C].
  - destruct (H1 (U C)) as (t' & E & T). congruence.
  - rewrite H2 in H; [discriminate|]. intros C'. apply C. apply unique_nat_contiguous; auto.
Qed.

End Order.

Lemma exists_outside : forall (f s : list nat), NoDup s -> length f < length s -> exists v, In v s /\ ~ In v f.
Proof.
  intros f s ND L.
  destruct (Exists_dec (fun v => ~ In v f) s) as [H|H].
  - intros v. destruct (in_dec Nat.eq_dec v f); [right|left]; auto.
  - apply Exists_exists in H. auto.
  - exfalso. assert (incl s f).
    { intros v Hv. destruct (in_dec Nat.eq_dec v f); auto. exfalso. apply H. apply Exists_exists. eauto. }
    apply NoDup_incl_length in H0; auto. lia.
Qed.

Lemma incl_dec' : forall (f s : list nat), {incl f s} + {~ incl f s}.
Proof.
  intros f s. destruct (Forall_dec (fun x => In x s) (fun x => in_dec Nat.eq_dec x s) f) as [H|H].
  - left. rewrite Forall_forall in H. exact H.
  - right. intros I. apply H. apply Forall_forall. exact I.
Qed.

Lemma incidence_values : forall f s, NoDup f -> NoDup s -> length s = S (length f) ->
  (incl f s -> incidence_number f s = 1%Z \/ incidence_number f s = (-1)%Z) /\
  (~ incl f s -> incidence_number f s = 0%Z).
Proof.
  intros f s NDf NDs L. split.
  - intros I. destruct (exists_outside f s NDs ltac:(lia)) as (v & Hv & Hnv).
    apply In_nth with (d := 0) in Hv as (c & Hc & Ec).
    assert (P : Permutation (omit c s) f).
    { apply Permutation_cons_inv with (a := v).
      eapply perm_trans; [rewrite <- Ec; apply Permutation_sym, omit_perm_cons; auto|].
      apply Permutation_sym. apply NoDup_Permutation_bis; [constructor; auto|simpl; lia|].
      intros x [<-|Hx]; auto. rewrite <- Ec. apply nth_In; auto. }
    unfold incidence_number. rewrite (sumZ_single _ _ c Hc).
    + rewrite rel_sign_perm by auto.
      destruct (sgn_pow_cases c) as [E1|E1], (sgn_cases (omit c s)) as [E2|E2], (sgn_cases f) as [E3|E3]; rewrite E1, E2, E3; auto.
    + intros c' Hc' Hne. rewrite rel_sign_neq. { lia. }
      intros P'. apply Hne. apply (omit_perm_inj c' c s); auto.
      eapply perm_trans; [exact P'|apply Permutation_sym; exact P].
  - intros NI. unfold incidence_number. apply sumZ_map_0. intros c Hc. apply in_seq in Hc.
    rewrite rel_sign_neq. { lia. }
    intros P. apply NI. intros x Hx. eapply omit_incl. eapply Permutation_in; [apply Permutation_sym; exact P|auto].
Qed.

Lemma eps_cases : forall k, eps k = 1%Z \/ eps k = (-1)%Z.
Proof. intros. unfold eps. destruct (k =? 1); auto. Qed.

Lemma incl_omit : forall f s, NoDup f -> NoDup s -> length s = S (length f) -> incl f s ->
  exists c, c < length s /\ Permutation (omit c s) f.
Proof.
  intros f s NDf NDs L I.
  destruct (exists_outside f s NDs ltac:(lia)) as (v & Hv & Hnv).
  apply In_nth with (d := 0) in Hv as (c & Hc & Ec). exists c. split; auto.
  apply Permutation_cons_inv with (a := v).
  eapply perm_trans; [rewrite <- Ec; apply Permutation_sym, omit_perm_cons; auto|].
  apply Permutation_sym. apply NoDup_Permutation_bis; [constructor; auto|simpl; lia|].
  intros x [<-|Hx]; auto. rewrite <- Ec. apply nth_In; auto.
Qed.

Section Top.
Variables (n : nat) (rows : list simplex) (t : topology).
Hypothesis Hn : 1 <= n.
Hypothesis T : top_ok n rows t.

Lemma top_len : forall k s, k <= n -> In s (nth k (elements t) []) -> length s = S k /\ NoDup s.
Proof.
  intros k s Hk Hs. destruct k as [|k].
  - rewrite (to_verts _ _ _ T) in Hs. apply in_map_iff in Hs as (v & <- & _). simpl. split; auto.
    repeat constructor; auto.
  - destruct (to_ok _ _ _ T (S k) ltac:(lia)) as [_ F]. rewrite Forall_forall in F. auto.
Qed.

Lemma n_elements_pos : forall k, k <= n -> 0 < n_elements t k.
Proof.
  intros k Hk. destruct k as [|k].
  - destruct (to_ok _ _ _ T 1 ltac:(lia)) as [Hne F].
    pose proof (to_level _ _ _ T 0 ltac:(lia)) as L.
    destruct (nth 1 (elements t) []) as [|s r] eqn:E; [congruence|].
    destruct (lv_cover _ _ _ _ _ L s 0 (or_introl eq_refl) ltac:(lia)) as (k & Hk2 & _).
    unfold n_elements. lia.
  - destruct (to_ok _ _ _ T (S k) ltac:(lia)) as [Hne _]. unfold n_elements.
    destruct (nth (S k) (elements t) []); simpl; [congruence|lia].
Qed.

Lemma matrix_entry_gen : forall k i j, k < n -> i < n_elements t k ->
  entry (matrix t k) i j =
   if j <? n_elements t (S k) then
    (eps (S k) * incidence_number (nth i (nth k (elements t) []) []) (nth j (nth (S k) (elements t) []) []))%Z
   else 0%Z.
Proof.
  intros k i j Hk Hi. pose proof (to_level _ _ _ T k Hk) as L. unfold matrix.
  pose proof (n_elements_pos (S k) ltac:(lia)) as Hp.
  rewrite (topology_matrix_entry (S (S k))).
  - rewrite (lv_lenB _ _ _ _ _ L). fold (n_elements t (S k)).
    destruct (j <? n_elements t (S k)) eqn:E; auto. apply Nat.ltb_lt in E.
    apply (level_entry _ _ _ _ _ L); auto.
    apply Forall_forall. intros s Hs. apply top_len in Hs; [tauto|lia].
  - lia.
  - apply (lv_rectB _ _ _ _ _ L).
  - apply (lv_rectO _ _ _ _ _ L).
  - rewrite (lv_lenB _ _ _ _ _ L), (lv_lenO _ _ _ _ _ L). auto.
  - intros E. pose proof (lv_lenB _ _ _ _ _ L) as X. rewrite E in X. unfold n_elements in Hp. simpl in X. lia.
Qed.

Lemma matrix_shape : forall k, k < n ->
  nrows (matrix t k) = n_elements t k /\ ncols (matrix t k) = n_elements t (S k).
Proof.
  intros k Hk. pose proof (to_level _ _ _ T k Hk) as L.
  pose proof (n_elements_pos (S k) ltac:(lia)) as Hp. pose proof (n_elements_pos k ltac:(lia)) as Hp0.
  assert (Hne : nth k (boundary_idx t) [] <> []).
  { intros E. pose proof (lv_lenB _ _ _ _ _ L) as X. rewrite E in X. unfold n_elements in Hp. simpl in X. lia. }
  destruct (topology_matrix_shape (S (S k)) _ (nth k (orientation t) []) ltac:(lia) (lv_rectB _ _ _ _ _ L) Hne) as (H1 & H2 & H3).
  unfold matrix. split.
  - apply Nat.le_antisymm.
    + apply H3; auto. intros i l Hl Hi.
      apply In_nth with (d := []) in Hl as (j & Hj & <-).
      pose proof (lv_rectB _ _ _ _ _ L) as FB. rewrite Forall_forall in FB.
      assert (Ll : length (nth j (nth k (boundary_idx t) []) []) = S (S k)) by (apply FB, nth_In; auto).
      apply In_nth with (d := 0) in Hi as (c & Hc & <-).
      rewrite (lv_lenB _ _ _ _ _ L) in Hj. rewrite Ll in Hc.
      destruct (lv_idx _ _ _ _ _ L j c Hj Hc) as [X _]. exact X.
    + destruct (n_elements t k) as [|m] eqn:Em; [lia|].
      assert (Hm : m < length (nth k (elements t) [])) by (unfold n_elements in Em; lia).
      destruct (lv_sub _ _ _ _ _ L m Hm) as (s & c & Hs & Hc & P).
      apply In_nth with (d := []) in Hs as (j & Hj & <-).
      assert (Epi : pi (S k) (pi (S k) c) = c). { unfold pi. destruct (S k =? 1) eqn:E; auto. apply Nat.eqb_eq in E. lia. }
      destruct (lv_idx _ _ _ _ _ L j (pi (S k) c) Hj (pi_lt _ _ Hc)) as (X1 & X2 & _).
      rewrite Epi in X2.
      assert (X3 : nth (pi (S k) c) (nth j (nth k (boundary_idx t) []) []) 0 = m).
      { apply (lv_uniq _ _ _ _ _ L); auto. eapply perm_trans; [apply Permutation_sym; exact X2|exact P]. }
      assert (m < nrows (topology_matrix (nth k (boundary_idx t) []) (nth k (orientation t) []))).
      { apply (H2 m (nth j (nth k (boundary_idx t) []) [])).
        - apply nth_In. rewrite (lv_lenB _ _ _ _ _ L). auto.
        - rewrite <- X3. apply nth_In.
          pose proof (lv_rectB _ _ _ _ _ L) as FB. rewrite Forall_forall in FB.
          rewrite FB by (apply nth_In; rewrite (lv_lenB _ _ _ _ _ L); auto). apply pi_lt; auto. }
      lia.
  - rewrite H1. apply (lv_lenB _ _ _ _ _ L).
Qed.

Lemma entry_row_out : forall k i j, k < n -> n_elements t k <= i -> entry (matrix t k) i j = 0%Z.
Proof.
  intros k i j Hk Hi. pose proof (to_level _ _ _ T k Hk) as L. unfold matrix.
  pose proof (n_elements_pos (S k) ltac:(lia)) as Hp.
  assert (Hne : nth k (boundary_idx t) [] <> []).
  { intros E. pose proof (lv_lenB _ _ _ _ _ L) as X. rewrite E in X. unfold n_elements in Hp. simpl in X. lia. }
  rewrite (topology_matrix_entry (S (S k))); auto; try lia.
  - destruct (j <? _) eqn:E; auto. apply Nat.ltb_lt in E. rewrite (lv_lenB _ _ _ _ _ L) in E.
    pose proof (lv_rectB _ _ _ _ _ L) as FB. pose proof (lv_rectO _ _ _ _ _ L) as FO.
    rewrite Forall_forall in FB, FO.
    rewrite (col_entry_sum (S (S k))).
    + apply sumZ_map_0. intros c Hc. apply in_seq in Hc.
      destruct (lv_idx _ _ _ _ _ L j c E ltac:(lia)) as [X _].
      destruct (_ =? i) eqn:E2; auto. apply Nat.eqb_eq in E2. unfold n_elements in Hi. lia.
    + apply FB, nth_In. rewrite (lv_lenB _ _ _ _ _ L). auto.
    + apply FO, nth_In. rewrite (lv_lenO _ _ _ _ _ L). auto.
  - apply (lv_rectB _ _ _ _ _ L).
  - apply (lv_rectO _ _ _ _ _ L).
  - rewrite (lv_lenB _ _ _ _ _ L), (lv_lenO _ _ _ _ _ L). auto.
Qed.

Lemma chain_zero : forall k i j, S k < n -> product_entry (matrix t k) (matrix t (S k)) i j = 0%Z.
Proof.
  intros k i j Hk. unfold product_entry.
  destruct (matrix_shape k ltac:(lia)) as [R1 C1]. destruct (matrix_shape (S k) Hk) as [R2 C2].
  rewrite C1, R2, Nat.max_id.
  destruct (Nat.ltb_spec i (n_elements t k)) as [Hi|Hi].
  2:{ apply sumZ_map_0. intros m Hm. rewrite entry_row_out by (auto; lia). lia. }
  destruct (j <? n_elements t (S (S k))) eqn:Ej.
  2:{ apply sumZ_map_0. intros m Hm. apply in_seq in Hm.
      rewrite (matrix_entry_gen (S k)) by (auto; lia). rewrite Ej. lia. }
  apply Nat.ltb_lt in Ej.
  rewrite (sumZ_map_ext _ _ (fun m => (eps (S k) * eps (S (S k))) *
     (incidence_number (nth i (nth k (elements t) []) []) (nth m (nth (S k) (elements t) []) []) *
      incidence_number (nth m (nth (S k) (elements t) []) []) (nth j (nth (S (S k)) (elements t) []) [])))%Z).
  - rewrite sumZ_map_mul. unfold n_elements.
    rewrite (incidence_incidence _ _ _ _ _ (to_level _ _ _ T (S k) Hk)).
    + lia.
    + apply nth_In; auto.
    + apply top_len with (k := S (S k)); [lia|]. apply nth_In; auto.
    + apply top_len with (k := S (S k)); [lia|]. apply nth_In; auto.
  - intros m Hm. apply in_seq in Hm.
    rewrite (matrix_entry_gen k), (matrix_entry_gen (S k)) by (auto; lia).
    assert (E1 : (m <? n_elements t (S k)) = true) by (apply Nat.ltb_lt; lia).
    assert (E2 : (j <? n_elements t (S (S k))) = true) by (apply Nat.ltb_lt; lia).
    rewrite E1, E2. ring.
Qed.

(** faces *)
Lemma faces_complete : forall d k, k + d = n -> forall f,
  (exists e, In e (nth k (elements t) []) /\ Permutation e f) <-> (exists s, In s rows /\ is_face k f s).
Proof.
  induction d as [|d IH]; intros k Hk f.
  - assert (k = n) by lia. subst k. rewrite (to_top _ _ _ T). split.
    + intros (e & He & P). exists e. split; auto.
      rewrite <- (to_top _ _ _ T) in He. apply top_len in He as [Le NDe]; [|lia].
      split; [|split].
      * eapply Permutation_NoDup; eauto.
      * rewrite <- (Permutation_length P); auto.
      * intros x Hx. eapply Permutation_in; [apply Permutation_sym; exact P|auto].
    + intros (s & Hs & ND & Lf & I). exists s. split; auto. apply Permutation_sym.
      rewrite <- (to_top _ _ _ T) in Hs. apply top_len in Hs as [Ls NDs]; [|lia].
      apply NoDup_Permutation_bis; auto. lia.
  - pose proof (to_level _ _ _ T k ltac:(lia)) as L. specialize (IH (S k) ltac:(lia)). split.
    + intros (e & He & P). apply In_nth with (d := []) in He as (i & Hi & <-).
      destruct (lv_sub _ _ _ _ _ L i Hi) as (s & c & Hs & Hc & P2).
      destruct (proj1 (IH s)) as (sg & Hsg & NDs & Ls & Is). { exists s; auto. }
      exists sg. split; auto.
      assert (P3 : Permutation (omit c s) f) by (eapply perm_trans; eauto).
      split; [|split].
      * eapply Permutation_NoDup; [exact P3|]. apply omit_nodup; auto.
      * rewrite <- (Permutation_length P3), omit_length by lia. lia.
      * intros x Hx. apply Is. eapply omit_incl. eapply Permutation_in; [apply Permutation_sym; exact P3|auto].
    + intros (sg & Hsg & ND & Lf & I).
      assert (Hl : length sg = S n /\ NoDup sg).
      { apply (top_len n); [lia|]. rewrite (to_top _ _ _ T). auto. }
      destruct (exists_outside f sg) as (v & Hv & Hnv); [tauto|lia|].
      destruct (proj2 (IH (v :: f))) as (s & Hs & P).
      { exists sg. split; auto. split; [constructor; auto|]. split; [simpl; lia|].
        intros x [<-|Hx]; auto. }
      assert (Hls : length s = S (S k) /\ NoDup s) by (apply (top_len (S k)); auto; lia).
      assert (Hvs : In v s) by (eapply Permutation_in; [apply Permutation_sym; exact P|left; auto]).
      apply In_nth with (d := 0) in Hvs as (c & Hc & Ec).
      destruct (lv_cover _ _ _ _ _ L s c Hs ltac:(lia)) as (i & Hi & P2).
      exists (nth i (nth k (elements t) []) []). split; [apply nth_In; auto|].
      eapply perm_trans; [apply Permutation_sym; exact P2|].
      apply Permutation_cons_inv with (a := v).
      eapply perm_trans; [|exact P]. rewrite <- Ec. apply Permutation_sym, omit_perm_cons; auto.
Qed.

Lemma faces_unique : forall k i i', k < n -> i < n_elements t k -> i' < n_elements t k ->
  Permutation (nth i (nth k (elements t) []) []) (nth i' (nth k (elements t) []) []) -> i = i'.
Proof.
  intros k i i' Hk Hi Hi' P. apply (lv_uniq _ _ _ _ _ (to_level _ _ _ T k Hk)); auto.
Qed.

(** Values of incidence numbers *)
Lemma entry_values : forall k i j, k < n -> i < n_elements t k -> j < n_elements t (S k) ->
  (incl (nth i (nth k (elements t) []) []) (nth j (nth (S k) (elements t) []) []) ->
     entry (matrix t k) i j = 1%Z \/ entry (matrix t k) i j = (-1)%Z) /\
  (~ incl (nth i (nth k (elements t) []) []) (nth j (nth (S k) (elements t) []) []) ->
     entry (matrix t k) i j = 0%Z).
Proof.
  intros k i j Hk Hi Hj. rewrite matrix_entry_gen by auto.
  assert (E : (j <? n_elements t (S k)) = true) by (apply Nat.ltb_lt; auto). rewrite E.
  destruct (top_len k (nth i (nth k (elements t) []) [])) as [L1 N1]; [lia|apply nth_In; auto|].
  destruct (top_len (S k) (nth j (nth (S k) (elements t) []) [])) as [L2 N2]; [lia|apply nth_In; auto|].
  destruct (incidence_values _ _ N1 N2 ltac:(lia)) as [H1 H2]. split; intros I.
  - specialize (H1 I). destruct (eps_cases (S k)) as [->| ->], H1 as [->| ->]; auto.
  - rewrite H2 by auto. lia.
Qed.

(** number of nonzeros in a column *)
Lemma column_count : forall k j, k < n -> j < n_elements t (S k) ->
  length (filter (fun i => negb (entry (matrix t k) i j =? 0)%Z) (seq 0 (n_elements t k))) = S (S k).
Proof.
  intros k j Hk Hj. pose proof (to_level _ _ _ T k Hk) as L.
  set (s := nth j (nth (S k) (elements t) []) []).
  destruct (top_len (S k) s) as [L2 N2]; [lia|apply nth_In; auto|].
  set (g := fun c => nth c (nth j (nth k (boundary_idx t) []) []) 0).
  rewrite <- (seq_length (S (S k)) 0).
  rewrite <- (map_length g (seq 0 (S (S k)))).
  apply Permutation_length.
  apply NoDup_Permutation.
  - apply NoDup_filter, seq_NoDup.
  - apply NoDup_map_inj; [|apply seq_NoDup].
    intros c c' Hc Hc' E. apply in_seq in Hc, Hc'.
    destruct (lv_idx _ _ _ _ _ L j c Hj ltac:(lia)) as (A1 & A2 & _).
    destruct (lv_idx _ _ _ _ _ L j c' Hj ltac:(lia)) as (B1 & B2 & _).
    fold (g c) in A2. fold (g c') in B2. rewrite <- E in B2.
    assert (X : pi (S k) c = pi (S k) c').
    { apply (omit_perm_inj _ _ s); auto; try (rewrite L2; apply pi_lt; lia).
      eapply perm_trans; [exact A2|apply Permutation_sym; exact B2]. }
    unfold pi in X. destruct (S k =? 1) eqn:E1; auto. apply Nat.eqb_eq in E1. lia.
  - intros i. rewrite filter_In, in_seq, in_map_iff. split.
    + intros [Hi Hnz]. destruct (entry_values k i j Hk ltac:(lia) Hj) as [V1 V2].
      destruct (incl_dec' (nth i (nth k (elements t) []) []) s) as [I|NI].
      2:{ fold s in V2. rewrite V2 in Hnz by auto. discriminate. }
      destruct (top_len k (nth i (nth k (elements t) []) [])) as [L1 N1]; [lia|apply nth_In; unfold n_elements in Hi; lia|].
      destruct (incl_omit _ _ N1 N2 ltac:(lia) I) as (c & Hc & P).
      assert (Epi : pi (S k) (pi (S k) c) = c). { unfold pi. destruct (S k =? 1) eqn:E; auto. apply Nat.eqb_eq in E. lia. }
      exists (pi (S k) c). split; [|apply in_seq; pose proof (pi_lt (S k) c ltac:(lia)); lia].
      destruct (lv_idx _ _ _ _ _ L j (pi (S k) c) Hj ltac:(apply pi_lt; lia)) as (A1 & A2 & _).
      rewrite Epi in A2. apply (lv_uniq _ _ _ _ _ L); auto. { unfold n_elements in Hi; lia. }
      eapply perm_trans; [apply Permutation_sym; exact A2|exact P].
    + intros (c & <- & Hc). apply in_seq in Hc.
      destruct (lv_idx _ _ _ _ _ L j c Hj ltac:(lia)) as (A1 & A2 & _). fold (g c) in A1, A2.
      split; [unfold n_elements; lia|].
      destruct (entry_values k (g c) j Hk ltac:(auto) Hj) as [V1 V2].
      destruct V1 as [->| ->]; auto.
      intros x Hx. eapply omit_incl. eapply Permutation_in; [apply Permutation_sym; exact A2|exact Hx].
Qed.

(** Shared faces *)
Lemma two_cofaces_row_sum : forall i j1 j2, i < n_elements t (n - 1) -> j1 <> j2 ->
  j1 < length rows -> j2 < length rows ->
  (forall j, j < length rows -> incl (nth i (nth (n - 1) (elements t) []) []) (nth j rows []) <-> (j = j1 \/ j = j2)) ->
  (sumZ (map (fun j => entry (matrix t (n - 1)) i j) (seq 0 (length rows))) = 0%Z <->
   incidence_number (nth i (nth (n - 1) (elements t) []) []) (nth j1 rows []) =
   (- incidence_number (nth i (nth (n - 1) (elements t) []) []) (nth j2 rows []))%Z).
Proof.
  intros i j1 j2 Hi Hne H1 H2 Hco.
  assert (Er : n_elements t (S (n - 1)) = length rows).
  { unfold n_elements. replace (S (n - 1)) with n by lia. rewrite (to_top _ _ _ T). auto. }
  assert (Et : nth (S (n - 1)) (elements t) [] = rows).
  { replace (S (n - 1)) with n by lia. apply (to_top _ _ _ T). }
  set (f := nth i (nth (n - 1) (elements t) []) []) in *.
  assert (Hent : forall j, j < length rows -> entry (matrix t (n - 1)) i j = (eps (S (n - 1)) * incidence_number f (nth j rows []))%Z).
  { intros j Hj. rewrite matrix_entry_gen by (auto; lia).
    assert (E : (j <? n_elements t (S (n - 1))) = true) by (apply Nat.ltb_lt; lia).
    rewrite E, Et. reflexivity. }
  assert (Hz : forall j, j < length rows -> j <> j1 -> j <> j2 -> entry (matrix t (n - 1)) i j = 0%Z).
  { intros j Hj N1 N2. apply entry_values; auto; try lia. rewrite Et. fold f. intros I. apply Hco in I; auto. tauto. }
  assert (Hsum : sumZ (map (fun j => entry (matrix t (n - 1)) i j) (seq 0 (length rows))) =
                 (entry (matrix t (n - 1)) i j1 + entry (matrix t (n - 1)) i j2)%Z).
  { rewrite (sumZ_map_ext _ _ (fun j => (if (j =? j1)%nat then entry (matrix t (n - 1)) i j1 else 0) + (if (j =? j2)%nat then entry (matrix t (n - 1)) i j2 else 0))%Z).
    - rewrite sumZ_map_add. rewrite (sumZ_single _ _ j1 H1), (sumZ_single _ _ j2 H2).
      + rewrite !Nat.eqb_refl. auto.
      + intros j _ N. apply Nat.eqb_neq in N. rewrite N. auto.
      + intros j _ N. apply Nat.eqb_neq in N. rewrite N. auto.
    - intros j Hj. apply in_seq in Hj. destruct (j =? j1) eqn:E1, (j =? j2) eqn:E2;
       rewrite ?Nat.eqb_eq, ?Nat.eqb_neq in *; subst; try lia. apply Hz; lia. }
  rewrite Hsum, !Hent by auto. destruct (eps_cases (S (n - 1))) as [->| ->]; lia.
Qed.

End Top.
