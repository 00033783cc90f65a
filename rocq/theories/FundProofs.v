(** Lemmas about fundamental domains and the barycentric subdivision. *)
Require Import List Arith ZArith Bool Lia Permutation Factorial Sorting.Sorted.
From Verif Require Import Util CombModel CombSpec CombProofs SimpModel SimpSpec ParProofs SimpProofs LevelProofs TopProofs
  BdryModel BdrySpec OrientProofs SubProofs SubdModel SubdSpec.
Import ListNotations.

Lemma append_column_blocks : forall (A : Type) r (f : A -> list (list nat)) (g : A -> nat) B,
  (forall b, In b B -> length (f b) = r) ->
  append_column (flat_map f B) (each r (map g B)) = flat_map (fun b => map (fun x => x ++ [g b]) (f b)) B.
Proof.
  intros A r f g. induction B as [|b B IH]; intros H; [reflexivity|]. cbn [flat_map map each].
  unfold append_column in *. rewrite combine_app by (rewrite repeat_length; apply H; left; auto). rewrite map_app. f_equal.
  - pose proof (H b (or_introl eq_refl)) as L. clear IH H. revert L. generalize (f b). intros l <-. induction l as [|x l IH]; [reflexivity|]. cbn [length repeat combine map fst snd]. f_equal. auto.
  - apply IH. intros. apply H. right; auto.
Qed.

Section Top.
Variables (n : nat) (rows : list simplex) (t : topology).
Hypothesis Hn : 1 <= n.
Hypothesis T : top_ok n rows t.

(** Index of the element with the vertices of [s] among the [k]-elements. *)
Definition idx (k : nat) (s : simplex) : nat := index_of list_eqb (isort Nat.leb s) (map (isort Nat.leb) (nth k (elements t) [])).

(** All faces of [s] are elements. *)
Definition inside (s : simplex) : Prop := NoDup s /\ exists r, In r rows /\ incl s r.

Lemma inside_incl : forall s s', inside s -> NoDup s' -> incl s' s -> inside s'.
Proof. intros s s' (_ & r & H1 & H2) ND I. split; auto. exists r. split; auto. intros x Hx. auto. Qed.

Lemma idx_ok : forall k s, k < n -> length s = S k -> inside s -> idx k s < n_elements t k /\ Permutation (el t k (idx k s)) s.
Proof.
  intros k s Hk L (ND & r & Hr & I).
  destruct (proj2 (faces_complete n rows t Hn T (n - k) k ltac:(lia) s)) as (e & He & P); [exists r; split; auto; repeat split; auto|].
  assert (J : In (isort Nat.leb s) (map (isort Nat.leb) (nth k (elements t) []))) by (apply in_map_iff; exists e; split; auto; apply isort_nat_eq; auto).
  pose proof (index_of_lt _ _ _ _ list_eqb_ok J) as H1. rewrite map_length in H1. split; [exact H1|].
  pose proof (nth_index_of _ _ _ _ [] list_eqb_ok J) as H2. rewrite (nth_map_lt _ _ _ _ _ []) in H2 by exact H1. apply isort_nat_eq in H2. exact H2.
Qed.

Lemma element_indices_ok : forall k B, k < n -> Forall (fun s => length s = S k /\ inside s) B -> element_indices (nth k (elements t) []) B = Ok (map (idx k) B).
Proof.
  intros k B Hk F. unfold element_indices, npi_indices. rewrite mapM_map. apply mapM_map_ok. intros s Hs. rewrite Forall_forall in F. destruct (F s Hs) as [L I].
  destruct (idx_ok k s Hk L I) as [H _]. unfold idx in *. unfold n_elements in H. rewrite map_length. destruct (Nat.ltb_spec (index_of list_eqb (isort Nat.leb s) (map (isort Nat.leb) (nth k (elements t) []))) (length (nth k (elements t) []))); [auto|lia].
Qed.

(** The rows contributed by one simplex with [m + 1] corners: indices of dimensions 0 .. m-1. *)
Fixpoint tails (m : nat) (s : simplex) : list (list nat) :=
  match m with
  | 0 => []
  | S k => if k =? 0 then map (fun v => [v]) s
           else flat_map (fun f => map (fun r => r ++ [idx k f]) (tails k f)) (map (fun c => facet m c s) (seq 0 (S m)))
  end.

Lemma tails_length : forall m s, 1 <= m -> length s = S m -> length (tails m s) = fact (S m).
Proof.
  induction m as [|k IH]; intros s Hm L; [lia|]. cbn [tails]. destruct (Nat.eqb_spec k 0) as [->|Hk]; [rewrite map_length, L; reflexivity|].
  rewrite flat_map_concat_map, flen_concat, !map_map. rewrite (map_ext_in _ (fun _ => fact (S k))).
  - rewrite list_sum_const, seq_length. change (fact (S (S k))) with (S (S k) * fact (S k)). lia.
  - intros c Hc. apply in_seq in Hc. rewrite map_length. apply IH; [lia|]. rewrite facet_length by lia. lia.
Qed.

Lemma facet_inside : forall m c s, c < length s -> inside s -> inside (facet m c s).
Proof.
  intros m c s Hc I. pose proof I as (ND & _). apply (inside_incl s); auto. apply facet_nodup; auto.
  intros x Hx. apply (Permutation_in x (Permutation_sym (facet_perm m c s Hc))) in Hx. exact (omit_incl c s x Hx).
Qed.

Lemma domain_rows_ok : forall m B, 1 <= m <= n -> Forall (fun s => length s = S m /\ inside s) B -> domain_rows t m B = Ok (flat_map (tails m) B).
Proof.
  induction m as [|k IH]; intros B Hm F; [lia|]. cbn [domain_rows]. destruct (Nat.eqb_spec k 0) as [->|Hk].
  - f_equal. cbn [tails Nat.eqb]. clear F. induction B as [|s B IHB]; [reflexivity|]. cbn [concat flat_map]. rewrite map_app. f_equal. auto.
  - assert (F' : Forall (fun s => length s = S (S k) /\ NoDup s) B) by (eapply Forall_impl; [|exact F]; intros s (L & ND & _); auto).
    rewrite (generate_ok (S k) B) by (auto; lia). cbn [bind]. set (C := concat (full (S k) B)).
    assert (FC : Forall (fun s => length s = S k /\ inside s) C).
    { apply Forall_forall. intros f Hf. apply in_full in Hf as (s & c & Hs & Hc & ->). rewrite Forall_forall in F. destruct (F s Hs) as [L I]. split; [rewrite facet_length by lia; lia|apply facet_inside; auto; lia]. }
    rewrite (element_indices_ok k C) by (auto; lia). cbn [bind]. rewrite (IH C) by (auto; lia). cbn [bind]. f_equal.
    rewrite append_column_blocks.
    + unfold C, full. cbn [tails]. destruct (Nat.eqb_spec k 0); [lia|]. rewrite flat_map_concat_map, !concat_map, map_map, flat_map_concat_map. clear. induction B as [|s B IHB]; [reflexivity|]. cbn [map concat]. rewrite concat_app. f_equal; [rewrite flat_map_concat_map; reflexivity|auto].
    + intros b Hb. rewrite Forall_forall in FC. destruct (FC b Hb). apply tails_length; auto. lia.
Qed.

Lemma rows_inside : Forall (fun s => length s = S n /\ inside s) rows.
Proof.
  pose proof (to_ok _ _ _ T n ltac:(lia)) as [_ F]. rewrite (to_top _ _ _ T) in F. rewrite Forall_forall in *. intros s Hs. destruct (F s Hs) as [L ND]. split; auto. split; auto. exists s. split; auto. apply incl_refl.
Qed.

(** The domains of the top simplex number [j]. *)
Definition block (j : nat) : list (list nat) := map (fun r => r ++ [j]) (tails n (nth j rows [])).

Lemma fundamental_domains_ok : fundamental_domains t = Ok (flat_map block (seq 0 (length rows))).
Proof.
  unfold fundamental_domains. rewrite (top_n_dim n rows t T), (to_top _ _ _ T). rewrite (domain_rows_ok n rows) by (auto using rows_inside; lia). cbn [bind]. f_equal.
  rewrite <- (map_nth_seq _ rows []) at 1. rewrite flat_map_map. rewrite <- (map_id (seq 0 (length rows))) at 2. rewrite append_column_blocks; [reflexivity|].
  intros j Hj. apply in_seq in Hj. apply tails_length; auto. pose proof rows_inside as F. rewrite Forall_forall in F. apply F. apply nth_In. lia.
Qed.

Lemma block_length : forall j, j < length rows -> length (block j) = fact (S n).
Proof. intros j Hj. unfold block. rewrite map_length. apply tails_length; auto. pose proof rows_inside as F. rewrite Forall_forall in F. apply F. apply nth_In. lia. Qed.

(** Flags below a simplex. *)
Definition below (m : nat) (s : simplex) (fl : list nat) : Prop :=
  length fl = m /\ (forall k, k < m -> nth k fl 0 < n_elements t k) /\
  (forall k, S k < m -> incl (el t k (nth k fl 0)) (el t (S k) (nth (S k) fl 0))) /\
  incl (el t (m - 1) (nth (m - 1) fl 0)) s.

Lemma vert_el : forall v, v < n_elements t 0 -> el t 0 v = [v].
Proof. intros v Hv. unfold el. rewrite (to_verts _ _ _ T). rewrite (nth_map_lt _ _ _ _ _ 0) by (rewrite seq_length; auto). rewrite seq_nth; auto. Qed.

Lemma inside_vert : forall s v, inside s -> In v s -> v < n_elements t 0.
Proof. intros s v (_ & r & Hr & I) Hv. apply (to_vused _ _ _ T). apply in_concat. exists r. auto. Qed.

Lemma nth_snoc : forall k (fl : list nat) x, k < length fl -> nth k (fl ++ [x]) 0 = nth k fl 0.
Proof. intros. apply app_nth1. auto. Qed.

Lemma tails_spec : forall m s, 1 <= m <= n -> length s = S m -> inside s -> forall fl, In fl (tails m s) <-> below m s fl.
Proof.
  induction m as [|k IH]; intros s Hm L I fl; [lia|]. cbn [tails]. destruct (Nat.eqb_spec k 0) as [->|Hk].
  - rewrite in_map_iff. unfold below. split.
    + intros (v & <- & Hv). pose proof (inside_vert s v I Hv) as Q. repeat split; auto; try (intros; lia).
      * intros k Hk. replace k with 0 by lia. exact Q.
      * cbn [nth Nat.sub]. rewrite vert_el by auto. intros x [<-|[]]. auto.
    + intros (L1 & H1 & _ & H3). destruct fl as [|v [|]]; try discriminate. exists v. split; auto. cbn [nth Nat.sub] in H3. rewrite vert_el in H3 by (apply (H1 0); lia). apply H3. left; auto.
  - rewrite in_flat_map. split.
    + intros (f & Hf & Hfl). apply in_map_iff in Hf as (c & <- & Hc). apply in_seq in Hc. apply in_map_iff in Hfl as (r & <- & Hr).
      assert (If : inside (facet (S k) c s)) by (apply facet_inside; auto; lia).
      assert (Lf : length (facet (S k) c s) = S k) by (rewrite facet_length by lia; lia).
      apply IH in Hr; auto; [|lia]. destruct Hr as (Lr & R1 & R2 & R3). destruct (idx_ok k _ ltac:(lia) Lf If) as [X1 X2]. set (i := idx k (facet (S k) c s)) in *.
      repeat split.
      * rewrite app_length, Lr. simpl. lia.
      * intros q Hq. destruct (Nat.eq_dec q k) as [->|]; [rewrite app_nth2 by lia; replace (k - length r) with 0 by lia; exact X1|]. rewrite nth_snoc by lia. apply R1. lia.
      * intros q Hq. rewrite nth_snoc by lia. destruct (Nat.eq_dec (S q) k) as [<-|]; [|rewrite nth_snoc by lia; apply R2; lia].
        rewrite app_nth2 by lia. replace (S q - length r) with 0 by lia. cbn [nth]. replace (S q - 1) with q in R3 by lia. intros x Hx. apply (Permutation_in x (Permutation_sym X2)). apply R3. exact Hx.
      * replace (S k - 1) with k by lia. rewrite app_nth2 by lia. replace (k - length r) with 0 by lia. cbn [nth]. intros x Hx. apply (Permutation_in x X2) in Hx. apply (Permutation_in x (Permutation_sym (facet_perm (S k) c s ltac:(lia)))) in Hx. exact (omit_incl c s x Hx).
    + intros (L1 & H1 & H2 & H3). replace (S k - 1) with k in H3 by lia. set (i := nth k fl 0) in *.
      destruct (el_len n rows t Hn T k i ltac:(lia) (H1 k ltac:(lia))) as [Li NDi].
      destruct (incl_omit (el t k i) s NDi (proj1 I) ltac:(lia) H3) as (c & Hc & Pc). rewrite L in Hc.
      assert (If : inside (facet (S k) c s)) by (apply facet_inside; auto; lia).
      assert (Lf : length (facet (S k) c s) = S k) by (rewrite facet_length by lia; lia).
      assert (Pf : Permutation (facet (S k) c s) (el t k i)) by (rewrite <- (facet_perm (S k) c s) by lia; auto).
      destruct (idx_ok k _ ltac:(lia) Lf If) as [X1 X2].
      assert (Ei : idx k (facet (S k) c s) = i) by (apply (faces_unique n rows t T k); auto; [lia|apply H1; lia|]; unfold el in *; rewrite X2, Pf; auto).
      exists (facet (S k) c s). split; [apply in_map_iff; exists c; split; auto; apply in_seq; lia|]. rewrite Ei. apply in_map_iff. exists (firstn k fl).
      assert (Lk : length (firstn k fl) = k) by (rewrite firstn_length; lia).
      assert (NK : forall q, q < k -> nth q (firstn k fl) 0 = nth q fl 0).
      { intros q Hq. rewrite <- (firstn_skipn k fl) at 2. rewrite app_nth1 by lia. auto. }
      split.
      * rewrite <- (firstn_skipn k fl) at 2. f_equal. assert (Ls : length (skipn k fl) = 1) by (rewrite skipn_length; lia). unfold i. rewrite <- (firstn_skipn k fl) at 1. rewrite app_nth2 by lia. rewrite Lk, Nat.sub_diag. destruct (skipn k fl) as [|a [|]]; simpl in *; auto; lia.
      * apply IH; auto; [lia|]. repeat split; auto.
        -- intros q Hq. rewrite NK by auto. apply H1. lia.
        -- intros q Hq. rewrite !NK by lia. apply H2. lia.
        -- rewrite NK by lia. intros x Hx. apply (Permutation_in x (Permutation_sym Pf)). pose proof (H2 (k - 1) ltac:(lia)) as Q. replace (S (k - 1)) with k in Q by lia. apply Q. exact Hx.
Qed.

Lemma tails_nodup : forall m s, 1 <= m <= n -> length s = S m -> inside s -> NoDup (tails m s).
Proof.
  induction m as [|k IH]; intros s Hm L I; [lia|]. cbn [tails]. destruct (Nat.eqb_spec k 0) as [->|Hk].
  - apply NoDup_map_inj; [intros x y _ _ E; congruence|apply I].
  - rewrite flat_map_map. apply NoDup_flat_map; [apply seq_NoDup| |].
    + intros c Hc. apply in_seq in Hc. apply NoDup_map_inj; [intros x y _ _ E; apply app_inj_tail in E; apply E|]. apply IH; [lia|rewrite facet_length by lia; lia|apply facet_inside; auto; lia].
    + intros c c' b Hc Hc' H1 H2. apply in_seq in Hc. apply in_seq in Hc'. apply in_map_iff in H1 as (r & <- & _). apply in_map_iff in H2 as (r' & E & _). apply app_inj_tail in E as [_ E].
      assert (Q : forall c, c < S (S k) -> Permutation (el t k (idx k (facet (S k) c s))) (omit c s)).
      { intros q Hq. destruct (idx_ok k (facet (S k) q s)) as [_ P]; [lia|rewrite facet_length by lia; lia|apply facet_inside; auto; lia|]. rewrite P. symmetry. apply facet_perm. lia. }
      apply (omit_perm_inj c c' s); [apply I|lia|lia|]. rewrite <- (Q c), <- (Q c') by lia. rewrite E. auto.
Qed.

Lemma block_nodup : forall j, j < length rows -> NoDup (block j).
Proof.
  intros j Hj. pose proof rows_inside as F. rewrite Forall_forall in F. destruct (F _ (nth_In rows [] Hj)). apply NoDup_map_inj; [intros x y _ _ E; apply app_inj_tail in E; apply E|]. apply tails_nodup; auto.
Qed.

Lemma block_spec : forall j fl, j < length rows -> In fl (block j) <-> is_flag n t j fl.
Proof.
  intros j fl Hj. pose proof rows_inside as F. rewrite Forall_forall in F. destruct (F _ (nth_In rows [] Hj)) as [L I].
  assert (Ej : element t n j = nth j rows []) by (unfold element; rewrite (to_top _ _ _ T); auto).
  assert (Nj : n_elements t n = length rows) by (unfold n_elements; rewrite (to_top _ _ _ T); auto).
  unfold block. rewrite in_map_iff. split.
  - intros (r & <- & Hr). apply tails_spec in Hr; auto. destruct Hr as (Lr & R1 & R2 & R3). split; [rewrite app_length, Lr; simpl; lia|]. split; [rewrite app_nth2 by lia; rewrite Lr, Nat.sub_diag; auto|]. split.
    + intros k Hk. destruct (Nat.eq_dec k n) as [->|]; [rewrite app_nth2 by lia; rewrite Lr, Nat.sub_diag; simpl; lia|]. rewrite nth_snoc by lia. apply R1. lia.
    + intros k Hk. rewrite nth_snoc by lia. destruct (Nat.eq_dec (S k) n) as [E|]; [|rewrite nth_snoc by lia; apply R2; lia]. rewrite app_nth2 by lia. replace (S k - length r) with 0 by lia. cbn [nth]. rewrite E, Ej. replace k with (n - 1) by lia. exact R3.
  - intros (Lf & Et & R1 & R2). exists (firstn n fl). assert (Lk : length (firstn n fl) = n) by (rewrite firstn_length; lia).
    assert (NK : forall q, q < n -> nth q (firstn n fl) 0 = nth q fl 0).
    { intros q Hq. rewrite <- (firstn_skipn n fl) at 2. rewrite app_nth1 by lia. auto. }
    split.
    + rewrite <- (firstn_skipn n fl) at 2. f_equal. assert (Ls : length (skipn n fl) = 1) by (rewrite skipn_length; lia). rewrite <- Et. rewrite <- (firstn_skipn n fl) at 1. rewrite app_nth2 by lia. rewrite Lk, Nat.sub_diag. destruct (skipn n fl) as [|a [|]]; simpl in *; auto; lia.
    + apply tails_spec; auto. repeat split; auto.
      * intros k Hk. rewrite NK by auto. apply R1. lia.
      * intros k Hk. rewrite !NK by lia. apply R2. lia.
      * rewrite NK by lia. pose proof (R2 (n - 1) ltac:(lia)) as Q. replace (S (n - 1)) with n in Q by lia. rewrite Et, Ej in Q. exact Q.
Qed.

End Top.
