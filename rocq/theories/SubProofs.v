(** Relabelled sub-complexes and the correspondence with their parent. *)
Require Import List Arith ZArith Bool Lia Permutation Sorting.Sorted.
From Verif Require Import Util CombModel CombSpec CombProofs SimpModel SimpSpec ParProofs SimpProofs LevelProofs TopProofs.
From Verif Require Import BdryModel BdrySpec OrientProofs.
Import ListNotations.

(** ---- strictly increasing relabelling ---- *)
Definition mono_on (phi : nat -> nat) (P : nat -> Prop) : Prop :=
  forall x y, P x -> P y -> (x < y <-> phi x < phi y).

Lemma mono_inj : forall phi P, mono_on phi P -> forall x y, P x -> P y -> phi x = phi y -> x = y.
Proof.
  intros phi P M x y Hx Hy E. pose proof (M x y Hx Hy). pose proof (M y x Hy Hx). lia.
Qed.

Lemma inv_map_mono : forall phi P l, mono_on phi P -> Forall P l -> inv (map phi l) = inv l.
Proof.
  intros phi P l M F. induction F as [|x l Hx F IH]; simpl; auto. rewrite IH. f_equal.
  clear IH. induction F as [|y l Hy F IH]; simpl; auto. rewrite IH. f_equal.
  destruct (y <? x) eqn:E1, (phi y <? phi x) eqn:E2; auto; rewrite ?Nat.ltb_lt, ?Nat.ltb_ge in *;
    pose proof (M y x Hy Hx); lia.
Qed.

Lemma sgn_map_mono : forall phi P l, mono_on phi P -> Forall P l -> sgn (map phi l) = sgn l.
Proof. intros. unfold sgn. erewrite inv_map_mono; eauto. Qed.

Lemma map_inj_eq : forall (phi : nat -> nat) (P : nat -> Prop), (forall x y, P x -> P y -> phi x = phi y -> x = y) ->
  forall a b, Forall P a -> Forall P b -> map phi a = map phi b -> a = b.
Proof.
  intros phi P I. induction a as [|x a IH]; destruct b as [|y b]; simpl; intros Fa Fb E; try discriminate; auto.
  injection E as E1 E2. inversion Fa; inversion Fb; subst. f_equal; auto.
Qed.

Lemma perm_map_inj : forall (phi : nat -> nat) (P : nat -> Prop), (forall x y, P x -> P y -> phi x = phi y -> x = y) ->
  forall a b, Forall P a -> Forall P b -> Permutation (map phi a) (map phi b) -> Permutation a b.
Proof.
  intros phi P I a b Fa Fb H.
  apply Permutation_sym in H. apply Permutation_map_inv in H as (c & E & Pc).
  assert (Fc : Forall P c).
  { rewrite Forall_forall in *. intros x Hx. apply Fa. eapply Permutation_in; [apply Permutation_sym; exact Pc|auto]. }
  apply (map_inj_eq phi P I) in E; auto. subst. auto.
Qed.

Lemma omit_map : forall (phi : nat -> nat) c s, omit c (map phi s) = map phi (omit c s).
Proof. intros. unfold omit. rewrite firstn_map, skipn_map, map_app. auto. Qed.

Lemma incidence_map_mono : forall phi P f s, mono_on phi P -> Forall P f -> Forall P s ->
  incidence_number (map phi f) (map phi s) = incidence_number f s.
Proof.
  intros phi P f s M Ff Fs. unfold incidence_number. rewrite map_length. apply sumZ_map_ext. intros c Hc.
  f_equal. rewrite omit_map. unfold rel_sign.
  assert (Fo : Forall P (omit c s)).
  { apply Forall_forall. intros x Hx. rewrite Forall_forall in Fs. apply Fs. eapply omit_incl; eauto. }
  rewrite !(sgn_map_mono phi P) by auto.
  destruct (same_verts (omit c s) f) eqn:E.
  - apply same_verts_iff in E. apply (Permutation_map phi) in E. apply same_verts_iff in E. rewrite E. auto.
  - apply same_verts_false in E.
    assert (E2 : same_verts (map phi (omit c s)) (map phi f) = false).
    { apply same_verts_false. intros Q. apply E. apply (perm_map_inj phi P (mono_inj phi P M)); auto. }
    rewrite E2. auto.
Qed.

(** ---- the mapping produced by np.unique ---- *)
Section Mapping.
Variable sel : list simplex.
Let mapping := unique_nat (concat sel).
Definition back (m : list nat) (v : nat) : nat := nth v m 0.
Definition rank (m : list nat) (v : nat) : nat := index_of Nat.eqb v m.

Lemma mapping_in : forall v, In v mapping <-> exists s, In s sel /\ In v s.
Proof. intros. unfold mapping. rewrite unique_nat_in, in_concat. tauto. Qed.

Lemma sorted_nth_lt : forall l i j, StronglySorted lt l -> i < j < length l -> nth i l 0 < nth j l 0.
Proof.
  intros l i j S. revert i j. induction S as [|a l S IH F]; simpl; intros i j H; [lia|].
  destruct i, j; try lia.
  - rewrite Forall_forall in F. apply F. apply nth_In. lia.
  - apply IH. lia.
Qed.

Lemma rank_lt : forall v, In v mapping -> rank mapping v < length mapping.
Proof. intros. apply index_of_lt; auto. apply nat_eqb_ok. Qed.
Lemma back_rank : forall v, In v mapping -> back mapping (rank mapping v) = v.
Proof. intros. apply nth_index_of; auto. apply nat_eqb_ok. Qed.
Lemma rank_back : forall i, i < length mapping -> rank mapping (back mapping i) = i.
Proof. intros. apply index_of_nth; auto. apply nat_eqb_ok. apply unique_nat_nodup. Qed.
Lemma back_in : forall i, i < length mapping -> In (back mapping i) mapping.
Proof. intros. apply nth_In; auto. Qed.

Lemma back_mono : mono_on (back mapping) (fun i => i < length mapping).
Proof.
  intros i j Hi Hj. unfold back. pose proof (unique_nat_sorted (concat sel)) as S. fold mapping in S.
  split; intros H.
  - apply sorted_nth_lt; auto.
  - destruct (Nat.lt_total i j) as [L|[L|L]]; auto.
    + subst. lia.
    + pose proof (sorted_nth_lt mapping j i S ltac:(lia)). lia.
Qed.

Lemma rank_mono : mono_on (rank mapping) (fun v => In v mapping).
Proof.
  intros x y Hx Hy. pose proof (back_mono (rank mapping x) (rank mapping y) (rank_lt x Hx) (rank_lt y Hy)) as M.
  rewrite !back_rank in M by auto. tauto.
Qed.

Lemma map_back_rank : forall s, Forall (fun v => In v mapping) s -> map (back mapping) (map (rank mapping) s) = s.
Proof. induction 1; simpl; auto. rewrite back_rank, IHForall by auto. auto. Qed.

Lemma map_rank_back : forall s, Forall (fun v => v < length mapping) s -> map (rank mapping) (map (back mapping) s) = s.
Proof. induction 1; simpl; auto. rewrite rank_back, IHForall by auto. auto. Qed.

Lemma sel_mapping : forall s, In s sel -> Forall (fun v => In v mapping) s.
Proof. intros s Hs. apply Forall_forall. intros v Hv. apply mapping_in. eauto. Qed.

Lemma relabel_nth : forall j, j < length sel -> nth j (relabel mapping sel) [] = map (rank mapping) (nth j sel []).
Proof. intros. unfold relabel. rewrite (nth_map_lt _ _ _ _ _ []) by auto. reflexivity. Qed.
Lemma relabel_length : length (relabel mapping sel) = length sel.
Proof. unfold relabel. apply map_length. Qed.

Lemma relabel_ok : forall k, simplices_ok k sel -> simplices_ok k (relabel mapping sel).
Proof.
  intros k [Hne F]. split.
  - intros E. apply (f_equal (@length _)) in E. rewrite relabel_length in E. destruct sel; simpl in *; try lia. congruence.
  - apply Forall_forall. intros s Hs. unfold relabel in Hs. apply in_map_iff in Hs as (s' & <- & Hs').
    rewrite Forall_forall in F. destruct (F s' Hs') as [L ND]. split; [rewrite map_length; auto|].
    apply NoDup_map_inj; auto. intros x y Hx Hy E.
    assert (Fm := sel_mapping s' Hs'). rewrite Forall_forall in Fm.
    apply (mono_inj _ _ rank_mono); auto.
Qed.

Lemma relabel_verts : forall v, In v (concat (relabel mapping sel)) <-> v < length mapping.
Proof.
  intros v. rewrite in_concat. split.
  - intros (s & Hs & Hv). unfold relabel in Hs. apply in_map_iff in Hs as (s' & <- & Hs').
    apply in_map_iff in Hv as (u & <- & Hu). apply rank_lt. apply mapping_in. eauto.
  - intros Hv. pose proof (back_in v Hv) as Hb. pose proof Hb as Hb'. apply mapping_in in Hb as (s & Hs & Hu).
    exists (map (rank mapping) s). split; [apply in_map_iff; exists s; auto|].
    apply in_map_iff. exists (back mapping v). split; auto. apply rank_back; auto.
Qed.

End Mapping.

Lemma mapM_nth : forall A B (f : A -> result B) l r, mapM f l = Ok r ->
  length r = length l /\ forall i da db, i < length l -> f (nth i l da) = Ok (nth i r db).
Proof.
  intros A B f l r H. apply mapM_ok in H. split; [symmetry; eapply Forall2_len; eauto|].
  intros. apply (Forall2_nth _ _ (fun x y => f x = Ok y)); auto.
Qed.

Lemma mapM_exists : forall A B (f : A -> result B) l, (forall x, In x l -> exists y, f x = Ok y) ->
  exists r, mapM f l = Ok r.
Proof.
  induction l as [|a l IH]; simpl; intros H; eauto.
  destruct (H a (or_introl eq_refl)) as (y & E). destruct IH as (r & Er); auto.
  rewrite E, Er. simpl. eauto.
Qed.

(** ---- a relabelled selection of faces of a parent complex ---- *)
Section Sub.
Variable row_leb : list nat -> list nat -> bool.
Variables (n : nat) (rows : list simplex) (t : topology).
Hypothesis Hn : 1 <= n.
Hypothesis T : top_ok n rows t.
Variables (k : nat) (sel : list simplex).
Hypothesis Hk : 1 <= k <= n.
Hypothesis OKs : simplices_ok k sel.
Hypothesis Hsub : forall s, In s sel -> exists r, In r rows /\ incl s r.
Let mapping := unique_nat (concat sel).

Lemma sub_built : exists b, from_simplices row_leb k (relabel mapping sel) = Ok b /\ top_ok k (relabel mapping sel) b.
Proof.
  destruct (from_simplices_cases row_leb k (relabel mapping sel) ltac:(lia) (relabel_ok sel k OKs)) as [H _].
  apply H. exists (length mapping). intros v. apply relabel_verts.
Qed.

Variable b : topology.
Hypothesis Tb : top_ok k (relabel mapping sel) b.

Lemma sub_el_range : forall d i, d <= k -> i < n_elements b d -> Forall (fun v => v < length mapping) (el b d i).
Proof.
  intros d i Hd Hi. apply Forall_forall. intros v Hv.
  destruct (proj1 (faces_complete k _ b ltac:(lia) Tb (k - d) d ltac:(lia) (el b d i))) as (s & Hs & F).
  { exists (el b d i). split; auto. apply nth_In; auto. }
  apply (relabel_verts sel). apply in_concat. exists s. split; auto. apply F; auto.
Qed.

Lemma sub_face : forall d i, d <= k -> i < n_elements b d ->
  exists s, In s sel /\ is_face d (map (back mapping) (el b d i)) s.
Proof.
  intros d i Hd Hi.
  destruct (proj1 (faces_complete k _ b ltac:(lia) Tb (k - d) d ltac:(lia) (el b d i))) as (s & Hs & F).
  { exists (el b d i). split; auto. apply nth_In; auto. }
  unfold relabel in Hs. apply in_map_iff in Hs as (s' & <- & Hs'). exists s'. split; auto.
  destruct F as (F1 & F2 & F3). split; [|split].
  - apply NoDup_map_inj; auto. intros x y Hx Hy. pose proof (sub_el_range d i Hd Hi) as R. rewrite Forall_forall in R.
    apply (mono_inj _ _ (back_mono sel)); apply R; auto.
  - rewrite map_length. auto.
  - intros v Hv. apply in_map_iff in Hv as (u & <- & Hu). apply F3 in Hu. apply in_map_iff in Hu as (w & <- & Hw).
    fold (rank mapping w). unfold mapping. rewrite (back_rank sel); auto. apply mapping_in. eauto.
Qed.

Lemma sub_face_complete : forall d f, d <= k -> (exists s, In s sel /\ is_face d f s) ->
  exists i, i < n_elements b d /\ Permutation (map (back mapping) (el b d i)) f.
Proof.
  intros d f Hd (s & Hs & (F1 & F2 & F3)).
  assert (Fm : Forall (fun v => In v mapping) f).
  { apply Forall_forall. intros v Hv. apply mapping_in. eauto. }
  destruct (proj2 (faces_complete k _ b ltac:(lia) Tb (k - d) d ltac:(lia) (map (rank mapping) f))) as (e & He & P).
  { exists (map (rank mapping) s). split; [apply in_map_iff; exists s; auto|]. split; [|split].
    - apply NoDup_map_inj; auto. intros x y Hx Hy. rewrite Forall_forall in Fm.
      apply (mono_inj _ _ (rank_mono sel)); apply Fm; auto.
    - rewrite map_length; auto.
    - intros v Hv. apply in_map_iff in Hv as (u & <- & Hu). apply in_map; auto. }
  apply In_nth with (d := []) in He as (i & Hi & E). exists i. split; auto. unfold el. rewrite E.
  apply (Permutation_map (back mapping)) in P. unfold mapping in P at 2 3. rewrite (map_back_rank sel) in P by auto. auto.
Qed.

Lemma parent_exists : forall d i, d <= k -> i < n_elements b d ->
  exists j, j < n_elements t d /\ Permutation (el t d j) (map (back mapping) (el b d i)).
Proof.
  intros d i Hd Hi. destruct (sub_face d i Hd Hi) as (s & Hs & F1 & F2 & F3).
  destruct (Hsub s Hs) as (r & Hr & I).
  destruct (proj2 (faces_complete n rows t Hn T (n - d) d ltac:(lia) (map (back mapping) (el b d i)))) as (e & He & P).
  { exists r. split; auto. repeat split; auto. intros x Hx. auto. }
  apply In_nth with (d := []) in He as (j & Hj & E). exists j. split; auto. unfold el. rewrite E. auto.
Qed.

Lemma correspondence_ok : exists idx, find_correspondence t b mapping = Ok idx /\
  length idx = S k /\
  forall d, d <= k -> length (nth d idx []) = n_elements b d /\
    forall i, i < n_elements b d ->
      let j := nth i (nth d idx []) 0 in
      j < n_elements t d /\ Permutation (el t d j) (map (back mapping) (el b d i)) /\
      (forall j', j' < n_elements t d -> Permutation (el t d j') (map (back mapping) (el b d i)) -> j <= j').
Proof.
  assert (LC : length (combine (elements t) (elements b)) = S k).
  { rewrite combine_length, (to_lenE _ _ _ T), (to_lenE _ _ _ Tb). lia. }
  assert (NC : forall d, d <= k -> nth d (combine (elements t) (elements b)) ([], []) = (nth d (elements t) [], nth d (elements b) [])).
  { intros d Hd. revert d Hd LC. generalize (elements t) (elements b).
    clear. intros l. revert k. induction l as [|x l IH]; intros k0 [|y l'] d Hd; simpl; intros L; try lia.
    destruct d; auto. apply (IH (k0 - 1)); lia. }
  assert (INDEX : forall d, d <= k -> forall r, In r (nth d (elements b) []) ->
     In (isort Nat.leb (map (back mapping) r)) (map (isort Nat.leb) (nth d (elements t) []))).
  { intros d Hd r Hr. apply In_nth with (d := []) in Hr as (i & Hi & <-).
    destruct (parent_exists d i Hd Hi) as (j & Hj & P). apply in_map_iff. exists (el t d j). split.
    - apply isort_nat_eq. auto.
    - apply nth_In; auto. }
  destruct (mapM_exists _ _ (fun Cc => npi_indices (map (isort Nat.leb) (fst Cc))
                    (map (fun r => isort Nat.leb (map (fun v => nth v mapping 0) r)) (snd Cc)))
       (combine (elements t) (elements b))) as (idx & E).
  { intros Cc Hin. apply In_nth with (d := ([], [])) in Hin as (d & Hd & <-). rewrite LC in Hd.
    rewrite NC by lia. cbn [fst snd]. unfold npi_indices. apply mapM_exists.
    intros x Hx. apply in_map_iff in Hx as (r & <- & Hr). cbn zeta.
    pose proof (INDEX d ltac:(lia) r Hr) as I. apply (index_of_lt _ list_eqb) in I; [|apply list_eqb_ok].
    apply Nat.ltb_lt in I. unfold back in I. rewrite I. eauto. }
  exists idx. unfold find_correspondence. split; [exact E|].
  apply mapM_nth in E as [L1 E]. rewrite LC in *. split; auto.
  intros d Hd. specialize (E d ([], []) [] ltac:(lia)). rewrite NC in E by auto. cbn [fst snd] in E.
  apply mapM_nth in E as [L2 E]. rewrite map_length in *. split; [exact L2|].
  intros i Hi. cbn zeta. specialize (E i [] 0 Hi). rewrite (nth_map_lt _ _ _ _ _ []) in E by auto.
  fold (el b d i) in E. fold (back mapping) in E.
  set (key := isort Nat.leb (map (back mapping) (el b d i))) in *.
  assert (I : In key (map (isort Nat.leb) (nth d (elements t) []))).
  { apply INDEX; auto. apply nth_In; auto. }
  pose proof (index_of_lt _ list_eqb _ _ list_eqb_ok I) as IL.
  pose proof (nth_index_of _ list_eqb _ _ [] list_eqb_ok I) as IN.
  rewrite map_length in IL. pose proof IL as IL2. apply Nat.ltb_lt in IL2.
  change (fun v => nth v mapping 0) with (back mapping) in E. fold key in E.
  cbv zeta in E. rewrite map_length, IL2 in E. injection E as E. rewrite <- E.
  split; [exact IL|]. split.
  - rewrite (nth_map_lt _ _ _ _ _ []) in IN by auto. unfold key in IN at 2. apply isort_nat_eq in IN. exact IN.
  - intros j' Hj' P. apply Nat.nlt_ge. intros LT.
    assert (Q : nth j' (map (isort Nat.leb) (nth d (elements t) [])) [] = key).
    { rewrite (nth_map_lt _ _ _ _ _ []) by auto. apply isort_nat_eq. exact P. }
    assert (FIRST : forall l j0, j0 < index_of list_eqb key l -> nth j0 l [] <> key).
    { clear. induction l as [|x l IH]; simpl; intros j0 H; [lia|].
      destruct (list_eqb key x) eqn:E; [lia|]. destruct j0.
      - intros ->. rewrite (proj2 (list_eqb_eq key key) eq_refl) in E. discriminate.
      - apply IH. lia. }
    apply (FIRST _ _ LT). exact Q.
Qed.

Lemma incidence_back : forall d i d' i', d <= k -> d' <= k -> i < n_elements b d -> i' < n_elements b d' ->
  incidence_number (map (back mapping) (el b d i)) (map (back mapping) (el b d' i')) = incidence_number (el b d i) (el b d' i').
Proof.
  intros. apply incidence_map_mono with (P := fun v => v < length mapping).
  - apply back_mono.
  - apply sub_el_range; auto.
  - apply sub_el_range; auto.
Qed.

Lemma sub_top_el : forall j, j < length sel -> map (back mapping) (el b k j) = nth j sel [].
Proof.
  intros j Hj. unfold el. rewrite (to_top _ _ _ Tb). unfold mapping. rewrite (relabel_nth sel) by auto.
  apply (map_back_rank sel). apply sel_mapping. apply nth_In; auto.
Qed.

End Sub.
