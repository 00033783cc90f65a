(** Properties C13 and C14: sub-meshes and selector matrices. *)
Require Import List Arith ZArith Bool Lia Permutation Sorting.Sorted.
From Verif Require Import Util CombModel CombSpec CombProofs SimpModel SimpSpec ParProofs SimpProofs LevelProofs TopProofs SimpProps.
From Verif Require Import BdryModel BdrySpec OrientProofs FixProofs SubProofs BdryProofs SelProofs BdryProps.
Import ListNotations.

Lemma sorted_same_eq : forall l l', StronglySorted lt l -> StronglySorted lt l' -> (forall v, In v l <-> In v l') -> l = l'.
Proof.
  induction l as [|a l IH]; intros l' S S' E.
  - destruct l' as [|b l']; auto. exfalso. apply (proj2 (E b)). left; auto.
  - inversion S as [|? ? S1 F1]; subst. destruct l' as [|b l']; [exfalso; apply (proj1 (E a)); left; auto|].
    inversion S' as [|? ? S2 F2]; subst. rewrite Forall_forall in F1, F2.
    assert (a = b).
    { destruct (proj1 (E a) (or_introl eq_refl)) as [|Ha]; auto. destruct (proj2 (E b) (or_introl eq_refl)) as [|Hb]; auto.
      apply F1 in Hb. apply F2 in Ha. lia. }
    subst b. f_equal. apply IH; auto. intros v. specialize (E v). simpl in E. split; intros Hv.
    + destruct (proj1 E (or_intror Hv)) as [<-|]; auto. apply F1 in Hv. lia.
    + destruct (proj2 E (or_intror Hv)) as [<-|]; auto. apply F2 in Hv. lia.
Qed.

(** C13.  The selected simplices, in order and with their orientation, after an order preserving renumbering
    [p0] of the vertices that occur; every lower element is found in the parent. *)
Theorem C13_select_subset : forall row_leb n rows t chain, simplices_ok n rows ->
  from_simplices row_leb n rows = Ok t -> length chain = length rows ->
  (exists i, i < length rows /\ nth i chain false = true) ->
  exists s idx, select_subset row_leb t chain = Ok (s, idx) /\ length idx = S n /\
    n_dim s = n /\
    let p0 := nth 0 idx [] in
    StronglySorted lt p0 /\
    (forall v, In v p0 <-> exists i, i < length rows /\ nth i chain false = true /\ In v (nth i rows [])) /\
    (* top simplices *)
    map (map (fun v => nth v p0 0)) (nth n (elements s) []) =
      map (fun i => nth i rows []) (filter (fun i => nth i chain false) (seq 0 (length rows))) /\
    (* all elements *)
    forall d, d <= n ->
      length (nth d idx []) = n_elements s d /\
      forall i, i < n_elements s d ->
        nth i (nth d idx []) 0 < n_elements t d /\
        Permutation (nth (nth i (nth d idx []) 0) (nth d (elements t) []) [])
                    (map (fun v => nth v p0 0) (nth i (nth d (elements s) []) [])).
Proof.
  intros row_leb n rows t chain OK H L (i0 & Hi0 & C0). destruct (from_simplices_top_ok _ _ _ _ OK H) as [Hn T].
  pose proof (to_top _ _ _ T) as Top. pose proof (top_n_dim _ _ _ T) as Dn.
  set (sel := map (fun i => nth i rows []) (flatnonzero chain)).
  assert (Fz : flatnonzero chain = filter (fun i => nth i chain false) (seq 0 (length rows))) by (unfold flatnonzero; rewrite L; auto).
  assert (Hsel : forall s, In s sel -> exists i, i < length rows /\ nth i chain false = true /\ s = nth i rows []).
  { intros s Hs. apply in_map_iff in Hs as (i & <- & Hi). apply flatnonzero_in in Hi. exists i. rewrite <- L. intuition. }
  assert (Hsel' : forall i, i < length rows -> nth i chain false = true -> In (nth i rows []) sel).
  { intros i Hi Hc. apply in_map_iff. exists i. split; auto. apply flatnonzero_in. rewrite L. auto. }
  assert (OKs : simplices_ok n sel).
  { split.
    - pose proof (Hsel' i0 Hi0 C0) as X. intros E. rewrite E in X. destruct X.
    - apply Forall_forall. intros s Hs. destruct (Hsel s Hs) as (i & Hi & _ & ->).
      destruct OK as [_ F]. rewrite Forall_forall in F. apply F. apply nth_In; auto. }
  destruct (sub_built row_leb n Hn n sel ltac:(lia) OKs) as (s & Es & Ts).
  assert (Hsub : forall r, In r sel -> exists r', In r' rows /\ incl r r').
  { intros r Hr. destruct (Hsel r Hr) as (i & Hi & _ & ->). exists (nth i rows []). split; [apply nth_In; auto|apply incl_refl]. }
  destruct (correspondence_ok n rows t Hn T n sel ltac:(lia) Hsub s Ts) as (idx & Ei & Li & X).
  exists s, idx. split.
  { unfold select_subset. rewrite Dn, Top, L, Nat.eqb_refl. cbn [negb]. fold sel. cbn zeta.
    rewrite Es. cbn [bind]. rewrite Ei. reflexivity. }
  split; auto. split; [apply (top_n_dim _ _ _ Ts)|].
  assert (W : forall tt rr nn i, top_ok nn rr tt -> i < n_elements tt 0 -> el tt 0 i = [i]).
  { intros tt rr nn i TT Hi. unfold el. rewrite (to_verts _ _ _ TT). rewrite nth_map_seq by auto. auto. }
  (* number of vertices *)
  set (m := unique_nat (concat sel)) in *.
  assert (NV : n_elements s 0 = length m).
  { destruct (Nat.lt_total (n_elements s 0) (length m)) as [Lt|[E|Lt]]; auto; exfalso.
    - pose proof (proj2 (relabel_verts sel (n_elements s 0)) Lt) as V. apply (to_vused _ _ _ Ts) in V. lia.
    - pose proof (proj2 (to_vused _ _ _ Ts (length m)) Lt) as V. apply relabel_verts in V. fold m in V. lia. }
  assert (P0 : nth 0 idx [] = m).
  { destruct (X 0 ltac:(lia)) as [L0 X0]. apply nth_ext with (d := 0) (d' := 0); [lia|].
    intros v Hv. rewrite L0 in Hv. destruct (X0 v Hv) as (A & B & _). rewrite (W t rows n) in B by auto.
    rewrite (W s _ _ v Ts) in B by auto. apply Permutation_length_1 in B. auto. }
  cbn zeta. rewrite P0. split; [apply unique_nat_sorted|]. split.
  { intros v. unfold m. rewrite (mapping_in sel). split.
    - intros (r & Hr & Hv). destruct (Hsel r Hr) as (i & Hi & Hc & ->). eauto.
    - intros (i & Hi & Hc & Hv). exists (nth i rows []). auto. }
  split.
  { rewrite <- Fz. fold sel. rewrite (to_top _ _ _ Ts). unfold relabel. rewrite map_map.
    transitivity (map (fun r : simplex => r) sel); [|apply map_id]. apply map_ext_in. intros r Hr.
    apply (map_back_rank sel). apply sel_mapping; auto. }
  intros d Hd. destruct (X d Hd) as [Ld Xd]. split; auto. intros i Hi. destruct (Xd i Hi) as (A & B & _). split; auto.
Qed.
Print Assumptions C13_select_subset.

Theorem C13_wrong_length : forall row_leb n rows t chain, simplices_ok n rows ->
  from_simplices row_leb n rows = Ok t -> length chain <> length rows ->
  select_subset row_leb t chain = Err ValueError.
Proof.
  intros row_leb n rows t chain OK H L. destruct (from_simplices_top_ok _ _ _ _ OK H) as [Hn T].
  unfold select_subset. rewrite (top_n_dim _ _ _ T), (to_top _ _ _ T).
  rewrite (proj2 (Nat.eqb_neq _ _) L). reflexivity.
Qed.
Print Assumptions C13_wrong_length.

(** The sub-mesh has exactly the faces of the selected simplices. *)
Theorem C13_subset_faces : forall row_leb n rows t chain s idx, simplices_ok n rows ->
  from_simplices row_leb n rows = Ok t -> (exists i, i < length rows /\ nth i chain false = true) ->
  select_subset row_leb t chain = Ok (s, idx) ->
  forall d f, d <= n ->
    ((exists i, i < n_elements s d /\ Permutation (map (fun v => nth v (nth 0 idx []) 0) (nth i (nth d (elements s) []) [])) f)
     <-> exists i, i < length rows /\ nth i chain false = true /\ is_face d f (nth i rows [])).
Proof.
  intros row_leb n rows t chain s idx OK H Hex E d f Hd.
  destruct (Nat.eq_dec (length chain) (length rows)) as [L|L].
  2:{ rewrite (C13_wrong_length row_leb n rows t chain OK H L) in E. discriminate. }
  destruct (from_simplices_top_ok _ _ _ _ OK H) as [Hn T].
  destruct (C13_select_subset row_leb n rows t chain OK H L Hex) as (s' & idx' & E' & Li & Ds & Srt & V & Tops & El).
  rewrite E in E'. injection E' as <- <-.
  unfold select_subset in E. rewrite (top_n_dim _ _ _ T), (to_top _ _ _ T), L, Nat.eqb_refl in E. cbn [negb] in E. cbn zeta in E.
  set (sel := map (fun i => nth i rows []) (flatnonzero chain)) in *.
  assert (Hsel : forall s, In s sel -> exists i, i < length rows /\ nth i chain false = true /\ s = nth i rows []).
  { intros r Hs. apply in_map_iff in Hs as (i & <- & Hi). apply flatnonzero_in in Hi. exists i. rewrite <- L. intuition. }
  assert (Hsel' : forall i, i < length rows -> nth i chain false = true -> In (nth i rows []) sel).
  { intros i Hi Hc. apply in_map_iff. exists i. split; auto. apply flatnonzero_in. rewrite L. auto. }
  assert (OKs : simplices_ok n sel).
  { split.
    - destruct Hex as (i0 & Hi0 & C0). pose proof (Hsel' i0 Hi0 C0) as X. intros E0. rewrite E0 in X. destruct X.
    - apply Forall_forall. intros r Hs. destruct (Hsel r Hs) as (i & Hi & _ & ->).
      destruct OK as [_ F]. rewrite Forall_forall in F. apply F. apply nth_In; auto. }
  destruct (sub_built row_leb n Hn n sel ltac:(lia) OKs) as (s' & Es & Ts). rewrite Es in E. cbn [bind] in E.
  destruct (find_correspondence t s' _) as [i'|]; cbn [bind] in E; [|discriminate]. injection E as -> ->.
  assert (P0 : nth 0 idx [] = unique_nat (concat sel)).
  { apply (sorted_same_eq); auto; [apply unique_nat_sorted|]. intros v. rewrite V, (mapping_in sel). split.
    - intros (i & Hi & Hc & Hv). exists (nth i rows []). auto.
    - intros (r & Hr & Hv). destruct (Hsel r Hr) as (i & Hi & Hc & ->). eauto. }
  rewrite P0. split.
  - intros (i & Hi & P). destruct (sub_face n Hn n sel ltac:(lia) s Ts d i Hd Hi) as (r & Hr & F).
    destruct (Hsel r Hr) as (j & Hj & Hc & ->). exists j. split; auto. split; auto.
    destruct F as (F1 & F2 & F3). split; [eapply Permutation_NoDup; eauto|]. split; [rewrite <- (Permutation_length P); auto|].
    intros v Hv. apply F3. eapply Permutation_in; [apply Permutation_sym; exact P|auto].
  - intros (i & Hi & Hc & F). destruct (sub_face_complete n Hn n sel ltac:(lia) s Ts d f Hd) as (k & Hk & P).
    { exists (nth i rows []). split; auto. }
    exists k. split; auto.
Qed.
Print Assumptions C13_subset_faces.

Example C13_example : exists t s, from_simplices lex_leb 2 fan = Ok t /\
  select_subset lex_leb t [false; true; true] = Ok (s, [[0;2;3;4]; [1;2;3;5;6]; [1;2]]) /\
  nth 2 (elements s) [] = [[0;2;1];[0;2;3]].
Proof. eexists. eexists. split; [vm_compute; reflexivity|]. split; vm_compute; reflexivity. Qed.

(** C14.  Algebra of the selectors; holds for every topology and every solver. *)
Theorem C14_selector_algebra : forall row_leb sat t k,
  let SI := selector_interior row_leb sat t k in
  let SB := selector_boundary row_leb sat t k in
  ncols SI = n_elements t k /\ ncols SB = n_elements t k /\ nrows SI + nrows SB = n_elements t k /\
  (forall i j, i < nrows SI -> j < nrows SI -> product_entry SI (transpose SI) i j = if i =? j then 1%Z else 0%Z) /\
  (forall i j, i < nrows SB -> j < nrows SB -> product_entry SB (transpose SB) i j = if i =? j then 1%Z else 0%Z) /\
  (forall i j, product_entry SI (transpose SB) i j = 0%Z) /\
  (forall i j, i < n_elements t k -> j < n_elements t k ->
     (product_entry (transpose SI) SI i j + product_entry (transpose SB) SB i j)%Z = if i =? j then 1%Z else 0%Z).
Proof.
  intros row_leb sat t k. cbn zeta. unfold selector_interior, selector_boundary.
  set (dI := boundary_chain row_leb sat t true k). set (dB := boundary_chain row_leb sat t false k).
  assert (LI : length dI = n_elements t k) by apply boundary_chain_length.
  assert (LB : length dB = n_elements t k) by apply boundary_chain_length.
  assert (C : forall i, i < n_elements t k -> nth i dI false = negb (nth i dB false)) by apply boundary_chain_compl.
  assert (SS : forall d i j, i < nrows (selection_matrix d) -> j < nrows (selection_matrix d) ->
     product_entry (selection_matrix d) (transpose (selection_matrix d)) i j = if i =? j then 1%Z else 0%Z).
  { intros d i j Hi Hj. unfold selection_matrix in Hi, Hj. cbn [nrows] in Hi, Hj. rewrite selection_SSt.
    rewrite (proj2 (Nat.ltb_lt _ _) Hi), (proj2 (Nat.ltb_lt _ _) Hj). cbn [andb].
    destruct (Nat.eq_dec i j) as [->|D]; [rewrite !Nat.eqb_refl; auto|].
    rewrite (proj2 (Nat.eqb_neq i j) D). destruct (_ =? _) eqn:E; auto. apply Nat.eqb_eq in E.
    apply (proj1 (NoDup_nth (flatnonzero d) 0) (flatnonzero_nodup d)) in E; auto. congruence. }
  split; [exact LI|]. split; [exact LB|]. split.
  { cbn [nrows selection_matrix]. unfold flatnonzero. rewrite LI, LB.
    assert (G : forall l, (forall i, In i l -> i < n_elements t k) ->
       length (filter (fun i => nth i dI false) l) + length (filter (fun i => nth i dB false) l) = length l).
    { induction l as [|x l IH]; intros Hl; auto. cbn [filter]. rewrite C by (apply Hl; left; auto).
      assert (IH' := IH ltac:(intros; apply Hl; right; auto)). destruct (nth x dB false); cbn [negb length]; lia. }
    rewrite G, seq_length; auto. intros i Hi. apply in_seq in Hi. lia. }
  split; [apply SS|]. split; [apply SS|]. split.
  { intros i j. rewrite selection_SSt. destruct (i <? length (flatnonzero dI)) eqn:Ei; auto.
    destruct (j <? length (flatnonzero dB)) eqn:Ej; auto. cbn [andb].
    destruct (_ =? _) eqn:E; auto. apply Nat.eqb_eq in E. apply Nat.ltb_lt in Ei, Ej.
    destruct (flatnonzero_nth _ _ Ei) as [A1 A2]. destruct (flatnonzero_nth _ _ Ej) as [_ B2].
    rewrite E in A2. rewrite C in A2 by lia. rewrite B2 in A2. discriminate. }
  intros i j Hi Hj. rewrite !selection_StS by lia. rewrite C by auto.
  destruct (i =? j); auto. cbn [andb]. destruct (nth i dB false); auto.
Qed.
Print Assumptions C14_selector_algebra.

(** Rows are unit vectors, ordered by increasing column. *)
Theorem C14_selector_rows : forall row_leb sat t k S,
  S = selector_interior row_leb sat t k \/ S = selector_boundary row_leb sat t k ->
  exists cols, length cols = nrows S /\ StronglySorted lt cols /\
    forall i j, i < nrows S -> entry S i j = if j =? nth i cols 0 then 1%Z else 0%Z.
Proof.
  intros row_leb sat t k S HS.
  assert (exists d, S = selection_matrix d) as (d & ->) by (destruct HS; subst; eexists; reflexivity).
  exists (flatnonzero d). split; auto. split; [apply flatnonzero_sorted|].
  intros i j Hi. rewrite selection_entry. unfold selection_matrix in Hi. cbn [nrows] in Hi.
  rewrite (proj2 (Nat.ltb_lt _ _) Hi). cbn [andb]. rewrite Nat.eqb_sym. auto.
Qed.
Print Assumptions C14_selector_rows.

(** The boundary selector picks exactly the elements contained in a boundary facet. *)
Theorem C14_selector_meaning : forall row_leb sat n rows t k, sat_contract sat -> simplices_ok n rows -> 2 <= n ->
  from_simplices row_leb n rows = Ok t -> at_most_two n rows -> is_oriented sat t = Ok true -> k <= n ->
  forall c, c < n_elements t k ->
   ((exists i, i < nrows (selector_boundary row_leb sat t k) /\ entry (selector_boundary row_leb sat t k) i c = 1%Z) <->
    exists f, boundary_face n rows f /\ incl (nth c (nth k (elements t) []) []) f).
Proof.
  intros row_leb sat n rows t k SC OK Hn2 H AM O Hk c Hc. destruct (from_simplices_top_ok _ _ _ _ OK H) as [Hn T].
  pose proof (is_oriented_consistent n rows t OK Hn T AM sat SC O) as CO.
  set (d := boundary_chain row_leb sat t false k).
  assert (Ld : length d = n_elements t k) by apply boundary_chain_length.
  assert (R : (exists i, i < nrows (selection_matrix d) /\ entry (selection_matrix d) i c = 1%Z) <-> nth c d false = true).
  { split.
    - intros (i & Hi & E). rewrite selection_entry in E. unfold selection_matrix in Hi. cbn [nrows] in Hi.
      rewrite (proj2 (Nat.ltb_lt _ _) Hi) in E. cbn [andb] in E.
      destruct (nth i (flatnonzero d) 0 =? c) eqn:E1; [|discriminate]. apply Nat.eqb_eq in E1. subst c. apply flatnonzero_nth; auto.
    - intros E. assert (I : In c (flatnonzero d)) by (apply flatnonzero_in; split; [lia|auto]).
      apply In_nth with (d := 0) in I as (i & Hi & Ei). exists i. split; auto. rewrite selection_entry.
      rewrite (proj2 (Nat.ltb_lt _ _) Hi), Ei, Nat.eqb_refl. auto. }
  unfold selector_boundary. fold d. rewrite R. clear R.
  destruct (list_eq_dec Nat.eq_dec (boundary_positions t) []) as [E|E].
  - assert (Eb : boundary row_leb sat t = Ok None) by (rewrite (boundary_unfold row_leb n rows t T sat O), E; auto).
    unfold d, boundary_chain. rewrite Eb. rewrite nth_repeat' by auto. split; [discriminate|].
    intros (f & B & _). exfalso. rewrite (positions_nil_iff n rows t OK Hn T AM CO) in E. eapply E; eauto.
  - destruct (boundary_some row_leb n rows t OK Hn T AM CO Hn2 sat O E) as (b & idx & Eb & BF).
    pose proof (bf_top _ _ _ _ _ BF) as Tb.
    unfold d, boundary_chain. rewrite Eb.
    destruct (Nat.eq_dec k n) as [->|Hkn].
    + rewrite (proj2 (nth_error_None idx n)) by (rewrite (bf_len _ _ _ _ _ BF); lia).
      rewrite nth_repeat' by auto. split; [discriminate|]. intros (f & B & I). exfalso.
      destruct B as (j & Hj & (F1 & F2 & F3) & _).
      destruct (el_len n rows t Hn T n c ltac:(lia) Hc) as [Ec NDc].
      pose proof (NoDup_incl_length NDc I) as X. unfold el in *. lia.
    + destruct (bf_idx _ _ _ _ _ BF k ltac:(lia)) as [Lk X].
      rewrite (nth_error_nth' idx []) by (rewrite (bf_len _ _ _ _ _ BF); lia).
      unfold put. rewrite repeat_length.
      assert (FB : forallb (fun i => i <? n_elements t k) (nth k idx []) = true).
      { apply forallb_forall. intros i Hi. apply Nat.ltb_lt. apply In_nth with (d := 0) in Hi as (p & Hp & <-).
        rewrite Lk in Hp. apply (X p Hp). }
      rewrite FB. rewrite nth_map_seq by auto. cbn [negb].
      rewrite nth_repeat' by auto.
      assert (Q : (if existsb (Nat.eqb c) (nth k idx []) then true else false) = true <-> In c (nth k idx [])).
      { destruct (existsb _ _) eqn:Ex.
        - apply existsb_exists in Ex as (y & Hy & Ey). apply Nat.eqb_eq in Ey. subst y. tauto.
        - split; [discriminate|]. intros I. exfalso. assert (existsb (Nat.eqb c) (nth k idx []) = true); [|congruence].
          apply existsb_exists. exists c. split; auto. apply Nat.eqb_refl. }
      rewrite Q. clear Q. split.
      * intros I. apply In_nth with (d := 0) in I as (p & Hp & Ep). rewrite Lk in Hp. destruct (X p Hp) as [_ P].
        rewrite Ep in P.
        destruct (sub_face n Hn (n - 1) (bel n t) ltac:(lia) b Tb k p ltac:(lia) Hp) as (f & Hf & (_ & _ & I)).
        apply in_map_iff in Hf as (i & <- & Hi). apply (boundary_positions_spec n rows t OK Hn T AM CO) in Hi as [Hi Bi].
        exists (el t (n - 1) i). split; auto. intros v Hv. apply I. eapply Permutation_in; [exact P|auto].
      * intros (f & B & I).
        pose proof B as (j & Hj & Ff & _).
        destruct (facet_index n rows t Hn T f j Hj Ff) as (i & Hi & P).
        assert (Bi : boundary_face n rows (el t (n - 1) i)) by (eapply boundary_face_perm; [|exact B]; apply Permutation_sym; auto).
        assert (Hin : In (el t (n - 1) i) (bel n t)).
        { apply in_map_iff. exists i. split; auto. apply (boundary_positions_spec n rows t OK Hn T AM CO). auto. }
        destruct (sub_face_complete n Hn (n - 1) (bel n t) ltac:(lia) b Tb k (el t k c) ltac:(lia)) as (p & Hp & Pp).
        { exists (el t (n - 1) i). split; auto. split; [|split].
          - apply (el_len n rows t Hn T); auto.
          - apply (el_len n rows t Hn T); auto.
          - intros v Hv. eapply Permutation_in; [apply Permutation_sym; exact P|apply I; exact Hv]. }
        destruct (X p Hp) as [A1 A2].
        assert (EE : c = nth p (nth k idx []) 0).
        { apply (faces_unique n rows t T k); auto; try lia. eapply perm_trans; [apply Permutation_sym; exact Pp|]. apply Permutation_sym; exact A2. }
        rewrite EE. apply nth_In. lia.
Qed.
Print Assumptions C14_selector_meaning.

Example C14_example : exists t, from_simplices lex_leb 2 [[0;1;2];[0;2;3];[0;3;4];[0;4;5];[0;5;1]] = Ok t /\
  is_oriented brute_sat t = Ok true /\ at_most_two 2 [[0;1;2];[0;2;3];[0;3;4];[0;4;5];[0;5;1]] /\
  map (fun k => (nrows (selector_interior lex_leb brute_sat t k), nrows (selector_boundary lex_leb brute_sat t k))) [0;1;2]
    = [(1, 5); (5, 5); (5, 0)].
Proof. eexists. split; [vm_compute; reflexivity|]. split; [vm_compute; reflexivity|]. split; [two_mesh|]. vm_compute; reflexivity. Qed.

(** On an open curve the failure of [boundary] is swallowed, so that every element counts as interior. *)
Theorem C14_open_curve_refuted : exists t, from_simplices lex_leb 1 [[0;1];[1;2]] = Ok t /\ is_oriented brute_sat t = Ok true /\
  boundary_face 1 [[0;1];[1;2]] [0] /\ nrows (selector_boundary lex_leb brute_sat t 0) = 0.
Proof.
  destruct C11_curve_example as (t & E & O & B). exists t. split; auto. split; auto. split; auto.
  vm_compute in E. injection E as <-. vm_compute. reflexivity.
Qed.
Print Assumptions C14_open_curve_refuted.
