(** Proofs about the boundary of cubical topologies. *)
Require Import List Arith ZArith Bool Lia Permutation Sorting.Sorted.
From Verif Require Import Util CombModel CombSpec CombProofs SimpModel SimpSpec ParProofs SimpProofs LevelProofs TopProofs CubeModel CubeSpec CubeBits CubeBd CubeRel CubeLevel CubeTop CubeChain.
From Verif Require Import BdryModel BdrySpec OrientProofs FixProofs SubProofs BdryProofs SelProofs GenOrient COrModel COrSpec COrProofs CSubProofs.
Import ListNotations.
Local Open Scope nat_scope.

Notation boundary := COrModel.boundary.
Notation boundary_face := COrSpec.boundary_face.

(** The faces of highest dimension are stored as generated from one of the cubes. *)
Lemma top_faces_generated : forall row_leb n rows t, 2 <= n -> cubes_ok n rows -> from_cubes row_leb true n rows = Ok t ->
  forall i, i < n_elements t (n - 1) -> exists c a s, In c rows /\ a < n /\ el t (n - 1) i = gface n a s c.
Proof.
  intros row_leb n rows t Hn OK H i Hi. destruct (from_cubes_ctop row_leb n rows t ltac:(lia) OK H) as (H7 & FM & _ & _).
  unfold from_cubes in H. destruct n as [|m]; [lia|]. cbn [build_cubes] in H.
  assert (P : 2 ^ (S m - 1) < 128) by (change 128 with (2 ^ 7); apply Nat.pow_lt_mono_r; lia).
  assert (C : compat_faces (S m) rows). { apply compat_comp; [auto|apply OK|]. replace (S m - 1) with m by lia. apply FM. lia. }
  rewrite lower_ok in H by (auto; apply OK). cbn [bind] in H. destruct (build_cubes row_leb true m (lows row_leb (S m) rows)) as [[[E B] Or]|e] eqn:Eb; cbn [bind] in H; [|discriminate].
  assert (X : nth m E [] = lows row_leb (S m) rows /\ length E = S m).
  { clear - Eb. revert Eb. generalize (lows row_leb (S m) rows) as r. intros r Eb. destruct m as [|m]; cbn [build_cubes] in Eb; [injection Eb as <- <- <-; auto|].
    assert (G : forall m r E B Or, build_cubes row_leb true m r = Ok (E, B, Or) -> length E = S m).
    { clear. induction m as [|m IH]; intros r E B Or Q; cbn [build_cubes] in Q; [injection Q as <- <- <-; auto|]. destruct (lower row_leb true (S m) r) as [[[l b] o]|]; cbn [bind] in Q; [|discriminate]. destruct (build_cubes row_leb true m l) as [[[E' B'] O']|] eqn:Eb; cbn [bind] in Q; [|discriminate]. injection Q as <- <- <-. rewrite app_length. rewrite (IH _ _ _ _ Eb). simpl. lia. }
    destruct (lower row_leb true (S m) r) as [[[l b] o]|]; cbn [bind] in Eb; [|discriminate]. destruct (build_cubes row_leb true m l) as [[[E' B'] O']|] eqn:Eb'; cbn [bind] in Eb; [|discriminate]. injection Eb as <- <- <-. pose proof (G _ _ _ _ _ Eb') as L. rewrite app_nth2 by lia. rewrite L, Nat.sub_diag. split; auto. rewrite app_length, L. simpl. lia. }
  destruct X as [X LE]. unfold make_topology in H. match type of H with (if ?q then _ else _) = _ => destruct q end; [|discriminate]. injection H as <-. unfold n_elements, el in *. cbn [elements] in *. replace (S m - 1) with m in * by lia.
  rewrite app_nth1 in * by lia. rewrite X in *. pose proof (lows_in row_leb (S m) rows i Hi) as I. apply (bc_in (S m) rows Hn) in I. auto.
Qed.

Section Top.
Variable row_leb : list nat -> list nat -> bool.
Variables (n : nat) (rows : list cube) (t : topology).
Hypothesis Hn : 1 <= n.
Hypothesis H7 : n <= 7.
Hypothesis OK : cubes_ok n rows.
Hypothesis FM : forall k, 1 <= k < n -> faces_match k n rows.
Hypothesis EQ : from_cubes row_leb true n rows = Ok t.
Hypothesis T : ctop n rows t.
Hypothesis AM : at_most_two n rows.
Hypothesis CO : consistent n rows.
Notation M := (matrix t (n - 1)).
Definition rowsum i := sumZ (map (fun j => entry M i j) (seq 0 (length rows))).
Notation row_ok := (row_ok n rows OK).
Notation elem := (el t (n - 1)).
Notation nfaces := (n_elements t (n - 1)).

Lemma rows_M : nrows M = nfaces.
Proof. apply (M_rows n rows t Hn T). Qed.
Lemma M_nz' : forall i j, i < nfaces -> j < length rows -> (entry M i j <> 0%Z <-> has_side n (nth j rows []) (elem i)).
Proof. intros i j Hi Hj. apply (M_nz n rows t Hn OK T); auto. rewrite rows_M. auto. Qed.
Lemma elem_side : forall i, i < nfaces -> exists j, j < length rows /\ has_side n (nth j rows []) (elem i).
Proof.
  intros i Hi. pose proof (ct_level _ _ _ T (n - 1) ltac:(lia)) as L. replace (S (n - 1)) with n in L by lia. destruct (cl_sub _ _ _ _ _ L i Hi) as (c & a & s & z & Hc & Ha & R). rewrite (ct_top _ _ _ T) in Hc.
  apply In_nth with (d := []) in Hc as (j & Hj & <-). exists j. split; auto. apply has_side_slice. exists a, s, z. auto.
Qed.
Lemma coface_cases : forall i, i < nfaces ->
  (exists j, j < length rows /\ forall j', j' < length rows -> has_side n (nth j' rows []) (elem i) <-> j' = j) \/
  (exists j1 j2, pair_at t i j1 j2).
Proof.
  intros i Hi. destruct (elem_side i Hi) as (j & Hj & F).
  assert (D : (exists j', j' < length rows /\ j' <> j /\ has_side n (nth j' rows []) (elem i)) \/ (forall j', j' < length rows -> j' <> j -> ~ has_side n (nth j' rows []) (elem i))).
  { assert (G : forall N, N <= length rows -> (exists j', j' < N /\ j' <> j /\ has_side n (nth j' rows []) (elem i)) \/ (forall j', j' < N -> j' <> j -> ~ has_side n (nth j' rows []) (elem i))); [|apply G; auto].
    induction N as [|N IH]; intros HN; [right; intros; lia|]. destruct IH as [(j' & A & B & C)|IH]; [lia|left; exists j'; repeat split; auto; lia|].
    destruct (Nat.eq_dec N j) as [->|Hne]; [right; intros j' A B; apply IH; lia|].
    destruct (Z.eq_dec (entry M i N) 0) as [E|E].
    - right. intros j' A B. destruct (Nat.eq_dec j' N) as [->|]; [|apply IH; lia]. rewrite <- M_nz' by (auto; lia). lia.
    - left. exists N. split; [lia|]. split; auto. apply M_nz'; auto; lia. }
  destruct D as [(j' & A & B & C)|D].
  - right. destruct (Nat.lt_total j j') as [L|[L|L]]; try lia; [exists j, j'|exists j', j]; apply (pair_sides n rows t Hn OK T AM); rewrite rows_M; auto.
  - left. exists j. split; auto. intros x Hx. split; [|intros ->; auto]. intros Ix. destruct (Nat.eq_dec x j); auto. exfalso. eapply D; eauto.
Qed.
Lemma rowsum_two : forall i j1 j2, pair_at t i j1 j2 -> rowsum i = 0%Z.
Proof.
  intros i j1 j2 X. pose proof CO as C. rewrite <- (choose_true n rows) in C. apply (choose_consistent n rows t Hn OK T AM) in C. specialize (C _ _ _ X). rewrite (lastm_M n rows t T) in C. unfold zsign in C.
  pose proof X as (Hi & Hj & X'). rewrite (lastm_M n rows t T) in *. rewrite (cells_n n rows t T) in *. unfold rowsum.
  rewrite (sumZ_map_ext _ _ (fun j => (if (j =? j1)%nat then entry M i j1 else 0) + (if (j =? j2)%nat then entry M i j2 else 0))%Z).
  - rewrite sumZ_map_add. rewrite (sumZ_single _ _ j1), (sumZ_single _ _ j2); try lia.
    + rewrite !Nat.eqb_refl. lia.
    + intros j _ Hne. apply Nat.eqb_neq in Hne. rewrite Hne. auto.
    + intros j _ Hne. apply Nat.eqb_neq in Hne. rewrite Hne. auto.
  - intros j Hj'. apply in_seq in Hj'. destruct (j =? j1) eqn:E1; [apply Nat.eqb_eq in E1; subst|apply Nat.eqb_neq in E1].
    + destruct (j1 =? j2) eqn:E2; [apply Nat.eqb_eq in E2; lia|]. lia.
    + destruct (j =? j2) eqn:E2; [apply Nat.eqb_eq in E2; subst; lia|apply Nat.eqb_neq in E2]. destruct (Z.eq_dec (entry M i j) 0) as [->|Q]; auto. exfalso. apply X' in Q; lia.
Qed.
Lemma rowsum_one : forall i j, i < nfaces -> j < length rows ->
  (forall j', j' < length rows -> has_side n (nth j' rows []) (elem i) <-> j' = j) ->
  rowsum i = entry M i j /\ (rowsum i = 1 \/ rowsum i = -1)%Z.
Proof.
  intros i j Hi Hj X. assert (E : rowsum i = entry M i j).
  { unfold rowsum. rewrite (sumZ_single _ _ j); auto. intros x Hx Hne. destruct (Z.eq_dec (entry M i x) 0) as [|Q]; auto. exfalso. apply Hne. apply X; auto. apply M_nz'; auto. }
  split; auto. rewrite E. rewrite (M_entry n rows t Hn T) by (rewrite ?rows_M; auto). destruct (row_ok j Hj) as [L ND].
  destruct (incn_pm n (nth j rows []) (elem i) L ND) as [Q|Q]; [apply X; auto|right|left]; unfold COrProofs.elem; unfold el in Q; rewrite Q; auto.
Qed.
(** Boundary faces are stored with the orientation induced by their cube. *)
Lemma rowsum_rep : 2 <= n -> forall i j, i < nfaces -> j < length rows ->
  (forall j', j' < length rows -> has_side n (nth j' rows []) (elem i) <-> j' = j) -> rowsum i = (-1)%Z.
Proof.
  intros Hn2 i j Hi Hj X. destruct (rowsum_one i j Hi Hj X) as [E _]. rewrite E. rewrite (M_entry n rows t Hn T) by (rewrite ?rows_M; auto). change (COrProofs.elem n t i) with (elem i).
  destruct (top_faces_generated row_leb n rows t Hn2 OK EQ i Hi) as (c & a & s & Hc & Ha & R). apply In_nth with (d := []) in Hc as (j' & Hj' & <-). destruct (row_ok j' Hj') as [L ND].
  destruct (gface_related n a s (nth j' rows []) Hn2) as (z & Rg). rewrite <- R in Rg.
  assert (j' = j) by (apply X; auto; apply has_side_slice; exists a, s, z; auto). subst j'.
  rewrite (incn_value n _ _ a s z Ha L ND Rg).
  pose proof (gface_sign n (fun x => csign (n - 1) x (elem i)) a s (nth j rows []) Hn2 (csign_antisym (n - 1) (elem i))) as G. cbv beta in G.
  rewrite (related_csign _ _ _ _ Rg) in G by (auto using slice_length; apply slice_nodup; auto).
  rewrite R in G at 1. rewrite csign_self in G by (try apply gface_nodup; try apply gface_length; auto).
  rewrite <- G. auto.
Qed.

Lemma one_coface_iff : forall i, i < nfaces ->
  (boundary_face n rows (elem i) <-> exists j, j < length rows /\ forall j', j' < length rows -> has_side n (nth j' rows []) (elem i) <-> j' = j).
Proof.
  intros i Hi. split.
  - intros (j & Hj & F & U). exists j. split; auto. intros j' Hj'. split; [intros I; apply U; auto|intros ->; auto].
  - intros (j & Hj & X). exists j. split; auto. split; [apply X; auto|]. intros j' Hj' F. apply X; auto.
Qed.
Lemma positions_spec : forall i, In i (boundary_positions t) <-> i < nfaces /\ boundary_face n rows (elem i).
Proof.
  intros i. unfold boundary_positions. rewrite (dim_n n rows t T). rewrite rows_M, (M_cols n rows t Hn T). rewrite filter_In, in_seq. fold (rowsum i). split.
  - intros [H1 H2]. assert (Hi : i < nfaces) by lia. split; auto. destruct (coface_cases i Hi) as [H|(j1 & j2 & X)].
    + apply one_coface_iff; auto.
    + rewrite (rowsum_two _ _ _ X) in H2. discriminate.
  - intros [Hi B]. split; [lia|]. apply one_coface_iff in B as (j & Hj & X); auto. destruct (rowsum_one i j Hi Hj X) as [_ [H|H]]; rewrite H; reflexivity.
Qed.
Lemma positions_sorted : StronglySorted lt (boundary_positions t).
Proof. unfold boundary_positions. apply StronglySorted_filter. apply seq_sorted. Qed.
Definition bel : list cube := map elem (boundary_positions t).
Lemma bel_ok : boundary_positions t <> [] -> cubes_ok (n - 1) bel.
Proof.
  intros Hne. split.
  - unfold bel. destruct (boundary_positions t); simpl; congruence.
  - apply Forall_forall. intros s Hs. apply in_map_iff in Hs as (i & <- & Hi). apply positions_spec in Hi as [Hi _]. apply (t_len n rows t Hn T); auto. lia.
Qed.
Lemma bel_sub : forall s, In s bel -> exists r g z, In r rows /\ subcube (n - 1) n r g /\ related (n - 1) z g s.
Proof.
  intros s Hs. apply in_map_iff in Hs as (i & <- & Hi). apply positions_spec in Hi as [Hi (j & Hj & F & _)]. apply has_side_slice in F as (a & s & z & Ha & R).
  exists (nth j rows []), (slice n a s (nth j rows [])), z. split; [apply nth_In; auto|]. split; auto. apply (subcube_step _ _ _ _ a s); auto. constructor.
Qed.
Lemma side_index : forall f j, j < length rows -> has_side n (nth j rows []) f -> exists i z, i < nfaces /\ related (n - 1) z f (elem i).
Proof. intros f j Hj H. destruct (side_elem n rows t Hn T j f Hj H) as (i & z & Hi & R). rewrite rows_M in Hi. exists i, z. auto. Qed.
Lemma boundary_face_related : forall f g z, related (n - 1) z f g -> length f = 2 ^ (n - 1) -> boundary_face n rows f -> boundary_face n rows g.
Proof.
  intros f g z R L (j & Hj & F & U). exists j. split; auto. split; [eapply has_side_trans; eauto|]. intros j' Hj' F'. apply U; auto. eapply has_side_trans; [exact F'|]. apply related_sym; [exact R|auto].
Qed.
Lemma has_side_length : forall c f, has_side n c f -> length f = 2 ^ (n - 1).
Proof. intros c f H. apply has_side_slice in H as (a & s & z & Ha & R). eapply related_length; [exact R|apply slice_length]. Qed.
Lemma positions_nil_iff : boundary_positions t = [] <-> forall f, ~ boundary_face n rows f.
Proof.
  split.
  - intros E f B. pose proof B as (j & Hj & F & _). destruct (side_index f j Hj F) as (i & z & Hi & R).
    assert (In i (boundary_positions t)); [|rewrite E in H; destruct H]. apply positions_spec. split; auto. eapply boundary_face_related; eauto using has_side_length.
  - intros H. destruct (boundary_positions t) as [|i l] eqn:E; auto. exfalso. assert (I : In i (boundary_positions t)) by (rewrite E; left; auto). apply positions_spec in I as [_ B]. eapply H; eauto.
Qed.
(** The stored boundary faces form a cycle. *)
Lemma bel_closed : 2 <= n -> forall f, sumZ (map (fun s => incn (n - 1) f s) bel) = 0%Z.
Proof.
  intros Hn2 f.
  assert (E1 : sumZ (map (fun s => incn (n - 1) f s) bel) = (- sumZ (map (fun i => incn (n - 1) f (elem i) * rowsum i)%Z (seq 0 nfaces)))%Z).
  { unfold bel. rewrite map_map.
    assert (EQP : boundary_positions t = filter (fun i => existsb (Nat.eqb i) (boundary_positions t)) (seq 0 nfaces)).
    { symmetry. apply filter_seq_eq. split; [apply positions_sorted|]. intros j. rewrite existsb_exists. split.
      - intros H. split; [apply positions_spec in H; tauto|]. exists j. split; auto. apply Nat.eqb_refl.
      - intros [_ (x & Hx & E)]. apply Nat.eqb_eq in E. subst; auto. }
    rewrite EQP at 1.
    assert (SF : forall (p : nat -> bool) (g : nat -> Z) l, sumZ (map g (filter p l)) = sumZ (map (fun i => if p i then g i else 0%Z) l)).
    { intros p g. induction l; simpl; auto. destruct (p a); simpl; rewrite IHl; lia. }
    rewrite SF. rewrite <- sumZ_map_opp. apply sumZ_map_ext. intros i Hi. apply in_seq in Hi.
    destruct (existsb (Nat.eqb i) (boundary_positions t)) eqn:E.
    - apply existsb_exists in E as (x & Hx & E). apply Nat.eqb_eq in E. subst x. apply positions_spec in Hx as [_ B]. apply one_coface_iff in B as (j & Hj & X); [|lia].
      rewrite (rowsum_rep Hn2 i j) by (auto; lia). lia.
    - destruct (coface_cases i ltac:(lia)) as [H|(j1 & j2 & X)].
      + apply one_coface_iff in H; [|lia]. exfalso.
        assert (X : existsb (Nat.eqb i) (boundary_positions t) = true); [|congruence]. apply existsb_exists. exists i. split; [|apply Nat.eqb_refl]. apply positions_spec. split; auto. lia.
      + rewrite (rowsum_two _ _ _ X). lia. }
  rewrite E1. unfold rowsum.
  rewrite (sumZ_map_ext _ _ (fun i => sumZ (map (fun j => incn (n - 1) f (elem i) * - incn n (elem i) (nth j rows []))%Z (seq 0 (length rows))))).
  2:{ intros i Hi. apply in_seq in Hi. rewrite <- sumZ_map_mul. apply sumZ_map_ext. intros j Hj. apply in_seq in Hj. rewrite (M_entry n rows t Hn T) by (rewrite ?rows_M; lia). reflexivity. }
  rewrite sumZ_swap. assert (Z0 : forall z, z = 0%Z -> (- z = 0)%Z) by lia. apply Z0. apply sumZ_map_0. intros j Hj. apply in_seq in Hj.
  pose proof (ct_level _ _ _ T (n - 1) ltac:(lia)) as L. replace (S (n - 1)) with n in L by lia. rewrite (ct_top _ _ _ T) in L.
  assert (Hjl : j < length rows) by lia.
  pose proof (clevel_transfer _ _ _ _ _ L OK (nth j rows []) (nth_In rows [] Hjl) (incn (n - 1) f) (incn_antisym (n - 1) f)) as Q. assert (Q2 : cbd n (incn (n - 1) f) (nth j rows []) = 0%Z) by exact (cbd_cbd n (fun x => csign (n - 1 - 1) x f) (nth j rows [])). rewrite Q2 in Q.
  rewrite (sumZ_map_ext _ _ (fun i => - (incn (n - 1) f (elem i) * incn n (elem i) (nth j rows [])))%Z) by (intros; ring). rewrite sumZ_map_opp. apply Z0. exact Q.
Qed.
Lemma bel_concat_sorted : n = 1 -> StronglySorted lt (concat bel).
Proof.
  intros N1. assert (E : concat bel = boundary_positions t); [|rewrite E; apply positions_sorted].
  unfold bel. rewrite (map_ext_in elem (fun v => [v])); [apply concat_singletons|]. intros i Hi. apply positions_spec in Hi as [Hi _]. unfold el, n_elements in *. rewrite N1 in *. change (1 - 1) with 0 in *. rewrite (ct_verts _ _ _ T) in *. rewrite map_length, seq_length in Hi. apply nth_map_seq. auto.
Qed.
Notation bmap := (smap bel).
Lemma boundary_unfold : forall sat, is_oriented sat t = Ok true ->
  boundary row_leb sat t =
   if length (boundary_positions t) =? 0 then Ok None
   else do b <- from_cubes row_leb true (n - 1) (relabel bmap bel);
        do parent_idx <- find_correspondence t b bmap;
        Ok (Some (b, parent_idx)).
Proof. intros sat H. unfold COrModel.boundary. rewrite H. cbn [bind negb]. rewrite (dim_n n rows t T). reflexivity. Qed.
Record boundary_facts (b : topology) (idx : list (list nat)) : Prop := {
  bf_sub : sub_top row_leb (n - 1) bel b;
  bf_len : length idx = n;
  bf_idx : forall d, d < n -> length (nth d idx []) = n_elements b d /\
    forall i, i < n_elements b d -> let j := nth i (nth d idx []) 0 in
      j < n_elements t d /\ Permutation (el t d j) (map (back bmap) (el b d i))
}.
Lemma boundary_some : forall sat, is_oriented sat t = Ok true -> boundary_positions t <> [] ->
  exists b idx, boundary row_leb sat t = Ok (Some (b, idx)) /\ boundary_facts b idx.
Proof.
  intros sat O Hne. rewrite boundary_unfold by auto.
  assert (E : (length (boundary_positions t) =? 0) = false) by (apply Nat.eqb_neq; destruct (boundary_positions t); simpl; [congruence|lia]). rewrite E.
  assert (ST : exists b, sub_top row_leb (n - 1) bel b).
  { destruct (Nat.eq_dec n 1) as [N1|N1].
    - apply (sub_zero row_leb n Hn H7 (n - 1) bel); try lia; [apply bel_ok; auto|apply bel_concat_sorted; auto].
    - apply (sub_pos row_leb n rows Hn H7 OK FM (n - 1) bel); try lia; [apply bel_ok; auto|apply bel_sub]. }
  destruct ST as (b & ST). rewrite (st_from _ _ _ _ ST). cbn [bind].
  destruct (sub_correspondence row_leb n rows t Hn H7 OK T (n - 1) bel ltac:(lia) bel_sub b ST) as (idx & Ei & Li & Hi). rewrite Ei. cbn [bind].
  exists b, idx. split; auto. constructor; auto; try lia. intros d Hd. apply Hi. lia.
Qed.
Lemma boundary_some_inv : forall sat b idx, boundary row_leb sat t = Ok (Some (b, idx)) -> is_oriented sat t = Ok true -> boundary_positions t <> [].
Proof. intros sat b idx H O E. rewrite boundary_unfold in H by auto. rewrite E in H. discriminate. Qed.
Lemma parent_idx_top : forall b idx, boundary_facts b idx -> nth (n - 1) idx [] = boundary_positions t.
Proof.
  intros b idx [Sb Li Hi]. destruct (Nat.eq_dec n 1) as [N1|N1].
  - destruct (Hi 0 ltac:(lia)) as [L1 L2]. replace (n - 1) with 0 by lia. rewrite (sub_idx0 row_leb n rows t T (n - 1) bel b Sb idx L1 L2).
    assert (E : concat bel = boundary_positions t).
    { unfold bel. rewrite (map_ext_in elem (fun v => [v])); [apply concat_singletons|]. intros i Hi'. apply positions_spec in Hi' as [Hi' _]. unfold el, n_elements in *. rewrite N1 in *. change (1 - 1) with 0 in *. rewrite (ct_verts _ _ _ T) in *. rewrite map_length, seq_length in Hi'. apply nth_map_seq. auto. }
    unfold smap. rewrite E. apply SelProps.sorted_same_eq; [apply unique_nat_sorted|apply positions_sorted|]. intros v. apply unique_nat_in.
  - pose proof (st_topk _ _ _ _ Sb ltac:(lia)) as Tb. destruct (Hi (n - 1) ltac:(lia)) as [L1 L2].
    assert (Lb : n_elements b (n - 1) = length (boundary_positions t)) by (unfold n_elements; rewrite (ct_top _ _ _ Tb); unfold smap; rewrite relabel_length; unfold bel; rewrite map_length; auto).
    apply nth_ext with (d := 0) (d' := 0); [lia|]. intros i Hi'. rewrite L1 in Hi'. destruct (L2 i Hi') as [A B].
    assert (EB : map (back bmap) (el b (n - 1) i) = elem (nth i (boundary_positions t) 0)).
    { unfold el at 1. rewrite (ct_top _ _ _ Tb). unfold smap. rewrite (relabel_nth bel) by (unfold bel; rewrite map_length; lia). rewrite (map_back_rank bel).
      - unfold bel. rewrite (nth_map_lt _ _ _ _ _ 0) by lia. auto.
      - apply sel_mapping. apply nth_In. unfold bel. rewrite map_length. lia. }
    rewrite EB in B. assert (I : In (nth i (boundary_positions t) 0) (boundary_positions t)) by (apply nth_In; lia). apply positions_spec in I as [I _]. apply (c_distinct n rows t T (n - 1)); auto; lia.
Qed.
Lemma boundary_rowsum : 2 <= n -> forall b idx, boundary_facts b idx -> forall i, i < n_elements b (n - 2) ->
  sumZ (map (fun j => entry (matrix b (n - 2)) i j) (seq 0 (n_elements b (n - 1)))) = 0%Z.
Proof.
  intros Hn2 b idx [Sb _ _] i Hi. assert (Hb1 : 1 <= n - 1) by lia. pose proof (st_topk _ _ _ _ Sb Hb1) as Tb.
  assert (Ln : n_elements b (n - 1) = length bel) by (unfold n_elements; rewrite (ct_top _ _ _ Tb); apply relabel_length).
  assert (E : forall j, j < length bel -> entry (matrix b (n - 2)) i j = (- incn (n - 1) (map (back bmap) (el b (n - 2) i)) (nth j bel []))%Z).
  { intros j Hj. rewrite (c_matrix_entry (n - 1) (relabel bmap bel) b Hb1 Tb (n - 2)) by (auto; lia). replace (S (n - 2)) with (n - 1) by lia. rewrite (proj2 (Nat.ltb_lt j (n_elements b (n - 1)))) by lia. f_equal.
    rewrite (ct_top _ _ _ Tb). unfold smap. rewrite (relabel_nth bel) by auto. fold bmap. fold (el b (n - 2) i).
    assert (Ne : boundary_positions t <> []) by (intros Q; unfold bel in Hj; rewrite Q in Hj; simpl in Hj; lia). destruct (bel_ok Ne) as [_ F]. rewrite Forall_forall in F. destruct (F (nth j bel []) (nth_In _ _ Hj)) as [L ND].
    rewrite <- (incn_map (back bmap) (rank bmap) (n - 1) (el b (n - 2) i) (map (rank bmap) (nth j bel []))).
    - f_equal. apply (map_cancel (rank bmap)). intros v Hv. apply (back_rank bel). apply mapping_in. exists (nth j bel []). split; auto. apply nth_In. auto.
    - rewrite map_length. auto.
    - apply NoDup_map_inj; auto. intros x y Hx Hy Exy. assert (Fm := sel_mapping bel (nth j bel []) (nth_In _ _ Hj)). rewrite Forall_forall in Fm. apply (mono_inj _ _ (rank_mono bel)); auto.
    - intros v Hv. apply in_map_iff in Hv as (u & <- & Hu). f_equal. apply (back_rank bel). apply mapping_in. exists (nth j bel []). split; auto. apply nth_In. auto.
    - intros v Hv. apply (rank_back bel). apply (st_range _ _ _ _ Sb (n - 2) i v); auto. lia. }
  rewrite Ln. rewrite (sumZ_map_ext _ _ (fun j => - incn (n - 1) (map (back bmap) (el b (n - 2) i)) (nth j bel []))%Z) by (intros j Hj; apply in_seq in Hj; apply E; lia).
  rewrite sumZ_map_opp. rewrite <- (map_map (fun j => nth j bel []) (fun s => incn (n - 1) (map (back bmap) (el b (n - 2) i)) s)). rewrite map_nth_seq. rewrite bel_closed by auto. auto.
Qed.
End Top.
