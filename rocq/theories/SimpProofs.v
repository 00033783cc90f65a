(** Correctness of the level-by-level construction of simplicial topologies. *)
Require Import List Arith ZArith Bool Lia Permutation Sorting.Sorted.
From Verif Require Import Util CombModel CombSpec CombProofs SimpModel SimpSpec ParProofs.
Import ListNotations.

(** ---- argsort ---- *)

Lemma argsort_perm : forall r, Permutation (seq 0 (length r)) (argsort r).
Proof. intros. apply isort_perm. Qed.

Lemma argsort_length : forall r, length (argsort r) = length r.
Proof. intros. unfold argsort. rewrite isort_length, seq_length. auto. Qed.

Lemma take_seq : forall r, take r (seq 0 (length r)) = r.
Proof. intros. apply map_nth_seq. Qed.

Lemma sort_row_perm : forall r, Permutation r (sort_row r).
Proof.
  intros. unfold sort_row. rewrite <- (take_seq r) at 1.
  apply Permutation_map, argsort_perm.
Qed.

Lemma sort_row_isort : forall r, sort_row r = isort Nat.leb r.
Proof.
  intros. apply (sorted_perm_eq nat (fun a b => Nat.leb a b = true)).
  - intros x y. rewrite !Nat.leb_le. lia.
  - unfold sort_row, take. eapply StronglySorted_map; [|apply isort_sorted].
    + simpl. intros a b H. exact H.
    + intros a b. apply leb_total.
    + intros a b c. apply leb_trans.
  - apply isort_sorted. apply leb_total. apply leb_trans.
  - eapply perm_trans; [apply Permutation_sym, sort_row_perm|apply isort_perm].
Qed.

Lemma sort_row_eq : forall a b, sort_row a = sort_row b <-> Permutation a b.
Proof. intros. rewrite !sort_row_isort. apply isort_nat_eq. Qed.

(** ---- relative permutations ---- *)

Lemma map_index_nth : forall (q p : list nat), NoDup q -> length p = length q ->
  map (fun k => nth (index_of Nat.eqb k q) p 0) q = p.
Proof.
  intros q p ND L. apply nth_ext with (d := 0) (d' := 0).
  - rewrite map_length; auto.
  - intros i Hi. rewrite map_length in Hi.
    rewrite (nth_map_lt _ _ _ _ _ 0) by auto.
    rewrite index_of_nth; auto. apply nat_eqb_ok.
Qed.

Lemma relative_permutation_spec : forall x y, Permutation x y ->
  let rel := relative_permutation (argsort x) (argsort y) in
  Permutation (seq 0 (length x)) rel /\ take x rel = y.
Proof.
  intros x y P rel.
  assert (L : length x = length y) by (apply Permutation_length; auto).
  assert (Pq : Permutation (seq 0 (length y)) (argsort y)) by apply argsort_perm.
  assert (NDq : NoDup (argsort y)) by (eapply Permutation_NoDup; [exact Pq|apply seq_NoDup]).
  assert (Lp : length (argsort x) = length (argsort y)) by (rewrite !argsort_length; auto).
  split.
  - unfold rel, relative_permutation. rewrite argsort_length, L.
    apply Permutation_sym.
    eapply perm_trans; [apply Permutation_map; exact Pq|].
    rewrite map_index_nth by auto. rewrite <- L. apply Permutation_sym, argsort_perm.
  - unfold rel, relative_permutation, take. rewrite map_map, argsort_length, L.
    rewrite <- (map_nth_seq _ y 0) at 2. apply map_ext_in. intros k Hk.
    assert (Hq : In k (argsort y)) by (eapply Permutation_in; eauto).
    pose proof (index_of_lt _ Nat.eqb k _ nat_eqb_ok Hq) as Hj.
    set (j := index_of Nat.eqb k (argsort y)) in *.
    assert (E : nth j (sort_row x) 0 = nth j (sort_row y) 0).
    { f_equal. apply sort_row_eq; auto. }
    unfold sort_row, take in E.
    rewrite !(nth_map_lt _ _ _ _ _ 0) in E by lia.
    rewrite E. f_equal. unfold j. apply nth_index_of; auto. apply nat_eqb_ok.
Qed.

Lemma relative_sign : forall x y, NoDup x -> Permutation x y ->
  sgn (relative_permutation (argsort x) (argsort y)) = (sgn x * sgn y)%Z.
Proof.
  intros x y ND P. destruct (relative_permutation_spec x y P) as [P1 E1].
  set (rel := relative_permutation (argsort x) (argsort y)) in *.
  pose proof (sgn_map _ _ P1 (fun i => nth i x 0) (seq_NoDup _ _)) as H.
  rewrite map_nth_seq in H. specialize (H ND). fold (take x rel) in H. rewrite E1 in H.
  rewrite sgn_seq in H. lia.
Qed.

Lemma relative_simplex_parity_ok : forall m row, 0 < m -> Permutation (seq 0 m) row ->
  relative_simplex_parity m row = Ok (inv row mod 2).
Proof.
  intros m row Hm P. unfold relative_simplex_parity.
  assert (Hs : seq 0 m <> []) by (destruct m; simpl; [lia|discriminate]).
  pose proof (permutations_complete _ _ _ Hs P) as Hin.
  pose proof (index_of_lt _ list_eqb row _ list_eqb_ok Hin) as Hlt.
  pose proof (nth_index_of _ list_eqb row _ [] list_eqb_ok Hin) as Hn.
  set (k := index_of list_eqb row (map snd (permutations (seq 0 m)))) in *.
  rewrite map_length in Hlt.
  destruct (nth_error (permutations (seq 0 m)) k) as [[p l]|] eqn:E.
  - assert (l = row).
    { rewrite (nth_map_lt _ _ _ _ _ (0, [])) in Hn by auto.
      rewrite (nth_error_nth _ _ (0, []) E) in Hn. auto. }
    subst l. apply nth_error_In in E.
    apply permutations_nonempty_parity in E; [|apply seq_sorted]. destruct E as [-> _]. auto.
  - apply nth_error_None in E. lia.
Qed.

Lemma parity_to_orientation_sgn : forall l, parity_to_orientation (inv l mod 2) = (- sgn l)%Z.
Proof.
  intros. unfold parity_to_orientation, sgn, sgn_pow.
  rewrite (Nat.div_mod_eq (inv l) 2) at 2.
  rewrite Nat.odd_add, Nat.odd_mul. simpl (Nat.odd 2). rewrite andb_false_l, xorb_false_l.
  pose proof (Nat.mod_upper_bound (inv l) 2 ltac:(lia)).
  destruct (inv l mod 2) as [|[|k]]; simpl; lia.
Qed.

(** ---- chunks ---- *)
Lemma chunks_concat : forall A (ll : list (list A)) m, Forall (fun l => length l = m) ll ->
  chunks (length ll) m (concat ll) = ll.
Proof.
  induction 1; simpl; auto.
  rewrite <- H at 1 3. rewrite firstn_app, firstn_all, Nat.sub_diag, firstn_O, app_nil_r.
  rewrite skipn_app, skipn_all, Nat.sub_diag. simpl. congruence.
Qed.

(** ---- unique rows ---- *)
Section Order.
Variable row_leb : list nat -> list nat -> bool.

Lemma unique_rows_nodup : forall rows, NoDup (unique_rows row_leb rows).
Proof.
  intros. unfold unique_rows. eapply Permutation_NoDup; [apply isort_perm|]. apply NoDup_nodup.
Qed.

Lemma unique_rows_in : forall rows r, In r (unique_rows row_leb rows) <-> In r rows.
Proof.
  intros. unfold unique_rows. rewrite <- (nodup_In (list_eq_dec Nat.eq_dec) rows r).
  split; apply Permutation_in; [apply Permutation_sym|]; apply isort_perm.
Qed.

Lemma combine_map : forall A B C (f : A -> B) (g : A -> C) l,
  combine (map f l) (map g l) = map (fun x => (f x, g x)) l.
Proof. induction l; simpl; auto. congruence. Qed.

Lemma mapM_map_ok : forall A B (f : A -> result B) (g : A -> B) l,
  (forall x, In x l -> f x = Ok (g x)) -> mapM f l = Ok (map g l).
Proof.
  induction l; simpl; intros; auto. rewrite H by auto. simpl. rewrite IHl by auto. reflexivity.
Qed.

Lemma mapM_map : forall A B C (f : B -> result C) (h : A -> B) l,
  mapM f (map h l) = mapM (fun a => f (h a)) l.
Proof. induction l; simpl; auto. rewrite IHl. auto. Qed.

(** All generated faces, in order. *)
Definition full (n : nat) (rows : list simplex) : list (list simplex) :=
  map (fun s => map (fun c => facet n c s) (seq 0 (S n))) rows.

Lemma generate_ok : forall n rows, 2 <= n -> Forall (fun s => length s = S n /\ NoDup s) rows ->
  generate_simplex_boundary (S n) rows = Ok (full n rows).
Proof.
  intros n rows Hn F. unfold generate_simplex_boundary.
  replace (S n - 1) with n by lia. destruct (n =? 0) eqn:E; [apply Nat.eqb_eq in E; lia|].
  apply mapM_map_ok. intros s Hs. rewrite Forall_forall in F. destruct (F s Hs).
  apply mapM_map_ok. intros c Hc. apply in_seq in Hc. apply face_facet; auto. lia.
Qed.

Lemma in_full : forall n rows x, In x (concat (full n rows)) <->
  exists s c, In s rows /\ c < S n /\ x = facet n c s.
Proof.
  intros. unfold full. rewrite <- flat_map_concat_map, in_flat_map. split.
  - intros (s & Hs & H). apply in_map_iff in H as (c & <- & Hc). apply in_seq in Hc.
    exists s, c. repeat split; auto. lia.
  - intros (s & c & Hs & Hc & ->). exists s. split; auto. apply in_map_iff. exists c. split; auto.
    apply in_seq. lia.
Qed.

(** The representative chosen for the set of vertices [u], and its index. *)
Definition rep (bc : list simplex) (u : list nat) : simplex :=
  nth (index_of list_eqb u (map sort_row bc)) bc [].

Lemma rep_in : forall bc x, In x bc -> In (rep bc (sort_row x)) bc /\ Permutation x (rep bc (sort_row x)).
Proof.
  intros bc x Hx. unfold rep.
  assert (Hs : In (sort_row x) (map sort_row bc)) by (apply in_map; auto).
  pose proof (index_of_lt _ list_eqb _ _ list_eqb_ok Hs) as Hlt. rewrite map_length in Hlt.
  split. { apply nth_In; auto. }
  pose proof (nth_index_of _ list_eqb _ _ [] list_eqb_ok Hs) as E.
  rewrite (nth_map_lt _ _ _ _ _ []) in E by auto.
  apply sort_row_eq. auto.
Qed.

Lemma construct_lower_ok : forall n rows, 2 <= n ->
  Forall (fun s => length s = S n /\ NoDup s) rows ->
  exists low (idx : simplex -> nat),
    let ori x := (- (sgn x * sgn (nth (idx x) low [])))%Z in
    construct_lower row_leb (S n) rows =
      Ok (low, map (map idx) (full n rows), map (map ori) (full n rows)) /\
    (forall x, In x (concat (full n rows)) ->
        idx x < length low /\ Permutation x (nth (idx x) low [])) /\
    (forall k k', k < length low -> k' < length low ->
        Permutation (nth k low []) (nth k' low []) -> k = k') /\
    (forall k, k < length low -> In (nth k low []) (concat (full n rows))).
Proof.
  intros n rows Hn F.
  set (fb := full n rows). set (bc := concat fb).
  set (U := unique_rows row_leb (map sort_row bc)).
  set (low := map (rep bc) U).
  set (idx := fun x => index_of list_eqb (sort_row x) U).
  assert (HU : forall x, In x bc -> In (sort_row x) U).
  { intros. apply unique_rows_in. apply in_map; auto. }
  assert (Hidx : forall x, In x bc -> idx x < length low /\ nth (idx x) low [] = rep bc (sort_row x)).
  { intros x Hx. unfold idx, low. rewrite map_length.
    assert (index_of list_eqb (sort_row x) U < length U) by (apply index_of_lt; [apply list_eqb_ok|auto]).
    split; auto. rewrite (nth_map_lt _ _ _ _ _ []) by auto.
    rewrite nth_index_of; auto. apply list_eqb_ok. }
  assert (NDbc : forall x, In x bc -> NoDup x /\ length x = n).
  { intros x Hx. apply in_full in Hx as (s & c & Hs & Hc & ->). rewrite Forall_forall in F.
    destruct (F s Hs). split; [apply facet_nodup; auto; lia|]. rewrite facet_length; lia. }
  assert (Rect : Forall (fun l => length l = S n) fb).
  { unfold fb, full. apply Forall_forall. intros l Hl. apply in_map_iff in Hl as (s & <- & _).
    rewrite map_length, seq_length. auto. }
  assert (Lfb : length fb = length rows) by (unfold fb, full; rewrite map_length; auto).
  exists low, idx. split; [|split; [|split]].
  - unfold construct_lower.
    replace (S n - 1) with n by lia.
    destruct (n =? 1) eqn:E1; [apply Nat.eqb_eq in E1; lia|].
    rewrite generate_ok by auto. cbn [bind]. fold fb. fold bc.
    assert (Einv : index_inverse row_leb (map sort_row bc) = map idx bc).
    { unfold index_inverse. rewrite map_map. reflexivity. }
    rewrite Einv.
    assert (Elow : map (fun k => nth k bc []) (index_index row_leb (map sort_row bc)) = low).
    { unfold index_index, low. rewrite map_map. reflexivity. }
    rewrite Elow.
    assert (Ecan : map (fun k => nth k (map argsort bc) []) (index_index row_leb (map sort_row bc)) = map argsort low).
    { rewrite <- Elow. rewrite map_map. unfold index_index. rewrite !map_map. apply map_ext_in. intros u Hu.
      apply (proj1 (unique_rows_in _ _)) in Hu. rewrite (nth_map_lt _ _ _ _ _ []); auto.
      rewrite <- (map_length sort_row). apply index_of_lt; auto. apply list_eqb_ok. }
    rewrite Ecan.
    rewrite map_map, combine_map, map_map.
    rewrite mapM_map.
    rewrite (mapM_map_ok _ _ _ (fun x => inv (relative_permutation (argsort x) (argsort (rep bc (sort_row x)))) mod 2)).
    + cbn [bind]. f_equal. f_equal; [f_equal|].
      * unfold bc. rewrite concat_map. rewrite <- Lfb, <- (map_length (map idx)).
        apply chunks_concat. apply Forall_map. eapply Forall_impl; [|exact Rect].
        simpl. intros. rewrite map_length; auto.
      * rewrite map_map.
        match goal with |- chunks _ _ (map ?g _) = _ => set (G := g) end.
        change bc with (concat fb). rewrite concat_map.
        rewrite <- Lfb, <- (map_length (map G)).
        rewrite chunks_concat.
        -- apply map_ext_in. intros l Hl. apply map_ext_in. intros x Hx.
           assert (Hb : In x bc) by (apply in_concat; eauto).
           unfold G. rewrite parity_to_orientation_sgn.
           destruct (Hidx x Hb) as [_ ->]. destruct (rep_in bc x Hb).
           rewrite relative_sign; auto. apply NDbc; auto.
        -- apply Forall_map. eapply Forall_impl; [|exact Rect].
           simpl. intros. rewrite map_length; auto.
    + intros x Hx. cbn [fst snd]. destruct (Hidx x Hx) as [Hlt Hr].
      destruct (rep_in bc x Hx) as [_ P]. destruct (NDbc x Hx) as [_ Lx].
      rewrite (nth_map_lt _ _ _ _ _ []) by auto. rewrite Hr.
      apply relative_simplex_parity_ok; [lia|]. rewrite <- Lx.
      apply relative_permutation_spec; auto.
  - intros x Hx. destruct (Hidx x Hx) as [Hlt Hr]. split; auto. rewrite Hr. apply rep_in; auto.
  - intros k k' Hk Hk' P. unfold low in *. rewrite map_length in *.
    rewrite !(nth_map_lt _ _ _ _ _ []) in P by auto.
    assert (Aux : forall u, In u U -> sort_row (rep bc u) = u).
    { intros u Hu. apply (proj1 (unique_rows_in _ _)) in Hu. apply in_map_iff in Hu as (x & <- & Hx).
      apply sort_row_eq. apply Permutation_sym, rep_in; auto. }
    apply sort_row_eq in P. rewrite !Aux in P by (apply nth_In; auto).
    eapply NoDup_nth; eauto. apply unique_rows_nodup.
  - intros k Hk. unfold low in *. rewrite map_length in *. rewrite (nth_map_lt _ _ _ _ _ []) by auto.
    assert (Hu : In (nth k U []) U) by (apply nth_In; auto).
    apply (proj1 (unique_rows_in _ _)) in Hu. apply in_map_iff in Hu as (x & <- & Hx). apply rep_in; auto.
Qed.

End Order.

(** ---- matrices ---- *)



Definition tval (i j : nat) (t : nat * nat * Z) : Z :=
  match t with (r, c, v) => if (r =? i) && (c =? j) then v else 0%Z end.

(* contribution of column j given as two rows *)
Fixpoint col_entry (b : list nat) (o : list Z) (i : nat) : Z :=
  match b, o with
  | x :: b', v :: o' => ((if (x =? i)%nat then v else 0) + col_entry b' o' i)%Z
  | _, _ => 0%Z
  end.

Lemma combine_app : forall A B (a a' : list A) (b b' : list B), length a = length b ->
  combine (a ++ a') (b ++ b') = combine a b ++ combine a' b'.
Proof. induction a; destruct b; simpl; intros; try lia; auto. f_equal. apply IHa; lia. Qed.

Lemma tri_block : forall b o i j m k, length b = length o ->
  sumZ (map (tval i j) (combine (combine b (repeat k m)) o)) =
  if k =? j then (if length b <=? m then col_entry b o i else sumZ (map (tval i j) (combine (combine b (repeat k m)) o))) else 0%Z.
Proof.
  induction b as [|x b IH]; destruct o; simpl; intros i j m k L; try lia.
  - destruct (k =? j); auto.
  - destruct m; simpl.
    + destruct (k =? j); auto.
    + rewrite IH by lia. destruct (k =? j) eqn:E.
      * rewrite andb_true_r. destruct (length b <=? m) eqn:E2; auto.
      * rewrite andb_false_r. auto.
Qed.

Lemma seq_div : forall m a, 0 < m -> map (fun k => k / m) (seq (a * m) m) = repeat a m.
Proof.
  intros m a Hm.
  assert (forall l, (forall x, In x l -> x / m = a) -> map (fun k => k / m) l = repeat a (length l)).
  { induction l; simpl; intros; auto. rewrite H by auto. f_equal. apply IHl. auto. }
  rewrite <- (seq_length m (a * m)) at 3. apply H.
  intros x Hx. apply in_seq in Hx.
  replace x with (a * m + (x - a * m)) by lia. rewrite Nat.div_add_l by lia.
  rewrite Nat.div_small by lia. lia.
Qed.

Lemma entries_general : forall (m : nat), 0 < m -> forall (B : list (list nat)) (Or : list (list Z)) a i j,
  Forall (fun l => length l = m) B -> Forall (fun l => length l = m) Or -> length B = length Or ->
  sumZ (map (tval i j) (combine (combine (concat B) (map (fun k => k / m) (seq (a * m) (length (concat B))))) (concat Or)))
  = if (a <=? j) && (j <? a + length B) then col_entry (nth (j - a) B []) (nth (j - a) Or []) i else 0%Z.
Proof.
  intros m Hm. induction B as [|b B IH]; intros Or a i j FB FO L.
  - simpl. destruct (a <=? j) eqn:E1, (j <? a + 0) eqn:E2; auto.
    apply Nat.leb_le in E1. apply Nat.ltb_lt in E2. lia.
  - destruct Or as [|o Or]; simpl in L; [lia|].
    inversion FB; inversion FO; subst. cbn [concat].
    rewrite app_length. rewrite seq_app, map_app.
    rewrite seq_div by auto.
    rewrite combine_app by (rewrite repeat_length; auto).
    rewrite combine_app by (rewrite combine_length, repeat_length; lia).
    rewrite map_app, sumZ_app.
    rewrite tri_block by auto. rewrite Nat.leb_refl.
    replace (a * length b + length b) with (S a * length b) by lia.
    rewrite (IH Or (S a) i j) by (auto; lia).
    cbn [length].
    destruct (a =? j) eqn:E.
    + apply Nat.eqb_eq in E. subst j.
      assert (E1 : (S a <=? a) = false) by (apply Nat.leb_gt; lia). rewrite E1. cbn [andb].
      rewrite Nat.leb_refl. assert (E2 : (a <? a + S (length B)) = true) by (apply Nat.ltb_lt; lia).
      rewrite E2, Nat.sub_diag. cbn [andb nth]. lia.
    + apply Nat.eqb_neq in E.
      destruct (S a <=? j) eqn:E1.
      * apply Nat.leb_le in E1. assert (E2 : (a <=? j) = true) by (apply Nat.leb_le; lia). rewrite E2.
        replace (a + S (length B)) with (S a + length B) by lia. cbn [andb].
        destruct (j <? S a + length B); auto.
        replace (j - a) with (S (j - S a)) by lia. cbn [nth]. lia.
      * apply Nat.leb_gt in E1. assert (E2 : (a <=? j) = false) by (apply Nat.leb_gt; lia). rewrite E2. reflexivity.
Qed.

Lemma concat_length_rect : forall A (ll : list (list A)) m, Forall (fun l => length l = m) ll ->
  length (concat ll) = length ll * m.
Proof. induction 1; simpl; auto. rewrite app_length. lia. Qed.

Lemma topology_matrix_entry : forall m B Or i j, 0 < m ->
  Forall (fun l => length l = m) B -> Forall (fun l => length l = m) Or -> length B = length Or -> B <> [] ->
  entry (topology_matrix B Or) i j =
    if j <? length B then col_entry (nth j B []) (nth j Or []) i else 0%Z.
Proof.
  intros m B Or i j Hm FB FO L Hne. unfold entry, topology_matrix. cbn [triples].
  assert (HB : 0 < length B) by (destruct B; simpl; [congruence|lia]).
  assert (En : length (concat B) / length B = m).
  { rewrite (concat_length_rect _ _ m) by auto. rewrite Nat.mul_comm. apply Nat.div_mul. lia. }
  rewrite En.
  pose proof (entries_general m Hm B Or 0 i j FB FO L) as H. cbn [Nat.mul] in H.
  change (fun t : nat * nat * Z => let (p, v) := t in let (r, c) := p in if (r =? i) && (c =? j) then v else 0%Z) with (tval i j).
  rewrite H. rewrite Nat.sub_0_r. simpl. reflexivity.
Qed.

Lemma topology_matrix_shape : forall m B Or, 0 < m ->
  Forall (fun l => length l = m) B -> B <> [] ->
  ncols (topology_matrix B Or) = length B /\
  (forall i l, In l B -> In i l -> i < nrows (topology_matrix B Or)) /\
  (forall N, 0 < N -> (forall i l, In l B -> In i l -> i < N) -> nrows (topology_matrix B Or) <= N).
Proof.
  intros m B Or Hm FB Hne. unfold topology_matrix. cbn [ncols nrows].
  assert (HB : 0 < length B) by (destruct B; simpl; [congruence|lia]).
  assert (Ec : length (concat B) = length B * m) by (apply concat_length_rect; auto).
  assert (En : length (concat B) / length B = m).
  { rewrite Ec, Nat.mul_comm. apply Nat.div_mul. lia. }
  rewrite En, Ec. repeat split.
  - assert (H : list_max (map (fun k => k / m) (seq 0 (length B * m))) = length B - 1); [|lia].
    apply Nat.le_antisymm.
    + apply list_max_le. apply Forall_forall. intros x Hx. apply in_map_iff in Hx as (k & <- & Hk).
      apply in_seq in Hk. apply Nat.lt_succ_r. replace (S (length B - 1)) with (length B) by lia.
      apply Nat.div_lt_upper_bound; nia.
    + pose proof (list_max_le (map (fun k => k / m) (seq 0 (length B * m))) (list_max (map (fun k => k / m) (seq 0 (length B * m))))) as [H _].
      specialize (H (le_n _)). rewrite Forall_forall in H. apply H. apply in_map_iff.
      exists ((length B - 1) * m). split. { apply Nat.div_mul. lia. } apply in_seq. nia.
  - intros i l Hl Hi.
    pose proof (list_max_le (concat B) (list_max (concat B))) as [H _].
    specialize (H (le_n _)). rewrite Forall_forall in H. specialize (H i).
    assert (In i (concat B)) by (apply in_concat; eauto). specialize (H H0). simpl. lia.
  - intros N HN H. destruct N; [lia|]. simpl. apply le_n_S. apply list_max_le. apply Forall_forall.
    intros x Hx. apply in_concat in Hx as (l & Hl & Hx). specialize (H x l Hl Hx). lia.
Qed.
