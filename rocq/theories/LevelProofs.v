(** Levels of a simplicial topology, the chain identity, and completeness of the face lists. *)
Require Import List Arith ZArith Bool Lia Permutation Sorting.Sorted.
From Verif Require Import Util CombModel CombSpec CombProofs SimpModel SimpSpec ParProofs SimpProofs.
Import ListNotations.

Definition eps (n : nat) : Z := if n =? 1 then 1%Z else (-1)%Z.
Definition pi (n c : nat) : nat := if n =? 1 then 1 - c else c.

Record level_ok (n : nat) (rows low : list simplex) (B : list (list nat)) (Or : list (list Z)) : Prop := {
  lv_lenB : length B = length rows;
  lv_lenO : length Or = length rows;
  lv_rectB : Forall (fun l => length l = S n) B;
  lv_rectO : Forall (fun l => length l = S n) Or;
  lv_sub : forall k, k < length low -> exists s c, In s rows /\ c < S n /\ Permutation (omit c s) (nth k low []);
  lv_uniq : forall k k', k < length low -> k' < length low ->
      Permutation (nth k low []) (nth k' low []) -> k = k';
  lv_idx : forall j c, j < length rows -> c < S n ->
      let k := nth c (nth j B []) 0 in
      k < length low /\ Permutation (omit (pi n c) (nth j rows [])) (nth k low []) /\
      nth c (nth j Or []) 0%Z =
        (eps n * (sgn_pow (pi n c) * (sgn (omit (pi n c) (nth j rows [])) * sgn (nth k low []))))%Z
}.

Lemma pi_lt : forall n c, c < S n -> pi n c < S n.
Proof. intros. unfold pi. destruct (n =? 1) eqn:E; [apply Nat.eqb_eq in E|]; lia. Qed.

Lemma pi_perm : forall n, Permutation (map (pi n) (seq 0 (S n))) (seq 0 (S n)).
Proof.
  intros. unfold pi. destruct (n =? 1) eqn:E.
  - apply Nat.eqb_eq in E. subst. simpl. constructor.
  - rewrite map_id. auto.
Qed.

Lemma lv_cover : forall n rows low B Or, level_ok n rows low B Or ->
  forall s c, In s rows -> c < S n -> exists k, k < length low /\ Permutation (omit c s) (nth k low []).
Proof.
  intros n rows low B Or L s c Hs Hc.
  apply In_nth with (d := []) in Hs as (j & Hj & <-).
  destruct (lv_idx _ _ _ _ _ L j (pi n c) Hj (pi_lt n c Hc)) as (H1 & H2 & _).
  assert (pi n (pi n c) = c). { unfold pi. destruct (n =? 1) eqn:E; auto. apply Nat.eqb_eq in E. lia. }
  rewrite H in H2. eauto.
Qed.

Lemma col_entry_sum : forall m b o i, length b = m -> length o = m ->
  col_entry b o i = sumZ (map (fun c => if nth c b 0 =? i then nth c o 0%Z else 0%Z) (seq 0 m)).
Proof.
  induction m; destruct b, o; simpl; intros i L1 L2; try lia; auto.
  rewrite (IHm b o i) by lia. f_equal. rewrite <- seq_shift, map_map. auto.
Qed.

Lemma level_entry : forall n rows low B Or, level_ok n rows low B Or ->
  Forall (fun s => length s = S n) rows ->
  forall i j, i < length low -> j < length rows ->
  col_entry (nth j B []) (nth j Or []) i = (eps n * incidence_number (nth i low []) (nth j rows []))%Z.
Proof.
  intros n rows low B Or L FL i j Hi Hj.
  assert (Lj : length (nth j rows []) = S n) by (rewrite Forall_forall in FL; apply FL, nth_In; auto).
  pose proof (lv_rectB _ _ _ _ _ L) as FB. pose proof (lv_rectO _ _ _ _ _ L) as FO.
  rewrite Forall_forall in FB, FO.
  assert (LB : length (nth j B []) = S n) by (apply FB, nth_In; rewrite (lv_lenB _ _ _ _ _ L); auto).
  assert (LO : length (nth j Or []) = S n) by (apply FO, nth_In; rewrite (lv_lenO _ _ _ _ _ L); auto).
  rewrite (col_entry_sum (S n)) by auto.
  unfold incidence_number. rewrite Lj.
  rewrite <- sumZ_map_mul. symmetry.
  rewrite <- (sumZ_perm _ _ (Permutation_map _ (pi_perm n))).
  rewrite map_map. symmetry. apply sumZ_map_ext. intros c Hc. apply in_seq in Hc.
  destruct (lv_idx _ _ _ _ _ L j c Hj ltac:(lia)) as (H1 & H2 & H3).
  destruct (nth c (nth j B []) 0 =? i) eqn:E.
  - apply Nat.eqb_eq in E. rewrite E in *. rewrite H3. rewrite rel_sign_perm by auto. reflexivity.
  - apply Nat.eqb_neq in E. rewrite rel_sign_neq. { lia. }
    intros P. apply E. apply (lv_uniq _ _ _ _ _ L); auto.
    eapply perm_trans; [apply Permutation_sym; exact H2|exact P].
Qed.

(** Evaluate an antisymmetric quantity through the incidence numbers of a level. *)
Lemma level_transfer : forall n rows low B Or, level_ok n rows low B Or ->
  forall s, In s rows -> length s = S n -> NoDup s -> forall g, antisymmetric g ->
  sumZ (map (fun k => g (nth k low []) * incidence_number (nth k low []) s)%Z (seq 0 (length low)))
  = alternating g s.
Proof.
  intros n rows low B Or L s Hs Ls NDs g Hg.
  unfold incidence_number, alternating.
  rewrite (sumZ_map_ext _ _ (fun k => sumZ (map (fun c => g (nth k low []) * (sgn_pow c * rel_sign (omit c s) (nth k low [])))%Z (seq 0 (length s))))).
  2:{ intros k _. rewrite sumZ_map_mul. reflexivity. }
  rewrite sumZ_swap. apply sumZ_map_ext. intros c Hc. apply in_seq in Hc.
  destruct (lv_cover _ _ _ _ _ L s c Hs ltac:(lia)) as (k & Hk & P).
  rewrite (sumZ_single _ _ k); auto.
  - rewrite rel_sign_perm by auto. rewrite (Hg (omit c s) (nth k low [])) by (auto; apply omit_nodup; auto).
    sgn_ring.
  - intros k' Hk' Hne. rewrite rel_sign_neq. { lia. }
    intros P'. apply Hne. apply (lv_uniq _ _ _ _ _ L); auto.
    eapply perm_trans; [apply Permutation_sym; exact P'|exact P].
Qed.

Lemma incidence_incidence : forall n rows mid B Or, level_ok n rows mid B Or ->
  forall s, In s rows -> length s = S n -> NoDup s -> forall f,
  sumZ (map (fun k => incidence_number f (nth k mid []) * incidence_number (nth k mid []) s)%Z (seq 0 (length mid))) = 0%Z.
Proof.
  intros. rewrite (level_transfer n rows mid B Or) with (g := incidence_number f); auto.
  - apply (alternating_alternating s (fun t => rel_sign t f)).
  - apply incidence_antisym_simplex.
Qed.

(** ---- each level produced by the code is a level ---- *)
Section Order.
Variable row_leb : list nat -> list nat -> bool.

Lemma nth_map_seq : forall A (f : nat -> A) n i d, i < n -> nth i (map f (seq 0 n)) d = f i.
Proof.
  intros. rewrite (nth_map_lt _ _ _ _ _ 0) by (rewrite seq_length; auto). rewrite seq_nth by auto. auto.
Qed.

Lemma construct_lower_level : forall n rows, 2 <= n -> simplices_ok n rows ->
  exists low b o, construct_lower row_leb (S n) rows = Ok (low, b, o) /\
    level_ok n rows low b o /\ simplices_ok (n - 1) low /\
    (forall k, k < length low -> In (nth k low []) (concat (full n rows))).
Proof.
  intros n rows Hn [Hne F].
  destruct (construct_lower_ok row_leb n rows Hn F) as (low & idx & E & H1 & H2 & H3).
  cbn zeta in E. exists low. eexists. eexists. split; [exact E|].
  assert (E1 : (n =? 1) = false) by (apply Nat.eqb_neq; lia).
  assert (Hrow : forall j, j < length rows -> length (nth j rows []) = S n /\ NoDup (nth j rows [])).
  { intros. rewrite Forall_forall in F. apply F, nth_In; auto. }
  assert (Hsub : forall k, k < length low -> exists s c, In s rows /\ c < S n /\ Permutation (omit c s) (nth k low [])).
  { intros k Hk. specialize (H3 k Hk). apply in_full in H3 as (s & c & Hs & Hc & ->).
    exists s, c. repeat split; auto. apply facet_perm. rewrite Forall_forall in F. destruct (F s Hs). lia. }
  split; [|split]; auto.
  - constructor.
    + unfold full. rewrite !map_length. auto.
    + unfold full. rewrite !map_length. auto.
    + unfold full. rewrite map_map. apply Forall_map, Forall_forall. intros. rewrite !map_length, seq_length. auto.
    + unfold full. rewrite map_map. apply Forall_map, Forall_forall. intros. rewrite !map_length, seq_length. auto.
    + exact Hsub.
    + exact H2.
    + intros j c Hj Hc. destruct (Hrow j Hj) as [Lj NDj].
      set (s := nth j rows []) in *.
      assert (Ef : nth j (full n rows) [] = map (fun c => facet n c s) (seq 0 (S n))).
      { unfold full. rewrite (nth_map_lt _ _ _ _ _ []) by auto. reflexivity. }
      assert (Lf : j < length (full n rows)) by (unfold full; rewrite map_length; auto).
      rewrite !(nth_map_lt _ _ _ (full n rows) j []) by auto. rewrite Ef.
      rewrite !map_map, !nth_map_seq by auto. cbn zeta.
      assert (Hin : In (facet n c s) (concat (full n rows))).
      { apply in_full. exists s, c. repeat split; auto. apply nth_In; auto. }
      destruct (H1 _ Hin) as [Hk P]. split; auto.
      unfold pi, eps. rewrite E1. split.
      * eapply perm_trans; [apply (facet_perm n); lia|exact P].
      * rewrite sgn_facet by (auto; lia). ring.
  - split.
    + destruct rows as [|s rows]; [congruence|]. intros ->.
      assert (Hin : In (facet n 0 s) (concat (full n (s :: rows)))) by (apply in_full; exists s, 0; repeat split; simpl; auto; lia).
      destruct (H1 _ Hin) as [Hk _]. simpl in Hk. lia.
    + apply Forall_forall. intros x Hx. apply In_nth with (d := []) in Hx as (k & Hk & <-).
      destruct (Hsub k Hk) as (s & c & Hs & Hc & P). rewrite Forall_forall in F. destruct (F s Hs) as [Ls NDs].
      split.
      * rewrite <- (Permutation_length P), omit_length by lia. lia.
      * eapply Permutation_NoDup; [exact P|]. apply omit_nodup; auto.
Qed.

Lemma concat_singletons : forall (l : list nat), concat (map (fun v => [v]) l) = l.
Proof. induction l; simpl; auto. congruence. Qed.

Lemma unique_nat_in : forall l x, In x (unique_nat l) <-> In x l.
Proof.
  intros. unfold unique_nat. rewrite <- (nodup_In Nat.eq_dec l x).
  split; apply Permutation_in; [apply Permutation_sym|]; apply isort_perm.
Qed.
Lemma unique_nat_nodup : forall l, NoDup (unique_nat l).
Proof. intros. unfold unique_nat. eapply Permutation_NoDup; [apply isort_perm|]. apply NoDup_nodup. Qed.
Lemma unique_nat_sorted : forall l, StronglySorted lt (unique_nat l).
Proof.
  intros. pose proof (unique_nat_nodup l) as ND. unfold unique_nat in *.
  assert (S : StronglySorted (fun a b => Nat.leb a b = true) (isort Nat.leb (nodup Nat.eq_dec l))).
  { apply isort_sorted. apply leb_total. apply leb_trans. }
  revert S ND. generalize (isort Nat.leb (nodup Nat.eq_dec l)). induction 1; intros ND; constructor.
  - inversion ND; auto.
  - inversion ND; subst. apply Forall_forall. intros x Hx. rewrite Forall_forall in H.
    specialize (H x Hx). apply Nat.leb_le in H. assert (a <> x) by (intros ->; auto). lia.
Qed.

Lemma unique_nat_contiguous : forall l, unique_nat l = seq 0 (length (unique_nat l)) <->
  exists m, forall v, In v l <-> v < m.
Proof.
  split.
  - intros E. exists (length (unique_nat l)). intros v. rewrite <- unique_nat_in. rewrite E at 1. rewrite in_seq. lia.
  - intros (m & H).
    assert (E : unique_nat l = seq 0 m).
    { apply (sorted_perm_eq nat lt). lia. apply unique_nat_sorted. apply seq_sorted.
      apply NoDup_Permutation. apply unique_nat_nodup. apply seq_NoDup.
      intros x. rewrite unique_nat_in, H, in_seq. lia. }
    rewrite E at 2. rewrite seq_length. auto.
Qed.

Lemma edge_level : forall rows, simplices_ok 1 rows ->
  unique_nat (concat rows) = seq 0 (length (unique_nat (concat rows))) ->
  level_ok 1 rows (map (fun v => [v]) (unique_nat (concat rows))) rows
     (map (fun _ => map parity_to_orientation [0; 1]) rows).
Proof.
  intros rows [Hne F] E. set (U := unique_nat (concat rows)) in *.
  assert (Hnth : forall k, k < length U -> nth k (map (fun v => [v]) U) [] = [k]).
  { intros k Hk. rewrite (nth_map_lt _ _ _ _ _ 0) by auto. f_equal. rewrite E. rewrite seq_nth; auto. }
  assert (HU : forall s v, In s rows -> In v s -> v < length U).
  { intros s v Hs Hv. assert (In v U) by (apply unique_nat_in, in_concat; eauto).
    rewrite E in H. apply in_seq in H. lia. }
  rewrite Forall_forall in F.
  assert (Hrow : forall s, In s rows -> exists a b, s = [a; b] /\ a <> b).
  { intros s Hs. destruct (F s Hs) as [Ls NDs]. destruct s as [|a [|b [|]]]; simpl in Ls; try lia.
    exists a, b. split; auto. inversion NDs; subst. intros ->. apply H1; left; auto. }
  constructor.
  - auto.
  - rewrite map_length; auto.
  - apply Forall_forall. intros s Hs. apply F; auto.
  - apply Forall_map, Forall_forall. intros; reflexivity.
  - intros k Hk. rewrite map_length in Hk. rewrite Hnth by auto.
    assert (In k U) by (rewrite E; apply in_seq; lia).
    apply unique_nat_in, in_concat in H as (s & Hs & Hk2).
    destruct (Hrow s Hs) as (a & b & -> & _). destruct Hk2 as [->|[->|[]]].
    + exists [k; b], 1. repeat split; auto.
    + exists [a; k], 0. repeat split; auto.
  - intros k k' Hk Hk' P. rewrite map_length in *. rewrite !Hnth in P by auto.
    apply Permutation_length_1 in P. auto.
  - intros j c Hj Hc. set (s := nth j rows []).
    assert (Hs : In s rows) by (apply nth_In; auto).
    rewrite (nth_map_lt _ _ _ _ _ []) by auto.
    destruct (Hrow s Hs) as (a & b & Es & Hab). rewrite Es.
    assert (Ha : a < length U) by (apply (HU s); auto; rewrite Es; simpl; auto).
    assert (Hb : b < length U) by (apply (HU s); auto; rewrite Es; simpl; auto).
    destruct c as [|[|c]]; [| |lia]; cbn [nth map]; rewrite map_length, Hnth by auto; repeat split; auto.
Qed.

Lemma verts_preserved : forall n rows low B Or, 2 <= n -> level_ok n rows low B Or ->
  Forall (fun s => length s = S n /\ NoDup s) rows ->
  forall v, In v (concat low) <-> In v (concat rows).
Proof.
  intros n rows low B Or Hn L F v. rewrite Forall_forall in F. rewrite !in_concat. split.
  - intros (e & He & Hv). apply In_nth with (d := []) in He as (k & Hk & <-).
    destruct (lv_sub _ _ _ _ _ L k Hk) as (s & c & Hs & Hc & P). exists s. split; auto.
    eapply omit_incl. eapply Permutation_in; [apply Permutation_sym; exact P|exact Hv].
  - intros (s & Hs & Hv). destruct (F s Hs) as [Ls NDs].
    apply In_nth with (d := 0) in Hv as (i & Hi & <-).
    (* omit some other corner *)
    set (c := if i =? 0 then 1 else 0).
    assert (Hc : c < S n /\ c <> i) by (unfold c; destruct (i =? 0) eqn:E; rewrite ?Nat.eqb_eq, ?Nat.eqb_neq in E; lia).
    destruct (lv_cover _ _ _ _ _ L s c Hs ltac:(lia)) as (k & Hk & P).
    exists (nth k low []). split; [apply nth_In; auto|].
    eapply Permutation_in; [exact P|].
    assert (Hin : In (nth i s 0) s) by (apply nth_In; auto).
    eapply Permutation_in in Hin; [|apply (omit_perm_cons c); lia].
    destruct Hin as [Hin|Hin]; auto. exfalso. destruct Hc as [Hc1 Hc2]. apply Hc2.
    eapply NoDup_nth; eauto. lia.
Qed.

Definition contiguous_verts (E : list (list simplex)) : Prop :=
  concat (nth 0 E []) = seq 0 (length (nth 0 E [])).

Lemma nth_app_last : forall A (l : list A) x d, nth (length l) (l ++ [x]) d = x.
Proof. intros. rewrite app_nth2, Nat.sub_diag by lia. auto. Qed.

Lemma build_ok : forall n rows, 1 <= n -> simplices_ok n rows ->
  exists E B Or, build row_leb n rows = Ok (E, B, Or) /\
    length E = S n /\ length B = n /\ length Or = n /\ nth n E [] = rows /\
    concat (nth 0 E []) = unique_nat (concat rows) /\
    length (nth 0 E []) = length (unique_nat (concat rows)) /\
    (forall k, 1 <= k <= n -> simplices_ok k (nth k E [])) /\
    (forall k, 1 <= k < n -> level_ok (S k) (nth (S k) E []) (nth k E []) (nth k B []) (nth k Or []) /\
         (forall i, i < length (nth k E []) -> In (nth i (nth k E []) []) (concat (full (S k) (nth (S k) E []))))) /\
    (contiguous_verts E -> level_ok 1 (nth 1 E []) (nth 0 E []) (nth 0 B []) (nth 0 Or [])) /\
    nth 0 E [] = map (fun v => [v]) (unique_nat (concat rows)).
Proof.
  induction n as [|n IH]; intros rows Hn OK; [lia|].
  destruct n as [|n].
  - (* edges *)
    exists [map (fun v => [v]) (unique_nat (concat rows)); rows], [rows], [map (fun _ => map parity_to_orientation [0; 1]) rows].
    split; [reflexivity|]. cbn [length nth].
    do 4 (split; [reflexivity|]). split; [apply concat_singletons|].
    split; [rewrite map_length; auto|].
    split. { intros k Hk. assert (k = 1) by lia. subst k. exact OK. }
    split. { intros k Hk. lia. }
    split; [|reflexivity].
    { intros C. unfold contiguous_verts in C. cbn [nth] in C.
      rewrite concat_singletons, map_length in C. apply edge_level; auto. }
  - destruct (construct_lower_level (S (S n)) rows ltac:(lia) OK) as (low & b & o & E1 & L & OKlow & Hrep).
    replace (S (S n) - 1) with (S n) in OKlow by lia.
    destruct (IH low ltac:(lia) OKlow) as (E & B & Or & Eb & LE & LB & LO & HN & HU & HL & Hok & Hlev & Hedge & H0).
    assert (Eu : unique_nat (concat low) = unique_nat (concat rows)).
    { assert (V := verts_preserved _ _ _ _ _ (ltac:(lia) : 2 <= S (S n)) L (proj2 OK)).
      apply (sorted_perm_eq nat lt). lia. apply unique_nat_sorted. apply unique_nat_sorted.
      apply NoDup_Permutation; try apply unique_nat_nodup. intros v. rewrite !unique_nat_in. apply V. }
    exists (E ++ [rows]), (B ++ [b]), (Or ++ [o]).
    assert (A1 : forall k, k < length E -> nth k (E ++ [rows]) [] = nth k E []) by (intros; apply app_nth1; auto).
    assert (A2 : forall k, k < length B -> nth k (B ++ [b]) [] = nth k B []) by (intros; apply app_nth1; auto).
    assert (A3 : forall k, k < length Or -> nth k (Or ++ [o]) [] = nth k Or []) by (intros; apply app_nth1; auto).
    split. { cbn [build]. cbn [build] in Eb. rewrite E1. cbn [bind]. rewrite Eb. reflexivity. }
    rewrite !app_length, LE, LB, LO. cbn [length].
    assert (AN : nth (S (S n)) (E ++ [rows]) [] = rows).
    { replace (S (S n)) with (length E) by lia. apply nth_app_last. }
    split; [lia|]. split; [lia|]. split; [lia|]. split; [exact AN|].
    split; [rewrite A1 by lia; congruence|].
    split; [rewrite A1 by lia; congruence|].
    split.
    { intros k Hk. destruct (Nat.eq_dec k (S (S n))) as [->|Hk2].
      - rewrite AN. exact OK.
      - rewrite A1 by lia. apply Hok. lia. }
    split.
    { intros k Hk. destruct (Nat.eq_dec k (S n)) as [->|Hk2].
      - rewrite AN. rewrite A1 by lia. rewrite HN.
        replace (nth (S n) (B ++ [b]) []) with b by (replace (S n) with (length B) by lia; rewrite nth_app_last; auto).
        replace (nth (S n) (Or ++ [o]) []) with o by (replace (S n) with (length Or) by lia; rewrite nth_app_last; auto).
        split; [exact L|exact Hrep].
      - rewrite !A1, A2, A3 by lia. apply Hlev. lia. }
    split.
    { intros C. rewrite !A1, A2, A3 by lia. apply Hedge. unfold contiguous_verts in *. rewrite A1 in C by lia. auto. }
    rewrite A1 by lia. congruence.
Qed.

End Order.
