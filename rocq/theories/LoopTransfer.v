(** Transfer matrices of the loop subdivision. *)
Require Import List Arith ZArith Bool Lia Permutation Sorting.Sorted.
From Verif Require Import Util CombModel CombSpec CombProofs SimpModel SimpSpec ParProofs SimpProofs LevelProofs TopProofs
  BdryModel BdrySpec OrientProofs SubProofs SubdModel SubdSpec FundProofs BaryProofs LoopProofs.
Import ListNotations.
Local Open Scope nat_scope.

(** Entries of a transfer matrix with distinct rows. *)
Lemma transfer_ok : forall r c nr nc, length r = length c -> (forall x, In x r -> x < nr) -> (forall x, In x c -> x < nc) ->
  exists m, transfer_matrix r c nr nc = Ok m /\ nrows m = nr /\ ncols m = nc /\
   forall i j, entry m i j = sumZ (map (fun k => if (nth k r 0 =? i) && (nth k c 0 =? j) then 1%Z else 0%Z) (seq 0 (length r))).
Proof.
  intros r c nr nc L Hr Hc. unfold transfer_matrix. rewrite (proj2 (Nat.eqb_eq _ _) L). cbn [andb].
  replace (forallb (fun x => x <? nr) r) with true by (symmetry; apply forallb_forall; intros; apply Nat.ltb_lt; auto).
  replace (forallb (fun x => x <? nc) c) with true by (symmetry; apply forallb_forall; intros; apply Nat.ltb_lt; auto). cbn [andb].
  eexists. split; [reflexivity|]. split; [reflexivity|]. split; [reflexivity|]. intros i j. unfold entry. cbn [triples].
  set (LL := combine (combine r c) (map (fun _ => 1%Z) r)). assert (LE : length LL = length r) by (unfold LL; rewrite !combine_length, map_length; lia).
  rewrite <- (map_nth_seq _ LL (0, 0, 1%Z)) at 1. rewrite map_map, LE. apply sumZ_map_ext. intros k Hk. apply in_seq in Hk. unfold LL. rewrite combine_nth by (rewrite combine_length, map_length; lia). rewrite combine_nth by auto.
  rewrite (nth_map_lt _ _ _ _ _ 0) by lia. auto.
Qed.

Lemma count_unique : forall (f : nat -> bool) n i, i < n -> (forall k, k < n -> f k = true -> k = i) -> sumZ (map (fun k => if f k then 1%Z else 0%Z) (seq 0 n)) = if f i then 1%Z else 0%Z.
Proof.
  intros f n i Hi H. rewrite (sumZ_single _ n i); auto. intros k Hk Hne. destruct (f k) eqn:E; auto. exfalso. auto.
Qed.

Lemma transfer_entry : forall r c nr nc, NoDup r -> length r = length c -> (forall x, In x r -> x < nr) -> (forall x, In x c -> x < nc) ->
  exists m, transfer_matrix r c nr nc = Ok m /\ nrows m = nr /\ ncols m = nc /\
   (forall k, k < length r -> forall j, entry m (nth k r 0) j = if nth k c 0 =? j then 1%Z else 0%Z) /\
   (forall i j, ~ In i r -> entry m i j = 0%Z).
Proof.
  intros r c nr nc ND L Hr Hc. destruct (transfer_ok r c nr nc L Hr Hc) as (m & E & E1 & E2 & E3). exists m. repeat (split; auto).
  - intros k Hk j. rewrite E3. rewrite (count_unique (fun k' => (nth k' r 0 =? nth k r 0) && (nth k' c 0 =? j)) _ k); auto.
    + rewrite Nat.eqb_refl. auto.
    + intros k' Hk' H. apply andb_true_iff in H as [H _]. apply Nat.eqb_eq in H. apply (proj1 (NoDup_nth r 0) ND); auto.
  - intros i j N. rewrite E3. apply sumZ_map_0. intros k Hk. apply in_seq in Hk. destruct (Nat.eqb_spec (nth k r 0) i) as [<-|]; auto. exfalso. apply N. apply nth_In. lia.
Qed.

Lemma nth_repeat_lt : forall (x : nat) r q, q < r -> nth q (repeat x r) 0 = x.
Proof. intros x r. induction r as [|r IH]; intros q H; [lia|]. destruct q; simpl; auto. apply IH. lia. Qed.
Lemma each_nth : forall r l k, 0 < r -> k < length l * r -> nth k (each r l) 0 = nth (k / r) l 0 /\ length (each r l) = length l * r.
Proof.
  intros r l k Hr Hk. unfold each. destruct (nth_flat_map_rect _ _ (fun x => repeat x r) r l k 0 0 Hr) as [E Q]; auto.
  - intros. apply repeat_length.
  - split.
    + rewrite E. apply nth_repeat_lt. apply Nat.mod_upper_bound. lia.
    + rewrite flat_map_concat_map, flen_concat, map_map. rewrite (map_ext _ (fun _ => r)) by (intros; apply repeat_length). rewrite list_sum_const. lia.
Qed.
Lemma each_length : forall r l, length (each r l) = length l * r.
Proof. intros. unfold each. rewrite flat_map_concat_map, flen_concat, map_map. rewrite (map_ext _ (fun _ => r)) by (intros; apply repeat_length). rewrite list_sum_const. lia. Qed.

Section Top.
Variables (rows : list simplex) (t fine : topology).
Hypothesis T : top_ok 2 rows t.
Hypothesis TF : top_ok 2 (loop rows t) fine.
Notation n0 := (n_elements t 0).
Notation n1 := (n_elements t 1).

Lemma fine_sizes : n_elements fine 0 = n0 + n1 /\ n_elements fine 2 = length rows * 4.
Proof.
  split; [|unfold n_elements at 1; rewrite (to_top _ _ _ TF); apply loop_length].
  destruct (loop_ok rows t T) as [_ H]. pose proof (to_vused _ _ _ TF) as V. destruct (Nat.lt_trichotomy (n_elements fine 0) (n0 + n1)) as [Q|[Q|Q]]; auto; exfalso.
  - apply H in Q. apply V in Q. lia.
  - apply V in Q. apply H in Q. lia.
Qed.

(** Every edge of the fine mesh is half of a coarse edge or joins two edge vertices. *)
Lemma fine_edge : forall i, i < n_elements fine 1 ->
  (exists v e, v < n0 /\ e < n1 /\ In v (el t 1 e) /\ Permutation (el fine 1 i) [v; e + n0]) \/
  (exists a b, Permutation (el fine 1 i) [a + n0; b + n0]).
Proof.
  intros i Hi. destruct (proj1 (faces_complete 2 _ fine ltac:(lia) TF 1 1 ltac:(lia) (el fine 1 i))) as (s & Hs & F); [exists (el fine 1 i); split; auto; apply el_in; auto|].
  apply In_nth with (d := []) in Hs as (p & Hp & <-). rewrite loop_length in Hp. destruct (loop_nth rows t p Hp) as (E & Hj & Hk). rewrite E in F.
  destruct (kid_face rows t T _ _ _ Hj Hk F) as [(v & w & e & Hv & Hw & Hvw & He & Pe & Pg & _)|(a & b & Hab & Ia & Ib & Eg)].
  - left. exists v, e. repeat (split; auto). apply (Permutation_in _ (Permutation_sym Pe)). left. auto.
  - right. exists a, b. rewrite Eg. auto.
Qed.

(** Both halves of every coarse edge are edges of the fine mesh. *)
Lemma half_exists : forall e v, e < n1 -> In v (el t 1 e) -> exists i, i < n_elements fine 1 /\ Permutation (el fine 1 i) [v; e + n0].
Proof.
  intros e v He Hv. destruct (edge_in_tri rows t T e He) as (j & Hj & I). destruct (tri_ex rows t T j Hj) as (v0 & v1 & v2 & e0 & e1 & e2 & H).
  assert (Q : exists k, k < 4 /\ is_face 1 [v; e + n0] (kid rows t j k)).
  { pose proof (t_v _ _ _ _ _ _ _ _ _ H) as V. pose proof (t_e0 _ _ _ _ _ _ _ _ _ H) as P0. pose proof (t_e1 _ _ _ _ _ _ _ _ _ H) as P1. pose proof (t_e2 _ _ _ _ _ _ _ _ _ H) as P2.
    assert (FC : forall x y a b c, x <> y -> In x [a; b; c] -> In y [a; b; c] -> is_face 1 [x; y] [a; b; c]). { intros x y a b c Hxy I1 I2. split; [repeat constructor; simpl; lia|split; auto]. intros z [<-|[<-|[]]]; auto. }
    unfold kid. rewrite (kid_eq _ _ _ _ _ _ _ _ _ H). rewrite (t_edges _ _ _ _ _ _ _ _ _ H) in I. destruct I as [<-|[<-|[<-|[]]]].
    - apply (Permutation_in _ P0) in Hv as [<-|[<-|[]]]; [exists 2|exists 3]; (split; [lia|]); cbn [nth]; apply FC; simpl; auto; lia.
    - apply (Permutation_in _ P1) in Hv as [<-|[<-|[]]]; [exists 3|exists 1]; (split; [lia|]); cbn [nth]; apply FC; simpl; auto; lia.
    - apply (Permutation_in _ P2) in Hv as [<-|[<-|[]]]; [exists 1|exists 2]; (split; [lia|]); cbn [nth]; apply FC; simpl; auto; lia. }
  destruct Q as (k & Hk & F). destruct (loop_at rows t j k Hj Hk) as [E L].
  destruct (proj2 (faces_complete 2 _ fine ltac:(lia) TF 1 1 ltac:(lia) [v; e + n0])) as (s & Hs & P).
  - exists (nth (j * 4 + k) (loop rows t) []). split; [apply nth_In; auto|rewrite E; auto].
  - apply In_nth with (d := []) in Hs as (i & Hi & <-). exists i. split; auto.
Qed.

Lemma isort2 : forall a b, a < b -> forall s, Permutation s [a; b] -> isort Nat.leb s = [a; b].
Proof. intros a b H s P. rewrite (proj2 (isort_nat_eq s [a; b]) P). cbn. destruct (Nat.leb_spec a b); auto; lia. Qed.
Lemma isort2_ge : forall a b c s, Permutation s [a + c; b + c] -> c <= nth 0 (isort Nat.leb s) 0.
Proof. intros a b c s P. rewrite (proj2 (isort_nat_eq s _) P). cbn. destruct (a + c <=? b + c); simpl; lia. Qed.

Definition is_half (i e : nat) : Prop := exists v, In v (el t 1 e) /\ Permutation (el fine 1 i) [v; e + n0].

Lemma edge_verts : forall e v, e < n1 -> In v (el t 1 e) -> v < n0.
Proof.
  intros e v He Hv. destruct (edge_in_tri rows t T e He) as (j & Hj & I). destruct (tri_ex rows t T j Hj) as (v0 & v1 & v2 & e0 & e1 & e2 & H).
  pose proof (t_v _ _ _ _ _ _ _ _ _ H) as V. pose proof (t_e0 _ _ _ _ _ _ _ _ _ H) as P0. pose proof (t_e1 _ _ _ _ _ _ _ _ _ H) as P1. pose proof (t_e2 _ _ _ _ _ _ _ _ _ H) as P2. rewrite (t_edges _ _ _ _ _ _ _ _ _ H) in I.
  destruct I as [<-|[<-|[<-|[]]]]; [apply (Permutation_in _ P0) in Hv|apply (Permutation_in _ P1) in Hv|apply (Permutation_in _ P2) in Hv]; simpl in Hv; lia.
Qed.

Lemma loop_transfer_ok : exists m0 m1 m2, subdivide_loop_transfer t fine = Ok [m0; m1; m2] /\
  (nrows m0 = n_elements fine 0 /\ ncols m0 = n0) /\ (nrows m1 = n_elements fine 1 /\ ncols m1 = n1) /\ (nrows m2 = n_elements fine 2 /\ ncols m2 = n_elements t 2) /\
  (forall i v, entry m0 i v = if (i =? v) && (v <? n0) then 1%Z else 0%Z) /\
  (forall i e, i < n_elements fine 1 -> e < n1 -> (is_half i e -> entry m1 i e = 1%Z) /\ (~ is_half i e -> entry m1 i e = 0%Z)) /\
  (forall i j, i < n_elements fine 2 -> entry m2 i j = if i / 4 =? j then 1%Z else 0%Z).
Proof.
  destruct fine_sizes as [S0 S2]. assert (N2 : n_elements t 2 = length rows) by (unfold n_elements; rewrite (to_top _ _ _ T); auto).
  unfold subdivide_loop_transfer. rewrite map_length. fold (n_elements fine 1).
  set (I10f := map (isort Nat.leb) (nth 1 (elements fine) [])). set (fi := filter (fun i => nth 0 (nth i I10f []) 0 <? n0) (seq 0 (n_elements fine 1))). set (ci := map (fun i => last (nth i I10f []) 0 - n0) fi).
  assert (NI : forall i, i < n_elements fine 1 -> nth i I10f [] = isort Nat.leb (el fine 1 i)). { intros i Hi. unfold I10f. rewrite (nth_map_lt _ _ _ _ _ []) by auto. auto. }
  assert (FI : forall i, In i fi -> exists v e, v < n0 /\ e < n1 /\ In v (el t 1 e) /\ Permutation (el fine 1 i) [v; e + n0] /\ last (nth i I10f []) 0 - n0 = e).
  { intros i Hi. unfold fi in Hi. apply filter_In in Hi as [Hi Q]. apply in_seq in Hi. rewrite NI in Q by lia. destruct (fine_edge i ltac:(lia)) as [(v & e & Hv & He & Iv & P)|(a & b & P)].
    - exists v, e. repeat (split; auto). rewrite NI by lia. rewrite (isort2 v (e + n0)) by (auto; lia). simpl. lia.
    - exfalso. apply isort2_ge in P. apply Nat.ltb_lt in Q. lia. }
  destruct (transfer_entry (seq 0 n0) (seq 0 n0) (n_elements fine 0) n0) as (m0 & E0 & R0 & C0 & A0 & B0); auto.
  { apply seq_NoDup. } { intros x Hx. apply in_seq in Hx. lia. } { intros x Hx. apply in_seq in Hx. lia. }
  destruct (transfer_entry fi ci (n_elements fine 1) n1) as (m1 & E1 & R1 & C1 & A1 & B1).
  { apply NoDup_filter, seq_NoDup. } { unfold ci. rewrite map_length. auto. } { intros x Hx. unfold fi in Hx. apply filter_In in Hx as [Hx _]. apply in_seq in Hx. lia. }
  { intros x Hx. unfold ci in Hx. apply in_map_iff in Hx as (i & <- & Hi). destruct (FI i Hi) as (v & e & _ & He & _ & _ & ->). auto. }
  destruct (transfer_entry (seq 0 (n_elements fine 2)) (each 4 (seq 0 (n_elements t 2))) (n_elements fine 2) (n_elements t 2)) as (m2 & E2 & R2 & C2 & A2 & B2).
  { apply seq_NoDup. } { rewrite each_length, !seq_length. lia. } { intros x Hx. apply in_seq in Hx. lia. }
  { intros x Hx. unfold each in Hx. apply in_flat_map in Hx as (y & Hy & Hx). apply repeat_spec in Hx. subst. apply in_seq in Hy. lia. }
  exists m0, m1, m2. rewrite E0, E1, E2. cbn [bind]. split; auto. split; auto. split; auto. split; auto. split; [|split].
  - intros i v. destruct (Nat.lt_ge_cases i n0) as [Hi|Hi].
    + pose proof (A0 i ltac:(rewrite seq_length; auto) v) as Q. rewrite seq_nth in Q by auto. cbn [Nat.add] in Q. rewrite Q. destruct (Nat.eqb_spec i v); auto. subst. rewrite (proj2 (Nat.ltb_lt _ _) Hi). auto.
    + rewrite B0 by (intros X; apply in_seq in X; lia). destruct (Nat.eqb_spec i v); auto. subst. destruct (Nat.ltb_spec v n0); auto; lia.
  - intros i e Hi He.
    assert (HF : forall e', is_half i e' -> e' < n1 -> In i fi /\ last (nth i I10f []) 0 - n0 = e').
    { intros e' (v & Iv & P) He'. pose proof (edge_verts e' v He' Iv) as Hv. split; [|rewrite NI by lia; rewrite (isort2 v (e' + n0)) by (auto; lia); simpl; lia]. unfold fi. apply filter_In. split; [apply in_seq; lia|]. rewrite NI by lia. rewrite (isort2 v (e' + n0)) by (auto; lia). apply Nat.ltb_lt. auto. }
    assert (EN : In i fi -> entry m1 i e = if last (nth i I10f []) 0 - n0 =? e then 1%Z else 0%Z).
    { intros X. apply In_nth with (d := 0) in X as (k & Hk & Ek). specialize (A1 k Hk e). rewrite Ek in A1. rewrite A1. unfold ci. rewrite (nth_map_lt _ _ _ _ _ 0) by auto. rewrite Ek. auto. }
    split.
    + intros H. destruct (HF e H He) as [X Y]. rewrite EN by auto. rewrite Y, Nat.eqb_refl. auto.
    + intros H. destruct (in_dec Nat.eq_dec i fi) as [X|X]; [|apply B1; auto]. rewrite EN by auto. destruct (FI i X) as (v & e' & Hv & He' & Iv & P & ->). destruct (Nat.eqb_spec e' e) as [->|]; auto. exfalso. apply H. exists v. auto.
  - intros i j Hi. pose proof (A2 i ltac:(rewrite seq_length; auto) j) as Q. rewrite seq_nth in Q by auto. cbn [Nat.add] in Q. rewrite Q. destruct (each_nth 4 (seq 0 (n_elements t 2)) i ltac:(lia)) as [-> _]; [rewrite seq_length; lia|]. rewrite seq_nth; auto. rewrite N2. apply Nat.div_lt_upper_bound; lia.
Qed.
End Top.
