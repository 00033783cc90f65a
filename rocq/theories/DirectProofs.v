(** Direct loop subdivision. *)
Require Import List Arith ZArith Bool Lia Permutation.
From Verif Require Import Util CombModel CombSpec CombProofs SimpModel SimpSpec ParProofs SimpProofs LevelProofs TopProofs
  BdryModel BdrySpec OrientProofs SubProofs SubdModel SubdSpec FundProofs BaryProofs LoopProofs LoopTransfer.
Import ListNotations.
Local Open Scope nat_scope.

(** Product of two topology matrices, column by column. *)
Lemma product_columns : forall m0 m1 B0 O0 B1 O1 i j, 0 < m0 -> 0 < m1 ->
  Forall (fun l => length l = m0) B0 -> Forall (fun l : list Z => length l = m0) O0 -> length B0 = length O0 -> B0 <> [] ->
  Forall (fun l => length l = m1) B1 -> Forall (fun l : list Z => length l = m1) O1 -> length B1 = length O1 -> B1 <> [] ->
  (forall l e, In l B1 -> In e l -> e < length B0) ->
  product_entry (topology_matrix B0 O0) (topology_matrix B1 O1) i j =
   if j <? length B1 then sumZ (map (fun c => nth c (nth j O1 []) 0 * col_entry (nth (nth c (nth j B1 []) 0%nat) B0 []) (nth (nth c (nth j B1 []) 0%nat) O0 []) i)%Z (seq 0 m1)) else 0%Z.
Proof.
  intros m0 m1 B0 O0 B1 O1 i j H0 H1 FB0 FO0 L0 N0 FB1 FO1 L1 N1 R. unfold product_entry.
  destruct (topology_matrix_shape m0 B0 O0 H0 FB0 N0) as (C0 & _ & _). set (M := Nat.max _ _). assert (HM : length B0 <= M) by (unfold M; rewrite <- C0; lia). clearbody M.
  destruct (Nat.ltb_spec j (length B1)) as [Hj|Hj].
  2:{ apply sumZ_map_0. intros k _. rewrite (topology_matrix_entry m1 B1) by auto. destruct (Nat.ltb_spec j (length B1)); lia. }
  assert (LB : length (nth j B1 []) = m1) by (rewrite Forall_forall in FB1; apply FB1, nth_In; auto). assert (LO : length (nth j O1 []) = m1) by (rewrite Forall_forall in FO1; apply FO1, nth_In; lia).
  transitivity (sumZ (map (fun k => sumZ (map (fun c => Z.mul (entry (topology_matrix B0 O0) i k) (if nth c (nth j B1 []) 0 =? k then nth c (nth j O1 []) 0%Z else 0%Z)) (seq 0 m1))) (seq 0 M))).
  - apply sumZ_map_ext. intros k _. rewrite (topology_matrix_entry m1 B1) by auto. destruct (Nat.ltb_spec j (length B1)); [|lia]. rewrite (col_entry_sum m1) by auto. rewrite sumZ_map_mul. auto.
  - rewrite sumZ_swap. apply sumZ_map_ext. intros c Hc. apply in_seq in Hc. set (e := nth c (nth j B1 []) 0).
    assert (He : e < length B0) by (apply (R (nth j B1 [])); [apply nth_In; auto|apply nth_In; lia]).
    rewrite (sumZ_single (fun k => Z.mul (entry (topology_matrix B0 O0) i k) (if e =? k then nth c (nth j O1 []) 0%Z else 0%Z)) M e); [|lia|intros k Hk Hne; destruct (Nat.eqb_spec e k); [congruence|lia]].
    rewrite Nat.eqb_refl. rewrite (topology_matrix_entry m0 B0) by auto. destruct (Nat.ltb_spec e (length B0)); [|lia]. ring.
Qed.

Section Direct.
Variables (t : topology) (kappa : Z).
Hypothesis S : surface t kappa.
Notation n0 := (n_elements t 0).
Notation n1 := (n_elements t 1).
Notation n2 := (n_elements t 2).
Notation E21 := (nth 1 (boundary_idx t) []).
Notation E20 := (nth 2 (elements t) []).
Notation E10 := (nth 0 (boundary_idx t) []).
Notation O21 := (nth 1 (orientation t) []).
Notation O10 := (nth 0 (orientation t) []).

Definition plus (j : nat) : list nat := map (fun e => nth 1 (nth e E10 []) 0) (nth j E21 []).
Definition dE10 := concat (map (fun i => split_edge (i + n0) (nth i E10 [])) (seq 0 n1)) ++ concat (map (inner_edges n0) E21).
Definition dO10 := concat (map split_edge_signs O10) ++ concat (map (fun _ => inner_edge_signs) E21).
Definition dE21 := concat (map (fun j => direct_children n1 j (nth j E21 []) (nth j E20 []) (plus j)) (seq 0 n2)).
Definition dO21 := concat (map direct_child_signs O21).
Definition dE20 := concat (map (fun j => direct_corners n0 (nth 0 E21 []) (nth j E20 [])) (seq 0 n2)).
Definition dtop := mkTop [map (fun v => [v]) (seq 0 (n0 + n1)); dE10; dE20] [dE10; dE21] [dO10; dO21].

Lemma nth_concat_map : forall A B (f : A -> list B) c l p d da, 0 < c -> (forall x, In x l -> length (f x) = c) -> p < length l * c ->
  nth p (concat (map f l)) d = nth (p mod c) (f (nth (p / c) l da)) d.
Proof. intros. rewrite <- flat_map_concat_map. apply nth_flat_map_rect; auto. Qed.
Lemma length_concat_map : forall A B (f : A -> list B) c l, (forall x, In x l -> length (f x) = c) -> length (concat (map f l)) = length l * c.
Proof. intros. rewrite flen_concat, map_map. rewrite (map_ext_in _ (fun _ => c)) by auto. rewrite list_sum_const. lia. Qed.

Lemma divmod : forall a b c, b < c -> (a * c + b) / c = a /\ (a * c + b) mod c = b.
Proof. intros. split; [rewrite Nat.add_comm, Nat.div_add by lia; rewrite Nat.div_small by lia; auto|rewrite Nat.add_comm, Nat.mod_add by lia; apply Nat.mod_small; auto]. Qed.

Lemma dE10_length : length dE10 = n1 * 2 + n2 * 3.
Proof. unfold dE10. rewrite app_length, (length_concat_map _ _ _ 2), (length_concat_map _ _ _ 3), seq_length by reflexivity. rewrite (proj1 (sf_faces _ _ S)). auto. Qed.
Lemma dO10_length : length dO10 = n1 * 2 + n2 * 3.
Proof. unfold dO10. rewrite app_length, (length_concat_map _ _ _ 2), (length_concat_map _ _ _ 3) by reflexivity. rewrite (proj1 (sf_faces _ _ S)), (proj2 (sf_edges _ _ S)). auto. Qed.
Lemma dE21_length : length dE21 = n2 * 4.
Proof. unfold dE21. rewrite (length_concat_map _ _ _ 4), seq_length by reflexivity. auto. Qed.
Lemma dO21_length : length dO21 = n2 * 4.
Proof. unfold dO21. rewrite (length_concat_map _ _ _ 4) by reflexivity. rewrite (proj2 (sf_faces _ _ S)). auto. Qed.
Lemma dE20_length : length dE20 = n2 * 4.
Proof. unfold dE20. rewrite (length_concat_map _ _ _ 4), seq_length by reflexivity. auto. Qed.

Lemma half_row : forall e b, e < n1 -> b < 2 -> nth (e * 2 + b) dE10 [] = nth b (split_edge (e + n0) (nth e E10 [])) [] /\ nth (e * 2 + b) dO10 [] = nth b (split_edge_signs (nth e O10 [])) [].
Proof.
  intros e b He Hb. destruct (divmod e b 2 Hb) as [D M]. split.
  - unfold dE10. rewrite app_nth1 by (rewrite (length_concat_map _ _ _ 2), seq_length by reflexivity; lia). rewrite (nth_concat_map _ _ _ 2 _ _ _ 0) by (auto; try lia; rewrite seq_length; lia). rewrite D, M, seq_nth by auto. auto.
  - unfold dO10. rewrite app_nth1 by (rewrite (length_concat_map _ _ _ 2) by reflexivity; rewrite (proj2 (sf_edges _ _ S)); lia). rewrite (nth_concat_map _ _ _ 2 _ _ _ []) by (auto; try lia; rewrite (proj2 (sf_edges _ _ S)); lia). rewrite D, M. auto.
Qed.
Lemma inner_row : forall j k, j < n2 -> k < 3 -> nth (j * 3 + k + n1 * 2) dE10 [] = nth k (inner_edges n0 (nth j E21 [])) [] /\ nth (j * 3 + k + n1 * 2) dO10 [] = [-1; 1]%Z.
Proof.
  intros j k Hj Hk. destruct (divmod j k 3 Hk) as [D M]. pose proof (proj1 (sf_faces _ _ S)) as LF. split.
  - unfold dE10. rewrite app_nth2 by (rewrite (length_concat_map _ _ _ 2), seq_length by reflexivity; lia). rewrite (length_concat_map _ _ _ 2), seq_length by reflexivity. replace (j * 3 + k + n1 * 2 - n1 * 2) with (j * 3 + k) by lia. rewrite (nth_concat_map _ _ _ 3 _ _ _ []) by (auto; lia). rewrite D, M. auto.
  - unfold dO10. rewrite app_nth2 by (rewrite (length_concat_map _ _ _ 2) by reflexivity; rewrite (proj2 (sf_edges _ _ S)); lia). rewrite (length_concat_map _ _ _ 2) by reflexivity. rewrite (proj2 (sf_edges _ _ S)). replace (j * 3 + k + n1 * 2 - n1 * 2) with (j * 3 + k) by lia. rewrite (nth_concat_map _ _ _ 3 _ _ _ []) by (auto; lia). rewrite M. destruct k as [|[|[|]]]; try lia; auto.
Qed.
Lemma face_row : forall j k, j < n2 -> k < 4 -> nth (j * 4 + k) dE21 [] = nth k (direct_children n1 j (nth j E21 []) (nth j E20 []) (plus j)) [] /\ nth (j * 4 + k) dO21 [] = nth k (direct_child_signs (nth j O21 [])) [] /\
  nth (j * 4 + k) dE20 [] = nth k (direct_corners n0 (nth 0 E21 []) (nth j E20 [])) [].
Proof.
  intros j k Hj Hk. destruct (divmod j k 4 Hk) as [D M]. split; [|split].
  - unfold dE21. rewrite (nth_concat_map _ _ _ 4 _ _ _ 0) by (auto; try lia; rewrite seq_length; lia). rewrite D, M, seq_nth by auto. auto.
  - unfold dO21. rewrite (nth_concat_map _ _ _ 4 _ _ _ []) by (auto; try lia; rewrite (proj2 (sf_faces _ _ S)); lia). rewrite D, M. auto.
  - unfold dE20. rewrite (nth_concat_map _ _ _ 4 _ _ _ 0) by (auto; try lia; rewrite seq_length; lia). rewrite D, M, seq_nth by auto. auto.
Qed.

Definition hi (e v : nat) : nat := if nth 1 (nth e E10 []) 0 =? v then 1 else 0.
Definition delta (a i : nat) : Z := if a =? i then 1%Z else 0%Z.

(** The half of edge [e] at corner [v]. *)
Lemma half_q : forall e o p q, p <> q -> directed t kappa e o p q -> exists s, nth (e * 2 + hi e q) dO10 [] = [- s; s]%Z /\ (
   (nth (e * 2 + hi e q) dE10 [] = [e + n0; q] /\ (o * s)%Z = kappa) \/ (nth (e * 2 + hi e q) dE10 [] = [q; e + n0] /\ (o * s)%Z = (- kappa)%Z)).
Proof.
  intros e o p q Hpq (He & s & Eo & [[Ee Q]|[Ee Q]]); exists s; unfold hi; rewrite Ee; cbn [nth].
  - rewrite Nat.eqb_refl. destruct (half_row e 1 He ltac:(lia)) as [-> ->]. rewrite Ee, Eo. cbn. split; auto.
  - destruct (Nat.eqb_spec p q); [congruence|]. destruct (half_row e 0 He ltac:(lia)) as [-> ->]. rewrite Ee, Eo. cbn. rewrite Z.opp_involutive. split; auto.
Qed.
Lemma half_p : forall e o p q, p <> q -> directed t kappa e o p q -> exists s, nth (e * 2 + hi e p) dO10 [] = [- s; s]%Z /\ (
   (nth (e * 2 + hi e p) dE10 [] = [p; e + n0] /\ (o * s)%Z = kappa) \/ (nth (e * 2 + hi e p) dE10 [] = [e + n0; p] /\ (o * s)%Z = (- kappa)%Z)).
Proof.
  intros e o p q Hpq (He & s & Eo & [[Ee Q]|[Ee Q]]); exists s; unfold hi; rewrite Ee; cbn [nth].
  - destruct (Nat.eqb_spec q p); [congruence|]. destruct (half_row e 0 He ltac:(lia)) as [-> ->]. rewrite Ee, Eo. cbn. rewrite Z.opp_involutive. split; auto.
  - rewrite Nat.eqb_refl. destruct (half_row e 1 He ltac:(lia)) as [-> ->]. rewrite Ee, Eo. cbn. split; auto.
Qed.
Lemma hi_lt : forall e v, hi e v < 2.
Proof. intros. unfold hi. destruct (_ =? _); lia. Qed.

Lemma half_q_col : forall e o p q i, p <> q -> directed t kappa e o p q ->
  (o * col_entry (nth (e * 2 + hi e q)%nat dE10 []) (nth (e * 2 + hi e q)%nat dO10 []) i)%Z = (kappa * (delta q i - delta (e + n0)%nat i))%Z.
Proof.
  intros e o p q i Hpq D. destruct (half_q e o p q Hpq D) as (s & -> & [[-> Q]|[-> Q]]); cbn [col_entry]; unfold delta.
  - rewrite <- Q. destruct (e + n0 =? i), (q =? i); ring.
  - replace kappa with (- (o * s))%Z by lia. destruct (e + n0 =? i), (q =? i); ring.
Qed.
Lemma half_p_col : forall e o p q i, p <> q -> directed t kappa e o p q ->
  (o * col_entry (nth (e * 2 + hi e p)%nat dE10 []) (nth (e * 2 + hi e p)%nat dO10 []) i)%Z = (kappa * (delta (e + n0)%nat i - delta p i))%Z.
Proof.
  intros e o p q i Hpq D. destruct (half_p e o p q Hpq D) as (s & -> & [[-> Q]|[-> Q]]); cbn [col_entry]; unfold delta.
  - rewrite <- Q. destruct (e + n0 =? i), (p =? i); ring.
  - replace kappa with (- (o * s))%Z by lia. destruct (e + n0 =? i), (p =? i); ring.
Qed.

Lemma inner_col : forall j k i e0 e1 e2, j < n2 -> k < 3 -> nth j E21 [] = [e0; e1; e2] ->
  col_entry (nth (j * 3 + k + n1 * 2)%nat dE10 []) (nth (j * 3 + k + n1 * 2)%nat dO10 []) i =
   (delta (nth k [e2; e0; e1] 0%nat + n0)%nat i - delta (nth k [e1; e2; e0] 0%nat + n0)%nat i)%Z.
Proof.
  intros j k i e0 e1 e2 Hj Hk E. destruct (inner_row j k Hj Hk) as [-> ->]. rewrite E. destruct k as [|[|[|]]]; try lia; cbn; unfold delta; destruct (_ =? i), (_ =? i); ring.
Qed.

(** Entries of the product: the middle triangles cancel, the corner triangles only if kappa is one. *)
Definition defect (j k i : nat) : Z :=
  match nth j E21 [], k with
  | [e0; e1; e2], 1 => delta (e1 + n0) i - delta (e2 + n0) i
  | [e0; e1; e2], 2 => delta (e2 + n0) i - delta (e0 + n0) i
  | [e0; e1; e2], 3 => delta (e0 + n0) i - delta (e1 + n0) i
  | _, _ => 0%Z
  end.

Lemma rect_E10 : Forall (fun l => length l = 2) dE10.
Proof.
  apply Forall_forall. intros l Hl. unfold dE10 in Hl. apply in_app_or in Hl as [Hl|Hl]; apply in_concat in Hl as (x & Hx & Hl); apply in_map_iff in Hx as (y & <- & Hy).
  - destruct Hl as [<-|[<-|[]]]; auto.
  - unfold inner_edges in Hl. apply in_map_iff in Hl as (z & <- & _). auto.
Qed.
Lemma rect_O10 : Forall (fun l => length l = 2) dO10.
Proof.
  apply Forall_forall. intros l Hl. unfold dO10 in Hl. apply in_app_or in Hl as [Hl|Hl]; apply in_concat in Hl as (x & Hx & Hl); apply in_map_iff in Hx as (y & <- & Hy).
  - destruct Hl as [<-|[<-|[]]]; auto.
  - unfold inner_edge_signs in Hl. apply in_map_iff in Hl as (z & <- & _). auto.
Qed.
Lemma rect_E21 : Forall (fun l => length l = 3) dE21.
Proof.
  apply Forall_forall. intros l Hl. unfold dE21 in Hl. apply in_concat in Hl as (x & Hx & Hl). apply in_map_iff in Hx as (y & <- & Hy). destruct Hl as [<-|Hl]; auto. apply in_map_iff in Hl as (z & <- & _). auto.
Qed.
Lemma rect_O21 : Forall (fun l => length l = 3) dO21.
Proof.
  apply Forall_forall. intros l Hl. unfold dO21 in Hl. apply in_concat in Hl as (x & Hx & Hl). apply in_map_iff in Hx as (y & <- & Hy). destruct Hl as [<-|Hl]; auto. apply in_map_iff in Hl as (z & <- & _). auto.
Qed.

(** The rows of the children, with all lookups resolved. *)
Lemma children_rows : forall j, j < n2 -> exists v0 v1 v2 e0 e1 e2 o0 o1 o2,
   element t 2 j = [v0; v1; v2] /\ v0 <> v1 /\ v0 <> v2 /\ v1 <> v2 /\
   nth j E21 [] = [e0; e1; e2] /\ nth j O21 [] = [o0; o1; o2] /\
   directed t kappa e0 o0 v1 v2 /\ directed t kappa e1 o1 v2 v0 /\ directed t kappa e2 o2 v0 v1 /\
   nth (j * 4 + 0) dE21 [] = [j * 3 + 0 + n1 * 2; j * 3 + 1 + n1 * 2; j * 3 + 2 + n1 * 2] /\
   nth (j * 4 + 1) dE21 [] = [j * 3 + 0 + n1 * 2; e1 * 2 + hi e1 v0; e2 * 2 + hi e2 v0] /\
   nth (j * 4 + 2) dE21 [] = [j * 3 + 1 + n1 * 2; e2 * 2 + hi e2 v1; e0 * 2 + hi e0 v1] /\
   nth (j * 4 + 3) dE21 [] = [j * 3 + 2 + n1 * 2; e0 * 2 + hi e0 v2; e1 * 2 + hi e1 v2] /\
   nth (j * 4 + 0) dO21 [] = [1; 1; 1]%Z /\ nth (j * 4 + 1) dO21 [] = [-1; o1; o2]%Z /\ nth (j * 4 + 2) dO21 [] = [-1; o2; o0]%Z /\ nth (j * 4 + 3) dO21 [] = [-1; o0; o1]%Z.
Proof.
  intros j Hj. destruct (sf_face _ _ S j Hj) as (v0 & v1 & v2 & e0 & e1 & e2 & o0 & o1 & o2 & Ev & D1 & D2 & D3 & Ee & Eo & Q0 & Q1 & Q2).
  exists v0, v1, v2, e0, e1, e2, o0, o1, o2. repeat (split; [assumption|]). unfold element in Ev. assert (Ep : plus j = map (fun e => nth 1 (nth e E10 []) 0) [e0; e1; e2]) by (unfold plus; rewrite Ee; auto).
  pose proof (face_row j 0 Hj ltac:(lia)) as (A0 & B0 & _). pose proof (face_row j 1 Hj ltac:(lia)) as (A1 & B1 & _). pose proof (face_row j 2 Hj ltac:(lia)) as (A2 & B2 & _). pose proof (face_row j 3 Hj ltac:(lia)) as (A3 & B3 & _).
  rewrite A0, A1, A2, A3, B0, B1, B2, B3, Ev, Ee, Eo, Ep. unfold hi. repeat split; reflexivity.
Qed.

Lemma range_E21 : forall l e, In l dE21 -> In e l -> e < length dE10.
Proof.
  intros l e Hl He. apply In_nth with (d := []) in Hl as (p & Hp & <-). rewrite dE21_length in Hp. assert (Ep : p = p / 4 * 4 + p mod 4) by (rewrite Nat.mul_comm; apply Nat.div_mod; lia). assert (Hm : p mod 4 < 4) by (apply Nat.mod_upper_bound; lia).
  assert (Hj : p / 4 < n2) by (apply Nat.div_lt_upper_bound; lia). destruct (children_rows _ Hj) as (v0 & v1 & v2 & e0 & e1 & e2 & o0 & o1 & o2 & _ & _ & _ & _ & _ & _ & (H0 & _) & (H1 & _) & (H2 & _) & A0 & A1 & A2 & A3 & _).
  rewrite dE10_length. pose proof (hi_lt e1 v0). pose proof (hi_lt e2 v0). pose proof (hi_lt e2 v1). pose proof (hi_lt e0 v1). pose proof (hi_lt e0 v2). pose proof (hi_lt e1 v2).
  rewrite Ep in He. set (j := p / 4) in *. set (m := p mod 4) in *. clearbody j m. destruct m as [|[|[|[|]]]]; try lia; [rewrite A0 in He|rewrite A1 in He|rewrite A2 in He|rewrite A3 in He]; destruct He as [<-|[<-|[<-|[]]]]; lia.
Qed.

Lemma direct_product : forall i j k, j < n2 -> k < 4 -> product_entry (matrix dtop 0) (matrix dtop 1) i (j * 4 + k) = ((1 - kappa) * defect j k i)%Z.
Proof.
  intros i j k Hj Hk. unfold matrix. cbn [boundary_idx orientation dtop nth].
  assert (N0 : dE10 <> []) by (intros E; pose proof dE10_length as Q; rewrite E in Q; simpl in Q; lia). assert (N1 : dE21 <> []) by (intros E; pose proof dE21_length as Q; rewrite E in Q; simpl in Q; lia).
  rewrite (product_columns 2 3); auto using rect_E10, rect_O10, rect_E21, rect_O21; try lia; [|rewrite dE10_length, dO10_length; auto|rewrite dE21_length, dO21_length; auto|apply range_E21].
  rewrite dE21_length. destruct (Nat.ltb_spec (j * 4 + k) (n2 * 4)); [|lia]. destruct (children_rows j Hj) as (v0 & v1 & v2 & e0 & e1 & e2 & o0 & o1 & o2 & _ & D1 & D2 & D3 & Ee & _ & H0 & H1 & H2 & A0 & A1 & A2 & A3 & B0 & B1 & B2 & B3).
  unfold defect. rewrite Ee. assert (SM : forall f : nat -> Z, sumZ (map f (seq 0 3)) = (f 0%nat + f 1%nat + f 2%nat)%Z) by (intros; unfold sumZ; cbn; ring). rewrite SM.
  destruct k as [|[|[|[|]]]]; try lia; [rewrite A0, B0|rewrite A1, B1|rewrite A2, B2|rewrite A3, B3]; cbn [nth].
  - rewrite !(inner_col j _ i e0 e1 e2) by (auto; lia). cbn [nth]. ring.
  - rewrite (inner_col j 0 i e0 e1 e2) by (auto; lia). rewrite (half_q_col e1 o1 v2 v0) by auto. rewrite (half_p_col e2 o2 v0 v1) by auto. cbn [nth]. ring.
  - rewrite (inner_col j 1 i e0 e1 e2) by (auto; lia). rewrite (half_q_col e2 o2 v0 v1) by auto. rewrite (half_p_col e0 o0 v1 v2) by auto. cbn [nth]. ring.
  - rewrite (inner_col j 2 i e0 e1 e2) by (auto; lia). rewrite (half_q_col e0 o0 v1 v2) by auto. rewrite (half_p_col e1 o1 v2 v0) by auto. cbn [nth]. ring.
Qed.
Lemma direct_product_out : forall i p, n2 * 4 <= p -> product_entry (matrix dtop 0) (matrix dtop 1) i p = 0%Z.
Proof.
  intros i p Hp. unfold matrix. cbn [boundary_idx orientation dtop nth]. pose proof (sf_pos _ _ S).
  assert (N0 : dE10 <> []) by (intros E; pose proof dE10_length as Q; rewrite E in Q; simpl in Q; lia). assert (N1 : dE21 <> []) by (intros E; pose proof dE21_length as Q; rewrite E in Q; simpl in Q; lia).
  rewrite (product_columns 2 3); auto using rect_E10, rect_O10, rect_E21, rect_O21; try lia; [|rewrite dE10_length, dO10_length; auto|rewrite dE21_length, dO21_length; auto|apply range_E21].
  rewrite dE21_length. destruct (Nat.ltb_spec p (n2 * 4)); auto; lia.
Qed.

Lemma edges_distinct : forall j v0 v1 v2 e0 e1 e2 o0 o1 o2, nth j E21 [] = [e0; e1; e2] -> v0 <> v1 -> v0 <> v2 -> v1 <> v2 ->
  directed t kappa e0 o0 v1 v2 -> directed t kappa e1 o1 v2 v0 -> directed t kappa e2 o2 v0 v1 -> e0 <> e1 /\ e0 <> e2 /\ e1 <> e2.
Proof.
  intros j v0 v1 v2 e0 e1 e2 o0 o1 o2 _ D1 D2 D3 (_ & s0 & _ & H0) (_ & s1 & _ & H1) (_ & s2 & _ & H2).
  repeat split; intros ->; destruct H0 as [[H0 _]|[H0 _]]; destruct H1 as [[H1 _]|[H1 _]]; destruct H2 as [[H2 _]|[H2 _]]; congruence.
Qed.

(** The result is a chain complex exactly for the positive sign convention. *)
Lemma direct_chain_iff : (forall i p, product_entry (matrix dtop 0) (matrix dtop 1) i p = 0%Z) <-> kappa = 1%Z.
Proof.
  split.
  - intros H. pose proof (sf_pos _ _ S) as P. destruct (children_rows 0 P) as (v0 & v1 & v2 & e0 & e1 & e2 & o0 & o1 & o2 & _ & D1 & D2 & D3 & Ee & _ & H0 & H1 & H2 & _).
    destruct (edges_distinct 0 v0 v1 v2 e0 e1 e2 o0 o1 o2) as (X1 & X2 & X3); auto. specialize (H (e1 + n0) (0 * 4 + 1)). rewrite direct_product in H by (auto; lia). unfold defect in H. rewrite Ee in H. unfold delta in H.
    rewrite Nat.eqb_refl in H. destruct (Nat.eqb_spec (e2 + n0) (e1 + n0)); lia.
  - intros E i p. destruct (Nat.lt_ge_cases p (n2 * 4)) as [Hp|Hp]; [|apply direct_product_out; auto].
    assert (Ep : p = p / 4 * 4 + p mod 4) by (rewrite Nat.mul_comm; apply Nat.div_mod; lia). assert (Hm : p mod 4 < 4) by (apply Nat.mod_upper_bound; lia). assert (Hj : p / 4 < n2) by (apply Nat.div_lt_upper_bound; lia).
    rewrite Ep. rewrite direct_product by auto. rewrite E. ring.
Qed.

(** Success. *)
Lemma direct_ok : exists m0 m1 m2, subdivide_loop_direct t = Ok (dtop, [m0; m1; m2]) /\
  (nrows m0 = n0 + n1 /\ ncols m0 = n0) /\ (nrows m1 = n1 * 2 + n2 * 3 /\ ncols m1 = n1) /\ (nrows m2 = n2 * 4 /\ ncols m2 = n2) /\
  (forall i v, entry m0 i v = if (i =? v) && (v <? n0) then 1%Z else 0%Z) /\
  (forall i e, e < n1 -> entry m1 i e = if i / 2 =? e then 1%Z else 0%Z) /\
  (forall i j, i < n2 * 4 -> entry m2 i j = if i / 4 =? j then 1%Z else 0%Z).
Proof.
  assert (F0 : n_elements dtop 0 = n0 + n1) by (unfold n_elements; cbn; rewrite map_length, seq_length; auto). assert (F1 : n_elements dtop 1 = n1 * 2 + n2 * 3) by apply dE10_length. assert (F2 : n_elements dtop 2 = n2 * 4) by apply dE20_length.
  assert (FN : forall a b, a <= b -> firstn a (seq 0 b) = seq 0 a). { intros a b H. replace b with (a + (b - a)) by lia. rewrite seq_app. rewrite firstn_app, firstn_all2 by (rewrite seq_length; lia). rewrite seq_length, Nat.sub_diag. simpl. apply app_nil_r. }
  unfold subdivide_loop_direct. assert (E : subdivide_loop_direct_topology t = Ok dtop).
  { unfold subdivide_loop_direct_topology, make_topology. cbn [nth]. rewrite map_length, seq_length. rewrite <- flat_map_concat_map. replace (flat_map (fun v => [v]) (seq 0 (n0 + n1))) with (seq 0 (n0 + n1)) by (generalize (seq 0 (n0 + n1)); intros l; induction l; simpl; congruence). rewrite (proj2 (list_eqb_eq _ _) eq_refl). reflexivity. }
  rewrite E. cbn [bind]. unfold subdivide_loop_direct_transfer. rewrite F0, F1, F2. rewrite !FN by lia.
  destruct (transfer_entry (seq 0 n0) (seq 0 n0) (n0 + n1) n0) as (m0 & E0 & R0 & C0 & A0 & B0); auto.
  { apply seq_NoDup. } { intros x Hx. apply in_seq in Hx. lia. } { intros x Hx. apply in_seq in Hx. lia. }
  destruct (transfer_entry (seq 0 (n1 * 2)) (each 2 (seq 0 n1)) (n1 * 2 + n2 * 3) n1) as (m1 & E1 & R1 & C1 & A1 & B1).
  { apply seq_NoDup. } { rewrite each_length, !seq_length. lia. } { intros x Hx. apply in_seq in Hx. lia. }
  { intros x Hx. unfold each in Hx. apply in_flat_map in Hx as (y & Hy & Hx). apply repeat_spec in Hx. subst. apply in_seq in Hy. lia. }
  destruct (transfer_entry (seq 0 (n2 * 4)) (each 4 (seq 0 n2)) (n2 * 4) n2) as (m2 & E2 & R2 & C2 & A2 & B2).
  { apply seq_NoDup. } { rewrite each_length, !seq_length. lia. } { intros x Hx. apply in_seq in Hx. lia. }
  { intros x Hx. unfold each in Hx. apply in_flat_map in Hx as (y & Hy & Hx). apply repeat_spec in Hx. subst. apply in_seq in Hy. lia. }
  exists m0, m1, m2. rewrite E0, E1, E2. cbn [bind]. split; auto. split; auto. split; auto. split; auto. split; [|split].
  - intros i v. destruct (Nat.lt_ge_cases i n0) as [Hi|Hi].
    + pose proof (A0 i ltac:(rewrite seq_length; auto) v) as Q. rewrite seq_nth in Q by auto. cbn [Nat.add] in Q. rewrite Q. destruct (Nat.eqb_spec i v); auto. subst. rewrite (proj2 (Nat.ltb_lt _ _) Hi). auto.
    + rewrite B0 by (intros X; apply in_seq in X; lia). destruct (Nat.eqb_spec i v); auto. subst. destruct (Nat.ltb_spec v n0); auto; lia.
  - intros i e He. destruct (Nat.lt_ge_cases i (n1 * 2)) as [Hi|Hi].
    + pose proof (A1 i ltac:(rewrite seq_length; auto) e) as Q. rewrite seq_nth in Q by auto. cbn [Nat.add] in Q. rewrite Q. destruct (each_nth 2 (seq 0 n1) i ltac:(lia)) as [-> _]; [rewrite seq_length; lia|]. rewrite seq_nth; auto. apply Nat.div_lt_upper_bound; lia.
    + rewrite B1 by (intros X; apply in_seq in X; lia). destruct (Nat.eqb_spec (i / 2) e); auto. exfalso. assert (n1 <= i / 2) by (apply Nat.div_le_lower_bound; lia). lia.
  - intros i j Hi. pose proof (A2 i ltac:(rewrite seq_length; auto) j) as Q. rewrite seq_nth in Q by auto. cbn [Nat.add] in Q. rewrite Q. destruct (each_nth 4 (seq 0 n2) i ltac:(lia)) as [-> _]; [rewrite seq_length; lia|]. rewrite seq_nth; auto. apply Nat.div_lt_upper_bound; lia.
Qed.

(** Corners. *)
Lemma ends : forall p e1 e2 e3 s1 s2 s3, nth p dE21 [] = [e1; e2; e3] -> nth e1 dE10 [] = s1 -> nth e2 dE10 [] = s2 -> nth e3 dE10 [] = s3 ->
  corners_match dtop p <-> forall v, In v (nth p dE20 []) <-> In v s1 \/ In v s2 \/ In v s3.
Proof.
  intros p e1 e2 e3 s1 s2 s3 E E1 E2 E3. unfold corners_match, element. cbn [dtop boundary_idx elements nth]. rewrite E. subst.
  assert (Q : forall v, (exists e, In e [e1; e2; e3] /\ In v (nth e dE10 [])) <-> In v (nth e1 dE10 []) \/ In v (nth e2 dE10 []) \/ In v (nth e3 dE10 [])).
  { intros v. split; [intros (e & [<-|[<-|[<-|[]]]] & I); auto|]. intros [I|[I|I]]; [exists e1|exists e2|exists e3]; simpl; auto. }
  split; intros H v; rewrite H; [|symmetry]; rewrite Q; tauto.
Qed.

Lemma in_half_q : forall e o p q v, p <> q -> directed t kappa e o p q -> In v (nth (e * 2 + hi e q) dE10 []) <-> v = q \/ v = e + n0.
Proof. intros e o p q v H D. destruct (half_q e o p q H D) as (s & _ & [[-> _]|[-> _]]); simpl; intuition. Qed.
Lemma in_half_p : forall e o p q v, p <> q -> directed t kappa e o p q -> In v (nth (e * 2 + hi e p) dE10 []) <-> v = p \/ v = e + n0.
Proof. intros e o p q v H D. destruct (half_p e o p q H D) as (s & _ & [[-> _]|[-> _]]); simpl; intuition. Qed.

Lemma corners_iff : forall j, j < n2 -> (forall k, k < 4 -> corners_match dtop (j * 4 + k)) <-> nth j E21 [] = nth 0 E21 [].
Proof.
  intros j Hj. pose proof (sf_pos _ _ S) as P. destruct (sf_face _ _ S 0 P) as (u0 & u1 & u2 & f0 & f1 & f2 & _ & _ & _ & _ & _ & _ & _ & Ef & _).
  destruct (children_rows j Hj) as (v0 & v1 & v2 & e0 & e1 & e2 & o0 & o1 & o2 & Ev & D1 & D2 & D3 & Ee & _ & H0 & H1 & H2 & A0 & A1 & A2 & A3 & _).
  destruct (edges_distinct j v0 v1 v2 e0 e1 e2 o0 o1 o2) as (X1 & X2 & X3); auto.
  assert (B : forall e o p q, p <> q -> directed t kappa e o p q -> p < n0 /\ q < n0).
  { intros e o p q _ (He & s & _ & [[Q _]|[Q _]]); destruct (sf_edge _ _ S e He) as (a & b & s' & Qe & Ha & Hb & _); rewrite Q in Qe; injection Qe as <- <-; auto. }
  destruct (B _ _ _ _ D3 H0) as [L1 L2]. destruct (B _ _ _ _ D1 H2) as [L0 _]. unfold element in Ev.
  pose proof (face_row j 0 Hj ltac:(lia)) as (_ & _ & C0). pose proof (face_row j 1 Hj ltac:(lia)) as (_ & _ & C1). pose proof (face_row j 2 Hj ltac:(lia)) as (_ & _ & C2). pose proof (face_row j 3 Hj ltac:(lia)) as (_ & _ & C3).
  rewrite Ev, Ef in C0, C1, C2, C3. cbn in C0, C1, C2, C3.
  assert (I0 : forall v, In v (nth (j * 3 + 0 + n1 * 2) dE10 []) <-> v = e1 + n0 \/ v = e2 + n0) by (intros v; rewrite (proj1 (inner_row j 0 Hj ltac:(lia))), Ee; cbn; intuition).
  assert (I1 : forall v, In v (nth (j * 3 + 1 + n1 * 2) dE10 []) <-> v = e2 + n0 \/ v = e0 + n0) by (intros v; rewrite (proj1 (inner_row j 1 Hj ltac:(lia))), Ee; cbn; intuition).
  assert (I2 : forall v, In v (nth (j * 3 + 2 + n1 * 2) dE10 []) <-> v = e0 + n0 \/ v = e1 + n0) by (intros v; rewrite (proj1 (inner_row j 2 Hj ltac:(lia))), Ee; cbn; intuition).
  pose proof (ends _ _ _ _ _ _ _ A0 eq_refl eq_refl eq_refl) as Q0. pose proof (ends _ _ _ _ _ _ _ A1 eq_refl eq_refl eq_refl) as Q1. pose proof (ends _ _ _ _ _ _ _ A2 eq_refl eq_refl eq_refl) as Q2. pose proof (ends _ _ _ _ _ _ _ A3 eq_refl eq_refl eq_refl) as Q3.
  assert (R0 : corners_match dtop (j * 4 + 0) <-> forall v, In v [f0 + n0; f1 + n0; f2 + n0] <-> v = e0 + n0 \/ v = e1 + n0 \/ v = e2 + n0).
  { rewrite Q0. clear Q0 Q1 Q2 Q3. rewrite C0. split; intros H v; rewrite H, I0, I1, I2; tauto. }
  assert (R1 : corners_match dtop (j * 4 + 1) <-> forall v, In v [v0; f2 + n0; f1 + n0] <-> v = v0 \/ v = e1 + n0 \/ v = e2 + n0).
  { rewrite Q1. clear Q0 Q1 Q2 Q3. rewrite C1. assert (Z : forall v, (In v (nth (j * 3 + 0 + n1 * 2) dE10 []) \/ In v (nth (e1 * 2 + hi e1 v0) dE10 []) \/ In v (nth (e2 * 2 + hi e2 v0) dE10 [])) <-> v = v0 \/ v = e1 + n0 \/ v = e2 + n0).
    { intros v. rewrite I0, (in_half_q _ _ _ _ v (not_eq_sym D2) H1), (in_half_p _ _ _ _ v D1 H2). tauto. } split; intros H v; rewrite H; [|symmetry]; rewrite Z; tauto. }
  assert (R2 : corners_match dtop (j * 4 + 2) <-> forall v, In v [v1; f0 + n0; f2 + n0] <-> v = v1 \/ v = e2 + n0 \/ v = e0 + n0).
  { rewrite Q2. clear Q0 Q1 Q2 Q3. rewrite C2. assert (Z : forall v, (In v (nth (j * 3 + 1 + n1 * 2) dE10 []) \/ In v (nth (e2 * 2 + hi e2 v1) dE10 []) \/ In v (nth (e0 * 2 + hi e0 v1) dE10 [])) <-> v = v1 \/ v = e2 + n0 \/ v = e0 + n0).
    { intros v. rewrite I1, (in_half_q _ _ _ _ v D1 H2), (in_half_p _ _ _ _ v D3 H0). tauto. } split; intros H v; rewrite H; [|symmetry]; rewrite Z; tauto. }
  assert (R3 : corners_match dtop (j * 4 + 3) <-> forall v, In v [v2; f1 + n0; f0 + n0] <-> v = v2 \/ v = e0 + n0 \/ v = e1 + n0).
  { rewrite Q3. clear Q0 Q1 Q2 Q3. rewrite C3. assert (Z : forall v, (In v (nth (j * 3 + 2 + n1 * 2) dE10 []) \/ In v (nth (e0 * 2 + hi e0 v2) dE10 []) \/ In v (nth (e1 * 2 + hi e1 v2) dE10 [])) <-> v = v2 \/ v = e0 + n0 \/ v = e1 + n0).
    { intros v. rewrite I2, (in_half_q _ _ _ _ v D3 H0), (in_half_p _ _ _ _ v (not_eq_sym D2) H1). tauto. } split; intros H v; rewrite H; [|symmetry]; rewrite Z; tauto. }
  clear Q0 Q1 Q2 Q3 I0 I1 I2 A0 A1 A2 A3 C0 C1 C2 C3 B H0 H1 H2. rewrite Ee, Ef. split.
  - intros H. pose proof (proj1 R0 (H 0 ltac:(lia))) as K0. pose proof (proj1 R1 (H 1 ltac:(lia))) as K1. pose proof (proj1 R2 (H 2 ltac:(lia))) as K2. pose proof (proj1 R3 (H 3 ltac:(lia))) as K3. clear R0 R1 R2 R3 H.
    assert (G : forall e, e + n0 = e0 + n0 \/ e + n0 = e1 + n0 \/ e + n0 = e2 + n0 -> In (e + n0) [f0 + n0; f1 + n0; f2 + n0]) by (intros; apply K0; auto).
    assert (Z0 : e0 = f0).
    { destruct (G e0 ltac:(auto)) as [G0|[G0|[G0|[]]]]; [lia| |]; assert (N : In (e0 + n0) [v0; f2 + n0; f1 + n0]) by (rewrite <- G0; simpl; auto); apply K1 in N; lia. }
    assert (Z1 : e1 = f1).
    { destruct (G e1 ltac:(auto)) as [G0|[G0|[G0|[]]]]; [|lia|]; assert (N : In (e1 + n0) [v1; f0 + n0; f2 + n0]) by (rewrite <- G0; simpl; auto); apply K2 in N; lia. }
    assert (Z2 : e2 = f2).
    { destruct (G e2 ltac:(auto)) as [G0|[G0|[G0|[]]]]; [| |lia]; assert (N : In (e2 + n0) [v2; f1 + n0; f0 + n0]) by (rewrite <- G0; simpl; auto); apply K3 in N; lia. }
    congruence.
  - intros E. injection E as -> -> ->. intros k Hk. destruct k as [|[|[|[|]]]]; try lia; [apply R0|apply R1|apply R2|apply R3]; intros v; simpl; intuition.
Qed.
End Direct.

(** Meshes built by from_simplices store the negative convention. *)
Section FromSimplices.
Variables (rows : list simplex) (t : topology).
Hypothesis T : top_ok 2 rows t.

Lemma edge_rows : forall e, e < n_elements t 1 -> exists a b, el t 1 e = [a; b] /\ a <> b /\ a < n_elements t 0 /\ b < n_elements t 0 /\
  nth e (nth 0 (boundary_idx t) []) [] = [a; b] /\ nth e (nth 0 (orientation t) []) [] = [-1; 1]%Z.
Proof.
  intros e He. destruct (el_len 2 rows t ltac:(lia) T 1 e ltac:(lia) He) as [L ND]. pose proof (to_level _ _ _ T 0 ltac:(lia)) as LV.
  pose proof (lv_rectB _ _ _ _ _ LV) as RB. rewrite Forall_forall in RB. assert (LE : length (nth e (nth 0 (boundary_idx t) []) []) = 2) by (apply RB; apply nth_In; rewrite (lv_lenB _ _ _ _ _ LV); auto).
  pose proof (lv_rectO _ _ _ _ _ LV) as RO. rewrite Forall_forall in RO. assert (LO : length (nth e (nth 0 (orientation t) []) []) = 2) by (apply RO; apply nth_In; rewrite (lv_lenO _ _ _ _ _ LV); auto).
  pose proof (lv_idx _ _ _ _ _ LV e 0 He ltac:(lia)) as (K0 & P0 & S0). pose proof (lv_idx _ _ _ _ _ LV e 1 He ltac:(lia)) as (K1 & P1 & S1). fold (el t 1 e) in P0, P1, S0, S1.
  assert (NV : forall v, v < n_elements t 0 -> nth v (nth 0 (elements t) []) [] = [v]). { intros v Hv. rewrite (to_verts _ _ _ T). rewrite nth_map_seq by auto. auto. }
  destruct (el t 1 e) as [|a [|b [|]]]; simpl in L; try lia. destruct (nth e (nth 0 (boundary_idx t) []) []) as [|x [|y [|]]]; simpl in LE; try lia. destruct (nth e (nth 0 (orientation t) []) []) as [|o [|o' [|]]]; simpl in LO; try lia.
  cbn [nth] in *. rewrite NV in P0, S0 by auto. rewrite NV in P1, S1 by auto.
  change (omit (pi 1 0) [a; b]) with [a] in P0, S0. change (omit (pi 1 1) [a; b]) with [b] in P1, S1. apply Permutation_length_1 in P0. apply Permutation_length_1 in P1. subst x y.
  exists a, b. split; auto. split; [intros ->; inversion ND; simpl in *; tauto|]. split; auto. split; auto. split; auto. rewrite S0, S1. rewrite !sgn_sq. reflexivity.
Qed.

Definition flip_faces : topology := mkTop (elements t) (boundary_idx t) [nth 0 (orientation t) []; map (map Z.opp) (nth 1 (orientation t) [])].

Lemma face_signs : forall j v0 v1 v2 e0 e1 e2, j < length rows -> tri rows t j v0 v1 v2 e0 e1 e2 ->
  exists o0 o1 o2, nth j (nth 1 (orientation t) []) [] = [o0; o1; o2] /\ directed t (-1) e0 o0 v1 v2 /\ directed t (-1) e1 o1 v2 v0 /\ directed t (-1) e2 o2 v0 v1.
Proof.
  intros j v0 v1 v2 e0 e1 e2 Hj H. pose proof (to_level _ _ _ T 1 ltac:(lia)) as LV. rewrite (to_top _ _ _ T) in LV.
  pose proof (lv_rectO _ _ _ _ _ LV) as RO. rewrite Forall_forall in RO. assert (LO : length (nth j (nth 1 (orientation t) []) []) = 3) by (apply RO; apply nth_In; rewrite (lv_lenO _ _ _ _ _ LV); auto).
  pose proof (lv_idx _ _ _ _ _ LV j 0 Hj ltac:(lia)) as (_ & _ & S0). pose proof (lv_idx _ _ _ _ _ LV j 1 Hj ltac:(lia)) as (_ & _ & S1). pose proof (lv_idx _ _ _ _ _ LV j 2 Hj ltac:(lia)) as (_ & _ & S2).
  rewrite (t_row _ _ _ _ _ _ _ _ _ H), (t_edges _ _ _ _ _ _ _ _ _ H) in S0, S1, S2. cbn [nth] in S0, S1, S2.
  change (omit (pi 2 0) [v0; v1; v2]) with [v1; v2] in S0. change (omit (pi 2 1) [v0; v1; v2]) with [v0; v2] in S1. change (omit (pi 2 2) [v0; v1; v2]) with [v0; v1] in S2.
  destruct (nth j (nth 1 (orientation t) []) []) as [|o0 [|o1 [|o2 [|]]]]; simpl in LO; try lia. cbn [nth] in *. exists o0, o1, o2. split; auto.
  pose proof (t_vd _ _ _ _ _ _ _ _ _ H) as (D1 & D2 & D3). destruct (t_e _ _ _ _ _ _ _ _ _ H) as (B0 & B1 & B2).
  pose proof (t_e0 _ _ _ _ _ _ _ _ _ H) as P0. pose proof (t_e1 _ _ _ _ _ _ _ _ _ H) as P1. pose proof (t_e2 _ _ _ _ _ _ _ _ _ H) as P2. fold (el t 1 e0) in S0. fold (el t 1 e1) in S1. fold (el t 1 e2) in S2.
  assert (SS : forall a b, a <> b -> (sgn [a; b] * sgn [b; a] = -1)%Z). { intros a b Hab. rewrite (sgn_swap a b []) by auto. pose proof (sgn_sq [a; b]). lia. }
  destruct (edge_rows e0 B0) as (a0 & b0 & Q0 & _ & _ & _ & R0 & O0). destruct (edge_rows e1 B1) as (a1 & b1 & Q1 & _ & _ & _ & R1 & O1). destruct (edge_rows e2 B2) as (a2 & b2 & Q2 & _ & _ & _ & R2 & O2).
  rewrite Q0 in P0, S0. rewrite Q1 in P1, S1. rewrite Q2 in P2, S2. change (eps 2) with (-1)%Z in *. change (sgn_pow (pi 2 0)) with 1%Z in S0. change (sgn_pow (pi 2 1)) with (-1)%Z in S1. change (sgn_pow (pi 2 2)) with 1%Z in S2.
  split; [|split]; (split; [assumption|]); exists 1%Z; (split; [assumption|]).
  - apply Permutation_length_2_inv in P0 as [P0|P0]; injection P0 as -> ->; [left|right]; (split; [assumption|]); rewrite S0; rewrite ?sgn_sq, ?SS by auto; reflexivity.
  - apply Permutation_length_2_inv in P1 as [P1|P1]; injection P1 as -> ->; [left|right]; (split; [assumption|]); rewrite S1; rewrite ?sgn_sq, ?SS by auto; reflexivity.
  - apply Permutation_length_2_inv in P2 as [P2|P2]; injection P2 as -> ->; [left|right]; (split; [assumption|]); rewrite S2; rewrite ?sgn_sq, ?SS by auto; reflexivity.
Qed.

Lemma surface_from : surface t (-1).
Proof.
  assert (N2 : n_elements t 2 = length rows) by (unfold n_elements; rewrite (to_top _ _ _ T); auto). pose proof (to_level _ _ _ T 0 ltac:(lia)) as L0. pose proof (to_level _ _ _ T 1 ltac:(lia)) as L1.
  constructor.
  - apply (n_elements_pos 2 rows t ltac:(lia) T). lia.
  - split; [apply (lv_lenB _ _ _ _ _ L0)|apply (lv_lenO _ _ _ _ _ L0)].
  - intros e He. destruct (edge_rows e He) as (a & b & _ & _ & A & B & R & O). exists a, b, 1%Z. auto.
  - split; [apply (lv_lenB _ _ _ _ _ L1)|apply (lv_lenO _ _ _ _ _ L1)].
  - intros j Hj. destruct (tri_ex rows t T j ltac:(lia)) as (v0 & v1 & v2 & e0 & e1 & e2 & H). destruct (face_signs j v0 v1 v2 e0 e1 e2 ltac:(lia) H) as (o0 & o1 & o2 & Eo & X0 & X1 & X2). destruct (t_vd _ _ _ _ _ _ _ _ _ H) as (D1 & D2 & D3).
    exists v0, v1, v2, e0, e1, e2, o0, o1, o2. unfold element. rewrite (to_top _ _ _ T). split; [apply (t_row _ _ _ _ _ _ _ _ _ H)|]. split; auto. split; auto. split; auto. split; [apply (t_edges _ _ _ _ _ _ _ _ _ H)|]. auto.
Qed.

Lemma surface_flip : surface flip_faces 1.
Proof.
  destruct surface_from as [F1 F2 F3 F4 F5]. assert (D : forall e o p q, directed t (-1) e o p q -> directed flip_faces 1 e (- o) p q).
  { intros e o p q (He & s & Eo & Q). split; [exact He|]. exists s. split; [exact Eo|]. destruct Q as [[Q1 Q2]|[Q1 Q2]]; [left|right]; (split; [exact Q1|lia]). }
  constructor; auto.
  - split; [apply F4|]. cbn. rewrite map_length. apply F4.
  - intros j Hj. destruct (F5 j Hj) as (v0 & v1 & v2 & e0 & e1 & e2 & o0 & o1 & o2 & Ev & D1 & D2 & D3 & Ee & Eo & Q0 & Q1 & Q2). exists v0, v1, v2, e0, e1, e2, (- o0)%Z, (- o1)%Z, (- o2)%Z.
    repeat (split; [assumption|]). split; [|auto]. cbn. rewrite (nth_map_lt _ _ _ _ _ []) by (rewrite (proj2 F4); auto). rewrite Eo. auto.
Qed.

(** Rows of edge indices determine the triangles. *)
Lemma same_edges : forall j j', j < length rows -> j' < length rows -> nth j (nth 1 (boundary_idx t) []) [] = nth j' (nth 1 (boundary_idx t) []) [] <-> nth j rows [] = nth j' rows [].
Proof.
  intros j j' Hj Hj'. destruct (tri_ex rows t T j Hj) as (v0 & v1 & v2 & e0 & e1 & e2 & H). destruct (tri_ex rows t T j' Hj') as (w0 & w1 & w2 & f0 & f1 & f2 & H').
  pose proof (t_e0 _ _ _ _ _ _ _ _ _ H) as P0. pose proof (t_e1 _ _ _ _ _ _ _ _ _ H) as P1. pose proof (t_e2 _ _ _ _ _ _ _ _ _ H) as P2. pose proof (t_e0 _ _ _ _ _ _ _ _ _ H') as P0'. pose proof (t_e1 _ _ _ _ _ _ _ _ _ H') as P1'. pose proof (t_e2 _ _ _ _ _ _ _ _ _ H') as P2'.
  destruct (t_vd _ _ _ _ _ _ _ _ _ H) as (D1 & D2 & D3). destruct (t_vd _ _ _ _ _ _ _ _ _ H') as (D1' & D2' & D3'). destruct (t_e _ _ _ _ _ _ _ _ _ H) as (B0 & B1 & B2). destruct (t_e _ _ _ _ _ _ _ _ _ H') as (B0' & B1' & B2').
  rewrite (t_row _ _ _ _ _ _ _ _ _ H), (t_edges _ _ _ _ _ _ _ _ _ H), (t_row _ _ _ _ _ _ _ _ _ H'), (t_edges _ _ _ _ _ _ _ _ _ H'). split.
  - intros E. injection E as <- <- <-. rewrite P0 in P0'. rewrite P1 in P1'. rewrite P2 in P2'. apply Permutation_length_2_inv in P0'. apply Permutation_length_2_inv in P1'. apply Permutation_length_2_inv in P2'.
    destruct P0' as [X|X]; destruct P1' as [Y|Y]; destruct P2' as [Z|Z]; injection X; injection Y; injection Z; intros; subst; congruence.
  - intros E. injection E as <- <- <-. f_equal; [|f_equal; [|f_equal]]; apply (faces_unique 2 rows t T 1); auto.
    + change (Permutation (el t 1 e0) (el t 1 f0)). rewrite P0, P0'. auto.
    + change (Permutation (el t 1 e1) (el t 1 f1)). rewrite P1, P1'. auto.
    + change (Permutation (el t 1 e2) (el t 1 f2)). rewrite P2, P2'. auto.
Qed.
End FromSimplices.
