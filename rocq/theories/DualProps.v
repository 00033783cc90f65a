(** Properties C15 and C16: dual complexes. *)
Require Import List Arith ZArith Bool Lia Permutation Sorting.Sorted.
From Verif Require Import Util CombModel CombSpec CombProofs SimpModel SimpSpec ParProofs SimpProofs LevelProofs TopProofs SimpProps.
From Verif Require Import BdryModel BdrySpec OrientProofs FixProofs SubProofs BdryProofs SelProofs BdryProps SelProps DualProofs.
Import ListNotations.

Definition empty_coo : coo := mkCoo 0 0 [].

(** C15.  A mesh without boundary: the dual exists, is the reversed transposed primal, and is a chain complex. *)
Theorem C15_closed_dual : forall row_leb sat n rows t, simplices_ok n rows ->
  from_simplices row_leb n rows = Ok t -> is_oriented sat t = Ok true -> boundary row_leb sat t = Ok None ->
  exists D, dual row_leb sat t = Ok D /\ length D = n /\
    (forall k, k < n ->
       nrows (nth k D empty_coo) = n_elements t (n - k) /\ ncols (nth k D empty_coo) = n_elements t (n - k - 1) /\
       forall i j, entry (nth k D empty_coo) i j = entry (matrix t (n - k - 1)) j i) /\
    (forall k i j, S k < n -> product_entry (nth k D empty_coo) (nth (S k) D empty_coo) i j = 0%Z).
Proof.
  intros row_leb sat n rows t OK H O B. destruct (from_simplices_top_ok _ _ _ _ OK H) as [Hn T].
  exists (closed_dual_matrices t). split.
  { unfold dual. rewrite O. cbn [bind negb]. rewrite B. reflexivity. }
  pose proof (top_n_dim _ _ _ T) as Dn.
  assert (LD : length (closed_dual_matrices t) = n).
  { unfold closed_dual_matrices, matrices. rewrite map_length, rev_length, map_length, seq_length. auto. }
  assert (E : forall k, k < n -> nth k (closed_dual_matrices t) empty_coo = transpose (matrix t (n - k - 1))).
  { intros k Hk. unfold closed_dual_matrices. rewrite (nth_map_lt _ _ _ _ _ empty_coo).
    2:{ rewrite rev_length. unfold matrices. rewrite map_length, seq_length. lia. }
    rewrite rev_nth by (unfold matrices; rewrite map_length, seq_length; lia).
    unfold matrices. rewrite map_length, seq_length, Dn. rewrite nth_map_seq by lia.
    f_equal. f_equal. lia. }
  split; auto. split.
  - intros k Hk. rewrite E by auto. destruct (matrix_shape n rows t Hn T (n - k - 1) ltac:(lia)) as [R C].
    unfold transpose at 1 2. cbn [nrows ncols]. rewrite R, C. replace (S (n - k - 1)) with (n - k) by lia.
    split; auto. split; auto. intros. apply transpose_entry.
  - intros k i j Hk. rewrite !E by lia. rewrite transpose_product.
    replace (n - k - 1) with (S (n - S k - 1)) by lia. apply (chain_zero n rows t Hn T). lia.
Qed.
Print Assumptions C15_closed_dual.

Definition tet_surface : list simplex := [[0;2;1];[0;1;3];[1;2;3];[0;3;2]].
Example C15_example : exists t, from_simplices lex_leb 2 tet_surface = Ok t /\ is_oriented brute_sat t = Ok true /\
  boundary lex_leb brute_sat t = Ok None /\ map (n_elements t) [0;1;2] = [4;6;4].
Proof. eexists. split; [vm_compute; reflexivity|]. repeat split; vm_compute; reflexivity. Qed.

(** C16.  Full statement (false in dimension >= 3, see below): for every oriented mesh with oriented
    boundary, all products of consecutive dual matrices vanish.
    Proved for every dimension: exactly when the boundary matrices of the parent and of the boundary mesh
    commute with the selectors. *)
Theorem C16_dual_chain_iff_coupling : forall row_leb sat n rows t b idx, sat_contract sat -> simplices_ok n rows -> 2 <= n ->
  from_simplices row_leb n rows = Ok t -> at_most_two n rows ->
  boundary row_leb sat t = Ok (Some (b, idx)) -> is_oriented sat b = Ok true ->
  exists D, dual row_leb sat t = Ok D /\ length D = n /\
    (forall k, k < n -> nrows (nth k D empty_coo) = n_elements t (n - k) + n_elements b (n - k - 1)) /\
    (forall k, k < n -> ncols (nth k D empty_coo) =
       n_elements t (n - k - 1) + (if n - k - 1 =? 0 then 0 else n_elements b (n - k - 2))) /\
    forall k, S k < n ->
      ((forall i j, product_entry (nth k D empty_coo) (nth (S k) D empty_coo) i j = 0%Z) <->
       let m := n - k - 2 in
       forall i j, product_entry (matrix t m) (transpose (selector_boundary row_leb sat t (S m))) i j =
                   product_entry (transpose (selector_boundary row_leb sat t m)) (matrix b m) i j).
Proof.
  intros row_leb sat n rows t b idx SC OK Hn2 H AM Eb Ob. destruct (from_simplices_top_ok _ _ _ _ OK H) as [Hn T].
  assert (O : is_oriented sat t = Ok true).
  { unfold boundary in Eb. destruct (is_oriented sat t) as [[|]|]; simpl in Eb; congruence. }
  pose proof (is_oriented_consistent n rows t OK Hn T AM sat SC O) as CO.
  pose proof (boundary_some_inv row_leb n rows t T sat b idx Eb O) as Hne.
  destruct (boundary_some row_leb n rows t OK Hn T AM CO Hn2 sat O Hne) as (b' & idx' & Eb' & BF).
  rewrite Eb in Eb'. injection Eb' as <- <-.
  assert (ND : forall k, k < n -> NoDup (nth k idx [])).
  { intros k Hk. destruct (C12_parent_idx row_leb sat n rows t b idx SC OK Hn2 H AM Eb) as [_ X]. apply (X k Hk). }
  set (G := fun m => glued (matrix t m) (bmat b m) (selector_boundary row_leb sat t m)).
  exists (rev (map (fun m => transpose (G m)) (seq 0 n))). split.
  { unfold dual. rewrite O. cbn [bind negb]. rewrite Eb. cbn [bind]. rewrite Ob. cbn [bind negb].
    apply (dual_matrices_eq row_leb sat n rows t b idx); auto. }
  assert (LD : length (rev (map (fun m => transpose (G m)) (seq 0 n))) = n) by (rewrite rev_length, map_length, seq_length; auto).
  assert (E : forall k, k < n -> nth k (rev (map (fun m => transpose (G m)) (seq 0 n))) empty_coo = transpose (G (n - k - 1))).
  { intros k Hk. rewrite rev_nth by (rewrite map_length, seq_length; lia). rewrite map_length, seq_length.
    rewrite nth_map_seq by lia. f_equal. f_equal. lia. }
  split; auto. split; [|split].
  - intros k Hk. rewrite E by auto. unfold transpose, G, glued. cbn [nrows ncols].
    destruct (matrix_shape n rows t Hn T (n - k - 1) ltac:(lia)) as [R C]. rewrite C.
    rewrite (bsel_nrows row_leb sat n t b idx) by (auto; lia). replace (S (n - k - 1)) with (n - k) by lia. auto.
  - intros k Hk. rewrite E by auto. unfold transpose, G, glued. cbn [nrows ncols].
    destruct (matrix_shape n rows t Hn T (n - k - 1) ltac:(lia)) as [R C]. rewrite R. f_equal.
    destruct (n - k - 1) as [|m] eqn:Em; auto. cbn [bmat Nat.eqb].
    replace (n - k - 2) with m by lia. apply (matrix_shape (n - 1) _ b ltac:(lia) (bf_top _ _ _ _ _ BF) m). lia.
  - intros k Hk. rewrite !E by lia. cbn zeta.
    replace (n - k - 1) with (S (n - k - 2)) by lia. replace (n - S k - 1) with (n - k - 2) by lia.
    rewrite <- (glued_pair row_leb sat n rows t b idx Hn2 T Eb BF ND (n - k - 2)) by lia.
    split; intros X i j.
    + rewrite <- transpose_product. apply X.
    + rewrite transpose_product. apply X.
Qed.
Print Assumptions C16_dual_chain_iff_coupling.

(** Surfaces (dimension 2): the dual is a chain complex. *)
Theorem C16_dual_chain_surface_partial : forall row_leb sat rows t b idx, sat_contract sat -> simplices_ok 2 rows ->
  from_simplices row_leb 2 rows = Ok t -> at_most_two 2 rows ->
  boundary row_leb sat t = Ok (Some (b, idx)) -> is_oriented sat b = Ok true ->
  exists D0 D1, dual row_leb sat t = Ok [D0; D1] /\ forall i j, product_entry D0 D1 i j = 0%Z.
Proof.
  intros row_leb sat rows t b idx SC OK H AM Eb Ob.
  destruct (C16_dual_chain_iff_coupling row_leb sat 2 rows t b idx SC OK (le_n 2) H AM Eb Ob) as (D & ED & LD & _ & _ & X).
  destruct D as [|D0 [|D1 [|]]]; try discriminate. exists D0, D1. split; auto.
  specialize (X 0 ltac:(lia)). cbn [nth] in X. apply X. cbn zeta. replace (2 - 0 - 2) with 0 by lia.
  destruct (from_simplices_top_ok _ _ _ _ OK H) as [Hn T].
  assert (O : is_oriented sat t = Ok true).
  { unfold boundary in Eb. destruct (is_oriented sat t) as [[|]|]; simpl in Eb; congruence. }
  pose proof (is_oriented_consistent 2 rows t OK Hn T AM sat SC O) as CO.
  pose proof (boundary_some_inv row_leb 2 rows t T sat b idx Eb O) as Hne.
  destruct (boundary_some row_leb 2 rows t OK Hn T AM CO (le_n 2) sat O Hne) as (b' & idx' & Eb' & BF).
  rewrite Eb in Eb'. injection Eb' as <- <-.
  apply (couple_2d row_leb sat 2 rows t b idx); auto.
  - intros k Hk. destruct (C12_parent_idx row_leb sat 2 rows t b idx SC OK (le_n 2) H AM Eb) as [_ Y]. apply (Y k Hk).
  - apply (parent_idx_top row_leb 2 rows t OK Hn T AM CO b idx BF).
Qed.
Print Assumptions C16_dual_chain_surface_partial.

Example C16_example : exists t b idx, from_simplices lex_leb 2 [[0;1;2];[0;2;3];[0;3;4];[0;4;5];[0;5;1]] = Ok t /\
  at_most_two 2 [[0;1;2];[0;2;3];[0;3;4];[0;4;5];[0;5;1]] /\
  boundary lex_leb brute_sat t = Ok (Some (b, idx)) /\ is_oriented brute_sat b = Ok true.
Proof.
  eexists. eexists. eexists. split; [vm_compute; reflexivity|]. split; [two_mesh|]. split; vm_compute; reflexivity.
Qed.

(** Two tetrahedra glued along a triangle: the dual is not a chain complex, whatever the solver. *)
Definition adjacentb (n : nat) (rows : list simplex) (j1 j2 : nat) : bool :=
  negb (j1 =? j2) && (0 <? length (shareb n (nth j1 rows []) (nth j2 rows []))).
Fixpoint reach (n : nat) (rows : list simplex) (fuel : nat) (l : list nat) : list nat :=
  match fuel with
  | O => l
  | S f => reach n rows f (filter (fun j => existsb (fun i => (i =? j) || adjacentb n rows i j) l) (seq 0 (length rows)))
  end.
Definition connectedb (n : nat) (rows : list simplex) : bool :=
  forallb (fun j => existsb (Nat.eqb j) (reach n rows (length rows) [0])) (seq 0 (length rows)).

Lemma adjacentb_ok : forall n rows j1 j2, 1 <= n -> simplices_ok n rows -> j1 < length rows -> j2 < length rows ->
  adjacentb n rows j1 j2 = true -> adjacent n rows j1 j2.
Proof.
  intros n rows j1 j2 Hn [_ F] H1 H2 H. unfold adjacentb in H. apply andb_true_iff in H as [D H].
  apply negb_true_iff, Nat.eqb_neq in D. apply Nat.ltb_lt in H. rewrite Forall_forall in F.
  destruct (F _ (nth_In rows [] H1)) as [L1 N1]. destruct (F _ (nth_In rows [] H2)) as [L2 N2].
  assert (FO : forall s g, length s = S n -> NoDup s -> In g (faces_of n s) -> is_face (n - 1) g s).
  { intros s g L N Hg. apply in_map_iff in Hg as (c & <- & Hc). apply in_seq in Hc. split; [|split].
    - apply omit_nodup; auto.
    - rewrite omit_length by lia. lia.
    - apply omit_incl. }
  destruct (shareb n (nth j1 rows []) (nth j2 rows [])) as [|g l] eqn:E; [simpl in H; lia|].
  assert (I : In g (shareb n (nth j1 rows []) (nth j2 rows []))) by (rewrite E; left; auto).
  apply filter_In in I as [I1 I2]. apply existsb_exists in I2 as (g2 & Hg2 & SV). apply same_verts_iff in SV.
  split; auto. split; auto. split; auto. exists g. split; [apply FO; auto|].
  destruct (FO _ _ L2 N2 Hg2) as (A & B & C). split; [eapply Permutation_NoDup; [apply Permutation_sym; exact SV|auto]|].
  split; [rewrite (Permutation_length SV); auto|]. intros v Hv. apply C. eapply Permutation_in; [exact SV|auto].
Qed.

Lemma connectedb_ok : forall n rows, 1 <= n -> simplices_ok n rows -> connectedb n rows = true -> connected n rows.
Proof.
  intros n rows Hn OK H j Hj. unfold connectedb in H. rewrite forallb_forall in H.
  specialize (H j ltac:(apply in_seq; lia)). apply existsb_exists in H as (y & Hy & E). apply Nat.eqb_eq in E. subst y.
  assert (R : forall fuel l, (forall i, In i l -> i < length rows /\ linked n rows 0 i) ->
     forall i, In i (reach n rows fuel l) -> i < length rows /\ linked n rows 0 i).
  { induction fuel as [|fuel IH]; intros l Hl i Hi; simpl in Hi; auto. eapply IH; [|exact Hi]. clear i Hi.
    intros i Hi. apply filter_In in Hi as [Hi1 Hi2]. apply in_seq in Hi1. split; [lia|].
    apply existsb_exists in Hi2 as (k & Hk & E). destruct (Hl k Hk) as [Lk Kk]. apply orb_true_iff in E as [E|E].
    - apply Nat.eqb_eq in E. subst k. auto.
    - apply linked_step with k; auto. apply adjacentb_ok; auto. lia. }
  apply (R (length rows) [0]); auto. intros i [<-|[]]. split; [|constructor]. destruct OK as [Hne _].
  destruct rows; [congruence|simpl; lia].
Qed.

Definition two_tets_boundary : list simplex := Eval vm_compute in
  match from_simplices lex_leb 3 two_tets with
  | Ok t => match boundary lex_leb brute_sat t with Ok (Some (b, _)) => nth 2 (elements b) [] | _ => [] end
  | _ => [] end.
Definition tt3 : topology := Eval vm_compute in
  match from_simplices lex_leb 3 two_tets with Ok t => t | _ => mkTop [] [] [] end.
Definition tt3b : topology := Eval vm_compute in
  match boundary lex_leb brute_sat tt3 with Ok (Some (b, _)) => b | _ => mkTop [] [] [] end.
Definition tt3i : list (list nat) := Eval vm_compute in
  match boundary lex_leb brute_sat tt3 with Ok (Some (_, i)) => i | _ => [] end.

(** [boundary] uses the solver only through [is_oriented]. *)
Lemma boundary_sat_indep : forall row_leb sat sat' t, is_oriented sat t = Ok true -> is_oriented sat' t = Ok true ->
  boundary row_leb sat t = boundary row_leb sat' t.
Proof. intros row_leb sat sat' t H H'. unfold boundary. rewrite H, H'. reflexivity. Qed.

Theorem C16_dual_chain_3d_refuted : forall sat, sat_contract sat ->
  simplices_ok 3 two_tets /\ at_most_two 3 two_tets /\ consistent 3 two_tets /\
  exists t b idx D0 D1 D2, from_simplices lex_leb 3 two_tets = Ok t /\ is_oriented sat t = Ok true /\
    boundary lex_leb sat t = Ok (Some (b, idx)) /\ is_oriented sat b = Ok true /\
    dual lex_leb sat t = Ok [D0; D1; D2] /\
    (exists i j, i < nrows D0 /\ j < ncols D1 /\ product_entry D0 D1 i j <> 0%Z) /\
    (exists i j, i < nrows D1 /\ j < ncols D2 /\ product_entry D1 D2 i j <> 0%Z).
Proof.
  intros sat SC.
  assert (OK : simplices_ok 3 two_tets) by ok_mesh.
  assert (AM : at_most_two 3 two_tets) by two_mesh.
  assert (CO : consistent 3 two_tets) by (apply consistentb_ok; [lia|ok_mesh|reflexivity]).
  assert (OKb : simplices_ok 2 two_tets_boundary) by ok_mesh.
  assert (Et : from_simplices lex_leb 3 two_tets = Ok tt3) by (vm_compute; reflexivity).
  assert (Ot : is_oriented sat tt3 = Ok true).
  { apply (C55_is_oriented_complete lex_leb sat 3 two_tets); auto. apply connectedb_ok; auto; lia. }
  assert (Etb : from_simplices lex_leb 2 two_tets_boundary = Ok tt3b) by (vm_compute; reflexivity).
  assert (Ob : is_oriented sat tt3b = Ok true).
  { apply (C55_is_oriented_complete lex_leb sat 2 two_tets_boundary); auto.
    - apply at_most_twob_ok; auto; lia.
    - apply connectedb_ok; auto; lia.
    - apply consistentb_ok; auto; lia. }
  assert (EB : boundary lex_leb sat tt3 = boundary lex_leb brute_sat tt3).
  { apply boundary_sat_indep; auto. }
  assert (Eb : boundary lex_leb sat tt3 = Ok (Some (tt3b, tt3i))) by (rewrite EB; vm_compute; reflexivity).
  assert (ES : forall k, selector_boundary lex_leb sat tt3 k = selector_boundary lex_leb brute_sat tt3 k).
  { intros k. unfold selector_boundary, boundary_chain. rewrite EB. auto. }
  assert (ED : dual lex_leb sat tt3 = dual lex_leb brute_sat tt3).
  { unfold dual. rewrite Ot, EB. rewrite EB in Eb. rewrite Eb.
    replace (is_oriented brute_sat tt3) with (Ok true) by (vm_compute; reflexivity).
    cbn [bind negb]. rewrite Ob. replace (is_oriented brute_sat tt3b) with (Ok true) by (vm_compute; reflexivity).
    cbn [bind negb]. unfold dual_matrices. rewrite (map_ext _ _ ES). auto. }
  split; auto. split; auto. split; auto.
  exists tt3, tt3b, tt3i. eexists. eexists. eexists. split; auto. split; auto. split; auto. split; auto. split.
  { rewrite ED. vm_compute. reflexivity. }
  split.
  - exists 6, 6. vm_compute. repeat split; try lia; try discriminate.
  - exists 13, 2. vm_compute. repeat split; try lia; try discriminate.
Qed.
Print Assumptions C16_dual_chain_3d_refuted.
