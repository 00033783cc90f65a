(** Properties C04 - C09: construction of simplicial topologies. *)
Require Import List Arith ZArith Bool Lia Permutation.
From Verif Require Import Util CombModel CombSpec SimpModel SimpSpec ParProofs SimpProofs LevelProofs TopProofs.
Import ListNotations.

(** C04.  For every corner [c] the generated list contains the face omitting [c], oriented such that
    the plain sum over the generated faces is the alternating sum over omitted corners. *)
Theorem C04_simplex_boundary_oriented : forall n rows, 2 <= n ->
  Forall (fun s => length s = S n /\ NoDup s) rows ->
  exists fb, generate_simplex_boundary (S n) rows = Ok fb /\
    Forall2 (fun s fs => length fs = S n /\
       (forall c, c <= n -> Permutation (omit c s) (nth c fs [])) /\
       (forall f, antisymmetric f -> sumZ (map f fs) = alternating f s)) rows fb.
Proof.
  intros n rows Hn F. exists (full n rows). split; [apply generate_ok; auto|].
  unfold full. induction F as [|s rows [L ND] F IH]; cbn [map]; constructor; auto.
  split; [|split].
  - rewrite map_length, seq_length. auto.
  - intros c Hc. rewrite nth_map_seq by lia. apply facet_perm. lia.
  - intros f Hf. rewrite map_map. apply facet_sum; auto.
Qed.
Print Assumptions C04_simplex_boundary_oriented.

(** ... hence the boundary of the boundary vanishes. *)
Theorem C04_boundary_of_boundary : forall n rows fb fb2, 3 <= n ->
  Forall (fun s => length s = S n /\ NoDup s) rows ->
  generate_simplex_boundary (S n) rows = Ok fb ->
  generate_simplex_boundary n (concat fb) = Ok fb2 ->
  forall f, antisymmetric f -> sumZ (map f (concat fb2)) = 0%Z.
Proof.
  intros n rows fb fb2 Hn F E1 E2 f Hf.
  rewrite generate_ok in E1 by (auto; lia). injection E1 as <-.
  destruct n as [|n]; [lia|].
  assert (F2 : Forall (fun s => length s = S n /\ NoDup s) (concat (full (S n) rows))).
  { apply Forall_forall. intros x Hx. apply in_full in Hx as (s & c & Hs & Hc & ->).
    rewrite Forall_forall in F. destruct (F s Hs) as [L ND].
    split; [rewrite facet_length; lia|apply facet_nodup; auto; lia]. }
  rewrite generate_ok in E2 by (auto; lia). injection E2 as <-.
  unfold full at 1. rewrite concat_map, map_map.
  assert (HH : forall l, Forall (fun s => length s = S n /\ NoDup s) l ->
     sumZ (concat (map (fun s => map f (map (fun c => facet n c s) (seq 0 (S n)))) l)) = sumZ (map (alternating f) l)).
  { induction 1 as [|s l [L ND] Fl IH]; auto. cbn [map concat]. rewrite sumZ_app, IH.
    rewrite map_map, facet_sum by (auto; lia). reflexivity. }
  rewrite HH by auto.
  clear HH F2. unfold full. induction F as [|s rows [L ND] F IH]; auto.
  cbn [map concat]. rewrite map_app, sumZ_app, IH. rewrite map_map.
  rewrite (facet_sum (alternating f) (S n) s) by (auto; try lia; apply alternating_antisym; auto).
  rewrite alternating_alternating. reflexivity.
Qed.
Print Assumptions C04_boundary_of_boundary.

Theorem C04_one_simplices_fail : forall rows, rows <> [] -> Forall (fun s => length s = 2) rows ->
  generate_simplex_boundary 2 rows = Err IndexError.
Proof.
  intros rows Hne F. destruct rows as [|s rows]; [congruence|]. inversion F; subst.
  destruct s as [|a [|b [|]]]; simpl in *; try lia. reflexivity.
Qed.
Print Assumptions C04_one_simplices_fail.

Example C04_example : generate_simplex_boundary 4 [[0;1;2;3]] =
   Ok [[[1;2;3];[3;2;0];[3;0;1];[1;0;2]]]
  /\ (forall l, antisymmetric (fun s => rel_sign s l)).
Proof. split; [reflexivity|apply rel_sign_antisym]. Qed.

(** Numerical lexicographic order, used in the examples only. *)
Fixpoint lex_leb (a b : list nat) : bool :=
  match a, b with
  | [], _ => true
  | _, [] => false
  | x :: a', y :: b' => (x <? y) || ((x =? y) && lex_leb a' b')
  end.

(** Three tetrahedra with mixed orientation: the first two disagree on their shared face. *)
Definition three_tets : list simplex := [[0;1;2;3]; [3;2;1;4]; [0;1;5;2]].

(** C05 *)
Theorem C05_chain_complex : forall row_leb n rows t, simplices_ok n rows ->
  from_simplices row_leb n rows = Ok t ->
  forall k i j, S k < n -> product_entry (matrix t k) (matrix t (S k)) i j = 0%Z.
Proof.
  intros row_leb n rows t OK H. destruct (from_simplices_top_ok _ _ _ _ OK H) as [Hn T].
  intros. eapply chain_zero; eauto.
Qed.
Print Assumptions C05_chain_complex.

Lemma three_tets_ok : simplices_ok 3 three_tets.
Proof.
  split; [discriminate|]. repeat constructor; simpl; intuition discriminate.
Qed.
Example C05_example : exists t, from_simplices lex_leb 3 three_tets = Ok t /\
  n_elements t 1 = 12 /\ n_elements t 2 = 10 /\ length (triples (matrix t 1)) = 30 /\
  entry (matrix t 1) 0 0 <> 0%Z.
Proof. eexists. split; [vm_compute; reflexivity|]. repeat split; vm_compute; congruence. Qed.

(** C06 *)
Theorem C06_elements_are_faces : forall row_leb n rows t, simplices_ok n rows ->
  from_simplices row_leb n rows = Ok t ->
  forall k f, k <= n ->
    (exists e, In e (nth k (elements t) []) /\ Permutation e f) <->
    (exists s, In s rows /\ is_face k f s).
Proof.
  intros row_leb n rows t OK H. destruct (from_simplices_top_ok _ _ _ _ OK H) as [Hn T].
  intros k f Hk. apply (faces_complete n rows t Hn T (n - k)). lia.
Qed.
Print Assumptions C06_elements_are_faces.

Theorem C06_elements_unique : forall row_leb n rows t, simplices_ok n rows ->
  from_simplices row_leb n rows = Ok t ->
  forall k i i', k < n -> i < n_elements t k -> i' < n_elements t k ->
    Permutation (nth i (nth k (elements t) []) []) (nth i' (nth k (elements t) []) []) -> i = i'.
Proof.
  intros row_leb n rows t OK H. destruct (from_simplices_top_ok _ _ _ _ OK H) as [Hn T].
  intros. eapply faces_unique; eauto.
Qed.
Print Assumptions C06_elements_unique.

(** Every stored element is one of the oriented faces generated for a coface. *)
Theorem C06_elements_representatives : forall row_leb n rows t, simplices_ok n rows ->
  from_simplices row_leb n rows = Ok t ->
  nth n (elements t) [] = rows /\
  forall k e, 1 <= k < n -> In e (nth k (elements t) []) ->
   exists fb fs, generate_simplex_boundary (S (S k)) (nth (S k) (elements t) []) = Ok fb /\ In fs fb /\ In e fs.
Proof.
  intros row_leb n rows t OK H. destruct (from_simplices_top_ok _ _ _ _ OK H) as [Hn T].
  split; [apply (to_top _ _ _ T)|]. intros k e Hk He.
  apply In_nth with (d := []) in He as (i & Hi & <-).
  pose proof (to_rep _ _ _ T k Hk i Hi) as X. apply in_concat in X as (fs & H1 & H2).
  exists (full (S k) (nth (S k) (elements t) [])), fs. repeat split; auto.
  apply generate_ok; [lia|]. apply (to_ok _ _ _ T). lia.
Qed.
Print Assumptions C06_elements_representatives.

Example C06_example : exists t, from_simplices lex_leb 3 three_tets = Ok t /\
  nth 2 (elements t) [] = [[1;0;2];[3;0;1];[1;0;5];[3;2;0];[2;5;0];[1;2;3];[2;1;4];[1;5;2];[4;1;3];[4;3;2]].
Proof. eexists. split; vm_compute; reflexivity. Qed.

(** C07 *)
Theorem C07_entries : forall row_leb n rows t, simplices_ok n rows ->
  from_simplices row_leb n rows = Ok t ->
  forall k i j, k < n -> i < n_elements t k -> j < n_elements t (S k) ->
  let f := nth i (nth k (elements t) []) [] in
  let s := nth j (nth (S k) (elements t) []) [] in
  (incl f s -> entry (matrix t k) i j = 1%Z \/ entry (matrix t k) i j = (-1)%Z) /\
  (~ incl f s -> entry (matrix t k) i j = 0%Z).
Proof.
  intros row_leb n rows t OK H. destruct (from_simplices_top_ok _ _ _ _ OK H) as [Hn T].
  intros. eapply entry_values; eauto.
Qed.
Print Assumptions C07_entries.

(** The sign is that of the classical incidence number, up to one global sign per dimension. *)
Theorem C07_entries_signed : forall row_leb n rows t, simplices_ok n rows ->
  from_simplices row_leb n rows = Ok t ->
  forall k i j, k < n -> i < n_elements t k -> j < n_elements t (S k) ->
  entry (matrix t k) i j =
   ((if (k =? 0)%nat then 1 else -1) *
    incidence_number (nth i (nth k (elements t) []) []) (nth j (nth (S k) (elements t) []) []))%Z.
Proof.
  intros row_leb n rows t OK H. destruct (from_simplices_top_ok _ _ _ _ OK H) as [Hn T].
  intros k i j Hk Hi Hj. rewrite (matrix_entry_gen n rows t Hn T) by auto.
  apply Nat.ltb_lt in Hj. rewrite Hj. reflexivity.
Qed.
Print Assumptions C07_entries_signed.

Theorem C07_shape_and_column_count : forall row_leb n rows t, simplices_ok n rows ->
  from_simplices row_leb n rows = Ok t ->
  forall k, k < n ->
    nrows (matrix t k) = n_elements t k /\ ncols (matrix t k) = n_elements t (S k) /\
    forall j, j < n_elements t (S k) ->
      length (filter (fun i => negb (entry (matrix t k) i j =? 0)%Z) (seq 0 (n_elements t k))) = k + 2.
Proof.
  intros row_leb n rows t OK H. destruct (from_simplices_top_ok _ _ _ _ OK H) as [Hn T].
  intros k Hk. destruct (matrix_shape n rows t Hn T k Hk). repeat split; auto.
  intros j Hj. rewrite (column_count n rows t Hn T) by auto. lia.
Qed.
Print Assumptions C07_shape_and_column_count.

Example C07_example : exists t, from_simplices lex_leb 3 three_tets = Ok t /\
  map (fun i => entry (matrix t 2) i 0) (seq 0 10) = [-1;-1;0;-1;0;-1;0;0;0;0]%Z /\
  map (fun i => entry (matrix t 2) i 1) (seq 0 10) = [0;0;0;0;0;-1;-1;0;-1;-1]%Z /\
  map (fun i => entry (matrix t 2) i 2) (seq 0 10) = [1;0;-1;0;-1;0;0;-1;0;0]%Z.
Proof. eexists. split; [vm_compute; reflexivity|]. repeat split; vm_compute; reflexivity. Qed.

(** C08 *)
Theorem C08_cancel_iff_consistent : forall row_leb n rows t, simplices_ok n rows ->
  from_simplices row_leb n rows = Ok t ->
  forall i j1 j2, i < n_elements t (n - 1) -> j1 <> j2 -> j1 < length rows -> j2 < length rows ->
  let f := nth i (nth (n - 1) (elements t) []) [] in
  (forall j, j < length rows -> incl f (nth j rows []) <-> (j = j1 \/ j = j2)) ->
  (sumZ (map (fun j => entry (matrix t (n - 1)) i j) (seq 0 (length rows))) = 0%Z <->
   incidence_number f (nth j1 rows []) = (- incidence_number f (nth j2 rows []))%Z).
Proof.
  intros row_leb n rows t OK H. destruct (from_simplices_top_ok _ _ _ _ OK H) as [Hn T].
  intros. eapply two_cofaces_row_sum; eauto.
Qed.
Print Assumptions C08_cancel_iff_consistent.

(** In [three_tets] the first two tetrahedra disagree on their shared face, the first and third agree. *)
Example C08_example : exists t, from_simplices lex_leb 3 three_tets = Ok t /\
  sumZ (map (fun j => entry (matrix t 2) 5 j) (seq 0 3)) = (-2)%Z /\
  sumZ (map (fun j => entry (matrix t 2) 0 j) (seq 0 3)) = 0%Z /\
  incidence_number [1;2;3] [0;1;2;3] = 1%Z /\ incidence_number [1;2;3] [3;2;1;4] = 1%Z /\
  incidence_number [1;0;2] [0;1;2;3] = 1%Z /\ incidence_number [1;0;2] [0;1;5;2] = (-1)%Z.
Proof. eexists. split; [vm_compute; reflexivity|]. repeat split; vm_compute; reflexivity. Qed.

(** C09 *)
Theorem C09_accepts_iff_contiguous : forall row_leb n rows, 1 <= n -> simplices_ok n rows ->
  ((exists t, from_simplices row_leb n rows = Ok t) <-> (exists m, forall v, In v (concat rows) <-> v < m)) /\
  (forall e, from_simplices row_leb n rows = Err e -> e = ValueError).
Proof.
  intros row_leb n rows Hn OK. destruct (from_simplices_cases row_leb n rows Hn OK) as [H1 H2].
  split; [split|].
  - intros (t & H). destruct (from_simplices_top_ok _ _ _ _ OK H) as [_ T]. apply (to_contig _ _ _ T).
  - intros C. destruct (H1 C) as (t & H & _). eauto.
  - intros e He.
    destruct (list_eq_dec Nat.eq_dec (unique_nat (concat rows)) (seq 0 (length (unique_nat (concat rows))))) as [C|C].
    + apply unique_nat_contiguous in C. destruct (H1 C) as (t & H & _). congruence.
    + rewrite H2 in He; [congruence|]. intros C'. apply C. apply unique_nat_contiguous; auto.
Qed.
Print Assumptions C09_accepts_iff_contiguous.

Example C09_example : from_simplices lex_leb 2 [[0;1;3]] = Err ValueError
  /\ (exists t, from_simplices lex_leb 2 [[2;0;1]] = Ok t).
Proof. split; [vm_compute; reflexivity|eexists; vm_compute; reflexivity]. Qed.
