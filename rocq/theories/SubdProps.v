(** Properties C20 - C25 and C60: subdivisions of simplicial topologies. *)
Require Import List Arith ZArith Bool Lia Permutation Factorial.
From Verif Require Import Util CombModel CombSpec CombProofs SimpModel SimpSpec ParProofs SimpProofs LevelProofs TopProofs SimpProps
  BdryModel BdrySpec OrientProofs SubProofs BdryProps SubdModel SubdSpec FundProofs BaryProofs BarySub InsProofs LoopProofs LoopTransfer DirectProofs.
Import ListNotations.
Local Open Scope nat_scope.

(** Two consistently oriented triangles, and three tetrahedra of which the first two are consistent. *)
Definition two_triangles : list simplex := [[0; 1; 2]; [2; 1; 3]].
Definition two_tets : list simplex := [[0; 1; 2; 3]; [1; 2; 3; 4]].

(** C20.  The domains come in blocks of (n+1)! per simplex, and the block of simplex [j] consists of exactly the
    flags with top element [j], each once. *)
Theorem C20_domains_are_flags : forall row_leb n rows t, simplices_ok n rows -> from_simplices row_leb n rows = Ok t ->
  exists dom, fundamental_domains t = Ok dom /\ length dom = length rows * fact (S n) /\ NoDup dom /\
    (forall p, p < length dom -> is_flag n t (p / fact (S n)) (nth p dom [])) /\
    (forall j fl, j < length rows -> is_flag n t j fl -> exists p, p < length dom /\ nth p dom [] = fl /\ p / fact (S n) = j).
Proof.
  intros row_leb n rows t OK H. destruct (from_simplices_top_ok _ _ _ _ OK H) as [Hn T]. exists (D n rows t).
  split; [apply fundamental_domains_ok; auto|]. split; [apply (D_length n rows t Hn T)|]. split; [apply (D_nodup n rows t Hn T)|]. split.
  - intros p Hp. apply (D_order n rows t Hn T p Hp).
  - intros j fl Hj F. assert (I : In fl (D n rows t)) by (apply (D_in n rows t Hn T); eauto). apply In_nth with (d := []) in I as (p & Hp & E). exists p. split; auto. split; auto.
    destruct (D_order n rows t Hn T p Hp) as ((_ & Q & _) & _). rewrite E in Q. destruct F as (_ & Q' & _). unfold total in Q. congruence.
Qed.
Print Assumptions C20_domains_are_flags.

Example C20_example : exists t, from_simplices lex_leb 2 two_triangles = Ok t /\
  fundamental_domains t = Ok [[1;2;0];[2;2;0];[2;1;0];[0;1;0];[0;0;0];[1;0;0];[1;3;1];[3;3;1];[3;4;1];[2;4;1];[2;2;1];[1;2;1]] /\
  is_flag 2 t 1 [3;4;1].
Proof.
  eexists. split; [vm_compute; reflexivity|]. split; [vm_compute; reflexivity|]. repeat split.
  - intros [|[|[|]]]; cbn; lia.
  - intros [|[|]] H; cbn; try lia; intros x; simpl; tauto.
Qed.

(** C21.  The barycentric subdivision succeeds, has (n+1)! simplices per simplex and one vertex per element, and
    is consistently oriented if and only if the parent is. *)
Theorem C21_barycentric_orientation : forall row_leb n rows t, simplices_ok n rows -> from_simplices row_leb n rows = Ok t ->
  exists sub, subdivide_fundamental row_leb t true = Ok sub /\
    n_elements sub n = length rows * fact (S n) /\ n_elements sub 0 = list_sum (map (n_elements t) (seq 0 (S n))) /\
    (consistent n rows <-> consistent n (nth n (elements sub) [])).
Proof.
  intros row_leb n rows t OK H. destruct (from_simplices_top_ok _ _ _ _ OK H) as [Hn T]. destruct (sub_ok n rows t Hn T true) as [OK' V].
  destruct (proj1 (from_simplices_cases row_leb n _ Hn OK') (ex_intro _ _ V)) as (s & E & T'). exists s.
  split; [|split; [|split]].
  - unfold subdivide_fundamental. rewrite (fundamental_domains_ok n rows t Hn T). cbn [bind]. rewrite (top_n_dim n rows t T). exact E.
  - unfold n_elements. rewrite (to_top _ _ _ T'). apply sub_length; auto.
  - pose proof (to_vused _ _ _ T') as U. change (list_sum (map (n_elements t) (seq 0 (S n)))) with (offset t (S n)).
    destruct (Nat.lt_trichotomy (n_elements s 0) (offset t (S n))) as [Q|[Q|Q]]; auto; exfalso; [apply V, U in Q|apply U, V in Q]; lia.
  - rewrite (to_top _ _ _ T'). apply sub_consistent; auto.
Qed.
Print Assumptions C21_barycentric_orientation.

(** Without reorientation, any two children that share a facet induce the same orientation on it (the mirrored
    children are oppositely oriented). *)
Theorem C21_unoriented_opposing : forall row_leb n rows t, simplices_ok n rows -> from_simplices row_leb n rows = Ok t ->
  exists sub, subdivide_fundamental row_leb t false = Ok sub /\ n_elements sub n = length rows * fact (S n) /\
    forall p p' f, p < n_elements sub n -> p' < n_elements sub n ->
      is_face (n - 1) f (element sub n p) -> is_face (n - 1) f (element sub n p') ->
      incidence_number f (element sub n p) = incidence_number f (element sub n p').
Proof.
  intros row_leb n rows t OK H. destruct (from_simplices_top_ok _ _ _ _ OK H) as [Hn T]. destruct (sub_ok n rows t Hn T false) as [OK' V].
  destruct (proj1 (from_simplices_cases row_leb n _ Hn OK') (ex_intro _ _ V)) as (s & E & T'). exists s.
  assert (L : n_elements s n = length rows * fact (S n)) by (unfold n_elements; rewrite (to_top _ _ _ T'); apply sub_length; auto).
  split; [|split; auto].
  - unfold subdivide_fundamental. rewrite (fundamental_domains_ok n rows t Hn T). cbn [bind]. rewrite (top_n_dim n rows t T). exact E.
  - intros p p' f Hp Hp' F F'. unfold element in *. rewrite (to_top _ _ _ T') in *. rewrite L in Hp, Hp'.
    destruct (facet_label n rows t Hn T false false p p' f) as (k & x & _ & _ & _ & E1 & E2); auto; try (rewrite (D_length n rows t Hn T); auto). rewrite E1, E2. reflexivity.
Qed.
Print Assumptions C21_unoriented_opposing.

Example C21_example : consistent 2 two_triangles /\ (do t <- from_simplices lex_leb 2 two_triangles; do s <- subdivide_fundamental lex_leb t true; Ok (nth 2 (elements s) [])) =
  Ok [[1;6;9];[2;9;6];[2;5;9];[0;9;5];[0;4;9];[1;9;4];[1;7;10];[3;10;7];[3;8;10];[2;10;8];[2;6;10];[1;10;6]].
Proof. split; [apply consistentb_ok; [lia|ok_mesh|vm_compute; reflexivity]|vm_compute; reflexivity]. Qed.

(** C22.  Inserting a vertex in every n-simplex, n >= 2: the mesh gets n+1 children per simplex, child [c] joins
    the new vertex to the face without corner [c], and the oriented boundary of the children is (-1)^n times that
    of the parent; in particular all faces containing the new vertex cancel. *)
Theorem C22_vertex_insertion : forall row_leb n rows t, simplices_ok n rows -> from_simplices row_leb n rows = Ok t -> 2 <= n ->
  exists sub, subdivide_simplicial row_leb t = Ok sub /\
    n_elements sub n = length rows * S n /\ n_elements sub 0 = n_elements t 0 + length rows /\
    (forall j c, j < length rows -> c <= n -> Permutation (element sub n (j * S n + c)) (n_elements t 0 + j :: omit c (nth j rows []))) /\
    (forall j f, j < length rows -> sumZ (map (fun c => incidence_number f (element sub n (j * S n + c))) (seq 0 (S n))) = (sgn_pow n * incidence_number f (nth j rows []))%Z) /\
    (forall j f, j < length rows -> NoDup f -> length f = n -> In (n_elements t 0 + j) f -> sumZ (map (fun c => incidence_number f (element sub n (j * S n + c))) (seq 0 (S n))) = 0%Z) /\
    (consistent n rows <-> consistent n (nth n (elements sub) [])).
Proof.
  intros row_leb n rows t OK H H2. destruct (from_simplices_top_ok _ _ _ _ OK H) as [Hn T]. destruct (ins_ok n rows t H2 T) as [OK' V].
  destruct (proj1 (from_simplices_cases row_leb n _ Hn OK') (ex_intro _ _ V)) as (s & E & T'). exists s.
  assert (EL : forall j c, j < length rows -> c <= n -> element s n (j * S n + c) = child n rows t j c). { intros j c Hj Hc. unfold element. rewrite (to_top _ _ _ T'). apply ins_at; auto. }
  assert (SM : forall j f, j < length rows -> sumZ (map (fun c => incidence_number f (element s n (j * S n + c))) (seq 0 (S n))) = (sgn_pow n * incidence_number f (nth j rows []))%Z).
  { intros j f Hj. rewrite <- (children_boundary n rows t H2 T) by auto. apply sumZ_map_ext. intros c Hc. apply in_seq in Hc. rewrite EL by lia. auto. }
  split; [|split; [|split; [|split; [|split; [|split]]]]]; auto.
  - unfold subdivide_simplicial. rewrite (top_n_dim n rows t T), (to_top _ _ _ T). destruct (insertion_ok n rows t H2 T) as (fb & -> & EI). cbn [bind]. rewrite EI. exact E.
  - unfold n_elements. rewrite (to_top _ _ _ T'). apply ins_length; auto.
  - pose proof (to_vused _ _ _ T') as U. destruct (Nat.lt_trichotomy (n_elements s 0) (n_elements t 0 + length rows)) as [Q|[Q|Q]]; auto; exfalso; [apply V, U in Q|apply U, V in Q]; lia.
  - intros j c Hj Hc. rewrite EL by auto. rewrite Nat.add_comm. apply child_facts; auto.
  - intros j f Hj ND L I. rewrite SM by auto. destruct (row_facts n rows t H2 T j Hj) as (Lr & NDr & B).
    assert (Z : incidence_number f (nth j rows []) = 0%Z). { apply incidence_values; auto; [lia|]. intros X. apply X in I. apply B in I. lia. } rewrite Z. ring.
  - rewrite (to_top _ _ _ T'). apply ins_consistent; auto.
Qed.
Print Assumptions C22_vertex_insertion.

(** For curves the call fails: edges have no generated faces. *)
Theorem C22_curves_fail : forall row_leb rows t, simplices_ok 1 rows -> from_simplices row_leb 1 rows = Ok t -> subdivide_simplicial row_leb t = Err IndexError.
Proof.
  intros row_leb rows t OK H. destruct (from_simplices_top_ok _ _ _ _ OK H) as [Hn T]. unfold subdivide_simplicial. rewrite (top_n_dim 1 rows t T), (to_top _ _ _ T).
  destruct OK as [NE F]. rewrite C04_one_simplices_fail; auto. eapply Forall_impl; [|exact F]. intros a [L _]. auto.
Qed.
Print Assumptions C22_curves_fail.

Example C22_example : (do t <- from_simplices lex_leb 3 two_tets; do s <- subdivide_simplicial lex_leb t; Ok (nth 3 (elements s) [])) =
  Ok [[1;2;3;5];[3;2;0;5];[3;0;1;5];[1;0;2;5];[2;3;4;6];[4;3;1;6];[4;1;2;6];[2;1;3;6]].
Proof. vm_compute. reflexivity. Qed.

(** C23.  Loop subdivision of a triangular mesh: four children per triangle on the vertices and edges of the
    parent; the oriented boundary of the four children is the parent boundary with every edge a -> b replaced by
    a -> m -> b, where m is the vertex of that edge.  Orientation is preserved, both ways, provided no two
    triangles have the same corners. *)
Theorem C23_loop_subdivision : forall row_leb rows t, simplices_ok 2 rows -> from_simplices row_leb 2 rows = Ok t ->
  exists fine ms, subdivide_loop row_leb t = Ok (fine, ms) /\
    n_elements fine 2 = 4 * length rows /\ n_elements fine 0 = n_elements t 0 + n_elements t 1 /\
    (forall p, p < n_elements fine 2 -> length (element fine 2 p) = 3 /\ NoDup (element fine 2 p)) /\
    (forall j a b c, nth_error rows j = Some [a; b; c] -> exists ab bc ca,
       edge_vertex t a b ab /\ edge_vertex t b c bc /\ edge_vertex t c a ca /\
       map (fun k => element fine 2 (4 * j + k)) (seq 0 4) = [[bc; ca; ab]; [a; ab; ca]; [b; bc; ab]; [c; ca; bc]] /\
       forall f, antisymmetric f -> sumZ (map (fun k => alternating f (element fine 2 (4 * j + k))) (seq 0 4)) =
         (f [a; ab] + f [ab; b] + (f [b; bc] + f [bc; c]) + (f [c; ca] + f [ca; a]))%Z) /\
    ((forall j j', j < length rows -> j' < length rows -> Permutation (nth j rows []) (nth j' rows []) -> j = j') ->
       (consistent 2 rows <-> consistent 2 (nth 2 (elements fine) []))).
Proof.
  intros row_leb rows t OK H. destruct (from_simplices_top_ok _ _ _ _ OK H) as [Hn T]. destruct (loop_ok rows t T) as [OK' V].
  destruct (proj1 (from_simplices_cases row_leb 2 _ ltac:(lia) OK') (ex_intro _ _ V)) as (s & E & T'). destruct (loop_transfer_ok rows t s T T') as (m0 & m1 & m2 & EM & _). exists s, [m0; m1; m2].
  destruct (fine_sizes rows t s T T') as [S0 S2].
  assert (EL : forall j k, j < length rows -> k < 4 -> element s 2 (4 * j + k) = kid rows t j k). { intros j k Hj Hk. unfold element. rewrite (to_top _ _ _ T'). replace (4 * j + k) with (j * 4 + k) by lia. apply loop_at; auto. }
  split; [|split; [lia|split; [auto|split; [|split]]]].
  - unfold subdivide_loop. rewrite (loop_rows_ok rows t T), E. cbn [bind]. rewrite EM. reflexivity.
  - intros p Hp. destruct OK' as [_ F]. rewrite Forall_forall in F. unfold element, n_elements in *. rewrite (to_top _ _ _ T') in *. destruct (F _ (nth_In _ [] Hp)). auto.
  - intros j a b c Ej. assert (Hj : j < length rows) by (apply nth_error_Some; congruence). destruct (tri_ex rows t T j Hj) as (v0 & v1 & v2 & e0 & e1 & e2 & HT).
    pose proof (t_row _ _ _ _ _ _ _ _ _ HT) as R. rewrite (nth_error_nth _ _ [] Ej) in R. injection R as <- <- <-. destruct (t_e _ _ _ _ _ _ _ _ _ HT) as (B0 & B1 & B2).
    exists (e2 + n_elements t 0), (e0 + n_elements t 0), (e1 + n_elements t 0).
    split; [exists e2; split; auto; split; [apply (t_e2 _ _ _ _ _ _ _ _ _ HT)|lia]|]. split; [exists e0; split; auto; split; [apply (t_e0 _ _ _ _ _ _ _ _ _ HT)|lia]|]. split; [exists e1; split; auto; split; [apply (t_e1 _ _ _ _ _ _ _ _ _ HT)|lia]|].
    split; [cbn [map seq]; rewrite !EL by lia; unfold kid; rewrite (kid_eq _ _ _ _ _ _ _ _ _ HT); reflexivity|].
    intros f Hf. pose proof (kids_boundary rows t f j _ _ _ _ _ _ HT Hf) as Q. rewrite map_map in Q. rewrite (sumZ_map_ext _ _ (fun k => alternating f (element s 2 (4 * j + k)))) in Q by (intros k Hk; apply in_seq in Hk; rewrite EL by lia; auto). rewrite Q. ring.
  - intros DT. rewrite (to_top _ _ _ T'). apply loop_consistent; auto.
Qed.
Print Assumptions C23_loop_subdivision.

(** The side condition is needed: on a pillow of two triangles glued along all edges the parent is consistently
    oriented and the subdivision is not. *)
Example C23_pillow : consistent 2 [[0; 1; 2]; [1; 0; 2]] /\
  exists fine ms, (do t <- from_simplices lex_leb 2 [[0; 1; 2]; [1; 0; 2]]; subdivide_loop lex_leb t) = Ok (fine, ms) /\ ~ consistent 2 (nth 2 (elements fine) []).
Proof.
  split; [apply consistentb_ok; [lia|ok_mesh|vm_compute; reflexivity]|].
  eexists _, _. split; [vm_compute; reflexivity|]. cbn [nth elements]. intros C.
  specialize (C 0 6 ltac:(simpl; lia) ltac:(simpl; lia) ltac:(lia) [3; 4] ltac:(face_wit) ltac:(face_wit)). vm_compute in C. discriminate.
Qed.
Example C23_example : (do t <- from_simplices lex_leb 2 two_triangles; do '(f, ms) <- subdivide_loop lex_leb t; Ok (nth 2 (elements f) [], n_elements f 0)) =
  Ok ([[6;5;4];[0;4;5];[1;6;4];[2;5;6];[7;8;6];[2;6;8];[1;7;6];[3;8;7]], 9).
Proof. vm_compute. reflexivity. Qed.

(** C60.  The transfer matrices of the loop subdivision: a coarse vertex goes to itself, a coarse edge to the two
    halves it is split into and to nothing else, a coarse triangle to its four children. *)
Theorem C60_loop_transfer : forall row_leb rows t fine ms, simplices_ok 2 rows -> from_simplices row_leb 2 rows = Ok t ->
  subdivide_loop row_leb t = Ok (fine, ms) ->
  exists m0 m1 m2, ms = [m0; m1; m2] /\
    (nrows m0 = n_elements fine 0 /\ ncols m0 = n_elements t 0) /\ (nrows m1 = n_elements fine 1 /\ ncols m1 = n_elements t 1) /\ (nrows m2 = n_elements fine 2 /\ ncols m2 = n_elements t 2) /\
    (forall i v, v < n_elements t 0 -> entry m0 i v = if i =? v then 1%Z else 0%Z) /\
    (forall i e, i < n_elements fine 1 -> e < n_elements t 1 ->
        let half := exists v, In v (element t 1 e) /\ Permutation (element fine 1 i) [v; n_elements t 0 + e] in
        (half -> entry m1 i e = 1%Z) /\ (~ half -> entry m1 i e = 0%Z)) /\
    (forall e v, e < n_elements t 1 -> In v (element t 1 e) -> exists i, i < n_elements fine 1 /\ Permutation (element fine 1 i) [v; n_elements t 0 + e]) /\
    (forall i j, i < n_elements fine 2 -> entry m2 i j = if i / 4 =? j then 1%Z else 0%Z).
Proof.
  intros row_leb rows t fine ms OK H HS. destruct (from_simplices_top_ok _ _ _ _ OK H) as [Hn T]. destruct (loop_ok rows t T) as [OK' V].
  destruct (proj1 (from_simplices_cases row_leb 2 _ ltac:(lia) OK') (ex_intro _ _ V)) as (s & E & T'). destruct (loop_transfer_ok rows t s T T') as (m0 & m1 & m2 & EM & R0 & R1 & R2 & A0 & A1 & A2).
  unfold subdivide_loop in HS. rewrite (loop_rows_ok rows t T), E in HS. cbn [bind] in HS. rewrite EM in HS. injection HS as <- <-.
  exists m0, m1, m2. split; auto. split; auto. split; auto. split; auto. split; [|split; [|split]]; auto.
  - intros i v Hv. rewrite A0. rewrite (proj2 (Nat.ltb_lt _ _) Hv), andb_true_r. auto.
  - intros i e Hi He half. destruct (A1 i e Hi He) as [X Y]. assert (Q : half <-> is_half t s i e) by (unfold half, is_half; rewrite Nat.add_comm; reflexivity). rewrite Q. auto.
  - intros e v He Hv. rewrite Nat.add_comm. apply (half_exists rows t s T T'); auto.
Qed.
Print Assumptions C60_loop_transfer.

Example C60_example : (do t <- from_simplices lex_leb 2 two_triangles; do '(f, ms) <- subdivide_loop lex_leb t;
   Ok (n_elements f 1, map (fun i => map (fun e => entry (nth 1 ms (mkCoo 0 0 [])) i e) (seq 0 5)) (seq 0 4), nth 2 (nth 1 (elements f) []) [], nth 0 (nth 1 (elements t) []) [])) =
  Ok (16, [[1;0;0;0;0]; [0;1;0;0;0]; [1;0;0;0;0]; [0;0;1;0;0]]%Z, [4; 1], [0; 1]).
Proof. vm_compute. reflexivity. Qed.

(** C24, the part that holds.  For a surface stored with the positive sign convention the direct subdivision is a
    chain complex; otherwise it is not. *)
Theorem C24_direct_chain_partial : forall t kappa, surface t kappa ->
  exists fine ms, subdivide_loop_direct t = Ok (fine, ms) /\
    ((forall i p, product_entry (matrix fine 0) (matrix fine 1) i p = 0%Z) <-> kappa = 1%Z).
Proof.
  intros t kappa S. destruct (direct_ok t kappa S) as (m0 & m1 & m2 & E & _). exists (dtop t), [m0; m1; m2]. split; auto. apply direct_chain_iff; auto.
Qed.
Print Assumptions C24_direct_chain_partial.

(** Every mesh from [from_simplices] satisfies the hypothesis after its face signs are negated ... *)
Theorem C24_direct_chain_negated_partial : forall row_leb rows t, simplices_ok 2 rows -> from_simplices row_leb 2 rows = Ok t ->
  let neg := mkTop (elements t) (boundary_idx t) [nth 0 (orientation t) []; map (map Z.opp) (nth 1 (orientation t) [])] in
  exists fine ms, subdivide_loop_direct neg = Ok (fine, ms) /\ forall i p, product_entry (matrix fine 0) (matrix fine 1) i p = 0%Z.
Proof.
  intros row_leb rows t OK H neg. destruct (from_simplices_top_ok _ _ _ _ OK H) as [Hn T]. destruct (C24_direct_chain_partial neg 1 (surface_flip rows t T)) as (fine & ms & E & Q). exists fine, ms. split; auto. apply Q. reflexivity.
Qed.
Print Assumptions C24_direct_chain_negated_partial.

(** ... but as [from_simplices] stores them the property fails for every mesh. *)
Theorem C24_direct_chain_refuted : forall row_leb rows t, simplices_ok 2 rows -> from_simplices row_leb 2 rows = Ok t ->
  (forall i p, product_entry (matrix t 0) (matrix t 1) i p = 0%Z) /\
  exists fine ms, subdivide_loop_direct t = Ok (fine, ms) /\ ~ (forall i p, product_entry (matrix fine 0) (matrix fine 1) i p = 0%Z).
Proof.
  intros row_leb rows t OK H. split; [intros; apply (C05_chain_complex row_leb 2 rows); auto|]. destruct (from_simplices_top_ok _ _ _ _ OK H) as [Hn T]. destruct (C24_direct_chain_partial t (-1) (surface_from rows t T)) as (fine & ms & E & Q). exists fine, ms. split; auto. intros X. apply Q in X. discriminate.
Qed.
Print Assumptions C24_direct_chain_refuted.

Example C24_example : (do t <- from_simplices lex_leb 2 [[0; 1; 2]]; do '(f, ms) <- subdivide_loop_direct t; Ok (map (fun i => product_entry (matrix f 0) (matrix f 1) i 1) (seq 0 6))) = Ok [0; 0; 0; -2; 2; 0]%Z.
Proof. vm_compute. reflexivity. Qed.

(** C25.  The corners listed for the children of triangle [j] are right exactly if its row of edges is the row of
    the first triangle. *)
Theorem C25_direct_corners_partial : forall t kappa j, surface t kappa -> j < n_elements t 2 ->
  exists fine ms, subdivide_loop_direct t = Ok (fine, ms) /\
    ((forall k, k < 4 -> corners_match fine (j * 4 + k)) <-> nth j (nth 1 (boundary_idx t) []) [] = nth 0 (nth 1 (boundary_idx t) []) []).
Proof.
  intros t kappa j S Hj. destruct (direct_ok t kappa S) as (m0 & m1 & m2 & E & _). exists (dtop t), [m0; m1; m2]. split; auto. apply (corners_iff t kappa); auto.
Qed.
Print Assumptions C25_direct_corners_partial.

(** Hence the property fails for every mesh from [from_simplices] with two different triangles. *)
Theorem C25_direct_corners_refuted : forall row_leb rows t j, simplices_ok 2 rows -> from_simplices row_leb 2 rows = Ok t ->
  j < length rows -> nth j rows [] <> nth 0 rows [] ->
  exists fine ms, subdivide_loop_direct t = Ok (fine, ms) /\ n_elements fine 2 = 4 * length rows /\ ~ (forall p, p < n_elements fine 2 -> corners_match fine p).
Proof.
  intros row_leb rows t j OK H Hj Hne. destruct (from_simplices_top_ok _ _ _ _ OK H) as [Hn T].
  assert (N2 : n_elements t 2 = length rows) by (unfold n_elements; rewrite (to_top _ _ _ T); auto).
  destruct (C25_direct_corners_partial t (-1) j (surface_from rows t T) ltac:(lia)) as (fine & ms & E & Q). exists fine, ms. split; auto.
  destruct (direct_ok t (-1) (surface_from rows t T)) as (m0 & m1 & m2 & E' & _). rewrite E in E'. injection E' as -> ->.
  assert (L : n_elements (dtop t) 2 = 4 * length rows) by (unfold n_elements at 1; cbn [dtop elements nth]; rewrite dE20_length; lia). split; auto.
  intros X. apply Hne. apply (same_edges rows t T); auto; [lia|]. apply Q. intros k Hk. apply X. lia.
Qed.
Print Assumptions C25_direct_corners_refuted.

(** The transfer matrices of the direct subdivision. *)
Theorem C60_direct_transfer : forall t kappa, surface t kappa ->
  exists fine m0 m1 m2, subdivide_loop_direct t = Ok (fine, [m0; m1; m2]) /\
    n_elements fine 0 = n_elements t 0 + n_elements t 1 /\ n_elements fine 1 = 2 * n_elements t 1 + 3 * n_elements t 2 /\ n_elements fine 2 = 4 * n_elements t 2 /\
    (forall i v, v < n_elements t 0 -> entry m0 i v = if i =? v then 1%Z else 0%Z) /\
    (forall i e, e < n_elements t 1 -> entry m1 i e = if i / 2 =? e then 1%Z else 0%Z) /\
    (forall e b, e < n_elements t 1 -> b < 2 -> exists v, In v (nth e (nth 0 (boundary_idx t) []) []) /\ Permutation (element fine 1 (2 * e + b)) [v; n_elements t 0 + e]) /\
    (forall i j, i < n_elements fine 2 -> entry m2 i j = if i / 4 =? j then 1%Z else 0%Z).
Proof.
  intros t kappa S. destruct (direct_ok t kappa S) as (m0 & m1 & m2 & E & _ & _ & _ & A0 & A1 & A2). exists (dtop t), m0, m1, m2. split; auto.
  split; [unfold n_elements at 1; cbn [dtop elements nth]; rewrite map_length, seq_length; auto|]. split; [unfold n_elements at 1; cbn [dtop elements nth]; rewrite (dE10_length t kappa S); lia|].
  assert (L2 : n_elements (dtop t) 2 = n_elements t 2 * 4) by (unfold n_elements at 1; cbn [dtop elements nth]; apply dE20_length). split; [lia|].
  split; [intros i v Hv; rewrite A0; rewrite (proj2 (Nat.ltb_lt _ _) Hv), andb_true_r; auto|]. split; auto. split.
  - intros e b He Hb. destruct (sf_edge _ _ S e He) as (x & y & s & Ee & _). unfold element. cbn [dtop elements nth]. replace (2 * e + b) with (e * 2 + b) by lia. rewrite (proj1 (half_row t kappa S e b He Hb)), Ee, (Nat.add_comm (n_elements t 0)).
    destruct b as [|[|]]; try lia; cbn; [exists x|exists y]; (split; [simpl; auto|]); auto. apply perm_swap.
  - intros i j Hi. apply A2. lia.
Qed.
Print Assumptions C60_direct_transfer.

Example C25_example : exists t fine ms, from_simplices lex_leb 2 two_triangles = Ok t /\ subdivide_loop_direct t = Ok (fine, ms) /\
  map (element fine 2) (seq 0 8) = [[6; 5; 4]; [0; 4; 5]; [1; 6; 4]; [2; 5; 6]; [6; 5; 4]; [2; 4; 5]; [1; 6; 4]; [3; 5; 6]] /\
  corners_match fine 1 /\ ~ corners_match fine 5.
Proof.
  eexists _, _, _. split; [vm_compute; reflexivity|]. split; [vm_compute; reflexivity|]. split; [vm_compute; reflexivity|].
  split; [|intros C; destruct (proj1 (C 4) ltac:(vm_compute; auto)) as (e & H & H'); vm_compute in H; intuition (subst; vm_compute in H'; intuition discriminate)].
  intros x. split.
  - intros H. vm_compute in H. destruct H as [<-|[<-|[<-|[]]]]; [exists 0|exists 10|exists 10]; vm_compute; auto 8.
  - intros (e & H & H'). vm_compute in H. destruct H as [<-|[<-|[<-|[]]]]; vm_compute in H' |- *; tauto.
Qed.
