(** C46: cutting a triangle mesh by a plane. *)
Require Import List Arith ZArith Bool Lia Permutation Field Sorting.Sorted QArith Qcanon.
From Verif Require Import Util Arr CombProofs SimpModel SimpSpec ParProofs SimpProofs LevelProofs TopProofs SimpProps BdryModel BdrySpec
  OrientProofs SelProofs SubProofs BdryProps SelProps BaryProofs LoopProofs AvgProofs SubdProps LinModel Ofield TriModel TriSpec ClipSpec TriProofs TriMesh TriExtrude TriSolid TriProps
  ClipProofs ClipOrient ClipGeom.
Import ListNotations.
Local Open Scope nat_scope.

(** clip=False, for any assignment of sides to the vertices: uncut triangles stay, a cut triangle becomes three; altogether
    the directed edges are the old ones with cut edges split in two, and interior edges in both directions. *)
Theorem C46_clip_cut : forall row_leb side rows t, simplices_ok 2 rows -> from_simplices row_leb 2 rows = Ok t ->
  exists c kids interior, clip_cut row_leb side t = Ok c /\
    n_elements c 0 = n_elements t 0 + length (filter (mixed side) (nth 1 (elements t) [])) /\
    Forall2 (three_children side (nth 1 (elements t) []) (n_elements t 0)) (filter (mixed side) rows) kids /\
    nth 2 (elements c) [] = filter (fun s => negb (mixed side s)) rows ++ concat kids /\
    Permutation (mesh_edges (nth 2 (elements c) []))
      (flat_map (split_edge side (nth 1 (elements t) []) (n_elements t 0)) (mesh_edges rows) ++ interior ++ map reverse interior).
Proof.
  intros row_leb side rows t OK H. destruct (from_simplices_top_ok _ _ _ _ OK H) as [Hn T].
  destruct (proj1 (from_simplices_cases row_leb 2 _ ltac:(lia) (clip_ok side rows t T)) (ex_intro _ _ (clip_labels side rows t T))) as (c & E & T').
  destruct (clip_rows_ok side rows t T) as (kids & F & ER). destruct (clip_edges side rows t T) as (I & P). exists c, kids, I. split; [exact E|]. rewrite (to_top _ _ _ T'). split; [|auto].
  pose proof (to_vused _ _ _ T') as L1. pose proof (clip_labels side rows t T) as L2.
  destruct (Nat.lt_trichotomy (n_elements c 0) (n_elements t 0 + length (filter (mixed side) (nth 1 (elements t) [])))) as [Q|[Q|Q]]; auto; exfalso.
  - apply L2, L1 in Q. lia.
  - apply L1, L2 in Q. lia.
Qed.
Print Assumptions C46_clip_cut.

(** The three triangles of one cut triangle have its boundary, with the two cut edges split. *)
Theorem C46_children_boundary : forall side EV n s cs, three_children side EV n s cs ->
  exists interior, length interior = 2 /\ Permutation (mesh_edges cs) (flat_map (split_edge side EV n) (dedges s) ++ interior ++ map reverse interior).
Proof.
  intros side EV n s cs (a & b & c & Is & Sab & Sbc & ->). exists [(cut_vertex side EV n a b, cut_vertex side EV n c a); (b, cut_vertex side EV n c a)]. split; auto.
  assert (P : Permutation (flat_map (split_edge side EV n) (dedges s)) (flat_map (split_edge side EV n) (dedges [a; b; c]))).
  { apply Permutation_flat_map. destruct Is as [<-|[<-|[<-|[]]]]; auto; cbn.
    - apply (Permutation_cons_append [(a, b); (b, c)] (c, a)).
    - symmetry. apply (Permutation_cons_append [(b, c); (c, a)] (a, b)). }
  rewrite P. cbn [dedges flat_map split_edge app]. assert (E1 : Bool.eqb (side a) (side b) = false) by (apply eqb_false_iff; auto). assert (E2 : Bool.eqb (side b) (side c) = true) by (apply eqb_true_iff; auto). assert (E3 : Bool.eqb (side c) (side a) = false) by (apply eqb_false_iff; congruence).
  rewrite E1, E2, E3. cbn. apply (Permutation_count_occ dedge_dec). intros e. cbn [count_occ app map reverse fst snd]. repeat destruct (dedge_dec _ e); lia.
Qed.
Print Assumptions C46_children_boundary.

(** Orientation: closed meshes stay closed and consistently oriented meshes of distinct triangles stay consistent. *)
Theorem C46_orientation : forall row_leb side rows t c, simplices_ok 2 rows -> from_simplices row_leb 2 rows = Ok t -> clip_cut row_leb side t = Ok c ->
  (closed_surface rows -> closed_surface (nth 2 (elements c) [])) /\
  ((forall j j', j < length rows -> j' < length rows -> Permutation (nth j rows []) (nth j' rows []) -> j = j') -> consistent 2 rows ->
     consistent 2 (nth 2 (elements c) []) /\ at_most_two 2 (nth 2 (elements c) [])).
Proof.
  intros row_leb side rows t c OK H E. destruct (from_simplices_top_ok _ _ _ _ OK H) as [Hn T].
  unfold clip_cut in E. destruct (from_simplices_top_ok _ _ _ _ (clip_ok side rows t T) E) as [_ T']. rewrite (to_top _ _ _ T'). split.
  - apply (clip_closed side rows t T).
  - intros DT CO. apply (clip_consistent side rows t T CO DT).
Qed.
Print Assumptions C46_orientation.

(** Positions: old vertices stay, new ones lie on the plane and between the ends of their edge. *)
Theorem C46_positions : forall (F : ofield) row_leb dim support direction V rows t, simplices_ok 2 rows -> from_simplices row_leb 2 rows = Ok t ->
  let side := vert_side F dim support direction V in
  let V' := clip_positions F dim support direction V t in
  (forall v, v < n_elements t 0 -> V' v = V v) /\
  (forall v, n_elements t 0 <= v -> v < n_elements t 0 + length (filter (mixed side) (nth 1 (elements t) [])) -> height F dim support direction (V' v) = r0) /\
  (forall x y, In (x, y) (mesh_edges rows) -> side x <> side y -> exists u w : F, radd u w = r1 /\ pos (ropp u) = false /\ pos (ropp w) = false /\
     forall i, V' (cut_vertex side (nth 1 (elements t) []) (n_elements t 0) x y) i = radd (rmul (V x i) u) (rmul (V y i) w)).
Proof.
  intros F row_leb dim support direction V rows t OK H side V'. destruct (from_simplices_top_ok _ _ _ _ OK H) as [Hn T]. split; [|split].
  - intros v Hv. apply old_position; auto.
  - intros v H1 H2. apply (on_plane F dim support direction rows t V T); auto.
  - intros x y I S. destruct (new_position F dim support direction rows t V T x y I S) as (u & w & A1 & A2 & A3 & A4 & _). exists u, w. auto.
Qed.
Print Assumptions C46_positions.

(** The enclosed volume does not change. *)
Theorem C46_volume : forall (F : ofield) row_leb support direction V rows t c, simplices_ok 2 rows -> from_simplices row_leb 2 rows = Ok t ->
  clip_cut row_leb (vert_side F 3 support direction V) t = Ok c ->
  volume F (clip_positions F 3 support direction V t) c = volume F V t.
Proof.
  intros F row_leb support direction V rows t c OK H E. destruct (from_simplices_top_ok _ _ _ _ OK H) as [Hn T].
  unfold clip_cut in E. destruct (from_simplices_top_ok _ _ _ _ (clip_ok (vert_side F 3 support direction V) rows t T) E) as [_ T'].
  rewrite !volume_contribution, (to_top _ _ _ T), (to_top _ _ _ T'). rewrite (clip_contributions F 3 support direction rows t V T). reflexivity.
Qed.
Print Assumptions C46_volume.

(** clip=True keeps exactly the triangles of the cut mesh that have no vertex strictly on the positive side. *)
Theorem C46_clip_halfspace : forall (F : ofield) row_leb dim support direction V rows t c, simplices_ok 2 rows -> from_simplices row_leb 2 rows = Ok t ->
  let side := vert_side F dim support direction V in
  let V' := clip_positions F dim support direction V t in
  let below r := forall v, In v r -> pos (height F dim support direction (V' v)) = false in
  clip_cut row_leb side t = Ok c -> (exists r, In r (nth 2 (elements c) []) /\ below r) ->
  exists s idx keep, clip_selected row_leb side t = Ok (s, idx) /\
    (forall r, In r (nth 2 (elements c) []) -> (keep r = true <-> below r)) /\
    map (map (fun v => nth v (nth 0 idx []) 0)) (nth 2 (elements s) []) = filter keep (nth 2 (elements c) []) /\
    (forall v, In v (nth 0 idx []) -> pos (height F dim support direction (V' v)) = false).
Proof.
  intros F row_leb dim support direction V rows t c OK H side V' below E (r & Ir & Br). destruct (from_simplices_top_ok _ _ _ _ OK H) as [Hn T].
  pose proof E as E0. unfold clip_cut in E0. destruct (from_simplices_top_ok _ _ _ _ (clip_ok side rows t T) E0) as [_ T']. rewrite (to_top _ _ _ T') in *.
  assert (K : forall r, In r (clip_rows side t) -> (kept side (n_elements t 0) r = true <-> below r)) by apply (kept_rows F dim support direction rows t V T).
  pose proof (clip_chain_ok side rows t T) as CH. assert (L : length (clip_chain side t) = length (clip_rows side t)) by (rewrite CH; apply map_length).
  assert (N : forall i, i < length (clip_rows side t) -> nth i (clip_chain side t) false = kept side (n_elements t 0) (nth i (clip_rows side t) [])) by (intros i Hi; rewrite CH, nth_map_lt with (da := []) by auto; auto).
  assert (EX : exists i, i < length (clip_rows side t) /\ nth i (clip_chain side t) false = true). { pose proof Ir as Ir'. apply In_nth with (d := []) in Ir' as (i & Hi & Q). exists i. split; auto. rewrite N by auto. rewrite Q. apply K; auto. }
  destruct (C13_select_subset row_leb 2 (clip_rows side t) c (clip_chain side t) (clip_ok side rows t T) E0 L EX) as (s & idx & ES & _ & _ & _ & VV & Tops & _).
  exists s, idx, (kept side (n_elements t 0)). split; [unfold clip_selected; rewrite E; exact ES|]. split; [exact K|]. split.
  - rewrite Tops. clear - N. revert N. generalize (clip_chain side t). induction (clip_rows side t) as [|x l IH] using rev_ind; intros ch N; auto. rewrite app_length. cbn [length]. rewrite Nat.add_1_r, seq_S, filter_app, map_app, filter_app. cbn [filter Nat.add]. f_equal.
    + rewrite <- (IH ch); [|intros i Hi; rewrite N by (rewrite app_length; cbn; lia); rewrite app_nth1 by auto; auto].
      apply map_ext_in. intros i Hi. apply filter_In in Hi as [Hi _]. apply in_seq in Hi. apply app_nth1. lia.
    + rewrite N by (rewrite app_length; cbn; lia). rewrite app_nth2, Nat.sub_diag by lia. cbn [nth]. destruct (kept side (n_elements t 0) x); auto. cbn [map]. rewrite app_nth2, Nat.sub_diag by lia. auto.
  - intros v Hv. apply VV in Hv as (i & Hi & Ci & Iv). rewrite N in Ci by auto. apply (K (nth i (clip_rows side t) [])); auto. apply nth_In; auto.
Qed.
Print Assumptions C46_clip_halfspace.

(** The tetrahedron of C45_example cut at half height by a plane through no vertex. *)
Definition up (i : nat) : Qofield := match i with 2 => Q2Qc 1 | _ => Q2Qc 0 end.
Definition half_up (i : nat) : Qofield := match i with 2 => Q2Qc (1 # 2) | _ => Q2Qc 0 end.
Example C46_example : exists t c, from_simplices lex_leb 2 tet_rows = Ok t /\
  clip_cut lex_leb (vert_side Qofield 3 half_up up tet_V) t = Ok c /\ n_elements c 0 = 7 /\
  nth 2 (elements c) [] = [[0; 2; 1]; [3; 5; 6]; [1; 6; 5]; [2; 6; 1]; [3; 6; 4]; [2; 4; 6]; [0; 4; 2]; [3; 4; 5]; [0; 5; 4]; [1; 5; 0]] /\
  map (fun v => map (fun i => this (clip_positions Qofield 3 half_up up tet_V t v i)) [0; 1; 2]) [4; 5; 6] = [[0; 0; 1 # 2]; [3 # 2; 0; 1 # 2]; [0; 1; 1 # 2]]%Q /\
  exists s idx, clip_selected lex_leb (vert_side Qofield 3 half_up up tet_V) t = Ok (s, idx) /\ n_elements s 2 = 7 /\ n_elements s 0 = 6.
Proof. eexists _, _. split; [vm_compute; reflexivity|]. split; [vm_compute; reflexivity|]. split; [vm_compute; reflexivity|]. split; [vm_compute; reflexivity|]. split; [vm_compute; reflexivity|]. eexists _, _. split; [vm_compute; reflexivity|]. split; vm_compute; reflexivity. Qed.
