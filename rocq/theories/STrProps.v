(** C91: the transfer of dual cells between a spherical mesh and its loop subdivision. *)
Require Import Reals List Arith Bool Lia Lra Psatz Permutation.
From Verif Require Import Util SphModel SphSpec SphProofs SphProps SMetProps STrModel STrSpec STrProofs.
Import ListNotations.
Local Open Scope R_scope.

(** The full statement: the entries of the matrix are the areas in which the dual cells of the two meshes overlap.  Its rows add
    up to the dual cells of the coarse mesh and its columns to the dual cells of the fine mesh.  It holds for triangles that
    run counterclockwise as seen from outside. *)
Theorem C91_transfer_partial : forall radius N I20 i20 i21 domains position0 position1 position2 P2 pick_edge pick_center,
  subdivision N I20 i20 i21 position0 position1 position2 P2 pick_edge pick_center ->
  (forall f, (f < 4 * N)%nat -> Permutation (domains f) (domain_rows i20 i21 f)) ->
  (forall c, (c < N)%nat -> counterclockwise (fp0 i20 position0 (4 * c))) ->
  exists M, multigrid_transfer_dual radius radius true true N I20 i20 i21 domains position0 position1 position2 P2 pick_edge pick_center = Ok M /\
    (forall v, row_sum M v = coarse_cell N I20 i20 position0 P2 v) /\
    (forall v, col_sum M v = fine_cell N i20 i21 position0 position1 position2 v) /\
    (forall e, In e M -> 0 <= snd e).
Proof.
  intros radius N I20 i20 i21 domains position0 position1 position2 P2 pick_edge pick_center S Hd CC.
  exists (answer N I20 i20 i21 domains position0 position1 position2 P2 pick_edge pick_center). split; [|split; [|split]].
  - apply answer_ok; auto. exact (Gok_cc radius radius true true N I20 i20 i21 domains position0 position1 position2 P2 pick_edge pick_center S Hd CC).
  - exact (row_answer radius radius true true N I20 i20 i21 domains position0 position1 position2 P2 pick_edge pick_center S Hd CC).
  - exact (col_answer radius radius true true N I20 i20 i21 domains position0 position1 position2 P2 pick_edge pick_center S Hd CC).
  - exact (nonneg_answer radius radius true true N I20 i20 i21 domains position0 position1 position2 P2 pick_edge pick_center S Hd CC).
Qed.
Print Assumptions C91_transfer_partial.

(** In the central triangles the entries are the areas of the pieces into which the arcs around the cells cut the triangle; in
    the corner triangles, the parts of the fine dual cells, all of them in the coarse cell of the corner. *)
Theorem C91_pieces_partial : forall radius N I20 i20 i21 domains position0 position1 position2 P2 pick_edge pick_center M,
  subdivision N I20 i20 i21 position0 position1 position2 P2 pick_edge pick_center ->
  (forall f, (f < 4 * N)%nat -> Permutation (domains f) (domain_rows i20 i21 f)) ->
  (forall c, (c < N)%nat -> counterclockwise (fp0 i20 position0 (4 * c))) ->
  multigrid_transfer_dual radius radius true true N I20 i20 i21 domains position0 position1 position2 P2 pick_edge pick_center = Ok M ->
  exists w : nat -> nat -> nat -> R,
    (forall c, (c < N)%nat -> exists m, (m < 3)%nat /\ pick_center c = nth m (I20 c) 0%nat /\ pieces (fp0 i20 position0 (4 * c)) (fp1 i21 position1 (4 * c)) (position2 (4 * c)%nat) (P2 c) m (w c)) /\
    Permutation M (flat_map (fun c => flat_map (fun i => map (fun j => (nth i (I20 c) 0%nat, nth j (i20 (4 * c)%nat) 0%nat, w c i j)) (seq 0 3)) (seq 0 3)) (seq 0 N) ++
      flat_map (fun c => flat_map (fun r => let f := (4 * c + 1 + r)%nat in flat_map (fun k =>
        [(nth r (I20 c) 0%nat, nth k (i20 f) 0%nat, area (fp0 i20 position0 f k) (fp1 i21 position1 f (next k)) (position2 f));
         (nth r (I20 c) 0%nat, nth k (i20 f) 0%nat, area (fp0 i20 position0 f k) (fp1 i21 position1 f (prev k)) (position2 f))]) (seq 0 3)) (seq 0 3)) (seq 0 N)).
Proof.
  intros radius N I20 i20 i21 domains position0 position1 position2 P2 pick_edge pick_center M S Hd CC E.
  rewrite (answer_ok radius radius true true N I20 i20 i21 domains position0 position1 position2 P2 pick_edge pick_center) in E; auto. 2:{ exact (Gok_cc radius radius true true N I20 i20 i21 domains position0 position1 position2 P2 pick_edge pick_center S Hd CC). } injection E as <-.
  exists (fun c => read (get I20 i20 i21 position0 position1 position2 P2 pick_center c)). split.
  - intros c Hc. destruct (get_ok radius radius true true N I20 i20 i21 domains position0 position1 position2 P2 pick_edge pick_center S Hd CC c Hc) as [_ [_ Q]]. exists (mm I20 pick_center c).
    destruct (filter_mm radius radius true true N I20 i20 i21 domains position0 position1 position2 P2 pick_edge pick_center S Hd c Hc) as (F & Hm & _). split; auto. split; auto.
    assert (I : In (mm I20 pick_center c) (filter (fun m => Nat.eqb (nth m (I20 c) 0%nat) (pick_center c)) (seq 0 3))) by (rewrite F; left; auto). apply filter_In in I as [_ I]. apply Nat.eqb_eq in I. auto.
  - unfold answer. apply Permutation_app; [apply Permutation_refl|]. unfold corner_transfer. rewrite flat_map_concat_map, concat_map, map_map. rewrite <- flat_map_concat_map.
    assert (K : forall l, (forall c, In c l -> (c < N)%nat) -> Permutation (flat_map (fun x => map (fun row => (pick_edge (nth 1 row 0%nat), nth 0 row 0%nat, area (position0 (nth 0 row 0%nat)) (position1 (nth 1 row 0%nat)) (position2 (nth 2 row 0%nat)))) (domains x)) (flat_map (fun c => map (fun i => (4 * c + i)%nat) [1; 2; 3]%nat) l))
      (flat_map (fun c => flat_map (fun r => let f := (4 * c + 1 + r)%nat in flat_map (fun k =>
        [(nth r (I20 c) 0%nat, nth k (i20 f) 0%nat, area (fp0 i20 position0 f k) (fp1 i21 position1 f (next k)) (position2 f));
         (nth r (I20 c) 0%nat, nth k (i20 f) 0%nat, area (fp0 i20 position0 f k) (fp1 i21 position1 f (prev k)) (position2 f))]) (seq 0 3)) (seq 0 3)) l)).
    { induction l as [|c l IH]; intros Hl; [apply Permutation_refl|]. cbn [flat_map]. rewrite flat_map_app. apply Permutation_app; [|apply IH; intros; apply Hl; right; auto].
      assert (Hc : (c < N)%nat) by (apply Hl; left; auto). destruct (S c Hc) as (_ & _ & _ & HR).
      assert (One : forall r, (r < 3)%nat -> Permutation (map (fun row => (pick_edge (nth 1 row 0%nat), nth 0 row 0%nat, area (position0 (nth 0 row 0%nat)) (position1 (nth 1 row 0%nat)) (position2 (nth 2 row 0%nat)))) (domains (4 * c + 1 + r)%nat))
        (flat_map (fun k => [(nth r (I20 c) 0%nat, nth k (i20 (4 * c + 1 + r)%nat) 0%nat, area (fp0 i20 position0 (4 * c + 1 + r) k) (fp1 i21 position1 (4 * c + 1 + r) (next k)) (position2 (4 * c + 1 + r)%nat));
         (nth r (I20 c) 0%nat, nth k (i20 (4 * c + 1 + r)%nat) 0%nat, area (fp0 i20 position0 (4 * c + 1 + r) k) (fp1 i21 position1 (4 * c + 1 + r) (prev k)) (position2 (4 * c + 1 + r)%nat))]) (seq 0 3))).
      { intros r Hr. destruct (HR r Hr) as (_ & _ & _ & K). eapply Permutation_trans; [apply Permutation_map, Hd; lia|]. set (f := (4 * c + 1 + r)%nat) in *. unfold domain_rows. cbn [seq flat_map map app nth]. rewrite !K by (unfold next, prev; apply Nat.mod_upper_bound; lia). apply Permutation_refl. }
      cbn [map flat_map]. replace (4 * c + 1)%nat with (4 * c + 1 + 0)%nat at 1 by lia. replace (4 * c + 2)%nat with (4 * c + 1 + 1)%nat by lia. replace (4 * c + 3)%nat with (4 * c + 1 + 2)%nat by lia.
      change (seq 0 3) with [0; 1; 2]%nat at 2. cbn [flat_map]. repeat apply Permutation_app; try apply Permutation_refl; apply One; lia. }
    unfold corner_tris. apply K. intros c Hc. apply in_seq in Hc. lia.
Qed.
Print Assumptions C91_pieces_partial.

(** What the function refuses: different radii, meshes that are not well-centred, and a centre of a central triangle that is in
    none of the dual cells of the corners. *)
Theorem C91_refused : forall radius_coarse radius_fine centered_coarse centered_fine N I20 i20 i21 domains position0 position1 position2 P2 pick_edge pick_center M,
  multigrid_transfer_dual radius_coarse radius_fine centered_coarse centered_fine N I20 i20 i21 domains position0 position1 position2 P2 pick_edge pick_center = Ok M ->
  radius_fine = radius_coarse /\ centered_coarse = true /\ centered_fine = true /\ forall c, (c < N)%nat -> exists m, (m < 3)%nat /\ nth m (I20 c) 0%nat = pick_center c.
Proof.
  intros until M. unfold multigrid_transfer_dual. destruct (Req_EM_T radius_fine radius_coarse) as [E|]; [|discriminate]. destruct centered_fine; [|discriminate]. destruct centered_coarse; [|discriminate]. cbn [negb].
  destruct (list_eqb (map fst (matches N I20 pick_center)) (seq 0 (length (matches N I20 pick_center)))) eqn:L; [|discriminate]. cbn [negb]. destruct (Nat.eqb_spec (length (matches N I20 pick_center)) N) as [EN|]; [|discriminate]. intros _.
  split; auto. split; auto. split; auto. intros c Hc. apply list_eqb_eq in L. assert (I : In c (map fst (matches N I20 pick_center))) by (rewrite L; apply in_seq; lia).
  apply in_map_iff in I as ((a & m) & E1 & I). cbn in E1. subst a. unfold matches in I. apply in_flat_map in I as (c' & _ & I). apply in_map_iff in I as (m' & E2 & I). injection E2 as -> ->. apply filter_In in I as [I Q]. apply in_seq in I. apply Nat.eqb_eq in Q. exists m. split; [lia|auto].
Qed.
Print Assumptions C91_refused.

(** A coarse triangle around the octant ex ey ez, which is its central triangle. *)
Definition ex_pos0 (v : nat) : vec := nth v [[-1/3; 2/3; 2/3]; [2/3; -1/3; 2/3]; [2/3; 2/3; -1/3]; [1; 0; 0]; [0; 1; 0]; [0; 0; 1]] [].
Definition ex_pos1 (e : nat) : vec := nth e [[0; 3/5; 4/5]; [3/5; 0; 4/5]; [3/5; 4/5; 0];
  [-3/23; 22/23; 6/23]; [-3/23; 6/23; 22/23]; [6/23; -3/23; 22/23]; [22/23; -3/23; 6/23]; [22/23; 6/23; -3/23]; [6/23; 22/23; -3/23]] [].
Definition ex_pos2 (f : nat) : vec := nth f [[2/11; 6/11; 9/11]; [-1/9; 4/9; 8/9]; [4/9; -1/9; 8/9]; [4/9; 8/9; -1/9]] [].
Definition ex_P2 (c : nat) : vec := [1/3; 2/3; 2/3].
Definition ex_I20 (c : nat) : list nat := [0; 1; 2]%nat.
Definition ex_i20 (f : nat) : list nat := nth f [[3; 4; 5]; [0; 5; 4]; [1; 3; 5]; [2; 4; 3]]%nat [].
Definition ex_i21 (f : nat) : list nat := nth f [[0; 1; 2]; [0; 3; 4]; [1; 5; 6]; [2; 7; 8]]%nat [].
Definition ex_edge (e : nat) : nat := nth e [0; 1; 2; 0; 0; 1; 1; 2; 2]%nat 0%nat.
Definition ex_center (c : nat) : nat := 0%nat.

Lemma between3 : forall x y a1 a2 a3 b1 b2 b3 m1 m2 m3, 0 < x -> 0 < y -> m1 = x * a1 + y * b1 -> m2 = x * a2 + y * b2 -> m3 = x * a3 + y * b3 -> between [a1; a2; a3] [m1; m2; m3] [b1; b2; b3].
Proof. intros. exists x, y. split; auto. split; auto. split; auto. split; auto. intros [|[|[|[|i]]]]; cbn; lra. Qed.
Lemma inside3 : forall x y z a1 a2 a3 b1 b2 b3 c1 c2 c3 m1 m2 m3, 0 < x -> 0 < y -> 0 < z -> m1 = x * a1 + y * b1 + z * c1 -> m2 = x * a2 + y * b2 + z * c2 -> m3 = x * a3 + y * b3 + z * c3 ->
  inside [a1; a2; a3] [b1; b2; b3] [c1; c2; c3] [m1; m2; m3].
Proof. intros. exists x, y, z. repeat (split; [auto|]). intros [|[|[|[|i]]]]; cbn; lra. Qed.
Ltac bt x y := apply (between3 x y); lra.
Ltac ins x y z := apply (inside3 x y z); lra.
Ltac indep3 := apply indep_det3; [reflexivity|reflexivity|reflexivity|unfold det3; cbn; lra].
Lemma ex_subdivision : subdivision 1 ex_I20 ex_i20 ex_i21 ex_pos0 ex_pos1 ex_pos2 ex_P2 ex_edge ex_center.
Proof.
  intros c Hc. assert (c = 0)%nat by lia. subst c. split; [reflexivity|]. split; [repeat constructor; cbn; intuition discriminate|]. split.
  - exists 0%nat. split; [lia|]. split; [reflexivity|]. split; [|split; [|split; [|split]]].
    + split; [reflexivity|]. split; [reflexivity|]. split; [reflexivity|]. split; [indep3|]. split; [bt (3/5) (4/5)|]. split; [bt (4/5) (3/5)|]. split; [bt (3/5) (4/5)|ins (2/11) (6/11) (9/11)].
    + ins (1/3) (2/3) (2/3).
    + ins (5/11) (2/11) (6/11).
    + exists [9; 18; 31]. split; [bt 13 27|bt 5 33].
    + exists [27; 56; 54]. split; [bt 2 81|bt 25 66].
  - intros r Hr f. destruct r as [|[|[|]]]; [| | |lia]; subst f; (split; [reflexivity|]; split; [split; [reflexivity|]; split; [reflexivity|]; split; [reflexivity|]; split; [indep3|]|split; [|intros [|[|[|]]] Hk; [reflexivity|reflexivity|reflexivity|lia]]]).
    + split; [bt (4/5) (3/5)|]. split; [bt (16/23) (9/23)|]. split; [bt (9/23) (16/23)|ins (1/3) (2/3) (2/9)].
    + exists [0; 4/3; 4/3]. split; [bt 1 1|bt (4/3) (4/3)].
    + split; [bt (3/5) (4/5)|]. split; [bt (16/23) (9/23)|]. split; [bt (9/23) (16/23)|ins (1/3) (2/9) (2/3)].
    + exists [5/3; 0; 2]. split; [bt 2 1|bt 2 (5/3)].
    + split; [bt (4/5) (3/5)|]. split; [bt (16/23) (9/23)|]. split; [bt (9/23) (16/23)|ins (1/3) (2/3) (2/9)].
    + exists [5/3; 2; 0]. split; [bt 2 1|bt (5/3) 2].
Qed.
Lemma ex_counterclockwise : forall c, (c < 1)%nat -> counterclockwise (fp0 ex_i20 ex_pos0 (4 * c)).
Proof. intros c Hc. assert (c = 0)%nat by lia. subst c. unfold counterclockwise, det3. cbn. lra. Qed.
Example C91_example : exists M,
  multigrid_transfer_dual 1 1 true true 1 ex_I20 ex_i20 ex_i21 (domain_rows ex_i20 ex_i21) ex_pos0 ex_pos1 ex_pos2 ex_P2 ex_edge ex_center = Ok M /\
  row_sum M 0%nat = coarse_cell 1 ex_I20 ex_i20 ex_pos0 ex_P2 0%nat /\ col_sum M 4%nat = fine_cell 1 ex_i20 ex_i21 ex_pos0 ex_pos1 ex_pos2 4%nat.
Proof.
  destruct (C91_transfer_partial 1 1 ex_I20 ex_i20 ex_i21 (domain_rows ex_i20 ex_i21) ex_pos0 ex_pos1 ex_pos2 ex_P2 ex_edge ex_center ex_subdivision (fun f _ => Permutation_refl _) ex_counterclockwise) as (M & E & R & C & _).
  exists M. auto.
Qed.

(** The same triangles with their corners in the other order. *)
Definition cw_I20 (c : nat) : list nat := [0; 2; 1]%nat.
Definition cw_i20 (f : nat) : list nat := nth f [[3; 5; 4]; [0; 4; 5]; [2; 3; 4]; [1; 5; 3]]%nat [].
Definition cw_i21 (f : nat) : list nat := nth f [[0; 2; 1]; [0; 4; 3]; [2; 8; 7]; [1; 6; 5]]%nat [].
Definition cw_pos2 (f : nat) : vec := nth f [[2/11; 6/11; 9/11]; [-1/9; 4/9; 8/9]; [4/9; 8/9; -1/9]; [4/9; -1/9; 8/9]] [].
Lemma cw_subdivision : subdivision 1 cw_I20 cw_i20 cw_i21 ex_pos0 ex_pos1 cw_pos2 ex_P2 ex_edge ex_center.
Proof.
  intros c Hc. assert (c = 0)%nat by lia. subst c. split; [reflexivity|]. split; [repeat constructor; cbn; intuition discriminate|]. split.
  - exists 0%nat. split; [lia|]. split; [reflexivity|]. split; [|split; [|split; [|split]]].
    + split; [reflexivity|]. split; [reflexivity|]. split; [reflexivity|]. split; [indep3|]. split; [bt (4/5) (3/5)|]. split; [bt (4/5) (3/5)|]. split; [bt (3/5) (4/5)|ins (2/11) (9/11) (6/11)].
    + ins (1/3) (2/3) (2/3).
    + ins (2/11) (5/11) (6/11).
    + exists [27; 56; 54]. split; [bt 2 81|bt 25 66].
    + exists [9; 18; 31]. split; [bt 13 27|bt 5 33].
  - intros r Hr f. destruct r as [|[|[|]]]; [| | |lia]; subst f; (split; [reflexivity|]; split; [split; [reflexivity|]; split; [reflexivity|]; split; [reflexivity|]; split; [indep3|]|split; [|intros [|[|[|]]] Hk; [reflexivity|reflexivity|reflexivity|lia]]]).
    + split; [bt (3/5) (4/5)|]. split; [bt (16/23) (9/23)|]. split; [bt (9/23) (16/23)|ins (1/3) (2/9) (2/3)].
    + exists [0; 4/3; 4/3]. split; [bt 1 1|bt (4/3) (4/3)].
    + split; [bt (3/5) (4/5)|]. split; [bt (16/23) (9/23)|]. split; [bt (9/23) (16/23)|ins (1/3) (2/9) (2/3)].
    + exists [5/3; 2; 0]. split; [bt 2 1|bt 2 (5/3)].
    + split; [bt (4/5) (3/5)|]. split; [bt (16/23) (9/23)|]. split; [bt (9/23) (16/23)|ins (1/3) (2/3) (2/9)].
    + exists [5/3; 0; 2]. split; [bt 2 1|bt (5/3) 2].
Qed.
(** Then the function returns a matrix without an error, but its columns do not add up to the fine dual cells. *)
Theorem C91_clockwise_refuted : exists N I20 i20 i21 position0 position1 position2 P2 pick_edge pick_center M v,
  subdivision N I20 i20 i21 position0 position1 position2 P2 pick_edge pick_center /\
  multigrid_transfer_dual 1 1 true true N I20 i20 i21 (domain_rows i20 i21) position0 position1 position2 P2 pick_edge pick_center = Ok M /\
  fine_cell N i20 i21 position0 position1 position2 v + PI <= col_sum M v.
Proof.
  exists 1%nat, cw_I20, cw_i20, cw_i21, ex_pos0, ex_pos1, cw_pos2, ex_P2, ex_edge, ex_center.
  exists (answer 1 cw_I20 cw_i20 cw_i21 (domain_rows cw_i20 cw_i21) ex_pos0 ex_pos1 cw_pos2 ex_P2 ex_edge ex_center), 4%nat.
  destruct (cw_subdivision 0%nat) as (_ & _ & (m & Hm & E & CP) & _); [lia|]. assert (m = 0)%nat. { destruct m as [|[|[|]]]; auto; try discriminate; lia. } subst m. clear E.
  destruct (center_clockwise cw_i20 cw_i21 ex_pos0 ex_pos1 cw_pos2 ex_P2 0 0 Hm CP) as (l & A & V & Dl). { unfold det3. cbn. lra. }
  assert (G : get cw_I20 cw_i20 cw_i21 ex_pos0 ex_pos1 cw_pos2 ex_P2 ex_center 0 = l) by (unfold get; change (mm cw_I20 ex_center 0) with 0%nat; rewrite A; reflexivity).
  assert (Gok : forall c, (c < 1)%nat -> assignments cw_i20 cw_i21 ex_pos0 ex_pos1 cw_pos2 ex_P2 c (mm cw_I20 ex_center c) = Some (get cw_I20 cw_i20 cw_i21 ex_pos0 ex_pos1 cw_pos2 ex_P2 ex_center c) /\ forall i j, (i < 3)%nat -> (j < 3)%nat -> 0 <= read (get cw_I20 cw_i20 cw_i21 ex_pos0 ex_pos1 cw_pos2 ex_P2 ex_center c) i j).
  { intros c Hc. assert (c = 0)%nat by lia. subst c. rewrite G. split; [exact A|exact V]. }
  split; [exact cw_subdivision|]. split; [apply (answer_ok 1 1 true true 1 cw_I20 cw_i20 cw_i21 (domain_rows cw_i20 cw_i21) ex_pos0 ex_pos1 cw_pos2 ex_P2 ex_edge ex_center cw_subdivision (fun f _ => Permutation_refl _) Gok); auto|].
  rewrite (col_any 1 1 true true 1 cw_I20 cw_i20 cw_i21 (domain_rows cw_i20 cw_i21) ex_pos0 ex_pos1 cw_pos2 ex_P2 ex_edge ex_center cw_subdivision (fun f _ => Permutation_refl _) Gok).
  unfold total. cbn [seq fold_right]. change (nth 0 (cw_i20 (4 * 0)) 0 =? 4)%nat with false. change (nth 1 (cw_i20 (4 * 0)) 0 =? 4)%nat with false. change (nth 2 (cw_i20 (4 * 0)) 0 =? 4)%nat with true. cbn iota.
  unfold defect. rewrite G. change (prev 0) with 2%nat in Dl. change (next 0) with 1%nat in Dl.
  destruct CP as (CT & _). destruct (whole _ _ _ _ _ _ _ CT) as (W & N1 & N2 & N3 & N4 & N5 & N6). 
  rewrite (octant (fp0 cw_i20 ex_pos0 (4 * 0) 0) (fp0 cw_i20 ex_pos0 (4 * 0) 1) (fp0 cw_i20 ex_pos0 (4 * 0) 2)) in W; [|split; [reflexivity|cbv -[Rplus Rmult Ropp Rinv IZR]; ring]|split; [reflexivity|cbv -[Rplus Rmult Ropp Rinv IZR]; ring]|split; [reflexivity|cbv -[Rplus Rmult Ropp Rinv IZR]; ring]|cbv -[Rplus Rmult Ropp Rinv IZR]; ring|cbv -[Rplus Rmult Ropp Rinv IZR]; ring|cbv -[Rplus Rmult Ropp Rinv IZR]; ring|apply CT].
  unfold fp0, fp1 in *. assert (B : area (ex_pos0 (nth 2 (cw_i20 (4 * 0)) 0%nat)) (ex_pos1 (nth 1 (cw_i21 (4 * 0)) 0%nat)) (cw_pos2 (4 * 0)%nat) <= PI / 2) by lra. lra.
Qed.
Print Assumptions C91_clockwise_refuted.
