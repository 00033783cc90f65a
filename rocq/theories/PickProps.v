(** C63: picking cubes of regular complexes. *)
Require Import List Arith ZArith Bool Lia Field QArith Qcanon.
From Verif Require Import Util Arr LinModel Ofield SimpModel CubeModel CubeBits SampModel SampSpec SampProofs SampBox SampProps PickProofs.
Import ListNotations.
Local Open Scope nat_scope.

Section Props.
Variable F : ofield.
Add Field Fpp : (fth F).
Local Open Scope ring_scope'.
Lemma at_most_refl : forall x : F, at_most x x.
Proof. intros x. unfold at_most, fltb. replace (x - x) with (r0 : F) by ring. apply pos_0. Qed.
Lemma inside_bounds : forall lo hi x : F, pos (hi - lo) = true -> (nearest1 lo hi x x <-> at_most lo x /\ at_most x hi).
Proof.
  intros lo hi x P. assert (L : at_most lo hi) by (apply lt_at_most; auto). split.
  - intros [[_ [(A & ->)|[(A & B & _)|(A & ->)]]]|[L' _]]; auto using at_most_refl.
    exfalso. apply (pos_neq F _ P). rewrite (at_most_antisym F lo hi); auto. ring.
  - intros [A B]. left. split; auto.
Qed.
Notation rows n V cubes := (map (fun c => centroid F n (map V c)) cubes).
(** In a grid of boxes of one size, the box with the closest centroid contains every point that some box contains. *)
Theorem C63_closest_contains : forall n V cubes boxes query p j,
  Forall2 (fun c b => length c = (2 ^ n)%nat /\ spans_box n (fun bs => V (cget c bs)) (fst b) (snd b)) cubes boxes ->
  grid_boxes n boxes -> closest n (rows n V cubes) query ->
  (j < length cubes)%nat -> inside n (fst (nth j boxes ([], []))) (snd (nth j boxes ([], []))) p ->
  inside n (fst (nth (query p) boxes ([], []))) (snd (nth (query p) boxes ([], []))) p.
Proof.
  intros n V cubes boxes query p j H G C Lj [Lp [_ I]]. destruct (C p) as [Lq Q]. rewrite map_length in Lq, Q. specialize (Q j Lj).
  pose proof (Forall2_len _ _ _ _ _ H) as Len.
  assert (Hn : forall k, (k < length cubes)%nat -> length (nth k cubes []) = (2 ^ n)%nat /\ spans_box n (fun bs => V (cget (nth k cubes []) bs)) (fst (nth k boxes ([], []))) (snd (nth k boxes ([], [])))).
  { intros k Lk. apply (Forall2_nth _ _ _ _ _ [] ([], []) H k Lk). }
  assert (Cn : forall k i, (k < length cubes)%nat -> (i < n)%nat -> nth i (nth k (rows n V cubes) []) r0 = nth i (fst (nth k boxes ([], []))) r0 + (nth i (snd (nth k boxes ([], []))) r0 - nth i (fst (nth k boxes ([], []))) r0) * half F).
  { intros k i Lk Li. destruct (Hn k Lk) as [L2 B]. rewrite (nth_map_lt _ _ (fun c => centroid F n (map V c)) cubes k [] []) by auto. rewrite <- (centroid_nth F n _ _ _ i B Li). f_equal. f_equal.
    rewrite <- (map_map (cget (nth k cubes [])) V). f_equal. unfold cget. rewrite <- (map_map ravel (fun i => nth i (nth k cubes []) 0%nat)), corners_ravel, <- L2. symmetry. apply map_nth_seq. }
  set (k := query p) in *. set (b := nth j boxes ([], [])) in *. set (b' := nth k boxes ([], [])) in *.
  assert (Ib : In b boxes) by (apply nth_In; lia). assert (Ib' : In b' boxes) by (apply nth_In; lia).
  (* axis by axis *)
  set (dd := fun i => (nth i p r0 - nth i (nth k (rows n V cubes) []) r0) * (nth i p r0 - nth i (nth k (rows n V cubes) []) r0) - (nth i p r0 - nth i (nth j (rows n V cubes) []) r0) * (nth i p r0 - nth i (nth j (rows n V cubes) []) r0)).
  assert (Ax : forall i, (i < n)%nat -> at_most r0 (dd i) /\ (dd i = r0 -> at_most (nth i (fst b') r0) (nth i p r0) /\ at_most (nth i p r0) (nth i (snd b') r0))).
  { intros i Li. unfold dd. rewrite (Cn k i), (Cn j i) by auto. fold b b'. destruct (G b Ib i Li) as [P Gb]. destruct (Gb b' Ib') as [Es R]. pose proof (I i Li) as Ii. apply (inside_bounds _ _ _ P) in Ii as [A B].
    rewrite <- Es. set (s := nth i (snd b) r0 - nth i (fst b) r0) in *. set (x := nth i p r0) in *. set (lo := nth i (fst b) r0) in *. set (lo' := nth i (fst b') r0) in *.
    assert (Eh : nth i (snd b) r0 = lo + s) by (unfold s; ring). assert (Eh' : nth i (snd b') r0 = lo' + s) by (rewrite Es; ring). rewrite Eh in B, R. rewrite Eh' in *.
    assert (Ls : at_most lo' (lo' + s)). { apply lt_at_most. unfold fltb. rewrite <- P. f_equal. ring. }
    destruct R as [E|[R|R]].
    - rewrite E in *. split; [|auto]. match goal with |- at_most r0 ?e => replace e with (r0 : F) by ring end. apply at_most_refl.
    - destruct (slab_above F lo s x lo' P A B R) as [U W]. split; auto. intros Z. rewrite (W Z). split; auto using at_most_refl.
    - destruct (slab_below F lo s x lo' P A B R) as [U W]. split; auto. intros Z. rewrite (W Z). split; auto using at_most_refl. }
  assert (Z : forall i, In i (seq 0 n) -> dd i = r0).
  { apply nonneg_sum_zero; [intros i Hi; apply in_seq in Hi; apply Ax; lia|]. unfold dd. rewrite (rsum_sub F). apply am_sub.
    unfold dist2 in Q. apply am_sub in Q. match goal with |- at_most r0 ?e => match type of Q with at_most r0 ?e' => replace e with e' by ring end end. auto. }
  split; auto. split; auto. intros i Li. apply inside_bounds; [apply (G b' Ib' i Li)|]. apply (Ax i Li). apply Z. apply in_seq. lia.
Qed.
(** So sampling an affine form is exact everywhere on such a grid. *)
Theorem C63_sample_affine : forall n V cubes boxes query k a points,
  Forall2 (fun c b => length c = (2 ^ n)%nat /\ spans_box n (fun bs => V (cget c bs)) (fst b) (snd b)) cubes boxes ->
  grid_boxes n boxes -> closest n (rows n V cubes) query ->
  (forall p, In p points -> exists b, In b boxes /\ inside n (fst b) (snd b) p) ->
  sample_primal_0 F n V cubes query (fun v => affine n k a (V v)) points = Ok (map (affine n k a) points).
Proof.
  intros n V cubes boxes query k a points H G C Hp. pose proof (Forall2_len _ _ _ _ _ H) as Len.
  assert (Hn : forall j, (j < length cubes)%nat -> length (nth j cubes []) = (2 ^ n)%nat /\ spans_box n (fun bs => V (cget (nth j cubes []) bs)) (fst (nth j boxes ([], []))) (snd (nth j boxes ([], [])))).
  { intros j Lj. apply (Forall2_nth _ _ _ _ _ [] ([], []) H j Lj). }
  unfold sample_primal_0, pick_primal. cbn [bind]. f_equal. rewrite map_map. apply map_ext_in. intros p Ip. cbn [fst snd].
  destruct (Hp p Ip) as (b & Ib & Ins). apply (In_nth _ _ ([], [])) in Ib as (j & Lj & <-).
  assert (Lq : (query p < length cubes)%nat) by (pose proof (proj1 (C p)) as L; rewrite map_length in L; auto).
  pose proof (C63_closest_contains n V cubes boxes query p j H G C ltac:(lia) Ins) as I'.
  destruct (Hn (query p) Lq) as [L2 B]. unfold primal_boxes. rewrite (nth_map_lt _ _ (fun c => box_of F (map V c)) cubes (query p) [] ([], [])) by auto.
  set (c := nth (query p) cubes []) in *.
  replace (map V c) with (map (fun bs => V (cget c bs)) (corners n)).
  - pose proof (point_interpolates F n _ _ _ p (fun bs => affine n k a (V (cget c bs))) B (proj1 Ins)) as IP.
    apply (ip_affine _ _ _ _ _ _ _ _ IP); auto. apply I'.
  - rewrite <- (map_map (cget c) V). f_equal. unfold cget. rewrite <- (map_map ravel (fun i => nth i c 0%nat)), corners_ravel, <- L2. apply map_nth_seq.
Qed.

(** With a guess: the guess is kept exactly where no coordinate is negative.
    Missing: that the point lies in the returned cube, refuted below. *)
Theorem C63_guess_partial : forall boxes query points guess, length guess = length points -> (forall c, In c guess -> (c < length boxes)%nat) ->
  exists res, pick_primal F boxes query points (Some guess) = Ok res /\ length res = length points /\
    forall i, (i < length points)%nat -> let p := nth i points [] in let '(c, b) := nth i res (0%nat, []) in
      b = compute_baries F (nth c boxes ([], [])) p /\ (c = query p \/ (c = nth i guess 0%nat /\ Forall (at_most r0) b)).
Proof.
  intros boxes query points guess L Hc. unfold pick_primal.
  replace (existsb (fun c => length boxes <=? c)%nat guess) with false. 2:{ symmetry. apply not_true_is_false. intros E. apply existsb_exists in E as (c & Ic & E). apply Nat.leb_le in E. apply Hc in Ic. lia. }
  eexists. split; [reflexivity|]. split; [rewrite map2_length; lia|]. intros i Hi. cbn zeta. rewrite (map2_nth _ _ _ _ _ _ _ 0%nat []) by lia.
  destruct (existsb _ _) eqn:E; [auto|]. split; auto. right. split; auto. apply Forall_forall. intros x Hx. unfold at_most. destruct (fltb x r0) eqn:E'; auto.
  assert (T : existsb (fun x => fltb x r0) (compute_baries F (nth (nth i guess 0%nat) boxes ([], [])) (nth i points [])) = true) by (apply existsb_exists; eauto). congruence.
Qed.
(** Correct guesses for fundamental domains always end in an UnboundLocalError. *)
Theorem C63_fundamental_guess_refuted : forall domains boxes query points guess, length guess = length points -> (forall c, In c guess -> (c < length boxes)%nat) ->
  (forall i, (i < length points)%nat -> Forall (at_most r0) (compute_baries F (nth (nth i guess 0%nat) boxes ([], [])) (nth i points []))) ->
  pick_fundamental F domains boxes query points (Some guess) = Err UnboundLocalError.
Proof.
  intros domains boxes query points guess L Hc H. unfold pick_fundamental.
  replace (existsb (fun c => length boxes <=? c)%nat guess) with false. 2:{ symmetry. apply not_true_is_false. intros E. apply existsb_exists in E as (c & Ic & E). apply Nat.leb_le in E. apply Hc in Ic. lia. }
  match goal with |- (if ?e then _ else _) = _ => replace e with false; auto end. symmetry. apply not_true_is_false. intros E. apply existsb_exists in E as (t & It & E). unfold id in E. subst t.
  apply (In_nth _ _ false) in It as (i & Hi & E). rewrite map2_length in Hi. rewrite (map2_nth _ _ _ _ _ _ _ 0%nat []) in E by lia.
  apply existsb_exists in E as (x & Hx & E). specialize (H i ltac:(lia)). rewrite Forall_forall in H. specialize (H x Hx). unfold at_most in H. congruence.
Qed.
End Props.
Print Assumptions C63_closest_contains.
Print Assumptions C63_sample_affine.
Print Assumptions C63_guess_partial.
Print Assumptions C63_fundamental_guess_refuted.

(** Concrete boxes over the rationals. *)
Definition qn (z : nat) : Qofield := Q2Qc (inject_Z (Z.of_nat z)).
Definition query2 (n : nat) (c0 c1 : list Qofield) (p : list Qofield) : nat := if fltb (dist2 n p c1) (dist2 n p c0) then 1 else 0.
Lemma closest_two : forall n c0 c1, closest n [c0; c1] (query2 n c0 c1).
Proof.
  intros n c0 c1 p. unfold query2. destruct (fltb (dist2 n p c1) (dist2 n p c0)) eqn:E; cbn; split; try lia; intros [|[|j]] H; cbn; try lia;
    try apply at_most_refl; auto. apply lt_at_most. auto.
Qed.
Lemma spans_box_1 : forall (pos : bits -> list Qofield) a b, a <> b -> pos [false] = [a] -> pos [true] = [b] -> spans_box 1 pos [a] [b].
Proof.
  intros pos a b N E0 E1. repeat split; auto; [intros [|i] H; [auto|lia]| |]; destruct bs as [|x [|]]; try discriminate; destruct x; rewrite ?E0, ?E1; auto; intros [|i] Hi; auto; lia.
Qed.
Lemma spans_box_2 : forall (pos : bits -> list Qofield) a b a' b', a <> b -> a' <> b' -> pos [false; false] = [a; a'] -> pos [false; true] = [a; b'] -> pos [true; false] = [b; a'] -> pos [true; true] = [b; b'] ->
  spans_box 2 pos [a; a'] [b; b'].
Proof.
  intros pos a b a' b' N N' E0 E1 E2 E3. repeat split; auto; [intros [|[|i]] H; auto; lia| |]; destruct bs as [|x [|y [|]]]; try discriminate; destruct x, y; rewrite ?E0, ?E1, ?E2, ?E3; auto; intros [|[|i]] Hi; auto; lia.
Qed.
Ltac qneq := let Q := fresh in intros Q; apply (f_equal (fun q : Qc => this q)) in Q; vm_compute in Q; discriminate.
Ltac spans := (apply spans_box_1 || apply spans_box_2); try reflexivity; qneq.
(** Two squares side by side; vertex v at (v / 2, v mod 2). *)
Definition grid_V (v : nat) : list Qofield := [qn (v / 2); qn (v mod 2)].
Definition grid_cubes : list cube := [[0; 1; 2; 3]; [2; 3; 4; 5]].
Definition grid_lohi : list (list Qofield * list Qofield) := [([qn 0; qn 0], [qn 1; qn 1]); ([qn 1; qn 0], [qn 2; qn 1])].
Definition grid_query : list Qofield -> nat := query2 2 (centroid Qofield 2 (map grid_V [0; 1; 2; 3])) (centroid Qofield 2 (map grid_V [2; 3; 4; 5])).
Lemma grid_spans : Forall2 (fun c b => length c = 2 ^ 2 /\ spans_box 2 (fun bs => grid_V (cget c bs)) (fst b) (snd b)) grid_cubes grid_lohi.
Proof. constructor; [split; [reflexivity|spans]|constructor; [split; [reflexivity|spans]|constructor]]. Qed.
Lemma grid_grid : grid_boxes 2 grid_lohi.
Proof.
  intros b Hb i Hi. repeat destruct Hb as [<-|Hb]; try contradiction Hb; (destruct i as [|[|i]]; [| |lia]); (split; [vm_compute; reflexivity|]);
    intros b' Hb'; repeat destruct Hb' as [<-|Hb']; try contradiction Hb'; (split; [apply Qc_is_canon; vm_compute; reflexivity|]); cbn [nth fst snd];
    first [left; reflexivity|right; left; vm_compute; reflexivity|right; right; vm_compute; reflexivity].
Qed.
Definition mid : list Qofield := [Q2Qc (3 # 2); Q2Qc (1 # 2)].
Lemma mid_inside : inside 2 [qn 1; qn 0] [qn 2; qn 1] mid.
Proof. repeat split. intros i Hi. destruct i as [|[|i]]; [| |lia]; left; (split; [vm_compute; reflexivity|]); right; left; repeat split; vm_compute; reflexivity. Qed.
Example C63_example : sample_primal_0 Qofield 2 grid_V grid_cubes grid_query (fun v => affine 2 (qn 5) (fun i => if (i =? 0)%nat then qn 2 else qn 4) (grid_V v)) [mid]
  = Ok (map (affine 2 (qn 5) (fun i => if (i =? 0)%nat then qn 2 else qn 4)) [mid]) /\
  (this (affine 2 (qn 5) (fun i => if (i =? 0)%nat then qn 2 else qn 4) mid) = 10 # 1)%Q /\
  inside 2 (fst (nth (grid_query mid) grid_lohi ([], []))) (snd (nth (grid_query mid) grid_lohi ([], []))) mid.
Proof.
  split; [|split; [vm_compute; reflexivity|]].
  - apply (C63_sample_affine Qofield 2 grid_V grid_cubes grid_lohi grid_query); [apply grid_spans|apply grid_grid|apply closest_two|].
    intros p [<-|[]]. exists ([qn 1; qn 0], [qn 2; qn 1]). split; [cbn; auto|apply mid_inside].
  - apply (C63_closest_contains Qofield 2 grid_V grid_cubes grid_lohi grid_query mid 1); [apply grid_spans|apply grid_grid|apply closest_two|cbn; lia|apply mid_inside].
Qed.
(** Values 1, 2, 4, 8, 16, 32 at the six vertices: the middle of the second square gets 15, outside it nothing is extrapolated. *)
Example C48_example :
  match sample_primal_0 Qofield 2 grid_V grid_cubes grid_query (fun v => qn (2 ^ v)) [mid; [qn 9; qn 1]; [qn 1; qn 1]] with
  | Ok xs => map (fun q : Qc => this q) xs = [15 # 1; 32 # 1; 8 # 1]%Q
  | Err _ => False
  end /\
  exists xs, sample_primal_0 Qofield 2 grid_V grid_cubes grid_query (fun v => qn (2 ^ v)) [mid] = Ok xs /\ length xs = 1.
Proof.
  split; [vm_compute; reflexivity|].
  destruct (C48_primal Qofield 2 grid_V grid_cubes grid_query (fun v => qn (2 ^ v)) [mid]) as (xs & E & R).
  - intros c Hc. pose proof grid_spans as S. destruct Hc as [<-|[<-|[]]]; (split; [reflexivity|]); [exists [qn 0; qn 0], [qn 1; qn 1]; apply (Forall2_nth _ _ _ _ _ [] ([], []) S 0); cbn; lia|exists [qn 1; qn 0], [qn 2; qn 1]; apply (Forall2_nth _ _ _ _ _ [] ([], []) S 1); cbn; lia].
  - intros p [<-|[]]. split; [reflexivity|vm_compute; lia].
  - exists xs. split; auto. inversion R; subst. inversion H3. auto.
Qed.
(** A guess is kept for a point beyond its far side: cube 0 is returned for a point inside cube 1. *)
Theorem C63_guess_refuted : exists boxes query p guess,
  inside 1 (fst (nth (query p) boxes ([], []))) (map2 radd (fst (nth (query p) boxes ([], []))) (snd (nth (query p) boxes ([], [])))) p /\
  exists b, pick_primal Qofield boxes query [p] (Some [guess]) = Ok [(guess, b)] /\
  ~ inside 1 (fst (nth guess boxes ([], []))) (map2 radd (fst (nth guess boxes ([], []))) (snd (nth guess boxes ([], [])))) p.
Proof.
  exists [([qn 0], [qn 1]); ([qn 1], [qn 1])], (fun _ => 1), [Q2Qc (3 # 2)], 0. split; [|eexists; split; [reflexivity|]].
  - repeat split. intros [|i] Hi; [|lia]. left. split; [vm_compute; reflexivity|]. right. left. repeat split; vm_compute; reflexivity.
  - intros [_ [_ H]]. specialize (H 0 ltac:(lia)). apply inside_bounds in H as [_ H]; [|vm_compute; reflexivity]. vm_compute in H. discriminate.
Qed.
Print Assumptions C63_guess_refuted.
(** Boxes of unequal size: the closest centroid belongs to a box that does not contain the point, though another does. *)
Theorem C63_unequal_refuted : exists V cubes boxes query p,
  Forall2 (fun c b => length c = 2 ^ 1 /\ spans_box 1 (fun bs => V (cget c bs)) (fst b) (snd b)) cubes boxes /\
  closest 1 (map (fun c => centroid Qofield 1 (map V c)) cubes) query /\
  inside 1 (fst (nth 0 boxes ([], []))) (snd (nth 0 boxes ([], []))) p /\
  ~ inside 1 (fst (nth (query p) boxes ([], []))) (snd (nth (query p) boxes ([], []))) p.
Proof.
  set (V := fun v => [nth v [qn 0; qn 10; qn 11] (qn 0)] : list Qofield).
  exists V, [[0; 1]; [1; 2]], [([qn 0], [qn 10]); ([qn 10], [qn 11])], (query2 1 (centroid Qofield 1 (map V [0; 1])) (centroid Qofield 1 (map V [1; 2]))), [qn 9].
  split; [constructor; [split; [reflexivity|spans]|constructor; [split; [reflexivity|spans]|constructor]]|]. split; [apply closest_two|]. split.
  - repeat split. intros [|i] Hi; [|lia]. left. split; [vm_compute; reflexivity|]. right. left. repeat split; vm_compute; reflexivity.
  - intros [_ [_ H]]. specialize (H 0 ltac:(lia)). apply inside_bounds in H as [H _]; [|vm_compute; reflexivity]. vm_compute in H. discriminate.
Qed.
Print Assumptions C63_unequal_refuted.
Example C63_guess_example : pick_fundamental Qofield [[0; 0]; [0; 0]] [([qn 0], [qn 1]); ([qn 1], [qn 1])] (fun _ => 1) [[Q2Qc (3 # 2)]] (Some [1]) = Err UnboundLocalError /\
  exists res, pick_primal Qofield [([qn 0], [qn 1]); ([qn 1], [qn 1])] (fun _ => 0) [[Q2Qc (1 # 2)]] (Some [1]) = Ok res /\ map fst res = [0].
Proof.
  split.
  - apply C63_fundamental_guess_refuted; auto.
    + intros c [<-|[]]. cbn. lia.
    + intros [|i] H; cbn in H; [|lia]. constructor; [vm_compute; reflexivity|constructor].
  - eexists. split; [reflexivity|vm_compute; reflexivity].
Qed.
(** One edge with its dual vertex and two boundary vertices; the second half of the edge is a box with a reversed axis. *)
Definition edge_PP (k i : nat) : list Qofield := if (k =? 0)%nat then [qn i] else [Q2Qc (1 # 2)].
Definition edge_ops : list (nat -> nat -> Qofield) :=
  [fun i j => if ((i mod 3) =? j)%nat then qn 1 else qn 0; fun i j => if ((j =? 0) || (j =? S (i mod 2)))%nat then Q2Qc (1 # 2) else qn 0].
Definition edge_query (p : list Qofield) : nat := if fltb (Q2Qc (1 # 2) : Qofield) (nth 0 p (qn 0)) then 1 else 0.
Definition edge_form (j : nat) : Qofield := qn (nth j [8; 4; 2] 0).
Example C48_dual_example :
  match sample_dual_0 Qofield 1 3 edge_ops edge_PP [[0; 0]; [1; 0]] edge_query edge_form [[Q2Qc (1 # 4)]; [Q2Qc (3 # 4)]; [Q2Qc (1 # 2)]] with
  | Ok xs => map (fun q : Qc => this q) xs = [7 # 1; 13 # 2; 8 # 1]%Q
  | Err _ => False
  end /\
  exists xs, sample_dual_0 Qofield 1 3 edge_ops edge_PP [[0; 0]; [1; 0]] edge_query (fun _ => qn 5) [[Q2Qc (1 # 4)]; [Q2Qc (3 # 4)]] = Ok xs /\ xs = [qn 5; qn 5].
Proof.
  split; [vm_compute; reflexivity|].
  destruct (C48_dual Qofield 1 3 edge_ops edge_PP [[0; 0]; [1; 0]] edge_query (fun _ => qn 5) [[Q2Qc (1 # 4)]; [Q2Qc (3 # 4)]]) as (xs & E & R).
  - intros d [<-|[<-|[]]]; [exists [qn 0], [Q2Qc (1 # 2)]|exists [qn 1], [Q2Qc (1 # 2)]]; spans.
  - intros p [<-|[<-|[]]]; (split; [reflexivity|vm_compute; lia]).
  - reflexivity.
  - intros a i [<-|[<-|[]]]; cbn [seq map]; unfold rsum; cbn [fold_right].
    + pose proof (Nat.mod_upper_bound i 3 ltac:(lia)). destruct (i mod 3) as [|[|[|]]]; try lia; apply Qc_is_canon; vm_compute; reflexivity.
    + pose proof (Nat.mod_upper_bound i 2 ltac:(lia)). destruct (i mod 2) as [|[|]]; try lia; apply Qc_is_canon; vm_compute; reflexivity.
  - exists xs. split; auto. inversion R as [|? ? ? ? (lo & hi & _ & _ & H1) R']; subst. inversion R' as [|? ? ? ? (lo' & hi' & _ & _ & H2) R'']; subst. inversion R''; subst. f_equal; [apply H1; auto|f_equal; apply H2; auto].
Qed.
