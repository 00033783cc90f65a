(** C92: the metric of regular complexes. *)
Require Import List Arith ZArith QArith Qabs Bool Lia Lqa Permutation.
From Verif Require Import Util CombModel CombSpec SimpModel SimpSpec SimpProps BdryModel BdryProps OrientProofs AvgModel AvgProps SelProofs.
From Verif Require Import CubeModel CubeSpec CubeBits CubeBd CubeRel CubeTop CubeChain CDomModel CDomTop CAvgSpec CAvgProofs CAvgProps COrProps CDomProps.
From Verif Require Import SmoModel SmoProofs RMetModel RMetSpec RMetProofs RMetSums RMetMain.
Import ListNotations.
Local Open Scope nat_scope.
Local Notation "x == y" := (Qeq x y) (at level 70, no associativity).

Lemma degree_lists : forall row_leb n rows t, 1 <= n -> cubes_ok n rows -> from_cubes row_leb true n rows = Ok t ->
  exists deg, degree t = Ok deg /\ forall k, k < n -> length (nth k deg []) = n_elements t k /\
  forall e l, e < n_elements t k -> cofaces k n rows (el t k e) l ->
    (length l < 128 -> nth e (nth k deg []) 0%Z = Z.of_nat (length l)) /\ (length l = 128 -> nth e (nth k deg []) 0%Z = (-128)%Z).
Proof.
  intros row_leb n rows t Hn OK H. destruct (C69_degree_partial row_leb n rows t 0 Hn OK H ltac:(lia)) as (deg & _ & ED & _). exists deg. split; auto.
  intros k Hk. destruct (C69_degree_partial row_leb n rows t k Hn OK H Hk) as (deg' & d & ED' & Nd & Ld & X). rewrite ED in ED'. injection ED' as <-.
  rewrite (nth_error_nth _ _ _ Nd). auto.
Qed.
Lemma around_perm : forall n rows t k e l, 1 <= n -> ctop n rows t -> k < n -> e < n_elements t k -> cofaces k n rows (el t k e) l -> Permutation (around n rows t k e) l.
Proof.
  intros n rows t k e l Hn T Hk He [ND Hl]. apply NoDup_Permutation; auto; [apply NoDup_filter, seq_NoDup|].
  intros s. unfold around. rewrite filter_In, in_seq, Hl. split; intros [Hs F]; (split; [lia|apply (faceb_face n rows t Hn T); auto; lia]).
Qed.
Lemma vertex_measure : forall n V v, measure n V [v] == 1%Q.
Proof.
  intros n V v. unfold measure. induction (seq 0 n) as [|x l IH]; cbn [map product fold_right]; [reflexivity|]. fold (product (map (fun x => if flat V [v] x then 1%Q else extent V [v] x) l)). rewrite IH.
  assert (F : flat V [v] x = true) by (apply Qeq_bool_iff; unfold extent; cbn; ring). rewrite F. ring.
Qed.
Lemma metric_facts : forall row_leb sat n rows t V, 1 <= n -> cubes_ok n rows -> from_cubes row_leb true n rows = Ok t ->
  is_oriented sat t = Ok true -> (forall c, In c rows -> box n V c) ->
  exists PM DM deg, metric sat t V = Ok (PM, DM) /\ length PM = S n /\ length DM = S n /\
  (forall k, k < n -> length (nth k deg []) = n_elements t k /\
    forall e l, e < n_elements t k -> cofaces k n rows (el t k e) l ->
    (length l < 128 -> nth e (nth k deg []) 0%Z = Z.of_nat (length l)) /\ (length l = 128 -> nth e (nth k deg []) 0%Z = (-128)%Z)) /\
  (forall k, k <= n -> length (nth k PM []) = n_elements t k /\ length (nth (n - k) DM []) = n_elements t k) /\
  (forall e, e < n_elements t 0 -> exists x, nth e (nth 0 PM []) None = Some x /\ x == 1%Q) /\
  (forall k e, 1 <= k < n -> e < n_elements t k -> exists x, nth e (nth k PM []) None = over_degree x (nth e (nth k deg []) 0%Z) /\
    x == Qmult (inject_Z (Z.of_nat (length (around n rows t k e)))) (measure n V (el t k e))) /\
  (forall j, j < length rows -> exists x, nth j (nth n PM []) None = Some x /\ x == measure n V (nth j rows [])) /\
  (forall j, j < length rows -> nth j (nth 0 DM []) 0%Q == 1%Q) /\
  (forall k e, k < n -> e < n_elements t k -> nth e (nth (n - k) DM []) 0%Q == sumQ (map (fun j => dual_part n V (el t k e) (nth j rows [])) (around n rows t k e))).
Proof.
  intros row_leb sat n rows t V Hn OK H HO HB. destruct (from_cubes_ctop _ _ _ _ Hn OK H) as (_ & _ & _ & T).
  destruct (cubical_domains_ok n rows t Hn OK T) as (Ds & E1 & E2 & E3). destruct (degree_lists row_leb n rows t Hn OK H) as (deg & ED & HG).
  destruct (metric_ok n rows t V Ds Hn OK T E2 E3 HB (dim_t n rows t T) sat deg HO E1 ED ltac:(intros k Hk; apply HG; auto)) as (PM & DM & X). exists PM, DM, deg. tauto.
Qed.

(** For a mesh of boxes the dual metric of an element adds up the parts of its dual cell in the boxes around it: the
    box between the element and the middle of the big one.  The dual of a big box is a point and gets 1. *)
Theorem C92_dual : forall row_leb sat n rows t V, 1 <= n -> cubes_ok n rows -> from_cubes row_leb true n rows = Ok t ->
  is_oriented sat t = Ok true -> (forall c, In c rows -> box n V c) ->
  exists PM DM, metric sat t V = Ok (PM, DM) /\ length DM = S n /\
  (forall k e l, k < n -> e < n_elements t k -> cofaces k n rows (nth e (nth k (elements t) []) []) l ->
    length (nth (n - k) DM []) = n_elements t k /\
    nth e (nth (n - k) DM []) 0%Q == total (map (fun j => dual_part n V (nth e (nth k (elements t) []) []) (nth j rows [])) l)) /\
  length (nth 0 DM []) = length rows /\ forall j, j < length rows -> nth j (nth 0 DM []) 0%Q == 1%Q.
Proof.
  intros row_leb sat n rows t V Hn OK H HO HB. destruct (from_cubes_ctop _ _ _ _ Hn OK H) as (_ & _ & _ & T).
  destruct (metric_facts row_leb sat n rows t V Hn OK H HO HB) as (PM & DM & deg & EM & LP & LD & HG & LL & P0 & PK & PN & D0 & DK). exists PM, DM. split; auto. split; auto. split; [|split; auto].
  - intros k e l Hk He Hl. split; [apply LL; lia|]. rewrite (DK k e Hk He). change (total ?x) with (sumQ x). apply sumQ_perm, Permutation_map. apply around_perm; auto.
  - pose proof (proj2 (LL n (le_n n))) as W. rewrite Nat.sub_diag in W. rewrite W. unfold n_elements. rewrite (ct_top _ _ _ T). auto.
Qed.
Print Assumptions C92_dual.

(** The primal metric is the length, area, volume, ... of every element, when fewer than 128 big boxes meet in it; if 128
    do, the int8 degree makes it negative.  Vertices get 1. *)
Theorem C92_primal : forall row_leb sat n rows t V, 1 <= n -> cubes_ok n rows -> from_cubes row_leb true n rows = Ok t ->
  is_oriented sat t = Ok true -> (forall c, In c rows -> box n V c) ->
  exists PM DM, metric sat t V = Ok (PM, DM) /\ length PM = S n /\
  (forall k e l, 1 <= k < n -> e < n_elements t k -> cofaces k n rows (nth e (nth k (elements t) []) []) l ->
    length (nth k PM []) = n_elements t k /\
    (length l < 128 -> exists x, nth e (nth k PM []) None = Some x /\ x == measure n V (nth e (nth k (elements t) []) [])) /\
    (length l = 128 -> exists x, nth e (nth k PM []) None = Some x /\ x == Qopp (measure n V (nth e (nth k (elements t) []) [])))) /\
  (forall k e, k = 0 \/ k = n -> e < n_elements t k -> length (nth k PM []) = n_elements t k /\
    exists x, nth e (nth k PM []) None = Some x /\ x == measure n V (nth e (nth k (elements t) []) [])).
Proof.
  intros row_leb sat n rows t V Hn OK H HO HB. destruct (from_cubes_ctop _ _ _ _ Hn OK H) as (_ & _ & _ & T).
  destruct (metric_facts row_leb sat n rows t V Hn OK H HO HB) as (PM & DM & deg & EM & LP & LD & HG & LL & P0 & PK & PN & D0 & DK). exists PM, DM. split; auto. split; auto. split.
  - intros k e l Hk He Hl. split; [apply LL; lia|]. destruct (PK k e Hk He) as (x & E1 & E2). destruct (HG k ltac:(lia)) as [_ G]. destruct (G e l He Hl) as [G1 G2].
    pose proof (Permutation_length (around_perm n rows t k e l Hn T ltac:(lia) He Hl)) as PL. pose proof (cofaces_pos n rows t k e l Hn T ltac:(lia) He Hl) as Pos. rewrite PL in E2. fold (el t k e).
    split; intros Q.
    + rewrite E1, G1 by auto. unfold over_degree. destruct (Z.eqb_spec (Z.of_nat (length l)) 0); [lia|]. eexists. split; [reflexivity|]. rewrite E2. field. unfold Qeq. cbn. lia.
    + rewrite E1, G2 by auto. cbn [over_degree Z.eqb]. eexists. split; [reflexivity|]. rewrite E2, Q. change (inject_Z (Z.of_nat 128)) with (128 # 1)%Q. unfold Qdiv. change (Qinv (inject_Z (-128))) with (-1 # 128)%Q. ring.
  - intros k e [->| ->] He; (split; [apply LL; lia|]).
    + destruct (P0 e He) as (x & E1 & E2). exists x. split; auto. rewrite E2. rewrite (ct_verts _ _ _ T). rewrite (nth_map_lt _ _ _ _ _ 0) by (rewrite seq_length; auto). symmetry. apply vertex_measure.
    + unfold n_elements in He. rewrite (ct_top _ _ _ T) in *. apply PN. auto.
Qed.
Print Assumptions C92_primal.

(** The measures of all elements of one dimension, times those of their duals, add up to the volume of the mesh, once
    for each choice of directions. *)
Theorem C92_totals : forall row_leb sat n rows t V, 1 <= n -> cubes_ok n rows -> from_cubes row_leb true n rows = Ok t ->
  is_oriented sat t = Ok true -> (forall c, In c rows -> box n V c) ->
  exists PM DM, metric sat t V = Ok (PM, DM) /\
  forall k, k < n ->
    total (map (fun e => Qmult (measure n V (nth e (nth k (elements t) []) [])) (nth e (nth (n - k) DM []) 0%Q)) (seq 0 (n_elements t k))) ==
    Qmult (inject_Z (Z.of_nat (binom n k))) (total (map (measure n V) rows)).
Proof.
  intros row_leb sat n rows t V Hn OK H HO HB. destruct (from_cubes_ctop _ _ _ _ Hn OK H) as (_ & _ & _ & T).
  destruct (metric_facts row_leb sat n rows t V Hn OK H HO HB) as (PM & DM & deg & EM & LP & LD & HG & LL & P0 & PK & PN & D0 & DK). exists PM, DM. split; auto.
  intros k Hk. change (total ?x) with (sumQ x). change (total ?x) with (sumQ x).
  rewrite (sumQ_ext _ _ (fun e => Qmult (measure n V (el t k e)) (sumQ (map (fun j => dual_part n V (el t k e) (nth j rows [])) (around n rows t k e))))).
  - rewrite (totals n rows t V Hn OK T HB k Hk). apply Qmult_comp; [reflexivity|]. rewrite <- (map_map (fun j => nth j rows []) (measure n V)), <- (list_as_map _ [] rows). reflexivity.
  - intros e He. apply in_seq in He. rewrite (DK k e Hk ltac:(lia)). reflexivity.
Qed.
Print Assumptions C92_totals.

(** Meshes that are not oriented are refused. *)
Theorem C92_refused : forall sat t V, is_oriented sat t = Ok false -> metric sat t V = Err AssertionError.
Proof. intros sat t V H. unfold metric. rewrite H. reflexivity. Qed.
Print Assumptions C92_refused.

(** Two rectangles side by side, 1 x 2 and 2 x 2, with vertices 0, 1, 2 and 3, 4, 5 from left to right. *)
Definition pair_at (v : nat) : list Q := [nth (v mod 3) [0; 1; 3]%Q 0%Q; if v <? 3 then 0%Q else 2%Q].
Definition pair_ok (r : result (list (list (option Q)) * list (list Q))) : Prop :=
  exists PM DM, r = Ok (PM, DM) /\
  Forall2 (Forall2 (fun a b => exists x, a = Some x /\ x == b)) PM [[1;1;1;1;1;1]; [1;2;2;2;2;1;2]; [2;4]]%Q /\
  Forall2 (Forall2 Qeq) DM [[1;1]; [1;1#2;1;3#2;1;1;1]; [1#2;3#2;1;1#2;3#2;1]]%Q.
Example C92_example : cubes_ok 2 pair2 /\ (forall c, In c pair2 -> box 2 pair_at c) /\
  exists t, from_cubes lex_leb true 2 pair2 = Ok t /\ is_oriented brute_sat t = Ok true /\
  nth 1 (elements t) [] = [[0;1]; [3;0]; [1;2]; [1;4]; [2;5]; [4;3]; [5;4]] /\ pair_ok (metric brute_sat t pair_at).
Proof.
  split; [apply okb_ok; reflexivity|]. split.
  - intros c [<-|[<-|[]]]; [exists (fun i => 1 - i), (fun i => 0%Q), (fun i => if i =? 0 then 2%Q else 1%Q)|exists (fun i => 1 - i), (fun i => if i =? 0 then 0%Q else 1%Q), (fun i => 2%Q)];
    (split; [intros [|[|i]] Hi; [split; [auto|cbn; discriminate]|split; [auto|cbn; discriminate]|lia]|]; split; [intros; lia|]; intros [|x [|y [|]]] i Hy Hi; try discriminate; destruct x, y, i as [|[|]]; try lia; reflexivity).
  - eexists. split; [vm_compute; reflexivity|]. split; [vm_compute; reflexivity|]. split; [reflexivity|]. eexists. eexists. split; [vm_compute; reflexivity|].
    split; repeat (first [constructor|eexists; split; [reflexivity|]|reflexivity]).
Qed.
