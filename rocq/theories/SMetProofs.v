(** Proofs about the metric of spherical meshes. *)
Require Import Reals List Arith ZArith Bool Lia Lra Psatz Permutation Factorial Sorting.Sorted.
From Verif Require Import Util SimpModel SimpSpec CombSpec CombProofs SimpProofs ParProofs BdryModel SubdModel SubdSpec TopProofs OrientProofs LevelProofs FundProofs BaryProofs BarySub
  BarrProofs SphModel SphSpec SphProofs SphProps SMetModel SMetSpec.
Import ListNotations.
Local Open Scope R_scope.

Definition Rsum (l : list R) : R := fold_right Rplus 0 l.
Lemma Rsum_app : forall a b, Rsum (a ++ b) = Rsum a + Rsum b.
Proof. unfold Rsum. induction a as [|x a IH]; intros b; cbn; [ring|]. rewrite IH. ring. Qed.
Lemma Rsum_perm : forall a b, Permutation a b -> Rsum a = Rsum b.
Proof. unfold Rsum. induction 1; cbn; lra. Qed.
Lemma Rsum_flat : forall (A : Type) (f : A -> list R) l, Rsum (flat_map f l) = Rsum (map (fun x => Rsum (f x)) l).
Proof. induction l as [|x l IH]; cbn [flat_map map]; [auto|]. rewrite Rsum_app, IH. auto. Qed.
Lemma Rsum_const : forall (A : Type) (l : list A) c, Rsum (map (fun _ => c) l) = INR (length l) * c.
Proof. induction l as [|x l IH]; intros c; [cbn; ring|]. cbn [map length]. rewrite S_INR. unfold Rsum in *. cbn. rewrite IH. ring. Qed.
Lemma Rsum_scale : forall (A : Type) (f : A -> R) k l, Rsum (map (fun x => k * f x) l) = k * Rsum (map f l).
Proof. unfold Rsum. induction l as [|x l IH]; cbn; [ring|]. rewrite IH. ring. Qed.
(** sums over groups *)
Lemma Rsum_plus : forall (A : Type) (f g : A -> R) l, Rsum (map (fun x => f x + g x) l) = Rsum (map f l) + Rsum (map g l).
Proof. unfold Rsum. induction l as [|x l IH]; cbn; [ring|]. rewrite IH. ring. Qed.
Lemma Rsum_zero : forall (A : Type) (f : A -> R) l, (forall x, In x l -> f x = 0) -> Rsum (map f l) = 0.
Proof. unfold Rsum. induction l as [|x l IH]; intros H; cbn; [auto|]. rewrite H, IH; [ring| |left; auto]. intros. apply H. right; auto. Qed.
Lemma Rsum_one : forall (c : R) k K, NoDup K -> In k K -> Rsum (map (fun q => if Nat.eqb k q then c else 0) K) = c.
Proof.
  intros c k K ND. induction ND as [|q K N1 N2 IH]; intros I; [destruct I|]. cbn [map]. change (Rsum (?u :: ?l)) with (u + Rsum l).
  destruct (Nat.eqb_spec k q) as [->|NE].
  - rewrite Rsum_zero; [ring|]. intros x Hx. destruct (Nat.eqb_spec q x) as [E|]; [subst; contradiction|auto].
  - destruct I as [I|I]; [congruence|]. rewrite IH by auto. ring.
Qed.
Lemma Rsum_groups : forall (A : Type) (key : A -> nat) (g : A -> R) K l, NoDup K -> (forall x, In x l -> In (key x) K) ->
  Rsum (map (fun k => Rsum (map g (filter (fun x => Nat.eqb (key x) k) l))) K) = Rsum (map g l).
Proof.
  intros A key g K l ND. induction l as [|x l IH]; intros H; [apply Rsum_zero; auto|].
  rewrite (map_ext _ (fun k => (if Nat.eqb (key x) k then g x else 0) + Rsum (map g (filter (fun x => Nat.eqb (key x) k) l)))).
  - rewrite Rsum_plus, IH by (intros; apply H; right; auto). rewrite Rsum_one; auto. apply H. left; auto.
  - intros k. cbn [filter]. destruct (Nat.eqb (key x) k); cbn [map]; [auto|]. ring.
Qed.

Lemma all_some_map : forall (A B : Type) (g : A -> B) l, all_some (map (fun x => Some (g x)) l) = Some (map g l).
Proof. induction l as [|x l IH]; [auto|]. cbn [map all_some fold_right]. unfold all_some in *. cbn [fold_right]. rewrite IH. auto. Qed.
Lemma members_map : forall (A : Type) (key : A -> nat) (g : A -> R) k l,
  members k (map key l) (map (fun x => Some (g x)) l) = map (fun x => Some (g x)) (filter (fun x => Nat.eqb (key x) k) l).
Proof. unfold members. induction l as [|x l IH]; cbn; [auto|]. destruct (Nat.eqb (key x) k); cbn; rewrite IH; auto. Qed.
Lemma group_sum_map : forall (A : Type) (key : A -> nat) (g : A -> R) l,
  group_sum (map key l) (map (fun x => Some (g x)) l) = map (fun k => Some (Rsum (map g (filter (fun x => Nat.eqb (key x) k) l)))) (unique_nat (map key l)).
Proof. intros. apply map_ext. intros k. unfold osum. rewrite members_map, all_some_map. auto. Qed.
Lemma group_mean_map : forall (A : Type) (key : A -> nat) (g : A -> R) l,
  group_mean (map key l) (map (fun x => Some (g x)) l) =
  map (fun k => Some (Rsum (map g (filter (fun x => Nat.eqb (key x) k) l)) / INR (length (filter (fun x => Nat.eqb (key x) k) l)))) (unique_nat (map key l)).
Proof. intros. apply map_ext. intros k. unfold osum. rewrite members_map, all_some_map. cbn. rewrite map_length. auto. Qed.
Lemma adds_to_map : forall (A : Type) (g : A -> R) l, adds_to (map (fun x => Some (g x)) l) (Rsum (map g l)).
Proof. induction l as [|x l IH]; cbn; constructor. auto. Qed.

(** ---- triangles cut at a side and an inner point ---- *)
Notation area := triangle_area_from_corners.
Lemma area_rot : forall a b c, length a = 3%nat -> length b = 3%nat -> length c = 3%nat -> area a b c = area b c a.
Proof. intros. apply C89_order; auto. Qed.
Lemma area_swap : forall a b c, length a = 3%nat -> length b = 3%nat -> length c = 3%nat -> area a b c = area b a c.
Proof. intros. apply C89_order; auto. Qed.
Lemma inside_rot : forall a b c p, length b = length a -> inside a b c p -> inside b c a p.
Proof. intros a b c p L (x & y & z & X & Y & Z & L' & H). exists y, z, x. repeat (split; [lra|]). split; [congruence|]. intros i. rewrite H. ring. Qed.
Lemma half_side : forall u w p m, length u = 3%nat -> length w = 3%nat -> length p = 3%nat -> independent u w p -> between u m w ->
  length m = 3%nat /\ independent u m p /\ independent w m p /\ area u m p + area w m p = area u w p /\ 0 <= area u m p /\ 0 <= area w m p.
Proof.
  intros u w p m U W P I B. pose proof B as (x & y & X & Y & K). pose proof K as (Lm & _ & _). assert (M : length m = 3%nat) by lia.
  assert (I' : independent p u w) by (apply indep_rot, indep_rot; auto). destruct (indep_cut p u w m x y I' X Y K) as [I1 I2].
  assert (J1 : independent u m p) by (apply indep_rot; auto). assert (J2 : independent w m p) by (apply indep_swap, indep_rot; auto).
  split; auto. split; auto. split; auto. pose proof (C89_cut p u w m P U W I' B) as C. rewrite (area_rot p u w), (area_rot p u m), (area_rot p m w) in C by auto. rewrite (area_swap m w p) in C by auto.
  split; [lra|]. destruct (area_indep u m p U M P J1) as [-> ?]. destruct (area_indep w m p W M P J2) as [-> ?]. auto.
Qed.

(** ---- positions of the centres ---- *)
Section Mesh.
Set Default Proof Using "All".
Variables (n : nat) (rows : list simplex) (t : topology).
Hypothesis Hn : (1 <= n)%nat.
Hypothesis Hn2 : (n <= 2)%nat.
Hypothesis T : top_ok n rows t.
Variables (d : nat) (vertices : nat -> vec) (bary : nat -> nat -> list R).
Hypothesis S : on_unit_sphere t d vertices.
Hypothesis C : inner_centres n t bary.
Hypothesis Hd : n = 2%nat -> d = 3%nat.
Notation position := (position t d vertices bary).
Notation weighted := (weighted d vertices).

Definition corners (k e : nat) : list nat := nth e (nth k (elements t) []) [].
Definition pos (k e : nat) : vec := match position k e with Some p => p | None => [] end.
Definition arc (a b : vec) : R := acos (dot a b).

Lemma corners_ok : forall k e, (k <= n)%nat -> (e < n_elements t k)%nat -> length (corners k e) = Datatypes.S k /\ NoDup (corners k e).
Proof. intros. apply (el_len n rows t Hn T); auto. Qed.
Lemma corner_lt : forall k e v, (k <= n)%nat -> (e < n_elements t k)%nat -> In v (corners k e) -> (v < n_elements t 0)%nat.
Proof.
  intros k e v Hk He Hv. destruct (flag_through n rows t Hn T k e Hk He) as (fl & Hf & E). apply (D_in n rows t Hn T) in Hf as (j & Hj & F). destruct F as (L & Ej & B & I).
  assert (Q : forall i, (i <= n - k)%nat -> incl (corners k e) (corners (k + i) (nth (k + i) fl 0%nat))).
  { induction i as [|i IH]; intros Hi; [rewrite Nat.add_0_r, E; apply incl_refl|]. rewrite <- plus_n_Sm. eapply incl_tran; [apply IH; lia|]. apply I. lia. }
  specialize (Q (n - k)%nat (le_n _)). replace (k + (n - k))%nat with n in Q by lia. rewrite Ej in Q. apply Q in Hv.
  apply (to_vused _ _ _ T). apply in_concat. exists (corners n j). split; auto. unfold corners. rewrite (to_top _ _ _ T). apply nth_In. auto.
Qed.
Lemma vertex_on : forall v, (v < n_elements t 0)%nat -> on_sphere d (vertices v). Proof. apply S. Qed.
Lemma corner_on : forall k e v, (k <= n)%nat -> (e < n_elements t k)%nat -> In v (corners k e) -> on_sphere d (vertices v).
Proof. intros. apply vertex_on. eapply corner_lt; eauto. Qed.

Lemma weighted_nth : forall cs b, (forall v, In v cs -> length (vertices v) = d) ->
  length (weighted cs b) = d /\ forall i, nth i (weighted cs b) 0 = fold_right (fun cb s => snd cb * nth i (fst cb) 0 + s) 0 (combine (map vertices cs) b).
Proof.
  unfold SMetModel.weighted. induction cs as [|c cs IH]; intros b H; [cbn; split; [apply repeat_length|intros; apply nth_repeat]|].
  destruct b as [|x b]; [cbn; split; [apply repeat_length|intros; apply nth_repeat]|]. cbn [combine map fold_right fst snd].
  destruct (IH b) as [L N]; [intros; apply H; right; auto|]. pose proof (H c (or_introl eq_refl)) as Lc.
  split; [rewrite vadd_length; rewrite vscale_length; congruence|]. intros i. rewrite nth_vadd by (rewrite vscale_length; congruence). rewrite nth_vscale, N. auto.
Qed.

Lemma not_opposite : forall a b, on_sphere d a -> on_sphere d b -> b <> opposite a -> -1 < dot a b.
Proof.
  intros a b A B N. destruct (edge_some d a b A B) as [_ [R _]]. apply on_sphere_dot in A as [LA A]. apply on_sphere_dot in B as [LB B].
  destruct R as [|E]; auto. exfalso. apply N. apply vec_ext; [unfold opposite; rewrite map_length; congruence|]. intros i.
  assert (Z : dot (vadd a b) (vadd a b) = 0) by (rewrite !dot_add_l, !dot_add_r, A, B, (dot_comm b a) by congruence; lra).
  pose proof (dot_zero _ i Z) as Q. rewrite nth_vadd in Q by congruence. rewrite opposite_scale, nth_vscale. lra.
Qed.

Lemma weighted_pos : forall k e, (k <= n)%nat -> (e < n_elements t k)%nat -> 0 < dot (weighted (corners k e) (bary k e)) (weighted (corners k e) (bary k e)).
Proof.
  intros k e Hk He. destruct (corners_ok k e Hk He) as [L ND]. destruct (C k e Hk He) as [Lb Pb]. pose proof (fun v => corner_on k e v Hk He) as On.
  destruct (weighted_nth (corners k e) (bary k e) (fun v Hv => proj1 (On v Hv))) as [LW NW]. set (w := weighted (corners k e) (bary k e)) in *.
  destruct (corners k e) as [|a [|b [|c [|]]]] eqn:Ec; cbn in L; try lia.
  - assert (k = 0)%nat by lia. subst k. destruct (bary 0 e) as [|x [|]]; cbn in Lb; try lia. destruct (proj1 (on_sphere_dot _ _) (On a (or_introl eq_refl))) as [La Da].
    assert (x * x * 1 = dot w w). { rewrite <- Da. replace w with (vscale x (vertices a)); [rewrite dot_scale_l, dot_scale_r; ring|]. apply vec_ext; [rewrite vscale_length; congruence|]. intros i. rewrite NW, nth_vscale. cbn. ring. }
    pose proof (Pb x (or_introl eq_refl)). nra.
  - assert (k = 1)%nat by lia. subst k. destruct (bary 1 e) as [|x [|y [|]]]; cbn in Lb; try lia. pose proof (On a (or_introl eq_refl)) as Oa. pose proof (On b (or_intror (or_introl eq_refl))) as Ob.
    pose proof (not_opposite _ _ Oa Ob (proj1 (proj2 S) e a b He Ec)) as Q. destruct (proj1 (on_sphere_dot _ _) Oa) as [La Da]. destruct (proj1 (on_sphere_dot _ _) Ob) as [Lb' Db].
    assert (E : w = vadd (vscale x (vertices a)) (vscale y (vertices b))). { apply combination_eq. split; [congruence|]. split; [congruence|]. intros i. rewrite NW. cbn. ring. }
    rewrite E. rewrite !dot_add_l, !dot_add_r, !dot_scale_l, !dot_scale_r, Da, Db, (dot_comm (vertices b)) by (rewrite !vscale_length; congruence).
    pose proof (Pb x (or_introl eq_refl)) as X. pose proof (Pb y (or_intror (or_introl eq_refl))) as Y.
    pose proof (Rmult_lt_0_compat _ _ X Y) as XY. assert (Z : 0 < (x * y) * (1 + dot (vertices a) (vertices b))) by (apply Rmult_lt_0_compat; lra).
    pose proof (Rle_0_sqr (x - y)) as SQ. unfold Rsqr in SQ. clear - Z SQ. lra.
  - assert (k = 2)%nat by lia. subst k. destruct (bary 2 e) as [|x [|y [|z [|]]]]; cbn in Lb; try lia. pose proof (proj2 (proj2 S) e a b c He Ec) as I.
    destruct (Rle_lt_or_eq_dec _ _ (dot_nonneg w)) as [|Z]; auto. exfalso. destruct (I x y z) as (X & _).
    + intros i. pose proof (dot_zero w i (eq_sym Z)) as Q. rewrite NW in Q. cbn in Q. lra.
    + pose proof (Pb x (or_introl eq_refl)). lra.
Qed.

Lemma position_ok : forall k e, (k <= n)%nat -> (e < n_elements t k)%nat ->
  position k e = Some (pos k e) /\ on_sphere d (pos k e) /\ central (map vertices (corners k e)) (bary k e) (pos k e).
Proof.
  intros k e Hk He. pose proof (weighted_pos k e Hk He) as P. unfold pos, SMetModel.position. fold (corners k e). rewrite normalized_pos by auto. split; auto.
  destruct (weighted_nth (corners k e) (bary k e) (fun v Hv => proj1 (corner_on k e v Hk He Hv))) as [LW NW]. split.
  - split; [rewrite vscale_length; auto|]. rewrite <- dot_inner by auto. apply unit_of_dot; auto.
  - exists (/ norm (weighted (corners k e) (bary k e))). split; [apply Rinv_0_lt_compat, norm_pos; auto|]. intros i. rewrite nth_vscale, NW. auto.
Qed.

(** a point of the sphere is given by its coordinates *)
Lemma central_unique : forall cs b p q, on_sphere d p -> on_sphere d q -> central cs b p -> central cs b q -> p = q.
Proof.
  intros cs b p q P Q (k & K & Ep) (l & L & Eq). apply on_sphere_dot in P as [LP P]. apply on_sphere_dot in Q as [LQ Q].
  assert (E : p = vscale (k / l) q). { apply vec_ext; [rewrite vscale_length; congruence|]. intros i. rewrite nth_vscale, Ep, Eq. field. lra. }
  assert (M : 0 < k / l) by (apply Rdiv_lt_0_compat; auto). set (m := k / l) in *.
  assert (m * m = 1) by (rewrite E, dot_scale_l, dot_scale_r, Q in P; lra). assert (m = 1) by nra.
  rewrite E, H0. apply vec_ext; [apply vscale_length|]. intros i. rewrite nth_vscale. ring.
Qed.
Lemma pos_unique : forall k e p, (k <= n)%nat -> (e < n_elements t k)%nat -> on_sphere d p -> central (map vertices (corners k e)) (bary k e) p -> p = pos k e.
Proof. intros k e p Hk He P Q. destruct (position_ok k e Hk He) as (_ & A & B). eapply central_unique; eauto. Qed.

Lemma pos_vertex : forall v, (v < n_elements t 0)%nat -> pos 0 v = vertices v.
Proof.
  intros v Hv. symmetry. apply pos_unique; auto; [lia|apply vertex_on; auto|]. destruct (C 0%nat v (Nat.le_0_l _) Hv) as [Lb Pb].
  unfold corners. pose proof (vert_el n rows t T v Hv) as E. unfold el in E. rewrite E. destruct (bary 0 v) as [|x [|]]; cbn in Lb; try lia. pose proof (Pb x (or_introl eq_refl)).
  exists (/ x). split; [apply Rinv_0_lt_compat; auto|]. intros i. cbn. field. lra.
Qed.
Lemma pos_edge : forall e a b, (e < n_elements t 1)%nat -> corners 1 e = [a; b] -> between (vertices a) (pos 1 e) (vertices b).
Proof.
  intros e a b He E. destruct (position_ok 1 e Hn He) as (_ & [LP _] & (k & K & H)). rewrite E in H. destruct (C 1%nat e Hn He) as [Lb Pb]. destruct (bary 1 e) as [|x [|y [|]]]; cbn in Lb; try lia.
  pose proof (Pb x (or_introl eq_refl)). pose proof (Pb y (or_intror (or_introl eq_refl))).
  pose proof (corner_on 1 e a Hn He ltac:(rewrite E; left; auto)) as [La _]. pose proof (corner_on 1 e b Hn He ltac:(rewrite E; right; left; auto)) as [Lb' _].
  exists (k * x), (k * y). split; [nra|]. split; [nra|]. split; [congruence|]. split; [congruence|]. intros i. rewrite H. cbn. ring.
Qed.
Lemma pos_face : forall f a b c, (2 <= n)%nat -> (f < n_elements t 2)%nat -> corners 2 f = [a; b; c] -> inside (vertices a) (vertices b) (vertices c) (pos 2 f).
Proof.
  intros f a b c H2 He E. destruct (position_ok 2 f H2 He) as (_ & [LP _] & (k & K & H)). rewrite E in H. destruct (C 2%nat f H2 He) as [Lb Pb]. destruct (bary 2 f) as [|x [|y [|z [|]]]]; cbn in Lb; try lia.
  pose proof (Pb x (or_introl eq_refl)). pose proof (Pb y (or_intror (or_introl eq_refl))). pose proof (Pb z (or_intror (or_intror (or_introl eq_refl)))).
  pose proof (corner_on 2 f a H2 He ltac:(rewrite E; left; auto)) as [La _].
  exists (k * x), (k * y), (k * z). split; [nra|]. split; [nra|]. split; [nra|]. split; [congruence|]. intros i. rewrite H. cbn. ring.
Qed.
Lemma pos_arc : forall k e k' e', (k <= n)%nat -> (e < n_elements t k)%nat -> (k' <= n)%nat -> (e' < n_elements t k')%nat -> edge_length (pos k e) (pos k' e') = Some (arc (pos k e) (pos k' e')).
Proof. intros k e k' e' Hk He Hk' He'. apply (edge_some d); [apply (position_ok k e)|apply (position_ok k' e')]; auto. Qed.

(** ---- domains ---- *)
Notation DD := (D n rows t).
Definition tri (row : list nat) : R := area (pos 0 (nth 0 row 0%nat)) (pos 1 (nth 1 row 0%nat)) (pos 2 (nth 2 row 0%nat)).
Definition half (k : nat) (row : list nat) : R := arc (pos k (nth k row 0%nat)) (pos (Datatypes.S k) (nth (Datatypes.S k) row 0%nat)).

Lemma row_lt : forall row k, In row DD -> (k <= n)%nat -> (nth k row 0 < n_elements t k)%nat.
Proof. intros row k Hr Hk. apply (D_in n rows t Hn T) in Hr as (j & Hj & (_ & _ & B & _)). auto. Qed.
Lemma row_incl : forall row k, In row DD -> (k < n)%nat -> incl (corners k (nth k row 0%nat)) (corners (Datatypes.S k) (nth (Datatypes.S k) row 0%nat)).
Proof. intros row k Hr Hk. apply (D_in n rows t Hn T) in Hr as (j & Hj & (_ & _ & _ & I)). apply I. auto. Qed.
Lemma corners_vertex : forall v, (v < n_elements t 0)%nat -> corners 0 v = [v].
Proof. intros. apply (vert_el n rows t T). auto. Qed.
Lemma row_vertex : forall row, In row DD -> In (nth 0 row 0%nat) (corners 1 (nth 1 row 0%nat)).
Proof. intros row Hr. apply (row_incl row 0 Hr Hn). rewrite corners_vertex by (apply row_lt; auto; lia). left; auto. Qed.

Lemma column_keys : forall k, (k <= n)%nat -> unique_nat (map (fun row => nth k row 0%nat) DD) = seq 0 (n_elements t k).
Proof.
  intros k Hk. apply (sorted_perm_eq nat lt); [lia|apply unique_nat_sorted|apply seq_sorted|]. apply NoDup_Permutation; [apply unique_nat_nodup|apply seq_NoDup|].
  intros x. rewrite unique_nat_in, in_map_iff, in_seq. split.
  - intros (row & <- & Hr). pose proof (row_lt row k Hr Hk). lia.
  - intros [_ H]. destruct (flag_through n rows t Hn T k x Hk H) as (fl & Hf & E). exists fl. auto.
Qed.

Lemma volume_half : forall k row, In row DD -> (k < n)%nat -> volume t d vertices bary k 1 row = Ok (Some (half k row)).
Proof.
  intros k row Hr Hk. unfold volume. cbn [Nat.eqb andb seq map]. rewrite (proj1 (position_ok k (nth k row 0%nat) ltac:(lia) (row_lt row k Hr ltac:(lia)))). rewrite (proj1 (position_ok (Datatypes.S k) (nth (Datatypes.S k) row 0%nat) ltac:(lia) (row_lt row (Datatypes.S k) Hr ltac:(lia)))).
  cbn [all_some fold_right unsigned_volume]. rewrite pos_arc; auto; try lia; apply row_lt; auto; lia.
Qed.

(** An edge of a triangle and the third corner. *)
Lemma third : forall e f, (2 <= n)%nat -> (e < n_elements t 1)%nat -> (f < n_elements t 2)%nat -> incl (corners 1 e) (corners 2 f) ->
  exists u w, corners 1 e = [u; w] /\ length (vertices u) = 3%nat /\ length (vertices w) = 3%nat /\ length (pos 2 f) = 3%nat /\ independent (vertices u) (vertices w) (pos 2 f).
Proof.
  intros e f H2 He Hf I. destruct (corners_ok 1 e Hn He) as [L ND]. destruct (corners_ok 2 f H2 Hf) as [L' ND'].
  destruct (corners 1 e) as [|u [|w [|]]] eqn:E; cbn in L; try lia. exists u, w. split; auto.
  pose proof (corner_on 1 e u Hn He ltac:(rewrite E; left; auto)) as [Lu _]. pose proof (corner_on 1 e w Hn He ltac:(rewrite E; right; left; auto)) as [Lw _].
  destruct (position_ok 2 f H2 Hf) as (_ & [Lp _] & _). rewrite Hd in Lu, Lw, Lp by lia. split; auto. split; auto. split; auto.
  destruct (corners 2 f) as [|a [|b [|c [|]]]] eqn:Ef; cbn in L'; try lia. pose proof (proj2 (proj2 S) f a b c Hf Ef) as J. pose proof (pos_face f a b c H2 Hf Ef) as K.
  assert (On : forall v, In v [a; b; c] -> length (vertices v) = 3%nat). { intros v Hv. rewrite <- Hd by lia. apply (corner_on 2 f v H2 Hf). rewrite Ef. auto. }
  pose proof (On a ltac:(cbn; auto)) as La. pose proof (On b ltac:(cbn; auto)) as Lb. pose proof (On c ltac:(cbn; auto)) as Lc.
  destruct (C89_inside _ _ _ _ La Lb Lc J K) as (I1 & I2 & I3 & _).
  assert (NE : u <> w) by (inversion ND as [|? ? N _]; subst; intros ->; apply N; left; auto).
  pose proof (I u (or_introl eq_refl)) as Iu. pose proof (I w (or_intror (or_introl eq_refl))) as Iw.
  destruct Iu as [<-|[<-|[<-|[]]]], Iw as [<-|[<-|[<-|[]]]]; try congruence; auto using indep_swap.
Qed.

Lemma row_area : forall row, (2 <= n)%nat -> In row DD -> 0 <= tri row /\ exists u w, corners 1 (nth 1 row 0%nat) = [u; w] /\
  area (vertices u) (pos 1 (nth 1 row 0%nat)) (pos 2 (nth 2 row 0%nat)) + area (vertices w) (pos 1 (nth 1 row 0%nat)) (pos 2 (nth 2 row 0%nat)) = area (vertices u) (vertices w) (pos 2 (nth 2 row 0%nat)).
Proof.
  intros row H2 Hr. pose proof (row_lt row 0 Hr ltac:(lia)) as B0. pose proof (row_lt row 1 Hr ltac:(lia)) as B1. pose proof (row_lt row 2 Hr H2) as B2.
  destruct (third _ _ H2 B1 B2 (row_incl row 1 Hr ltac:(lia))) as (u & w & E & Lu & Lw & Lp & I). pose proof (row_vertex row Hr) as V. rewrite E in V.
  destruct (half_side _ _ _ _ Lu Lw Lp I (pos_edge _ u w B1 E)) as (_ & _ & _ & A & P1 & P2). split.
  - unfold tri. rewrite pos_vertex by auto. destruct V as [<-|[<-|[]]]; auto.
  - exists u, w. auto.
Qed.

Lemma volume_tri : forall row, n = 2%nat -> In row DD -> volume t d vertices bary 0 2 row = Ok (Some (tri row)).
Proof.
  intros row H2 Hr. unfold volume. rewrite Hd by auto. cbn [Nat.eqb andb negb seq map]. rewrite <- (Hd H2).
  rewrite (proj1 (position_ok 0 (nth 0 row 0%nat) ltac:(lia) (row_lt row 0 Hr ltac:(lia)))). rewrite (proj1 (position_ok 1 (nth 1 row 0%nat) ltac:(lia) (row_lt row 1 Hr ltac:(lia)))). rewrite (proj1 (position_ok 2 (nth 2 row 0%nat) ltac:(lia) (row_lt row 2 Hr ltac:(lia)))).
  cbn [all_some fold_right unsigned_volume]. destruct (position_ok 0 (nth 0 row 0%nat) ltac:(lia) (row_lt row 0 Hr ltac:(lia))) as (_ & [L _] & _). rewrite L, Hd by auto. cbn [Nat.eqb].
  do 2 f_equal. apply Rabs_right. apply Rle_ge. apply row_area; auto. lia.
Qed.

(** ---- the flags through one element ---- *)
Lemma rows_of_top : forall f, (f < n_elements t n)%nat -> Permutation (filter (fun row => Nat.eqb (nth n row 0%nat) f) DD) (block n rows t f).
Proof.
  intros f Hf. rewrite (n_top n rows t T) in Hf. apply NoDup_Permutation; [apply NoDup_filter, (D_nodup n rows t Hn T)|apply (block_nodup n rows t Hn T); auto|].
  intros row. rewrite filter_In, (D_in n rows t Hn T), (block_spec n rows t Hn T f row Hf), Nat.eqb_eq. split.
  - intros ((j & Hj & F) & E). pose proof F as (_ & Ej & _). congruence.
  - intros F. split; [eauto|apply F].
Qed.
Lemma rows_of_edge : forall e, (e < n_elements t 1)%nat -> n = 2%nat ->
  Permutation (filter (fun row => Nat.eqb (nth 1 row 0%nat) e) DD)
    (flat_map (fun f => map (fun v => [v; e; f]) (corners 1 e)) (filter (fun f => inclb (corners 1 e) (corners 2 f)) (seq 0 (n_elements t 2)))).
Proof.
  intros e He H2. apply NoDup_Permutation; [apply NoDup_filter, (D_nodup n rows t Hn T)| |].
  - apply NoDup_flat_map; [apply NoDup_filter, seq_NoDup| |].
    + intros f _. apply NoDup_map_inj; [intros x y _ _ E; congruence|apply corners_ok; auto].
    + intros f f' b _ _ H1 H1'. apply in_map_iff in H1 as (v & <- & _). apply in_map_iff in H1' as (v' & E & _). congruence.
  - intros row. rewrite filter_In, (D_in n rows t Hn T), Nat.eqb_eq, in_flat_map. split.
    + intros ((j & Hj & F) & E). destruct F as (L & Ej & B & I). rewrite H2 in L, Ej, B, I. destruct row as [|v [|e' [|f [|]]]]; cbn in L; try lia. cbn in E, Ej. subst e' f.
      exists j. split.
      * apply filter_In. split; [apply in_seq; specialize (B 2%nat (le_n _)); cbn in B; lia|]. unfold inclb. destruct (incl_dec' _ _) as [|N]; auto. exfalso. apply N. apply (I 1%nat). lia.
      * apply in_map_iff. exists v. split; auto. apply (I 0%nat ltac:(lia)). specialize (B 0%nat ltac:(lia)). change (In v (corners 0 v)). rewrite (corners_vertex v B). left; auto.
    + intros (f & Hf & Hr). apply filter_In in Hf as [Hf If]. apply in_seq in Hf. apply in_map_iff in Hr as (v & <- & Hv). unfold inclb in If. destruct (incl_dec' _ _) as [I|]; [|discriminate].
      split; [|reflexivity]. exists f. pose proof (n_top n rows t T) as NT. rewrite H2 in NT. split; [lia|]. unfold is_flag. rewrite H2. split; [reflexivity|]. split; [reflexivity|]. pose proof (corner_lt 1 e v ltac:(lia) He Hv) as Bv. split.
      * intros k Hk. destruct k as [|[|[|]]]; cbn; auto; lia.
      * intros k Hk. destruct k as [|[|]]; cbn; try lia; auto. intros x Hx. change (In x (corners 0 v)) in Hx. rewrite corners_vertex in Hx by auto. destruct Hx as [<-|[]]. auto.
Qed.

(** ---- values ---- *)
Lemma arc_comm : forall a b, arc a b = arc b a. Proof using. intros. unfold arc. rewrite dot_comm. auto. Qed.
Lemma arc_halves : forall e a b, (e < n_elements t 1)%nat -> corners 1 e = [a; b] ->
  arc (vertices a) (pos 1 e) + arc (vertices b) (pos 1 e) = arc (vertices a) (vertices b) /\ edge_length (vertices a) (vertices b) = Some (arc (vertices a) (vertices b)).
Proof.
  intros e a b He E. pose proof (corner_on 1 e a Hn He ltac:(rewrite E; left; auto)) as Oa. pose proof (corner_on 1 e b Hn He ltac:(rewrite E; right; left; auto)) as Ob.
  destruct (position_ok 1 e Hn He) as (_ & Om & _). destruct (C87_split d _ _ _ Oa Om Ob (pos_edge e a b He E)) as (l & m & E1 & E2 & E3).
  rewrite (proj1 (edge_some d _ _ Oa Om)) in E1. rewrite (proj1 (edge_some d _ _ Om Ob)) in E2. rewrite (proj1 (edge_some d _ _ Oa Ob)) in E3. split; [|apply (edge_some d); auto].
  rewrite (arc_comm (vertices b)). unfold arc. injection E1 as <-. injection E2 as <-. injection E3 as E3. lra.
Qed.
Definition around (e : nat) : list nat := filter (fun f => inclb (corners 1 e) (corners 2 f)) (seq 0 (n_elements t 2)).

Lemma edge_rows : forall e a b (g : list nat -> R), (e < n_elements t 1)%nat -> n = 2%nat -> corners 1 e = [a; b] ->
  Rsum (map g (filter (fun row => Nat.eqb (nth 1 row 0%nat) e) DD)) = Rsum (map (fun f => g [a; e; f] + g [b; e; f]) (around e)) /\
  length (filter (fun row => Nat.eqb (nth 1 row 0%nat) e) DD) = (2 * length (around e))%nat /\ (0 < length (around e))%nat.
Proof.
  intros e a b g He H2 E. pose proof (rows_of_edge e He H2) as P. fold (around e) in P. rewrite E in P. cbn [map] in P.
  assert (L : length (filter (fun row => Nat.eqb (nth 1 row 0%nat) e) DD) = (2 * length (around e))%nat).
  { rewrite (Permutation_length P). clear. induction (around e) as [|f l IH]; [auto|]. cbn [flat_map app length]. rewrite IH. cbn [length]. lia. }
  split; [|split; auto].
  - rewrite (Rsum_perm _ _ (Permutation_map g P)). clear. induction (around e) as [|f l IH]; [auto|]. cbn [flat_map map app]. unfold Rsum in *. cbn [fold_right]. rewrite IH. ring.
  - destruct (flag_through n rows t Hn T 1 e Hn He) as (fl & Hf & Ef). assert (I : In fl (filter (fun row => Nat.eqb (nth 1 row 0%nat) e) DD)) by (apply filter_In; split; auto; apply Nat.eqb_eq; auto).
    destruct (filter (fun row => Nat.eqb (nth 1 row 0%nat) e) DD); [destruct I|]. cbn [length] in L. lia.
Qed.
Lemma edge_value : forall e a b, (e < n_elements t 1)%nat -> n = 2%nat -> corners 1 e = [a; b] ->
  Rsum (map (half 0) (filter (fun row => Nat.eqb (nth 1 row 0%nat) e) DD)) / INR (length (filter (fun row => Nat.eqb (nth 1 row 0%nat) e) DD)) * 2 = arc (vertices a) (vertices b).
Proof.
  intros e a b He H2 E. destruct (edge_rows e a b (half 0) He H2 E) as (-> & -> & P). 
  rewrite (map_ext (fun f => half 0 [a; e; f] + half 0 [b; e; f]) (fun _ => arc (vertices a) (vertices b))).
  - rewrite Rsum_const, mult_INR. assert (0 < INR (length (around e))) by (apply lt_0_INR; auto). change (INR 2) with (1 + 1). field. lra.
  - intros f. unfold half. cbn [nth]. rewrite !pos_vertex by (apply (corner_lt 1 e); auto; rewrite E; cbn; auto). apply arc_halves; auto.
Qed.
Lemma dual_edge_value : forall e, (e < n_elements t 1)%nat -> n = 2%nat ->
  Rsum (map (half 1) (filter (fun row => Nat.eqb (nth 1 row 0%nat) e) DD)) * / 2 = Rsum (map (fun f => arc (pos 1 e) (pos 2 f)) (around e)).
Proof.
  intros e He H2. destruct (corners_ok 1 e Hn He) as [L _]. destruct (corners 1 e) as [|a [|b [|]]] eqn:E; cbn in L; try lia.
  destruct (edge_rows e a b (half 1) He H2 E) as (-> & _ & _). rewrite Rmult_comm, <- Rsum_scale. f_equal. apply map_ext. intros f. unfold half. cbn [nth]. field.
Qed.

Lemma side_value : forall f c, n = 2%nat -> (f < n_elements t 2)%nat -> (c < 3)%nat -> forall a b, Permutation (omit c (corners 2 f)) [a; b] ->
  Rsum (map (fun v => tri [v; idx t 1 (facet 2 c (corners 2 f)); f]) (facet 2 c (corners 2 f))) = area (vertices a) (vertices b) (pos 2 f).
Proof.
  intros f c H2 Hf Hc a b Pab. destruct (corners_ok 2 f ltac:(lia) Hf) as [L ND]. set (s := corners 2 f) in *. set (g := facet 2 c s).
  assert (Pg : Permutation (omit c s) g) by (apply facet_perm; lia).
  assert (Lg : length g = 2%nat) by (unfold g; rewrite facet_length by lia; lia).
  assert (Is : FundProofs.inside rows s).
  { pose proof (rows_inside n rows t Hn T) as R. rewrite Forall_forall in R. apply R. unfold s, corners. rewrite <- H2, (to_top _ _ _ T). apply nth_In. rewrite <- (n_top n rows t T), H2. auto. }
  destruct (idx_ok n rows t Hn T 1 g ltac:(lia) Lg (facet_inside rows 2 c s ltac:(lia) Is)) as [Bi Pi]. set (i := idx t 1 g) in *. change (el t 1 i) with (corners 1 i) in Pi.
  assert (In1 : incl (corners 1 i) s). { intros x Hx. apply (Permutation_in x Pi) in Hx. apply (Permutation_in x (Permutation_sym Pg)) in Hx. apply (omit_incl c s x Hx). }
  destruct (third i f ltac:(lia) Bi Hf In1) as (u & w & E & Lu & Lw & Lp & I).
  destruct (half_side _ _ _ _ Lu Lw Lp I (pos_edge i u w Bi E)) as (_ & _ & _ & A & _ & _).
  rewrite (Rsum_perm _ _ (Permutation_map _ (Permutation_sym Pi))), E. cbn [map]. unfold Rsum. cbn [fold_right]. unfold tri. cbn [nth].
  rewrite !pos_vertex by (apply (corner_lt 1 i); auto; rewrite E; cbn; auto). rewrite Rplus_0_r, A.
  assert (P : Permutation [u; w] [a; b]) by (rewrite <- E, Pi, <- Pg; auto). apply Permutation_length_2_inv in P as [P|P]; injection P as -> ->; auto. apply area_swap; auto.
Qed.
Lemma face_value : forall f a b c, (f < n_elements t 2)%nat -> n = 2%nat -> corners 2 f = [a; b; c] ->
  Rsum (map tri (filter (fun row => Nat.eqb (nth 2 row 0%nat) f) DD)) = area (vertices a) (vertices b) (vertices c).
Proof.
  intros f a b c Hf H2 E. pose proof (rows_of_top f ltac:(rewrite H2; auto)) as P. rewrite (Rsum_perm _ _ (Permutation_map tri (perm_trans (Permutation_refl _) (eq_ind n (fun k => Permutation (filter (fun row => Nat.eqb (nth k row 0%nat) f) DD) (block n rows t f)) P 2%nat H2)))).
  unfold block. replace (nth f rows []) with (corners 2 f) by (unfold corners; rewrite <- H2, (to_top _ _ _ T); auto). rewrite H2 at 1. cbn [tails Nat.eqb seq map flat_map]. rewrite app_nil_r.
  assert (On : forall v, In v [a; b; c] -> length (vertices v) = 3%nat). { intros v Hv. rewrite <- Hd by lia. apply (corner_on 2 f v ltac:(lia) Hf). rewrite E. auto. }
  pose proof (On a ltac:(cbn; auto)) as La. pose proof (On b ltac:(cbn; auto)) as Lb. pose proof (On c ltac:(cbn; auto)) as Lc.
  pose proof (proj2 (proj2 S) f a b c Hf E) as J. destruct (C89_inside _ _ _ _ La Lb Lc J (pos_face f a b c ltac:(lia) Hf E)) as (_ & _ & _ & ->).
  rewrite !map_app, !Rsum_app, !map_map. 
  pose proof (side_value f 0 H2 Hf ltac:(lia) b c ltac:(rewrite E; reflexivity)) as S0. pose proof (side_value f 1 H2 Hf ltac:(lia) c a ltac:(rewrite E; apply perm_swap)) as S1. pose proof (side_value f 2 H2 Hf ltac:(lia) a b ltac:(rewrite E; reflexivity)) as S2.
  cbn [app]. rewrite S0, S1, S2. ring.
Qed.

(** ---- the whole function ---- *)
Variables (sat : list (Z * Z) -> option (list Z)) (radius : R).
Hypothesis O : is_oriented sat t = Ok true.
Notation metric := (metric sat t d vertices bary radius).
Definition sums (k : nat) (g : list nat -> R) : list (option R) :=
  map (fun e => Some (Rsum (map g (filter (fun row => Nat.eqb (nth k row 0%nat) e) DD)))) (seq 0 (n_elements t k)).

Lemma well_centered : is_well_centered t bary = true.
Proof.
  unfold is_well_centered. rewrite (top_n_dim n rows t T). apply forallb_forall. intros k Hk. apply in_seq in Hk. apply forallb_forall. intros e He. apply in_seq in He.
  apply forallb_forall. intros b Hb. destruct (C k e ltac:(lia) ltac:(lia)) as [_ P]. destruct (Rlt_dec 0 b) as [|N]; [auto|]. exfalso. auto.
Qed.
Lemma sums_ok : forall k g, (k <= n)%nat -> group_sum (map (fun row => nth k row 0%nat) DD) (map (fun row => Some (g row)) DD) = sums k g.
Proof. intros k g Hk. rewrite (group_sum_map _ (fun row => nth k row 0%nat)), column_keys by auto. auto. Qed.
Lemma scaled_some : forall (A : Type) (g : A -> R) k l, scaled k (map (fun x => Some (g x)) l) = map (fun x => Some (g x * k)) l.
Proof using. intros. unfold scaled. rewrite map_map. auto. Qed.
Definition ones (m : nat) : list (option R) := repeat (Some 1) m.
Lemma scaled_ones : forall m, scaled (radius ^ 0) (ones m) = ones m.
Proof using. unfold scaled, ones. induction m; cbn; [auto|]. cbn in IHm. rewrite IHm. do 2 f_equal. ring. Qed.

Lemma metric_curve : n = 1%nat ->
  metric = Ok ([ones (n_elements t 0); scaled (radius ^ 1) (sums 1 (half 0))], [ones (n_elements t 1); scaled (radius ^ 1) (sums 0 (half 0))]).
Proof.
  intros H1. unfold SMetModel.metric. rewrite O. cbn [bind negb]. rewrite well_centered. cbn [negb]. rewrite (top_n_dim n rows t T).
  rewrite (fundamental_domains_ok n rows t Hn T). fold DD. cbn [bind]. rewrite H1 at 1. cbn [Nat.ltb Nat.leb].
  replace (n - 1)%nat with 0%nat by lia. cbn [seq mapM bind map app].
  rewrite (mapM_ok_all _ _ _ (fun row => Some (half 0 row))) by (intros row Hr; rewrite H1; apply volume_half; auto; lia).
  cbn [bind]. rewrite !sums_ok by lia. rewrite !H1. cbn [length seq combine map fst snd]. fold (ones (n_elements t 0)) (ones (n_elements t 1)). rewrite !scaled_ones. auto.
Qed.
Lemma metric_surface : n = 2%nat ->
  metric = Ok ([ones (n_elements t 0);
     scaled (radius ^ 1) (map (fun e => Some (Rsum (map (half 0) (filter (fun row => Nat.eqb (nth 1 row 0%nat) e) DD)) / INR (length (filter (fun row => Nat.eqb (nth 1 row 0%nat) e) DD)) * 2)) (seq 0 (n_elements t 1)));
     scaled (radius ^ 2) (sums 2 tri)],
    [ones (n_elements t 2); scaled (radius ^ 1) (scaled (/ 2) (sums 1 (half 1))); scaled (radius ^ 2) (sums 0 tri)]).
Proof.
  intros H2. unfold SMetModel.metric. rewrite O. cbn [bind negb]. rewrite well_centered. cbn [negb]. rewrite (top_n_dim n rows t T).
  rewrite (fundamental_domains_ok n rows t Hn T). fold DD. cbn [bind]. rewrite H2 at 1. cbn [Nat.ltb Nat.leb].
  replace (n - 1)%nat with 1%nat by lia. cbn [seq mapM bind map app]. replace (n - 1)%nat with 1%nat by lia.
  rewrite (mapM_ok_all _ _ _ (fun row => Some (half 0 row))) by (intros row Hr; apply volume_half; auto; lia). cbn [bind].
  rewrite (mapM_ok_all _ _ _ (fun row => Some (half 1 row))) by (intros row Hr; rewrite H2; apply volume_half; auto; lia). cbn [bind].
  rewrite (mapM_ok_all _ _ _ (fun row => Some (tri row))) by (intros row Hr; rewrite H2; apply volume_tri; auto).
  cbn [bind map fst snd app]. rewrite !sums_ok by lia. rewrite (group_mean_map _ (fun row => nth 1 row 0%nat)), column_keys by lia.
  rewrite !H2. cbn [length seq combine map fst snd]. fold (ones (n_elements t 0)) (ones (n_elements t 2)). rewrite !scaled_ones.
  rewrite (scaled_some _ _ (INR (fact 2))). replace (INR (fact 2)) with 2 by (cbn; ring). auto.
Qed.
Lemma nth_sums : forall e N (g : nat -> R), (e < N)%nat -> nth e (map (fun e => Some (g e)) (seq 0 N)) None = Some (g e).
Proof using. intros. rewrite (nth_map_lt _ _ _ _ _ 0%nat) by (rewrite seq_length; auto). rewrite seq_nth by auto. auto. Qed.
Lemma sums_length : forall k g, length (sums k g) = n_elements t k. Proof using. intros. unfold sums. rewrite map_length, seq_length. auto. Qed.
Lemma sums_total : forall k g, (k <= n)%nat -> adds_to (sums k g) (Rsum (map g DD)).
Proof.
  intros k g Hk. rewrite <- (Rsum_groups _ (fun row => nth k row 0%nat) g (seq 0 (n_elements t k)) DD).
  - apply adds_to_map.
  - apply seq_NoDup.
  - intros row Hr. apply in_seq. pose proof (row_lt row k Hr Hk). lia.
Qed.
Lemma adds_scaled : forall k l s, adds_to l s -> adds_to (scaled k l) (s * k).
Proof using. induction 1; cbn; [replace (0 * k) with 0 by ring; constructor|]. replace ((x + s) * k) with (x * k + s * k) by ring. constructor. auto. Qed.
End Mesh.
