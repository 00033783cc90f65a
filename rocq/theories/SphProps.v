(** Properties C87 - C89: spherical geometry. *)
Require Import Reals List Arith Lia Lra Psatz.
From Verif Require Import Util SphModel SphSpec SphProofs.
Import ListNotations.
Local Open Scope R_scope.

Lemma on_sphere_dot : forall n a, on_sphere n a <-> length a = n /\ dot a a = 1.
Proof. intros. unfold on_sphere. rewrite dot_inner by auto. tauto. Qed.
Lemma edge_some : forall n a b, on_sphere n a -> on_sphere n b -> edge_length a b = Some (acos (dot a b)) /\ -1 <= dot a b <= 1.
Proof.
  intros n a b A B. apply on_sphere_dot in A as [LA A]. apply on_sphere_dot in B as [LB B]. pose proof (unit_range a b ltac:(lia) A B) as R.
  split; auto. unfold edge_length, arccos. destruct (Rle_dec (-1) (dot a b)); [|lra]. destruct (Rle_dec (dot a b) 1); [auto|lra].
Qed.
Lemma opposite_scale : forall a, opposite a = vscale (-1) a.
Proof. intros. apply map_ext. intros. ring. Qed.
Lemma dot_one : forall a b, length a = length b -> dot a a = 1 -> dot b b = 1 -> dot a b = 1 -> a = b.
Proof.
  intros a b L A B E. assert (Z : dot (vadd a (vscale (-1) b)) (vadd a (vscale (-1) b)) = 0).
  { rewrite dot_add_l, !dot_add_r, !dot_scale_l, !dot_scale_r by (rewrite vscale_length; auto). rewrite (dot_comm b a), A, B, E. ring. }
  apply vec_ext; auto. intros i. pose proof (dot_zero _ i Z) as Q. rewrite nth_vadd, nth_vscale in Q by (rewrite vscale_length; auto). lra.
Qed.

(** C87.  The length of an edge between points of the unit sphere is the angle between them. *)
Theorem C87_arc : forall n a b, on_sphere n a -> on_sphere n b -> exists l, edge_length a b = Some l /\ is_angle a b l.
Proof.
  intros n a b A B. destruct (edge_some n a b A B) as [E R]. exists (acos (dot a b)). split; auto. split; [apply acos_range|].
  destruct A as [LA A], B as [LB B]. rewrite A, B, sqrt_1, cos_acos, dot_inner by (auto; lia). ring.
Qed.
Print Assumptions C87_arc.

(** The lengths are those of a metric of diameter pi. *)
Theorem C87_metric : forall n a b c, on_sphere n a -> on_sphere n b -> on_sphere n c ->
  exists ab bc ac, edge_length a b = Some ab /\ edge_length b c = Some bc /\ edge_length a c = Some ac /\
    edge_length b a = Some ab /\ 0 <= ab <= PI /\ (ab = 0 <-> a = b) /\ (ab = PI <-> b = opposite a) /\ ac <= ab + bc.
Proof.
  intros n a b c A B C. destruct (edge_some n a b A B) as [E1 R1]. destruct (edge_some n b c B C) as [E2 R2]. destruct (edge_some n a c A C) as [E3 R3].
  destruct (edge_some n b a B A) as [E4 _]. apply on_sphere_dot in A as [LA A]. apply on_sphere_dot in B as [LB B]. apply on_sphere_dot in C as [LC C].
  exists (acos (dot a b)), (acos (dot b c)), (acos (dot a c)). repeat (split; [first [assumption|rewrite E4, dot_comm; reflexivity|apply acos_range]|]).
  split; [|split; [|apply unit_triangle; auto; lia]].
  - split; [|intros <-; rewrite A; apply acos_1]. intros Z. apply dot_one; auto; [lia|]. rewrite <- (cos_acos (dot a b)), Z by auto. apply cos_0.
  - split.
    + intros Z. assert (D : dot a b = -1) by (rewrite <- (cos_acos (dot a b)), Z by auto; apply cos_PI). rewrite opposite_scale. symmetry. apply dot_one; rewrite ?vscale_length; auto; try lia; rewrite ?dot_scale_l, ?dot_scale_r, ?A, ?D; ring.
    + intros ->. rewrite opposite_scale, dot_scale_r, A. replace (-1 * 1) with (- (1)) by ring. rewrite acos_opp, acos_1. ring.
Qed.
Print Assumptions C87_metric.

(** A point between the ends of an edge splits its length. *)
Theorem C87_split : forall n a p b, on_sphere n a -> on_sphere n p -> on_sphere n b -> between a p b ->
  exists l m, edge_length a p = Some l /\ edge_length p b = Some m /\ edge_length a b = Some (l + m).
Proof.
  intros n a p b A P B (x & y & Px & Py & K). destruct (edge_some n a p A P) as [E1 R1]. destruct (edge_some n p b P B) as [E2 R2]. destruct (edge_some n a b A B) as [E3 R3].
  apply on_sphere_dot in A as [LA A]. apply on_sphere_dot in B as [LB B]. apply on_sphere_dot in P as [LP P]. apply combination_eq in K as [_ K].
  exists (acos (dot a p)), (acos (dot p b)). split; auto. split; auto. rewrite E3. f_equal.
  pose proof (ang_add a b p x y ltac:(lia) Px Py K) as S. rewrite A, B, P in S. rewrite !ang_unit in S by auto. rewrite <- S by lra. auto.
Qed.
Print Assumptions C87_split.

(** Vectors longer than one give nan, even for an edge of length zero. *)
Theorem C87_off_sphere : forall a, 1 < inner a a -> edge_length a a = None.
Proof. intros a H. rewrite <- dot_inner in H by auto. unfold edge_length, arccos. destruct (Rle_dec (-1) (dot a a)); auto. destruct (Rle_dec (dot a a) 1); auto. lra. Qed.
Print Assumptions C87_off_sphere.

Definition ex : vec := [1; 0; 0].
Definition ey : vec := [0; 1; 0].
Definition ez : vec := [0; 0; 1].
Lemma ex_on : on_sphere 3 ex. Proof. split; [reflexivity|]. cbn. ring. Qed.
Lemma ey_on : on_sphere 3 ey. Proof. split; [reflexivity|]. cbn. ring. Qed.
Lemma ez_on : on_sphere 3 ez. Proof. split; [reflexivity|]. cbn. ring. Qed.
Example C87_example : edge_length ex ey = Some (PI / 2) /\ on_sphere 3 [3/5; 4/5; 0] /\ between ex [3/5; 4/5; 0] ey /\ edge_length [2; 0] [2; 0] = None.
Proof.
  split; [|split; [|split]].
  - destruct (edge_some 3 ex ey ex_on ey_on) as [-> _]. replace (dot ex ey) with 0 by (cbn; ring). rewrite acos_0. auto.
  - split; [reflexivity|]. cbn. field.
  - exists (3/5), (4/5). split; [lra|]. split; [lra|]. split; [reflexivity|]. split; [reflexivity|]. intros [|[|[|[|i]]]]; cbn; lra.
  - apply C87_off_sphere. cbn. lra.
Qed.

(** C88.  The circumcenter of an edge is the point halfway on the arc. *)
Theorem C88_edge : forall n a b, on_sphere n a -> on_sphere n b -> b <> opposite a ->
  exists m l, edge_circumcenter a b = Some m /\ on_sphere n m /\ between a m b /\
    edge_length a b = Some l /\ edge_length a m = Some (l / 2) /\ edge_length m b = Some (l / 2).
Proof.
  intros n a b A B N. destruct (edge_some n a b A B) as [E R]. destruct (C87_metric n a b b A B B) as (l & _ & _ & E' & _ & _ & _ & _ & _ & O & _).
  assert (D : dot a b <> -1). { intros D. apply N, O. rewrite E in E'. injection E' as <-. rewrite D. replace (-1) with (- (1)) by ring. rewrite acos_opp, acos_1. ring. }
  pose proof A as A'. pose proof B as B'. apply on_sphere_dot in A' as [LA DA]. apply on_sphere_dot in B' as [LB DB].
  assert (L : length a = length b) by lia.
  assert (W : dot (vadd a b) (vadd a b) = 2 + 2 * dot a b) by (rewrite dot_add_l, !dot_add_r, DA, DB, (dot_comm b a) by auto; ring).
  assert (P : 0 < dot (vadd a b) (vadd a b)) by lra.
  set (m := vscale (/ norm (vadd a b)) (vadd a b)). pose proof (norm_pos _ P) as NP.
  assert (Lm : length m = n) by (unfold m; rewrite vscale_length, vadd_length; auto).
  assert (M : on_sphere n m) by (apply on_sphere_dot; split; auto; apply unit_of_dot; auto).
  assert (K : between a m b).
  { exists (/ norm (vadd a b)), (/ norm (vadd a b)). split; [apply Rinv_0_lt_compat; auto|]. split; [apply Rinv_0_lt_compat; auto|]. apply combination_eq. split; [auto|]. unfold m. apply vec_ext.
    - rewrite vadd_length; rewrite ?vscale_length; auto. rewrite vadd_length; auto.
    - intros i. rewrite nth_vscale, !nth_vadd, !nth_vscale by (rewrite ?vscale_length; auto). ring. }
  destruct (C87_split n a m b A M B K) as (u & v & Eu & Ev & Es). destruct (edge_some n a m A M) as [Fu _]. destruct (edge_some n m b M B) as [Fv _].
  assert (u = v).
  { rewrite Fu in Eu. rewrite Fv in Ev. injection Eu as <-. injection Ev as <-. f_equal. unfold m. rewrite dot_scale_l, dot_scale_r, dot_add_l, dot_add_r, DA, DB by auto. ring. }
  subst v. exists m, (u + u). split; [apply normalized_pos; auto|]. repeat (split; [assumption|]). replace ((u + u) / 2) with u by field. auto.
Qed.
Print Assumptions C88_edge.

(** Between opposite points no arc is the shortest, and the circumcenter is nan. *)
Theorem C88_opposite : forall n a, on_sphere n a -> edge_circumcenter a (opposite a) = None.
Proof.
  intros n a A. apply normalized_zero. rewrite opposite_scale. rewrite dot_add_l, !dot_add_r, !dot_scale_l, !dot_scale_r by (rewrite vscale_length; auto). ring.
Qed.
Print Assumptions C88_opposite.

Lemma sum_distance2 : forall a b, length a = length b -> distance2 a b = dot a a - 2 * dot a b + dot b b.
Proof.
  unfold distance2. induction a as [|x a IH]; intros [|y b] L; try discriminate; [cbn; ring|]. cbn [length]. rewrite sum_to_head. cbn [nth dot]. rewrite IH by (cbn in L; lia). ring.
Qed.
(** The circumcenter of three and more points is as far from one as from the others, provided that of the euclidian
    geometry is, and is not the centre of the sphere. *)
Theorem C88_circumcenter_partial : forall euclidian n pts, (3 <= length pts)%nat -> (forall p, In p pts -> on_sphere n p) ->
  length (euclidian pts) = n -> equidistant (euclidian pts) pts -> inner (euclidian pts) (euclidian pts) <> 0 ->
  exists q l, circumcenter euclidian pts = Some q /\ on_sphere n q /\ forall p, In p pts -> edge_length q p = Some l.
Proof.
  intros euclidian n pts L3 ON L EQ NZ. rewrite <- dot_inner in NZ by auto. set (e := euclidian pts) in *.
  pose proof (dot_nonneg e). assert (P : 0 < dot e e) by lra. set (q := vscale (/ norm e) e).
  assert (Q : on_sphere n q) by (apply on_sphere_dot; split; [unfold q; rewrite vscale_length; auto|apply unit_of_dot; auto]).
  destruct pts as [|p0 [|p1 [|p2 ps]]]; try (cbn in L3; lia). exists q, (acos (dot q p0)). split; [cbn [circumcenter]; apply normalized_pos; auto|]. split; auto.
  intros p Hp. destruct (edge_some n q p Q (ON p Hp)) as [-> _]. f_equal. f_equal. unfold q. rewrite !dot_scale_l. f_equal.
  assert (I0 : In p0 (p0 :: p1 :: p2 :: ps)) by (left; auto). specialize (EQ p p0 Hp I0).
  destruct (proj1 (on_sphere_dot n p) (ON p Hp)) as [Lp Dp]. destruct (proj1 (on_sphere_dot n p0) (ON p0 I0)) as [L0 D0].
  rewrite !sum_distance2, Dp, D0 in EQ by (unfold e in *; lia). lra.
Qed.
Print Assumptions C88_circumcenter_partial.

(** Three points of a great circle have two circumcenters, its poles; the code gives nan. *)
Theorem C88_great_circle_refuted : exists pts, (forall p, In p pts -> on_sphere 3 p) /\ NoDup pts /\ length pts = 3%nat /\
  (exists q l, on_sphere 3 q /\ forall p, In p pts -> edge_length q p = Some l) /\
  forall euclidian, (exists x y, euclidian pts = [x; y; 0]) -> equidistant (euclidian pts) pts -> circumcenter euclidian pts = None.
Proof.
  exists [ex; ey; [-1; 0; 0]].
  assert (ON : forall p, In p [ex; ey; [-1; 0; 0]] -> on_sphere 3 p). { intros p [<-|[<-|[<-|[]]]]; [apply ex_on|apply ey_on|]. split; [reflexivity|]. cbn. ring. }
  split; [exact ON|]. split; [|split; [reflexivity|split]].
  - unfold ex, ey. apply NoDup_cons; [|apply NoDup_cons; [|apply NoDup_cons; [|apply NoDup_nil]]]; intros H; cbn in H; repeat destruct H as [H|H]; try contradiction; injection H; intros; lra.
  - exists ez, (PI / 2). split; [apply ez_on|]. intros p Hp. destruct (edge_some 3 ez p ez_on (ON p Hp)) as [-> _]. f_equal. rewrite <- acos_0. f_equal. destruct Hp as [<-|[<-|[<-|[]]]]; cbn; ring.
  - intros e (x & y & E) Q. cbn [circumcenter]. rewrite E in *. pose proof (Q ex [-1; 0; 0] ltac:(cbn; auto) ltac:(cbn; auto)) as Q1. pose proof (Q ex ey ltac:(cbn; auto) ltac:(cbn; auto)) as Q2.
    cbn in Q1, Q2. apply normalized_zero. cbn. assert (x = 0) by lra. assert (y = 0) by lra. subst. ring.
Qed.
Print Assumptions C88_great_circle_refuted.

Lemma det3_cross : forall a b c, length a = 3%nat -> length b = 3%nat -> length c = 3%nat -> det3 a b c = dot (cross a b) c.
Proof. intros a b c A B C. three a A. three b B. three c C. unfold det3. cbn. ring. Qed.
Lemma indep_det3 : forall a b c, length a = 3%nat -> length b = 3%nat -> length c = 3%nat -> det3 a b c <> 0 -> independent a b c.
Proof.
  intros a b c A B C D x y z H. pose proof (H 0%nat) as H0. pose proof (H 1%nat) as H1. pose proof (H 2%nat) as H2. clear H. three a A. three b B. three c C. unfold det3 in D. cbn in *.
  assert (E : forall k, k * (x0 * (x4 * x8 - x5 * x7) - x1 * (x3 * x8 - x5 * x6) + x2 * (x3 * x7 - x4 * x6)) = 0 -> k = 0) by (intros k Hk; apply Rmult_integral in Hk as [|]; [auto|lra]).
  split; [|split]; apply E.
  - transitivity ((x * x0 + y * x3 + z * x6) * (x4 * x8 - x5 * x7) - (x * x1 + y * x4 + z * x7) * (x3 * x8 - x5 * x6) + (x * x2 + y * x5 + z * x8) * (x3 * x7 - x4 * x6)); [ring|rewrite H0, H1, H2; ring].
  - transitivity (x0 * ((x * x1 + y * x4 + z * x7) * x8 - (x * x2 + y * x5 + z * x8) * x7) - x1 * ((x * x0 + y * x3 + z * x6) * x8 - (x * x2 + y * x5 + z * x8) * x6) + x2 * ((x * x0 + y * x3 + z * x6) * x7 - (x * x1 + y * x4 + z * x7) * x6)); [ring|rewrite H0, H1, H2; ring].
  - transitivity (x0 * (x4 * (x * x2 + y * x5 + z * x8) - x5 * (x * x1 + y * x4 + z * x7)) - x1 * (x3 * (x * x2 + y * x5 + z * x8) - x5 * (x * x0 + y * x3 + z * x6)) + x2 * (x3 * (x * x1 + y * x4 + z * x7) - x4 * (x * x0 + y * x3 + z * x6))); [ring|rewrite H0, H1, H2; ring].
Qed.

Definition plane (a b c : vec) : vec := cross (vsub b c) (vsub a b).
Lemma plane_dot : forall a b c, length a = 3%nat -> length b = 3%nat -> length c = 3%nat ->
  length (plane a b c) = 3%nat /\ dot (plane a b c) a = - det3 a b c /\ dot (plane a b c) b = - det3 a b c /\ dot (plane a b c) c = - det3 a b c.
Proof. intros a b c A B C. three a A. three b B. three c C. unfold plane, det3. cbn. split; [auto|]. repeat split; ring. Qed.
(** triangle_circumcenter is as far from one corner as from the others; ... *)
Theorem C88_triangle_partial : forall a b c, on_sphere 3 a -> on_sphere 3 b -> on_sphere 3 c -> det3 a b c <> 0 ->
  exists q l, triangle_circumcenter a b c = Some q /\ on_sphere 3 q /\ (forall p, In p [a; b; c] -> edge_length q p = Some l) /\
    (det3 a b c < 0 -> l < PI / 2).
Proof.
  intros a b c A B C D. pose proof A as [LA _]. pose proof B as [LB _]. pose proof C as [LC _]. destruct (plane_dot a b c LA LB LC) as (LP & PA & PB & PC).
  set (e := plane a b c) in *.
  assert (P : 0 < dot e e). { pose proof (dot_nonneg e) as N. destruct (Req_dec (dot e e) 0) as [Z|]; [|lra]. exfalso. pose proof (cauchy e a ltac:(lia)) as H. rewrite Z, PA in H. unfold Rsqr in H. nra. }
  pose proof (norm_pos e P) as NP. set (q := vscale (/ norm e) e).
  assert (Q : on_sphere 3 q) by (apply on_sphere_dot; split; [unfold q; rewrite vscale_length; auto|apply unit_of_dot; auto]).
  assert (K : forall p, In p [a; b; c] -> on_sphere 3 p /\ dot q p = / norm e * - det3 a b c).
  { intros p Hp. unfold q. rewrite dot_scale_l. destruct Hp as [<-|[<-|[<-|[]]]]; rewrite ?PA, ?PB, ?PC; auto. }
  exists q, (acos (/ norm e * - det3 a b c)). split; [apply normalized_pos; auto|]. split; auto. split.
  - intros p Hp. destruct (K p Hp) as [Op Dp]. destruct (edge_some 3 q p Q Op) as [-> _]. rewrite Dp. auto.
  - intros Neg. destruct (K a ltac:(left; auto)) as [_ Da]. destruct (edge_some 3 q a Q A) as [_ R]. rewrite Da in R.
    assert (0 < / norm e * - det3 a b c) by (apply Rmult_lt_0_compat; [apply Rinv_0_lt_compat; auto|lra]).
    rewrite <- acos_0. apply acos_decreasing; lra.
Qed.
Print Assumptions C88_triangle_partial.

(** ... but for corners in counterclockwise order it is the far one of the two such points: the opposite of the circumcenter. *)
Theorem C88_triangle_refuted : forall a b c, on_sphere 3 a -> on_sphere 3 b -> on_sphere 3 c -> 0 < det3 a b c ->
  exists q l, triangle_circumcenter a b c = Some q /\ on_sphere 3 (opposite q) /\ PI / 2 < l /\
    forall p, In p [a; b; c] -> edge_length q p = Some l /\ edge_length (opposite q) p = Some (PI - l).
Proof.
  intros a b c A B C D. destruct (C88_triangle_partial a b c A B C ltac:(lra)) as (q & l & E & Q & H & _).
  assert (O : on_sphere 3 (opposite q)). { apply on_sphere_dot in Q as [LQ DQ]. apply on_sphere_dot. rewrite opposite_scale, vscale_length, dot_scale_l, dot_scale_r, DQ. split; auto; ring. }
  exists q, l. split; auto. split; auto.
  assert (F : forall p, In p [a; b; c] -> on_sphere 3 p) by (intros p [<-|[<-|[<-|[]]]]; auto).
  split.
  - pose proof (H a ltac:(left; auto)) as Ha. destruct (edge_some 3 q a Q A) as [Ea R]. rewrite Ea in Ha. injection Ha as <-.
    rewrite <- acos_0. apply acos_decreasing; try lra. pose proof A as [LA _]. pose proof B as [LB _]. pose proof C as [LC _]. destruct (plane_dot a b c LA LB LC) as (LP & PA & PB & PC).
    unfold triangle_circumcenter in E. fold (plane a b c) in E. set (e := plane a b c) in *.
    assert (P : 0 < dot e e). { pose proof (dot_nonneg e) as N. destruct (Req_dec (dot e e) 0) as [Z|]; [|lra]. rewrite (normalized_zero e Z) in E. discriminate. }
    rewrite (normalized_pos e P) in E. injection E as <-. rewrite dot_scale_l, PA. pose proof (Rinv_0_lt_compat _ (norm_pos e P)). nra.
  - intros p Hp. split; auto. pose proof (H p Hp) as Hp'. destruct (edge_some 3 q p Q (F p Hp)) as [Ep _]. destruct (edge_some 3 _ p O (F p Hp)) as [-> _]. rewrite Ep in Hp'. injection Hp' as <-.
    rewrite opposite_scale, dot_scale_l. replace (-1 * dot q p) with (- dot q p) by ring. rewrite acos_opp. auto.
Qed.
Print Assumptions C88_triangle_refuted.

Lemma between_combination : forall a p b, between a p b -> exists x y, 0 < x /\ 0 < y /\ length b = length a /\ p = vadd (vscale x a) (vscale y b).
Proof. intros a p b (x & y & Px & Py & K). apply combination_eq in K as [L E]. exists x, y. auto. Qed.
Lemma crossing : forall s0 e0 s1 e1 x, on_sphere 3 s0 -> on_sphere 3 e0 -> on_sphere 3 s1 -> on_sphere 3 e1 -> between s0 x e0 -> between s1 x e1 ->
  exists k, 0 < k /\ cross (cross s0 e0) (cross s1 e1) = vscale (- (det3 s0 e0 s1 * k)) x.
Proof.
  intros s0 e0 s1 e1 x [S0 _] [E0 _] [S1 _] [E1 _] B0 B1. apply between_combination in B0 as (x0 & y0 & P0 & Q0 & _ & X0). apply between_combination in B1 as (x1 & y1 & P1 & Q1 & _ & X1).
  exists (/ y1). split; [apply Rinv_0_lt_compat; auto|].
  assert (D : dot (cross s0 e0) x = 0). { rewrite X0. clear. destruct s0 as [|? [|? [|? [|]]]], e0 as [|? [|? [|? [|]]]]; cbn; ring. }
  assert (V : cross (cross s0 e0) (cross s1 e1) = vadd (vscale (dot (cross s0 e0) e1) s1) (vscale (- dot (cross s0 e0) s1) e1)). { clear - S0 E0 S1 E1. three s0 S0. three e0 E0. three s1 S1. three e1 E1. cbn. coords. }
  rewrite V. rewrite X1 in D. rewrite dot_add_r, !dot_scale_r in D by (rewrite !vscale_length; lia).
  rewrite (det3_cross s0 e0 s1) by auto. set (d := dot (cross s0 e0) s1) in *. replace (dot (cross s0 e0) e1) with (- (x1 * d / y1)). 2:{ assert (Z : dot (cross s0 e0) e1 * y1 = - (x1 * d)) by lra. apply Rmult_eq_reg_r with y1; [|lra]. rewrite Z. field. lra. }
  rewrite X1. apply vec_ext; [rewrite ?vscale_length, ?vadd_length; rewrite ?vscale_length; lia|]. intros i. rewrite ?nth_vscale, ?nth_vadd, ?nth_vscale by (rewrite !vscale_length; lia). field. lra.
Qed.
Lemma normalized_multiple : forall n k x, on_sphere n x -> k <> 0 -> normalized (vscale k x) = Some (if Rlt_dec 0 k then x else opposite x).
Proof.
  intros n k x X K. apply on_sphere_dot in X as [L D]. assert (P : 0 < dot (vscale k x) (vscale k x)) by (rewrite dot_scale_l, dot_scale_r, D; nra).
  rewrite normalized_pos by auto. f_equal. unfold norm. rewrite dot_scale_l, dot_scale_r, D. replace (k * (k * 1)) with (k * k) by ring.
  unfold vscale. rewrite map_map. fold (Rsqr k). rewrite sqrt_Rsqr_abs. destruct (Rlt_dec 0 k).
  - rewrite Rabs_right by lra. rewrite <- (map_id x) at 2. apply map_ext. intros. field. auto.
  - rewrite Rabs_left by lra. apply map_ext. intros. field. lra.
Qed.
(** intersect_edges finds the point where two arcs cross when the second starts to the right of the first, ... *)
Theorem C88_intersect_partial : forall s0 e0 s1 e1 x, on_sphere 3 s0 -> on_sphere 3 e0 -> on_sphere 3 s1 -> on_sphere 3 e1 -> on_sphere 3 x ->
  between s0 x e0 -> between s1 x e1 -> det3 s0 e0 s1 < 0 -> intersect_edges s0 e0 s1 e1 = Some x.
Proof.
  intros s0 e0 s1 e1 x S0 E0 S1 E1 X B0 B1 D. destruct (crossing s0 e0 s1 e1 x S0 E0 S1 E1 B0 B1) as (k & Pk & V). unfold intersect_edges. rewrite V.
  rewrite (normalized_multiple 3) by (auto; nra). destruct (Rlt_dec 0 (- (det3 s0 e0 s1 * k))); [auto|nra].
Qed.
Print Assumptions C88_intersect_partial.
(** ... and the opposite of that point when it starts to the left. *)
Theorem C88_intersect_refuted : forall s0 e0 s1 e1 x, on_sphere 3 s0 -> on_sphere 3 e0 -> on_sphere 3 s1 -> on_sphere 3 e1 -> on_sphere 3 x ->
  between s0 x e0 -> between s1 x e1 -> 0 < det3 s0 e0 s1 -> intersect_edges s0 e0 s1 e1 = Some (opposite x).
Proof.
  intros s0 e0 s1 e1 x S0 E0 S1 E1 X B0 B1 D. destruct (crossing s0 e0 s1 e1 x S0 E0 S1 E1 B0 B1) as (k & Pk & V). unfold intersect_edges. rewrite V.
  rewrite (normalized_multiple 3) by (auto; nra). destruct (Rlt_dec 0 (- (det3 s0 e0 s1 * k))); [nra|auto].
Qed.
Print Assumptions C88_intersect_refuted.

Definition ep : vec := [3/5; 4/5; 0].
Definition eq' : vec := [9/25; 12/25; -4/5].
Example C88_example : on_sphere 3 ep /\ on_sphere 3 eq' /\ between ex ep ey /\ between ez ep eq' /\ between eq' ep ez /\
  intersect_edges ex ey ez eq' = Some (opposite ep) /\ intersect_edges ex ey eq' ez = Some ep /\
  ey <> opposite ex /\ 0 < det3 ex ey ez /\ det3 ey ex ez < 0 /\ equidistant [1/3; 1/3; 1/3] [ex; ey; ez].
Proof.
  assert (P : on_sphere 3 ep) by (split; [reflexivity|]; cbn; field). assert (Q : on_sphere 3 eq') by (split; [reflexivity|]; cbn; field).
  assert (B : between ex ep ey). { exists (3/5), (4/5). split; [lra|]. split; [lra|]. split; [reflexivity|]. split; [reflexivity|]. intros [|[|[|[|i]]]]; cbn; lra. }
  assert (B1 : between ez ep eq'). { exists (4/3), (5/3). split; [lra|]. split; [lra|]. split; [reflexivity|]. split; [reflexivity|]. intros [|[|[|[|i]]]]; cbn; lra. }
  assert (B2 : between eq' ep ez). { exists (5/3), (4/3). split; [lra|]. split; [lra|]. split; [reflexivity|]. split; [reflexivity|]. intros [|[|[|[|i]]]]; cbn; lra. }
  repeat (split; [assumption|]). split; [apply C88_intersect_refuted; auto using ex_on, ey_on, ez_on; unfold det3; cbn; lra|].
  split; [apply C88_intersect_partial; auto using ex_on, ey_on, ez_on; unfold det3; cbn; lra|].
  split; [unfold ex, ey; cbn; intros H; injection H; intros; lra|]. split; [unfold det3; cbn; lra|]. split; [unfold det3; cbn; lra|].
  intros p p' [<-|[<-|[<-|[]]]] [<-|[<-|[<-|[]]]]; unfold distance2; cbn; lra.
Qed.

Lemma indep_pos : forall a b c, length a = 3%nat -> length b = 3%nat -> length c = 3%nat -> independent a b c ->
  0 < dot (cross a b) (cross a b) /\ 0 < dot (cross b c) (cross b c) /\ 0 < dot (cross c a) (cross c a).
Proof.
  intros a b c A B C I. split; [|split]; [apply (indep_cross a b c)|apply (indep_cross b c a)|apply (indep_cross c a b)]; auto using indep_rot.
Qed.
Lemma area_indep : forall a b c, length a = 3%nat -> length b = 3%nat -> length c = 3%nat -> independent a b c ->
  triangle_area_from_corners a b c = excess a b c /\ 0 <= excess a b c.
Proof. intros a b c A B C I. destruct (indep_pos a b c A B C I) as (P1 & P2 & P3). apply area_excess; auto. Qed.
Lemma corner_is : forall a b c, on_sphere 3 a -> on_sphere 3 b -> on_sphere 3 c -> 0 < dot (cross a b) (cross a b) -> 0 < dot (cross a c) (cross a c) ->
  corner_angle a b c (ang (cross a b) (cross a c)).
Proof.
  intros a b c A B C P1 P2. apply on_sphere_dot in A as [LA DA]. apply on_sphere_dot in B as [LB DB]. apply on_sphere_dot in C as [LC DC].
  set (u := vadd (vscale 1 b) (vscale (- inner a b) a)). set (v := vadd (vscale 1 c) (vscale (- inner a c) a)).
  assert (Lu : length u = 3%nat) by (unfold u; rewrite vadd_length; rewrite ?vscale_length; lia). assert (Lv : length v = 3%nat) by (unfold v; rewrite vadd_length; rewrite ?vscale_length; lia).
  assert (G : forall p q, length p = 3%nat -> length q = 3%nat -> dot (vadd (vscale 1 p) (vscale (- inner a p) a)) (vadd (vscale 1 q) (vscale (- inner a q) a)) = dot (cross a p) (cross a q)).
  { intros p q Lp Lq. rewrite lagrange by auto. rewrite <- !dot_inner by lia. rewrite dot_add_l, !dot_add_r by (rewrite !vscale_length; lia). rewrite !dot_scale_l, !dot_scale_r, DA, (dot_comm p a). ring. }
  exists u, v. split; [apply combination_eq; split; [lia|auto]|]. split; [apply combination_eq; split; [lia|auto]|]. split; [apply ang_range|].
  rewrite <- !dot_inner by lia. unfold u, v. rewrite !G by auto. pose proof (cauchy (cross a b) (cross a c) ltac:(rewrite !cross_length; auto)) as CS. unfold Rsqr in CS.
  unfold ang. rewrite cos_acos by (apply cosine_range; auto). unfold cosine. pose proof (sqrt_lt_R0 _ P1). pose proof (sqrt_lt_R0 _ P2). field. lra.
Qed.

(** C89.  The area of a spherical triangle is the sum of its angles less pi. *)
Theorem C89_excess : forall a b c, on_sphere 3 a -> on_sphere 3 b -> on_sphere 3 c -> independent a b c ->
  exists A B C, corner_angle a b c A /\ corner_angle b c a B /\ corner_angle c a b C /\
    triangle_area_from_corners a b c = A + B + C - PI /\ 0 <= A + B + C - PI /\ unsigned_volume [a; b; c] = Ok (Some (A + B + C - PI)).
Proof.
  intros a b c A B C I. pose proof A as [LA _]. pose proof B as [LB _]. pose proof C as [LC _].
  destruct (indep_pos a b c LA LB LC I) as (P1 & P2 & P3). destruct (area_excess a b c LA LB LC P1 P2 P3) as [E N].
  pose proof (anti_pos _ _ LA LB P1). pose proof (anti_pos _ _ LB LC P2). pose proof (anti_pos _ _ LC LA P3).
  exists (ang (cross a b) (cross a c)), (ang (cross b c) (cross b a)), (ang (cross c a) (cross c b)).
  split; [apply corner_is; auto|]. split; [apply corner_is; auto|]. split; [apply corner_is; auto|]. split; [exact E|]. split; [exact N|].
  unfold unsigned_volume. rewrite LA. cbn [Nat.eqb]. rewrite E, Rabs_right by (apply Rle_ge; auto). reflexivity.
Qed.
Print Assumptions C89_excess.

Lemma nz_neg : forall u, normalized_ignore_zeros (vscale (-1) u) = vscale (-1) (normalized_ignore_zeros u).
Proof.
  intros u. unfold normalized_ignore_zeros, vscale. rewrite !map_map. replace (norm (map (fun x => -1 * x) u)) with (norm u). 2:{ unfold norm. fold (vscale (-1) u). rewrite dot_scale_l, dot_scale_r. f_equal. ring. }
  apply map_ext. intros. unfold Rdiv. ring.
Qed.
(** The area does not depend on the order of the corners, in particular not on the orientation. *)
Theorem C89_order : forall a b c, length a = 3%nat -> length b = 3%nat -> length c = 3%nat ->
  triangle_area_from_corners a b c = triangle_area_from_corners b c a /\ triangle_area_from_corners a b c = triangle_area_from_corners b a c.
Proof.
  intros a b c A B C. unfold triangle_area_from_corners, triangle_area_from_normals. split; [ring|].
  rewrite (cross_anti c a C A), (cross_anti b c B C), (cross_anti a b A B). rewrite !nz_neg, !dot_scale_l, !dot_scale_r.
  rewrite (dot_comm (normalized_ignore_zeros (cross c a)) (normalized_ignore_zeros (cross b c))), (dot_comm (normalized_ignore_zeros (cross b c)) (normalized_ignore_zeros (cross a b))), (dot_comm (normalized_ignore_zeros (cross a b)) (normalized_ignore_zeros (cross c a))).
  replace (fun x => x) with (fun x : R => x) by auto. repeat match goal with |- context [-1 * (-1 * ?k)] => replace (-1 * (-1 * k)) with k by ring end. ring.
Qed.
Print Assumptions C89_order.

(** It depends on the lengths of the sides only, so that it does not change when the sphere is turned or mirrored. *)
Theorem C89_congruent : forall a b c a' b' c', on_sphere 3 a -> on_sphere 3 b -> on_sphere 3 c -> on_sphere 3 a' -> on_sphere 3 b' -> on_sphere 3 c' ->
  edge_length a b = edge_length a' b' -> edge_length b c = edge_length b' c' -> edge_length c a = edge_length c' a' ->
  independent a b c -> independent a' b' c' -> triangle_area_from_corners a b c = triangle_area_from_corners a' b' c'.
Proof.
  intros a b c a' b' c' A B C A' B' C' E1 E2 E3 I I'.
  assert (G : forall p q p' q', on_sphere 3 p -> on_sphere 3 q -> on_sphere 3 p' -> on_sphere 3 q' -> edge_length p q = edge_length p' q' -> dot p q = dot p' q').
  { intros p q p' q' P Q P' Q' E. destruct (edge_some 3 p q P Q) as [F R]. destruct (edge_some 3 p' q' P' Q') as [F' R']. rewrite F, F' in E. injection E as E. rewrite <- (cos_acos (dot p q)), <- (cos_acos (dot p' q')), E by auto. auto. }
  apply G in E1, E2, E3; auto. apply on_sphere_dot in A as [LA DA], B as [LB DB], C as [LC DC], A' as [LA' DA'], B' as [LB' DB'], C' as [LC' DC'].
  destruct (area_indep a b c LA LB LC I) as [-> _]. destruct (area_indep a' b' c' LA' LB' LC' I') as [-> _]. unfold excess, ang. rewrite !lagrange by auto.
  rewrite DA, DB, DC, DA', DB', DC', (dot_comm b a), (dot_comm c b), (dot_comm a c), (dot_comm b' a'), (dot_comm c' b'), (dot_comm a' c'), E1, E2, E3. auto.
Qed.
Print Assumptions C89_congruent.

(** Cutting a triangle from a corner to a point of the opposite side cuts the area into that of the parts. *)
Theorem C89_cut : forall a b c d, length a = 3%nat -> length b = 3%nat -> length c = 3%nat -> independent a b c -> between b d c ->
  triangle_area_from_corners a b c = triangle_area_from_corners a b d + triangle_area_from_corners a d c.
Proof.
  intros a b c d A B C I K. pose proof K as (x & y & Px & Py & K'). destruct (indep_cut a b c d x y I Px Py K') as [I1 I2]. apply combination_eq in K' as [_ E].
  assert (D : length d = 3%nat) by (rewrite E, vadd_length; rewrite ?vscale_length; lia).
  destruct (area_indep a b c A B C I) as [-> _]. destruct (area_indep a b d A B D I1) as [-> _]. destruct (area_indep a d c A D C I2) as [-> _]. apply (excess_cut a b c d x y); auto.
Qed.
Print Assumptions C89_cut.

(** And so does cutting it from an inner point to the corners. *)
Theorem C89_inside : forall a b c p, length a = 3%nat -> length b = 3%nat -> length c = 3%nat -> independent a b c -> inside a b c p ->
  independent a b p /\ independent b c p /\ independent c a p /\
  triangle_area_from_corners a b c = triangle_area_from_corners a b p + triangle_area_from_corners b c p + triangle_area_from_corners c a p.
Proof.
  intros a b c p A B C I (x & y & z & Px & Py & Pz & Lp & H).
  assert (J : independent a b p /\ independent b c p /\ independent c a p).
  { split; [|split]; intros u v w Q.
    - destruct (I (u + w * x) (v + w * y) (w * z)) as (E1 & E2 & E3); [intros i; specialize (Q i); rewrite H in Q; lra|]. assert (w = 0) by nra. subst w. lra.
    - destruct (I (w * x) (u + w * y) (v + w * z)) as (E1 & E2 & E3); [intros i; specialize (Q i); rewrite H in Q; lra|]. assert (w = 0) by nra. subst w. lra.
    - destruct (I (v + w * x) (w * y) (u + w * z)) as (E1 & E2 & E3); [intros i; specialize (Q i); rewrite H in Q; lra|]. assert (w = 0) by nra. subst w. lra. }
  destruct J as (J1 & J2 & J3). split; [auto|]. split; [auto|]. split; [auto|].
  set (d := vadd (vscale y b) (vscale z c)). assert (D : length d = 3%nat) by (unfold d; rewrite vadd_length; rewrite ?vscale_length; lia).
  assert (K : combination y b z c d) by (apply combination_eq; split; [lia|auto]).
  destruct (indep_cut a b c d y z I Py Pz K) as [I1 I2].
  assert (M : combination x a 1 d p). { split; [lia|]. split; [lia|]. intros i. rewrite H. unfold d. rewrite nth_vadd, !nth_vscale by (rewrite !vscale_length; lia). ring. }
  assert (Lp' : length p = 3%nat) by lia.
  rewrite (C89_cut a b c d) by (first [solve [auto]|exists y, z; auto]).
  assert (X1 : triangle_area_from_corners a b d = triangle_area_from_corners a b p + triangle_area_from_corners b d p).
  { rewrite (proj2 (C89_order a b d A B D)). rewrite (C89_cut b a d p) by (first [solve [auto using indep_swap]|exists x, 1; split; [auto|split; [lra|auto]]]).
    rewrite (proj2 (C89_order a b p A B Lp')). f_equal. rewrite (proj2 (C89_order b p d B Lp' D)). rewrite (proj1 (C89_order p b d Lp' B D)). auto. }
  assert (X2 : triangle_area_from_corners a d c = triangle_area_from_corners c a p + triangle_area_from_corners d c p).
  { rewrite <- (proj1 (C89_order c a d C A D)). rewrite (C89_cut c a d p) by (first [solve [auto]|apply indep_rot, indep_rot; solve [auto]|exists x, 1; split; [auto|split; [lra|auto]]]).
    f_equal. rewrite (proj2 (C89_order c p d C Lp' D)). rewrite (proj1 (C89_order p c d Lp' C D)). apply (proj2 (C89_order c d p C D Lp')). }
  assert (X3 : triangle_area_from_corners b c p = triangle_area_from_corners b d p + triangle_area_from_corners d c p).
  { rewrite <- (proj1 (C89_order p b c Lp' B C)). rewrite (C89_cut p b c d) by (first [solve [auto]|apply indep_rot, indep_rot; solve [auto]|exists y, z; auto]).
    rewrite (proj1 (C89_order p b d Lp' B D)), (proj1 (C89_order p d c Lp' D C)). auto. }
  rewrite X1, X2, X3. ring.
Qed.
Print Assumptions C89_inside.

Lemma cross_self : forall a, length a = 3%nat -> cross a a = [0; 0; 0].
Proof. intros a A. three a A. cbn. coords. Qed.
Lemma nz_zero : normalized_ignore_zeros [0; 0; 0] = [0; 0; 0].
Proof. unfold normalized_ignore_zeros. cbn [map]. unfold Rdiv. rewrite Rmult_0_l. auto. Qed.
(** A triangle with two equal corners has no area, ... *)
Theorem C89_needle_partial : forall a c, on_sphere 3 a -> on_sphere 3 c -> a <> c -> c <> opposite a -> triangle_area_from_corners a a c = 0.
Proof.
  intros a c A C N O. destruct (edge_some 3 a c A C) as [E R]. destruct (C87_metric 3 a c c A C C) as (l & _ & _ & El & _ & _ & _ & _ & Z & Q & _). rewrite E in El. injection El as El.
  apply on_sphere_dot in A as [LA DA], C as [LC DC].
  assert (D1 : dot a c <> 1) by (intros D; apply N, Z; rewrite <- El, D; apply acos_1). assert (D2 : dot a c <> -1) by (intros D; apply O, Q; rewrite <- El, D; replace (-1) with (- (1)) by ring; rewrite acos_opp, acos_1; ring).
  assert (P : 0 < dot (cross a c) (cross a c)) by (rewrite lagrange, DA, DC, (dot_comm c a) by auto; nra).
  unfold triangle_area_from_corners, triangle_area_from_normals. rewrite cross_self, nz_zero by auto. rewrite (cross_anti a c LA LC), nz_neg, dot_scale_r, !dot_scale_l.
  rewrite nz_pos, unit_of_dot by auto. set (w := vscale (/ norm (cross a c)) (cross a c)).
  assert (Dw : forall w, dot w [0; 0; 0] = 0) by (clear; intros w; do 4 (destruct w as [|? w]; cbn; try ring); destruct w; cbn; ring).
  rewrite (dot_comm [0; 0; 0]), !Dw. rewrite ?Rmult_0_r. rewrite !acos_clip by lra. rewrite Ropp_0, acos_0. replace (- (-1 * 1)) with 1 by ring. rewrite acos_1. field.
Qed.
Print Assumptions C89_needle_partial.
(** ... but one with three equal corners has the area pi/2, an eighth of the sphere. *)
Theorem C89_point_refuted : forall a, length a = 3%nat -> unsigned_volume [a; a; a] = Ok (Some (PI / 2)).
Proof.
  intros a A. unfold unsigned_volume. rewrite A. cbn [Nat.eqb]. unfold triangle_area_from_corners, triangle_area_from_normals. rewrite cross_self, nz_zero by auto. do 2 f_equal.
  replace (dot [0; 0; 0] [0; 0; 0]) with 0 by (cbn; ring). rewrite acos_clip by lra. rewrite Ropp_0, acos_0. pose proof PI_RGT_0. rewrite Rabs_right; lra.
Qed.
Print Assumptions C89_point_refuted.

(** An octant of the sphere, its middle, and a point on a side. *)
Example C89_example : independent ex ey ez /\ triangle_area_from_corners ex ey ez = PI / 2 /\ inside ex ey ez [1; 1; 1] /\ between ex ep ey /\ ex <> ey /\ ey <> opposite ex.
Proof.
  assert (I : independent ex ey ez) by (apply indep_det3; auto; unfold det3; cbn; lra). split; auto. split; [|split; [|split; [|split]]].
  - destruct (area_indep ex ey ez eq_refl eq_refl eq_refl I) as [-> _]. unfold excess, ang, cosine. rewrite !lagrange by reflexivity. cbn [dot ex ey ez].
    repeat match goal with |- context [acos (?n / ?d)] => replace (n / d) with 0 by (unfold Rdiv; ring) end. rewrite acos_0. field.
  - exists 1, 1, 1. repeat (split; [lra|]). split; [reflexivity|]. intros [|[|[|[|i]]]]; cbn; lra.
  - apply C88_example.
  - unfold ex, ey. intros H. injection H; intros; lra.
  - unfold ex, ey. cbn. intros H. injection H; intros; lra.
Qed.
