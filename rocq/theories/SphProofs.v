(** Vectors of reals, angles between them, and the spherical geometry of the code. *)
Require Import Reals List Arith Lia Lra Psatz.
From Verif Require Import Util SphModel SphSpec.
Import ListNotations.
Local Open Scope R_scope.

Lemma sum_to_ext : forall n f g, (forall i, (i < n)%nat -> f i = g i) -> sum_to n f = sum_to n g.
Proof. induction n as [|n IH]; intros f g H; cbn; [auto|]. rewrite (IH f g), (H n) by (auto with arith). auto. Qed.
Lemma sum_to_head : forall n f, sum_to (S n) f = f 0%nat + sum_to n (fun i => f (S i)).
Proof. induction n as [|n IH]; intros f; [cbn; lra|]. change (sum_to (S (S n)) f) with (sum_to (S n) f + f (S n)). rewrite IH. cbn. lra. Qed.
Lemma dot_inner : forall a b, length a = length b -> dot a b = inner a b.
Proof.
  unfold inner. induction a as [|x a IH]; intros [|y b] L; try discriminate; auto. cbn [dot length]. rewrite sum_to_head. cbn [nth]. rewrite IH by (cbn in L; lia). auto.
Qed.

Lemma vadd_length : forall a b, length a = length b -> length (vadd a b) = length a.
Proof. induction a as [|x a IH]; intros [|y b] L; try discriminate; auto. cbn in *. rewrite IH; lia. Qed.
Lemma vscale_length : forall k a, length (vscale k a) = length a.
Proof. intros. apply map_length. Qed.
Lemma dot_comm : forall a b, dot a b = dot b a.
Proof. induction a as [|x a IH]; intros [|y b]; cbn; auto. rewrite IH. ring. Qed.
Lemma dot_scale_l : forall k a b, dot (vscale k a) b = k * dot a b.
Proof. unfold vscale. induction a as [|x a IH]; intros [|y b]; cbn; try ring. rewrite IH. ring. Qed.
Lemma dot_scale_r : forall k a b, dot a (vscale k b) = k * dot a b.
Proof. intros. rewrite dot_comm, dot_scale_l, dot_comm. auto. Qed.
Lemma dot_add_l : forall a b c, length a = length b -> dot (vadd a b) c = dot a c + dot b c.
Proof. induction a as [|x a IH]; intros [|y b] [|z c] L; try discriminate; cbn; try ring. rewrite IH by (cbn in L; lia). ring. Qed.
Lemma dot_add_r : forall a b c, length a = length b -> dot c (vadd a b) = dot c a + dot c b.
Proof. intros. rewrite dot_comm, dot_add_l by auto. rewrite (dot_comm a), (dot_comm b). auto. Qed.
Lemma dot_nonneg : forall a, 0 <= dot a a.
Proof. induction a as [|x a IH]; cbn; nra. Qed.
Lemma dot_zero : forall a i, dot a a = 0 -> nth i a 0 = 0.
Proof. induction a as [|x a IH]; intros [|i] H; cbn in *; auto; pose proof (dot_nonneg a); [nra|apply IH; nra]. Qed.

Lemma nth_vscale : forall k a i, nth i (vscale k a) 0 = k * nth i a 0.
Proof. unfold vscale. induction a as [|x a IH]; intros [|i]; cbn; auto; ring. Qed.
Lemma nth_vadd : forall a b i, length a = length b -> nth i (vadd a b) 0 = nth i a 0 + nth i b 0.
Proof. induction a as [|x a IH]; intros [|y b] [|i] L; try discriminate; cbn; auto; ring. Qed.
Lemma vec_ext : forall a b : list R, length a = length b -> (forall i, nth i a 0 = nth i b 0) -> a = b.
Proof. intros a b L H. apply (nth_ext a b 0 0 L). intros. apply H. Qed.
Lemma combination_eq : forall x a y b p, combination x a y b p <-> length b = length a /\ p = vadd (vscale x a) (vscale y b).
Proof.
  intros. split.
  - intros (L1 & L2 & H). split; auto. apply vec_ext.
    + rewrite vadd_length; rewrite ?vscale_length; auto.
    + intros i. rewrite nth_vadd by (rewrite !vscale_length; auto). rewrite !nth_vscale. apply H.
  - intros (L & ->). split; [rewrite vadd_length; rewrite ?vscale_length; auto|]. split; auto. intros i. rewrite nth_vadd by (rewrite !vscale_length; auto). rewrite !nth_vscale. auto.
Qed.

(** Cauchy and Schwarz *)
Lemma cauchy : forall a b, length a = length b -> (dot a b)² <= dot a a * dot b b.
Proof.
  intros a b L. pose proof (dot_nonneg (vadd (vscale (dot b b) a) (vscale (- dot a b) b))) as H.
  rewrite dot_add_l in H by (rewrite !vscale_length; auto). rewrite !dot_add_r in H by (rewrite !vscale_length; auto).
  rewrite !dot_scale_l, !dot_scale_r in H. rewrite (dot_comm b a) in H. unfold Rsqr.
  destruct (Req_dec (dot b b) 0) as [E|N].
  - assert (Z : dot a b = 0). { clear H. rewrite dot_comm. revert a L. induction b as [|y b IH]; intros [|x a] L; cbn in *; auto; try discriminate. pose proof (dot_nonneg b). assert (y = 0) by nra. subst. rewrite IH; [ring|nra|lia]. }
    rewrite Z, E. lra.
  - pose proof (dot_nonneg b). assert (0 < dot b b) by lra. assert (dot b b * (dot a a * dot b b - dot a b * dot a b) >= 0) by lra. nra.
Qed.

Lemma acos_range : forall x, 0 <= acos x <= PI.
Proof. intros. apply acos_bound. Qed.
Lemma acos_clip : forall x, -1 <= x <= 1 -> clip x = x.
Proof. intros x H. unfold clip. rewrite Rmax_left by lra. apply Rmin_left. lra. Qed.
Lemma acos_neg : forall x, acos (- x) = PI - acos x.
Proof. apply acos_opp. Qed.

Lemma acos_decreasing : forall x y, -1 <= x -> y <= 1 -> x < y -> acos y < acos x.
Proof.
  intros x y Hx Hy H. destruct (Rlt_dec (acos y) (acos x)) as [|N]; auto. exfalso.
  pose proof (acos_range x). pose proof (acos_range y). assert (K : cos (acos y) <= cos (acos x)) by (apply cos_decr_1; lra).
  rewrite !cos_acos in K by lra. lra.
Qed.

Section Abstract.
(** angles between u, v and x u + y v, from the inner products *)
Variables uu uv vv : R.
Hypothesis Pu : 0 < uu.
Hypothesis Pv : 0 < vv.
Hypothesis CS : uv * uv <= uu * vv.
Variables x y : R.
Hypothesis Px : 0 < x.
Hypothesis Py : 0 < y.
Let uw := x * uu + y * uv.
Let vw := x * uv + y * vv.
Let ww := x * uw + y * vw.
Hypothesis Pw : 0 < ww.
Definition cosine (p q r : R) : R := p / (sqrt q * sqrt r).

Lemma cosine_range : forall p q r, 0 < q -> 0 < r -> p * p <= q * r -> -1 <= cosine p q r <= 1.
Proof.
  intros p q r Hq Hr H. unfold cosine. rewrite <- sqrt_mult by lra. assert (S0 : 0 < sqrt (q * r)) by (apply sqrt_lt_R0; nra).
  assert (S2 : sqrt (q * r) * sqrt (q * r) = q * r) by (apply sqrt_sqrt; nra).
  split; [apply Rmult_le_reg_r with (sqrt (q * r)); auto; unfold Rdiv; rewrite Rmult_assoc, Rinv_l by lra; nra
         |apply Rmult_le_reg_r with (sqrt (q * r)); auto; unfold Rdiv; rewrite Rmult_assoc, Rinv_l by lra; nra].
Qed.
Lemma sine_acos : forall p q r, 0 < q -> 0 < r -> p * p <= q * r -> sin (acos (cosine p q r)) = sqrt (q * r - p * p) / (sqrt q * sqrt r).
Proof.
  intros p q r Hq Hr H. pose proof (cosine_range p q r Hq Hr H) as B. rewrite sin_acos by auto. unfold cosine, Rsqr. rewrite <- sqrt_mult by lra.
  assert (S0 : 0 < sqrt (q * r)) by (apply sqrt_lt_R0; nra). assert (S2 : sqrt (q * r) * sqrt (q * r) = q * r) by (apply sqrt_sqrt; nra).
  replace (1 - p / sqrt (q * r) * (p / sqrt (q * r))) with ((q * r - p * p) / (q * r)). 2:{ replace (p / sqrt (q * r) * (p / sqrt (q * r))) with (p * p / (sqrt (q * r) * sqrt (q * r))) by (field; lra). rewrite S2. field. split; lra. }
  rewrite sqrt_div by nra. auto.
Qed.
Lemma angle_add : acos (cosine uw uu ww) + acos (cosine vw ww vv) = acos (cosine uv uu vv).
Proof.
  set (D := uu * vv - uv * uv). assert (HD : 0 <= D) by (unfold D; lra).
  assert (E1 : uu * ww - uw * uw = y * y * D) by (unfold ww, uw, vw, D; ring).
  assert (E2 : ww * vv - vw * vw = x * x * D) by (unfold ww, uw, vw, D; ring).
  assert (C1 : uw * uw <= uu * ww) by nra. assert (C2 : vw * vw <= ww * vv) by nra.
  pose proof (cosine_range uw uu ww Pu Pw C1) as B1. pose proof (cosine_range vw ww vv Pw Pv C2) as B2. pose proof (cosine_range uv uu vv Pu Pv CS) as B3.
  pose proof (sine_acos uw uu ww Pu Pw C1) as S1. pose proof (sine_acos vw ww vv Pw Pv C2) as S2.
  assert (Q1 : sqrt (uu * ww - uw * uw) = y * sqrt D) by (rewrite E1, sqrt_mult, sqrt_square by nra; auto).
  assert (Q2 : sqrt (ww * vv - vw * vw) = x * sqrt D) by (rewrite E2, sqrt_mult, sqrt_square by nra; auto).
  rewrite Q1 in S1. rewrite Q2 in S2.
  pose proof (cos_acos _ B1) as K1. pose proof (cos_acos _ B2) as K2.
  set (al := acos (cosine uw uu ww)) in *. set (be := acos (cosine vw ww vv)) in *.
  assert (Ru : 0 < sqrt uu) by (apply sqrt_lt_R0; auto). assert (Rv : 0 < sqrt vv) by (apply sqrt_lt_R0; auto). assert (Rw : 0 < sqrt ww) by (apply sqrt_lt_R0; auto).
  assert (Sw : sqrt ww * sqrt ww = ww) by (apply sqrt_sqrt; lra). assert (SD : sqrt D * sqrt D = D) by (apply sqrt_sqrt; lra).
  assert (C : cos (al + be) = cosine uv uu vv).
  { rewrite cos_plus, K1, K2, S1, S2. unfold cosine.
    replace (uw / (sqrt uu * sqrt ww) * (vw / (sqrt ww * sqrt vv)) - y * sqrt D / (sqrt uu * sqrt ww) * (x * sqrt D / (sqrt ww * sqrt vv)))
      with ((uw * vw - x * y * (sqrt D * sqrt D)) / (sqrt uu * sqrt vv * (sqrt ww * sqrt ww))) by (field; lra).
    rewrite SD, Sw. replace (uw * vw - x * y * D) with (uv * ww) by (unfold ww, uw, vw, D; ring). field. lra. }
  assert (S : 0 <= sin (al + be)).
  { rewrite sin_plus, K1, K2, S1, S2. unfold cosine.
    replace (y * sqrt D / (sqrt uu * sqrt ww) * (vw / (sqrt ww * sqrt vv)) + uw / (sqrt uu * sqrt ww) * (x * sqrt D / (sqrt ww * sqrt vv)))
      with (sqrt D * (y * vw + x * uw) / (sqrt uu * sqrt vv * (sqrt ww * sqrt ww))) by (field; lra).
    rewrite Sw. replace (y * vw + x * uw) with ww by (unfold ww; ring). apply Rmult_le_pos; [apply Rmult_le_pos; [apply sqrt_pos|lra]|]. left. apply Rinv_0_lt_compat. apply Rmult_lt_0_compat; auto. apply Rmult_lt_0_compat; auto. }
  pose proof (acos_range (cosine uw uu ww)) as G1. pose proof (acos_range (cosine vw ww vv)) as G2. fold al in G1. fold be in G2.
  assert (L : al + be <= PI).
  { destruct (Rle_dec (al + be) PI) as [|N]; auto. exfalso. destruct (Rlt_dec (al + be) (2 * PI)) as [L|L].
    - pose proof (sin_lt_0 (al + be)). lra.
    - assert (al = PI) by lra. assert (be = PI) by lra. rewrite H, cos_PI in K1. rewrite H0, cos_PI in K2. unfold cosine in K1, K2.
      assert (uw = - (sqrt uu * sqrt ww)). { transitivity (uw / (sqrt uu * sqrt ww) * (sqrt uu * sqrt ww)); [field; lra|rewrite <- K1; ring]. }
      assert (vw = - (sqrt ww * sqrt vv)). { transitivity (vw / (sqrt ww * sqrt vv) * (sqrt ww * sqrt vv)); [field; lra|rewrite <- K2; ring]. }
      assert (uw < 0) by nra. assert (vw < 0) by nra. assert (x * uw < 0) by nra. assert (y * vw < 0) by nra. unfold ww in Pw. lra. }
  rewrite <- C. symmetry. apply acos_cos. lra.
Qed.
End Abstract.

(** the angle between two vectors *)
Definition ang (u v : vec) : R := acos (cosine (dot u v) (dot u u) (dot v v)).
Lemma ang_comm : forall u v, ang u v = ang v u.
Proof. intros. unfold ang, cosine. rewrite dot_comm. f_equal. f_equal. ring. Qed.
Lemma ang_add : forall u v w x y, length u = length v -> 0 < x -> 0 < y -> w = vadd (vscale x u) (vscale y v) ->
  0 < dot u u -> 0 < dot v v -> 0 < dot w w -> ang u w + ang w v = ang u v.
Proof.
  intros u v w x y L Px Py -> Pu Pv Pw. unfold ang.
  assert (W1 : dot u (vadd (vscale x u) (vscale y v)) = x * dot u u + y * dot u v) by (rewrite dot_add_r, !dot_scale_r by (rewrite !vscale_length; auto); auto).
  assert (W2 : dot (vadd (vscale x u) (vscale y v)) v = x * dot u v + y * dot v v) by (rewrite dot_add_l, !dot_scale_l by (rewrite !vscale_length; auto); auto).
  assert (W3 : dot (vadd (vscale x u) (vscale y v)) (vadd (vscale x u) (vscale y v)) = x * (x * dot u u + y * dot u v) + y * (x * dot u v + y * dot v v)).
  { rewrite dot_add_l by (rewrite !vscale_length; auto). rewrite !dot_scale_l, W1. rewrite (dot_comm v), W2. auto. }
  rewrite W3 in *. rewrite W1, W2. apply angle_add; auto. pose proof (cauchy u v L) as C. unfold Rsqr in C. auto.
Qed.
Lemma sqrt_scale : forall k a, 0 < k -> 0 <= a -> sqrt (k * (k * a)) = k * sqrt a.
Proof. intros. replace (k * (k * a)) with (k * k * a) by ring. rewrite sqrt_mult, sqrt_square by nra. auto. Qed.
Lemma ang_scale_r : forall k u v, 0 < k -> 0 < dot u u -> 0 < dot v v -> ang u (vscale k v) = ang u v.
Proof.
  intros k u v Hk Pu Pv. unfold ang, cosine. f_equal. rewrite !dot_scale_r, dot_scale_l. rewrite sqrt_scale by lra.
  pose proof (sqrt_lt_R0 _ Pu). pose proof (sqrt_lt_R0 _ Pv). field. lra.
Qed.
Lemma ang_neg_r : forall k u v, k < 0 -> 0 < dot u u -> 0 < dot v v -> ang u (vscale k v) = PI - ang u v.
Proof.
  intros k u v Hk Pu Pv. unfold ang. rewrite <- acos_neg. f_equal. unfold cosine. rewrite !dot_scale_r, dot_scale_l. replace (k * (k * dot v v)) with ((- k) * ((- k) * dot v v)) by ring. rewrite sqrt_scale by lra.
  pose proof (sqrt_lt_R0 _ Pu). pose proof (sqrt_lt_R0 _ Pv). field. lra.
Qed.

Lemma ang_unit : forall a b, dot a a = 1 -> dot b b = 1 -> ang a b = acos (dot a b).
Proof. intros a b A B. unfold ang, cosine. rewrite A, B, sqrt_1. f_equal. field. Qed.
Lemma unit_range : forall a b, length a = length b -> dot a a = 1 -> dot b b = 1 -> -1 <= dot a b <= 1.
Proof. intros a b L A B. pose proof (cauchy a b L) as C. rewrite A, B in C. unfold Rsqr in C. nra. Qed.
Lemma unit_triangle : forall a b c, length a = length b -> length b = length c -> dot a a = 1 -> dot b b = 1 -> dot c c = 1 ->
  acos (dot a c) <= acos (dot a b) + acos (dot b c).
Proof.
  intros a b c L1 L2 A B C. pose proof (unit_range a b L1 A B) as R1. pose proof (unit_range b c L2 B C) as R2. pose proof (unit_range a c ltac:(lia) A C) as R3.
  pose proof (acos_range (dot a b)) as G1. pose proof (acos_range (dot b c)) as G2. pose proof (acos_range (dot a c)) as G3.
  destruct (Rle_dec PI (acos (dot a b) + acos (dot b c))) as [|N]; [lra|].
  destruct (Rle_dec (acos (dot a c)) (acos (dot a b) + acos (dot b c))) as [|M]; auto. exfalso.
  assert (K : cos (acos (dot a c)) < cos (acos (dot a b) + acos (dot b c))) by (apply cos_decreasing_1; lra).
  rewrite cos_plus, !cos_acos, !sin_acos in K by auto. unfold Rsqr in K.
  pose proof (cauchy (vadd a (vscale (- dot a b) b)) (vadd c (vscale (- dot b c) b))) as S.
  rewrite !vadd_length in S by (rewrite ?vscale_length; lia). specialize (S ltac:(lia)).
  rewrite !dot_add_l, !dot_add_r, !dot_scale_l, !dot_scale_r in S by (rewrite ?vscale_length; lia).
  rewrite A, B, C in S. rewrite (dot_comm b a), (dot_comm c b) in S. unfold Rsqr in S.
  set (p := dot a b) in *. set (q := dot b c) in *. set (r := dot a c) in *.
  rewrite <- sqrt_mult in K by nra.
  assert (T : (r - p * q) * (r - p * q) <= (1 - p * p) * (1 - q * q)) by nra.
  assert (0 <= (1 - p * p) * (1 - q * q)) by (apply Rmult_le_pos; nra).
  assert (U : p * q - r <= sqrt ((1 - p * p) * (1 - q * q))).
  { apply Rsqr_incr_0_var; [|apply sqrt_pos]. rewrite Rsqr_sqrt by auto. unfold Rsqr. nra. }
  lra.
Qed.

(** normalised vectors *)
Lemma norm_pos : forall u, 0 < dot u u -> 0 < norm u.
Proof. intros. apply sqrt_lt_R0. auto. Qed.
Lemma unit_of : forall u, 0 < dot u u -> map (fun x => x / norm u) u = vscale (/ norm u) u.
Proof. intros. apply map_ext. intros. unfold Rdiv. ring. Qed.
Lemma unit_of_dot : forall u, 0 < dot u u -> dot (vscale (/ norm u) u) (vscale (/ norm u) u) = 1.
Proof. intros u H. rewrite dot_scale_l, dot_scale_r. pose proof (norm_pos u H). assert (norm u * norm u = dot u u) by (apply sqrt_sqrt; lra). rewrite <- H1. field. lra. Qed.
Lemma nz_pos : forall u, 0 < dot u u -> normalized_ignore_zeros u = vscale (/ norm u) u.
Proof. intros u H. unfold normalized_ignore_zeros. pose proof (norm_pos u H). destruct (Req_EM_T (norm u) 0); [lra|]. apply unit_of. auto. Qed.
Lemma normalized_pos : forall u, 0 < dot u u -> normalized u = Some (vscale (/ norm u) u).
Proof. intros u H. unfold normalized. pose proof (norm_pos u H). destruct (Req_EM_T (norm u) 0); [lra|]. f_equal. apply unit_of. auto. Qed.
Lemma normalized_zero : forall u, dot u u = 0 -> normalized u = None.
Proof. intros u H. unfold normalized, norm. rewrite H, sqrt_0. destruct (Req_EM_T 0 0); [auto|lra]. Qed.
Lemma ang_units : forall u v, 0 < dot u u -> 0 < dot v v -> ang u v = acos (dot (vscale (/ norm u) u) (vscale (/ norm v) v)).
Proof. intros u v Pu Pv. unfold ang, cosine. f_equal. rewrite dot_scale_l, dot_scale_r. fold (norm u) (norm v). pose proof (norm_pos u Pu). pose proof (norm_pos v Pv). field. lra. Qed.
Lemma ang_triangle : forall u v w, length u = length v -> length v = length w -> 0 < dot u u -> 0 < dot v v -> 0 < dot w w -> ang u w <= ang u v + ang v w.
Proof.
  intros u v w L1 L2 Pu Pv Pw. rewrite !ang_units by auto. apply unit_triangle; rewrite ?vscale_length; auto using unit_of_dot.
Qed.
Lemma ang_range : forall u v, 0 <= ang u v <= PI.
Proof. intros. apply acos_range. Qed.
Lemma ang_perimeter : forall u v w, length u = length v -> length v = length w -> 0 < dot u u -> 0 < dot v v -> 0 < dot w w -> ang u v + ang v w + ang w u <= 2 * PI.
Proof.
  intros u v w L1 L2 Pu Pv Pw.
  assert (P : 0 < dot (vscale (-1) u) (vscale (-1) u)) by (rewrite dot_scale_l, dot_scale_r; lra).
  pose proof (ang_triangle v (vscale (-1) u) w ltac:(rewrite vscale_length; auto) ltac:(rewrite vscale_length; lia) Pv P Pw) as T.
  rewrite (ang_neg_r (-1) v u ltac:(lra) Pv Pu) in T. rewrite (ang_comm (vscale (-1) u) w), (ang_neg_r (-1) w u ltac:(lra) Pw Pu) in T.
  rewrite (ang_comm u v). lra.
Qed.

(** cross products *)
Ltac three a H := destruct a as [|?x0 [|?x1 [|?x2 [|]]]]; try discriminate H.
Ltac coords := repeat (apply (f_equal2 cons); [ring|]); reflexivity.
Lemma cross_length : forall a b, length a = 3%nat -> length b = 3%nat -> length (cross a b) = 3%nat.
Proof. intros a b A B. three a A. three b B. reflexivity. Qed.
Lemma cross_anti : forall a b, length a = 3%nat -> length b = 3%nat -> cross b a = vscale (-1) (cross a b).
Proof. intros a b A B. three a A. three b B. cbn. coords. Qed.
Lemma cross_comb : forall a b c x y, length a = 3%nat -> length b = 3%nat -> length c = 3%nat ->
  cross a (vadd (vscale x b) (vscale y c)) = vadd (vscale x (cross a b)) (vscale y (cross a c)).
Proof. intros a b c x y A B C. three a A. three b B. three c C. cbn. coords. Qed.
Lemma cross_comb_l : forall b c x y, length b = 3%nat -> length c = 3%nat -> cross b (vadd (vscale x b) (vscale y c)) = vscale y (cross b c).
Proof. intros b c x y B C. three b B. three c C. cbn. coords. Qed.
Lemma cross_comb_r : forall b c x y, length b = 3%nat -> length c = 3%nat -> cross c (vadd (vscale x b) (vscale y c)) = vscale x (cross c b).
Proof. intros b c x y B C. three b B. three c C. cbn. coords. Qed.
Lemma lagrange : forall a b c d, length a = 3%nat -> length b = 3%nat -> length c = 3%nat -> length d = 3%nat ->
  dot (cross a b) (cross c d) = dot a c * dot b d - dot a d * dot b c.
Proof. intros a b c d A B C D. three a A. three b B. three c C. three d D. cbn. ring. Qed.

Lemma indep_perm : forall a b c, independent a b c -> independent b c a /\ independent b a c.
Proof. intros a b c I. split; intros x y z H. - destruct (I z x y) as (? & ? & ?); [intros i; specialize (H i); lra|auto]. - destruct (I y x z) as (? & ? & ?); [intros i; specialize (H i); lra|auto]. Qed.
Lemma indep_rot : forall a b c, independent a b c -> independent b c a. Proof. intros a b c H. destruct (indep_perm a b c H). auto. Qed.
Lemma indep_swap : forall a b c, independent a b c -> independent b a c. Proof. intros a b c H. destruct (indep_perm a b c H). auto. Qed.
Lemma indep_cut : forall a b c d x y, independent a b c -> 0 < x -> 0 < y -> combination x b y c d -> independent a b d /\ independent a d c.
Proof.
  intros a b c d x y I Px Py (L1 & L2 & H). split; intros p q r E.
  - destruct (I p (q + r * x) (r * y)) as (P & Q & S). { intros i. specialize (E i). rewrite H in E. lra. } assert (r = 0) by nra. subst r. lra.
  - destruct (I p (q * x) (r + q * y)) as (P & Q & S). { intros i. specialize (E i). rewrite H in E. lra. } assert (q = 0) by nra. subst q. lra.
Qed.
Lemma indep_cross : forall a b c, length a = 3%nat -> length b = 3%nat -> independent a b c -> 0 < dot (cross a b) (cross a b).
Proof.
  intros a b c A B I. pose proof (dot_nonneg (cross a b)) as N. destruct (Req_dec (dot (cross a b) (cross a b)) 0) as [Z|]; [|lra]. exfalso.
  assert (E : forall i, nth i (cross a b) 0 = 0) by (intros; apply dot_zero; auto). clear N Z.
  pose proof (E 0%nat) as E0. pose proof (E 1%nat) as E1. pose proof (E 2%nat) as E2. clear E. three a A. three b B. cbn in E0, E1, E2.
  assert (F : forall p q, p * x0 + q * x3 = 0 -> p * x1 + q * x4 = 0 -> p * x2 + q * x5 = 0 -> p = 0 /\ q = 0).
  { intros p q H0 H1 H2. destruct (I p q 0) as (? & ? & ?); [|auto]. intros [|[|[|i]]]; cbn; try lra. destruct i; lra. }
  destruct (F x3 (- x0)) as [Z1 Z2]; [ring|lra|lra|]. destruct (F x4 (- x1)) as [Z3 Z4]; [lra|ring|lra|]. destruct (F x5 (- x2)) as [Z5 Z6]; [lra|lra|ring|].
  destruct (F 1 0); nra.
Qed.

(** areas *)
Lemma corner_term : forall u v, length u = length v -> 0 < dot u u -> 0 < dot v v -> acos (- clip (dot (normalized_ignore_zeros u) (normalized_ignore_zeros v))) = PI - ang u v.
Proof.
  intros u v L Pu Pv. rewrite !nz_pos by auto. rewrite acos_clip by (apply unit_range; rewrite ?vscale_length; auto using unit_of_dot). rewrite acos_neg, ang_units by auto. auto.
Qed.
Definition excess (a b c : vec) : R := ang (cross a b) (cross a c) + ang (cross b c) (cross b a) + ang (cross c a) (cross c b) - PI.
Lemma anti_pos : forall a b, length a = 3%nat -> length b = 3%nat -> 0 < dot (cross a b) (cross a b) -> 0 < dot (cross b a) (cross b a).
Proof. intros a b A B P. rewrite cross_anti, dot_scale_l, dot_scale_r by auto. lra. Qed.
Lemma area_excess : forall a b c, length a = 3%nat -> length b = 3%nat -> length c = 3%nat ->
  0 < dot (cross a b) (cross a b) -> 0 < dot (cross b c) (cross b c) -> 0 < dot (cross c a) (cross c a) ->
  triangle_area_from_corners a b c = excess a b c /\ 0 <= excess a b c.
Proof.
  intros a b c A B C Pab Pbc Pca. unfold triangle_area_from_corners, triangle_area_from_normals, excess.
  pose proof (anti_pos a b A B Pab). pose proof (anti_pos b c B C Pbc). pose proof (anti_pos c a C A Pca).
  rewrite !corner_term by (auto; rewrite !cross_length; auto).
  rewrite (cross_anti c a C A), (cross_anti a b A B), (cross_anti b c B C).
  rewrite !ang_neg_r by (auto; lra).
  rewrite (ang_comm (cross a b) (cross c a)), (ang_comm (cross b c) (cross a b)), (ang_comm (cross c a) (cross b c)).
  split; [lra|]. pose proof (ang_perimeter (cross a b) (cross b c) (cross c a)) as P. rewrite !cross_length in P by auto. specialize (P eq_refl eq_refl Pab Pbc Pca). lra.
Qed.
Lemma excess_cut : forall a b c d x y, length a = 3%nat -> length b = 3%nat -> length c = 3%nat -> independent a b c -> 0 < x -> 0 < y ->
  d = vadd (vscale x b) (vscale y c) -> excess a b c = excess a b d + excess a d c.
Proof.
  intros a b c d x y A B C I Px Py E.
  assert (K : combination x b y c d) by (apply combination_eq; split; [lia|auto]).
  assert (D : length d = 3%nat) by (destruct K; lia).
  destruct (indep_cut a b c d x y I Px Py K) as [I1 I2].
  assert (Pab : 0 < dot (cross a b) (cross a b)) by (apply (indep_cross a b c); auto).
  assert (Pac : 0 < dot (cross a c) (cross a c)) by (apply anti_pos; auto; apply (indep_cross c a b); auto; apply indep_rot, indep_rot; auto).
  assert (Pbc : 0 < dot (cross b c) (cross b c)) by (apply (indep_cross b c a); auto; apply indep_rot; auto).
  assert (Pad : 0 < dot (cross a d) (cross a d)) by (apply (indep_cross a d c); auto).
  pose proof (anti_pos a b A B Pab) as Pba. pose proof (anti_pos a c A C Pac) as Pca. pose proof (anti_pos b c B C Pbc) as Pcb. pose proof (anti_pos a d A D Pad) as Pda.
  assert (Xad : cross a d = vadd (vscale x (cross a b)) (vscale y (cross a c))) by (rewrite E; apply cross_comb; auto).
  assert (Xbd : cross b d = vscale y (cross b c)) by (rewrite E; apply cross_comb_l; auto).
  assert (Xcd : cross c d = vscale x (cross c b)) by (rewrite E; apply cross_comb_r; auto).
  assert (Xdb : cross d b = vscale y (cross c b)) by (rewrite cross_anti, Xbd, (cross_anti b c) by auto; unfold vscale; rewrite !map_map; apply map_ext; intros; ring).
  assert (Xdc : cross d c = vscale (- x) (cross c b)) by (rewrite cross_anti, Xcd by auto; unfold vscale; rewrite !map_map; apply map_ext; intros; ring).
  pose proof (ang_add (cross a b) (cross a c) (cross a d) x y ltac:(rewrite !cross_length; auto) Px Py Xad Pab Pac Pad) as S.
  unfold excess. rewrite Xbd, Xcd, Xdb, Xdc.
  rewrite (ang_comm (vscale y (cross b c))), (ang_comm (vscale (- x) (cross c b)) (cross d a)).
  rewrite (ang_scale_r y (cross b a)), (ang_scale_r y (cross d a)), (ang_scale_r x (cross c a)) by auto. rewrite ang_neg_r by (auto; lra).
  rewrite (ang_comm (cross b a) (cross b c)). lra.
Qed.
