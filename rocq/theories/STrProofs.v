(** Proofs about the transfer of dual cells between a spherical mesh and its loop subdivision. *)
Require Import Reals List Arith Bool Lia Lra Psatz Permutation.
From Verif Require Import Util SphModel SphSpec SphProofs SphProps STrModel STrSpec.
Import ListNotations.
Local Open Scope R_scope.

Lemma area_rot : forall a b c, length a = 3%nat -> length b = 3%nat -> length c = 3%nat -> area a b c = area b c a.
Proof. intros. apply C89_order; auto. Qed.
Lemma area_swap : forall a b c, length a = 3%nat -> length b = 3%nat -> length c = 3%nat -> area a b c = area b a c.
Proof. intros. apply C89_order; auto. Qed.
Lemma between_length : forall a m b, between a m b -> length m = length a /\ length b = length a.
Proof. intros a m b (x & y & _ & _ & (L1 & L2 & _)). auto. Qed.
Lemma between_sym : forall a m b, between a m b -> between b m a.
Proof. intros a m b (x & y & X & Y & (L1 & L2 & H)). exists y, x. split; auto. split; auto. split; [congruence|]. split; auto. intros i. rewrite H. ring. Qed.
Lemma between_scale : forall a m b k, 0 < k -> between a m b -> between a (vscale k m) b.
Proof.
  intros a m b k K (x & y & X & Y & (L1 & L2 & H)). exists (k * x), (k * y). split; [nra|]. split; [nra|]. split; [rewrite vscale_length; auto|]. split; auto.
  intros i. rewrite nth_vscale, H. ring.
Qed.
Lemma inside_rot : forall a b c p, length b = length a -> inside a b c p -> inside b c a p.
Proof. intros a b c p L (x & y & z & X & Y & Z & L' & H). exists y, z, x. repeat (split; [lra|]). split; [congruence|]. intros i. rewrite H. ring. Qed.
Lemma inside_swap : forall a b c p, length b = length a -> inside a b c p -> inside b a c p.
Proof. intros a b c p L (x & y & z & X & Y & Z & L' & H). exists y, x, z. repeat (split; [lra|]). split; [congruence|]. intros i. rewrite H. ring. Qed.

(** the point where two arcs cross, and what the code computes for it *)
Lemma crossing3 : forall s0 e0 s1 e1 x, length s0 = 3%nat -> length e0 = 3%nat -> length s1 = 3%nat -> length e1 = 3%nat -> between s0 x e0 -> between s1 x e1 ->
  exists k, 0 < k /\ cross (cross s0 e0) (cross s1 e1) = vscale (- (det3 s0 e0 s1 * k)) x.
Proof.
  intros s0 e0 s1 e1 x S0 E0 S1 E1 B0 B1. apply between_combination in B0 as (x0 & y0 & P0 & Q0 & _ & X0). apply between_combination in B1 as (x1 & y1 & P1 & Q1 & _ & X1).
  exists (/ y1). split; [apply Rinv_0_lt_compat; auto|].
  assert (D : dot (cross s0 e0) x = 0). { rewrite X0. clear. destruct s0 as [|? [|? [|? [|]]]], e0 as [|? [|? [|? [|]]]]; cbn; ring. }
  assert (V : cross (cross s0 e0) (cross s1 e1) = vadd (vscale (dot (cross s0 e0) e1) s1) (vscale (- dot (cross s0 e0) s1) e1)). { clear - S0 E0 S1 E1. three s0 S0. three e0 E0. three s1 S1. three e1 E1. cbn. coords. }
  rewrite V. rewrite X1 in D. rewrite dot_add_r, !dot_scale_r in D by (rewrite !vscale_length; lia).
  rewrite (det3_cross s0 e0 s1) by auto. set (d := dot (cross s0 e0) s1) in *. replace (dot (cross s0 e0) e1) with (- (x1 * d / y1)). 2:{ assert (Z : dot (cross s0 e0) e1 * y1 = - (x1 * d)) by lra. apply Rmult_eq_reg_r with y1; [|lra]. rewrite Z. field. lra. }
  rewrite X1. apply vec_ext; [rewrite ?vscale_length, ?vadd_length; rewrite ?vscale_length; lia|]. intros i. rewrite ?nth_vscale, ?nth_vadd, ?nth_vscale by (rewrite !vscale_length; lia). field. lra.
Qed.
Lemma crossing_point : forall s0 e0 s1 e1, length s0 = 3%nat -> length e0 = 3%nat -> length s1 = 3%nat -> length e1 = 3%nat -> crosses s0 e0 s1 e1 -> det3 s0 e0 s1 <> 0 ->
  exists y, length y = 3%nat /\ between s0 y e0 /\ between s1 y e1 /\ (det3 s0 e0 s1 < 0 -> intersect_edges s0 e0 s1 e1 = Some y) /\ (0 < det3 s0 e0 s1 -> intersect_edges s0 e0 s1 e1 = Some (opposite y)).
Proof.
  intros s0 e0 s1 e1 S0 E0 S1 E1 (x & B0 & B1) N.
  assert (P : 0 < dot x x).
  { destruct (Rle_lt_or_eq_dec _ _ (dot_nonneg x)) as [|Z]; auto. exfalso. destruct B0 as (u & v & U & V & (_ & _ & H)). destruct (indep_det3 s0 e0 s1 S0 E0 S1 N u v 0) as (Q & _); [|lra].
    intros i. pose proof (dot_zero x i (eq_sym Z)) as Q. rewrite H in Q. lra. }
  assert (K : 0 < / norm x) by (apply Rinv_0_lt_compat, norm_pos; auto). set (y := vscale (/ norm x) x). pose proof (between_scale _ _ _ _ K B0) as C0. pose proof (between_scale _ _ _ _ K B1) as C1. fold y in C0, C1.
  assert (L : length y = 3%nat) by (apply between_length in C0; lia). assert (O : on_sphere 3 y) by (split; auto; rewrite <- dot_inner by auto; apply unit_of_dot; auto).
  exists y. split; auto. split; auto. split; auto. destruct (crossing3 s0 e0 s1 e1 y S0 E0 S1 E1 C0 C1) as (k & Pk & V). unfold intersect_edges. rewrite V. split; intros D.
  - rewrite (normalized_multiple 3) by (auto; nra). destruct (Rlt_dec 0 (- (det3 s0 e0 s1 * k))); [auto|nra].
  - rewrite (normalized_multiple 3) by (auto; nra). destruct (Rlt_dec 0 (- (det3 s0 e0 s1 * k))); [nra|auto].
Qed.

(** areas *)
Lemma area_pos : forall a b c, length a = 3%nat -> length b = 3%nat -> length c = 3%nat -> independent a b c -> 0 <= area a b c.
Proof. intros a b c A B C I. destruct (area_indep a b c A B C I) as [-> H]. auto. Qed.
(** a triangle a b c and a point x between b and c *)
Lemma cut : forall a b c x, length a = 3%nat -> length b = 3%nat -> length c = 3%nat -> independent a b c -> between b x c ->
  length x = 3%nat /\ independent a b x /\ independent a x c /\ area a b x + area a x c = area a b c /\ 0 <= area a b x /\ 0 <= area a x c.
Proof.
  intros a b c x A B C I K. pose proof (C89_cut a b c x A B C I K) as E. destruct (between_length _ _ _ K) as [L _]. assert (X : length x = 3%nat) by lia. destruct K as (u & v & U & V & K). destruct (indep_cut a b c x u v I U V K) as [I1 I2].
  split; auto. split; auto. split; auto. split; [lra|]. split; apply area_pos; auto.
Qed.
(** The arc from b to c crosses the arc from a to P in x. *)
Lemma side : forall a b c P x, length a = 3%nat -> length b = 3%nat -> length c = 3%nat -> length P = 3%nat ->
  independent a b c -> independent b a P -> independent c a P -> between a x P -> between b x c ->
  area a b x + area a x c = area a b c /\ area a b x + area P b x = area a b P /\ area a x c + area P x c = area a P c /\
  (0 <= area a b x /\ 0 <= area a x c /\ 0 <= area P b x /\ 0 <= area P x c) /\
  independent a b x /\ independent a x c /\ independent P b x /\ independent P x c.
Proof.
  intros a b c P x A B C LP I1 I2 I3 K1 K2.
  destruct (cut a b c x A B C I1 K2) as (X & Q1 & Q2 & E1 & N1 & N2).
  destruct (cut b a P x B A LP I2 K1) as (_ & _ & Q3 & E2 & N3 & N4).
  destruct (cut c a P x C A LP I3 K1) as (_ & _ & Q4 & E3 & N5 & N6).
  rewrite (area_swap b a x) in * by auto. rewrite (area_rot b x P), (area_rot x P b) in * by auto. rewrite (area_swap b a P) in * by auto.
  rewrite (area_rot c a x) in * by auto. rewrite (area_rot c x P), (area_swap x P c) in * by auto. rewrite (area_rot c a P) in * by auto.
  split; auto. split; auto. split; auto. split; auto. split; auto. split; auto. split; [exact (indep_rot _ _ _ (indep_rot _ _ _ Q3))|exact (indep_swap _ _ _ (indep_rot _ _ _ Q4))].
Qed.
(** a corner a, the side from a to b with a point m, an inner point p *)
Lemma half : forall a b p m, length a = 3%nat -> length b = 3%nat -> length p = 3%nat -> independent a b p -> between a m b ->
  area a m p + area b m p = area a b p /\ independent a m p /\ independent b m p.
Proof.
  intros a b p m A B P I K. destruct (cut p a b m P A B (indep_rot _ _ _ (indep_rot _ _ _ I)) K) as (M & I1 & I2 & E & _).
  rewrite (area_rot p a m), (area_rot p m b), (area_swap m b p), (area_rot p a b) in E by auto. split; auto. split; [apply indep_rot; auto|]. apply indep_swap, indep_rot; auto.
Qed.

Ltac indep H := first [exact H|exact (indep_rot _ _ _ H)|exact (indep_rot _ _ _ (indep_rot _ _ _ H))|exact (indep_swap _ _ _ H)
  |exact (indep_swap _ _ _ (indep_rot _ _ _ H))|exact (indep_swap _ _ _ (indep_rot _ _ _ (indep_rot _ _ _ H)))].
(** the area of a triangle with a corner replaced by its antipode *)
Lemma cross_opposite_r : forall a x, length a = 3%nat -> length x = 3%nat -> cross a (opposite x) = vscale (-1) (cross a x).
Proof. intros a x A X. three a A. three x X. cbn. coords. Qed.
Lemma cross_opposite_l : forall a x, length a = 3%nat -> length x = 3%nat -> cross (opposite x) a = vscale (-1) (cross x a).
Proof. intros a x A X. three a A. three x X. cbn. coords. Qed.
Lemma indep_opposite : forall a b x, independent a b x -> independent a b (opposite x).
Proof.
  intros a b x I u v w H. destruct (I u v (- w)) as (A & B & C); [|repeat split; lra]. intros i. specialize (H i). unfold opposite in H. replace (nth i (map Ropp x) 0) with (- nth i x 0) in H; [lra|]. rewrite <- (map_nth Ropp). rewrite Ropp_0. reflexivity.
Qed.
Lemma lune : forall a b x, length a = 3%nat -> length b = 3%nat -> length x = 3%nat -> independent a b x ->
  area a b (opposite x) = 2 * ang (cross x a) (cross x b) - area a b x.
Proof.
  intros a b x A B X I. assert (X' : length (opposite x) = 3%nat) by (unfold opposite; rewrite map_length; auto).
  destruct (area_indep a b (opposite x) A B X' (indep_opposite _ _ _ I)) as [-> _]. destruct (area_indep a b x A B X I) as [-> _].
  destruct (indep_pos a b x A B X I) as (P1 & P2 & P3). destruct (indep_pos b a x B A X (indep_swap _ _ _ I)) as (P4 & P5 & P6).
  unfold excess. rewrite !cross_opposite_r, !cross_opposite_l by auto.
  rewrite (ang_comm (vscale (-1) (cross b x)) (cross b a)), !ang_neg_r by (auto; try lra; rewrite ?dot_scale_l, ?dot_scale_r; lra).
  rewrite (ang_comm (vscale (-1) (cross x a))), ang_neg_r by (auto; lra). rewrite (ang_comm (cross x b)), (ang_comm (cross b x)). ring.
Qed.
Lemma lunes : forall a b c x, length a = 3%nat -> length b = 3%nat -> length c = 3%nat -> independent a b c -> between b x c ->
  area a b (opposite x) + area a (opposite x) c = 2 * PI - area a b c.
Proof.
  intros a b c x A B C I K. destruct (cut a b c x A B C I K) as (X & I1 & I2 & E & _). assert (X' : length (opposite x) = 3%nat) by (unfold opposite; rewrite map_length; auto).
  rewrite (area_rot a (opposite x) c), (area_swap (opposite x) c a), (area_rot c (opposite x) a), (area_rot (opposite x) a c) by auto. rewrite lune by auto. rewrite (lune a c x) by (auto; indep I2).
  rewrite (area_rot a x c), (area_swap x c a), (area_rot c x a), (area_rot x a c) in E by auto.
  assert (G : ang (cross x a) (cross x c) = PI - ang (cross x a) (cross x b)).
  { destruct K as (u & v & U & V & K). apply combination_eq in K as [_ K]. assert (Q : cross x c = vscale (- (u / v)) (cross x b)). { clear - K A B C U V X. rewrite K. three b B. three c C. cbn. unfold vscale. cbn. repeat (apply (f_equal2 (@cons R)); [field; lra|]). reflexivity. }
    destruct (indep_pos a b x A B X I1) as (P1 & P2 & P3). destruct (indep_pos b a x B A X (indep_swap _ _ _ I1)) as (P4 & P5 & P6). rewrite Q. assert (0 < u / v) by (apply Rdiv_lt_0_compat; auto). apply ang_neg_r; auto; lra. }
  rewrite G. lra.
Qed.

(** The geometry of one central triangle: pm is the corner of the dual cell with the centre c. *)
Section Central.
Variables pm pr pl qm qL qR c P : list R.
Hypotheses (Lm : length pm = 3%nat) (Lr : length pr = 3%nat) (Ll : length pl = 3%nat) (D : det3 pm pr pl <> 0)
  (Km : between pr qm pl) (KL : between pl qL pm) (KR : between pm qR pr) (Ic : inside pm pr pl c) (IP : inside pm pr pl P) (Im : inside pl pr P c)
  (Xl : crosses pl P qL c) (Xr : crosses pr P qR c).
Set Default Proof Using "All".
Lemma central_lengths : length qm = 3%nat /\ length qL = 3%nat /\ length qR = 3%nat /\ length c = 3%nat /\ length P = 3%nat.
Proof.
  destruct (between_length _ _ _ Km), (between_length _ _ _ KL), (between_length _ _ _ KR). destruct Ic as (? & ? & ? & _ & _ & _ & ? & _). destruct IP as (? & ? & ? & _ & _ & _ & ? & _). lia.
Qed.
Lemma central_dets : exists k k', 0 < k /\ 0 < k' /\ det3 pl P qL = - (k * det3 pm pr pl) /\ det3 pr P qR = k' * det3 pm pr pl.
Proof.
  destruct IP as (x & y & z & X & Y & Z & _ & HP). destruct KL as (u & v & U & V & (_ & _ & HL)). destruct KR as (u' & v' & U' & V' & (_ & _ & HR)).
  exists (y * v), (z * u'). split; [nra|]. split; [nra|]. unfold det3. rewrite !HP, !HL, !HR. split; ring.
Qed.
Definition parts (x y : list R) : Prop :=
  (* columns: the fine dual cells *)
  area pl qL x + (area pl qm c + area pl x c) = area pl qL c + area pl qm c /\
  area pr qR y + (area pr qm c + area pr y c) = area pr qR c + area pr qm c /\
  (area pm qL P + area P qL x) + (area pm qR P + area P qR y) + (area P x c + area P y c) = area pm qL c + area pm qR c /\
  (* rows: the parts of the coarse dual cells *)
  area pl qL x + (area pm qL P + area P qL x) = area pl pm P /\
  area pr qR y + (area pm qR P + area P qR y) = area pm pr P /\
  (area pl qm c + area pl x c) + (area pr qm c + area pr y c) + (area P x c + area P y c) = area pr pl P /\
  0 <= area pl qL x /\ 0 <= area pr qR y /\ 0 <= area pm qL P + area P qL x /\ 0 <= area pm qR P + area P qR y /\
  0 <= area pl qm c + area pl x c /\ 0 <= area pr qm c + area pr y c /\ 0 <= area P x c + area P y c.
Lemma central : exists x y, length x = 3%nat /\ length y = 3%nat /\ parts x y /\
  (0 < det3 pm pr pl -> intersect_edges pl P qL c = Some x /\ intersect_edges pr P qR c = Some (opposite y)) /\
  (det3 pm pr pl < 0 -> intersect_edges pl P qL c = Some (opposite x) /\ intersect_edges pr P qR c = Some y) /\
  (between pl x P /\ between qL x c /\ between pr y P /\ between qR y c /\ independent pl qL c /\
   independent pl qL x /\ independent pl x c /\ independent P qL x /\ independent P x c /\
   independent pr qR y /\ independent pr y c /\ independent P qR y /\ independent P y c /\
   0 <= area pm qL P /\ 0 <= area pm qR P /\ 0 <= area pl qm c /\ 0 <= area pr qm c).
Proof.
  destruct central_lengths as (Lqm & LqL & LqR & Lc & LP). destruct central_dets as (k & k' & K & K' & D1 & D2).
  assert (I : independent pm pr pl) by (apply indep_det3; auto).
  destruct (C89_inside pm pr pl c Lm Lr Ll I Ic) as (I1 & I2 & I3 & E1). destruct (C89_inside pm pr pl P Lm Lr Ll I IP) as (J1 & J2 & J3 & F1).
  assert (J : independent pl pr P) by (apply indep_swap; auto). destruct (C89_inside pl pr P c Ll Lr LP J Im) as (G1 & G2 & G3 & H1).
  destruct (half pr pl c qm Lr Ll Lc I2 Km) as (Ec1 & Ic1 & Ic1'). destruct (half pl pm c qL Ll Lm Lc I3 KL) as (Ec2 & Ic2 & Ic2'). destruct (half pm pr c qR Lm Lr Lc I1 KR) as (Ec3 & Ic3 & Ic3').
  destruct (half pl pm P qL Ll Lm LP J3 KL) as (EP2 & IP2 & IP2'). destruct (half pm pr P qR Lm Lr LP J1 KR) as (EP3 & IP3 & IP3').
  destruct (crossing_point pl P qL c Ll LP LqL Lc Xl) as (x & Lx & B1 & B2 & C1 & C2); [nra|].
  destruct (crossing_point pr P qR c Lr LP LqR Lc Xr) as (y & Ly & B3 & B4 & C3 & C4); [nra|].
  destruct (side pl qL c P x Ll LqL Lc LP Ic2 (indep_swap _ _ _ IP2)) as (S1 & S2 & S3 & (N1 & N2 & N3 & N4) & U1 & U2 & U3 & U4); auto. { exact (indep_rot _ _ _ (indep_rot _ _ _ (indep_swap _ _ _ G3))). }
  destruct (side pr qR c P y Lr LqR Lc LP Ic3' (indep_swap _ _ _ IP3')) as (T1 & T2 & T3 & (M1 & M2 & M3 & M4) & W1 & W2 & W3 & W4); auto. { exact (indep_rot _ _ _ (indep_rot _ _ _ G2)). }
  exists x, y. split; auto. split; auto. split; [|split; [|split; [|repeat (split; [assumption|]); repeat split; apply area_pos; auto]]].
  - pose proof (area_pos _ _ _ Lm LqL LP IP2'). pose proof (area_pos _ _ _ Lm LqR LP IP3). pose proof (area_pos _ _ _ Ll Lqm Lc Ic1'). pose proof (area_pos _ _ _ Lr Lqm Lc Ic1).
    rewrite (area_swap pl pr P) in * by auto. rewrite (area_swap pl pr c) in * by auto. rewrite (area_swap P pl c) in * by auto.
    unfold parts. repeat split; try lra.
  - intros Z. split; [apply C1; nra|apply C4; nra].
  - intros Z. split; [apply C2; nra|apply C3; nra].
Qed.
End Central.

(** sums *)
Lemma total_app : forall (T : Type) (f : T -> R) a b, total f (a ++ b) = total f a + total f b.
Proof. unfold total. induction a as [|x a IH]; intros b; cbn; [ring|]. rewrite IH. ring. Qed.
Lemma total_perm : forall (T : Type) (f : T -> R) a b, Permutation a b -> total f a = total f b.
Proof. unfold total. induction 1; cbn; lra. Qed.
Lemma total_flat : forall (T U : Type) (f : U -> R) (g : T -> list U) l, total f (flat_map g l) = total (fun x => total f (g x)) l.
Proof. induction l as [|x l IH]; cbn [flat_map]; [auto|]. rewrite total_app, IH. auto. Qed.
Lemma total_map : forall (T U : Type) (f : U -> R) (g : T -> U) l, total f (map g l) = total (fun x => f (g x)) l.
Proof. unfold total. induction l as [|x l IH]; cbn; auto. rewrite IH. auto. Qed.
Lemma total_ext : forall (T : Type) (f g : T -> R) l, (forall x, In x l -> f x = g x) -> total f l = total g l.
Proof. unfold total. induction l as [|x l IH]; intros H; cbn; auto. rewrite H, IH; auto; [|left; auto]. intros. apply H. right; auto. Qed.
Lemma total_plus : forall (T : Type) (f g : T -> R) l, total (fun x => f x + g x) l = total f l + total g l.
Proof. unfold total. induction l as [|x l IH]; cbn; [ring|]. rewrite IH. ring. Qed.
Lemma total_four : forall (f : nat -> R) n, total f (seq 0 (4 * n)) = total (fun c => f (4 * c)%nat + total f (map (fun r => (4 * c + 1 + r)%nat) (seq 0 3))) (seq 0 n).
Proof.
  intros f n. induction n as [|n IH]; [reflexivity|]. rewrite (seq_S n 0), total_app. rewrite <- IH. replace (4 * S n)%nat with (4 * n + 4)%nat by lia. rewrite seq_app, total_app. f_equal.
  unfold total. cbn [seq map fold_right plus Nat.add]. rewrite <- !Nat.add_assoc. cbn [Nat.add]. replace (4 * n + 0)%nat with (4 * n)%nat by lia. replace (S (4 * n)) with (4 * n + 1)%nat by lia. replace (S (4 * n + 1)) with (4 * n + 2)%nat by lia. replace (S (4 * n + 2)) with (4 * n + 3)%nat by lia. ring.
Qed.
Lemma row_total : forall M i, row_sum M i = total (fun e => if Nat.eqb (fst (fst e)) i then snd e else 0) M. Proof. reflexivity. Qed.
Lemma col_total : forall M j, col_sum M j = total (fun e => if Nat.eqb (snd (fst e)) j then snd e else 0) M. Proof. reflexivity. Qed.

(** the values of one central triangle *)
Lemma vscale_opposite : forall y : list R, vscale (-1) (opposite y) = y.
Proof. unfold vscale, opposite. intros y. rewrite map_map. rewrite <- (map_id y) at 2. apply map_ext. intros. ring. Qed.
Lemma det3_rot : forall a b c, det3 a b c = det3 b c a.
Proof. intros. unfold det3. ring. Qed.
Definition values (p0 p1 : nat -> list R) (p2 P : list R) (rd : nat -> nat -> R) : Prop :=
  (forall i j, (i < 3)%nat -> (j < 3)%nat -> 0 <= rd i j) /\
  (forall j, (j < 3)%nat -> rd 0%nat j + rd 1%nat j + rd 2%nat j = cell_part p0 p1 p2 j) /\
  (forall i, (i < 3)%nat -> rd i 0%nat + rd i 1%nat + rd i 2%nat = area (p0 (next i)) (p0 (prev i)) P).
Ltac center_case p0 p1 p2 P a b d :=
  let H1 := fresh in let H2 := fresh in
  assert (H1 : inside (p0 a) (p0 b) (p0 d) p2) by (first [assumption|apply inside_rot; [lia|assumption]|apply inside_rot; [lia|apply inside_rot; [lia|assumption]]]);
  assert (H2 : inside (p0 a) (p0 b) (p0 d) P) by (first [assumption|apply inside_rot; [lia|assumption]|apply inside_rot; [lia|apply inside_rot; [lia|assumption]]]);
  destruct (central (p0 a) (p0 b) (p0 d) (p1 a) (p1 b) (p1 d) p2 P) as (x & y & Lx & Ly & Q & E & _ & (B1 & B2 & B3 & B4 & _)); auto; try lra;
  let E1 := fresh in let E2 := fresh in destruct E as [E1 E2]; [lra|];
  destruct (central_lengths (p0 a) (p0 b) (p0 d) (p1 a) (p1 b) (p1 d) p2 P) as (M1 & M2 & M3 & M4 & M5); auto; try lra;
  let f0 a := (let u := eval cbv beta delta [p0] in (p0 a) in change u with (p0 a) in * ) in let f1 a := (let u := eval cbv beta delta [p1] in (p1 a) in change u with (p1 a) in * ) in
  f0 a; f0 b; f0 d; f1 a; f1 b; f1 d;
  rewrite E1, E2, vscale_opposite; eexists; split; [reflexivity|]; unfold parts in Q;
  split; [|unfold pieces, next, prev; cbn [Nat.modulo Nat.divmod Nat.add fst snd Nat.sub]; exists x, y; repeat (split; [solve [assumption|reflexivity]|]); reflexivity];
  split; [|split]; [intros [|[|[|]]] [|[|[|]]]|intros [|[|[|]]]|intros [|[|[|]]]]; intros; try lia; unfold read; cbn [fold_left fst snd Nat.eqb andb]; unfold cell_part, next, prev; cbn [Nat.modulo Nat.divmod Nat.add fst snd Nat.sub]; lra.
Lemma center_values : forall i20 i21 position0 position1 position2 P2 c m, (m < 3)%nat ->
  let p0 k := position0 (nth k (i20 (4 * c)%nat) 0%nat) in let p1 k := position1 (nth k (i21 (4 * c)%nat) 0%nat) in
  central_position p0 p1 (position2 (4 * c)%nat) (P2 c) m -> counterclockwise p0 ->
  exists l, assignments i20 i21 position0 position1 position2 P2 c m = Some l /\ values p0 p1 (position2 (4 * c)%nat) (P2 c) (read l) /\ pieces p0 p1 (position2 (4 * c)%nat) (P2 c) m (read l).
Proof.
  intros i20 i21 position0 position1 position2 P2 c m Hm p0 p1 (CT & IP & Im & Xl & Xr) D. unfold counterclockwise in D. destruct CT as (L0 & L1 & L2 & _ & K0 & K1 & K2 & Ic).
  set (p2 := position2 (4 * c)%nat) in *. set (P := P2 c) in *.
  assert (D1 : det3 (p0 1%nat) (p0 2%nat) (p0 0%nat) > 0) by (rewrite <- det3_rot; auto). assert (D2 : det3 (p0 2%nat) (p0 0%nat) (p0 1%nat) > 0) by (rewrite <- det3_rot; auto).
  unfold assignments. fold p0 p1 p2 P. destruct m as [|[|[|]]]; [| | |lia]; unfold next, prev in Im, Xl, Xr; cbn [Nat.modulo Nat.divmod Nat.add fst snd Nat.sub] in Im, Xl, Xr |- *.
  - center_case p0 p1 p2 P 0%nat 1%nat 2%nat.
  - center_case p0 p1 p2 P 1%nat 2%nat 0%nat.
  - center_case p0 p1 p2 P 2%nat 0%nat 1%nat.
Qed.

(** the values for corners in clockwise order *)
Lemma opposite_length : forall x : list R, length (opposite x) = length x. Proof. intros. apply map_length. Qed.
Ltac clock_case p0 p1 p2 P a b d :=
  let H1 := fresh in let H2 := fresh in
  assert (H1 : inside (p0 a) (p0 b) (p0 d) p2) by (first [assumption|apply inside_rot; [lia|assumption]|apply inside_rot; [lia|apply inside_rot; [lia|assumption]]]);
  assert (H2 : inside (p0 a) (p0 b) (p0 d) P) by (first [assumption|apply inside_rot; [lia|assumption]|apply inside_rot; [lia|apply inside_rot; [lia|assumption]]]);
  destruct (central (p0 a) (p0 b) (p0 d) (p1 a) (p1 b) (p1 d) p2 P) as (x & y & Lx & Ly & Q & _ & E & (_ & B2 & _ & _ & J1 & J2 & J3 & J4 & J5 & J6 & J7 & J8 & J9 & A1 & A2 & A3 & A4)); auto; try lra;
  let E1 := fresh in let E2 := fresh in destruct E as [E1 E2]; [lra|];
  destruct (central_lengths (p0 a) (p0 b) (p0 d) (p1 a) (p1 b) (p1 d) p2 P) as (M1 & M2 & M3 & M4 & M5); auto; try lra;
  let f0 a := (let u := eval cbv beta delta [p0] in (p0 a) in change u with (p0 a) in * ) in let f1 a := (let u := eval cbv beta delta [p1] in (p1 a) in change u with (p1 a) in * ) in
  f0 a; f0 b; f0 d; f1 a; f1 b; f1 d;
  rewrite E1, E2; change (vscale (-1) y) with (map (Rmult (-1)) y); replace (map (Rmult (-1)) y) with (opposite y) by (unfold opposite; apply map_ext; intros; ring); eexists; split; [reflexivity|];
  pose proof (fun h1 h2 h3 => lunes (p0 d) (p1 b) p2 x h1 h2 h3 J1 B2) as HL; specialize (HL ltac:(assumption) ltac:(assumption) ltac:(assumption));
  apply indep_opposite in J2, J4, J6, J8; apply indep_rot, indep_rot, indep_opposite, indep_rot in J3; apply indep_rot, indep_rot, indep_opposite, indep_rot in J5; apply indep_rot, indep_rot, indep_opposite, indep_rot in J7; apply indep_rot, indep_rot, indep_opposite, indep_rot in J9;
  apply area_pos in J2, J3, J4, J5, J6, J7, J8, J9; rewrite ?opposite_length; auto;
  split; [intros [|[|[|]]] [|[|[|]]]; intros; try lia; unfold read; cbn [fold_left fst snd Nat.eqb andb]; try lra|unfold read; cbn [fold_left fst snd Nat.eqb andb]; unfold cell_part, next, prev; cbn [Nat.modulo Nat.divmod Nat.add fst snd Nat.sub]; try lra].
Lemma center_clockwise : forall i20 i21 position0 position1 position2 P2 c m, (m < 3)%nat ->
  let p0 k := position0 (nth k (i20 (4 * c)%nat) 0%nat) in let p1 k := position1 (nth k (i21 (4 * c)%nat) 0%nat) in
  central_position p0 p1 (position2 (4 * c)%nat) (P2 c) m -> det3 (p0 0%nat) (p0 1%nat) (p0 2%nat) < 0 ->
  exists l, assignments i20 i21 position0 position1 position2 P2 c m = Some l /\ (forall i j, (i < 3)%nat -> (j < 3)%nat -> 0 <= read l i j) /\
    read l 0%nat (prev m) + read l 1%nat (prev m) + read l 2%nat (prev m) - cell_part p0 p1 (position2 (4 * c)%nat) (prev m) = 2 * (PI - area (p0 (prev m)) (p1 (next m)) (position2 (4 * c)%nat)).
Proof.
  intros i20 i21 position0 position1 position2 P2 c m Hm p0 p1 (CT & IP & Im & Xl & Xr) D. destruct CT as (L0 & L1 & L2 & _ & K0 & K1 & K2 & Ic).
  set (p2 := position2 (4 * c)%nat) in *. set (P := P2 c) in *.
  assert (D1 : det3 (p0 1%nat) (p0 2%nat) (p0 0%nat) < 0) by (rewrite <- det3_rot; auto). assert (D2 : det3 (p0 2%nat) (p0 0%nat) (p0 1%nat) < 0) by (rewrite <- det3_rot; auto).
  unfold assignments. fold p0 p1 p2 P. destruct m as [|[|[|]]]; [| | |lia]; unfold next, prev in Im, Xl, Xr |- *; cbn [Nat.modulo Nat.divmod Nat.add fst snd Nat.sub] in Im, Xl, Xr |- *.
  - clock_case p0 p1 p2 P 0%nat 1%nat 2%nat.
  - clock_case p0 p1 p2 P 1%nat 2%nat 0%nat.
  - clock_case p0 p1 p2 P 2%nat 0%nat 1%nat.
Qed.

(** two triangles at a side M M' whose other corners V and P are joined by an arc across the side *)
Lemma quad : forall V P M M', length V = 3%nat -> length P = 3%nat -> length M = 3%nat -> length M' = 3%nat -> independent V M M' -> independent P M M' -> crosses V P M M' ->
  area V M M' + area P M M' = area V M P + area V M' P.
Proof.
  intros V P M M' LV LP LM LM' IV IP (y & K1 & K2).
  destruct (cut V M M' y LV LM LM' IV K2) as (Ly & I1 & I2 & E1 & _). destruct (cut P M M' y LP LM LM' IP K2) as (_ & J1 & J2 & E2 & _).
  destruct K1 as (u & v & U & W & K). pose proof (fun i => proj2 (proj2 K) i) as H.
  assert (IM : independent M V P). { intros a b c E. destruct (I1 (v * b - c * u) (v * a) c) as (A1 & A2 & A3). { intros i. rewrite H. specialize (E i). nra. } subst c. split; [nra|]. split; [nra|auto]. }
  assert (IM' : independent M' V P). { intros a b c E. destruct (I2 (v * b - c * u) c (v * a)) as (A1 & A2 & A3). { intros i. rewrite H. specialize (E i). nra. } subst c. split; [nra|]. split; [nra|auto]. }
  assert (K1 : between V y P) by (exists u, v; auto).
  destruct (cut M V P y LM LV LP IM K1) as (_ & _ & _ & E3 & _). destruct (cut M' V P y LM' LV LP IM' K1) as (_ & _ & _ & E4 & _).
  rewrite (area_swap M V y), (area_rot M y P), (area_rot y P M), (area_swap M V P) in E3 by auto.
  rewrite (area_rot M' V y), (area_rot M' y P), (area_swap y P M'), (area_rot M' V P), (area_rot V P M'), (area_rot P M' V), (area_swap M' V P) in E4 by auto. lra.
Qed.
Lemma whole : forall a b c m0 m1 m2 p, cut_triangle a b c m0 m1 m2 p ->
  (area a m1 p + area a m2 p) + (area b m2 p + area b m0 p) + (area c m0 p + area c m1 p) = area a b c /\
  0 <= area a m1 p /\ 0 <= area a m2 p /\ 0 <= area b m2 p /\ 0 <= area b m0 p /\ 0 <= area c m0 p /\ 0 <= area c m1 p.
Proof.
  intros a b c m0 m1 m2 p (A & B & C & I & K0 & K1 & K2 & Ip). destruct (between_length _ _ _ K0), (between_length _ _ _ K1), (between_length _ _ _ K2).
  assert (P : length p = 3%nat) by (destruct Ip as (? & ? & ? & _ & _ & _ & ? & _); lia). destruct (C89_inside a b c p A B C I Ip) as (I1 & I2 & I3 & E).
  destruct (half a b p m2 A B P I1 K2) as (E2 & N1 & N2). destruct (half b c p m0 B C P I2 K0) as (E0 & N3 & N4). destruct (half c a p m1 C A P I3 K1) as (E1 & N5 & N6).
  split; [lra|]. repeat split; apply area_pos; auto; lia.
Qed.

Section Run.
Variables radius_coarse radius_fine : R.
Variables centered_coarse centered_fine : bool.
Variable N : nat.
Variables I20 i20 i21 : nat -> list nat.
Variable domains : nat -> list (list nat).
Variables position0 position1 position2 P2 : nat -> vec.
Variables pick_edge pick_center : nat -> nat.
Hypothesis S : subdivision N I20 i20 i21 position0 position1 position2 P2 pick_edge pick_center.
Hypothesis Hd : forall f, (f < 4 * N)%nat -> Permutation (domains f) (domain_rows i20 i21 f).
Set Default Proof Using "All".

Definition mm (c : nat) : nat := hd 0%nat (filter (fun m => Nat.eqb (nth m (I20 c) 0%nat) (pick_center c)) (seq 0 3)).
Lemma filter_mm : forall c, (c < N)%nat -> filter (fun m => Nat.eqb (nth m (I20 c) 0%nat) (pick_center c)) (seq 0 3) = [mm c] /\ (mm c < 3)%nat /\
  central_position (fp0 i20 position0 (4 * c)) (fp1 i21 position1 (4 * c)) (position2 (4 * c)%nat) (P2 c) (mm c).
Proof.
  intros c Hc. destruct (S c Hc) as (L & ND & (m & Hm & E & G) & _).
  assert (F : filter (fun m => Nat.eqb (nth m (I20 c) 0%nat) (pick_center c)) (seq 0 3) = [m]).
  { rewrite E. clear - L ND Hm. destruct (I20 c) as [|x [|y [|z [|]]]]; try discriminate. inversion ND as [|? ? N1 ND1]; inversion ND1 as [|? ? N2 ND2]; subst. cbn [In] in *.
    assert (x <> y) by (intros E; apply N1; auto). assert (x <> z) by (intros E; apply N1; auto). assert (y <> z) by (intros E; apply N2; auto).
    destruct m as [|[|[|]]]; [| | |lia]; cbn; rewrite ?Nat.eqb_refl; repeat match goal with |- context [Nat.eqb ?a ?b] => destruct (Nat.eqb_spec a b); [congruence|] end; reflexivity. }
  unfold mm. rewrite F. cbn. auto.
Qed.
Lemma matches_eq : matches N I20 pick_center = map (fun c => (c, mm c)) (seq 0 N).
Proof.
  unfold matches. rewrite flat_map_concat_map. rewrite map_ext_in with (g := fun c => [(c, mm c)]). - clear. induction (seq 0 N); cbn; congruence.
  - intros c Hc. apply in_seq in Hc. destruct (filter_mm c) as (-> & _); [lia|]. reflexivity.
Qed.

Definition get (c : nat) : list (nat * nat * R) := match assignments i20 i21 position0 position1 position2 P2 c (mm c) with Some l => l | None => [] end.
Notation cell_fine f k := (cell_part (fp0 i20 position0 f) (fp1 i21 position1 f) (position2 f) k).
Section Any.
Hypothesis Gok : forall c, (c < N)%nat -> assignments i20 i21 position0 position1 position2 P2 c (mm c) = Some (get c) /\ forall i j, (i < 3)%nat -> (j < 3)%nat -> 0 <= read (get c) i j.
Definition answer : list entry := flat_map (fun c => center_entries I20 i20 c (get c)) (seq 0 N) ++ corner_transfer N domains position0 position1 position2 pick_edge.
Lemma answer_ok : radius_fine = radius_coarse -> centered_coarse = true -> centered_fine = true ->
  multigrid_transfer_dual radius_coarse radius_fine centered_coarse centered_fine N I20 i20 i21 domains position0 position1 position2 P2 pick_edge pick_center = Ok answer.
Proof.
  intros Er Ec Ef. rewrite Er, Ec, Ef. unfold multigrid_transfer_dual. destruct (Req_EM_T radius_coarse radius_coarse); [|congruence]. cbn [negb]. rewrite matches_eq. rewrite map_map, map_length, seq_length. cbn [fst]. rewrite map_id.
  rewrite (proj2 (list_eqb_eq _ _) eq_refl). cbn [negb]. rewrite Nat.eqb_refl. cbn [negb].
  assert (M : forall l, (forall c, In c l -> (c < N)%nat) -> mapM (fun am => match assignments i20 i21 position0 position1 position2 P2 (fst am) (snd am) with
    | None => Err AssertionError
    | Some l => if forallb (fun i => forallb (fun j => if Rlt_dec (- (1 / 10 ^ 13)) (read l i j) then true else false) (seq 0 3)) (seq 0 3) then Ok (center_entries I20 i20 (fst am) l) else Err AssertionError
    end) (map (fun c => (c, mm c)) l) = Ok (map (fun c => center_entries I20 i20 c (get c)) l)).
  { induction l as [|c l IH]; intros H; [reflexivity|]. cbn [map mapM fst snd]. destruct (Gok c (H c (or_introl eq_refl))) as [E V]. rewrite E. replace (forallb _ _) with true.
    - cbn [bind]. rewrite IH; [reflexivity|]. intros; apply H; right; auto.
    - symmetry. apply forallb_forall. intros i Hi. apply forallb_forall. intros j Hj. apply in_seq in Hi, Hj. destruct (Rlt_dec _ _) as [|Z]; auto. exfalso. apply Z. apply Rlt_le_trans with 0; [|apply V; lia]. assert (0 < 10 ^ 13) by (apply pow_lt; lra). assert (0 < 1 / 10 ^ 13) by (apply Rdiv_lt_0_compat; lra). lra. }
  rewrite M by (intros c Hc; apply in_seq in Hc; lia). cbn [bind]. unfold answer. rewrite flat_map_concat_map. reflexivity.
Qed.

Lemma corner_tris_eq : forall (g : nat -> R), total g (corner_tris N) = total (fun c => total g (map (fun r => (4 * c + 1 + r)%nat) (seq 0 3))) (seq 0 N).
Proof using.
  intros g. unfold corner_tris. rewrite total_flat. apply total_ext. intros c _. unfold total. cbn [map seq fold_right]. replace (4 * c + 1 + 0)%nat with (4 * c + 1)%nat by lia. replace (4 * c + 1 + 1)%nat with (4 * c + 2)%nat by lia. replace (4 * c + 1 + 2)%nat with (4 * c + 3)%nat by lia. reflexivity.
Qed.
Definition defect (c j : nat) : R := read (get c) 0%nat j + read (get c) 1%nat j + read (get c) 2%nat j - cell_fine (4 * c)%nat j.
Lemma col_any : forall v, col_sum answer v = fine_cell N i20 i21 position0 position1 position2 v + total (fun c => total (fun j => if Nat.eqb (nth j (i20 (4 * c)%nat) 0%nat) v then defect c j else 0) (seq 0 3)) (seq 0 N).
Proof.
  intros v. unfold answer. rewrite col_total, total_app. unfold fine_cell. rewrite total_four, total_plus.
  match goal with |- ?a + ?b = ?c + ?b' + ?d => assert (HC : b' = b); [|rewrite HC; enough (a = c + d) by lra] end.
  - symmetry. unfold corner_transfer. rewrite total_map, total_flat, corner_tris_eq. apply total_ext. intros c Hc. apply in_seq in Hc. apply total_ext. intros f Hf. apply in_map_iff in Hf as (r & <- & Hr). apply in_seq in Hr.
    rewrite (total_perm _ _ _ _ (Hd (4 * c + 1 + r)%nat ltac:(lia))). set (f := (4 * c + 1 + r)%nat). unfold domain_rows, total. cbn [seq map flat_map app fold_right fst snd nth]. unfold cell_part, fp0, fp1. repeat destruct (Nat.eqb _ v); lra.
  - rewrite <- total_plus.
    rewrite total_flat. apply total_ext. intros c Hc. apply in_seq in Hc. unfold center_entries, total, defect. cbn [seq map flat_map app fold_right fst snd].
    repeat destruct (Nat.eqb _ v); lra.
Qed.
End Any.

Hypothesis CC : forall c, (c < N)%nat -> counterclockwise (fp0 i20 position0 (4 * c)).
Lemma get_ok : forall c, (c < N)%nat -> assignments i20 i21 position0 position1 position2 P2 c (mm c) = Some (get c) /\
  values (fp0 i20 position0 (4 * c)) (fp1 i21 position1 (4 * c)) (position2 (4 * c)%nat) (P2 c) (read (get c)) /\ pieces (fp0 i20 position0 (4 * c)) (fp1 i21 position1 (4 * c)) (position2 (4 * c)%nat) (P2 c) (mm c) (read (get c)).
Proof.
  intros c Hc. destruct (filter_mm c Hc) as (_ & Hm & G). destruct (center_values i20 i21 position0 position1 position2 P2 c (mm c) Hm G (CC c Hc)) as (l & E & V). unfold get. rewrite E. split; auto.
Qed.
Lemma Gok_cc : forall c, (c < N)%nat -> assignments i20 i21 position0 position1 position2 P2 c (mm c) = Some (get c) /\ forall i j, (i < 3)%nat -> (j < 3)%nat -> 0 <= read (get c) i j.
Proof. intros c Hc. destruct (get_ok c Hc) as [E [(V & _) _]]. auto. Qed.
Lemma col_answer : forall v, col_sum answer v = fine_cell N i20 i21 position0 position1 position2 v.
Proof.
  intros v. rewrite (col_any Gok_cc). replace (total _ (seq 0 N)) with 0; [ring|]. symmetry. transitivity (total (fun _ : nat => 0) (seq 0 N)); [|unfold total; generalize (seq 0 N); intros l; induction l; cbn in *; lra].
  apply total_ext. intros c Hc. apply in_seq in Hc. destruct (get_ok c) as [_ [(_ & V & _) _]]; [lia|]. pose proof (V 0%nat ltac:(lia)). pose proof (V 1%nat ltac:(lia)). pose proof (V 2%nat ltac:(lia)).
  unfold total, defect. cbn [seq fold_right]. repeat destruct (Nat.eqb _ v); lra.
Qed.
Lemma corner_area : forall c r, (c < N)%nat -> (r < 3)%nat -> let f := (4 * c + 1 + r)%nat in
  cell_fine f 0%nat + cell_fine f 1%nat + cell_fine f 2%nat + area (fp0 i20 position0 (4 * c) (next r)) (fp0 i20 position0 (4 * c) (prev r)) (P2 c) = cell_part (cp0 I20 position0 c) (fp0 i20 position0 (4 * c)) (P2 c) r /\
  forall k, (k < 3)%nat -> 0 <= area (fp0 i20 position0 f k) (fp1 i21 position1 f (next k)) (position2 f) /\ 0 <= area (fp0 i20 position0 f k) (fp1 i21 position1 f (prev k)) (position2 f).
Proof.
  intros c r Hc Hr f. destruct (S c Hc) as (_ & _ & (m & _ & _ & (CT & IP & _)) & HR). destruct (HR r Hr) as (E & CR & X & _). fold f in E, CR.
  pose proof CR as (LV & LM & LM' & IV & _). destruct (whole _ _ _ _ _ _ _ CR) as (W & N1 & N2 & N3 & N4 & N5 & N6). split.
  - destruct CT as (L0 & L1 & L2 & I & _). assert (LP : length (P2 c) = 3%nat) by (destruct IP as (? & ? & ? & _ & _ & _ & ? & _); lia).
    destruct (C89_inside _ _ _ _ L0 L1 L2 I IP) as (J2 & J0 & J1 & _).
    assert (E0 : fp0 i20 position0 f 0%nat = cp0 I20 position0 c r) by (unfold fp0, cp0; rewrite E; reflexivity). assert (E1 : fp0 i20 position0 f 1%nat = fp0 i20 position0 (4 * c) (prev r)) by (unfold fp0 at 1; rewrite E; reflexivity). assert (E2 : fp0 i20 position0 f 2%nat = fp0 i20 position0 (4 * c) (next r)) by (unfold fp0 at 1; rewrite E; reflexivity).
    rewrite E0, E1, E2 in *. assert (IPr : independent (P2 c) (fp0 i20 position0 (4 * c) (next r)) (fp0 i20 position0 (4 * c) (prev r))).
    { destruct r as [|[|[|]]]; [| | |lia]; unfold next, prev; cbn [Nat.modulo Nat.divmod Nat.add fst snd Nat.sub]; auto using indep_rot. }
    assert (IV' : independent (cp0 I20 position0 c r) (fp0 i20 position0 (4 * c) (next r)) (fp0 i20 position0 (4 * c) (prev r))) by (apply indep_swap, indep_rot, indep_rot; auto).
    pose proof (quad _ _ _ _ LV LP LM' LM IV' IPr X) as Q. rewrite (area_rot (P2 c)) in Q by auto. unfold cell_part. change (next 0) with 1%nat. change (next 1) with 2%nat. change (next 2) with 0%nat. change (prev 0) with 2%nat. change (prev 1) with 0%nat. change (prev 2) with 1%nat.
    rewrite (area_rot (cp0 I20 position0 c r) (fp0 i20 position0 (4 * c) (prev r)) (fp0 i20 position0 (4 * c) (next r))) in W by auto. rewrite (area_rot (cp0 I20 position0 c r) (fp0 i20 position0 (4 * c) (next r)) (fp0 i20 position0 (4 * c) (prev r))) in Q by auto. rewrite (area_swap (fp0 i20 position0 (4 * c) (next r)) (fp0 i20 position0 (4 * c) (prev r)) (cp0 I20 position0 c r)) in Q by auto. rewrite E0, E1, E2. lra.
  - intros [|[|[|]]] Hk; [| | |lia]; unfold next, prev; cbn [Nat.modulo Nat.divmod Nat.add fst snd Nat.sub]; split; auto.
Qed.
Lemma row_answer : forall v, row_sum answer v = coarse_cell N I20 i20 position0 P2 v.
Proof.
  intros v. unfold answer. rewrite row_total, total_app. unfold coarse_cell. rewrite total_flat. unfold corner_transfer. rewrite total_map, total_flat, corner_tris_eq. rewrite <- total_plus. apply total_ext. intros c Hc. apply in_seq in Hc.
  assert (HF : forall r, (r < 3)%nat -> total (fun x => if Nat.eqb (pick_edge (nth 1 x 0%nat)) v then area (position0 (nth 0 x 0%nat)) (position1 (nth 1 x 0%nat)) (position2 (nth 2 x 0%nat)) else 0) (domains (4 * c + 1 + r)%nat) =
    (if Nat.eqb (nth r (I20 c) 0%nat) v then cell_part (cp0 I20 position0 c) (fp0 i20 position0 (4 * c)) (P2 c) r - area (fp0 i20 position0 (4 * c) (next r)) (fp0 i20 position0 (4 * c) (prev r)) (P2 c) else 0)).
  { intros r Hr. rewrite (total_perm _ _ _ _ (Hd (4 * c + 1 + r)%nat ltac:(lia))). destruct (corner_area c r ltac:(lia) Hr) as [E _]. destruct (S c ltac:(lia)) as (_ & _ & _ & HR). destruct (HR r Hr) as (_ & _ & _ & K). set (f := (4 * c + 1 + r)%nat) in *.
    unfold domain_rows, total. cbn [seq map flat_map app fold_right fst snd nth]. rewrite !K by (unfold next, prev; apply Nat.mod_upper_bound; lia). unfold cell_part, fp0, fp1 in E |- *. destruct (Nat.eqb _ v); lra. }
  unfold total at 2. cbn [seq map fold_right]. rewrite !HF by lia. destruct (get_ok c) as [_ [(_ & _ & V) _]]; [lia|]. unfold center_entries, total. cbn [seq map flat_map app fold_right fst snd].
  pose proof (V 0%nat ltac:(lia)). pose proof (V 1%nat ltac:(lia)). pose proof (V 2%nat ltac:(lia)). repeat destruct (Nat.eqb _ v); lra.
Qed.
Lemma nonneg_answer : forall e, In e answer -> 0 <= snd e.
Proof.
  intros e He. apply in_app_or in He as [He|He].
  - apply in_flat_map in He as (c & Hc & He). apply in_seq in Hc. destruct (get_ok c) as [_ [(V & _) _]]; [lia|]. apply in_flat_map in He as (i & Hi & He). apply in_map_iff in He as (j & <- & Hj). apply in_seq in Hi, Hj. apply V; lia.
  - apply in_map_iff in He as (row & <- & He). apply in_flat_map in He as (f & Hf & He). apply in_flat_map in Hf as (c & Hc & Hf). apply in_seq in Hc. apply in_map_iff in Hf as (i & <- & Hi).
    assert (exists r, (r < 3)%nat /\ (4 * c + i = 4 * c + 1 + r)%nat) as (r & Hr & Er). { destruct Hi as [<-|[<-|[<-|[]]]]; [exists 0%nat|exists 1%nat|exists 2%nat]; lia. } rewrite Er in He.
    apply (Permutation_in _ (Hd (4 * c + 1 + r)%nat ltac:(lia))) in He. apply in_flat_map in He as (k & Hk & He). apply in_seq in Hk. destruct (corner_area c r ltac:(lia) Hr) as [_ V]. destruct (V k ltac:(lia)) as [V1 V2]. destruct He as [<-|[<-|[]]]; [apply V1|apply V2].
Qed.
End Run.
