(** C48, C63: sampling forms on regular complexes. *)
Require Import List Arith ZArith Bool Lia Field QArith Qcanon.
From Verif Require Import Util Arr LinModel Ofield SimpModel CubeModel CubeBits SampModel SampSpec SampProofs SampBox.
Import ListNotations.
Local Open Scope nat_scope.

Section Props.
Variable F : ofield.
Add Field Fspp : (fth F).
Local Open Scope ring_scope'.

(** The corner weights are nonnegative and sum to one, for all coordinates after clipping; with each corner listed once. *)
Theorem C48_weights : forall n bary, length bary = n ->
  rsum (map (weight F (map (clip01 F) bary)) (corners n)) = r1 /\
  (forall c, In c (corners n) -> at_most r0 (weight F (map (clip01 F) bary) c)) /\
  NoDup (corners n) /\ (forall c, In c (corners n) <-> length c = n).
Proof.
  intros n bary L. repeat split; try (apply corners_in); try apply corners_nodup.
  - assert (L' : length (map (clip01 F) bary) = n) by (rewrite map_length; auto). rewrite <- (interpolate_const F n _ r1 L'), interpolate_sum. f_equal. apply map_ext. intros c. ring.
  - intros c H. unfold at_most. apply weight_nonneg; [|rewrite map_length, L; apply corners_in; auto].
    apply Forall_forall. intros x Hx. apply in_map_iff in Hx as (y & <- & _). apply clip01_unit.
Qed.

Lemma point_interpolates : forall n pos lo hi p value, spans_box n pos lo hi -> length p = n ->
  interpolates n pos value lo hi p (interpolate F n (map (clip01 F) (compute_baries F (box_of F (map pos (corners n))) p)) value).
Proof.
  intros n pos lo hi p value B Lp. rewrite (spans_box_of F n pos lo hi B). pose proof B as (Ll & Lh & Ne & H).
  set (bary := compute_baries F (lo, map2 rsub hi lo) p). assert (Lb : length bary = n) by (apply baries_length; auto).
  assert (Lc : length (map (clip01 F) bary) = n) by (rewrite map_length; auto).
  assert (U : Forall (unit_interval F) (map (clip01 F) bary)). { apply Forall_forall. intros x Hx. apply in_map_iff in Hx as (y & <- & _). apply clip01_unit. }
  split.
  - intros k Hk. rewrite (interpolate_ext F n _ _ (fun _ => k) Lc Hk). apply interpolate_const. auto.
  - intros l h Hv. split; unfold at_most; apply nonneg_sub.
    + replace (interpolate F n (map (clip01 F) bary) value - l) with (interpolate F n (map (clip01 F) bary) (fun c => r1 * value c + ropp l)).
      * apply interpolate_nonneg; auto. intros c Hc. replace (r1 * value c + ropp l) with (value c - l) by ring. apply nonneg_sub. apply Hv. auto.
      * rewrite (interpolate_lin F n _ r1 value (fun _ => ropp l)), interpolate_const by auto. ring.
    + replace (h - interpolate F n (map (clip01 F) bary) value) with (interpolate F n (map (clip01 F) bary) (fun c => ropp r1 * value c + h)).
      * apply interpolate_nonneg; auto. intros c Hc. replace (ropp r1 * value c + h) with (h - value c) by ring. apply nonneg_sub. apply Hv. auto.
      * rewrite (interpolate_lin F n _ (ropp r1) value (fun _ => h)), interpolate_const by auto. ring.
  - intros bs Lbs ->. replace (map (clip01 F) bary) with (map (bit F) bs); [apply interpolate_corner; auto|].
    apply (nth_ext _ _ r0 r0); [rewrite !map_length; lia|]. intros i Hi. rewrite map_length in Hi.
    rewrite (nth_map_lt _ _ (bit F) bs i false r0), (nth_map_lt _ _ (clip01 F) bary i r0 r0) by lia.
    unfold bary. rewrite (baries_nth F n) by (auto; lia). destruct (H bs Lbs) as [_ ->]; [|lia]. specialize (Ne i ltac:(lia)).
    assert (Nz : nth i hi r0 - nth i lo r0 <> r0). { intros Z. apply Ne. replace (nth i hi r0) with (nth i hi r0 - nth i lo r0 + nth i lo r0) by ring. rewrite Z. ring. }
    pose proof (pos_one F) as P1. unfold clip01, fltb. destruct (nth i bs false); cbn [bit].
    + replace (fdiv (nth i hi r0 - nth i lo r0) (nth i hi r0 - nth i lo r0)) with (r1 : F) by (field; auto).
      replace (r0 - r1) with (ropp r1 : F) by ring. rewrite (neg_pos F r1 P1). replace (r1 - r1) with (r0 : F) by ring. rewrite pos_0. auto.
    + replace (fdiv (nth i lo r0 - nth i lo r0) (nth i hi r0 - nth i lo r0)) with (r0 : F) by (field; auto).
      replace (r0 - r0) with (r0 : F) by ring. rewrite pos_0. replace (r0 - r1) with (ropp r1 : F) by ring. rewrite (neg_pos F r1 P1). auto.
  - intros q k a [Lq Hq] Hv. rewrite (interpolate_ext F n _ _ (fun c => affine n k a (pos c)) Lc Hv), (interpolate_affine F n pos lo hi) by auto.
    f_equal. apply (nth_ext _ _ r0 r0); [rewrite map_length, seq_length; lia|]. intros i Hi. rewrite map_length, seq_length in Hi.
    rewrite (nth_map_lt _ _ (fun i => nth i lo r0 + nth i (map (clip01 F) bary) r0 * (nth i hi r0 - nth i lo r0)) (seq 0 n) i 0%nat r0) by (rewrite seq_length; lia). rewrite seq_nth by lia. cbn [Nat.add].
    apply (nearest1_unique F (nth i lo r0) (nth i hi r0) (nth i p r0)); [|apply Hq; auto].
    rewrite (nth_map_lt _ _ (clip01 F) bary i r0 r0) by lia. unfold bary. rewrite (baries_nth F n) by auto. apply clip_nearest. auto.
Qed.
Lemma forall2_map : forall A B (f : A -> B) (R : A -> B -> Prop) l, (forall a, In a l -> R a (f a)) -> Forall2 R l (map f l).
Proof. intros A B f R l. induction l as [|a l IH]; intros H; cbn; constructor; [apply H; cbn; auto|apply IH; intros; apply H; cbn; auto]. Qed.

(** Whatever cube of the complex the search picks, the sampled value interpolates the form on that cube. *)
Theorem C48_primal : forall n V cubes query p0 points,
  (forall c, In c cubes -> length c = (2 ^ n)%nat /\ exists lo hi, spans_box n (fun bs => V (cget c bs)) lo hi) ->
  (forall p, In p points -> length p = n /\ (query p < length cubes)%nat) ->
  exists xs, sample_primal_0 F n V cubes query p0 points = Ok xs /\
    Forall2 (fun p x => exists lo hi, let c := nth (query p) cubes [] in
      spans_box n (fun bs => V (cget c bs)) lo hi /\ interpolates n (fun bs => V (cget c bs)) (fun bs => p0 (cget c bs)) lo hi p x) points xs.
Proof.
  intros n V cubes query p0 points Hc Hp. unfold sample_primal_0, pick_primal. cbn [bind]. eexists. split; [reflexivity|].
  rewrite map_map. apply forall2_map. intros p Ip. destruct (Hp p Ip) as [Lp Lq]. cbn [fst snd].
  set (c := nth (query p) cubes []). assert (Ic : In c cubes) by (apply nth_In; auto). destruct (Hc c Ic) as [L2 (lo & hi & B)]. exists lo, hi. split; auto.
  unfold primal_boxes. rewrite (nth_map_lt _ _ (fun c => box_of F (map V c)) cubes (query p) [] ([], [])) by auto. fold c.
  replace (map V c) with (map (fun bs => V (cget c bs)) (corners n)); [apply point_interpolates; auto|].
  rewrite <- (map_map (cget c) V). f_equal. unfold cget. rewrite <- (map_map ravel (fun i => nth i c 0%nat)), corners_ravel, <- L2. apply map_nth_seq.
Qed.
(** The same on the fundamental domains for a dual form, extended to all elements by averages whose weights sum to one. *)
Theorem C48_dual : forall n n0 ops PP domains query d0 points,
  (forall d, In d domains -> exists lo hi, spans_box n (fun bs => PP (bit_sum bs) (cget d bs)) lo hi) ->
  (forall p, In p points -> length p = n /\ (query p < length domains)%nat) -> length ops = S n ->
  (forall a i, In a ops -> rsum (map (a i) (seq 0 n0)) = r1) ->
  exists xs, sample_dual_0 F n n0 ops PP domains query d0 points = Ok xs /\
    Forall2 (fun p x => exists lo hi, let d := nth (query p) domains [] in
      spans_box n (fun bs => PP (bit_sum bs) (cget d bs)) lo hi /\
      interpolates n (fun bs => PP (bit_sum bs) (cget d bs)) (fun bs => rsum (map (fun j => nth (n - bit_sum bs) ops (fun _ _ => r0) (cget d bs) j * d0 j) (seq 0 n0))) lo hi p x /\
      forall k, (forall j, (j < n0)%nat -> d0 j = k) -> x = k) points xs.
Proof.
  intros n n0 ops PP domains query d0 points Hd Hp Lo Ho. unfold sample_dual_0, pick_fundamental. cbn [bind]. eexists. split; [reflexivity|].
  rewrite map_map. apply forall2_map. intros p Ip. destruct (Hp p Ip) as [Lp Lq]. cbn [fst snd].
  set (d := nth (query p) domains []). assert (Id : In d domains) by (apply nth_In; auto). destruct (Hd d Id) as (lo & hi & B). exists lo, hi. split; auto.
  unfold fundamental_boxes. rewrite (nth_map_lt _ _ (fun d => box_of F (map (fun c => PP (bit_sum c) (cget d c)) (corners n))) domains (query p) [] ([], [])) by auto. fold d.
  set (val := fun bs => rsum (map (fun j => nth (n - bit_sum bs) ops (fun _ _ => r0) (cget d bs) j * d0 j) (seq 0 n0))).
  assert (Bs : forall bs, (bit_sum bs <= length bs)%nat). { induction bs as [|b bs IH]; [auto|]. change (bit_sum (b :: bs)) with ((if b then 1 else 0) + bit_sum bs)%nat. cbn [length]. destruct b; lia. }
  assert (E : forall bs, length bs = n -> nth (bit_sum bs) (rev (average_dual F n0 ops d0)) (fun _ => r0) (cget d bs) = val bs).
  { intros bs L. specialize (Bs bs). unfold val. rewrite rev_nth by (unfold average_dual; rewrite map_length; lia). unfold average_dual. rewrite map_length, Lo.
    replace (S n - S (bit_sum bs))%nat with (n - bit_sum bs)%nat by lia.
    rewrite (nth_map_lt _ _ (fun (a : nat -> nat -> F) i => rsum (map (fun j => a i j * d0 j) (seq 0 n0))) ops (n - bit_sum bs) (fun _ _ => r0) (fun _ => r0)) by lia. auto. }
  assert (Lb : length (map (clip01 F) (compute_baries F (box_of F (map (fun c => PP (bit_sum c) (cget d c)) (corners n))) p)) = n).
  { rewrite map_length, (spans_box_of F n _ lo hi B). destruct B as (? & ? & _). apply baries_length; auto. }
  rewrite (interpolate_ext F n _ _ val Lb E). pose proof (point_interpolates n _ lo hi p val B Lp) as I. split; auto.
  intros k Hk. apply (ip_const _ _ _ _ _ _ _ _ I). intros bs L. unfold val.
  rewrite (map_ext_in _ (fun j => nth (n - bit_sum bs) ops (fun _ _ => r0) (cget d bs) j * k)) by (intros j Hj; apply in_seq in Hj; rewrite Hk by lia; auto).
  rewrite (rsum_mul_r F), Ho; [ring|]. apply nth_In. lia.
Qed.
End Props.
Print Assumptions C48_weights.
Print Assumptions C48_primal.
Print Assumptions C48_dual.
