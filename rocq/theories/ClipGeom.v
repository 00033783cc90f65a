(** Positions of the vertices inserted by a cut. *)
Require Import List Arith ZArith Bool Lia Permutation Field.
From Verif Require Import Util Arr CombProofs SimpModel SimpSpec ParProofs SimpProofs LevelProofs TopProofs BdryModel BdrySpec
  OrientProofs SubProofs BaryProofs LoopProofs AvgProofs LinModel Ofield TriModel TriSpec ClipSpec TriProofs TriMesh TriExtrude TriSolid ClipProofs ClipOrient.
Import ListNotations.
Local Open Scope nat_scope.

Lemma filter_at : forall A (m : A -> bool) d l e, e < length l -> m (nth e l d) = true -> nth (length (filter m (firstn e l))) (filter m l) d = nth e l d.
Proof.
  induction l as [|z l IH]; intros e He M; [cbn in He; lia|]. destruct e as [|e]; cbn in *.
  - rewrite M. auto.
  - specialize (IH e ltac:(lia) M). destruct (m z); cbn; auto.
Qed.

Section Geom.
Variable F : ofield.
Add Field Ff2 : (fth F).
Variable dim : nat.
Variables (support direction : nat -> F).
Local Open Scope ring_scope'.
Notation height := (height F dim support direction).

Lemma height_affine : forall (a b : nat -> F) u w, u + w = r1 -> height (fun i => a i * u + b i * w) = u * height a + w * height b.
Proof.
  intros a b u w E. unfold TriModel.height, dotn. rewrite <- !rsum_mul, <- rsum_add. apply rsum_ext. intros i _.
  transitivity ((a i * u + b i * w - r1 * support i) * direction i); [ring|]. rewrite <- E. ring.
Qed.
Lemma height_length : forall a b : nat -> F, dotn F dim (fun i => b i - a i) direction = height b - height a.
Proof. intros a b. unfold TriModel.height, dotn. rewrite <- rsum_sub. apply rsum_ext. intros i _. ring. Qed.
(** The weights are those of the intersection point. *)
Lemma weights : forall ha hb : F, pos ha <> pos hb -> let len := hb - ha in len <> r0 /\
  fabs (fdiv hb len) = fdiv hb len /\ fabs (fdiv ha len) = ropp (fdiv ha len).
Proof.
  intros ha hb S len.
  assert (NP : forall x : F, pos x = false -> x = r0 \/ pos (ropp x) = true) by (intros x P; destruct (pos_cases F x) as [[Q|Q]|Q]; auto; congruence).
  destruct (pos ha) eqn:Ea, (pos hb) eqn:Eb; try congruence.
  - assert (P : pos (ropp len) = true). { unfold len. destruct (NP hb Eb) as [->|Q]; [replace (ropp (r0 - ha)) with ha by ring; auto|]. replace (ropp (hb - ha)) with (ha + ropp hb) by ring. apply pos_add; auto. }
    assert (N : len <> r0) by (intros Z; rewrite Z in P; replace (ropp r0) with (r0 : F) in P by ring; rewrite pos_0 in P; discriminate).
    assert (N' : ropp len <> r0) by (intros Z; apply N; transitivity (ropp (ropp len)); [ring|]; rewrite Z; ring).
    split; auto. split.
    + apply fabs_pos. replace (ropp (fdiv hb len)) with (fdiv hb (ropp len)) by (field; auto). destruct (NP hb Eb) as [->|Q].
      * replace (fdiv r0 (ropp len)) with (r0 : F) by (field; auto). apply pos_0.
      * apply opp_pos. replace (ropp (fdiv hb (ropp len))) with (fdiv (ropp hb) (ropp len)) by (field; auto). apply pos_div; auto.
    + apply fabs_neg. apply opp_pos. replace (ropp (fdiv ha len)) with (fdiv ha (ropp len)) by (field; auto). apply pos_div; auto.
  - assert (P : pos len = true). { unfold len. destruct (NP ha Ea) as [->|Q]; [replace (hb - r0) with hb by ring; auto|]. replace (hb - ha) with (hb + ropp ha) by ring. apply pos_add; auto. }
    pose proof (pos_neq F len P) as N. split; auto. split.
    + apply fabs_pos, neg_pos, pos_div; auto.
    + apply fabs_neg. destruct (NP ha Ea) as [->|Q].
      * replace (fdiv r0 len) with (r0 : F) by (field; auto). apply pos_0.
      * apply opp_pos. replace (ropp (fdiv ha len)) with (fdiv (ropp ha) len) by (field; auto). apply pos_div; auto.
Qed.
Lemma inserted_ok : forall V a b, pos (height (V a)) <> pos (height (V b)) -> exists u w : F,
  u + w = r1 /\ pos (ropp u) = false /\ pos (ropp w) = false /\ (forall i, inserted F dim support direction V [a; b] i = V a i * u + V b i * w) /\
  height (inserted F dim support direction V [a; b]) = r0.
Proof.
  intros V a b S. set (ha := height (V a)) in *. set (hb := height (V b)) in *. destruct (weights ha hb S) as (N & W0 & W1).
  exists (fabs (fdiv hb (hb - ha))), (fabs (fdiv ha (hb - ha))).
  assert (E : fabs (fdiv hb (hb - ha)) + fabs (fdiv ha (hb - ha)) = r1) by (rewrite W0, W1; field; auto).
  assert (I : forall i, inserted F dim support direction V [a; b] i = V a i * fabs (fdiv hb (hb - ha)) + V b i * fabs (fdiv ha (hb - ha))).
  { intros i. unfold inserted. cbn [nth]. rewrite height_length. reflexivity. }
  split; [exact E|]. split; [apply fabs_nonneg|]. split; [apply fabs_nonneg|]. split; [exact I|].
  transitivity (height (fun i => V a i * fabs (fdiv hb (hb - ha)) + V b i * fabs (fdiv ha (hb - ha)))).
  - unfold TriModel.height, dotn. apply rsum_ext. intros i _. rewrite I. auto.
  - rewrite height_affine by auto. fold ha hb. rewrite W0, W1. field. auto.
Qed.

Section Top.
Variables (rows : list simplex) (t : topology) (V : nat -> nat -> F).
Hypothesis T : top_ok 2 rows t.
Notation side := (vert_side F dim support direction V).
Notation n0 := (n_elements t 0).
Notation EV := (nth 1 (elements t) []).
Notation cv := (cut_vertex side EV n0).
Notation L := (mesh_edges rows).
Notation V' := (clip_positions F dim support direction V t).

Lemma old_position : forall v, (v < n0)%nat -> V' v = V v.
Proof. intros v H. unfold clip_positions. apply Nat.ltb_lt in H. rewrite H. auto. Qed.
Lemma cut_edges_mixed : filter (edge_cut side) EV = filter (mixed side) EV.
Proof. apply filter_ext_in'. intros e He. apply edge_cut_mixed. apply In_nth with (d := []) in He as (i & Hi & <-). apply (ev_len rows t T). exact Hi. Qed.
Lemma new_position : forall x y, In (x, y) L -> side x <> side y -> exists u w : F,
  u + w = r1 /\ pos (ropp u) = false /\ pos (ropp w) = false /\ (forall i, V' (cv x y) i = V x i * u + V y i * w) /\ height (V' (cv x y)) = r0.
Proof.
  intros x y I S. destruct (mesh_edge_cut side rows t T x y I S) as (e & He & P & M & Q).
  assert (E : V' (cv x y) = inserted F dim support direction V (nth e EV [])).
  { unfold clip_positions. rewrite Q. destruct (Nat.ltb_spec (n0 + length (filter (mixed side) (firstn e EV))) n0); [lia|]. rewrite cut_edges_mixed. replace (n0 + length (filter (mixed side) (firstn e EV)) - n0)%nat with (length (filter (mixed side) (firstn e EV))) by lia. rewrite filter_at; auto. }
  rewrite E. apply Permutation_sym, Permutation_length_2_inv in P as [-> | ->].
  - apply (inserted_ok V x y S).
  - destruct (inserted_ok V y x (not_eq_sym S)) as (u & w & A1 & A2 & A3 & A4 & A5). exists w, u. split; [rewrite <- A1; ring|]. split; auto. split; auto. split; auto. intros i. rewrite A4. ring.
Qed.
Lemma on_plane : forall v, (n0 <= v)%nat -> (v < n0 + length (filter (mixed side) EV))%nat -> height (V' v) = r0.
Proof.
  intros v H1 H2. destruct (count_cut side t (v - n0) ltac:(lia)) as (e & He & M & E & _). destruct (edge_ends rows t T e He) as (x & y & Ee & I). rewrite Ee in M.
  assert (S : side x <> side y) by (unfold mixed in M; cbn in M; destruct (side x), (side y); cbn in M; congruence).
  assert (Q : cv x y = v) by (rewrite (cv_at side rows t T e x y He) by (rewrite Ee; auto); lia). destruct (new_position x y I S) as (u & w & _ & _ & _ & _ & Z). rewrite <- Q. exact Z.
Qed.

(** Volume of the pieces of a triangle. *)
Notation contribution := (contribution F).
Lemma three_neq : three F <> r0.
Proof. apply pos_neq, pos_three. Qed.
Lemma two_neq : two F <> r0.
Proof. apply pos_neq, pos_two. Qed.
Lemma children_contribution : forall s cs, In s rows -> three_children side EV n0 s cs -> rsum (map (contribution V') cs) = contribution V s.
Proof.
  intros s cs Is (a & b & c & R & Sab & Sbc & ->).
  assert (IE : In (a, b) L /\ In (c, a) L). { repeat split; apply in_flat_map; exists s; (split; [auto|]); destruct R as [<-|[<-|[<-|[]]]]; cbn; auto. } destruct IE as (I1 & I3).
  assert (LT : forall v, In v s -> (v < n0)%nat). { intros v Hv. apply (to_vused _ _ _ T), in_concat. eauto. }
  assert (Va : (a < n0 /\ b < n0 /\ c < n0)%nat). { repeat split; apply LT; destruct R as [<-|[<-|[<-|[]]]]; cbn; auto. } destruct Va as (Va & Vb & Vc).
  destruct (new_position a b I1 Sab) as (u & w & E1 & _ & _ & P1 & _). destruct (new_position c a I3 ltac:(congruence)) as (u' & w' & E2 & _ & _ & P2 & _).
  assert (C : contribution V s = contribution V [a; b; c]). { destruct R as [<-|[<-|[<-|[]]]]; auto; rewrite !contribution_det by apply three_neq; unfold det; ring. }
  rewrite C. cbn [map]. rewrite !contribution_det by apply three_neq. unfold rsum. cbn [fold_right]. unfold det. rewrite !P1, !P2, !old_position by auto.
  assert (X1 : u = r1 - w) by (rewrite <- E1; ring). assert (X2 : u' = r1 - w') by (rewrite <- E2; ring). rewrite X1, X2. ring.
Qed.
Lemma uncut_contribution : forall s, In s rows -> contribution V' s = contribution V s.
Proof.
  intros s Is. assert (LT : forall v, In v s -> (v < n0)%nat). { intros v Hv. apply (to_vused _ _ _ T), in_concat. eauto. }
  pose proof (rows_len rows t T s Is) as Ls. destruct (triple_split s Ls) as (a & b & c & ->). rewrite !contribution_det by apply three_neq. rewrite !old_position by (apply LT; cbn; auto). auto.
Qed.
Lemma clip_contributions : rsum (map (contribution V') (clip_rows side t)) = rsum (map (contribution V) rows).
Proof.
  destruct (clip_rows_ok side rows t T) as (kids & Fk & ->). rewrite map_app, rsum_app.
  rewrite (rsum_ext F _ _ (contribution V)) by (intros s Hs; apply filter_In in Hs as [Hs _]; apply uncut_contribution; auto).
  assert (K : rsum (map (contribution V') (concat kids)) = rsum (map (contribution V) (filter (mixed side) rows))).
  { assert (Inc : incl (filter (mixed side) rows) rows) by (intros z Hz; apply filter_In in Hz; tauto). revert Inc. induction Fk as [|s cs l kids H Fk IH]; intros Inc; auto. cbn [concat]. rewrite map_app, rsum_app, IH by (intros z Hz; apply Inc; cbn; auto).
    rewrite (children_contribution s cs); auto. apply Inc. cbn. auto. }
  rewrite K, <- rsum_app, <- map_app. apply rsum_perm, Permutation_map. rewrite Permutation_app_comm. symmetry. apply filter_split.
Qed.
(** Kept triangles. *)
Lemma kept_rows : forall r, In r (clip_rows side t) -> (kept side n0 r = true <-> forall v, In v r -> pos (height (V' v)) = false).
Proof.
  intros r Hr. unfold kept. rewrite forallb_forall.
  assert (LB : forall v, In v r -> (v < n0 + length (filter (mixed side) EV))%nat) by (intros v Hv; apply (clip_labels side rows t T), in_concat; eauto).
  split; intros H v Hv; specialize (H v Hv).
  - apply orb_true_iff in H as [H|H].
    + apply Nat.leb_le in H. rewrite on_plane by auto. apply pos_0.
    + apply negb_true_iff in H. destruct (Nat.lt_ge_cases v n0); [rewrite old_position by auto; exact H|]. rewrite on_plane by auto. apply pos_0.
  - destruct (Nat.leb_spec n0 v); auto. cbn. rewrite old_position in H by auto. unfold vert_side. rewrite H. auto.
Qed.
End Top.
End Geom.

(** The selection chain. *)
Section Chain.
Variable side : nat -> bool.
Variables (rows : list simplex) (t : topology).
Hypothesis T : top_ok 2 rows t.
Notation n0 := (n_elements t 0).
Lemma keep_kept : forall s, In s rows -> tri_keep side s = kept side n0 s.
Proof.
  intros s Is. unfold tri_keep, kept, count_side. assert (LT : forall v, In v s -> v < n0). { intros v Hv. apply (to_vused _ _ _ T), in_concat. eauto. }
  clear Is. induction s as [|v s IH]; cbn; auto. assert (H : v < n0) by (apply LT; cbn; auto). destruct (Nat.leb_spec n0 v); [lia|]. cbn [orb]. destruct (side v); cbn; auto. apply IH. intros; apply LT; cbn; auto.
Qed.
Lemma clip_chain_ok : clip_chain side t = map (kept side n0) (clip_rows side t).
Proof.
  unfold clip_chain. destruct (clip_rows_ok side rows t T) as (kids & F & E). rewrite (to_top _ _ _ T).
  assert (FE : filter (fun s => negb (tri_cut side s)) rows = filter (fun s => negb (mixed side s)) rows) by (apply filter_ext_in'; intros s Hs; rewrite tri_cut_mixed; auto; apply (rows_len rows t T); auto).
  rewrite FE, E, map_app. f_equal.
  - apply map_ext_in. intros s Hs. apply filter_In in Hs as [Hs _]. apply keep_kept; auto.
  - rewrite skipn_app, skipn_all, Nat.sub_diag. cbn [skipn app]. apply map_ext_in. intros r Hr. destruct (in_kids side rows t kids F r Hr) as (s & cs & Is & H & Ir).
    destruct H as (a & b & c & R & Sab & Sbc & ->).
    assert (LT : forall v, In v s -> v < n0). { intros v Hv. apply (to_vused _ _ _ T), in_concat. eauto. }
    assert (Va : a < n0 /\ b < n0 /\ c < n0). { repeat split; apply LT; destruct R as [<-|[<-|[<-|[]]]]; cbn; auto. }
    assert (IE : In (a, b) (mesh_edges rows) /\ In (c, a) (mesh_edges rows)). { repeat split; apply in_flat_map; exists s; (split; [auto|]); destruct R as [<-|[<-|[<-|[]]]]; cbn; auto. } destruct IE as (I1 & I3).
    pose proof (cv_range side rows t T a b I1 Sab). pose proof (cv_range side rows t T c a I3 ltac:(congruence)).
    destruct Ir as [<-|[<-|[<-|[]]]]; unfold kept; cbn [nth forallb];
    repeat match goal with |- context [n0 <=? ?v] => destruct (Nat.leb_spec n0 v); [|try lia]; try lia end; cbn [orb]; rewrite <- ?Sbc, ?andb_true_r; auto. destruct (side b); auto.
Qed.
End Chain.
