(** Cutting keeps a mesh consistently oriented. *)
Require Import List Arith ZArith Bool Lia Permutation.
From Verif Require Import Util CombProofs SimpModel SimpSpec ParProofs SimpProofs LevelProofs TopProofs BdryModel BdrySpec
  OrientProofs SubProofs BaryProofs LoopProofs AvgProofs TriModel TriSpec ClipSpec LinModel TriProofs TriMesh TriExtrude TriSolid ClipProofs.
Import ListNotations.
Local Open Scope nat_scope.

Lemma filter_flat : forall A B (p : A -> bool) (f : A * B -> list A) l l', length l = length l' ->
  Permutation (filter (fun s => negb (p s)) l ++ concat (map f (filter (fun ve => p (fst ve)) (combine l l'))))
    (flat_map (fun ve => if p (fst ve) then f ve else [fst ve]) (combine l l')).
Proof.
  induction l as [|x l IH]; intros [|y l'] L; cbn in L; try lia; auto. cbn. specialize (IH l' ltac:(lia)). destruct (p x); cbn.
  - rewrite <- IH. rewrite !app_assoc. apply Permutation_app_tail, Permutation_app_comm.
  - rewrite <- IH. auto.
Qed.

Section Top.
Variable side : nat -> bool.
Variables (rows : list simplex) (t : topology).
Hypothesis T : top_ok 2 rows t.
Notation n0 := (n_elements t 0).
Notation EV := (nth 1 (elements t) []).
Notation TE := (nth 1 (boundary_idx t) []).
Notation cv := (cut_vertex side EV n0).
Notation L := (mesh_edges rows).
Definition pieces (j : nat) : list simplex := if mixed side (nth j rows []) then cut_triangles side n0 EV (nth j rows []) (nth j TE []) else [nth j rows []].

Lemma clip_pieces : Permutation (clip_rows side t) (flat_map pieces (seq 0 (length rows))).
Proof.
  unfold clip_rows. rewrite (to_top _ _ _ T). pose proof (te_len rows t T) as LE.
  rewrite (filter_ext_in' _ (fun s => negb (tri_cut side s)) (fun s => negb (mixed side s))) by (intros s Hs; rewrite (tri_cut_mixed side s (rows_len rows t T s Hs)); auto).
  rewrite (filter_ext_in' _ (fun ve => tri_cut side (fst ve)) (fun ve => mixed side (fst ve))) by (intros [s e] I; apply in_combine_l in I; cbn [fst]; apply tri_cut_mixed, (rows_len rows t T); auto).
  rewrite (filter_flat _ _ (mixed side) (fun ve => cut_triangles side n0 EV (fst ve) (snd ve)) rows TE) by auto.
  rewrite !flat_map_concat_map. rewrite <- (map_nth_seq _ (combine rows TE) ([], [])). rewrite map_map, combine_length, LE, Nat.min_id.
  erewrite map_ext_in; [reflexivity|]. intros j Hj. rewrite combine_nth by auto. reflexivity.
Qed.

(** Where a directed edge of a piece of triangle s comes from. *)
Inductive origin (s : simplex) (p q : nat) : Prop :=
| o_old : p < n0 -> q < n0 -> In (p, q) (dedges s) -> origin s p q
| o_out : forall x y, p < n0 -> In (x, y) (dedges s) -> side x <> side y -> q = cv x y -> p = x -> origin s p q
| o_in : forall x y, q < n0 -> In (x, y) (dedges s) -> side x <> side y -> p = cv x y -> q = y -> origin s p q
| o_from : forall x y, p < n0 -> In (x, y) (dedges s) -> side x <> side y -> q = cv x y -> p <> x -> p <> y -> In p s -> origin s p q
| o_to : forall x y, q < n0 -> In (x, y) (dedges s) -> side x <> side y -> p = cv x y -> q <> x -> q <> y -> In q s -> origin s p q
| o_mid : forall x y x' y', In (x, y) (dedges s) -> side x <> side y -> In (x', y') (dedges s) -> side x' <> side y' -> (x, y) <> (x', y') -> p = cv x y -> q = cv x' y' -> origin s p q.

Lemma row_labels : forall s v, In s rows -> In v s -> v < n0.
Proof. intros s v Is Iv. apply (to_vused _ _ _ T), in_concat. eauto. Qed.
Lemma in_L : forall s e, In s rows -> In e (dedges s) -> In e L.
Proof. intros. apply in_flat_map. eauto. Qed.
Lemma cvr : forall s x y, In s rows -> In (x, y) (dedges s) -> side x <> side y -> n0 <= cv x y.
Proof. intros s x y Is I S. apply (cv_range side rows t T x y); eauto using in_L. Qed.
Lemma piece_origin : forall j p q, j < length rows -> In (p, q) (mesh_edges (pieces j)) -> origin (nth j rows []) p q.
Proof.
  intros j p q Hj I. assert (Is : In (nth j rows []) rows) by (apply nth_In; auto). unfold pieces in I. destruct (mixed side (nth j rows [])) eqn:M.
  - pose proof (children_ok side rows t T j Hj M) as (a & b & c & R & Sab & Sbc & E). rewrite E in I. pose proof (tr rows (top_triangles rows t T) j Hj) as Tr. set (s := nth j rows []) in *. clearbody s.
    assert (D : In (a, b) (dedges s) /\ In (b, c) (dedges s) /\ In (c, a) (dedges s)) by (destruct R as [<-|[<-|[<-|[]]]]; cbn; auto 10). destruct D as (D1 & D2 & D3).
    assert (V : In a s /\ In b s /\ In c s) by (destruct R as [<-|[<-|[<-|[]]]]; cbn; auto 10). destruct V as (V1 & V2 & V3).
    pose proof (row_labels s a Is V1). pose proof (row_labels s b Is V2). pose proof (row_labels s c Is V3).
    assert (N : a <> b /\ a <> c /\ b <> c) by (destruct Tr as [_ N]; destruct R as [<-|[<-|[<-|[]]]]; apply nodup3 in N; lia).
    assert (Sca : side c <> side a) by congruence. cbn in I.
    destruct I as [I|[I|[I|[I|[I|[I|[I|[I|[I|[]]]]]]]]]]; apply pair_equal_spec in I as [<- <-].
    + apply (o_out s a (cv a b) a b); auto.
    + apply (o_mid s (cv a b) (cv c a) a b c a); auto. intros Q. injection Q; intros; tauto.
    + apply (o_in s (cv c a) a c a); auto.
    + apply (o_from s b (cv c a) c a); auto; lia.
    + apply (o_mid s (cv c a) (cv a b) c a a b); auto. intros Q. injection Q; intros; tauto.
    + apply (o_in s (cv a b) b a b); auto.
    + apply (o_out s c (cv c a) c a); auto.
    + apply (o_to s (cv c a) b c a); auto; lia.
    + apply o_old; auto.
  - cbn in I. rewrite app_nil_r in I. destruct (tri_in _ _ _ I). apply o_old; eauto using row_labels.
Qed.
Lemma piece_nodup : forall j, j < length rows -> NoDup (mesh_edges (pieces j)).
Proof.
  intros j Hj. assert (Is : In (nth j rows []) rows) by (apply nth_In; auto). unfold pieces. destruct (mixed side (nth j rows [])) eqn:M.
  - pose proof (children_ok side rows t T j Hj M) as (a & b & c & R & Sab & Sbc & E). rewrite E. pose proof (tr rows (top_triangles rows t T) j Hj) as Tr. set (s := nth j rows []) in *. clearbody s.
    assert (D : In (a, b) (dedges s) /\ In (b, c) (dedges s) /\ In (c, a) (dedges s)) by (destruct R as [<-|[<-|[<-|[]]]]; cbn; auto 10). destruct D as (D1 & D2 & D3).
    assert (V : In a s /\ In b s /\ In c s) by (destruct R as [<-|[<-|[<-|[]]]]; cbn; auto 10). destruct V as (V1 & V2 & V3).
    pose proof (row_labels s a Is V1). pose proof (row_labels s b Is V2). pose proof (row_labels s c Is V3).
    assert (N : a <> b /\ a <> c /\ b <> c) by (destruct Tr as [_ N]; destruct R as [<-|[<-|[<-|[]]]]; apply nodup3 in N; lia).
    assert (Sca : side c <> side a) by congruence. pose proof (cvr s a b Is D1 Sab) as K1. pose proof (cvr s c a Is D3 Sca) as K3.
    assert (NE : cv a b <> cv c a). { intros Q. pose proof (cv_inj side rows t T _ _ _ _ (in_L s _ Is D1) Sab (in_L s _ Is D3) Sca Q) as P. apply Permutation_length_2_inv in P as [P|P]; injection P; intros; subst; tauto. }
    cbn. repeat (constructor; [cbn; intros Q; repeat (destruct Q as [Q|Q]; [injection Q; intros; lia|]); destruct Q|]). constructor.
  - cbn. rewrite app_nil_r. apply dedges_nodup. apply (tr rows (top_triangles rows t T) j Hj).
Qed.
Hypothesis CO : consistent 2 rows.
Hypothesis DT : forall j j', j < length rows -> j' < length rows -> Permutation (nth j rows []) (nth j' rows []) -> j = j'.
Lemma corners_perm : forall j j', j < length rows -> j' < length rows -> incl (nth j rows []) (nth j' rows []) -> j = j'.
Proof.
  intros j j' Hj Hj' I. apply DT; auto. destruct (tr rows (top_triangles rows t T) j Hj) as [L1 N1]. destruct (tr rows (top_triangles rows t T) j' Hj') as [L2 N2]. apply NoDup_Permutation_bis; auto. lia.
Qed.
Lemma edge_same : forall s s' x y x' y', In s rows -> In s' rows -> In (x, y) (dedges s) -> side x <> side y -> In (x', y') (dedges s') -> side x' <> side y' -> cv x y = cv x' y' -> (x = x' /\ y = y') \/ (x = y' /\ y = x').
Proof.
  intros s s' x y x' y' Is Is' D S D' S' E. pose proof (cv_inj side rows t T _ _ _ _ (in_L s _ Is D) S (in_L s' _ Is' D') S' E) as P. apply Permutation_length_2_inv in P as [P|P]; injection P; intros; subst; auto.
Qed.
Lemma third_incl : forall s s' x y p, triangle s -> triangle s' -> In (x, y) (dedges s) -> In p s -> p <> x -> p <> y -> In x s' -> In y s' -> In p s' -> incl s s'.
Proof.
  intros s s' x y p T1 T2 D Ip N1 N2 Ix Iy Ip'. destruct (triangle_abc s T1) as (a & b & c & -> & _). apply in_dedges in D. intros v Hv. cbn in *.
  destruct D as [[-> ->]|[[-> ->]|[-> ->]]]; destruct Ip as [<-|[<-|[<-|[]]]]; try congruence; destruct Hv as [<-|[<-|[<-|[]]]]; auto.
Qed.
Lemma two_edges_incl : forall s s' x y x' y', triangle s -> In (x, y) (dedges s) -> In (x', y') (dedges s) -> (x, y) <> (x', y') -> In x s' -> In y s' -> In x' s' -> In y' s' -> incl s s'.
Proof.
  intros s s' x y x' y' T1 D D' N Ix Iy Ix' Iy'. destruct (triangle_abc s T1) as (a & b & c & -> & _). apply in_dedges in D. apply in_dedges in D'. intros v Hv. cbn in *.
  destruct D as [[-> ->]|[[-> ->]|[-> ->]]]; destruct D' as [[-> ->]|[[-> ->]|[-> ->]]]; try congruence; destruct Hv as [<-|[<-|[<-|[]]]]; auto.
Qed.
Lemma origin_unique : forall j j' p q, j < length rows -> j' < length rows -> origin (nth j rows []) p q -> origin (nth j' rows []) p q -> j = j'.
Proof.
  intros j j' p q Hj Hj' O O'. assert (Is : In (nth j rows []) rows) by (apply nth_In; auto). assert (Is' : In (nth j' rows []) rows) by (apply nth_In; auto).
  pose proof (top_triangles rows t T) as TR. pose proof (tr rows TR j Hj) as Tj. pose proof (tr rows TR j' Hj') as Tj'.
  assert (ON : forall x y, In (x, y) (dedges (nth j rows [])) -> In (x, y) (dedges (nth j' rows [])) -> j = j') by (intros x y; apply (mesh_once rows TR CO); auto).
  assert (KR : forall s x y, In s rows -> In (x, y) (dedges s) -> side x <> side y -> n0 <= cv x y) by apply cvr.
  destruct O as [A1 A2 A3|x y A1 A2 A3 A4 A5|x y A1 A2 A3 A4 A5|x y A1 A2 A3 A4 A5 A6 A7|x y A1 A2 A3 A4 A5 A6 A7|x y x1 y1 A1 A2 A3 A4 A5 A6 A7];
  destruct O' as [B1 B2 B3|z w B1 B2 B3 B4 B5|z w B1 B2 B3 B4 B5|z w B1 B2 B3 B4 B5 B6 B7|z w B1 B2 B3 B4 B5 B6 B7|z w z1 w1 B1 B2 B3 B4 B5 B6 B7];
  repeat match goal with H : In (?a, ?b) (dedges ?s), S : side ?a <> side ?b, Z : In ?s rows |- _ => lazymatch goal with _ : n0 <= cv a b |- _ => fail | _ => pose proof (KR s a b Z H S) end end; try lia.
  - eauto.
  - destruct (edge_same _ _ _ _ _ _ Is Is' A2 A3 B2 B3 ltac:(congruence)) as [[? ?]|[? ?]]; subst; eauto; congruence.
  - destruct (edge_same _ _ _ _ _ _ Is Is' A2 A3 B2 B3 ltac:(congruence)) as [[? ?]|[? ?]]; subst; congruence.
  - destruct (edge_same _ _ _ _ _ _ Is Is' A2 A3 B2 B3 ltac:(congruence)) as [[? ?]|[? ?]]; subst; eauto; congruence.
  - destruct (edge_same _ _ _ _ _ _ Is Is' A2 A3 B2 B3 ltac:(congruence)) as [[? ?]|[? ?]]; subst; congruence.
  - destruct (edge_same _ _ _ _ _ _ Is Is' A2 A3 B2 B3 ltac:(congruence)) as [[? ?]|[? ?]]; subst; congruence.
  - apply corners_perm; auto. destruct (tri_in _ _ _ B2). apply (third_incl _ _ x y p); auto; destruct (edge_same _ _ _ _ _ _ Is Is' A2 A3 B2 B3 ltac:(congruence)) as [[? ?]|[? ?]]; subst; auto.
  - destruct (edge_same _ _ _ _ _ _ Is Is' A2 A3 B2 B3 ltac:(congruence)) as [[? ?]|[? ?]]; subst; congruence.
  - apply corners_perm; auto. destruct (tri_in _ _ _ B2). apply (third_incl _ _ x y q); auto; destruct (edge_same _ _ _ _ _ _ Is Is' A2 A3 B2 B3 ltac:(congruence)) as [[? ?]|[? ?]]; subst; auto.
  - apply corners_perm; auto. destruct (tri_in _ _ _ B1). destruct (tri_in _ _ _ B3). apply (two_edges_incl _ _ x y x1 y1); auto.
    1, 2: destruct (edge_same _ _ _ _ _ _ Is Is' A1 A2 B1 B2 ltac:(congruence)) as [[? ?]|[? ?]]; subst; auto.
    1, 2: destruct (edge_same _ _ _ _ _ _ Is Is' A3 A4 B3 B4 ltac:(congruence)) as [[? ?]|[? ?]]; subst; auto.
Qed.
Lemma clip_nodup : NoDup (mesh_edges (clip_rows side t)).
Proof.
  unfold mesh_edges. eapply Permutation_NoDup; [symmetry; apply Permutation_flat_map, clip_pieces|].
  assert (E : flat_map dedges (flat_map pieces (seq 0 (length rows))) = flat_map (fun j => mesh_edges (pieces j)) (seq 0 (length rows))). { generalize (seq 0 (length rows)). induction l; cbn; auto. rewrite flat_map_app, IHl. auto. }
  rewrite E. apply NoDup_flat_map; [apply seq_NoDup| |].
  - intros j Hj. apply in_seq in Hj. apply piece_nodup. lia.
  - intros j j' [p q] Hj Hj' I I'. apply in_seq in Hj, Hj'. apply (origin_unique j j' p q); try lia; apply piece_origin; auto; lia.
Qed.
Lemma clip_consistent : consistent 2 (clip_rows side t) /\ at_most_two 2 (clip_rows side t).
Proof. pose proof (clip_triangles side rows t T) as TR. split; [apply nodup_consistent|apply nodup_at_most_two]; auto using clip_nodup. Qed.
End Top.
