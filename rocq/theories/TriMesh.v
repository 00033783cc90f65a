(** Directed edges of meshes built by from_simplices. *)
Require Import List Arith ZArith Bool Lia Permutation.
From Verif Require Import Util CombProofs SimpModel SimpSpec ParProofs SimpProofs LevelProofs TopProofs BdryModel BdrySpec
  OrientProofs SubProofs BaryProofs LoopProofs TriModel TriSpec LinModel TriProofs.
Import ListNotations.
Local Open Scope nat_scope.

Lemma nodup3 : forall a b c : nat, NoDup [a; b; c] <-> a <> b /\ a <> c /\ b <> c.
Proof.
  intros a b c. split.
  - intros N. inversion N as [|? ? A1 A2]; subst. inversion A2 as [|? ? A3 A4]; subst. cbn in *. repeat split; intros ->; tauto.
  - intros (A & B & C). repeat constructor; cbn; intuition.
Qed.
Lemma in_dedges : forall x y a b c, In (x, y) (dedges [a; b; c]) <-> (x = a /\ y = b) \/ (x = b /\ y = c) \/ (x = c /\ y = a).
Proof.
  intros. cbn. split.
  - intros [Q|[Q|[Q|[]]]]; injection Q as <- <-; auto.
  - intros [[-> ->]|[[-> ->]|[-> ->]]]; auto.
Qed.
Definition triangle (s : simplex) : Prop := length s = 3 /\ NoDup s.
Lemma triangle_abc : forall s, triangle s -> exists a b c, s = [a; b; c] /\ a <> b /\ a <> c /\ b <> c.
Proof. intros s [L N]. destruct (triple_split s L) as (a & b & c & ->). apply nodup3 in N. exists a, b, c. tauto. Qed.
Lemma dedges_nodup : forall s, triangle s -> NoDup (dedges s).
Proof.
  intros s H. destruct (triangle_abc s H) as (a & b & c & -> & A & B & C). cbn. repeat constructor; cbn; intuition congruence.
Qed.
Lemma face2 : forall x y s, x <> y -> In x s -> In y s -> is_face 1 [x; y] s.
Proof. intros x y s H I J. split; [|split; auto]. - constructor; [cbn; intuition|constructor; [cbn; tauto|constructor]]. - intros z [<-|[<-|[]]]; auto. Qed.
Lemma dedges_face : forall s x y, triangle s -> In (x, y) (dedges s) -> is_face 1 [x; y] s /\ incidence_number [x; y] s = 1%Z /\ ~ In (y, x) (dedges s) /\ x <> y.
Proof.
  intros s x y H I. destruct (triangle_abc s H) as (a & b & c & -> & A & B & C). rewrite in_dedges in *. assert (N : NoDup [a; b; c]) by (apply nodup3; auto).
  destruct I as [[-> ->]|[[-> ->]|[-> ->]]]; (split; [|split; [|split]]); auto using inc_ab, inc_bc, inc_ca; try lia; apply face2; cbn; auto.
Qed.
Lemma face_dedges : forall s x y, triangle s -> is_face 1 [x; y] s -> In (x, y) (dedges s) \/ In (y, x) (dedges s).
Proof.
  intros s x y H (N & L & I). destruct (triangle_abc s H) as (a & b & c & -> & A & B & C). rewrite !in_dedges. pose proof (I x (or_introl eq_refl)) as I1. pose proof (I y (or_intror (or_introl eq_refl))) as I2. cbn in I1, I2.
  assert (x <> y) by (intros ->; inversion N; subst; cbn in *; tauto). intuition congruence.
Qed.

Section Mesh.
Variables (rows : list simplex).
Hypothesis TR : Forall triangle rows.
Lemma tr : forall j, j < length rows -> triangle (nth j rows []).
Proof. intros j Hj. rewrite Forall_forall in TR. apply TR, nth_In; auto. Qed.
Lemma in_mesh : forall e, In e (mesh_edges rows) <-> exists j, j < length rows /\ In e (dedges (nth j rows [])).
Proof.
  intros e. unfold mesh_edges. rewrite in_flat_map. split.
  - intros (s & Hs & He). apply In_nth with (d := []) in Hs as (j & Hj & <-). eauto.
  - intros (j & Hj & He). exists (nth j rows []). split; auto. apply nth_In; auto.
Qed.
Lemma mesh_edges_seq : mesh_edges rows = flat_map (fun j => dedges (nth j rows [])) (seq 0 (length rows)).
Proof. unfold mesh_edges. rewrite !flat_map_concat_map. f_equal. transitivity (map dedges (map (fun j => nth j rows []) (seq 0 (length rows)))); [rewrite map_nth_seq; auto|apply map_map]. Qed.
Hypothesis CO : consistent 2 rows.
Lemma mesh_once : forall x y j j', j < length rows -> j' < length rows -> In (x, y) (dedges (nth j rows [])) -> In (x, y) (dedges (nth j' rows [])) -> j = j'.
Proof.
  intros x y j j' Hj Hj' I I'. destruct (Nat.eq_dec j j') as [|N]; auto. exfalso. destruct (dedges_face _ _ _ (tr j Hj) I) as (F & E & _). destruct (dedges_face _ _ _ (tr j' Hj') I') as (F' & E' & _).
  pose proof (CO j j' Hj Hj' N [x; y] F F') as Q. rewrite E, E' in Q. lia.
Qed.
Lemma mesh_nodup : NoDup (mesh_edges rows).
Proof.
  rewrite mesh_edges_seq. apply NoDup_flat_map.
  - apply seq_NoDup.
  - intros j Hj. apply in_seq in Hj. apply dedges_nodup, tr. lia.
  - intros j j' [x y] Hj Hj' I I'. apply in_seq in Hj, Hj'. apply (mesh_once x y); auto; lia.
Qed.
Lemma mesh_opposite : forall x y j j', j < length rows -> j' < length rows -> j <> j' -> In (x, y) (dedges (nth j rows [])) -> is_face 1 [x; y] (nth j' rows []) -> In (y, x) (dedges (nth j' rows [])).
Proof.
  intros x y j j' Hj Hj' N I F. destruct (face_dedges _ _ _ (tr j' Hj') F) as [Q|Q]; auto. exfalso. apply N. eapply mesh_once; eauto.
Qed.

Definition has (L : list dedge) (e : dedge) : bool := existsb (dedge_eqb e) L.
Lemma has_in : forall L e, has L e = true <-> In e L.
Proof. intros. unfold has. rewrite existsb_exists. split; [intros (x & I & Q); apply dedge_eqb_ok in Q; subst; auto|intros I; exists e; split; auto; apply dedge_eqb_ok; auto]. Qed.
(** Directed edges with and without partner. *)
Definition paired := filter (fun e => has (mesh_edges rows) (reverse e)) (mesh_edges rows).
Definition unpaired := filter (fun e => negb (has (mesh_edges rows) (reverse e))) (mesh_edges rows).
Lemma filter_split : forall A (p : A -> bool) l, Permutation l (filter p l ++ filter (fun x => negb (p x)) l).
Proof. induction l as [|x l IH]; cbn; auto. destruct (p x); cbn; [constructor; auto|]. apply Permutation_cons_app. auto. Qed.
Lemma mesh_split : Permutation (mesh_edges rows) (paired ++ unpaired).
Proof. apply filter_split. Qed.
Lemma reverse_inj : forall l, NoDup l -> NoDup (map reverse l).
Proof. intros l N. apply NoDup_map_inj; auto. intros x y _ _ E. rewrite <- (reverse_reverse x), E. apply reverse_reverse. Qed.
Lemma paired_matched : Permutation paired (map reverse paired).
Proof.
  apply NoDup_Permutation.
  - apply NoDup_filter, mesh_nodup.
  - apply reverse_inj, NoDup_filter, mesh_nodup.
  - intros e. rewrite in_map_iff. unfold paired. split.
    + intros I. apply filter_In in I as [I H]. exists (reverse e). rewrite reverse_reverse. split; auto. apply filter_In. rewrite reverse_reverse. rewrite has_in in *. auto.
    + intros (x & <- & I). apply filter_In in I as [I H]. apply filter_In. rewrite reverse_reverse. rewrite has_in in *. auto.
Qed.
Lemma unpaired_face : forall x y, In (x, y) unpaired <-> In (x, y) (mesh_edges rows) /\ boundary_face 2 rows [x; y].
Proof.
  intros x y. unfold unpaired. rewrite filter_In, negb_true_iff, <- not_true_iff_false, has_in. unfold reverse. cbn [fst snd]. split; intros [I H]; split; auto.
  - apply in_mesh in I as (j & Hj & I). exists j. split; auto. split; [apply (dedges_face _ _ _ (tr j Hj) I)|]. intros j' Hj' F. destruct (Nat.eq_dec j' j); auto. exfalso. apply H. apply in_mesh. exists j'. split; auto. apply (mesh_opposite x y j j'); auto.
  - intros J. destruct H as (k & Hk & F & U). apply in_mesh in I as (j & Hj & I), J as (j' & Hj' & J). destruct (dedges_face _ _ _ (tr j Hj) I) as (F1 & _ & N & NE). destruct (dedges_face _ _ _ (tr j' Hj') J) as (F2 & _ & N' & _).
    assert (j = k) by (apply U; auto). assert (j' = k). { apply U; auto. apply face2; auto; apply F2; cbn; auto. } subst. contradiction.
Qed.
Lemma no_boundary_closed : (forall f, ~ boundary_face 2 rows f) -> closed_surface rows.
Proof.
  intros NB e. revert e. apply matched_perm. assert (U : unpaired = []). { destruct unpaired as [|[x y] u] eqn:E; auto. exfalso. assert (I : In (x, y) unpaired) by (rewrite E; cbn; auto). apply unpaired_face in I as [_ I]. eapply NB; eauto. }
  rewrite mesh_split at 1. rewrite U, app_nil_r. rewrite mesh_split, U, app_nil_r. apply paired_matched.
Qed.
End Mesh.

Section Top.
Variables (rows : list simplex) (t : topology).
Hypothesis T : top_ok 2 rows t.
Hypothesis CO : consistent 2 rows.
Lemma top_triangles : Forall triangle rows.
Proof. pose proof (to_ok _ _ _ T 2 ltac:(lia)) as [_ F]. rewrite (to_top _ _ _ T) in F. exact F. Qed.
Notation TR := top_triangles.

(** Stored edges run in the direction of the first triangle that has them. *)
Lemma stored_edge : forall i, i < n_elements t 1 -> exists x y, el t 1 i = [x; y] /\ In (x, y) (mesh_edges rows).
Proof.
  intros i Hi. pose proof (to_rep _ _ _ T 1 ltac:(lia) i Hi) as R. rewrite (to_top _ _ _ T) in R. apply in_full in R as (s & c & Hs & Hc & E).
  pose proof TR as F. rewrite Forall_forall in F. destruct (triangle_abc s (F s Hs)) as (v0 & v1 & v2 & -> & _).
  unfold el. destruct c as [|[|[|c]]]; [| | |lia]; cbn in E; rewrite E; do 2 eexists; (split; [reflexivity|]); apply in_flat_map; eexists; (split; [exact Hs|]); cbn; auto.
Qed.
Definition pair_of (e : simplex) : dedge := (nth 0 e 0, nth 1 e 0).
Lemma edge_index : forall x y, In (x, y) (mesh_edges rows) -> exists i, i < n_elements t 1 /\ Permutation (el t 1 i) [x; y].
Proof.
  intros x y I. apply in_mesh in I as (j & Hj & I). destruct (tri_ex rows t T j Hj) as (v0 & v1 & v2 & e0 & e1 & e2 & H). rewrite (t_row _ _ _ _ _ _ _ _ _ H) in I. destruct (t_e _ _ _ _ _ _ _ _ _ H) as (B0 & B1 & B2).
  apply in_dedges in I as [[-> ->]|[[-> ->]|[-> ->]]]; [exists e2|exists e0|exists e1]; split; auto; apply H.
Qed.
Lemma boundary_pairs : forall idx, NoDup idx -> (forall i, In i idx <-> i < n_elements t 1 /\ boundary_face 2 rows (el t 1 i)) ->
  Permutation (unpaired rows) (map (fun i => pair_of (el t 1 i)) idx).
Proof.
  intros idx ND HI. apply NoDup_Permutation.
  - apply NoDup_filter, mesh_nodup; auto using TR.
  - apply NoDup_map_inj; auto. intros i i' I I' E. apply HI in I as [I _]. apply HI in I' as [I' _]. destruct (stored_edge i I) as (x & y & E1 & _). destruct (stored_edge i' I') as (x' & y' & E2 & _). unfold pair_of in E. rewrite E1, E2 in E. cbn in E. injection E as -> ->.
    pose proof (lv_uniq _ _ _ _ _ (to_level _ _ _ T 1 ltac:(lia)) i i' I I') as Q. apply Q. unfold el in E1, E2. rewrite E1, E2. auto.
  - intros [x y]. rewrite (unpaired_face rows TR CO), in_map_iff. split.
    + intros [I B]. destruct (edge_index x y I) as (i & Hi & P). destruct (stored_edge i Hi) as (x' & y' & E & I'). exists i. rewrite E in P. apply Permutation_length_2_inv in P as [Q|Q]; injection Q as Q1 Q2; subst x' y'.
      * split; [unfold pair_of; rewrite E; auto|]. apply HI. rewrite E. auto.
      * exfalso. assert (U : In (x, y) (unpaired rows)) by (apply unpaired_face; auto using TR). unfold unpaired in U. apply filter_In in U as [_ U]. rewrite negb_true_iff, <- not_true_iff_false, has_in in U. auto.
    + intros (i & E & I). apply HI in I as [Hi B]. destruct (stored_edge i Hi) as (x' & y' & E' & I'). unfold pair_of in E. rewrite E' in E, B. cbn in E. injection E as -> ->. auto.
Qed.
End Top.
