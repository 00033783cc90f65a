(** The extruded solid is an oriented mesh. *)
Require Import List Arith ZArith Bool Lia Permutation.
From Verif Require Import Util CombProofs SimpModel SimpSpec ParProofs SimpProofs LevelProofs TopProofs BdryModel BdrySpec
  OrientProofs SubProofs BaryProofs LoopProofs AvgProofs TriModel TriSpec LinModel TriProofs TriMesh TriExtrude.
Import ListNotations.
Local Open Scope nat_scope.

Lemma nodup_flat_map_inv : forall A B (f : A -> list B) d l j j' b, NoDup (flat_map f l) -> j < length l -> j' < length l ->
  In b (f (nth j l d)) -> In b (f (nth j' l d)) -> j = j'.
Proof.
  induction l as [|x l IH]; cbn; intros j j' b N Hj Hj' I I'; [lia|]. 
  assert (D : forall b, In b (f x) -> In b (flat_map f l) -> False). { intros b' X Y. clear - N X Y. induction (f x) as [|z zs IHz]; [destruct X|]. cbn in N. inversion N; subst. destruct X as [->|X]; [apply H1, in_or_app; auto|]. auto. }
  assert (N' : NoDup (flat_map f l)). { clear - N. induction (f x); cbn in N; auto. inversion N; auto. }
  destruct j as [|j], j' as [|j']; auto.
  - exfalso. apply (D b); auto. apply in_flat_map. exists (nth j' l d). split; auto. apply nth_In. lia.
  - exfalso. apply (D b); auto. apply in_flat_map. exists (nth j l d). split; auto. apply nth_In. lia.
  - f_equal. apply (IH j j' b); auto; lia.
Qed.

Section Nodup.
Variables (rows : list simplex).
Hypothesis TR : Forall triangle rows.
Hypothesis ND : NoDup (mesh_edges rows).
Lemma once : forall e j j', j < length rows -> j' < length rows -> In e (dedges (nth j rows [])) -> In e (dedges (nth j' rows [])) -> j = j'.
Proof. intros e j j' Hj Hj' I I'. apply (nodup_flat_map_inv _ _ dedges [] rows j j' e); auto. Qed.
Lemma face_pair : forall f s, triangle s -> is_face 1 f s -> exists x y, f = [x; y] /\ x <> y.
Proof. intros f s H (N & L & _). destruct f as [|x [|y [|]]]; cbn in L; try lia. exists x, y. split; auto. intros ->. inversion N; cbn in *; subst; cbn in *; tauto. Qed.
Lemma nodup_consistent : consistent 2 rows.
Proof.
  intros j1 j2 H1 H2 Hne f F1 F2. change (2 - 1) with 1 in *. pose proof (tr rows TR j1 H1) as T1. pose proof (tr rows TR j2 H2) as T2. destruct (face_pair f _ T1 F1) as (x & y & -> & Hxy).
  destruct (face_dedges _ _ _ T1 F1) as [I1|I1], (face_dedges _ _ _ T2 F2) as [I2|I2]; try (exfalso; apply Hne; eapply once; eassumption).
  - destruct (dedges_face _ _ _ T1 I1) as (_ & E1 & _). destruct (dedges_face _ _ _ T2 I2) as (_ & E2 & _). rewrite inc_swap in E2 by auto. lia.
  - destruct (dedges_face _ _ _ T1 I1) as (_ & E1 & _). destruct (dedges_face _ _ _ T2 I2) as (_ & E2 & _). rewrite inc_swap in E1 by auto. lia.
Qed.
Lemma nodup_at_most_two : at_most_two 2 rows.
Proof.
  intros f j1 j2 j3 H1 H2 H3 F1 F2 F3. change (2 - 1) with 1 in *. pose proof (tr rows TR j1 H1) as T1. pose proof (tr rows TR j2 H2) as T2. pose proof (tr rows TR j3 H3) as T3. destruct (face_pair f _ T1 F1) as (x & y & -> & Hxy).
  destruct (face_dedges _ _ _ T1 F1) as [I1|I1], (face_dedges _ _ _ T2 F2) as [I2|I2], (face_dedges _ _ _ T3 F3) as [I3|I3];
  first [left; eapply once; eassumption|right; left; eapply once; eassumption|right; right; eapply once; eassumption].
Qed.
End Nodup.

Section Solid.
Variables (rows : list simplex) (n : nat) (B : list dedge).
Hypothesis TR : Forall triangle rows.
Hypothesis CO : consistent 2 rows.
Hypothesis HB : Permutation (unpaired rows) B.
Hypothesis LT : forall v, In v (concat rows) <-> v < n.
Notation S := (solid_rows n rows (be B)).
Notation L := (mesh_edges rows).

Lemma edge_labels : forall x y, In (x, y) L -> x < n /\ y < n /\ x <> y.
Proof.
  intros x y I. apply in_mesh in I as (j & Hj & I). pose proof (tr rows TR j Hj) as T. destruct (dedges_face _ _ _ T I) as ((_ & _ & F) & _ & _ & N).
  repeat split; auto; apply LT, in_concat; exists (nth j rows []); (split; [apply nth_In; auto|apply F; cbn; auto]).
Qed.
Lemma B_in : forall x y, In (x, y) B -> In (x, y) L /\ ~ In (y, x) L.
Proof.
  intros x y I. apply (Permutation_in _ (Permutation_sym HB)) in I. unfold unpaired in I. apply filter_In in I as [I H]. split; auto. rewrite negb_true_iff, <- not_true_iff_false, has_in in H. exact H.
Qed.
Lemma B_nodup : NoDup B.
Proof. eapply Permutation_NoDup; [exact HB|]. apply NoDup_filter, mesh_nodup; auto. Qed.

Lemma solid_triangles : Forall triangle S.
Proof.
  unfold solid_rows, strip, be. rewrite !Forall_app, !map_map. split; [auto|split; [|split]]; apply Forall_forall; intros s Hs; apply in_map_iff in Hs as (e & <- & He).
  - rewrite Forall_forall in TR. destruct (TR e He) as [L3 N]. split; [rewrite map_length, rev_length; auto|]. apply NoDup_map_inj; [intros; lia|apply NoDup_rev; auto].
  - destruct e as [x y]. apply B_in in He as [I _]. apply edge_labels in I. cbn. split; auto. apply nodup3. lia.
  - destruct e as [x y]. apply B_in in He as [I _]. apply edge_labels in I. cbn. split; auto. apply nodup3. lia.
Qed.
Lemma solid_labels : forall v, In v (concat S) <-> v < n + n.
Proof.
  intros v. rewrite in_concat. unfold solid_rows, strip, be. split.
  - intros (s & Hs & Hv). rewrite !in_app_iff, !map_map, !in_map_iff in Hs. destruct Hs as [Hs|[(r & <- & Hr)|[([x y] & <- & I)|([x y] & <- & I)]]].
    + assert (v < n); [|lia]. apply LT, in_concat. eauto.
    + apply in_map_iff in Hv as (u & <- & Hu). apply in_rev in Hu. assert (u < n); [|lia]. apply LT, in_concat. eauto.
    + apply B_in in I as [I _]. apply edge_labels in I. cbn in Hv. intuition lia.
    + apply B_in in I as [I _]. apply edge_labels in I. cbn in Hv. intuition lia.
  - intros Hv. destruct (Nat.lt_ge_cases v n) as [H|H].
    + apply LT, in_concat in H as (s & Hs & Hv'). exists s. split; auto. apply in_or_app; auto.
    + assert (H' : v - n < n) by lia. apply LT, in_concat in H' as (s & Hs & Hv'). exists (map (fun v => v + n) (rev s)). split.
      * apply in_or_app. right. apply in_or_app. left. apply in_map_iff. eauto.
      * apply in_map_iff. exists (v - n). split; [lia|]. apply -> in_rev. auto.
Qed.
Hypothesis HF : NoDup (map fst B).
Lemma solid_nodup : NoDup (mesh_edges S).
Proof.
  unfold solid_rows. rewrite !mesh_edges_app. eapply Permutation_NoDup; [symmetry; apply Permutation_app_head, Permutation_app; [apply other_edges; auto|apply strip_edges]|].
  pose proof B_nodup as NB. pose proof (mesh_nodup rows TR CO) as NL. pose proof (ends_balanced rows B TR CO HB) as PB. pose proof (Permutation_NoDup PB HF) as HS.
  assert (IJ : forall A B (f : A -> B) l, (forall x y, f x = f y -> x = y) -> NoDup l -> NoDup (map f l)) by (intros; apply NoDup_map_inj; auto).
  assert (BL : forall x y, In (x, y) B -> x < n /\ y < n /\ x <> y /\ In (x, y) L /\ ~ In (y, x) L) by (intros x y I; pose proof (B_in x y I) as [J1 J2]; pose proof (edge_labels x y J1); tauto).
  assert (R : forall l : list dedge, NoDup l -> NoDup (map reverse l)) by (intros; apply reverse_inj; auto).
  assert (SH : forall l : list dedge, NoDup l -> NoDup (map (shift n) l)) by (intros; apply IJ; auto; intros [a b] [c d] Q; injection Q as Q1 Q2; f_equal; lia).
  repeat apply NoDup_app'; auto.
  - rewrite <- (map_map fst (fun v => (v, v + n))). apply IJ; auto. intros x y Q; injection Q; auto.
  - rewrite <- (map_map snd (fun v => (v + n, v))). apply IJ; auto. intros x y Q; injection Q; auto.
  - intros [x y] I I'. rewrite in_map_iff in I, I'. destruct I as ([a b] & E & I), I' as ([a' b'] & E' & I'). apply BL in I, I'. injection E as <- <-. injection E' as ? ?. lia.
  - apply IJ; auto. intros [a b] [c d] Q. cbn in Q. injection Q as ? ?. f_equal; lia.
  - apply IJ; auto. intros [a b] [c d] Q. cbn in Q. injection Q as ? ?. f_equal; lia.
  - intros [x y] I I'. rewrite in_map_iff in I, I'. destruct I as ([a b] & E & I), I' as ([a' b'] & E' & I'). apply BL in I, I'. injection E as <- <-. injection E' as ? ?. lia.
  - intros [x y] I I'. rewrite in_app_iff, !in_map_iff in I, I'. destruct I as [([a b] & E & I)|([a b] & E & I)], I' as [([a' b'] & E' & I')|([a' b'] & E' & I')]; apply BL in I, I'; cbn in E, E'; injection E as <- <-; injection E' as ? ?; lia.
  - intros [x y] I I'. rewrite !in_app_iff, !in_map_iff in I'. rewrite in_map_iff in I. destruct I as ([a b] & E & I), I' as [[([a' b'] & E' & I')|([a' b'] & E' & I')]|[([a' b'] & E' & I')|([a' b'] & E' & I')]]; apply BL in I, I'; unfold shift in E, E'; cbn in E, E'; injection E as <- <-; injection E' as ? ?; lia.
  - intros [x y] I I'. rewrite !in_app_iff, !in_map_iff in I'. rewrite in_map_iff in I. destruct I as ([a b] & E & I). apply BL in I. unfold reverse in E. cbn in E. injection E as <- <-.
    destruct I' as [([a' b'] & E' & I')|[[([a' b'] & E' & I')|([a' b'] & E' & I')]|[([a' b'] & E' & I')|([a' b'] & E' & I')]]]; apply BL in I'; unfold shift, reverse in E'; cbn in E'; injection E' as ? ?; lia.
  - intros [x y] I I'. rewrite !in_app_iff in I'. rewrite in_map_iff in I. destruct I as ([p q] & E & I). apply in_map_iff in I as ([a b] & E2 & I). unfold shift, reverse in E, E2. cbn in E, E2. injection E2 as <- <-. injection E as <- <-. pose proof (edge_labels a b I) as J.
    destruct I' as [I'|[I'|[[I'|I']|[I'|I']]]]; apply in_map_iff in I' as ([a' b'] & E' & I'); apply BL in I'; unfold shift, reverse in E'; cbn in E'; injection E' as ? ?; try lia.
    assert (a' = b) by lia. assert (b' = a) by lia. subst. tauto.
  - intros [x y] I I'. rewrite !in_app_iff in I'. pose proof (edge_labels x y I) as J. destruct I' as [I'|[I'|[I'|[[I'|I']|[I'|I']]]]]; apply in_map_iff in I' as ([a b] & E & I').
    + apply in_map_iff in I' as ([c d] & E2 & I'). apply edge_labels in I'. unfold shift, reverse in E, E2. cbn in E, E2. injection E2 as <- <-. injection E as ? ?. lia.
    + apply BL in I'. injection E as ? ?. cbn in *. subst. tauto.
    + apply BL in I'. injection E as ? ?. cbn in *. lia.
    + apply BL in I'. injection E as ? ?. cbn in *. lia.
    + apply BL in I'. injection E as ? ?. cbn in *. lia.
    + apply BL in I'. injection E as ? ?. cbn in *. lia.
    + apply BL in I'. injection E as ? ?. cbn in *. lia.
Qed.
End Solid.

(** Connectedness. *)
Lemma linked_trans : forall n rows a b c, linked n rows a b -> linked n rows b c -> linked n rows a c.
Proof. intros n rows a b c H1 H2. induction H2 as [j|j1 j2 j3 H2 IH A]; auto. eapply linked_step; [apply IH; exact H1|exact A]. Qed.
Lemma adjacent_sym : forall n rows a b, adjacent n rows a b -> adjacent n rows b a.
Proof. intros n rows a b (H1 & H2 & H3 & f & F1 & F2). repeat split; auto. exists f. auto. Qed.
Lemma linked_one : forall n rows a b, adjacent n rows a b -> linked n rows a b.
Proof. intros. eapply linked_step; [constructor|]. auto. Qed.
Lemma linked_sym : forall n rows a b, linked n rows a b -> linked n rows b a.
Proof. intros n rows a b H. induction H as [j|j1 j2 j3 H2 IH A]; [constructor|]. eapply linked_trans; [apply linked_one, adjacent_sym; exact A|exact IH]. Qed.

Section Connected.
Variables (rows : list simplex) (n : nat) (B : list dedge).
Hypothesis TR : Forall triangle rows.
Hypothesis CO : consistent 2 rows.
Hypothesis HB : Permutation (unpaired rows) B.
Hypothesis LT : forall v, In v (concat rows) <-> v < n.
Hypothesis CN : connected 2 rows.
Hypothesis NE : B <> [].
Notation S := (solid_rows n rows (be B)).
Notation m := (length rows).
Notation b := (length B).
Lemma solid_length : length S = m + (m + (b + b)).
Proof. unfold solid_rows, strip, be. rewrite !app_length, !map_length. reflexivity. Qed.
Lemma solid_first : forall j, j < m -> nth j S [] = nth j rows [].
Proof. intros j H. unfold solid_rows. rewrite app_nth1; auto. Qed.
Lemma solid_second : forall j, j < m -> nth (m + j) S [] = map (fun v => v + n) (rev (nth j rows [])).
Proof. intros j H. unfold solid_rows. rewrite app_nth2, app_nth1 by (rewrite ?map_length; lia). replace (m + j - m) with j by lia. rewrite nth_map_lt with (da := []); auto. Qed.
Lemma solid_third : forall i, i < b -> nth (m + (m + i)) S [] = [snd (nth i B (0, 0)); fst (nth i B (0, 0)); fst (nth i B (0, 0)) + n].
Proof.
  intros i H. unfold solid_rows. rewrite app_nth2, app_nth2 by (rewrite ?map_length; lia). rewrite map_length. replace (m + (m + i) - m - m) with i by lia. unfold strip, be. rewrite app_nth1 by (rewrite !map_length; auto). rewrite map_map.
  rewrite nth_map_lt with (da := (0, 0)); auto.
Qed.
Lemma solid_fourth : forall i, i < b -> nth (m + (m + (b + i))) S [] = [fst (nth i B (0, 0)) + n; snd (nth i B (0, 0)) + n; snd (nth i B (0, 0))].
Proof.
  intros i H. unfold solid_rows. rewrite app_nth2, app_nth2 by (rewrite ?map_length; lia). rewrite map_length. replace (m + (m + (b + i)) - m - m) with (b + i) by lia. unfold strip, be. rewrite app_nth2 by (rewrite !map_length; lia). rewrite !map_length, map_map. replace (b + i - b) with i by lia.
  rewrite nth_map_lt with (da := (0, 0)); auto.
Qed.
Lemma B_edge : forall i, i < b -> exists x y j, nth i B (0, 0) = (x, y) /\ j < m /\ In (x, y) (dedges (nth j rows [])) /\ x < n /\ y < n /\ x <> y.
Proof.
  intros i H. destruct (nth i B (0, 0)) as [x y] eqn:E. assert (I : In (x, y) B) by (rewrite <- E; apply nth_In; auto).
  destruct (B_in rows B HB x y I) as [I' _]. pose proof (edge_labels rows n TR LT x y I') as J. apply in_mesh in I' as (j & Hj & I'). exists x, y, j. tauto.
Qed.
Lemma adj_wit : forall i j x y, i < length S -> j < length S -> i <> j -> x <> y -> In x (nth i S []) -> In y (nth i S []) -> In x (nth j S []) -> In y (nth j S []) -> adjacent 2 S i j.
Proof. intros. repeat split; auto. exists [x; y]. split; apply face2; auto. Qed.
Lemma link_first : forall j1 j2, linked 2 rows j1 j2 -> j1 < m -> linked 2 S j1 j2.
Proof.
  intros j1 j2 H Hj. induction H; [constructor|]. eapply linked_step; [apply IHlinked; auto|]. destruct H0 as (A1 & A2 & A3 & f & F1 & F2). pose proof solid_length. repeat split; try lia. exists f. rewrite !solid_first by auto. auto.
Qed.
Lemma link_second : forall j1 j2, linked 2 rows j1 j2 -> j1 < m -> linked 2 S (m + j1) (m + j2).
Proof.
  intros j1 j2 H Hj. induction H; [constructor|]. eapply linked_step; [apply IHlinked; auto|]. destruct H0 as (A1 & A2 & A3 & f & (N & Lf & F1) & (_ & _ & F2)). pose proof solid_length. repeat split; try lia. exists (map (fun v => v + n) f). rewrite !solid_second by auto.
  assert (X : NoDup (map (fun v => v + n) f)) by (apply NoDup_map_inj; auto; intros; lia).
  split; (split; [exact X|]; split; [rewrite map_length; auto|]); intros v Hv; apply in_map_iff in Hv as (u & <- & Hu); apply in_map_iff; exists u; (split; [auto|]); apply -> in_rev; auto.
Qed.
Lemma tri_in : forall x y s, In (x, y) (dedges s) -> In x s /\ In y s.
Proof. intros x y s H. destruct s as [|a [|c [|d [|]]]]; try (destruct H; fail). apply in_dedges in H. cbn. intuition. Qed.
Lemma link_third : forall i, i < b -> linked 2 S 0 (m + (m + i)).
Proof.
  intros i H. destruct (B_edge i H) as (x & y & j & E & Hj & I & Hx & Hy & Hxy). pose proof solid_length. eapply linked_step; [apply link_first; [apply CN; exact Hj|lia]|].
  destruct (tri_in _ _ _ I). apply (adj_wit _ _ x y); try lia; auto; rewrite ?solid_first, ?solid_third, ?E by auto; cbn; auto.
Qed.
Lemma link_fourth : forall i, i < b -> linked 2 S 0 (m + (m + (b + i))).
Proof.
  intros i H. destruct (B_edge i H) as (x & y & j & E & Hj & I & Hx & Hy & Hxy). pose proof solid_length. eapply linked_step; [apply (link_third i); auto|].
  apply (adj_wit _ _ y (x + n)); try lia; auto; rewrite ?solid_third, ?solid_fourth, ?E by auto; cbn; auto.
Qed.
Lemma link_base : linked 2 S 0 (m + 0).
Proof.
  assert (H : 0 < b) by (destruct B; [congruence|cbn; lia]). destruct (B_edge 0 H) as (x & y & j & E & Hj & I & Hx & Hy & Hxy). pose proof solid_length. destruct (tri_in _ _ _ I).
  eapply linked_trans with (m + j); [|apply linked_sym, link_second; [apply CN; auto|lia]].
  eapply linked_step; [apply (link_fourth 0); auto|].
  apply (adj_wit _ _ (x + n) (y + n)); try lia; rewrite ?solid_second, ?solid_fourth, ?E by auto; cbn [fst snd]; try (cbn; tauto); apply (in_map (fun v => v + n)), in_rev; rewrite rev_involutive; auto.
Qed.
Lemma solid_connected : connected 2 S.
Proof.
  intros j Hj. rewrite solid_length in Hj. destruct (Nat.lt_ge_cases j m) as [H|H]; [apply link_first; [apply CN; auto|lia]|].
  replace j with (m + (j - m)) by lia. set (j1 := j - m) in *. destruct (Nat.lt_ge_cases j1 m) as [H1|H1].
  - eapply linked_trans; [apply link_base|]. apply link_second; [apply CN; auto|lia].
  - replace j1 with (m + (j1 - m)) by lia. set (j2 := j1 - m) in *. destruct (Nat.lt_ge_cases j2 b) as [H2|H2].
    + apply link_third; auto.
    + replace j2 with (b + (j2 - b)) by lia. apply link_fourth. lia.
Qed.
End Connected.
