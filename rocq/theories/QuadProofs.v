(** Lemmas for C73 and C74: directed edges of quads and triangles. *)
Require Import List Arith ZArith Bool Lia Permutation.
From Verif Require Import Util CombProofs SimpModel SimpSpec ParProofs SimpProofs LevelProofs TopProofs BdryModel BdrySpec.
From Verif Require Import OrientProofs SubProofs BaryProofs LoopProofs TriModel TriSpec LinModel TriProofs TriMesh.
From Verif Require Import CubeModel CubeSpec CubeBits CubeBd CubeRel CubeTop CubeChain COrSpec CubeGrid.
Import ListNotations.
Local Open Scope nat_scope.

Definition quad (q : cube) : Prop := length q = 4 /\ NoDup q.
Lemma quad_abcd : forall q, quad q -> exists a b c d, q = [a; b; c; d] /\ a <> b /\ a <> c /\ a <> d /\ b <> c /\ b <> d /\ c <> d.
Proof.
  intros [|a [|b [|c [|d [|]]]]] [L N]; simpl in L; try lia. exists a, b, c, d. split; auto.
  inversion N as [|? ? A1 A2]; subst. inversion A2 as [|? ? B1 B2]; subst. inversion B2 as [|? ? C1 C2]; subst. cbn in *. repeat split; intros ->; tauto.
Qed.
Definition qedges (q : cube) : list (nat * nat) := match q with [a; b; c; d] => [(a, b); (d, c); (c, a); (b, d)] | _ => [] end.
Lemma related1 : forall z g h, related 1 z g h -> forall x y, g = [x; y] -> (z = 1%Z /\ h = [x; y]) \/ (z = (-1)%Z /\ h = [y; x]).
Proof.
  intros z g h R. induction R as [c|a s c d e R IH Ha M|a s c d e R IH Ha M]; intros x y E; [subst; auto| |lia].
  assert (a = 0) by lia. subst a. destruct M as [L M]. destruct e as [|p [|q [|]]]; simpl in L; try lia.
  pose proof (M [false] eq_refl) as M0. pose proof (M [true] eq_refl) as M1.
  destruct (IH x y E) as [[-> ->]|[-> ->]]; vm_compute in M0, M1; subst p q; auto.
Qed.
Lemma related1_swap : forall x y, related 1 (-1) [x; y] [y; x].
Proof. intros x y. apply (related_mirror 1 0 1 [x; y] [x; y]); [constructor|lia|]. split; auto. intros [|b [|]] L; simpl in L; try lia. destruct b; reflexivity. Qed.
(** The sides of a quad as directed edges. *)
Definition oriented_side (a : nat) (s : bool) (g : list nat) : nat * nat := if (side_sign a s =? 1)%Z then (nth 0 g 0, nth 1 g 0) else (nth 1 g 0, nth 0 g 0).
Lemma side_edge : forall q a s g, quad q -> a < 2 -> is_slice 2 a s q g -> In (oriented_side a s g) (qedges q) /\ length g = 2.
Proof.
  intros q a s g Q Ha S0. apply is_slice_slice in S0; auto. subst g. destruct (quad_abcd q Q) as (w & x & y & z & -> & _). destruct a as [|[|a]]; [| |lia]; destruct s; split; auto; vm_compute; auto.
Qed.
Lemma edge_side : forall q x y, quad q -> In (x, y) (qedges q) -> exists a s g, a < 2 /\ is_slice 2 a s q g /\ oriented_side a s g = (x, y) /\ (g = [x; y] \/ g = [y; x]).
Proof.
  intros q x y Q I. destruct (quad_abcd q Q) as (a & b & c & d & -> & _). cbn [qedges In] in I.
  destruct I as [E|[E|[E|[E|[]]]]]; injection E as <- <-; [exists 0, false, [a; b]|exists 0, true, [c; d]|exists 1, false, [a; c]|exists 1, true, [b; d]];
    (split; [lia|]; split; [|split; [reflexivity|auto]]); (split; [reflexivity|]); intros [|p [|]] L; simpl in L; try lia; destruct p; reflexivity.
Qed.
Lemma has_side_edge : forall q x y, quad q -> (has_side 2 q [x; y] <-> In (x, y) (qedges q) \/ In (y, x) (qedges q)).
Proof.
  intros q x y Q. split.
  - intros (a & s & g & z & Ha & S0 & R). destruct (side_edge q a s g Q Ha S0) as [I L]. destruct g as [|p [|r [|]]]; simpl in L; try lia.
    change (2 - 1) with 1 in R. unfold oriented_side in I. cbn [nth] in I. destruct (related1 _ _ _ R p r eq_refl) as [[_ E]|[_ E]]; injection E as -> ->; destruct (side_sign a s =? 1)%Z; auto.
  - intros [I|I]; destruct (edge_side q _ _ Q I) as (a & s & g & Ha & S0 & _ & [-> | ->]); exists a, s; eexists; eexists; (split; [exact Ha|]; split; [exact S0|]); try apply related_refl; apply related1_swap.
Qed.
Lemma side_sign_pm : forall a s, side_sign a s = 1%Z \/ side_sign a s = (-1)%Z.
Proof. intros. unfold side_sign. destruct (Nat.odd _); auto. Qed.
Lemma quad_nodup_edge : forall q x y, quad q -> In (x, y) (qedges q) -> x <> y /\ ~ In (y, x) (qedges q).
Proof. intros q x y Q I. destruct (quad_abcd q Q) as (a & b & c & d & -> & H). cbn [qedges In] in *. split; intuition congruence. Qed.
Lemma quad_consistent : forall p q, quad p -> quad q -> (consistent_pair 2 p q <-> forall e, In e (qedges p) -> ~ In e (qedges q)).
Proof.
  intros p q P Q. split.
  - intros C [x y] I J. destruct (edge_side p x y P I) as (a1 & s1 & g1 & H1 & S1 & O1 & E1). destruct (edge_side q x y Q J) as (a2 & s2 & g2 & H2 & S2 & O2 & E2).
    destruct (quad_nodup_edge p x y P I) as [Hxy _]. specialize (C a1 s1 g1 a2 s2 g2). change (2 - 1) with 1 in C. unfold oriented_side in O1, O2.
    destruct E1 as [-> | ->], E2 as [-> | ->]; cbn [nth] in O1, O2; destruct (Z.eqb_spec (side_sign a1 s1) 1) as [A1|A1], (Z.eqb_spec (side_sign a2 s2) 1) as [A2|A2]; try congruence;
      destruct (side_sign_pm a1 s1) as [B1|B1], (side_sign_pm a2 s2) as [B2|B2]; try congruence.
    + specialize (C 1%Z H1 H2 S1 S2 (related_refl _ _)). lia.
    + specialize (C (-1)%Z H1 H2 S1 S2 (related1_swap _ _)). lia.
    + specialize (C (-1)%Z H1 H2 S1 S2 (related1_swap _ _)). lia.
    + specialize (C 1%Z H1 H2 S1 S2 (related_refl _ _)). lia.
  - intros D a1 s1 g1 a2 s2 g2 z H1 H2 S1 S2 R. change (2 - 1) with 1 in R. destruct (side_edge p a1 s1 g1 P H1 S1) as [I1 L1]. destruct (side_edge q a2 s2 g2 Q H2 S2) as [I2 L2].
    destruct g1 as [|x [|y [|]]]; simpl in L1; try lia. unfold oriented_side in *. cbn [nth] in I1. pose proof (D _ I1) as N.
    destruct (related1 _ _ _ R x y eq_refl) as [[-> E]|[-> E]]; subst g2; cbn [nth] in I2; destruct (side_sign_pm a1 s1) as [B1|B1], (side_sign_pm a2 s2) as [B2|B2]; rewrite B1, B2 in *; cbn in I1, I2, N; try lia; exfalso; auto.
Qed.
Lemma triangle_consistent : forall p q, triangle p -> triangle q -> (BdrySpec.consistent_pair 2 p q <-> forall e, In e (dedges p) -> ~ In e (dedges q)).
Proof.
  intros p q P Q. split.
  - intros C [x y] I J. destruct (dedges_face p x y P I) as (F & E & _). destruct (dedges_face q x y Q J) as (F' & E' & _). specialize (C [x; y] F F'). lia.
  - intros D f F F'. pose proof F as (N & L & _). change (2 - 1) with 1 in *. destruct f as [|x [|y [|]]]; simpl in L; try lia. assert (Hxy : x <> y) by (intros ->; inversion N; subst; cbn in *; tauto).
    destruct (face_dedges p x y P F) as [I|I], (face_dedges q x y Q F') as [J|J]; try (exfalso; apply (D _ I J));
      destruct (dedges_face _ _ _ P I) as (_ & E1 & _), (dedges_face _ _ _ Q J) as (_ & E2 & _); try (rewrite (inc_swap x y) in E1 by auto); try (rewrite (inc_swap x y) in E2 by auto); lia.
Qed.

(** ---- families of directed edges ---- *)
Definition dedge := (nat * nat)%type.
Definition fhas (D : nat -> list dedge) (j x y : nat) : Prop := In (x, y) (D j) \/ In (y, x) (D j).
Definition fcons (N : nat) (D : nat -> list dedge) : Prop := forall j1 j2, j1 < N -> j2 < N -> j1 <> j2 -> forall e, In e (D j1) -> ~ In e (D j2).
Definition ftwo (N : nat) (D : nat -> list dedge) : Prop := forall x y j1 j2 j3, j1 < N -> j2 < N -> j3 < N -> fhas D j1 x y -> fhas D j2 x y -> fhas D j3 x y -> j1 = j2 \/ j1 = j3 \/ j2 = j3.
Definition fadj (N : nat) (D : nat -> list dedge) (j1 j2 : nat) : Prop := j1 < N /\ j2 < N /\ j1 <> j2 /\ exists x y, fhas D j1 x y /\ fhas D j2 x y.
Definition fbd (N : nat) (D : nat -> list dedge) (x y : nat) : Prop := exists j, j < N /\ fhas D j x y /\ forall j', j' < N -> fhas D j' x y -> j' = j.
Inductive chain (R : nat -> nat -> Prop) : nat -> nat -> Prop :=
| chain_refl : forall j, chain R j j
| chain_step : forall j1 j2 j3, chain R j1 j2 -> R j2 j3 -> chain R j1 j3.
Lemma chain_trans : forall R a b c, chain R a b -> chain R b c -> chain R a c.
Proof. intros R a b c A B. induction B as [j|j1 j2 j3 B1 IH B2]; auto. apply (chain_step R a j2 j3); auto. Qed.
Lemma chain_mono : forall (R R' : nat -> nat -> Prop) a b, (forall x y, R x y -> R' x y) -> chain R a b -> chain R' a b.
Proof. intros R R' a b H C. induction C as [j|j1 j2 j3 B1 IH B2]; [constructor|apply (chain_step R' j1 j2 j3); auto]. Qed.
Lemma fhas_sym : forall D j x y, fhas D j x y -> fhas D j y x.
Proof. unfold fhas. tauto. Qed.

Section Quads.
Variable rows : list cube.
Hypothesis Q : Forall quad rows.
Definition qd (j : nat) : list dedge := qedges (nth j rows []).
Lemma quad_nth : forall j, j < length rows -> quad (nth j rows []).
Proof. intros. rewrite Forall_forall in Q. apply Q, nth_In. auto. Qed.
Lemma side_pair : forall q f, quad q -> has_side 2 q f -> exists x y, f = [x; y].
Proof.
  intros q f HQ (a & s & g & z & Ha & S0 & R). destruct (side_edge q a s g HQ Ha S0) as [_ L]. change (2 - 1) with 1 in R. destruct g as [|x [|y [|]]]; simpl in L; try lia.
  destruct (related1 _ _ _ R x y eq_refl) as [[_ ->]|[_ ->]]; eauto.
Qed.
Lemma quads_side : forall j x y, j < length rows -> (has_side 2 (nth j rows []) [x; y] <-> fhas qd j x y).
Proof. intros. apply has_side_edge, quad_nth; auto. Qed.
Lemma quads_cons : COrSpec.consistent 2 rows <-> fcons (length rows) qd.
Proof.
  split; intros C j1 j2 H1 H2 N.
  - apply quad_consistent; auto using quad_nth.
  - apply quad_consistent; auto using quad_nth. apply C; auto.
Qed.
Lemma quads_two : COrSpec.at_most_two 2 rows <-> ftwo (length rows) qd.
Proof.
  split.
  - intros C x y j1 j2 j3 H1 H2 H3. rewrite <- !quads_side by auto. apply C; auto.
  - intros C f j1 j2 j3 H1 H2 H3 A1 A2 A3. destruct (side_pair _ f (quad_nth _ H1) A1) as (x & y & ->). rewrite quads_side in A1, A2, A3 by auto. eapply C; eauto.
Qed.
Lemma quads_adj : forall j1 j2, COrSpec.adjacent 2 rows j1 j2 <-> fadj (length rows) qd j1 j2.
Proof.
  intros j1 j2. split.
  - intros (H1 & H2 & N & f & A1 & A2). destruct (side_pair _ f (quad_nth _ H1) A1) as (x & y & ->). rewrite quads_side in A1, A2 by auto. split; auto. split; auto. split; eauto.
  - intros (H1 & H2 & N & x & y & A1 & A2). rewrite <- quads_side in A1, A2 by auto. split; auto. split; auto. split; eauto.
Qed.
Lemma quads_connected : COrSpec.connected 2 rows <-> forall j, j < length rows -> chain (fadj (length rows) qd) 0 j.
Proof.
  assert (A : forall a b, COrSpec.linked 2 rows a b -> chain (fadj (length rows) qd) a b).
  { intros a b C. induction C as [j|j1 j2 j3 C1 IH C2]; [constructor|]. apply (chain_step _ j1 j2 j3); [auto|]. apply quads_adj; auto. }
  assert (B : forall a b, chain (fadj (length rows) qd) a b -> COrSpec.linked 2 rows a b).
  { intros a b C. induction C as [j|j1 j2 j3 C1 IH C2]; [constructor|]. apply (COrSpec.linked_step _ _ j1 j2 j3); [auto|]. apply quads_adj; auto. }
  split; intros C j Hj; specialize (C j Hj); auto.
Qed.
Lemma quads_bd : forall x y, COrSpec.boundary_face 2 rows [x; y] <-> fbd (length rows) qd x y.
Proof.
  intros x y. split; intros (j & Hj & A & U); exists j; (split; [auto|]).
  - rewrite quads_side in A by auto. split; auto. intros j' Hj' A'. apply U; auto. apply quads_side; auto.
  - rewrite <- quads_side in A by auto. split; auto. intros j' Hj' A'. apply U; auto. apply quads_side; auto.
Qed.
End Quads.

Section Triangles.
Variable rows : list simplex.
Hypothesis Q : Forall triangle rows.
Definition td (j : nat) : list dedge := dedges (nth j rows []).
Lemma tri_nth : forall j, j < length rows -> triangle (nth j rows []).
Proof. intros. rewrite Forall_forall in Q. apply Q, nth_In. auto. Qed.
Lemma face_pair : forall s f, is_face 1 f s -> exists x y, f = [x; y].
Proof. intros s f (_ & L & _). destruct f as [|x [|y [|]]]; simpl in L; try lia. eauto. Qed.
Lemma tris_side : forall j x y, j < length rows -> (is_face 1 [x; y] (nth j rows []) <-> fhas td j x y).
Proof.
  intros j x y Hj. pose proof (tri_nth j Hj) as P. split; [apply face_dedges; auto|]. intros [I|I]; destruct (dedges_face _ _ _ P I) as (F & _ & _ & N); auto.
  destruct F as (A & B & C). split; [|split; auto]; [repeat constructor; cbn; intuition|]. intros v Hv. apply C. cbn in *. tauto.
Qed.
Lemma tris_cons : BdrySpec.consistent 2 rows <-> fcons (length rows) td.
Proof.
  split; intros C j1 j2 H1 H2 N.
  - apply triangle_consistent; auto using tri_nth.
  - apply triangle_consistent; auto using tri_nth. apply C; auto.
Qed.
Lemma tris_two : BdrySpec.at_most_two 2 rows <-> ftwo (length rows) td.
Proof.
  split.
  - intros C x y j1 j2 j3 H1 H2 H3. rewrite <- !tris_side by auto. apply (C [x; y]); auto.
  - intros C f j1 j2 j3 H1 H2 H3 A1 A2 A3. change (2 - 1) with 1 in *. destruct (face_pair _ f A1) as (x & y & ->). rewrite tris_side in A1, A2, A3 by auto. eapply C; eauto.
Qed.
Lemma tris_adj : forall j1 j2, BdrySpec.adjacent 2 rows j1 j2 <-> fadj (length rows) td j1 j2.
Proof.
  intros j1 j2. split.
  - intros (H1 & H2 & N & f & A1 & A2). change (2 - 1) with 1 in *. destruct (face_pair _ f A1) as (x & y & ->). rewrite tris_side in A1, A2 by auto. split; auto. split; auto. split; eauto.
  - intros (H1 & H2 & N & x & y & A1 & A2). rewrite <- tris_side in A1, A2 by auto. split; auto. split; auto. split; eauto.
Qed.
Lemma tris_connected : BdrySpec.connected 2 rows <-> forall j, j < length rows -> chain (fadj (length rows) td) 0 j.
Proof.
  assert (A : forall a b, BdrySpec.linked 2 rows a b -> chain (fadj (length rows) td) a b).
  { intros a b C. induction C as [j|j1 j2 j3 C1 IH C2]; [constructor|]. apply (chain_step _ j1 j2 j3); [auto|]. apply tris_adj; auto. }
  assert (B : forall a b, chain (fadj (length rows) td) a b -> BdrySpec.linked 2 rows a b).
  { intros a b C. induction C as [j|j1 j2 j3 C1 IH C2]; [constructor|]. apply (BdrySpec.linked_step _ _ j1 j2 j3); [auto|]. apply tris_adj; auto. }
  split; intros C j Hj; specialize (C j Hj); auto.
Qed.
Lemma tris_bd : forall x y, BdrySpec.boundary_face 2 rows [x; y] <-> fbd (length rows) td x y.
Proof.
  intros x y. split; intros (j & Hj & A & U); change (2 - 1) with 1 in *; exists j; (split; [auto|]).
  - rewrite tris_side in A by auto. split; auto. intros j' Hj' A'. apply U; auto. apply tris_side; auto.
  - rewrite <- tris_side in A by auto. split; auto. intros j' Hj' A'. apply U; auto. apply tris_side; auto.
Qed.
End Triangles.

(** Replacing every polygon by [K] connected polygons. *)
Lemma connected_blocks : forall K N (R R' : nat -> nat -> Prop), 0 < K ->
  (forall p1 p2, R' p1 p2 -> p1 < N * K /\ p2 < N * K /\ (p1 / K = p2 / K \/ R (p1 / K) (p2 / K))) ->
  (forall j1 j2, R j1 j2 -> j1 < N /\ j2 < N /\ exists p1 p2, p1 < N * K /\ p2 < N * K /\ p1 / K = j1 /\ p2 / K = j2 /\ R' p1 p2) ->
  (forall p1 p2, p1 < N * K -> p2 < N * K -> p1 / K = p2 / K -> chain R' p1 p2) ->
  ((forall j, j < N -> chain R 0 j) <-> (forall p, p < N * K -> chain R' 0 p)).
Proof.
  intros K N R R' HK A B C. assert (Z0 : 0 / K = 0) by (apply Nat.div_0_l; lia). split.
  - intros H p Hp. assert (Hj : p / K < N) by (apply Nat.div_lt_upper_bound; lia). specialize (H _ Hj). remember (p / K) as j eqn:Ej. revert p Hp Ej. remember 0 as z eqn:Ez in H.
    induction H as [j|j1 j2 j3 H1 IH H2]; intros p Hp Ej; subst.
    + apply C; [nia|auto|lia].
    + destruct (B _ _ H2) as (G1 & G2 & p1 & p2 & P1 & P2 & E1 & E2 & R1). apply (chain_trans _ 0 p1 p); [apply IH; auto|]. apply (chain_trans _ p1 p2 p); [eapply chain_step; [constructor|auto]|]. apply C; auto.
  - intros H j Hj. assert (Hp : j * K < N * K) by nia. specialize (H _ Hp). assert (G : forall a b, chain R' a b -> chain R (a / K) (b / K)).
    { intros a b G. induction G as [a|a b c G1 IH G2]; [constructor|]. destruct (A _ _ G2) as (_ & _ & [E|E]); [rewrite <- E; auto|eapply chain_step; eauto]. }
    apply G in H. rewrite Z0, Nat.div_mul in H by lia. auto.
Qed.
(** Two lists of pairwise different sets, each occurring in the other. *)
Lemma same_sets_length : forall (P L : list (list nat)),
  (forall i i', i < length P -> i' < length P -> Permutation (nth i P []) (nth i' P []) -> i = i') ->
  (forall i i', i < length L -> i' < length L -> Permutation (nth i L []) (nth i' L []) -> i = i') ->
  (forall i, i < length P -> exists k, k < length L /\ Permutation (nth i P []) (nth k L [])) ->
  (forall i, i < length L -> exists k, k < length P /\ Permutation (nth i L []) (nth k P [])) -> length P = length L.
Proof.
  assert (G : forall P L : list (list nat), (forall i i', i < length P -> i' < length P -> Permutation (nth i P []) (nth i' P []) -> i = i') ->
    (forall i, i < length P -> exists k, k < length L /\ Permutation (nth i P []) (nth k L [])) -> length P <= length L).
  { intros P L U C. rewrite <- (map_length (isort Nat.leb) P), <- (map_length (isort Nat.leb) L). apply NoDup_incl_length.
    - apply (NoDup_nth _ []). rewrite map_length. intros i i' Hi Hi' E. apply U; auto. rewrite !(nth_map_lt _ _ _ _ _ []) in E by auto.
      transitivity (isort Nat.leb (nth i P [])); [|rewrite E]; [|symmetry]; apply isort_perm.
    - intros r Hr. apply in_map_iff in Hr as (p & <- & Hp). apply In_nth with (d := []) in Hp as (i & Hi & <-). destruct (C i Hi) as (k & Hk & Pk). rewrite (proj2 (isort_nat_eq _ _) Pk). apply in_map, nth_In. auto. }
  intros P L A B C D. apply Nat.le_antisymm; apply G; auto.
Qed.

(** ---- lists of edges ---- *)
Definition lists_edges (N : nat) (D : nat -> list dedge) (P : list (list nat)) : Prop :=
  NoDup (map (isort Nat.leb) P) /\ forall p, In p (map (isort Nat.leb) P) <-> exists x y j, p = [x; y] /\ x < y /\ j < N /\ fhas D j x y.
Lemma lists_edges_length : forall N D P L, lists_edges N D P -> lists_edges N D L -> length P = length L.
Proof.
  intros N D P L [A B] [A' B']. rewrite <- (map_length (isort Nat.leb) P), <- (map_length (isort Nat.leb) L). apply Permutation_length, NoDup_Permutation; auto. intros p. rewrite B, B'. tauto.
Qed.
Lemma sort2 : forall x y, x < y -> isort Nat.leb [x; y] = [x; y] /\ isort Nat.leb [y; x] = [x; y].
Proof.
  intros x y H. assert (E : isort Nat.leb [x; y] = [x; y]) by (cbn; rewrite (proj2 (Nat.leb_le x y)) by lia; auto). split; auto. rewrite <- E. apply isort_nat_eq. apply perm_swap.
Qed.
Lemma sort2_cases : forall p x y, Permutation p [x; y] -> x <> y -> exists a b, a < b /\ isort Nat.leb p = [a; b] /\ (a = x /\ b = y \/ a = y /\ b = x).
Proof.
  intros p x y Pm N. apply isort_nat_eq in Pm. rewrite Pm. destruct (lt_eq_lt_dec x y) as [[L|L]|L]; [|lia|]; [exists x, y|exists y, x]; (split; [auto|]; split; [|auto]); apply sort2; auto.
Qed.
Lemma fhas_ab : forall D j x y a b, (a = x /\ b = y \/ a = y /\ b = x) -> (fhas D j x y <-> fhas D j a b).
Proof. intros D j x y a b [[-> ->]|[-> ->]]; unfold fhas; tauto. Qed.
Lemma lists_edges_intro : forall N D P, (forall j x y, j < N -> fhas D j x y -> x <> y) ->
  (forall i i', i < length P -> i' < length P -> Permutation (nth i P []) (nth i' P []) -> i = i') ->
  (forall i, i < length P -> exists x y j, j < N /\ fhas D j x y /\ Permutation (nth i P []) [x; y]) ->
  (forall j x y, j < N -> fhas D j x y -> exists i, i < length P /\ Permutation (nth i P []) [x; y]) -> lists_edges N D P.
Proof.
  intros N D P X U A B. split.
  - apply (NoDup_nth _ []). rewrite map_length. intros i i' Hi Hi' E. apply U; auto. rewrite !(nth_map_lt _ _ _ _ _ []) in E by auto. apply isort_nat_eq. auto.
  - intros p. rewrite in_map_iff. split.
    + intros (q & <- & Hq). apply In_nth with (d := []) in Hq as (i & Hi & <-). destruct (A i Hi) as (x & y & j & Hj & F & Pm). destruct (sort2_cases _ _ _ Pm (X j x y Hj F)) as (a & b & L & E & C). exists a, b, j. split; auto. split; auto. split; auto. apply (fhas_ab D j x y a b C). auto.
    + intros (x & y & j & -> & L & Hj & F). destruct (B j x y Hj F) as (i & Hi & Pm). exists (nth i P []). split; [|apply nth_In; auto]. apply isort_nat_eq in Pm. rewrite Pm. apply sort2. auto.
Qed.
Lemma qd_neq : forall rows j x y, Forall quad rows -> j < length rows -> fhas (qd rows) j x y -> x <> y.
Proof. intros rows j x y Q Hj [I|I]; apply (quad_nodup_edge _ _ _ (quad_nth rows Q j Hj)) in I; destruct I; auto. Qed.
Lemma td_neq : forall rows j x y, Forall triangle rows -> j < length rows -> fhas (td rows) j x y -> x <> y.
Proof. intros rows j x y Q Hj [I|I]; apply (dedges_face _ _ _ (tri_nth rows Q j Hj)) in I; destruct I as (_ & _ & _ & N); auto. Qed.
Lemma quads_edges : forall rows t, Forall quad rows -> ctop 2 rows t -> lists_edges (length rows) (qd rows) (nth 1 (elements t) []).
Proof.
  intros rows t Q T. pose proof (ct_level _ _ _ T 1 ltac:(lia)) as L. rewrite (ct_top _ _ _ T) in L. apply lists_edges_intro.
  - intros j x y. apply qd_neq. auto.
  - apply (cl_uniq _ _ _ _ _ L).
  - intros i Hi. destruct (cl_sub _ _ _ _ _ L i Hi) as (c & a & s & z & Hc & Ha & R). apply In_nth with (d := []) in Hc as (j & Hj & <-).
    assert (HS : has_side 2 (nth j rows []) (nth i (nth 1 (elements t) []) [])) by (exists a, s; eexists; exists z; split; [exact Ha|]; split; [|exact R]; apply slice_is_slice; auto).
    destruct (side_pair _ _ (quad_nth rows Q j Hj) HS) as (x & y & E). exists x, y, j. rewrite E in *. split; auto. split; auto. apply quads_side; auto.
  - intros j x y Hj F. apply quads_side in F as (a & s & g & z & Ha & S0 & R); auto. apply is_slice_slice in S0; auto. subst g. destruct (cl_idx _ _ _ _ _ L j a s Hj Ha) as (Hk & (z' & R') & _). eexists. split; [exact Hk|].
    change (2 - 1) with 1 in *. destruct (side_edge _ a s _ (quad_nth rows Q j Hj) Ha (slice_is_slice 2 a s _ Ha)) as [_ Lg].
    destruct (slice 2 a s (nth j rows [])) as [|u [|v [|]]]; simpl in Lg; try lia.
    destruct (related1 _ _ _ R u v eq_refl) as [[_ E]|[_ E]], (related1 _ _ _ R' u v eq_refl) as [[_ E']|[_ E']]; injection E as -> ->; rewrite E'; auto using perm_swap.
Qed.
Lemma tris_edges : forall rows t, Forall triangle rows -> top_ok 2 rows t -> lists_edges (length rows) (td rows) (nth 1 (elements t) []).
Proof.
  intros rows t Q T. pose proof (to_level _ _ _ T 1 ltac:(lia)) as L. rewrite (to_top _ _ _ T) in L. apply lists_edges_intro.
  - intros j x y. apply td_neq. auto.
  - apply (lv_uniq _ _ _ _ _ L).
  - intros i Hi. destruct (lv_sub _ _ _ _ _ L i Hi) as (s & c & Hs & Hc & Pm). apply In_nth with (d := []) in Hs as (j & Hj & <-). destruct (triangle_abc _ (tri_nth rows Q j Hj)) as (a & b & d & E & _). unfold fhas, td.
    rewrite E in Pm. do 3 (destruct c as [|c]; [eexists; eexists; exists j; split; [auto|]; split; [|symmetry; exact Pm]; rewrite E; cbn; auto|]). lia.
  - intros j x y Hj F. destruct (triangle_abc _ (tri_nth rows Q j Hj)) as (a & b & d & E & _). assert (C : exists c, c < 3 /\ Permutation (omit c [a; b; d]) [x; y]).
    { unfold fhas, td in F. rewrite E in F. cbn in F. destruct F as [[F|[F|[F|[]]]]|[F|[F|[F|[]]]]]; injection F as <- <-; [exists 2|exists 0|exists 1|exists 2|exists 0|exists 1]; cbn; auto using perm_swap. }
    destruct C as (c & Hc & Pm). destruct (lv_cover _ _ _ _ _ L (nth j rows []) c (nth_In _ _ Hj) Hc) as (k & Hk & Pk). exists k. split; auto. rewrite <- Pk, E. auto.
Qed.
