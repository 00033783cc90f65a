(** Tetrahedra cut into cubes. *)
Require Import List Arith ZArith Bool Lia Permutation Sorting.Sorted.
From Verif Require Import Arr Util CombModel CombSpec CombProofs SimpModel SimpSpec ParProofs SimpProofs LevelProofs TopProofs BdryModel BdrySpec.
From Verif Require Import OrientProofs SubProofs SubdModel FundProofs BaryProofs.
From Verif Require Import CubeModel CubeSpec CubeBits CubeBd CubeRel CubeTop CubeChain COrSpec CDomSpec CubeGrid QuadModel QuadSpec QuadProofs.
Import ListNotations.
Local Open Scope nat_scope.

(** Repeated entries of a sorted row. *)
Lemma repeated_count : forall q, StronglySorted le q -> forall v, count_occ Nat.eq_dec (repeated q) v = count_occ Nat.eq_dec q v - 1.
Proof.
  induction q as [|a q IH]; intros SS v; [reflexivity|]. inversion SS as [|? ? S1 F]; subst. specialize (IH S1 v). destruct q as [|b r]; [cbn; destruct (Nat.eq_dec a v); lia|].
  change (repeated (a :: b :: r)) with (if a =? b then a :: repeated (b :: r) else repeated (b :: r)).
  destruct (Nat.eqb_spec a b) as [<-|Nab].
  - destruct (Nat.eq_dec a v) as [E|E]; [|rewrite !(count_occ_cons_neq _ _ E) in *; auto]. rewrite !(count_occ_cons_eq _ _ E) in *. lia.
  - rewrite IH. destruct (Nat.eq_dec a v) as [<-|E]; [|rewrite (count_occ_cons_neq _ (b :: r) E); auto]. rewrite (count_occ_cons_eq _ (b :: r)) by auto.
    assert (Z : count_occ Nat.eq_dec (b :: r) a = 0). { apply count_occ_not_In. intros I. rewrite Forall_forall in F. inversion S1 as [|? ? S2 F2]; subst. rewrite Forall_forall in F2. pose proof (F b (or_introl eq_refl)). destruct I as [I|I]; [congruence|]. apply F2 in I. lia. }
    lia.
Qed.

Lemma repeated_common : forall l r x y p q, Permutation l [x; y; p] -> Permutation r [x; y; q] -> NoDup [x; y; p; q] -> Permutation (repeated (isort Nat.leb (l ++ r))) [x; y].
Proof.
  intros l r x y p q L R ND. apply (Permutation_count_occ Nat.eq_dec). intros v. rewrite repeated_count.
  - rewrite <- (proj1 (Permutation_count_occ Nat.eq_dec _ _) (isort_perm _ Nat.leb (l ++ r))). rewrite count_occ_app. rewrite (proj1 (Permutation_count_occ Nat.eq_dec _ _) L), (proj1 (Permutation_count_occ Nat.eq_dec _ _) R).
    inversion ND as [|? ? A1 A2]; subst. inversion A2 as [|? ? B1 B2]; subst. inversion B2 as [|? ? C1 C2]; subst. cbn [In] in *. cbn [count_occ]. destruct (Nat.eq_dec x v), (Nat.eq_dec y v), (Nat.eq_dec p v), (Nat.eq_dec q v); subst; try lia; exfalso; tauto.
  - pose proof (isort_sorted nat Nat.leb (l ++ r) leb_total leb_trans) as X. clear - X. induction X as [|a q H IH F]; constructor; auto. rewrite Forall_forall in *. intros z Hz. apply Nat.leb_le. auto.
Qed.
Lemma in_pairs_ok : forall L, Forall (fun p => length p = 2) L -> in_pairs (concat L) = Ok L.
Proof.
  induction L as [|p L IH]; intros F; [reflexivity|]. inversion F as [|? ? H1 H2]; subst. destruct p as [|x [|y [|]]]; simpl in H1; try lia. cbn [concat app in_pairs]. rewrite IH by auto. reflexivity.
Qed.
(** Edges always match. *)
Lemma edges_match : forall n rows, 1 <= n -> Forall (fun c => length c = 2 ^ n) rows -> faces_match 1 n rows.
Proof.
  intros n rows Hn F c d f g Hc Hd Fc Fd Pm. assert (L : forall n c f, subcube 1 n c f -> length c = 2 ^ n -> length f = 2).
  { intros n0 c0 f0 S0. induction S0 as [c0|m a s c0 d0 f0 Ha Hs S0 IH]; intros L; [auto|]. apply IH. destruct Hs as [Ld _]. rewrite Ld. f_equal. lia. }
  rewrite Forall_forall in F. apply L in Fc; auto. apply L in Fd; auto. destruct f as [|x [|y [|]]]; simpl in Fc; try lia. destruct g as [|u [|v [|]]]; simpl in Fd; try lia.
  apply Permutation_length_2_inv in Pm as [E|E]; injection E as -> ->; [exists 1%Z; constructor|exists (-1)%Z; apply related1_swap].
Qed.
(** Quads whose corners are numbered increasingly along both axes match if they have the same corners. *)
Lemma increasing_match : forall p q r s p' q' r' s', p < q -> p < r -> q < s -> r < s -> p' < q' -> p' < r' -> q' < s' -> r' < s' ->
  Permutation [p; q; r; s] [p'; q'; r'; s'] -> exists z, related 2 z [p; q; r; s] [p'; q'; r'; s'].
Proof.
  intros p q r s p' q' r' s' A1 A2 A3 A4 B1 B2 B3 B4 P.
  assert (G : forall x, In x [p; q; r; s] <-> In x [p'; q'; r'; s']) by (intros x; split; apply Permutation_in; [|symmetry]; auto). cbn [In] in G.
  assert (p = p') by (pose proof (proj1 (G p)); pose proof (proj2 (G p')); lia). assert (s = s') by (pose proof (proj1 (G s)); pose proof (proj2 (G s')); lia). subst p' s'.
  apply Permutation_cons_inv in P. assert (P2 : Permutation (s :: [q; r]) (s :: [q'; r'])).
  { transitivity [q; r; s]; [apply (Permutation_app_comm [s] [q; r])|]. rewrite P. apply (Permutation_app_comm [q'; r'] [s]). }
  apply Permutation_cons_inv in P2. apply Permutation_length_2_inv in P2 as [E|E]; injection E as -> ->; [exists 1%Z; constructor|]. exists (-1)%Z.
  apply (related_swap 2 0 1 [p; q; r; s] [p; q; r; s]); [constructor|lia|]. split; auto. intros [|a [|b [|]]] L; simpl in L; try lia. destruct a, b; reflexivity.
Qed.

Definition pv (c k : nat) : nat := (c + 4 - k) mod 4.
Lemma pv_facts : forall c, c < 4 -> pv c 1 < 4 /\ pv c 2 < 4 /\ pv c 3 < 4 /\ NoDup [c; pv c 1; pv c 2; pv c 3] /\ forall i, i < 4 -> i = c \/ i = pv c 1 \/ i = pv c 2 \/ i = pv c 3.
Proof. intros c Hc. do 4 (destruct c as [|c]; [cbn; repeat split; try lia; repeat constructor; cbn; lia|]). lia. Qed.
Lemma np_roll_nth : forall f c k, length f = 4 -> c < 4 -> 1 <= k <= 3 -> nth c (np_roll k f) 0 = nth (pv c k) f 0.
Proof.
  intros f c k L Hc Hk. destruct f as [|f0 [|f1 [|f2 [|f3 [|]]]]]; simpl in L; try lia. assert (k = 1 \/ k = 2 \/ k = 3) as [->|[->| ->]] by lia; do 4 (destruct c as [|c]; [reflexivity|]); lia.
Qed.

Section Tet.
Variables (rows : list simplex) (t : topology).
Hypothesis OK : simplices_ok 3 rows.
Hypothesis T : top_ok 3 rows t.
Notation N := (length rows).
Notation n0 := (n_elements t 0).
Notation n1 := (n_elements t 1).
Notation n2 := (n_elements t 2).
Notation I32 := (nth 2 (boundary_idx t) []).
Definition vv (j c : nat) : nat := nth c (nth j rows []) 0.
Definition fi (j c : nat) : nat := nth c (nth j I32 []) 0.
Definition ei (j p q : nat) : nat := idx t 1 [vv j p; vv j q].
Definition tc (j c : nat) : cube :=
  [vv j c; ei j c (pv c 3) + n0; ei j c (pv c 2) + n0; fi j (pv c 1) + (n0 + n1); ei j c (pv c 1) + n0; fi j (pv c 2) + (n0 + n1); fi j (pv c 3) + (n0 + n1); j + (n0 + n1 + n2)].

Lemma tet_row : forall j, j < N -> nth j rows [] = [vv j 0; vv j 1; vv j 2; vv j 3] /\ NoDup (nth j rows []) /\ (forall c, c < 4 -> vv j c < n0) /\ (forall c c', c < 4 -> c' < 4 -> vv j c = vv j c' -> c = c').
Proof.
  intros j Hj. destruct OK as [_ F]. rewrite Forall_forall in F. destruct (F _ (nth_In rows [] Hj)) as [L ND].
  assert (E : nth j rows [] = [vv j 0; vv j 1; vv j 2; vv j 3]) by (unfold vv; destruct (nth j rows []) as [|v0 [|v1 [|v2 [|v3 [|]]]]]; simpl in L; try lia; reflexivity).
  split; auto. split; auto. split.
  - intros c Hc. apply (to_vused _ _ _ T), in_concat. exists (nth j rows []). split; [apply nth_In; auto|]. apply nth_In. lia.
  - intros c c' Hc Hc' X. apply (proj1 (NoDup_nth (nth j rows []) 0) ND); auto; lia.
Qed.
Lemma sub_inside : forall j s, j < N -> NoDup s -> (forall u, In u s -> exists c, c < 4 /\ u = vv j c) -> inside rows s.
Proof.
  intros j s Hj ND H. split; auto. exists (nth j rows []). split; [apply nth_In; auto|]. intros u Hu. destruct (H u Hu) as (c & Hc & ->). destruct (tet_row j Hj) as (E & _). apply nth_In. rewrite E. simpl. lia.
Qed.
Lemma ei_ok : forall j p q, j < N -> p < 4 -> q < 4 -> p <> q -> ei j p q < n1 /\ Permutation (el t 1 (ei j p q)) [vv j p; vv j q].
Proof.
  intros j p q Hj Hp Hq Ne. apply (idx_ok 3 rows t ltac:(lia) T 1); auto. apply (sub_inside j); auto.
  - destruct (tet_row j Hj) as (_ & _ & _ & I). repeat constructor; cbn; intuition.
  - intros u [<-|[<-|[]]]; eauto.
Qed.
Lemma I32_row : forall j, j < N -> length (nth j I32 []) = 4.
Proof.
  intros j Hj. pose proof (to_level _ _ _ T 2 ltac:(lia)) as L. rewrite (to_top _ _ _ T) in L. pose proof (lv_rectB _ _ _ _ _ L) as R. rewrite Forall_forall in R. apply R, nth_In. rewrite (lv_lenB _ _ _ _ _ L). auto.
Qed.
Lemma fi_ok : forall j m a b c, j < N -> m < 4 -> a < 4 -> b < 4 -> c < 4 -> NoDup [m; a; b; c] -> fi j m < n2 /\ Permutation (el t 2 (fi j m)) [vv j a; vv j b; vv j c].
Proof.
  intros j m a b c Hj Hm Ha Hb Hc ND. pose proof (to_level _ _ _ T 2 ltac:(lia)) as L. rewrite (to_top _ _ _ T) in L. destruct (lv_idx _ _ _ _ _ L j m Hj Hm) as (K & P & _). split; [exact K|].
  change (pi 3 m) with m in P. destruct (tet_row j Hj) as (E & NDr & _ & I). unfold el. fold (fi j m) in P. rewrite <- P. clear P K.
  inversion ND as [|? ? A1 A2]; subst. inversion A2 as [|? ? B1 B2]; subst. inversion B2 as [|? ? C1 C2]; subst. cbn [In] in *. rewrite E in *.
  apply NoDup_Permutation.
  - clear - NDr Hm. revert NDr. generalize (vv j 0) (vv j 1) (vv j 2) (vv j 3). intros w x y z H. inversion H as [|? ? A1 A2]; subst. inversion A2 as [|? ? B1 B2]; subst. inversion B2 as [|? ? C1 C2]; subst. cbn [In] in *.
    do 4 (destruct m as [|m]; [cbn; repeat constructor; cbn; tauto|]). lia.
  - repeat constructor; cbn [In]; intros X; repeat destruct X as [X|X]; auto; apply I in X; auto; subst; tauto.
  - intros u. assert (G : In u (omit m [vv j 0; vv j 1; vv j 2; vv j 3]) <-> exists i, i < 4 /\ i <> m /\ u = vv j i).
    { split.
      - intros H. assert (X : exists i, i < 4 /\ i <> m /\ u = vv j i); [|auto]. do 4 (destruct m as [|m]; [cbn in H; destruct H as [<-|[<-|[<-|[]]]]; ((exists 0; split; [lia|split; [lia|reflexivity]]) || (exists 1; split; [lia|split; [lia|reflexivity]]) || (exists 2; split; [lia|split; [lia|reflexivity]]) || (exists 3; split; [lia|split; [lia|reflexivity]]))|]). lia.
      - intros (i & Hi & Ni & ->). do 4 (destruct m as [|m]; [do 4 (destruct i as [|i]; [cbn; tauto|]); lia|]). lia. }
    rewrite G. cbn [In]. split.
    + intros (i & Hi & Ni & ->). assert (i = a \/ i = b \/ i = c) as [->|[->| ->]] by lia; auto.
    + intros [<-|[<-|[<-|[]]]]; [exists a|exists b|exists c]; repeat split; auto; lia.
Qed.
Lemma off_1 : offset t 1 = n0.
Proof. unfold offset, n_elements. cbn. lia. Qed.
Lemma off_2 : offset t 2 = n0 + n1.
Proof. unfold offset, n_elements. cbn. lia. Qed.
Lemma off_3 : offset t 3 = n0 + n1 + n2.
Proof. unfold offset, n_elements. cbn. lia. Qed.

Lemma common_edge : forall c k k' i, c < 4 -> 1 <= k <= 3 -> 1 <= k' <= 3 -> 1 <= i <= 3 -> NoDup [k; k'; i] ->
  edge_containing_faces t (map (fun f => nth c (np_roll k f) 0) I32) (map (fun f => nth c (np_roll k' f) 0) I32) = Ok (map (fun j => ei j c (pv c i)) (seq 0 N)).
Proof.
  intros c k k' i Hc Hk Hk' Hi ND. unfold edge_containing_faces. assert (LI : length I32 = N) by (pose proof (to_level _ _ _ T 2 ltac:(lia)) as L; rewrite (to_top _ _ _ T) in L; apply (lv_lenB _ _ _ _ _ L)).
  set (g := fun lr : nat * nat => repeated (isort Nat.leb (nth (fst lr) (nth 2 (elements t) []) [] ++ nth (snd lr) (nth 2 (elements t) []) []))).
  assert (E : map g (combine (map (fun f => nth c (np_roll k f) 0) I32) (map (fun f => nth c (np_roll k' f) 0) I32)) = map (fun j => g (fi j (pv c k), fi j (pv c k'))) (seq 0 N)).
  { rewrite <- (map_nth_seq _ I32 []) at 1 2. rewrite !map_map, LI. clear LI. assert (X : forall l, incl l (seq 0 N) -> map g (combine (map (fun x => nth c (np_roll k (nth x I32 [])) 0) l) (map (fun x => nth c (np_roll k' (nth x I32 [])) 0) l)) = map (fun j => g (fi j (pv c k), fi j (pv c k'))) l); [|apply X; intros x; auto].
    induction l as [|j l IH]; intros I; [reflexivity|]. cbn [map combine]. rewrite IH by (intros x Hx; apply I; right; auto). assert (Hj : j < N) by (specialize (I j (or_introl eq_refl)); apply in_seq in I; lia).
    f_equal. unfold fi. rewrite !np_roll_nth by (auto; apply I32_row; auto). reflexivity. }
  rewrite E. destruct (pv_facts c Hc) as (P1 & P2 & P3 & PN & PA).
  assert (G : forall j, j < N -> Permutation (g (fi j (pv c k), fi j (pv c k'))) [vv j c; vv j (pv c i)]).
  { intros j Hj. unfold g. cbn [fst snd]. destruct (tet_row j Hj) as (_ & _ & _ & I). assert (D : forall a, 1 <= a <= 3 -> pv c a < 4) by (intros a Ha; assert (a = 1 \/ a = 2 \/ a = 3) as [->|[->| ->]] by lia; auto).
    assert (Dk : NoDup [c; pv c k; pv c k'; pv c i]).
    { inversion ND as [|? ? A1 A2]; subst. inversion A2 as [|? ? B1 B2]; subst. cbn [In] in *. assert (X : forall a b, 1 <= a <= 3 -> 1 <= b <= 3 -> a <> b -> pv c a <> pv c b /\ pv c a <> c).
      { intros a b Ha Hb Hab. clear - Ha Hb Hab Hc. assert (a = 1 \/ a = 2 \/ a = 3) as [->|[->| ->]] by lia; assert (b = 1 \/ b = 2 \/ b = 3) as [->|[->| ->]] by lia; try lia; do 4 (destruct c as [|c]; [cbn; lia|]); lia. }
      assert (N1 : k <> k') by (intros ->; tauto). assert (N2 : k <> i) by (intros ->; tauto). assert (N3 : k' <> i) by (intros ->; tauto).
      destruct (X k k' Hk Hk' N1), (X k' i Hk' Hi N3), (X i k Hi Hk ltac:(auto)), (X k i Hk Hi N2). repeat constructor; cbn [In]; intuition. }
    inversion Dk as [|? ? A1 A2]; subst. inversion A2 as [|? ? B1 B2]; subst. inversion B2 as [|? ? C1 C2]; subst. cbn [In] in *.
    apply (repeated_common _ _ _ _ (vv j (pv c k')) (vv j (pv c k))).
    - apply (fi_ok j (pv c k)); auto. repeat constructor; cbn [In]; intuition.
    - apply (fi_ok j (pv c k')); auto. repeat constructor; cbn [In]; intuition.
    - repeat constructor; cbn [In]; intros X; repeat destruct X as [X|X]; auto; apply I in X; auto; intuition. }
  rewrite in_pairs_ok.
  - cbn [bind]. rewrite (element_indices_ok 3 rows t ltac:(lia) T); [|lia|].
    + rewrite map_map. f_equal. apply map_ext_in. intros j Hj. apply in_seq in Hj. unfold ei, idx. rewrite (proj2 (isort_nat_eq _ _) (G j ltac:(lia))). auto.
    + apply Forall_forall. intros s Hs. apply in_map_iff in Hs as (j & <- & Hj). apply in_seq in Hj. specialize (G j ltac:(lia)). split; [apply Permutation_length in G; auto|]. apply (sub_inside j); [lia| |].
      * apply (Permutation_NoDup (Permutation_sym G)). destruct (tet_row j ltac:(lia)) as (_ & _ & _ & I). assert (Hi4 : pv c i < 4) by (assert (i = 1 \/ i = 2 \/ i = 3) as [->|[->| ->]] by lia; auto).
        constructor; [|constructor; [|constructor]; auto]. intros [H|[]]. apply I in H; auto. clear - H Hi Hc. revert H. assert (i = 1 \/ i = 2 \/ i = 3) as [->|[->| ->]] by lia; do 4 (destruct c as [|c]; [cbn; lia|]); lia.
      * intros u Hu. apply (Permutation_in _ G) in Hu. destruct Hu as [<-|[<-|[]]]; [exists c|exists (pv c i)]; split; auto. assert (i = 1 \/ i = 2 \/ i = 3) as [->|[->| ->]] by lia; auto.
  - apply Forall_forall. intros s Hs. apply in_map_iff in Hs as (j & <- & Hj). apply in_seq in Hj. specialize (G j ltac:(lia)). apply Permutation_length in G. auto.
Qed.
Lemma corner_cubes_ok : forall c, c < 4 -> corner_cubes t c = Ok (map (fun j => tc j c) (seq 0 N)).
Proof.
  intros c Hc. unfold corner_cubes. rewrite (common_edge c 2 3 1), (common_edge c 1 3 2), (common_edge c 2 1 3) by (auto; try lia; repeat constructor; cbn; lia). cbn [bind]. rewrite (to_top _ _ _ T), off_1, off_2, off_3. f_equal.
  apply map_ext_in. intros j Hj. apply in_seq in Hj. assert (LI : length I32 = N) by (pose proof (to_level _ _ _ T 2 ltac:(lia)) as L; rewrite (to_top _ _ _ T) in L; apply (lv_lenB _ _ _ _ _ L)).
  rewrite !nth_map_seq by lia. rewrite !(nth_map_lt _ _ _ _ _ []) by lia. rewrite !np_roll_nth by (auto; try lia; apply I32_row; lia). reflexivity.
Qed.
Definition Cs : list cube := flat_map (fun j => map (tc j) (seq 0 4)) (seq 0 N).
Lemma Cs_run : forall row_leb, subdivide_cubical row_leb t = from_cubes row_leb true 3 Cs.
Proof.
  intros row_leb. unfold subdivide_cubical. assert (Dm : n_dim t = 3) by apply (to_lenO _ _ _ T). rewrite Dm. cbn [Nat.eqb].
  assert (E : mapM (corner_cubes t) (seq 0 4) = Ok (map (fun c => map (fun j => tc j c) (seq 0 N)) (seq 0 4))) by (apply mapM_map_ok; intros c Hc; apply in_seq in Hc; apply corner_cubes_ok; lia).
  rewrite E. cbn [bind]. rewrite (to_top _ _ _ T). f_equal. unfold Cs. rewrite flat_map_concat_map. f_equal. apply map_ext_in. intros j Hj. apply in_seq in Hj. apply map_ext_in. intros c Hc. apply in_seq in Hc. rewrite !nth_map_seq by lia. reflexivity.
Qed.
Lemma Cs_length : length Cs = N * 4.
Proof. unfold Cs. rewrite (flat_map_const_length _ _ _ _ 4) by (intros; rewrite map_length, seq_length; auto). rewrite seq_length. lia. Qed.
Lemma Cs_nth : forall p, p < N * 4 -> nth p Cs [] = tc (p / 4) (p mod 4) /\ p / 4 < N /\ p mod 4 < 4.
Proof.
  intros p Hp. assert (Hj : p / 4 < N) by (apply Nat.div_lt_upper_bound; lia). assert (Hq : p mod 4 < 4) by (apply Nat.mod_upper_bound; lia). split; auto.
  unfold Cs. rewrite (Nat.div_mod p 4) at 1 by lia. rewrite (Nat.mul_comm 4).
  rewrite (nth_flat_map_const nat (list nat) (fun j => map (tc j) (seq 0 4)) (seq 0 N) 4 (fun x _ => eq_trans (map_length _ _) (seq_length _ _)) _ _ 0) by (auto; rewrite seq_length; auto).
  rewrite seq_nth by auto. rewrite nth_map_seq by auto. auto.
Qed.
Lemma Cs_at : forall j c, j < N -> c < 4 -> j * 4 + c < N * 4 /\ nth (j * 4 + c) Cs [] = tc j c.
Proof.
  intros j c Hj Hc. assert (H : j * 4 + c < N * 4) by lia. assert (Ed : (j * 4 + c) / 4 = j) by (rewrite Nat.div_add_l, Nat.div_small by lia; lia). assert (Em : (j * 4 + c) mod 4 = c) by (rewrite Nat.add_comm, Nat.mod_add, Nat.mod_small by lia; lia).
  split; auto. destruct (Cs_nth _ H) as (E & _). rewrite Ed, Em in E. auto.
Qed.
Record parts (j c : nat) : Prop := {
  p_v : vv j c < n0;
  p_e : forall k, 1 <= k <= 3 -> ei j c (pv c k) < n1 /\ Permutation (el t 1 (ei j c (pv c k))) [vv j c; vv j (pv c k)];
  p_f1 : fi j (pv c 1) < n2 /\ Permutation (el t 2 (fi j (pv c 1))) [vv j c; vv j (pv c 2); vv j (pv c 3)];
  p_f2 : fi j (pv c 2) < n2 /\ Permutation (el t 2 (fi j (pv c 2))) [vv j c; vv j (pv c 1); vv j (pv c 3)];
  p_f3 : fi j (pv c 3) < n2 /\ Permutation (el t 2 (fi j (pv c 3))) [vv j c; vv j (pv c 1); vv j (pv c 2)];
  p_w : NoDup [vv j c; vv j (pv c 1); vv j (pv c 2); vv j (pv c 3)]
}.
Lemma parts_ex : forall j c, j < N -> c < 4 -> parts j c.
Proof.
  intros j c Hj Hc. destruct (pv_facts c Hc) as (P1 & P2 & P3 & PN & _). destruct (tet_row j Hj) as (_ & _ & V & I). inversion PN as [|? ? A1 A2]; subst. inversion A2 as [|? ? B1 B2]; subst. inversion B2 as [|? ? C1 C2]; subst. cbn [In] in *. constructor.
  - auto.
  - intros k Hk. assert (k = 1 \/ k = 2 \/ k = 3) as [->|[->| ->]] by lia; apply ei_ok; auto; intuition.
  - apply fi_ok; auto. repeat constructor; cbn [In]; intuition.
  - apply fi_ok; auto. repeat constructor; cbn [In]; intuition.
  - apply fi_ok; auto. repeat constructor; cbn [In]; intuition.
  - repeat constructor; cbn [In]; intros X; repeat destruct X as [X|X]; auto; apply I in X; auto; intuition.
Qed.
Lemma distinct_by_set : forall k e e' x l l', Permutation (el t k e) l -> Permutation (el t k e') l' -> In x l -> ~ In x l' -> e <> e'.
Proof. intros k e e' x l l' P P' I NI ->. apply NI. apply (Permutation_in _ P'), (Permutation_in _ (Permutation_sym P)). auto. Qed.
Lemma tc_nodup : forall j c, j < N -> c < 4 -> NoDup (tc j c).
Proof.
  intros j c Hj Hc. destruct (parts_ex j c Hj Hc) as [V E [F1 G1] [F2 G2] [F3 G3] W]. destruct (E 1 ltac:(lia)) as [E1 H1], (E 2 ltac:(lia)) as [E2 H2], (E 3 ltac:(lia)) as [E3 H3].
  inversion W as [|? ? A1 A2]; subst. inversion A2 as [|? ? B1 B2]; subst. inversion B2 as [|? ? C1 C2]; subst. cbn [In] in A1, B1, C1.
  set (w1 := vv j (pv c 1)) in *. set (w2 := vv j (pv c 2)) in *. set (w3 := vv j (pv c 3)) in *. set (v := vv j c) in *.
  assert (D12 : ei j c (pv c 1) <> ei j c (pv c 2)) by (apply (distinct_by_set 1 _ _ w1 _ _ H1 H2); cbn [In]; intuition).
  assert (D13 : ei j c (pv c 1) <> ei j c (pv c 3)) by (apply (distinct_by_set 1 _ _ w1 _ _ H1 H3); cbn [In]; intuition).
  assert (D23 : ei j c (pv c 2) <> ei j c (pv c 3)) by (apply (distinct_by_set 1 _ _ w2 _ _ H2 H3); cbn [In]; intuition).
  assert (X12 : fi j (pv c 1) <> fi j (pv c 2)) by (apply (distinct_by_set 2 _ _ w2 _ _ G1 G2); cbn [In]; intuition).
  assert (X13 : fi j (pv c 1) <> fi j (pv c 3)) by (apply (distinct_by_set 2 _ _ w3 _ _ G1 G3); cbn [In]; intuition).
  assert (X23 : fi j (pv c 2) <> fi j (pv c 3)) by (apply (distinct_by_set 2 _ _ w3 _ _ G2 G3); cbn [In]; intuition).
  unfold tc. repeat constructor; cbn [In]; lia.
Qed.
Lemma Cs_ok : cubes_ok 3 Cs.
Proof.
  split.
  - intros E. pose proof Cs_length as L. rewrite E in L. destruct OK as [NE _]. destruct rows; [auto|simpl in L; lia].
  - apply Forall_forall. intros q Hq. apply In_nth with (d := []) in Hq as (p & Hp & <-). rewrite Cs_length in Hp. destruct (Cs_nth p Hp) as (-> & Hj & Hc). split; [reflexivity|]. apply tc_nodup; auto.
Qed.
Lemma sub23 : forall p f, p < N * 4 -> subcube 2 3 (nth p Cs []) f -> exists x y z w, f = [x; y; z; w] /\ x < y /\ x < z /\ y < w /\ z < w.
Proof.
  intros p f Hp S0. destruct (Cs_nth p Hp) as (E & Hj & Hc). rewrite E in S0. set (j := p / 4) in *. set (c := p mod 4) in *.
  inversion S0 as [|n a s c0 d0 f0 Ha Hs S1]; subst. inversion S1; subst; [|match goal with H : subcube 2 1 _ _ |- _ => inversion H; subst; match goal with H' : subcube 2 0 _ _ |- _ => inversion H' end end].
  apply is_slice_slice in Hs; [|lia]. destruct (parts_ex j c Hj Hc) as [V E0 [F1 G1] [F2 G2] [F3 G3] W]. destruct (E0 1 ltac:(lia)) as [E1 _], (E0 2 ltac:(lia)) as [E2 _], (E0 3 ltac:(lia)) as [E3 _].
  assert (X : forall x0 x1 x2 x3 x4 x5 x6 x7, slice 3 a s [x0; x1; x2; x3; x4; x5; x6; x7] = 
    match a, s with 0, false => [x0; x1; x2; x3] | 0, true => [x4; x5; x6; x7] | 1, false => [x0; x1; x4; x5] | 1, true => [x2; x3; x6; x7] | _, false => [x0; x2; x4; x6] | _, true => [x1; x3; x5; x7] end).
  { intros. destruct a as [|[|[|a]]]; [| | |lia]; destruct s; reflexivity. }
  unfold tc in Hs. rewrite X in Hs. destruct a as [|[|[|a]]]; [| | |lia]; destruct s; subst; do 4 eexists; (split; [reflexivity|]); lia.
Qed.
Lemma Cs_faces : forall k, 1 <= k < 3 -> faces_match k 3 Cs.
Proof.
  intros k Hk. assert (k = 1 \/ k = 2) as [-> | ->] by lia.
  - apply edges_match; [lia|]. destruct Cs_ok as [_ F]. rewrite Forall_forall in *. intros c Hc. apply F. auto.
  - intros c d f g Hc Hd Fc Fd Pm. apply In_nth with (d := []) in Hc as (p & Hp & <-). apply In_nth with (d := []) in Hd as (p' & Hp' & <-). rewrite Cs_length in Hp, Hp'.
    destruct (sub23 p f Hp Fc) as (x & y & z & w & -> & A1 & A2 & A3 & A4), (sub23 p' g Hp' Fd) as (x' & y' & z' & w' & -> & B1 & B2 & B3 & B4). apply increasing_match; auto.
Qed.
Lemma Cs_vertices : forall v, In v (concat Cs) <-> v < n0 + n1 + n2 + N.
Proof.
  intros v. rewrite in_concat. split.
  - intros (s & Hs & Hv). apply In_nth with (d := []) in Hs as (p & Hp & <-). rewrite Cs_length in Hp. destruct (Cs_nth p Hp) as (E & Hj & Hq). rewrite E in Hv.
    destruct (parts_ex _ _ Hj Hq) as [V E0 [F1 G1] [F2 G2] [F3 G3] W]. destruct (E0 1 ltac:(lia)) as [E1 _], (E0 2 ltac:(lia)) as [E2 _], (E0 3 ltac:(lia)) as [E3 _]. unfold tc in Hv. cbn [In] in Hv. lia.
  - intros Hv. assert (G : forall j c, j < N -> c < 4 -> In (tc j c) Cs) by (intros j c Hj Hc; destruct (Cs_at j c Hj Hc) as (Hp & <-); apply nth_In; rewrite Cs_length; auto).
    assert (RW : forall s, In s rows -> exists j, j < N /\ s = nth j rows [] /\ forall u, In u s -> exists c, c < 4 /\ u = vv j c).
    { intros s Hs. apply In_nth with (d := []) in Hs as (j & Hj & <-). exists j. split; auto. split; auto. intros u Hu. destruct (tet_row j Hj) as (E & _). rewrite E in Hu. destruct Hu as [<-|[<-|[<-|[<-|[]]]]]; [exists 0|exists 1|exists 2|exists 3]; (split; [lia|auto]). }
    destruct (le_lt_dec (n0 + n1 + n2) v) as [L|L]; [|destruct (le_lt_dec (n0 + n1) v) as [L1|L1]; [|destruct (le_lt_dec n0 v) as [L2|L2]]].
    + exists (tc (v - (n0 + n1 + n2)) 0). split; [apply G; lia|]. unfold tc. cbn [In]. lia.
    + (* a face *) pose proof (to_level _ _ _ T 2 ltac:(lia)) as LV. rewrite (to_top _ _ _ T) in LV. destruct (lv_sub _ _ _ _ _ LV (v - (n0 + n1))) as (s & m & Hs & Hm & P); [change (v - (n0 + n1) < n2); lia|].
      destruct (RW s Hs) as (j & Hj & -> & _). destruct (lv_idx _ _ _ _ _ LV j m Hj Hm) as (K & P' & _). change (pi 3 m) with m in P'. fold (fi j m) in P', K.
      assert (Ef : fi j m = v - (n0 + n1)) by (apply (lv_uniq _ _ _ _ _ LV); [exact K|change (v - (n0 + n1) < n2); lia|rewrite <- P', P; auto]).
      assert (X : exists c, c < 4 /\ pv c 1 = m) by (clear - Hm; do 4 (destruct m as [|m]; [((exists 0; cbn; lia) || (exists 1; cbn; lia) || (exists 2; cbn; lia) || (exists 3; cbn; lia))|]); lia).
      destruct X as (c & Hc & Ec). exists (tc j c). split; auto. unfold tc. rewrite Ec, Ef. cbn [In]. lia.
    + (* an edge *) assert (He : v - n0 < n1) by lia. destruct (proj1 (faces_complete 3 rows t ltac:(lia) T 2 1 eq_refl (el t 1 (v - n0)))) as (s & Hs & F); [exists (el t 1 (v - n0)); split; auto; apply nth_In; exact He|].
      destruct F as (ND & Le & I). destruct (RW s Hs) as (j & Hj & -> & R). destruct (el t 1 (v - n0)) as [|x [|y [|]]] eqn:Ee; simpl in Le; try lia. destruct (R x (I x ltac:(cbn; auto))) as (p & Hp & ->). destruct (R y (I y ltac:(cbn; auto))) as (q & Hq & ->).
      assert (Npq : q <> p) by (intros ->; inversion ND; cbn in *; tauto). destruct (pv_facts p Hp) as (_ & _ & _ & _ & PA). destruct (ei_ok j p q Hj Hp Hq ltac:(auto)) as [K P].
      assert (E : ei j p q = v - n0). { pose proof (to_level _ _ _ T 1 ltac:(lia)) as LV. apply (lv_uniq _ _ _ _ _ LV); auto. fold (el t 1 (ei j p q)). fold (el t 1 (v - n0)). rewrite Ee. auto. }
      exists (tc j p). split; auto. unfold tc. cbn [In]. destruct (PA q Hq) as [X|[X|[X|X]]]; [congruence|..]; rewrite <- X, E; lia.
    + apply (to_vused _ _ _ T) in L2. apply in_concat in L2 as (r & Hr & Hv'). destruct (RW r Hr) as (j & Hj & -> & R). destruct (R v Hv') as (c & Hc & ->). exists (tc j c). split; auto. left. auto.
Qed.
Lemma Cs_corner : forall j c, j < N -> c < 4 -> corner_cube t j (nth c (nth j rows []) 0) (tc j c).
Proof.
  intros j c Hj Hc. split; [reflexivity|]. destruct (parts_ex j c Hj Hc) as [V E0 [F1 G1] [F2 G2] [F3 G3] W]. destruct (E0 1 ltac:(lia)) as [E1 H1], (E0 2 ltac:(lia)) as [E2 H2], (E0 3 ltac:(lia)) as [E3 H3]. fold (vv j c).
  destruct (pv_facts c Hc) as (P1 & P2 & P3 & _ & PA). destruct (tet_row j Hj) as (Er & NDr & _).
  exists [vv j (pv c 1); vv j (pv c 2); vv j (pv c 3)]. split; auto. split; auto. rewrite (to_top _ _ _ T). split.
  { intros u Hu. assert (X : exists i, i < 4 /\ u = vv j i) by (destruct Hu as [<-|[<-|[<-|[<-|[]]]]]; eauto). destruct X as (i & Hi & ->). apply nth_In. rewrite Er. simpl. lia. }
  change below with offset. intros bs Lb. destruct bs as [|b0 [|b1 [|b2 [|]]]]; simpl in Lb; try lia.
  assert (IN : forall (u : nat), (exists i, i < 3 /\ nth i [b0; b1; b2] false = true /\ nth i [vv j (pv c 1); vv j (pv c 2); vv j (pv c 3)] 0 = u) <-> (b0 = true /\ vv j (pv c 1) = u) \/ (b1 = true /\ vv j (pv c 2) = u) \/ (b2 = true /\ vv j (pv c 3) = u)).
  { intros u. split.
    - intros (i & Hi & Hb & Hu). destruct i as [|[|[|i]]]; [| | |lia]; cbn [nth] in *; auto.
    - intros [[A B]|[[A B]|[A B]]]; [exists 0|exists 1|exists 2]; cbn [nth]; auto. }
  assert (ST : forall k e l, Permutation (el t k e) l -> forall u, In u (nth e (nth k (elements t) []) []) <-> In u l) by (intros k e l P u; split; apply Permutation_in; [|symmetry]; exact P).
  destruct b0, b1, b2; cbn [count_occ bool_dec bool_rec bool_rect].
  - exists j. cbv zeta. rewrite (to_top _ _ _ T). split; [auto|]. split; [rewrite off_3; cbn; lia|]. split; auto. intros u. rewrite IN. rewrite Er. split.
    + intros Hu. assert (X : exists i, i < 4 /\ u = vv j i) by (destruct Hu as [<-|[<-|[<-|[<-|[]]]]]; [exists 0|exists 1|exists 2|exists 3]; (split; [lia|auto])). destruct X as (i & Hi & ->). destruct (PA i Hi) as [->|[->|[->| ->]]]; auto.
    + intros X. assert (Y : exists i, i < 4 /\ u = vv j i) by (destruct X as [->|[[_ <-]|[[_ <-]|[_ <-]]]]; eauto). destruct Y as (i & Hi & ->). rewrite <- Er. apply nth_In. rewrite Er. simpl. lia.
  - exists (fi j (pv c 3)). cbv zeta. split; [exact F3|]. split; [rewrite off_2; cbn; lia|]. split; [lia|]. intros u. rewrite IN, (ST 2 _ _ G3). cbn [In]. intuition congruence.
  - exists (fi j (pv c 2)). cbv zeta. split; [exact F2|]. split; [rewrite off_2; cbn; lia|]. split; [lia|]. intros u. rewrite IN, (ST 2 _ _ G2). cbn [In]. intuition congruence.
  - exists (ei j c (pv c 1)). cbv zeta. split; [exact E1|]. split; [rewrite off_1; cbn; lia|]. split; [lia|]. intros u. rewrite IN, (ST 1 _ _ H1). cbn [In]. intuition congruence.
  - exists (fi j (pv c 1)). cbv zeta. split; [exact F1|]. split; [rewrite off_2; cbn; lia|]. split; [lia|]. intros u. rewrite IN, (ST 2 _ _ G1). cbn [In]. intuition congruence.
  - exists (ei j c (pv c 2)). cbv zeta. split; [exact E2|]. split; [rewrite off_1; cbn; lia|]. split; [lia|]. intros u. rewrite IN, (ST 1 _ _ H2). cbn [In]. intuition congruence.
  - exists (ei j c (pv c 3)). cbv zeta. split; [exact E3|]. split; [rewrite off_1; cbn; lia|]. split; [lia|]. intros u. rewrite IN, (ST 1 _ _ H3). cbn [In]. intuition congruence.
  - exists (vv j c). cbv zeta. split; [exact V|]. split; [reflexivity|]. split; [lia|]. intros u. rewrite IN. rewrite (to_verts _ _ _ T), nth_map_seq by auto. cbn [In]. intuition congruence.
Qed.
(** Neighbouring cubes of one tetrahedron have opposite orientation. *)
Lemma Cs_inconsistent : ~ COrSpec.consistent 3 Cs.
Proof.
  intros C. assert (H0 : 0 < N) by (destruct OK as [NE _]; destruct rows; [congruence|simpl; lia]). destruct (Cs_at 0 0 H0 ltac:(lia)) as [L0 N0], (Cs_at 0 1 H0 ltac:(lia)) as [L1 N1].
  specialize (C (0 * 4 + 0) (0 * 4 + 1)). rewrite Cs_length in C. specialize (C L0 L1 ltac:(lia)). rewrite N0, N1 in C.
  specialize (C 2 true (slice 3 2 true (tc 0 0)) 0 true (slice 3 0 true (tc 0 1)) 1%Z ltac:(lia) ltac:(lia) (slice_is_slice 3 2 true (tc 0 0) ltac:(lia)) (slice_is_slice 3 0 true (tc 0 1) ltac:(lia))).
  assert (E : ei 0 1 0 = ei 0 0 1) by (unfold ei, idx; rewrite (proj2 (isort_nat_eq [vv 0 1; vv 0 0] [vv 0 0; vv 0 1]) (perm_swap _ _ _)); auto).
  assert (S0 : slice 3 2 true (tc 0 0) = [ei 0 0 1 + n0; fi 0 3 + (n0 + n1); fi 0 2 + (n0 + n1); 0 + (n0 + n1 + n2)]) by reflexivity.
  assert (S1 : slice 3 0 true (tc 0 1) = [ei 0 1 0 + n0; fi 0 3 + (n0 + n1); fi 0 2 + (n0 + n1); 0 + (n0 + n1 + n2)]) by reflexivity.
  rewrite S0, S1, E in C. specialize (C (related_refl _ _)). vm_compute in C. discriminate.
Qed.
End Tet.
