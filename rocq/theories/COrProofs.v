(** Proofs about the orientation of cubical topologies. *)
Require Import List Arith ZArith Bool Lia Permutation.
From Verif Require Import Util CombModel CombSpec CombProofs SimpModel SimpSpec ParProofs SimpProofs LevelProofs TopProofs CubeModel CubeSpec CubeBits CubeBd CubeRel CubeLevel CubeTop CubeChain.
From Verif Require Import BdryModel BdrySpec OrientProofs FixProofs GenOrient COrModel COrSpec.
Import ListNotations.
Local Open Scope nat_scope.

Notation fix_orientation := COrModel.fix_orientation.
Notation consistent := COrSpec.consistent.
Notation consistent_pair := COrSpec.consistent_pair.
Notation adjacent := COrSpec.adjacent.
Notation linked := COrSpec.linked.
Notation connected := COrSpec.connected.
Notation at_most_two := COrSpec.at_most_two.
Notation flip := CubeModel.flip.

Lemma side_sign_pow : forall a s, side_sign a s = sgn_pow (a + nat_of s).
Proof. intros. unfold side_sign. rewrite sgn_odd. auto. Qed.
Lemma side_sign_pm : forall a s, (side_sign a s = 1 \/ side_sign a s = -1)%Z.
Proof. intros. unfold side_sign. destruct (Nat.odd _); auto. Qed.

Lemma has_side_slice : forall n c f, has_side n c f <-> exists a s z, a < n /\ related (n - 1) z (slice n a s c) f.
Proof.
  intros n c f. split.
  - intros (a & s & g & z & Ha & Hg & R). apply is_slice_slice in Hg; auto. subst g. eauto.
  - intros (a & s & z & Ha & R). exists a, s, (slice n a s c), z. split; auto. split; auto. apply slice_is_slice. auto.
Qed.
Lemma incn_nz : forall n c f, length c = 2 ^ n -> NoDup c -> (incn n f c <> 0%Z <-> has_side n c f).
Proof.
  intros n c f L ND. rewrite has_side_slice. split.
  - intros H. destruct (Z.eq_dec (incn n f c) 0) as [E|_]; [congruence|]. unfold incn, cbd in H.
    assert (X : exists a, In a (seq 0 n) /\ sumZ (map (fun s => (sgn_pow (a + nat_of s) * csign (n - 1) (slice n a s c) f)%Z) sides) <> 0%Z).
    { revert H. generalize (seq 0 n) as l. induction l as [|a l IH]; cbn [map sumZ fold_right]; intros H; [congruence|].
      destruct (Z.eq_dec (sumZ (map (fun s => (sgn_pow (a + nat_of s) * csign (n - 1) (slice n a s c) f)%Z) sides)) 0) as [E|E]; [|exists a; split; [left; auto|exact E]].
      destruct IH as (a' & I & Q); [|exists a'; split; [right; auto|exact Q]]. intros Q. apply H. unfold sumZ in Q, E |- *. rewrite Q, E. reflexivity. }
    destruct X as (a & Ha & X). apply in_seq in Ha.
    assert (Y : exists s, csign (n - 1) (slice n a s c) f <> 0%Z).
    { destruct (Z.eq_dec (csign (n - 1) (slice n a false c) f) 0) as [E0|E0]; [|eauto]. destruct (Z.eq_dec (csign (n - 1) (slice n a true c) f) 0) as [E1|E1]; [|eauto]. exfalso. apply X. unfold sides. cbn [map sumZ fold_right]. rewrite E0, E1. lia. }
    destruct Y as (s & Y). exists a, s, (csign (n - 1) (slice n a s c) f). split; [lia|]. apply csign_related; auto using slice_length. apply slice_nodup; auto. lia.
  - intros (a & s & z & Ha & R). rewrite (incn_value n c f a s z Ha L ND R). pose proof (side_sign_pm a s) as P. rewrite side_sign_pow in P. destruct (related_sign _ _ _ _ R); subst z; lia.
Qed.
Lemma incn_pm : forall n c f, length c = 2 ^ n -> NoDup c -> has_side n c f -> (incn n f c = 1 \/ incn n f c = -1)%Z.
Proof.
  intros n c f L ND H. apply has_side_slice in H as (a & s & z & Ha & R). rewrite (incn_value n c f a s z Ha L ND R). pose proof (side_sign_pm a s) as P. rewrite side_sign_pow in P. destruct (related_sign _ _ _ _ R); subst z; lia.
Qed.

(** Consistency in terms of incidence numbers. *)
Lemma consistent_pair_incn : forall n c d, length c = 2 ^ n -> NoDup c -> length d = 2 ^ n -> NoDup d ->
  (consistent_pair n c d <-> forall f, has_side n c f -> has_side n d f -> incn n f c = (- incn n f d)%Z).
Proof.
  intros n c d Lc NDc Ld NDd. split.
  - intros C f F1 F2. apply has_side_slice in F1 as (a & s & z & Ha & R). apply has_side_slice in F2 as (a' & s' & z' & Ha' & R').
    rewrite (incn_value n c f a s z Ha Lc NDc R), (incn_value n d f a' s' z' Ha' Ld NDd R').
    pose proof (related_trans _ _ _ _ _ _ R (related_sym _ _ _ _ R' (slice_length _ _ _ _))) as RR.
    pose proof (C a s _ a' s' _ _ Ha Ha' (slice_is_slice n a s c Ha) (slice_is_slice n a' s' d Ha') RR) as E. rewrite !side_sign_pow in E.
    destruct (related_sign _ _ _ _ R'); subst z'; lia.
  - intros H a s g a' s' g' z Ha Ha' Hg Hg' R. apply is_slice_slice in Hg; auto. apply is_slice_slice in Hg'; auto. subst g g'.
    rewrite !side_sign_pow. specialize (H (slice n a' s' d)). rewrite (incn_value n c _ a s z Ha Lc NDc R) in H. rewrite (incn_value n d _ a' s' 1%Z Ha' Ld NDd (related_refl _ _)) in H.
    rewrite H; [lia| |]; apply has_side_slice; [exists a, s, z; auto|exists a', s', 1%Z; split; auto; constructor].
Qed.
Lemma has_side_related : forall n c d z f, related n z c d -> length c = 2 ^ n -> has_side n d f -> has_side n c f.
Proof.
  intros n c d z f R L H. apply has_side_slice in H as (a & s & z' & Ha & R'). destruct (slice_related n z c d a s R L Ha) as (a' & s' & z2 & Ha' & R2). apply has_side_slice. exists a', s', (z2 * z')%Z. split; auto. eapply related_trans; eauto.
Qed.
Lemma has_side_trans : forall n c f g z, has_side n c f -> related (n - 1) z f g -> has_side n c g.
Proof. intros n c f g z H R. apply has_side_slice in H as (a & s & z' & Ha & R'). apply has_side_slice. exists a, s, (z' * z)%Z. split; auto. eapply related_trans; eauto. Qed.
Lemma incn_related : forall n c f g z, length c = 2 ^ n -> NoDup c -> has_side n c f -> related (n - 1) z f g -> incn n g c = (z * incn n f c)%Z.
Proof.
  intros n c f g z L ND H R. apply has_side_slice in H as (a & s & z' & Ha & R'). rewrite (incn_value n c f a s z' Ha L ND R'). rewrite (incn_value n c g a s (z' * z)%Z Ha L ND); [ring|]. eapply related_trans; eauto.
Qed.

(** Choice between a cube and its mirror image. *)
Definition choose (n : nat) (v : nat -> bool) (rows : list cube) : list cube :=
  map (fun j => if v j then nth j rows [] else flip n 0 (nth j rows [])) (seq 0 (length rows)).
Lemma choose_length : forall n v rows, length (choose n v rows) = length rows.
Proof. intros. unfold choose. rewrite map_length, seq_length. auto. Qed.
Lemma choose_nth : forall n v rows j, j < length rows -> nth j (choose n v rows) [] = if v j then nth j rows [] else flip n 0 (nth j rows []).
Proof. intros. unfold choose. rewrite nth_map_seq by auto. auto. Qed.
Lemma choose_related : forall n v rows j, 1 <= n -> j < length rows -> related n (zsign (v j)) (nth j rows []) (nth j (choose n v rows) []).
Proof. intros. rewrite choose_nth by auto. destruct (v j); [constructor|]. apply related_flip. lia. Qed.
Lemma choose_combine : forall n rows p, length p = length rows ->
  map (fun be : bool * cube => if fst be then snd be else flip n 0 (snd be)) (combine p rows) = choose n (fun j => nth j p false) rows.
Proof.
  unfold choose. intros n. induction rows as [|s rows IH]; destruct p as [|b p]; simpl; intros L; try lia; auto. f_equal. rewrite IH by lia. rewrite <- seq_shift, map_map. auto.
Qed.
Lemma choose_true : forall n rows, choose n (fun _ => true) rows = rows.
Proof. intros. unfold choose. apply (map_nth_seq _ rows []). Qed.
Lemma choose_ext : forall n v w rows, (forall j, j < length rows -> v j = w j) -> choose n v rows = choose n w rows.
Proof. intros. unfold choose. apply map_ext_in. intros j Hj. apply in_seq in Hj. rewrite H by lia. auto. Qed.
Lemma choose_mirrored : forall n v rows, 1 <= n -> Forall2 (same_or_mirrored n) rows (choose n v rows).
Proof.
  intros n v rows Hn. assert (G : forall k l, Forall2 (same_or_mirrored n) l (map (fun j => if v (k + j) then nth j l [] else flip n 0 (nth j l [])) (seq 0 (length l)))).
  { intros k l. revert k. induction l as [|c l IH]; intros k; cbn [length seq map]; constructor.
    - cbn [nth]. unfold same_or_mirrored. destruct (v (k + 0)); auto. right. apply flip_mirrored. lia.
    - rewrite <- seq_shift, map_map. rewrite (map_ext _ (fun j => if v (S k + j) then nth j l [] else flip n 0 (nth j l []))); [apply IH|]. intros j. replace (k + S j) with (S k + j) by lia. auto. }
  apply (G 0).
Qed.
Lemma mirrored_choose : forall n rows rows', 1 <= n -> Forall2 (same_or_mirrored n) rows rows' -> exists v, rows' = choose n v rows.
Proof.
  intros n rows rows' Hn F. exists (fun j => list_eqb (nth j rows' []) (nth j rows [])). pose proof (Forall2_len _ _ _ _ _ F) as L.
  unfold choose. rewrite L. rewrite <- (map_nth_seq _ rows' []) at 1. apply map_ext_in. intros j Hj. apply in_seq in Hj.
  destruct (list_eqb (nth j rows' []) (nth j rows [])) eqn:E; [apply list_eqb_eq; auto|].
  pose proof (Forall2_nth _ _ _ _ _ [] [] F j ltac:(lia)) as [Q|Q]; [rewrite Q in E; assert (X : list_eqb (nth j rows []) (nth j rows []) = true) by (apply list_eqb_eq; auto); congruence|]. apply mirrored_flip in Q; auto.
Qed.

Section Rows.
Variables (n : nat) (rows : list cube).
Hypothesis Hn : 1 <= n.
Hypothesis OK : cubes_ok n rows.

Lemma row_ok : forall j, j < length rows -> length (nth j rows []) = 2 ^ n /\ NoDup (nth j rows []).
Proof. intros j Hj. destruct OK as [_ F]. rewrite Forall_forall in F. apply F, nth_In. auto. Qed.
Lemma choose_ok : forall v j, j < length rows -> length (nth j (choose n v rows) []) = 2 ^ n /\ NoDup (nth j (choose n v rows) []).
Proof.
  intros v j Hj. destruct (row_ok j Hj) as [L ND]. pose proof (choose_related n v rows j Hn Hj) as R. split; [eapply related_length; eauto|eapply related_nodup; eauto].
Qed.
Lemma choose_cubes_ok : forall v, cubes_ok n (choose n v rows).
Proof.
  intros v. split.
  - intros E. apply (f_equal (@length _)) in E. rewrite choose_length in E. destruct OK as [N _]. destruct rows; simpl in *; try lia. congruence.
  - apply Forall_forall. intros c Hc. apply In_nth with (d := []) in Hc as (j & Hj & <-). rewrite choose_length in Hj. apply choose_ok; auto.
Qed.
Lemma choose_side : forall v j f, j < length rows -> has_side n (nth j (choose n v rows) []) f <-> has_side n (nth j rows []) f.
Proof.
  intros v j f Hj. destruct (row_ok j Hj) as [L ND]. pose proof (choose_related n v rows j Hn Hj) as R. split; intros H; eapply has_side_related; eauto.
  - apply related_sym; eauto.
  - eapply related_length; eauto.
Qed.
Lemma choose_incn : forall v j f, j < length rows -> incn n f (nth j (choose n v rows) []) = (zsign (v j) * incn n f (nth j rows []))%Z.
Proof.
  intros v j f Hj. destruct (row_ok j Hj) as [L ND]. apply (related_antisym n _ _ _ (incn n f) (choose_related n v rows j Hn Hj) L). apply incn_antisym.
Qed.
Lemma choose_verts : forall v u, In u (concat (choose n v rows)) <-> In u (concat rows).
Proof.
  intros v u. rewrite !in_concat. split; intros (s & Hs & Hv).
  - apply In_nth with (d := []) in Hs as (j & Hj & <-). rewrite choose_length in Hj. exists (nth j rows []). split; [apply nth_In; auto|].
    eapply Permutation_in; [apply Permutation_sym, (related_perm _ _ _ _ (choose_related n v rows j Hn Hj)); apply row_ok; auto|auto].
  - apply In_nth with (d := []) in Hs as (j & Hj & <-). exists (nth j (choose n v rows) []). split; [apply nth_In; rewrite choose_length; auto|].
    eapply Permutation_in; [apply (related_perm _ _ _ _ (choose_related n v rows j Hn Hj)); apply row_ok; auto|auto].
Qed.
Lemma choose_match : forall v k, faces_match k n rows -> faces_match k n (choose n v rows).
Proof.
  intros v k M c d f g Hc Hd Hf Hg P.
  apply In_nth with (d := []) in Hc as (j & Hj & <-). apply In_nth with (d := []) in Hd as (j' & Hj' & <-). rewrite choose_length in *.
  destruct (row_ok j Hj) as [L ND]. destruct (row_ok j' Hj') as [L' ND'].
  destruct (subcube_related k n _ _ _ _ (choose_related n v rows j Hn Hj) L Hf) as (f' & z & Sf & Rf).
  destruct (subcube_related k n _ _ _ _ (choose_related n v rows j' Hn Hj') L' Hg) as (g' & z' & Sg & Rg).
  pose proof (subcube_length _ _ _ _ Sf L) as Lf. pose proof (subcube_length _ _ _ _ Sg L') as Lg.
  destruct (M (nth j rows []) (nth j' rows []) f' g' (nth_In _ _ Hj) (nth_In _ _ Hj') Sf Sg) as (s & R).
  - eapply perm_trans; [apply (related_perm _ _ _ _ Rf Lf)|]. eapply perm_trans; [exact P|]. apply Permutation_sym, (related_perm _ _ _ _ Rg Lg).
  - exists (z * s * z')%Z. eapply related_trans; [|exact Rg]. eapply related_trans; [|exact R]. apply related_sym; auto.
Qed.

End Rows.

Section Top.
Variables (n : nat) (rows : list cube) (t : topology).
Hypothesis Hn : 1 <= n.
Hypothesis OK : cubes_ok n rows.
Hypothesis T : ctop n rows t.
Hypothesis AM : at_most_two n rows.
Notation row_ok := (row_ok n rows OK).
Notation choose_ok := (choose_ok n rows Hn OK).
Notation choose_side := (choose_side n rows Hn OK).
Notation choose_incn := (choose_incn n rows Hn OK).

Notation M := (matrix t (n - 1)).
Definition elem (i : nat) : cube := nth i (nth (n - 1) (elements t) []) [].
Lemma dim_n : n_dim t = n.
Proof. apply (ct_lenO _ _ _ T). Qed.
Lemma lastm_M : lastm t = M.
Proof. unfold lastm. rewrite dim_n. auto. Qed.
Lemma cells_n : cells t = length rows.
Proof. unfold cells. rewrite dim_n, (ct_top _ _ _ T). auto. Qed.
Lemma top_count : n_elements t n = length rows.
Proof. unfold n_elements. rewrite (ct_top _ _ _ T). auto. Qed.
Lemma M_entry : forall i j, i < nrows M -> j < length rows -> entry M i j = (- incn n (elem i) (nth j rows []))%Z.
Proof.
  intros i j Hi Hj. destruct (c_matrix_shape n rows t Hn T (n - 1) ltac:(lia)) as [R C]. rewrite R in Hi. rewrite (c_matrix_entry n rows t Hn T (n - 1) i j ltac:(lia) Hi).
  replace (S (n - 1)) with n by lia. rewrite top_count, (ct_top _ _ _ T). apply Nat.ltb_lt in Hj. rewrite Hj. auto.
Qed.
Lemma M_rows : nrows M = n_elements t (n - 1).
Proof. apply (c_matrix_shape n rows t Hn T (n - 1) ltac:(lia)). Qed.
Lemma M_cols : ncols M = length rows.
Proof. rewrite (proj2 (c_matrix_shape n rows t Hn T (n - 1) ltac:(lia))). replace (S (n - 1)) with n by lia. apply top_count. Qed.
Lemma M_stored : forall i j v, In (i, j, v) (triples M) -> i < nrows M -> (entry M i j = 1 \/ entry M i j = -1)%Z.
Proof.
  intros i j v H Hi. pose proof (ct_level _ _ _ T (n - 1) ltac:(lia)) as L. replace (S (n - 1)) with n in L by lia. rewrite (ct_top _ _ _ T) in L. unfold matrix in H. apply (in_topology_triples (n * 2)) in H; [|lia|apply (cl_rectB _ _ _ _ _ L)]. destruct H as [Hj H].
  rewrite (cl_lenB _ _ _ _ _ L) in Hj. apply In_nth with (d := 0) in H as (c & Hc & E).
  assert (Lc : length (nth j (nth (n - 1) (boundary_idx t) []) []) = n * 2). { pose proof (cl_rectB _ _ _ _ _ L) as FB. rewrite Forall_forall in FB. apply FB, nth_In. rewrite (cl_lenB _ _ _ _ _ L). auto. }
  rewrite Lc in Hc. destruct (pair_index n Hn (n - 1) c ltac:(lia)) as (a & s & Ha & ->). destruct (cl_idx _ _ _ _ _ L j a s Hj ltac:(lia)) as (_ & (z & R) & _). rewrite E in R.
  rewrite M_entry by auto. destruct (row_ok j Hj) as [Lj ND]. destruct (incn_pm n (nth j rows []) (elem i) Lj ND); [|lia|lia]. apply has_side_slice. exists a, s, z. split; [lia|exact R].
Qed.
Lemma M_nz : forall i j, i < nrows M -> j < length rows -> (entry M i j <> 0%Z <-> has_side n (nth j rows []) (elem i)).
Proof. intros i j Hi Hj. destruct (row_ok j Hj) as [L ND]. rewrite M_entry by auto. rewrite <- (incn_nz n _ _ L ND). lia. Qed.
Lemma side_elem : forall j f, j < length rows -> has_side n (nth j rows []) f -> exists i z, i < nrows M /\ related (n - 1) z f (elem i).
Proof.
  intros j f Hj H. pose proof H as H0. apply has_side_slice in H as (a & s & z & Ha & R).
  destruct (c_listed n rows t Hn T 1 (n - 1) ltac:(lia)) as [_ I]. destruct (I (nth j rows []) (slice n a s (nth j rows [])) (nth_In _ _ Hj)) as (i & z' & Hi & R').
  - apply (subcube_step (n - 1) n _ _ a s Ha). constructor.
  - exists i, (z * z')%Z. rewrite M_rows. split; auto. eapply related_trans; [apply related_sym; [exact R|apply slice_length]|exact R'].
Qed.

Notation pair_at := (pair_at t).
Lemma pair_sides : forall i j1 j2, pair_at i j1 j2 <-> i < nrows M /\ j1 < j2 < length rows /\ has_side n (nth j1 rows []) (elem i) /\ has_side n (nth j2 rows []) (elem i).
Proof.
  intros i j1 j2. unfold GenOrient.pair_at. rewrite lastm_M, cells_n. split.
  - intros (Hi & Hj & X). split; auto. split; auto. split; apply M_nz; auto; try lia; apply X; auto; lia.
  - intros (Hi & Hj & F1 & F2). split; auto. split; auto. intros j Hj'. rewrite M_nz by auto. split.
    + intros F. destruct (AM (elem i) j1 j2 j) as [E|[E|E]]; auto; lia.
    + intros [-> | ->]; auto.
Qed.
Lemma adjacent_pair : forall j1 j2, adjacent n rows j1 j2 <-> (exists i, pair_at i j1 j2) \/ (exists i, pair_at i j2 j1).
Proof.
  intros j1 j2. split.
  - intros (H1 & H2 & Hne & f & F1 & F2). destruct (side_elem j1 f H1 F1) as (i & z & Hi & R).
    destruct (Nat.lt_total j1 j2) as [L|[L|L]]; [left|lia|right]; exists i; apply pair_sides; repeat split; auto; eapply has_side_trans; eauto.
  - intros [(i & X)|(i & X)]; apply pair_sides in X as (Hi & Hj & F1 & F2); (repeat split; try lia; exists (elem i); auto).
Qed.

Lemma choose_consistent : forall v, consistent n (choose n v rows) <-> cancels t v.
Proof.
  intros v. unfold consistent, cancels. rewrite lastm_M. split.
  - intros C i j1 j2 X. apply pair_sides in X as (Hi & Hj & F1 & F2). specialize (C j1 j2). rewrite choose_length in C. specialize (C ltac:(lia) ltac:(lia) ltac:(lia)).
    destruct (choose_ok v j1 ltac:(lia)) as [L1 N1]. destruct (choose_ok v j2 ltac:(lia)) as [L2 N2]. rewrite (consistent_pair_incn n _ _ L1 N1 L2 N2) in C.
    specialize (C (elem i)). rewrite !choose_side, !choose_incn in C by lia. specialize (C F1 F2). rewrite !M_entry by (auto; lia). lia.
  - intros C.
    assert (B : forall j1 j2, j1 < j2 < length rows -> forall f, has_side n (nth j1 rows []) f -> has_side n (nth j2 rows []) f ->
              (zsign (v j1) * incn n f (nth j1 rows []) = - (zsign (v j2) * incn n f (nth j2 rows [])))%Z).
    { intros j1 j2 Hj f F1 F2. destruct (side_elem j1 f ltac:(lia) F1) as (i & z & Hi & R).
      assert (X : pair_at i j1 j2) by (apply pair_sides; repeat split; auto; try lia; eapply has_side_trans; eauto).
      specialize (C _ _ _ X). rewrite !M_entry in C by (auto; lia). destruct (row_ok j1 ltac:(lia)) as [L1 N1]. destruct (row_ok j2 ltac:(lia)) as [L2 N2].
      rewrite (incn_related n _ f (elem i) z L1 N1 F1 R), (incn_related n _ f (elem i) z L2 N2 F2 R) in C. destruct (related_sign _ _ _ _ R); subst z; lia. }
    intros j1 j2 H1 H2 Hne. rewrite choose_length in *. destruct (choose_ok v j1 H1) as [L1 N1]. destruct (choose_ok v j2 H2) as [L2 N2]. apply (consistent_pair_incn n _ _ L1 N1 L2 N2).
    intros f F1 F2. rewrite choose_side in F1, F2 by auto. rewrite !choose_incn by auto. destruct (Nat.lt_total j1 j2) as [L|[L|L]]; [|lia|].
    + apply B; auto.
    + specialize (B j2 j1 ltac:(lia) f F2 F1). lia.
Qed.

Variable sat : list (Z * Z) -> option (list Z).
Hypothesis SC : sat_contract sat.
Lemma parity_cases :
  ((forall j1 j2, ~ adjacent n rows j1 j2) /\ relative_parity sat t = Ok (repeat false (length rows))) \/
  ((exists j1 j2, adjacent n rows j1 j2) /\
    ((relative_parity sat t = Err ValueError /\ forall v, ~ consistent n (choose n v rows)) \/
     (exists p, relative_parity sat t = Ok p /\ consistent n (choose n (fun j => nth j p false) rows) /\ 2 <= length p /\ length p <= length rows /\
        (forall i j1 j2, pair_at i j1 j2 -> j2 < length p) /\
        ((exists j, adjacent n rows j (length rows - 1)) <-> length p = length rows)))).
Proof.
  destruct (parity_gen t) with (sat := sat) as [[NP E]|[(i & j1 & j2 & X) [[E N]|(p & E & C & V1 & V2)]]]; auto.
  - rewrite dim_n. auto.
  - rewrite lastm_M, M_cols, cells_n. auto.
  - rewrite lastm_M. apply M_stored.
  - left. rewrite <- cells_n. split; auto. intros j1 j2 A. apply adjacent_pair in A as [[i X]|[i X]]; eapply NP; eauto.
  - right. split; [exists j1, j2; apply adjacent_pair; eauto|]. left. split; auto. intros v C. apply (N v). apply choose_consistent. auto.
  - right. split; [exists j1, j2; apply adjacent_pair; eauto|]. right. exists p. split; auto. split; [apply choose_consistent; auto|].
    assert (Q : length p <= length rows) by (apply V2; intros i' k1 k2 Y; apply pair_sides in Y; lia).
    split; [pose proof (V1 _ _ _ X); pose proof X as (_ & Hj & _); lia|]. split; auto. split; auto. split.
    + intros (j & A). apply Nat.le_antisymm; auto. destruct (proj1 (adjacent_pair _ _) A) as [[i' Y]|[i' Y]]; pose proof (V1 _ _ _ Y); apply pair_sides in Y; lia.
    + intros Q2. assert (Dec : (exists j, adjacent n rows j (length rows - 1)) \/ (forall i j1 j2, pair_at i j1 j2 -> j2 < length rows - 1)).
      { assert (D : forall i k1 k2, {pair_at i k1 k2} + {~ pair_at i k1 k2}).
        { intros i' k1 k2. unfold GenOrient.pair_at. rewrite lastm_M, cells_n. destruct (lt_dec i' (nrows M)); [|right; tauto]. destruct (lt_dec k1 k2); [|right; lia]. destruct (lt_dec k2 (length rows)); [|right; lia].
          assert (DD : {forall j, j < length rows -> (entry M i' j <> 0%Z <-> j = k1 \/ j = k2)} + {~ forall j, j < length rows -> (entry M i' j <> 0%Z <-> j = k1 \/ j = k2)}).
          { generalize (length rows) as m. induction m as [|m [IH|IH]]; [left; intros; lia| |right; intros Q3; apply IH; intros; apply Q3; lia].
            assert (D1 : {entry M i' m <> 0%Z <-> m = k1 \/ m = k2} + {~ (entry M i' m <> 0%Z <-> m = k1 \/ m = k2)}) by (destruct (Z.eq_dec (entry M i' m) 0), (Nat.eq_dec m k1), (Nat.eq_dec m k2); (left; tauto) || (right; tauto)).
            destruct D1 as [D1|D1]; [left; intros j Hj; destruct (Nat.eq_dec j m); [subst; auto|apply IH; lia]|right; intros Q3; apply D1; apply Q3; lia]. }
          destruct DD; [left; auto|right; tauto]. }
        destruct (existsb (fun i' => existsb (fun k1 => if D i' k1 (length rows - 1) then true else false) (seq 0 (length rows))) (seq 0 (nrows M))) eqn:Eb.
        - left. apply existsb_exists in Eb as (i' & _ & Eb). apply existsb_exists in Eb as (k1 & _ & Eb). destruct (D i' k1 (length rows - 1)); [|discriminate]. exists k1. apply adjacent_pair. eauto.
        - right. intros i' k1 k2 Y. pose proof (proj1 (pair_sides _ _ _) Y) as (Hi & Hj & _). destruct (Nat.eq_dec k2 (length rows - 1)) as [->|]; [|lia]. exfalso.
          assert (X2 : existsb (fun i' => existsb (fun k1 => if D i' k1 (length rows - 1) then true else false) (seq 0 (length rows))) (seq 0 (nrows M)) = true); [|congruence].
          apply existsb_exists. exists i'. split; [apply in_seq; lia|]. apply existsb_exists. exists k1. split; [apply in_seq; lia|]. destruct (D i' k1 (length rows - 1)); auto. }
      destruct Dec as [|D]; auto. exfalso. specialize (V2 _ D). pose proof X as Y. apply pair_sides in Y. lia.
Qed.

Variable row_leb : list nat -> list nat -> bool.
Lemma fix_unfold : forall p, relative_parity sat t = Ok p -> length p = length rows ->
  fix_orientation row_leb sat t = from_cubes row_leb true n (choose n (fun j => nth j p false) rows).
Proof.
  intros p E L. unfold COrModel.fix_orientation. rewrite E. cbn [bind]. rewrite dim_n, (ct_top _ _ _ T). unfold broadcast. rewrite L, Nat.eqb_refl. cbn [bind]. rewrite choose_combine; auto.
Qed.
Lemma fix_fails : forall p, relative_parity sat t = Ok p -> 2 <= length p -> length p <> length rows -> fix_orientation row_leb sat t = Err ValueError.
Proof.
  intros p E L Hne. unfold COrModel.fix_orientation. rewrite E. cbn [bind]. rewrite dim_n, (ct_top _ _ _ T). unfold broadcast. apply Nat.eqb_neq in Hne. rewrite Hne. destruct p as [|b [|b' p]]; simpl in L; try lia; reflexivity.
Qed.

Lemma unadjacent_consistent : (forall j1 j2, ~ adjacent n rows j1 j2) -> forall v, consistent n (choose n v rows).
Proof. intros NA v. apply choose_consistent. intros i j1 j2 X. exfalso. apply (NA j1 j2). apply adjacent_pair. eauto. Qed.

Lemma oriented_sound : is_oriented sat t = Ok true -> consistent n rows.
Proof.
  unfold is_oriented. destruct parity_cases as [[NA E]|[A [[E _]|(p & E & C & L2 & L & V & _)]]]; rewrite E; cbn [bind]; intros H; [|discriminate|].
  - rewrite <- (choose_true n rows). apply unadjacent_consistent. auto.
  - injection H as H. rewrite (all_equal_iff 1 (le_n 1)) in H. rewrite <- (choose_true n rows). apply choose_consistent. apply choose_consistent in C. intros i j1 j2 X. specialize (C _ _ _ X). specialize (V _ _ _ X). pose proof X as (_ & Hj & _). cbv beta in C.
    rewrite (H j1 j2) in C by lia. destruct (zsign_pm (nth j2 p false)) as [Q|Q]; rewrite Q in C; unfold zsign; lia.
Qed.
Lemma linked_equal : forall v w, consistent n (choose n v rows) -> consistent n (choose n w rows) -> forall j1 j2, linked n rows j1 j2 -> xorb (v j1) (w j1) = xorb (v j2) (w j2).
Proof.
  intros v w C1 C2. apply choose_consistent in C1. apply choose_consistent in C2.
  assert (B : forall i j1 j2, pair_at i j1 j2 -> xorb (v j1) (w j1) = xorb (v j2) (w j2)).
  { intros i j1 j2 X. specialize (C1 _ _ _ X). specialize (C2 _ _ _ X). apply pair_sides in X as (Hi & Hj & F1 & F2). rewrite lastm_M in *.
    destruct (row_ok j1 ltac:(lia)) as [L1 N1]. destruct (row_ok j2 ltac:(lia)) as [L2 N2]. rewrite !M_entry in C1, C2 by (auto; lia).
    destruct (incn_pm n _ _ L1 N1 F1) as [E1|E1], (incn_pm n _ _ L2 N2 F2) as [E2|E2]; rewrite E1, E2 in *; unfold zsign in *; destruct (v j1), (v j2), (w j1), (w j2); cbn; auto; lia. }
  induction 1 as [|j1 j2 j3 L IH A]; auto. rewrite IH. apply adjacent_pair in A as [[i X]|[i X]]; apply B in X; auto.
Qed.
Lemma oriented_complete : connected n rows -> consistent n rows -> is_oriented sat t = Ok true.
Proof.
  intros CN C. unfold is_oriented. destruct parity_cases as [[NA E]|[A [[E N]|(p & E & C2 & L2 & L & V & _)]]]; rewrite E; cbn [bind].
  - f_equal. apply (all_equal_iff 1 (le_n 1)). intros. rewrite !nth_repeat. auto.
  - exfalso. apply (N (fun _ => true)). rewrite choose_true. auto.
  - f_equal. apply (all_equal_iff 1 (le_n 1)). intros i j Hi Hj. rewrite <- (choose_true n rows) in C.
    pose proof (linked_equal _ _ C C2 0 i (CN i ltac:(lia))) as E1. pose proof (linked_equal _ _ C C2 0 j (CN j ltac:(lia))) as E2. cbn in E1, E2. rewrite E1 in E2. destruct (nth i p false), (nth j p false); auto; discriminate.
Qed.
End Top.
