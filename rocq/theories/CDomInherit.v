(** Faces of highest dimension inherit the orientation of the coarse faces they are part of. *)
Require Import List Arith ZArith Bool Lia Permutation Sorting.Sorted.
From Verif Require Import Util CombModel CombSpec CombProofs SimpModel SimpSpec SimpProofs BdryModel BdryProofs SubdModel FundProofs SubProofs SelProps OrientProofs BdryProps ParProofs LevelProofs BaryProofs LoopTransfer.
From Verif Require Import CubeModel CubeSpec CubeBits CubeBd CubeRel CubeLevel CubeTop CubeChain CubeGrid COrSpec COrProofs CBdProofs CDomModel CDomBits CDomProofs CDomTop CDomSub CDomOrient CDomSpec CDomTrans CDomPairs.
Import ListNotations.
Local Open Scope nat_scope.

Lemma index_of_le : forall (u : list nat) l p d, p < length l -> nth p l d = u -> index_of list_eqb u l <= p.
Proof.
  intros u l. induction l as [|a l IH]; intros p d Hp E; [simpl in Hp; lia|]. cbn [index_of]. destruct (list_eqb u a) eqn:Q; [lia|]. destruct p as [|p]; [cbn [nth] in E; subst a; pose proof (proj2 (list_eqb_eq u u) eq_refl); congruence|]. cbn [nth] in E. simpl in Hp. specialize (IH p d ltac:(lia) E). lia.
Qed.
Lemma top_lows : forall row_leb n rows t, 2 <= n -> cubes_ok n rows -> from_cubes row_leb true n rows = Ok t -> nth (n - 1) (elements t) [] = lows row_leb n rows.
Proof.
  intros row_leb n rows t Hn OK H. destruct (from_cubes_ctop row_leb n rows t ltac:(lia) OK H) as (H7 & FM & _ & _).
  unfold from_cubes in H. destruct n as [|m]; [lia|]. cbn [build_cubes] in H.
  assert (P : 2 ^ (S m - 1) < 128) by (change 128 with (2 ^ 7); apply Nat.pow_lt_mono_r; lia).
  assert (C : compat_faces (S m) rows). { apply compat_comp; [auto|apply OK|]. replace (S m - 1) with m by lia. apply FM. lia. }
  rewrite lower_ok in H by (auto; apply OK). cbn [bind] in H. destruct (build_cubes row_leb true m (lows row_leb (S m) rows)) as [[[E B] Or]|e] eqn:Eb; cbn [bind] in H; [|discriminate].
  assert (X : nth m E [] = lows row_leb (S m) rows /\ length E = S m).
  { clear - Eb. revert Eb. generalize (lows row_leb (S m) rows) as r. intros r Eb. destruct m as [|m]; cbn [build_cubes] in Eb; [injection Eb as <- <- <-; auto|].
    assert (G : forall m r E B Or, build_cubes row_leb true m r = Ok (E, B, Or) -> length E = S m).
    { clear. induction m as [|m IH]; intros r E B Or Q; cbn [build_cubes] in Q; [injection Q as <- <- <-; auto|]. destruct (lower row_leb true (S m) r) as [[[l b] o]|]; cbn [bind] in Q; [|discriminate]. destruct (build_cubes row_leb true m l) as [[[E' B'] O']|] eqn:Eb; cbn [bind] in Q; [|discriminate]. injection Q as <- <- <-. rewrite app_length. rewrite (IH _ _ _ _ Eb). simpl. lia. }
    destruct (lower row_leb true (S m) r) as [[[l b] o]|]; cbn [bind] in Eb; [|discriminate]. destruct (build_cubes row_leb true m l) as [[[E' B'] O']|] eqn:Eb'; cbn [bind] in Eb; [|discriminate]. injection Eb as <- <- <-. pose proof (G _ _ _ _ _ Eb') as L. rewrite app_nth2 by lia. rewrite L, Nat.sub_diag. split; auto. rewrite app_length, L. simpl. lia. }
  destruct X as [X LE]. unfold make_topology in H. match type of H with (if ?q then _ else _) = _ => destruct q end; [|discriminate]. injection H as <-. cbn [elements]. replace (S m - 1) with m in * by lia.
  rewrite app_nth1 by lia. auto.
Qed.
(** The stored face is generated from the first cube that has it. *)
Lemma first_generated : forall row_leb n rows t, 2 <= n -> cubes_ok n rows -> from_cubes row_leb true n rows = Ok t ->
  forall i, i < n_elements t (n - 1) -> exists j x s, j < length rows /\ x < n /\ el t (n - 1) i = gface n x s (nth j rows []) /\
    forall j' x' s', j' < length rows -> x' < n -> Permutation (gface n x' s' (nth j' rows [])) (el t (n - 1) i) -> j <= j'.
Proof.
  intros row_leb n rows t Hn OK H i Hi. pose proof (top_lows row_leb n rows t Hn OK H) as EL. unfold n_elements, el in *. rewrite EL in *. unfold lows in *. set (bc := concat (map (gfaces n) rows)) in *. set (U := unique_rows row_leb (map sort_row bc)) in *. rewrite map_length in Hi.
  rewrite (nth_map_lt _ _ _ _ _ []) by auto. assert (Hu : In (nth i U []) U) by (apply nth_In; auto). apply (proj1 (unique_rows_in _ _ _)) in Hu. set (u := nth i U []) in *. unfold rep. set (p := index_of list_eqb u (map sort_row bc)).
  assert (Hp : p < length bc) by (pose proof (index_of_lt _ list_eqb _ _ list_eqb_ok Hu) as Q; rewrite map_length in Q; auto).
  assert (Ep : sort_row (nth p bc []) = u) by (pose proof (nth_index_of _ list_eqb _ _ [] list_eqb_ok Hu) as Q; fold p in Q; rewrite (nth_map_lt _ _ _ _ _ []) in Q by auto; auto).
  assert (Ebc : bc = flat_map (gfaces n) rows) by (unfold bc; rewrite flat_map_concat_map; auto). assert (Lbc : length bc = length rows * (n * 2)) by (rewrite Ebc; apply flat_map_const_length; intros; apply gfaces_length).
  assert (N2 : n * 2 <> 0) by lia. pose proof (Nat.div_mod p (n * 2) N2) as DM. pose proof (Nat.mod_upper_bound p (n * 2) N2) as MB. set (j := p / (n * 2)) in *. set (q := p mod (n * 2)) in *. rewrite Nat.mul_comm in DM.
  assert (Hj : j < length rows) by (apply Nat.div_lt_upper_bound; lia).
  assert (Enth : nth p bc [] = nth q (gfaces n (nth j rows [])) []) by (rewrite DM, Ebc; apply nth_flat_map_const; auto; intros; apply gfaces_length).
  assert (G : In (nth q (gfaces n (nth j rows [])) []) (gfaces n (nth j rows []))) by (apply nth_In; rewrite gfaces_length; auto).
  unfold gfaces at 2 in G. apply in_flat_map in G as (x & Hx & G). apply in_map_iff in G as (s & G & _). apply in_seq in Hx.
  exists j, x, s. split; auto. split; [lia|]. rewrite Enth. split; auto. intros j' x' s' Hj' Hx' P.
  assert (G' : In (gface n x' s' (nth j' rows [])) (gfaces n (nth j' rows []))). { unfold gfaces. apply in_flat_map. exists x'. split; [apply in_seq; lia|]. apply in_map_iff. exists s'. split; auto. destruct s'; simpl; auto. }
  apply In_nth with (d := []) in G' as (q' & Hq' & Eq'). rewrite gfaces_length in Hq'. assert (E' : nth (j' * (n * 2) + q') bc [] = gface n x' s' (nth j' rows [])) by (rewrite Ebc, (nth_flat_map_const _ _ _ _ (n * 2)) with (da := []); auto; intros; apply gfaces_length).
  assert (Hp' : j' * (n * 2) + q' < length bc) by (rewrite Lbc; nia). apply sort_row_eq in P. rewrite <- Enth, Ep in P.
  pose proof (index_of_le u (map sort_row bc) (j' * (n * 2) + q') []) as Q. rewrite map_length in Q. specialize (Q Hp'). rewrite (nth_map_lt _ _ _ _ _ []), E' in Q by auto. specialize (Q P). fold p in Q. nia.
Qed.

Lemma remove_of_insert : forall x si w, x <= length w -> remove_at x (insert_at x si w) = w.
Proof.
  unfold remove_at, insert_at. induction x as [|x IH]; intros si w Hx; [destruct w; auto|]. destruct w as [|b w]; [simpl in Hx; lia|]. simpl in Hx. cbn [firstn skipn app]. f_equal. apply IH. lia.
Qed.
Section Inh.
Variable row_leb : list nat -> list nat -> bool.
Variables (n : nat) (rows : list cube) (t s : topology).
Hypothesis Hn : 1 <= n.
Hypothesis OK : cubes_ok n rows.
Hypothesis T : ctop n rows t.
Hypothesis FM : forall k, 1 <= k < n -> faces_match k n rows.
Notation row j := (nth j rows []).
Notation fine := (fine n rows t).
Notation fines := (fines n rows t).
Notation psub := (psub t).
Notation topp := (topp t s).
Notation hits := (hits t s).
Hypothesis Ts : ctop n fines s.
Hypothesis Et : from_cubes row_leb true n rows = Ok t.
Hypothesis Es : from_cubes row_leb true n fines = Ok s.

Lemma sub_flip : forall k i D a, i < k -> length D = 2 ^ k -> NoDup D -> length a = k -> sub t k (flip k i D) a = flip k i (sub t k D (flip_bit i a)).
Proof.
  intros k i D a Hi LD ND La. symmetry.
  apply (cube_ext k); [apply cbuild_length|apply sub_length|]. intros b Lb. unfold CubeModel.flip at 1. rewrite cget_build by auto. rewrite !cget_sub by (rewrite ?flip_bit_length; auto). rewrite xor_flip by lia.
  apply LL_members.
  - apply (cell_nodup k); rewrite ?xor_length, ?flip_bit_length; auto.
  - apply (cell_nodup k); rewrite ?xor_length; auto; [|unfold CubeModel.flip; apply cbuild_length]. eapply Permutation_NoDup; [apply (flip_perm k i); auto|auto].
  - intros v. symmetry. apply (cell_flip k); rewrite ?xor_length; auto.
Qed.

Lemma inherit_top : forall r, In r (hits n) -> exists w, length w = n /\ el s n r = psub n (topp n r) w.
Proof.
  intros r Hr. pose proof Hr as Hr'. apply (hits_in n t s Hn) in Hr' as [Lr _].
  destruct (fine_of_row n rows t s Hn Ts r Lr) as (j & a & Hj & La & -> & E). exists a. split; auto. rewrite (proj2 (topp_fine n rows t s Hn OK T Ts j a Hj La)). rewrite E. symmetry. apply (psub_top n rows t T); auto.
Qed.
Lemma inherit_faces : forall r, 2 <= n -> In r (hits (n - 1)) -> exists w, length w = n - 1 /\ el s (n - 1) r = psub (n - 1) (topp (n - 1) r) w.
Proof.
  intros r Hn2 Hr. pose proof Hr as Hr'. apply (hits_in n t s Hn) in Hr' as [Lr _]. destruct (hit_part n rows t s Hn OK T Ts (n - 1) r ltac:(lia) Hr) as (Ht & w & z & Lw & R & W). set (i := topp (n - 1) r) in *. exists w. split; auto.
  destruct (first_generated row_leb n rows t Hn2 OK Et i Ht) as (j & x & si & Hj & Hx & Eel & Min).
  assert (OKs : cubes_ok n fines) by (apply fines_ok; auto).
  destruct (first_generated row_leb n fines s Hn2 OKs Es r Lr) as (p & x' & si' & Hp & Hx' & Eel' & Min'). destruct (fnum_onto n rows t Hn p Hp) as (j' & a' & Hj' & La' & ->). rewrite (fnum_nth n rows t Hn) in Eel' by auto.
  destruct (row_ok' n rows OK j Hj) as [L ND].
  destruct (el_ok n rows t Hn T (n - 1) i ltac:(lia) Ht) as [Le Ne].
  assert (V : In (cget (el t (n - 1) i) w) (slice n x si (row j))). { eapply Permutation_in; [apply Permutation_sym; apply (gface_perm n x si (row j) Hn2)|]. rewrite <- Eel. apply (cget_in (n - 1)); auto. }
  apply (in_cget (n - 1)) in V as (w0 & Lw0 & Ew0); [|apply slice_length]. set (a := insert_at x si w0). assert (La : length a = n) by (unfold a; rewrite insert_at_length; lia).
  assert (Ra : remove_at x a = w0) by (apply remove_of_insert; lia). assert (Na : nth x a false = si) by (unfold a; rewrite nth_insert by lia; rewrite Nat.ltb_irrefl, Nat.eqb_refl; auto).
  assert (SL : slice n x si (fine j a) = sub t (n - 1) (slice n x si (row j)) w0) by (rewrite <- Ra, <- Na; apply (outer_slice n rows t Hn); auto).
  assert (G : psub (n - 1) i w = gface n x si (fine j a)).
  { rewrite (psub_sub n rows t Hn OK T) by (auto; lia). rewrite Eel. rewrite Eel in Ew0. unfold gface in *. rewrite SL. pose proof (slice_nodup n x si (row j) Hx ND L) as NS. destruct (xorb (Nat.odd x) si).
    - rewrite sub_flip by (auto; try apply slice_length; lia). f_equal. f_equal. unfold CubeModel.flip in Ew0. rewrite cget_build in Ew0 by auto. symmetry. apply (cget_inj (n - 1)) in Ew0; rewrite ?flip_bit_length; auto. apply slice_length.
    - f_equal. symmetry. apply (cget_inj (n - 1)) in Ew0; auto. apply slice_length. }
  assert (P : Permutation (gface n x si (fine j a)) (gface n x' si' (fine j' a'))) by (rewrite <- G, <- Eel'; apply (related_perm _ _ _ _ R); apply psub_length).
  assert (Le1 : fnum n j' a' <= fnum n j a). { apply (Min' (fnum n j a) x si); auto; [apply fnum_lt; auto|]. rewrite (fnum_nth n rows t Hn) by auto. rewrite Eel'. auto. }
  assert (J1 : j' <= j). { unfold fnum in Le1. pose proof (ravel_lt a) as B. rewrite La in B. nia. }
  assert (P' : Permutation (slice n x si (fine j a)) (slice n x' si' (fine j' a'))) by (eapply perm_trans; [apply (gface_perm n x si _ Hn2)|]; eapply perm_trans; [exact P|apply Permutation_sym; apply (gface_perm n x' si' _ Hn2)]).
  destruct (fine_share n rows t Hn OK T j a x si j' a' x' si' Hj Hj' La La' Hx Hx' P') as [(Q & _)|(_ & _ & Q & Qv)]; [rewrite Na in Q; destruct si; discriminate|].
  assert (J2 : j <= j'). { apply (Min j' x' si'); auto. rewrite Eel. eapply perm_trans; [apply Permutation_sym; apply (gface_perm n x' si' _ Hn2)|]. eapply perm_trans; [apply Permutation_sym; exact Q|apply (gface_perm n x si _ Hn2)]. }
  assert (j' = j) by lia. subst j'. apply (cget_inj n) in Qv; auto. subst a'.
  apply slice_inj in P' as [-> ->]; auto; [|apply fine_nodup; auto|apply fine_length]. rewrite Eel', G. auto.
Qed.
Lemma inherit_vertices : forall r, In r (hits 0) -> exists w, length w = 0 /\ el s 0 r = psub 0 (topp 0 r) w.
Proof.
  intros r Hr. destruct (hit_part n rows t s Hn OK T Ts 0 r ltac:(lia) Hr) as (Ht & w & z & Lw & R & W). exists w. split; auto. symmetry.
  pose proof (psub_length t 0 (topp 0 r) w) as L1. pose proof (related_perm _ _ _ _ R L1) as P. cbn [Nat.pow] in L1. destruct (psub 0 (topp 0 r) w) as [|y [|y' l]]; cbn [length] in L1; [lia| |lia]. apply Permutation_length_1_inv in P. auto.
Qed.
End Inh.
