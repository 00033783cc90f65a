(** Property C64: orientation of cubical topologies. *)
Require Import List Arith ZArith Bool Lia Permutation.
From Verif Require Import Util CombModel CombSpec CombProofs SimpModel SimpSpec SimpProps CubeModel CubeSpec CubeBits CubeBd CubeRel CubeLevel CubeTop CubeChain CubeProps.
From Verif Require Import BdryModel BdrySpec OrientProofs FixProofs SelProofs GenOrient COrModel COrSpec COrProofs.
Import ListNotations.
Local Open Scope nat_scope.

(** C64.  [fix_orientation] of a cubical topology returns a topology with the same cubes, each possibly mirrored, that
    is consistently oriented; or it raises ValueError and no choice of mirrored cubes is consistent. *)
Theorem C64_fix_orientation : forall row_leb sat n rows t, sat_contract sat -> 1 <= n -> cubes_ok n rows ->
  from_cubes row_leb true n rows = Ok t -> at_most_two n rows ->
  (exists j, adjacent n rows j (length rows - 1)) \/ (forall j1 j2, ~ adjacent n rows j1 j2) ->
  (exists rows' t', fix_orientation row_leb sat t = Ok t' /\ nth n (elements t') [] = rows' /\
     from_cubes row_leb true n rows' = Ok t' /\ Forall2 (same_or_mirrored n) rows rows' /\ consistent n rows')
  \/
  (fix_orientation row_leb sat t = Err ValueError /\
     forall rows', Forall2 (same_or_mirrored n) rows rows' -> ~ consistent n rows').
Proof.
  intros row_leb sat n rows t SC Hn OK H AM HL. destruct (from_cubes_ctop _ _ _ _ Hn OK H) as (H7 & FM & (m & V) & T).
  assert (G : forall p, relative_parity sat t = Ok p -> length p = length rows -> consistent n (choose n (fun j => nth j p false) rows) ->
    exists rows' t', fix_orientation row_leb sat t = Ok t' /\ nth n (elements t') [] = rows' /\
     from_cubes row_leb true n rows' = Ok t' /\ Forall2 (same_or_mirrored n) rows rows' /\ consistent n rows').
  { intros p E L C. set (w := fun j => nth j p false) in *. destruct (from_cubes_cases row_leb n (choose n w rows) Hn (choose_cubes_ok n rows Hn OK w)) as (X & _).
    destruct X as (t' & Ef & T'); auto.
    - intros k Hk. apply choose_match; auto.
    - exists m. intros v. rewrite choose_verts; auto.
    - exists (choose n w rows), t'. split; [rewrite (fix_unfold n rows t T sat row_leb p E L); exact Ef|]. split; [apply (ct_top _ _ _ T')|]. split; auto. split; auto. apply choose_mirrored. auto. }
  destruct (parity_cases n rows t Hn OK T AM sat SC) as [[NA E]|[A [[E N]|(p & E & C & L2 & L & _ & LL)]]].
  - left. apply (G _ E); [apply repeat_length|]. eapply unadjacent_consistent; eauto.
  - right. split; [unfold COrModel.fix_orientation; rewrite E; reflexivity|]. intros rows' F C. destruct (mirrored_choose n rows rows' Hn F) as (v & ->). apply (N v C).
  - left. destruct HL as [HL|HL]; [|destruct A as (j1 & j2 & A); exfalso; eapply HL; eauto]. apply (G _ E); auto. apply LL. auto.
Qed.
Print Assumptions C64_fix_orientation.

(** As for simplices, the call always fails when only the last cube has no neighbour (a finding). *)
Theorem C64_isolated_last_cube_fails : forall row_leb sat n rows t, sat_contract sat -> 1 <= n -> cubes_ok n rows ->
  from_cubes row_leb true n rows = Ok t -> at_most_two n rows ->
  (exists j1 j2, adjacent n rows j1 j2) -> (forall j, ~ adjacent n rows j (length rows - 1)) ->
  fix_orientation row_leb sat t = Err ValueError.
Proof.
  intros row_leb sat n rows t SC Hn OK H AM (j1 & j2 & A) NA. destruct (from_cubes_ctop _ _ _ _ Hn OK H) as (_ & _ & _ & T).
  destruct (parity_cases n rows t Hn OK T AM sat SC) as [[NA' E]|[_ [[E N]|(p & E & C & L2 & L & _ & LL)]]].
  - exfalso. eapply NA'; eauto.
  - unfold COrModel.fix_orientation. rewrite E. reflexivity.
  - apply (fix_fails n rows t Hn T sat row_leb p E L2). intros Q. apply LL in Q as (j & Q). eapply NA; eauto.
Qed.
Print Assumptions C64_isolated_last_cube_fails.

(** [is_oriented] is sound on meshes with at most two cubes per face, and complete on connected ones. *)
Theorem C64_is_oriented_sound : forall row_leb sat n rows t, sat_contract sat -> 1 <= n -> cubes_ok n rows ->
  from_cubes row_leb true n rows = Ok t -> at_most_two n rows -> is_oriented sat t = Ok true -> consistent n rows.
Proof.
  intros row_leb sat n rows t SC Hn OK H AM. destruct (from_cubes_ctop _ _ _ _ Hn OK H) as (_ & _ & _ & T). apply (oriented_sound n rows t Hn OK T AM sat SC).
Qed.
Print Assumptions C64_is_oriented_sound.
Theorem C64_is_oriented_complete : forall row_leb sat n rows t, sat_contract sat -> 1 <= n -> cubes_ok n rows ->
  from_cubes row_leb true n rows = Ok t -> at_most_two n rows -> connected n rows -> consistent n rows -> is_oriented sat t = Ok true.
Proof.
  intros row_leb sat n rows t SC Hn OK H AM. destruct (from_cubes_ctop _ _ _ _ Hn OK H) as (_ & _ & _ & T). apply (oriented_complete n rows t Hn OK T AM sat SC).
Qed.
Print Assumptions C64_is_oriented_complete.

(** The result of [fix_orientation] is accepted by [is_oriented] when the mesh is connected. *)
Theorem C64_fixed_is_oriented : forall row_leb sat n rows t t', sat_contract sat -> 1 <= n -> cubes_ok n rows ->
  from_cubes row_leb true n rows = Ok t -> at_most_two n rows -> connected n rows ->
  fix_orientation row_leb sat t = Ok t' -> is_oriented sat t' = Ok true.
Proof.
  intros row_leb sat n rows t t' SC Hn OK H AM CN E. pose proof (from_cubes_ctop _ _ _ _ Hn OK H) as (_ & _ & _ & T).
  assert (HL : (exists j, adjacent n rows j (length rows - 1)) \/ (forall j1 j2, ~ adjacent n rows j1 j2)).
  { destruct (Nat.eq_dec (length rows) 1) as [L1|L1]; [right; intros j1 j2 (A & B & C & _); lia|]. assert (L0 : length rows <> 0) by (destruct OK as [N _]; destruct rows; simpl; congruence). left.
    specialize (CN (length rows - 1) ltac:(lia)). inversion CN; subst; [lia|]. eauto. }
  destruct (C64_fix_orientation _ _ _ _ _ SC Hn OK H AM HL) as [(rows' & t2 & E2 & _ & F & FM & C)|[E2 _]]; [|congruence]. rewrite E in E2. injection E2 as <-.
  destruct (mirrored_choose n rows rows' Hn FM) as (v & ->).
  apply (C64_is_oriented_complete row_leb sat n (choose n v rows) t' SC Hn); auto.
  - apply choose_cubes_ok; auto.
  - intros f j1 j2 j3. rewrite choose_length. intros H1 H2 H3 F1 F2 F3. rewrite choose_side in F1, F2, F3 by auto. eapply AM; eauto.
  - intros j. rewrite choose_length. intros Hj. specialize (CN j Hj). assert (G : forall a b, linked n rows a b -> linked n (choose n v rows) a b); [|auto].
    induction 1 as [|a b c L IH (A1 & A2 & A3 & f & F1 & F2)]; [constructor|]. apply linked_step with b; auto. unfold adjacent. rewrite !choose_length. repeat split; auto. exists f. rewrite !choose_side by auto. auto.
Qed.
Print Assumptions C64_fixed_is_oriented.

(** Decision procedures for concrete meshes, used in the examples. *)
Definition all_sides (n : nat) (c : cube) : list cube := flat_map (fun a => map (fun s => slice n a s c) [false; true]) (seq 0 n).
Lemma in_all_sides : forall n c g, In g (all_sides n c) <-> exists a s, a < n /\ g = slice n a s c.
Proof.
  intros. unfold all_sides. rewrite in_flat_map. split.
  - intros (a & Ha & H). apply in_seq in Ha. apply in_map_iff in H as (s & <- & _). exists a, s. split; auto. lia.
  - intros (a & s & Ha & ->). exists a. split; [apply in_seq; lia|]. apply in_map_iff. exists s. split; auto. destruct s; simpl; auto.
Qed.
Definition okb (n : nat) (rows : list cube) : bool := negb (length rows =? 0) && forallb (fun c => (length c =? 2 ^ n) && (length (nodup Nat.eq_dec c) =? length c)) rows.
Lemma nodup_len : forall l : list nat, length (nodup Nat.eq_dec l) = length l -> NoDup l.
Proof.
  induction l as [|a l IH]; simpl; intros H; [constructor|]. assert (U : length (nodup Nat.eq_dec l) <= length l) by (clear; induction l as [|a l IH]; simpl; auto; destruct (in_dec _ _ _); simpl; lia).
  destruct (in_dec _ _ _); simpl in H; [lia|]. constructor; auto.
Qed.
Lemma okb_ok : forall n rows, okb n rows = true -> cubes_ok n rows.
Proof.
  intros n rows H. unfold okb in H. apply andb_true_iff in H as [A B]. split; [intros ->; discriminate|]. apply Forall_forall. intros c Hc. rewrite forallb_forall in B. specialize (B _ Hc). apply andb_true_iff in B as [B1 B2]. apply Nat.eqb_eq in B1. apply Nat.eqb_eq in B2. split; auto using nodup_len.
Qed.
Definition consistentb (n : nat) (rows : list cube) : bool :=
  forallb (fun j1 => forallb (fun j2 => (j1 =? j2) ||
    forallb (fun g => (incn n g (nth j2 rows []) =? 0)%Z || (incn n g (nth j1 rows []) + incn n g (nth j2 rows []) =? 0)%Z) (all_sides n (nth j1 rows [])))
   (seq 0 (length rows))) (seq 0 (length rows)).
Lemma consistentb_ok : forall n rows, cubes_ok n rows -> (consistentb n rows = true <-> consistent n rows).
Proof.
  intros n rows OK. unfold consistentb, consistent. rewrite forallb_forall. split.
  - intros H j1 j2 H1 H2 Hne. destruct (row_ok n rows OK j1 H1) as [L1 N1]. destruct (row_ok n rows OK j2 H2) as [L2 N2]. apply (consistent_pair_incn n _ _ L1 N1 L2 N2).
    intros f F1 F2. specialize (H j1 ltac:(apply in_seq; lia)). rewrite forallb_forall in H. specialize (H j2 ltac:(apply in_seq; lia)). apply orb_true_iff in H as [H|H]; [apply Nat.eqb_eq in H; lia|]. rewrite forallb_forall in H.
    pose proof F1 as G. apply has_side_slice in G as (a & s & z & Ha & R). specialize (H (slice n a s (nth j1 rows [])) ltac:(apply in_all_sides; eauto)).
    assert (S1 : has_side n (nth j1 rows []) (slice n a s (nth j1 rows []))) by (apply has_side_slice; exists a, s, 1%Z; split; auto; constructor).
    assert (S2 : has_side n (nth j2 rows []) (slice n a s (nth j1 rows []))) by (eapply has_side_trans; [exact F2|]; apply related_sym; [exact R|apply slice_length]).
    rewrite (incn_related n _ _ f z L1 N1 S1 R), (incn_related n _ _ f z L2 N2 S2 R). apply orb_true_iff in H as [H|H]; apply Z.eqb_eq in H; [apply (proj2 (incn_nz n _ _ L2 N2)) in S2; congruence|]. destruct (related_sign _ _ _ _ R); subst z; lia.
  - intros C j1 H1. apply in_seq in H1. apply forallb_forall. intros j2 H2. apply in_seq in H2. apply orb_true_iff. destruct (Nat.eq_dec j1 j2) as [->|Hne]; [left; apply Nat.eqb_refl|right].
    apply forallb_forall. intros g Hg. apply in_all_sides in Hg as (a & s & Ha & ->). apply orb_true_iff. destruct (Z.eq_dec (incn n (slice n a s (nth j1 rows [])) (nth j2 rows [])) 0) as [->|Z0]; [left; auto|right]. apply Z.eqb_eq.
    destruct (row_ok n rows OK j1 ltac:(lia)) as [L1 N1]. destruct (row_ok n rows OK j2 ltac:(lia)) as [L2 N2]. specialize (C j1 j2 ltac:(lia) ltac:(lia) Hne). rewrite (consistent_pair_incn n _ _ L1 N1 L2 N2) in C.
    rewrite C; [lia| |apply incn_nz; auto]. apply has_side_slice. exists a, s, 1%Z. split; auto. constructor.
Qed.
Definition two_cubesb (n : nat) (rows : list cube) : bool :=
  forallb (fun j1 => forallb (fun g => length (filter (fun j => negb (incn n g (nth j rows []) =? 0)%Z) (seq 0 (length rows))) <=? 2) (all_sides n (nth j1 rows []))) (seq 0 (length rows)).
Lemma two_cubesb_ok : forall n rows, cubes_ok n rows -> two_cubesb n rows = true -> at_most_two n rows.
Proof.
  intros n rows OK H f j1 j2 j3 H1 H2 H3 F1 F2 F3. unfold two_cubesb in H. rewrite forallb_forall in H. specialize (H j1 ltac:(apply in_seq; lia)). rewrite forallb_forall in H.
  pose proof F1 as G. apply has_side_slice in G as (a & s & z & Ha & R). specialize (H (slice n a s (nth j1 rows [])) ltac:(apply in_all_sides; eauto)). apply Nat.leb_le in H.
  assert (I : forall j, j < length rows -> has_side n (nth j rows []) f -> In j (filter (fun j => negb (incn n (slice n a s (nth j1 rows [])) (nth j rows []) =? 0)%Z) (seq 0 (length rows)))).
  { intros j Hj F. apply filter_In. split; [apply in_seq; lia|]. apply negb_true_iff, Z.eqb_neq. destruct (row_ok n rows OK j Hj) as [L N]. apply (incn_nz n _ _ L N). eapply has_side_trans; [exact F|]. apply related_sym; [exact R|apply slice_length]. }
  pose proof (I _ H1 F1) as I1. pose proof (I _ H2 F2) as I2. pose proof (I _ H3 F3) as I3. destruct (Nat.eq_dec j1 j2) as [|D12]; auto. destruct (Nat.eq_dec j1 j3) as [|D13]; auto. destruct (Nat.eq_dec j2 j3) as [|D23]; auto. exfalso.
  assert (X : length [j1; j2; j3] <= length (filter (fun j => negb (incn n (slice n a s (nth j1 rows [])) (nth j rows []) =? 0)%Z) (seq 0 (length rows)))); [|simpl in X; lia].
  apply NoDup_incl_length; [constructor; [intros [Q|[Q|[]]]; congruence|constructor; [intros [Q|[]]; congruence|constructor; [intros []|constructor]]]|]. intros x [<-|[<-|[<-|[]]]]; auto.
Qed.
Definition adjb (n : nat) (c d : cube) : bool := existsb (fun g => negb (incn n g d =? 0)%Z) (all_sides n c).
Lemma adjb_ok : forall n rows j1 j2, cubes_ok n rows -> j1 < length rows -> j2 < length rows -> j1 <> j2 -> (adjb n (nth j1 rows []) (nth j2 rows []) = true <-> adjacent n rows j1 j2).
Proof.
  intros n rows j1 j2 OK H1 H2 Hne. destruct (row_ok n rows OK j2 H2) as [L2 N2]. unfold adjb, adjacent. rewrite existsb_exists. split.
  - intros (g & Hg & B). apply in_all_sides in Hg as (a & s & Ha & ->). apply negb_true_iff, Z.eqb_neq in B. repeat split; auto. exists (slice n a s (nth j1 rows [])). split; [apply has_side_slice; exists a, s, 1%Z; split; auto; constructor|apply incn_nz; auto].
  - intros (_ & _ & _ & f & F1 & F2). apply has_side_slice in F1 as (a & s & z & Ha & R). exists (slice n a s (nth j1 rows [])). split; [apply in_all_sides; eauto|]. apply negb_true_iff, Z.eqb_neq. apply (incn_nz n _ _ L2 N2). eapply has_side_trans; [exact F2|]. apply related_sym; [exact R|apply slice_length].
Qed.

(** Three quadrilaterals in a row, the middle one mirrored: not consistent, repaired by mirroring it back. *)
Definition strip : list cube := [[0;1;4;5]; [5;6;1;2]; [2;3;6;7]].
Example C64_example : sat_contract brute_sat /\ cubes_ok 2 strip /\ at_most_two 2 strip /\
  (exists j, adjacent 2 strip j 2) /\ ~ consistent 2 strip /\
  exists t t', from_cubes lex_leb true 2 strip = Ok t /\ is_oriented brute_sat t = Ok false /\ fix_orientation lex_leb brute_sat t = Ok t' /\
    nth 2 (elements t') [] = [[0;1;4;5]; [1;2;5;6]; [2;3;6;7]] /\ is_oriented brute_sat t' = Ok true.
Proof.
  assert (OK : cubes_ok 2 strip) by (apply okb_ok; reflexivity).
  split; [apply brute_sat_contract|]. split; auto. split; [apply two_cubesb_ok; auto; vm_compute; reflexivity|]. split; [exists 1; apply adjb_ok; simpl; auto; lia|].
  split; [rewrite <- consistentb_ok by auto; vm_compute; discriminate|].
  eexists. eexists. split; [vm_compute; reflexivity|]. split; [vm_compute; reflexivity|]. split; [vm_compute; reflexivity|]. split; vm_compute; reflexivity.
Qed.
(** Two cubes in three dimensions, one mirrored; connected and repaired. *)
Definition blocks : list cube := [[0;1;2;3;4;5;6;7]; [5;8;4;9;7;10;6;11]].
Example C64_example3 : cubes_ok 3 blocks /\ at_most_two 3 blocks /\ connected 3 blocks /\ ~ consistent 3 blocks /\
  consistent 3 [[0;1;2;3;4;5;6;7]; [7;10;6;11;5;8;4;9]] /\
  exists t t', from_cubes lex_leb true 3 blocks = Ok t /\ is_oriented brute_sat t = Ok false /\ fix_orientation lex_leb brute_sat t = Ok t' /\
    nth 3 (elements t') [] = [[0;1;2;3;4;5;6;7]; [7;10;6;11;5;8;4;9]].
Proof.
  assert (OK : cubes_ok 3 blocks) by (apply okb_ok; reflexivity).
  split; auto. split; [apply two_cubesb_ok; auto; vm_compute; reflexivity|].
  split; [intros [|[|j]] Hj; simpl in Hj; try lia; [constructor|]; apply linked_step with 0; [constructor|]; apply adjb_ok; simpl; auto; lia|].
  split; [rewrite <- consistentb_ok by auto; vm_compute; discriminate|].
  split; [apply consistentb_ok; [apply okb_ok; reflexivity|vm_compute; reflexivity]|].
  eexists. eexists. split; [vm_compute; reflexivity|]. split; [vm_compute; reflexivity|]. split; vm_compute; reflexivity.
Qed.

(** A Moebius strip of four quadrilaterals is rejected, as it should be. *)
Example C64_moebius : exists t, from_cubes lex_leb true 2 [[0;1;2;3];[2;3;4;5];[4;5;6;7];[6;7;1;0]] = Ok t /\
  is_oriented brute_sat t = Err ValueError /\ fix_orientation lex_leb brute_sat t = Err ValueError.
Proof. eexists. split; [vm_compute; reflexivity|]. split; vm_compute; reflexivity. Qed.

(** A consistently oriented mesh whose last quadrilateral is isolated is rejected by [fix_orientation]. *)
Definition isolated : list cube := [[0;1;2;3];[2;3;4;5];[6;7;8;9]].
Example C64_isolated_example : cubes_ok 2 isolated /\ at_most_two 2 isolated /\ consistent 2 isolated /\
  (exists j1 j2, adjacent 2 isolated j1 j2) /\ (forall j, ~ adjacent 2 isolated j 2) /\
  exists t, from_cubes lex_leb true 2 isolated = Ok t /\ is_oriented brute_sat t = Ok true /\ fix_orientation lex_leb brute_sat t = Err ValueError.
Proof.
  assert (OK : cubes_ok 2 isolated) by (apply okb_ok; reflexivity).
  split; auto. split; [apply two_cubesb_ok; auto; vm_compute; reflexivity|]. split; [apply consistentb_ok; auto; vm_compute; reflexivity|].
  split; [exists 0, 1; apply adjb_ok; simpl; auto; lia|].
  split; [intros j A; pose proof A as (B & _ & D & _); simpl in B; apply adjb_ok in A; auto; destruct j as [|[|[|]]]; simpl in *; try lia; vm_compute in A; discriminate|].
  eexists. split; [vm_compute; reflexivity|]. split; vm_compute; reflexivity.
Qed.
