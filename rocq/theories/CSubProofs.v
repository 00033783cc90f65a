(** Relabelled cubes, and relabelled selections of faces of a cubical topology. *)
Require Import List Arith ZArith Bool Lia Permutation Sorting.Sorted.
From Verif Require Import Util CombModel CombSpec CombProofs SimpModel SimpSpec ParProofs SimpProofs LevelProofs TopProofs CubeModel CubeSpec CubeBits CubeBd CubeRel CubeLevel CubeTop CubeChain.
From Verif Require Import BdryModel BdrySpec OrientProofs SubProofs SelProofs SelProps COrModel COrSpec COrProofs.
Import ListNotations.
Local Open Scope nat_scope.

(** ---- relabelling ---- *)
Section Relabel.
Variable phi : nat -> nat.
Lemma cget_map : forall n c bs, length c = 2 ^ n -> length bs = n -> cget (map phi c) bs = phi (cget c bs).
Proof. intros n c bs L Lb. unfold cget. apply nth_map_lt. rewrite L, <- Lb. apply ravel_lt. Qed.
Lemma cbuild_map : forall n f, map phi (cbuild n f) = cbuild n (fun bs => phi (f bs)).
Proof. intros. unfold cbuild. rewrite map_map. auto. Qed.
Lemma slice_map : forall n a s c, a < n -> length c = 2 ^ n -> slice n a s (map phi c) = map phi (slice n a s c).
Proof. intros n a s c Ha L. unfold slice. rewrite cbuild_map. apply cbuild_ext. intros bs Lb. apply (cget_map n); auto. rewrite insert_at_length. lia. Qed.
Lemma flip_map : forall n a c, length c = 2 ^ n -> flip n a (map phi c) = map phi (flip n a c).
Proof. intros n a c L. unfold CubeModel.flip. rewrite cbuild_map. apply cbuild_ext. intros bs Lb. apply (cget_map n); auto. rewrite flip_bit_length. auto. Qed.
Lemma swapc_map : forall n a c, length c = 2 ^ n -> swapc n a (map phi c) = map phi (swapc n a c).
Proof. intros n a c L. unfold swapc. rewrite cbuild_map. apply cbuild_ext. intros bs Lb. apply (cget_map n); auto. rewrite swap_bit_length. auto. Qed.
Lemma related_map : forall n z c d, related n z c d -> length c = 2 ^ n -> related n z (map phi c) (map phi d).
Proof.
  intros n z c d R. induction R as [c|a s c d e R IH Ha M|a s c d e R IH Ha M]; intros L; [constructor| |]; pose proof (related_length _ _ _ _ R L) as Ld.
  - apply mirrored_flip in M; auto. subst e. apply (related_mirror n a s _ (map phi d)); auto. rewrite <- flip_map by auto. apply flip_mirrored. auto.
  - apply swapped_swapc in M; auto. subst e. apply (related_swap n a s _ (map phi d)); auto. rewrite <- swapc_map by auto. apply swapc_swapped. auto.
Qed.
Lemma subcube_map : forall k n c f, subcube k n c f -> length c = 2 ^ n -> subcube k n (map phi c) (map phi f).
Proof.
  induction 1; intros L; [constructor|]. apply is_slice_slice in H0; [|lia]. subst d. apply (subcube_slice k n a s (map phi c) (map phi (slice (S n) a s c))); auto.
  - rewrite <- slice_map by (auto; lia). apply slice_is_slice. lia.
  - apply IHsubcube. rewrite slice_length. f_equal. lia.
Qed.
Lemma subcube_map_inv : forall k n c g, subcube k n (map phi c) g -> length c = 2 ^ n -> exists f, g = map phi f /\ subcube k n c f.
Proof.
  intros k n. induction n as [|n IH]; intros c g H L.
  - apply subcube_inv in H as [[-> <-]|[H _]]; [|lia]. exists c. split; auto. constructor.
  - apply subcube_inv in H as [[-> <-]|(Hk & a & s & Ha & H)]; [exists c; split; auto; constructor|]. rewrite slice_map in H by auto. replace (S n - 1) with n in H by lia.
    apply IH in H as (f & -> & Hf); [|rewrite slice_length; f_equal; lia]. exists f. split; auto. apply (subcube_step k (S n) c f a s); auto. replace (S n - 1) with n by lia. auto.
Qed.
End Relabel.

Lemma map_cancel : forall (phi psi : nat -> nat) c, (forall v, In v c -> psi (phi v) = v) -> map psi (map phi c) = c.
Proof. intros phi psi c H. rewrite map_map. rewrite <- (map_id c) at 2. apply map_ext_in. auto. Qed.
Lemma related_unmap : forall phi psi n z c d, related n z (map phi c) (map phi d) -> length c = 2 ^ n ->
  (forall v, In v c -> psi (phi v) = v) -> (forall v, In v d -> psi (phi v) = v) -> related n z c d.
Proof. intros phi psi n z c d R L C D. apply (related_map psi) in R; [|rewrite map_length; auto]. rewrite !map_cancel in R by auto. auto. Qed.
Lemma incn_map : forall phi psi n f c, length c = 2 ^ n -> NoDup c -> (forall v, In v c -> psi (phi v) = v) -> (forall v, In v f -> psi (phi v) = v) ->
  incn n (map phi f) (map phi c) = incn n f c.
Proof.
  intros phi psi n f c L ND C F.
  assert (L' : length (map phi c) = 2 ^ n) by (rewrite map_length; auto).
  assert (ND' : NoDup (map phi c)). { apply NoDup_map_inj; auto. intros x y Hx Hy E. rewrite <- (C x Hx), <- (C y Hy), E. auto. }
  destruct (Z.eq_dec (incn n f c) 0) as [E|E].
  - rewrite E. destruct (Z.eq_dec (incn n (map phi f) (map phi c)) 0) as [E'|E']; auto. exfalso. apply (incn_nz n _ _ L' ND') in E'. apply has_side_slice in E' as (a & s & z & Ha & R).
    rewrite slice_map in R by auto. apply (related_unmap phi psi) in R; auto; [|apply slice_length|intros v Hv; apply C; apply (slice_incl n a s c) in Hv; auto].
    apply (proj2 (incn_nz n c f L ND)); auto. apply has_side_slice. exists a, s, z. auto.
  - apply (incn_nz n _ _ L ND) in E. apply has_side_slice in E as (a & s & z & Ha & R). rewrite (incn_value n c f a s z Ha L ND R). apply (incn_value n _ _ a s z Ha L' ND'). rewrite slice_map by auto. apply related_map; auto. apply slice_length.
Qed.
Lemma subcube_trans : forall k m n c d f, subcube m n c d -> subcube k m d f -> subcube k n c f.
Proof. induction 1; intros H'; auto. apply (subcube_slice k n a s c d); auto. Qed.

(** ---- the correspondence, from what it needs only ---- *)
Lemma correspondence_gen : forall t b mapping k, k < length (elements t) -> length (elements b) = S k ->
  (forall d i, d <= k -> i < n_elements b d -> exists j, j < n_elements t d /\ Permutation (el t d j) (map (back mapping) (el b d i))) ->
  exists idx, find_correspondence t b mapping = Ok idx /\ length idx = S k /\
    forall d, d <= k -> length (nth d idx []) = n_elements b d /\
      forall i, i < n_elements b d ->
        let j := nth i (nth d idx []) 0 in
        j < n_elements t d /\ Permutation (el t d j) (map (back mapping) (el b d i)).
Proof.
  intros t b mapping k Lt Lb PE.
  assert (LC : length (combine (elements t) (elements b)) = S k) by (rewrite combine_length; lia).
  assert (NC : forall d, d <= k -> nth d (combine (elements t) (elements b)) ([], []) = (nth d (elements t) [], nth d (elements b) [])).
  { intros d Hd. revert d Hd LC. generalize (elements t) (elements b).
    clear. intros l. revert k. induction l as [|x l IH]; intros k0 [|y l'] d Hd; simpl; intros L; try lia.
    destruct d; auto. apply (IH (k0 - 1)); lia. }
  assert (INDEX : forall d, d <= k -> forall r, In r (nth d (elements b) []) ->
     In (isort Nat.leb (map (back mapping) r)) (map (isort Nat.leb) (nth d (elements t) []))).
  { intros d Hd r Hr. apply In_nth with (d := []) in Hr as (i & Hi & <-).
    destruct (PE d i Hd Hi) as (j & Hj & P). apply in_map_iff. exists (el t d j). split.
    - apply isort_nat_eq. auto.
    - apply nth_In; auto. }
  destruct (mapM_exists _ _ (fun Cc => npi_indices (map (isort Nat.leb) (fst Cc))
                    (map (fun r => isort Nat.leb (map (fun v => nth v mapping 0) r)) (snd Cc)))
       (combine (elements t) (elements b))) as (idx & E).
  { intros Cc Hin. apply In_nth with (d := ([], [])) in Hin as (d & Hd & <-). rewrite LC in Hd.
    rewrite NC by lia. cbn [fst snd]. unfold npi_indices. apply mapM_exists.
    intros x Hx. apply in_map_iff in Hx as (r & <- & Hr). cbn zeta.
    pose proof (INDEX d ltac:(lia) r Hr) as I. apply (index_of_lt _ list_eqb) in I; [|apply list_eqb_ok].
    apply Nat.ltb_lt in I. unfold back in I. rewrite I. eauto. }
  exists idx. unfold find_correspondence. split; [exact E|].
  apply mapM_nth in E as [L1 E]. rewrite LC in *. split; auto.
  intros d Hd. specialize (E d ([], []) [] ltac:(lia)). rewrite NC in E by auto. cbn [fst snd] in E.
  apply mapM_nth in E as [L2 E]. rewrite map_length in *. split; [exact L2|].
  intros i Hi. cbn zeta. specialize (E i [] 0 Hi). rewrite (nth_map_lt _ _ _ _ _ []) in E by auto.
  fold (el b d i) in E. fold (back mapping) in E.
  set (key := isort Nat.leb (map (back mapping) (el b d i))) in *.
  assert (I : In key (map (isort Nat.leb) (nth d (elements t) []))).
  { apply INDEX; auto. apply nth_In; auto. }
  pose proof (index_of_lt _ list_eqb _ _ list_eqb_ok I) as IL.
  pose proof (nth_index_of _ list_eqb _ _ [] list_eqb_ok I) as IN.
  rewrite map_length in IL. pose proof IL as IL2. apply Nat.ltb_lt in IL2.
  change (fun v => nth v mapping 0) with (back mapping) in E. fold key in E.
  cbv zeta in E. rewrite map_length, IL2 in E. injection E as E. rewrite <- E.
  split; [exact IL|].
  rewrite (nth_map_lt _ _ _ _ _ []) in IN by auto. unfold key in IN at 2. apply isort_nat_eq in IN. exact IN.
Qed.

(** ---- a relabelled selection of faces of a parent topology ---- *)
Section Sub.
Variable row_leb : list nat -> list nat -> bool.
Variables (n : nat) (rows : list cube) (t : topology).
Hypothesis Hn : 1 <= n.
Hypothesis H7 : n <= 7.
Hypothesis OK : cubes_ok n rows.
Hypothesis FM : forall k, 1 <= k < n -> faces_match k n rows.
Hypothesis T : ctop n rows t.
Variables (k : nat) (sel : list cube).
Hypothesis Hk : k <= n.
Hypothesis OKs : cubes_ok k sel.
Hypothesis Hsub : forall s, In s sel -> exists r g z, In r rows /\ subcube k n r g /\ related k z g s.
Definition smap : list nat := unique_nat (concat sel).

Lemma sub_down : forall d s f, In s sel -> subcube d k s f -> exists r g z, In r rows /\ subcube d n r g /\ related d z g f.
Proof.
  intros d s f Hs Hf. destruct (Hsub s Hs) as (r & g & z & Hr & Hg & R). destruct OK as [_ F]. rewrite Forall_forall in F. destruct (F r Hr) as [Lr _].
  destruct (subcube_related d k z g s f R (subcube_length _ _ _ _ Hg Lr) Hf) as (f' & z' & Hf' & R'). exists r, f', z'. split; auto. split; auto. eapply subcube_trans; eauto.
Qed.
Lemma crelabel_ok : cubes_ok k (relabel smap sel).
Proof.
  destruct OKs as [Hne F]. split.
  - intros E. apply (f_equal (@length _)) in E. unfold smap in E. rewrite (relabel_length sel) in E. destruct sel; simpl in *; try lia. congruence.
  - apply Forall_forall. intros s Hs. unfold relabel in Hs. apply in_map_iff in Hs as (s' & <- & Hs').
    rewrite Forall_forall in F. destruct (F s' Hs') as [L ND]. split; [rewrite map_length; auto|].
    apply NoDup_map_inj; auto. intros x y Hx Hy E.
    assert (Fm := sel_mapping sel s' Hs'). rewrite Forall_forall in Fm.
    apply (mono_inj _ _ (rank_mono sel)); auto.
Qed.
Lemma back_rank_sel : forall s v, In s sel -> In v s -> back smap (rank smap v) = v.
Proof. intros s v Hs Hv. apply (back_rank sel). apply mapping_in. eauto. Qed.
Lemma relabel_match : forall d, 1 <= d < n -> faces_match d k (relabel smap sel).
Proof.
  intros d Hd c1 c2 f g Hc1 Hc2 Hf Hg P. unfold relabel in Hc1, Hc2. apply in_map_iff in Hc1 as (s1 & <- & H1). apply in_map_iff in Hc2 as (s2 & <- & H2).
  destruct OKs as [_ F]. rewrite Forall_forall in F. destruct (F s1 H1) as [L1 N1]. destruct (F s2 H2) as [L2 N2]. destruct OK as [_ F0]. rewrite Forall_forall in F0.
  apply subcube_map_inv in Hf as (f' & -> & Hf); auto. apply subcube_map_inv in Hg as (g' & -> & Hg); auto.
  assert (C1 : forall v, In v f' -> back smap (rank smap v) = v) by (intros v Hv; apply (back_rank_sel s1); auto; eapply subcube_incl; eauto).
  assert (C2 : forall v, In v g' -> back smap (rank smap v) = v) by (intros v Hv; apply (back_rank_sel s2); auto; eapply subcube_incl; eauto).
  fold (rank smap) in P. apply (Permutation_map (back smap)) in P. rewrite !map_cancel in P by auto.
  destruct (sub_down d s1 f' H1 Hf) as (r1 & g1 & z1 & Hr1 & Hg1 & R1). destruct (sub_down d s2 g' H2 Hg) as (r2 & g2 & z2 & Hr2 & Hg2 & R2).
  destruct (F0 r1 Hr1) as [Lr1 _]. destruct (F0 r2 Hr2) as [Lr2 _]. pose proof (subcube_length _ _ _ _ Hg1 Lr1) as Lg1. pose proof (subcube_length _ _ _ _ Hg2 Lr2) as Lg2.
  destruct (FM d Hd r1 r2 g1 g2 Hr1 Hr2 Hg1 Hg2) as (z & R).
  - eapply perm_trans; [apply (related_perm _ _ _ _ R1 Lg1)|]. eapply perm_trans; [exact P|]. apply Permutation_sym, (related_perm _ _ _ _ R2 Lg2).
  - exists (z1 * (z * z2))%Z. apply related_map; [|apply (subcube_length _ _ _ _ Hf L1)]. eapply related_trans; [apply related_sym; [exact R1|auto]|]. eapply related_trans; eauto.
Qed.

(** What is known about the sub-topology, including dimension zero. *)
Record sub_top (b : topology) : Prop := {
  st_from : from_cubes row_leb true k (relabel smap sel) = Ok b;
  st_lenE : length (elements b) = S k;
  st_dim : n_dim b = k;
  st_verts : nth 0 (elements b) [] = map (fun v => [v]) (seq 0 (n_elements b 0));
  st_top : k = 0 \/ nth k (elements b) [] = relabel smap sel;
  st_topk : 1 <= k -> ctop k (relabel smap sel) b;
  st_elems : forall d i, d <= k -> i < n_elements b d -> exists s f z, In s sel /\ subcube d k s f /\ related d z f (map (back smap) (el b d i));
  st_faces : forall d s f, In s sel -> subcube d k s f -> exists i z, i < n_elements b d /\ related d z f (map (back smap) (el b d i));
  st_range : forall d i v, d <= k -> i < n_elements b d -> In v (el b d i) -> v < length smap;
  st_dist : forall d i j, d < k -> i < n_elements b d -> j < n_elements b d -> Permutation (el b d i) (el b d j) -> i = j;
  st_n0 : n_elements b 0 = length smap
}.
Lemma sub_pos : 1 <= k -> exists b, sub_top b.
Proof.
  intros Hk1. destruct (from_cubes_cases row_leb k (relabel smap sel) Hk1 crelabel_ok) as [X _].
  destruct X as (b & E & Tb); [lia|intros d Hd; apply relabel_match; lia|exists (length smap); intros v; apply (relabel_verts sel)|].
  assert (RG : forall d i v, d <= k -> i < n_elements b d -> In v (el b d i) -> v < length smap).
  { intros d i v Hd Hi Hv. destruct (c_listed k _ b Hk1 Tb (k - d) d ltac:(lia)) as [X _]. destruct (X i Hi) as (c & g & z & Hc & Hg & R).
    destruct crelabel_ok as [_ F]. rewrite Forall_forall in F. destruct (F c Hc) as [Lc _].
    apply (relabel_verts sel). apply in_concat. exists c. split; auto. apply (subcube_incl _ _ _ _ Hg Lc). eapply Permutation_in; [apply Permutation_sym, (related_perm _ _ _ _ R)|exact Hv]. apply (subcube_length _ _ _ _ Hg Lc). }
  exists b. constructor; auto.
  - apply (ct_lenE _ _ _ Tb).
  - apply (ct_lenO _ _ _ Tb).
  - apply (ct_verts _ _ _ Tb).
  - right. apply (ct_top _ _ _ Tb).
  - intros d i Hd Hi. destruct (c_listed k _ b Hk1 Tb (k - d) d ltac:(lia)) as [X _]. destruct (X i Hi) as (c & g & z & Hc & Hg & R).
    unfold relabel in Hc. apply in_map_iff in Hc as (s & <- & Hs). destruct OKs as [_ F]. rewrite Forall_forall in F. destruct (F s Hs) as [Ls _].
    apply subcube_map_inv in Hg as (f & -> & Hf); auto. exists s, f, z. split; auto. split; auto. apply (related_map (back smap)) in R; [|rewrite map_length; apply (subcube_length _ _ _ _ Hf Ls)].
    fold (rank smap) in R. rewrite (map_cancel (rank smap)) in R; [exact R|]. intros v Hv. apply (back_rank_sel s); auto. apply (subcube_incl _ _ _ _ Hf Ls). auto.
  - intros d s f Hs Hf. pose proof (subcube_le _ _ _ _ Hf) as Hd. destruct (c_listed k _ b Hk1 Tb (k - d) d ltac:(lia)) as [_ X]. destruct OKs as [_ F]. rewrite Forall_forall in F. destruct (F s Hs) as [Ls _].
    destruct (X (map (rank smap) s) (map (rank smap) f)) as (i & z & Hi & R); [unfold relabel; apply in_map_iff; exists s; auto|apply subcube_map; auto|].
    exists i, z. split; auto. apply (related_map (back smap)) in R; [|rewrite map_length; apply (subcube_length _ _ _ _ Hf Ls)]. rewrite (map_cancel (rank smap)) in R; [exact R|]. intros v Hv. apply (back_rank_sel s); auto. apply (subcube_incl _ _ _ _ Hf Ls). auto.
  - intros d i j Hd Hi Hj P. apply (c_distinct k _ b Tb d); auto. lia.
  - pose proof (ct_vused _ _ _ Tb) as V. pose proof (relabel_verts sel) as W. fold smap in W.
    assert (X : forall v, v < n_elements b 0 <-> v < length smap) by (intros v; specialize (V v); specialize (W v); fold smap in W; tauto). destruct (Nat.lt_total (n_elements b 0) (length smap)) as [L|[L|L]]; auto; exfalso; apply X in L; lia.
Qed.
Lemma sub_zero : k = 0 -> StronglySorted lt (concat sel) -> exists b, sub_top b.
Proof.
  intros K0 SS. destruct OKs as [_ F]. rewrite Forall_forall in F.
  assert (E1 : sel = map (fun v => [v]) (concat sel)).
  { clear SS. clear Hsub OKs. induction sel as [|c l IH]; auto. destruct (F c (or_introl eq_refl)) as [L _]. rewrite K0 in L. destruct c as [|v [|]]; simpl in L; try lia. simpl. f_equal. apply IH. intros; apply F; right; auto. }
  assert (U : smap = concat sel). { unfold smap. apply sorted_same_eq; auto; [apply unique_nat_sorted|]. intros v. apply unique_nat_in. }
  assert (RL : relabel smap sel = map (fun v => [v]) (seq 0 (length smap))).
  { unfold relabel. rewrite E1 at 1. rewrite map_map. cbn [map]. rewrite <- U.
    assert (G : map (rank smap) smap = seq 0 (length smap)).
    { apply nth_ext with (d := 0) (d' := 0); [rewrite map_length, seq_length; auto|]. intros i Hi. rewrite map_length in Hi. rewrite (nth_map_lt _ _ _ _ _ 0) by auto. rewrite seq_nth by auto. apply (rank_back sel). auto. }
    rewrite <- G, map_map. auto. }
  assert (EB : from_cubes row_leb true k (relabel smap sel) = Ok (mkTop [relabel smap sel] [] [])).
  { rewrite K0. unfold from_cubes. cbn [build_cubes bind]. unfold make_topology. cbn [nth]. rewrite RL. rewrite concat_singletons, map_length, seq_length. rewrite (proj2 (list_eqb_eq _ _) eq_refl). auto. }
  exists (mkTop [relabel smap sel] [] []).
  assert (N0 : n_elements (mkTop [relabel smap sel] [] []) 0 = length smap) by (unfold n_elements; cbn; rewrite RL, map_length, seq_length; auto).
  assert (EL : forall i, i < length smap -> el (mkTop [relabel smap sel] [] []) 0 i = [i]) by (intros i Hi; unfold el; cbn; rewrite RL; apply nth_map_seq; auto).
  constructor; auto.
  - cbn. lia.
  - rewrite N0. exact RL.
  - lia.
  - intros d i Hd Hi. assert (d = 0) by lia. subst d. rewrite N0 in Hi. rewrite EL by auto. cbn [map]. exists [back smap i], [back smap i], 1%Z. split; [|split; [rewrite K0; constructor|constructor]].
    rewrite E1. apply in_map_iff. exists (back smap i). split; auto. rewrite <- U. apply nth_In. auto.
  - intros d s f Hs Hf. pose proof (subcube_le _ _ _ _ Hf). assert (d = 0) by lia. subst d. rewrite K0 in Hf. apply subcube_top in Hf. subst f. rewrite E1 in Hs. apply in_map_iff in Hs as (v & <- & Hv). rewrite <- U in Hv.
    exists (rank smap v), 1%Z. assert (RLt : rank smap v < length smap) by (apply (rank_lt sel); exact Hv). rewrite N0. split; auto. rewrite EL by auto. cbn [map]. unfold smap. rewrite (back_rank sel) by exact Hv. constructor.
  - intros d i v Hd Hi Hv. assert (d = 0) by lia. subst d. rewrite N0 in Hi. rewrite EL in Hv by auto. destruct Hv as [<-|[]]. auto.
  - intros. lia.
Qed.

Variable b : topology.
Hypothesis S : sub_top b.
Lemma sub_parent : forall d i, d <= k -> i < n_elements b d ->
  exists j z, j < n_elements t d /\ related d z (el t d j) (map (back smap) (el b d i)).
Proof.
  intros d i Hd Hi. destruct (st_elems b S d i Hd Hi) as (s & f & z & Hs & Hf & R). destruct (sub_down d s f Hs Hf) as (r & g & z' & Hr & Hg & R').
  destruct OK as [_ F]. rewrite Forall_forall in F. destruct (F r Hr) as [Lr _]. pose proof (subcube_length _ _ _ _ Hg Lr) as Lg.
  destruct (c_listed n rows t Hn T (n - d) d ltac:(lia)) as [_ X]. destruct (X r g Hr Hg) as (j & z2 & Hj & R2). exists j, (z2 * (z' * z))%Z. split; auto. eapply related_trans; [apply related_sym; [exact R2|auto]|]. eapply related_trans; eauto.
Qed.
Lemma t_len : forall d j, d <= n -> j < n_elements t d -> length (el t d j) = 2 ^ d /\ NoDup (el t d j).
Proof. intros d j Hd Hj. apply (c_len n rows t Hn T d); auto. apply nth_In. auto. Qed.
Lemma sub_correspondence : exists idx, find_correspondence t b smap = Ok idx /\ length idx = Datatypes.S k /\
  forall d, d <= k -> length (nth d idx []) = n_elements b d /\
    forall i, i < n_elements b d ->
      let j := nth i (nth d idx []) 0 in
      j < n_elements t d /\ Permutation (el t d j) (map (back smap) (el b d i)).
Proof.
  apply correspondence_gen.
  - rewrite (ct_lenE _ _ _ T). lia.
  - apply (st_lenE b S).
  - intros d i Hd Hi. destruct (sub_parent d i Hd Hi) as (j & z & Hj & R). exists j. split; auto. apply (related_perm _ _ _ _ R). apply t_len; auto. lia.
Qed.
(** Elements below the top dimension correspond up to orientation, and uniquely. *)
Lemma sub_unique : forall d i j, d <= k -> d < n -> i < n_elements b d -> j < n_elements t d ->
  Permutation (el t d j) (map (back smap) (el b d i)) -> exists z, related d z (el t d j) (map (back smap) (el b d i)).
Proof.
  intros d i j Hd Hdn Hi Hj P. destruct (sub_parent d i Hd Hi) as (j' & z & Hj' & R). assert (j = j'); [|subst; eauto].
  apply (c_distinct n rows t T d); auto; [lia|]. eapply perm_trans; [exact P|]. apply Permutation_sym, (related_perm _ _ _ _ R). apply t_len; auto. lia.
Qed.
Lemma sub_back_inj : forall d i j, d <= k -> i < n_elements b d -> j < n_elements b d ->
  Permutation (map (back smap) (el b d i)) (map (back smap) (el b d j)) -> Permutation (el b d i) (el b d j).
Proof.
  intros d i j Hd Hi Hj P. apply (perm_map_inj (back smap) (fun v => v < length smap)); auto.
  - apply (mono_inj _ _ (back_mono sel)).
  - apply Forall_forall. intros v Hv. apply (st_range b S d i v); auto.
  - apply Forall_forall. intros v Hv. apply (st_range b S d j v); auto.
Qed.
Lemma sub_el0 : forall v, v < n_elements b 0 -> el b 0 v = [v].
Proof. intros v Hv. unfold el. rewrite (st_verts b S). rewrite nth_map_seq by auto. auto. Qed.
Lemma sub_idx0 : forall idx, length (nth 0 idx []) = n_elements b 0 -> (forall i, i < n_elements b 0 -> let j := nth i (nth 0 idx []) 0 in j < n_elements t 0 /\ Permutation (el t 0 j) (map (back smap) (el b 0 i))) ->
  nth 0 idx [] = smap.
Proof.
  intros idx L X. rewrite (st_n0 b S) in *. apply nth_ext with (d := 0) (d' := 0); auto. intros i Hi. rewrite L in Hi. specialize (X i Hi). cbv zeta in X. destruct X as [X1 X2].
  rewrite sub_el0 in X2 by (rewrite (st_n0 b S); auto). cbn [map] in X2. unfold el in X2. rewrite (ct_verts _ _ _ T) in X2. rewrite nth_map_seq in X2 by auto. apply Permutation_length_1 in X2. auto.
Qed.
End Sub.
