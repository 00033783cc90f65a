(** The domains of a topology and the labels of its subdivision. *)
Require Import List Arith ZArith Bool Lia Permutation Sorting.Sorted.
From Verif Require Import Util CombModel CombSpec CombProofs SimpModel SimpSpec SimpProofs BdryModel BdryProofs SubdModel FundProofs SubProofs SelProps OrientProofs BdryProps ParProofs LevelProofs.
From Verif Require Import CubeModel CubeSpec CubeBits CubeBd CubeRel CubeLevel CubeTop CubeChain CDomModel CDomBits CDomProofs.
Import ListNotations.
Local Open Scope nat_scope.

Lemma bits_eqb_eq : forall a b, bits_eqb a b = true <-> a = b.
Proof.
  induction a as [|x a IH]; destruct b as [|y b]; simpl; split; intros H; try discriminate; auto.
  - apply andb_prop in H as [H1 H2]. apply eqb_prop in H1. apply IH in H2. congruence.
  - injection H as -> ->. rewrite eqb_reflx. apply IH. auto.
Qed.
Lemma fold_write : forall (writes : list (bits * list nat)) a b v (D : domain),
  (forall w, In w writes -> map negb (fst w) = b -> nth (ravel (restrict (fst w) a)) (snd w) 0 = v) ->
  (exists w, In w writes /\ map negb (fst w) = b) \/ D a b = Some v ->
  fold_left (fun D w => write (map negb (fst w)) (fun a => nth (ravel (restrict (fst w) a)) (snd w) 0) D) writes D a b = Some v.
Proof.
  induction writes as [|w ws IH]; intros a b v D H X.
  - destruct X as [(w & [] & _)|X]; auto.
  - cbn [fold_left]. apply IH; [intros; apply H; auto; right; auto|].
    destruct (bits_eqb b (map negb (fst w))) eqn:E.
    + right. unfold write. rewrite E. f_equal. apply H; [left; auto|]. apply bits_eqb_eq in E. auto.
    + destruct X as [(w' & [<-|Hw] & Ew)|X]; [exfalso; rewrite (proj2 (bits_eqb_eq _ _)) in E; auto; discriminate|left; eauto|right]. unfold write. rewrite E. auto.
Qed.
Lemma offset_S : forall t k, offset t (S k) = offset t k + n_elements t k.
Proof. intros. unfold offset. rewrite seq_S, map_app. cbn [map]. rewrite list_sum_app. simpl. lia. Qed.
Lemma offset_mono : forall t k k', k <= k' -> offset t k <= offset t k'.
Proof. intros t k k' H. induction H; auto. rewrite offset_S. lia. Qed.
Lemma combine_maps : forall A B C (f : A -> B) (g : A -> C) l, combine (map f l) (map g l) = map (fun x => (f x, g x)) l.
Proof. induction l; simpl; f_equal; auto. Qed.
Lemma negb_negb : forall b, map negb (map negb b) = b.
Proof. intros. rewrite map_map. rewrite <- (map_id b) at 2. apply map_ext. apply negb_involutive. Qed.
Lemma bit_sum_repeat : forall b n, bit_sum (repeat b n) = nat_of b * n.
Proof. induction n; [destruct b; auto|]. cbn [repeat]. rewrite bit_sum_cons, IHn. destruct b; simpl; lia. Qed.
Lemma empty_bits : forall b, bit_sum b = 0 -> b = repeat false (length b).
Proof. induction b as [|[] b IH]; intros H; rewrite ?bit_sum_cons in H; cbn [nat_of Nat.add length repeat] in *; auto; [discriminate|]. f_equal. auto. Qed.

Section Top.
Variables (n : nat) (rows : list cube) (t : topology).
Hypothesis Hn : 1 <= n.
Hypothesis OK : cubes_ok n rows.
Hypothesis T : ctop n rows t.

Lemma row_facts : forall r, In r rows -> length r = 2 ^ n /\ NoDup r.
Proof. destruct OK as [_ F]. rewrite Forall_forall in F. auto. Qed.
Lemma dim_t : n_dim t = n.
Proof. unfold n_dim. apply (ct_lenO _ _ _ T). Qed.

(** A cube of the mesh or of one of its faces. *)
Definition inside (k : nat) (C : cube) : Prop := exists r, In r rows /\ exists g, subcube k n r g /\ Permutation g C.
(** Number of the element with these corners. *)
Definition eidx (k : nat) (C : cube) : nat := index_of list_eqb (isort Nat.leb C) (map (isort Nat.leb) (nth k (elements t) [])).

Lemma eidx_ok : forall k C, k <= n -> inside k C -> eidx k C < n_elements t k /\ Permutation (el t k (eidx k C)) C.
Proof.
  intros k C Hk (r & Hr & g & S & P). destruct (c_listed n rows t Hn T (n - k) k ltac:(lia)) as [_ H]. destruct (H r g Hr S) as (i & s & Hi & R).
  assert (P2 : Permutation (nth i (nth k (elements t) []) []) C).
  { eapply perm_trans; [apply Permutation_sym; apply (related_perm _ _ _ _ R)|exact P]. apply (subcube_length _ _ _ _ S). apply row_facts. auto. }
  assert (J : In (isort Nat.leb C) (map (isort Nat.leb) (nth k (elements t) []))) by (apply in_map_iff; exists (nth i (nth k (elements t) []) []); split; [apply isort_nat_eq; auto|apply nth_In; auto]).
  pose proof (index_of_lt _ _ _ _ list_eqb_ok J) as H1. rewrite map_length in H1. split; [exact H1|].
  pose proof (nth_index_of _ _ _ _ [] list_eqb_ok J) as H2. rewrite (nth_map_lt _ _ _ _ _ []) in H2 by exact H1. apply isort_nat_eq in H2. exact H2.
Qed.
Lemma eidx_unique : forall k C i, k < n -> i < n_elements t k -> inside k C -> Permutation (el t k i) C -> i = eidx k C.
Proof.
  intros k C i Hk Hi I P. destruct (eidx_ok k C ltac:(lia) I) as [H1 H2]. apply (c_distinct n rows t T k); auto; [lia|]. eapply perm_trans; [exact P|apply Permutation_sym; exact H2].
Qed.
Lemma eidx_perm : forall k C C', Permutation C C' -> eidx k C = eidx k C'.
Proof. intros k C C' P. unfold eidx. f_equal. apply isort_nat_eq. auto. Qed.
Lemma eidx_eq : forall k C C', k < n -> inside k C -> inside k C' -> (eidx k C = eidx k C' <-> Permutation C C').
Proof.
  intros k C C' Hk I I'. split; [|apply eidx_perm]. intros E. destruct (eidx_ok k C ltac:(lia) I) as [_ P]. destruct (eidx_ok k C' ltac:(lia) I') as [_ P'].
  eapply perm_trans; [apply Permutation_sym; exact P|]. rewrite E. exact P'.
Qed.
Lemma cell_inside : forall r a b, In r rows -> length a = n -> length b = n -> inside (bit_sum b) (cell r a b).
Proof. intros r a b Hr Ha Hb. exists r. split; auto. exists (cell r a b). split; auto. apply cell_subcube; auto. apply row_facts. auto. Qed.
Lemma element_indices_cubes : forall k B, k <= n -> (forall C, In C B -> inside k C) -> element_indices (nth k (elements t) []) B = Ok (map (eidx k) B).
Proof.
  intros k B Hk F. unfold element_indices, npi_indices. rewrite mapM_map. apply mapM_map_ok. intros C HC. destruct (eidx_ok k C Hk (F C HC)) as [H _].
  unfold eidx in *. unfold n_elements in H. rewrite map_length. rewrite (proj2 (Nat.ltb_lt _ _) H). auto.
Qed.

(** The number of the cell spanned by [b] through corner [a] of cube [j]. *)
Definition didx (j : nat) (a b : bits) : nat := if bit_sum b =? n then j else eidx (bit_sum b) (cell (nth j rows []) a b).

Lemma cube_domains_ok : forall j, j < length rows -> exists D, cube_domains t n j = Ok D /\
  forall a b, length a = n -> length b = n -> D a b = Some (didx j a b).
Proof.
  intros j Hj. unfold cube_domains. rewrite (ct_top _ _ _ T). set (E := nth j rows []). assert (HE : In E rows) by (apply nth_In; auto). destruct (row_facts E HE) as [LE NDE].
  set (jobs := flat_map _ _). set (val := fun job : nat * bits * list cube => (snd (fst job), map (eidx (n - fst (fst job))) (snd job))).
  assert (Hjobs : forall job, In job jobs <-> exists d pa, 1 <= d < n /\ In pa (combinations d (seq 0 n)) /\ job = (d, axes_corner n (snd pa), map (face_of n d E pa) (corners d))).
  { intros job. unfold jobs. rewrite in_flat_map. split.
    - intros (d & Hd & Hx). apply in_seq in Hd. rewrite generate_faces, combine_maps, map_map in Hx. apply in_map_iff in Hx as (pa & <- & Hpa). exists d, pa. repeat split; auto; lia.
    - intros (d & pa & Hd & Hpa & ->). exists d. split; [apply in_seq; lia|]. rewrite generate_faces, combine_maps, map_map. apply in_map_iff. exists pa. split; auto. }
  assert (EM : mapM (fun job : nat * bits * list cube => do idx <- element_indices (nth (n - fst (fst job)) (elements t) []) (snd job); Ok (snd (fst job), idx)) jobs = Ok (map val jobs)).
  { apply mapM_map_ok. intros job Hjob. apply Hjobs in Hjob as (d & pa & Hd & Hpa & ->). cbn [fst snd]. rewrite element_indices_cubes; [reflexivity|lia|].
    intros C HC. apply in_map_iff in HC as (side & <- & Hs). apply corners_in in Hs.
    assert (Hx : In (snd pa) (map snd (combinations d (seq 0 n)))) by (apply in_map; auto). apply (proj1 (combos_seq n d (snd pa) ltac:(lia))) in Hx as (SS & Lx & Fx).
    set (c := axes_corner n (snd pa)). assert (Lc : length c = n) by apply axes_corner_length. assert (Bc : bit_sum c = d) by (unfold c; rewrite axes_bit_sum; auto).
    set (a := place c (repeat false n) side). assert (La : length a = n) by (unfold a; rewrite place_length; auto).
    assert (Ra : restrict c a = side) by (apply restrict_place; rewrite ?repeat_length; lia).
    pose proof (face_of_cell n d E pa a LE NDE ltac:(lia) La Hpa) as P. fold c in P. rewrite Ra in P.
    exists E. split; auto. exists (cell E a (map negb c)). split; auto. replace (n - d) with (bit_sum (map negb c)) by (rewrite bit_sum_neg; lia). apply cell_subcube; auto. rewrite map_length. auto. }
  rewrite EM. cbn [bind]. eexists. split; [reflexivity|]. intros a b La Lb. apply fold_write.
  - intros w Hw Ew. apply in_map_iff in Hw as (job & <- & Hjob). apply Hjobs in Hjob as (d & pa & Hd & Hpa & ->). cbn [val fst snd] in *.
    assert (Hx : In (snd pa) (map snd (combinations d (seq 0 n)))) by (apply in_map; auto). apply (proj1 (combos_seq n d (snd pa) ltac:(lia))) in Hx as (SS & Lx & Fx).
    assert (Bb : bit_sum b = n - d) by (rewrite <- Ew, bit_sum_neg, axes_corner_length, axes_bit_sum, Lx; auto).
    unfold didx. rewrite Bb. destruct (n - d =? n) eqn:Q; [apply Nat.eqb_eq in Q; lia|]. rewrite map_map. rewrite nth_ravel_corners by (rewrite restrict_axes by auto; rewrite map_length; auto).
    apply eidx_perm. fold E. rewrite <- Ew. apply Permutation_sym. apply face_of_cell; auto. lia.
  - destruct (Nat.eq_dec (bit_sum b) n) as [B1|B1]; [|destruct (Nat.eq_dec (bit_sum b) 0) as [B0|B0]].
    + right. unfold write. assert (Eb : b = repeat true n) by (rewrite <- Lb; apply full_bits; lia).
      replace (bits_eqb b (repeat false n)) with false by (symmetry; apply not_true_iff_false; intros Q; apply bits_eqb_eq in Q; rewrite Q, bit_sum_repeat in B1; simpl in B1; lia).
      rewrite (proj2 (bits_eqb_eq _ _) Eb). unfold didx. rewrite B1, Nat.eqb_refl. auto.
    + right. unfold write. assert (Eb : b = repeat false n) by (rewrite <- Lb; apply empty_bits; auto). rewrite (proj2 (bits_eqb_eq _ _) Eb). f_equal. unfold didx. rewrite B0. destruct (0 =? n) eqn:Q; [apply Nat.eqb_eq in Q; lia|].
      assert (V : cget E a < n_elements t 0) by (apply (ct_vused _ _ _ T); apply in_concat; exists E; split; auto; apply (cget_in n); auto).
      apply eidx_unique; auto; [rewrite <- B0; apply cell_inside; auto|]. unfold el. rewrite (ct_verts _ _ _ T). rewrite nth_map_seq by auto.
      assert (EC : cell (nth j rows []) a b = [cget E a]); [|rewrite EC; auto].
      pose proof (cell_length E a b) as CL. rewrite B0 in CL. fold E. destruct (cell E a b) as [|x [|]] eqn:EC; try discriminate. pose proof (cell_self n E a b Lb La) as S. rewrite EC in S. destruct S as [S|[]]; subst; auto.
    + left. pose proof (bit_sum_le b) as Ble. set (axes := filter (fun i => negb (nth i b false)) (seq 0 n)).
      assert (SS : StronglySorted lt axes) by apply StronglySorted_filter, seq_sorted.
      assert (Fx : Forall (fun a => a < n) axes) by (apply Forall_forall; intros x Hx; apply filter_In in Hx as [Hx _]; apply in_seq in Hx; lia).
      assert (EC : map negb (axes_corner n axes) = b).
      { apply (bits_ext n); auto; [rewrite map_length, axes_corner_length; auto|]. intros i Hi. rewrite (nth_map_lt _ _ _ _ _ false) by (rewrite axes_corner_length; auto). rewrite nth_axes_corner by auto.
        destruct (existsb (Nat.eqb i) axes) eqn:Ex.
        - apply existsb_eqb in Ex. apply filter_In in Ex as [_ Ex]. destruct (nth i b false); auto; discriminate.
        - destruct (nth i b false) eqn:Eb; auto. exfalso. apply not_true_iff_false in Ex. apply Ex, existsb_eqb, filter_In. split; [apply in_seq; lia|]. rewrite Eb. auto. }
      set (d := n - bit_sum b). assert (Lx : length axes = d).
      { rewrite <- (axes_bit_sum n axes SS Fx). rewrite <- (negb_negb (axes_corner n axes)), EC, bit_sum_neg. unfold d. lia. }
      assert (Hx : In axes (map snd (combinations d (seq 0 n)))) by (apply combos_seq; unfold d in *; try lia; auto). apply in_map_iff in Hx as (pa & Epa & Hpa).
      exists (val (d, axes_corner n (snd pa), map (face_of n d E pa) (corners d))). split; [apply in_map, Hjobs; exists d, pa; repeat split; auto; unfold d; lia|]. cbn [val fst snd]. rewrite Epa. auto.
Qed.

Lemma cubical_domains_ok : exists Ds, cubical_domains t = Ok Ds /\ length Ds = length rows /\
  forall j a b, j < length rows -> length a = n -> length b = n -> nth j Ds (fun _ _ => None) a b = Some (didx j a b).
Proof.
  unfold cubical_domains. rewrite dim_t. assert (EN : n_elements t n = length rows) by (unfold n_elements; rewrite (ct_top _ _ _ T); auto). rewrite EN.
  destruct (mapM_ok_map _ _ (cube_domains t n) (seq 0 (length rows))) as (Ds & E & L & H); [intros j Hj; apply in_seq in Hj; destruct (cube_domains_ok j ltac:(lia)) as (D & ED & _); eauto|].
  rewrite seq_length in L, H. exists Ds. split; auto. split; auto. intros j a b Hj La Lb. specialize (H j Hj 0 (fun _ _ => None)). rewrite seq_nth in H by auto. cbn [Nat.add] in H.
  destruct (cube_domains_ok j Hj) as (D & ED & HD). rewrite ED in H. injection H as <-. auto.
Qed.
End Top.
