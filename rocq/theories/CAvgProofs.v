(** Lemmas for C69: accumulated operators of cubical topologies. *)
Require Import List Arith ZArith Bool Lia Permutation.
From Verif Require Import Util CombModel CombSpec CombProofs SimpModel SimpSpec ParProofs SimpProofs LevelProofs.
From Verif Require Import CubeModel CubeSpec CubeBits CubeBd CubeRel CubeTop CubeChain COrSpec COrProofs CDomBits CDomProofs CDomTop CDomSub CDomOrient CAvgSpec.
From Verif Require Import BdryModel BdrySpec OrientProofs AvgModel AvgProofs.
Import ListNotations.
Local Open Scope nat_scope.

Definition seteq (a b : list nat) : bool := inclb a b && inclb b a.
Definition faceb (k n : nat) (c e : cube) : bool :=
  existsb (fun a => existsb (fun b => (bit_sum b =? k) && seteq (cell c a b) e) (corners n)) (corners n).
Lemma seteq_perm : forall a b, NoDup a -> NoDup b -> (seteq a b = true <-> Permutation a b).
Proof.
  intros a b Ha Hb. unfold seteq. rewrite andb_true_iff, !inclb_iff. split.
  - intros [H1 H2]. apply NoDup_Permutation; auto. intros x. split; auto.
  - intros P. split; intros x; apply Permutation_in; auto. apply Permutation_sym; auto.
Qed.
Lemma faceb_perm : forall k n c e, length c = 2 ^ n -> NoDup c -> NoDup e ->
  (faceb k n c e = true <-> exists a b, length a = n /\ length b = n /\ bit_sum b = k /\ Permutation (cell c a b) e).
Proof.
  intros k n c e L ND NE. unfold faceb. rewrite existsb_exists. split.
  - intros (a & Ha & H). apply existsb_exists in H as (b & Hb & H). apply corners_in in Ha, Hb. apply andb_true_iff in H as [H1 H2]. apply Nat.eqb_eq in H1.
    apply seteq_perm in H2; auto; [|apply (cell_nodup n); auto]. exists a, b. auto.
  - intros (a & b & Ha & Hb & Hk & P). exists a. split; [apply corners_in; auto|]. apply existsb_exists. exists b. split; [apply corners_in; auto|]. apply andb_true_iff. split; [apply Nat.eqb_eq; auto|].
    apply seteq_perm; auto. apply (cell_nodup n); auto.
Qed.

Lemma place_flip : forall i b a f, i < length b -> length a = length b -> length f = bit_sum b -> nth i b false = false ->
  place (flip_bit i b) a (insert_at (bit_sum (firstn i b)) (nth i a false) f) = place b a f.
Proof.
  induction i as [|i IH]; intros b a f Hi La Lf Eb; destruct b as [|x b]; destruct a as [|y a]; simpl in Hi, La; try lia; rewrite bit_sum_cons in Lf.
  - simpl in Eb. subst x. reflexivity.
  - cbn [nth] in Eb. cbn [flip_bit firstn nth]. rewrite bit_sum_cons. destruct x; cbn [nat_of Nat.add].
    + destruct f as [|z f]; [discriminate|]. cbn [insert_at place hd tl]. simpl in Lf. rewrite IH by (auto; lia). reflexivity.
    + cbn [place hd tl]. rewrite IH by (auto; lia). reflexivity.
Qed.
Lemma bit_sum_firstn : forall i b, bit_sum (firstn i b) <= bit_sum b.
Proof. induction i as [|i IH]; intros [|x b]; cbn [firstn]; rewrite ?bit_sum_cons; cbn [bit_sum]; try (apply Nat.le_0_l); auto. specialize (IH b). lia. Qed.
Lemma bit_sum_flip_false : forall a i, i < length a -> nth i a false = false -> bit_sum (flip_bit i a) = S (bit_sum a).
Proof.
  intros a i Hi E. pose proof (bit_sum_flip_true (flip_bit i a) i) as Q. rewrite flip_bit_length in Q. specialize (Q Hi).
  rewrite nth_flip, Nat.eqb_refl, (proj2 (Nat.ltb_lt _ _) Hi), E in Q. specialize (Q eq_refl). rewrite <- Q. f_equal. f_equal.
  apply (bits_ext (length a)); rewrite ?flip_bit_length; auto. intros k Hk. rewrite !nth_flip, flip_bit_length, (proj2 (Nat.ltb_lt _ _) Hk). destruct (k =? i); cbn [andb]; auto. rewrite negb_involutive. auto.
Qed.
Lemma cell_larger : forall n c a b i, length a = n -> length b = n -> i < n -> nth i b false = false ->
  slice (S (bit_sum b)) (bit_sum (firstn i b)) (nth i a false) (cell c a (flip_bit i b)) = cell c a b.
Proof.
  intros n c a b i Ha Hb Hi Eb. assert (Hs : bit_sum (flip_bit i b) = S (bit_sum b)) by (apply bit_sum_flip_false; auto; lia).
  apply (cube_ext (bit_sum b)); [rewrite slice_length; f_equal; lia|apply cell_length|]. intros f Hf. rewrite cget_slice by lia.
  pose proof (bit_sum_firstn i b). rewrite cget_cell by (rewrite insert_at_length; lia). rewrite place_flip by (auto; lia). rewrite cget_cell by auto. auto.
Qed.
Lemma cell_rebase : forall n c a a' b, NoDup c -> length c = 2 ^ n -> length a = n -> length a' = n -> length b = n -> In (cget c a) (cell c a' b) ->
  forall v, In v (cell c a b) <-> In v (cell c a' b).
Proof.
  intros n c a a' b ND L Ha Ha' Hb H v. apply (cell_in n) in H as (z & [Lz Az] & E); auto. apply (cget_inj n) in E; auto. subst z. rewrite !(cell_in n) by auto.
  split; intros (z & [Lz' A] & E); exists z; split; auto; split; auto; intros i Hi Ei; rewrite A by auto; [|symmetry]; apply Az; auto.
Qed.
Lemma one_more : forall b b', length b = length b' -> (forall i, i < length b -> nth i b false = true -> nth i b' false = true) -> bit_sum b' = S (bit_sum b) ->
  exists i, i < length b /\ nth i b false = false /\ b' = flip_bit i b.
Proof.
  assert (Eq : forall b b', length b = length b' -> (forall i, i < length b -> nth i b false = true -> nth i b' false = true) -> bit_sum b' = bit_sum b -> b' = b).
  { assert (Le : forall b b', length b = length b' -> (forall i, i < length b -> nth i b false = true -> nth i b' false = true) -> bit_sum b <= bit_sum b').
    { induction b as [|x b IH]; intros [|y b'] L H; simpl in L; try lia. rewrite !bit_sum_cons.
      assert (Q : bit_sum b <= bit_sum b') by (apply IH; [lia|]; intros i Hi; apply (H (S i)); simpl; lia). pose proof (H 0 ltac:(simpl; lia)) as H0. simpl in H0. destruct x; [rewrite H0 by auto|]; destruct y; cbn [nat_of]; lia. }
    induction b as [|x b IH]; intros [|y b'] L H E; simpl in L; try lia; auto. rewrite !bit_sum_cons in E.
    assert (H' : forall i, i < length b -> nth i b false = true -> nth i b' false = true) by (intros i Hi; apply (H (S i)); simpl; lia).
    pose proof (Le b b' ltac:(lia) H') as Q. pose proof (H 0 ltac:(simpl; lia)) as H0. simpl in H0. destruct x; [rewrite H0 in * by auto|destruct y; cbn [nat_of] in E; [lia|]]; f_equal; apply IH; auto; cbn [nat_of] in E; lia. }
  induction b as [|x b IH]; intros [|y b'] L H E; simpl in L; try lia; try discriminate. rewrite !bit_sum_cons in E.
  assert (H' : forall i, i < length b -> nth i b false = true -> nth i b' false = true) by (intros i Hi; apply (H (S i)); simpl; lia).
  pose proof (H 0 ltac:(simpl; lia)) as H0. simpl in H0. destruct x; [rewrite H0 in * by auto|destruct y].
  - destruct (IH b' ltac:(lia) H') as (i & Hi & Ei & ->); [cbn [nat_of] in E; lia|]. exists (S i). split; [simpl; lia|]. split; [exact Ei|reflexivity].
  - exists 0. split; [simpl; lia|]. split; [reflexivity|]. cbn [flip_bit negb]. f_equal. apply Eq; auto.
  - destruct (IH b' ltac:(lia) H') as (i & Hi & Ei & ->); [cbn [nat_of] in E; lia|]. exists (S i). split; [simpl; lia|]. split; [exact Ei|reflexivity].
Qed.
Lemma subcube_of_slice : forall k n c g a s, subcube (S k) n c g -> a < S k -> subcube k n c (slice (S k) a s g).
Proof.
  intros k n c g a s Hg Ha. induction Hg; [apply (subcube_step k (S k) c (slice (S k) a s c) a s Ha); replace (S k - 1) with k by lia; constructor|]. apply (subcube_slice k n a0 s0 c d); auto.
Qed.
Lemma missing_count : forall b, length (filter (fun i => negb (nth i b false)) (seq 0 (length b))) = length b - bit_sum b.
Proof.
  intros b. rewrite <- bit_sum_neg. rewrite <- (bit_sum_filter (fun i => negb (nth i b false))). f_equal.
  apply (bits_ext (length b)); rewrite ?map_length, ?seq_length; auto. intros i Hi. rewrite (nth_map_seq _ (fun i => negb (nth i b false))) by auto. rewrite (nth_map_lt _ _ _ _ _ false) by auto. auto.
Qed.

Section Top.
Variables (n : nat) (rows : list cube) (t : topology).
Hypothesis Hn : 1 <= n.
Hypothesis T : ctop n rows t.

Definition sideb (k : nat) (f e : cube) : bool := negb (incn (S k) f e =? 0)%Z.
Lemma el_ok : forall k i, k <= n -> i < n_elements t k -> length (el t k i) = 2 ^ k /\ NoDup (el t k i).
Proof. intros k i Hk Hi. apply (c_len n rows t Hn T); auto. apply nth_In. exact Hi. Qed.
Lemma row_okc : forall j, j < length rows -> length (nth j rows []) = 2 ^ n /\ NoDup (nth j rows []).
Proof. intros j Hj. apply (c_len n rows t Hn T n); auto. rewrite (ct_top _ _ _ T). apply nth_In; auto. Qed.
Lemma sideb_iff : forall k i e, S k <= n -> i < n_elements t (S k) -> (sideb k e (el t (S k) i) = true <-> has_side (S k) (el t (S k) i) e).
Proof.
  intros k i e Hk Hi. destruct (el_ok (S k) i Hk Hi) as [L N]. rewrite <- (incn_nz (S k) (el t (S k) i) e L N). unfold sideb. rewrite negb_true_iff, Z.eqb_neq. tauto.
Qed.
Lemma faceb_face : forall k j i, k <= n -> j < length rows -> i < n_elements t k -> k < n -> (faceb k n (nth j rows []) (el t k i) = true <-> face_of_cube k n (nth j rows []) (el t k i)).
Proof.
  intros k j i Hk Hj Hi Hk'. destruct (row_okc j Hj) as [L N]. destruct (el_ok k i Hk Hi) as [Le Ne]. rewrite faceb_perm by auto. split.
  - intros (a & b & Ha & Hb & Eb & P). subst k. pose proof (cell_subcube n (nth j rows []) a b L Ha Hb) as SC.
    destruct (proj2 (c_listed n rows t Hn T (n - bit_sum b) (bit_sum b) ltac:(lia)) _ _ (nth_In _ _ Hj) SC) as (i' & s & Hi' & R).
    assert (i' = i). { apply (c_distinct n rows t T (bit_sum b)); auto. eapply perm_trans; [apply Permutation_sym, (related_perm _ _ _ _ R); apply cell_length|exact P]. }
    subst i'. exists (cell (nth j rows []) a b), s. auto.
  - intros (g & s & SC & R). pose proof (subcube_length _ _ _ _ SC L) as Lg. apply subcube_cell in SC as (a & b & Ha & Hb & Eb & ->); auto. exists a, b. repeat split; auto. apply (related_perm _ _ _ _ R); auto.
Qed.

Lemma c_abs_entry : forall k i j, k < n -> i < n_elements t k -> j < n_elements t (S k) ->
  entry (abs_mat (matrix t k)) i j = if sideb k (el t k i) (el t (S k) j) then 1%Z else 0%Z.
Proof.
  intros k i j Hk Hi Hj. unfold abs_mat. rewrite of_entries_entry.
  destruct (c_matrix_shape n rows t Hn T k Hk) as [R C]. rewrite R, C.
  rewrite (proj2 (Nat.ltb_lt _ _) Hi), (proj2 (Nat.ltb_lt _ _) Hj). cbn [andb].
  rewrite (c_matrix_entry n rows t Hn T k i j Hk Hi), (proj2 (Nat.ltb_lt _ _) Hj). fold (el t k i). fold (el t (S k) j).
  destruct (el_ok (S k) j Hk Hj) as [L N]. unfold sideb.
  destruct (Z.eqb_spec (incn (S k) (el t k i) (el t (S k) j)) 0) as [E|E]; cbn [negb]; [rewrite E; reflexivity|].
  apply incn_nz in E; auto. destruct (incn_pm _ _ _ L N E) as [->| ->]; reflexivity.
Qed.
Lemma listed_slice : forall k e i s, k < n -> e < n_elements t (S k) -> i < S k ->
  exists f z, f < n_elements t k /\ related k z (slice (S k) i s (el t (S k) e)) (el t k f).
Proof.
  intros k e i s Hk He Hi. pose proof (ct_level _ _ _ T k Hk) as LV. destruct (cl_idx _ _ _ _ _ LV e i s He Hi) as (H1 & (z & R) & _). replace (S k - 1) with k in R by lia. eexists. exists z. split; [exact H1|exact R].
Qed.

Lemma c_count_down : forall k v e, k < n -> e < n_elements t (S k) -> In v (el t (S k) e) ->
  length (filter (fun f => memb v (el t k f) && sideb k (el t k f) (el t (S k) e)) (seq 0 (n_elements t k))) = S k.
Proof.
  intros k v e Hk He Hv. destruct (el_ok (S k) e Hk He) as [L N]. set (E := el t (S k) e) in *.
  apply (in_cget (S k)) in Hv as (b & Lb & Eb); auto.
  transitivity (length (seq 0 (S k))); [|apply seq_length].
  assert (LS : forall i s, length (slice (S k) i s E) = 2 ^ k) by (intros; rewrite slice_length; f_equal; lia).
  apply count_bij with (R := fun i f => Permutation (slice (S k) i (nth i b false) E) (el t k f)).
  - apply seq_NoDup.
  - intros i Hi. apply in_seq in Hi. assert (Hi' : i < S k) by lia. destruct (listed_slice k e i (nth i b false) Hk He Hi') as (f & z & Hf & R). exists f. split; auto.
    pose proof (related_perm _ _ _ _ R (LS _ _)) as P. split; [exact P|]. apply andb_true_iff. split.
    + apply memb_iff. eapply Permutation_in; [exact P|]. rewrite <- Eb. apply slice_vert; auto.
    + apply sideb_iff; auto. apply has_side_slice. exists i, (nth i b false), z. replace (S k - 1) with k by lia. auto.
  - intros f Hf A. apply andb_true_iff in A as [A1 A2]. apply memb_iff in A1. apply sideb_iff in A2; auto. apply has_side_slice in A2 as (i & s & z & Hi & R). replace (S k - 1) with k in R by lia.
    fold E in R. pose proof (related_perm _ _ _ _ R (LS _ _)) as P. exists i. split; [apply in_seq; lia|].
    assert (Hs : nth i b false = s). { rewrite <- (slice_vert (S k) i s E b) by auto. rewrite Eb. eapply Permutation_in; [apply Permutation_sym; exact P|exact A1]. }
    rewrite Hs. exact P.
  - intros i i' f Hi Hi' P P'. apply in_seq in Hi, Hi'. apply (slice_inj (S k) i (nth i b false) i' (nth i' b false) E); auto; try lia. eapply perm_trans; [exact P|apply Permutation_sym; exact P'].
  - intros i f f' Hi Hf Hf' P P'. apply (c_distinct n rows t T k); auto; [lia|]. eapply perm_trans; [apply Permutation_sym; exact P|exact P'].
Qed.
Lemma side_incl : forall k f e, k < n -> e < n_elements t (S k) -> sideb k f (el t (S k) e) = true -> incl f (el t (S k) e).
Proof.
  intros k f e Hk He A. destruct (el_ok (S k) e Hk He) as [L N]. apply sideb_iff in A; auto. apply has_side_slice in A as (i & s & z & Hi & R). intros v Hv.
  apply (slice_incl (S k) i s); auto. eapply Permutation_in; [apply Permutation_sym, (related_perm _ _ _ _ R), slice_length|exact Hv].
Qed.

Lemma c_dim : n_dim t = n.
Proof. unfold n_dim. apply (ct_lenO _ _ _ T). Qed.
Lemma c_matrices_nth : forall k d, k < n -> nth k (matrices t) d = matrix t k.
Proof. intros. unfold matrices. rewrite c_dim. apply nth_map_seq; auto. Qed.
Lemma c_matrices_len : length (matrices t) = n.
Proof. unfold matrices. rewrite map_length, seq_length. apply c_dim. Qed.

Lemma c_acc0_spec : forall k, k < n ->
  nrows (nth k (acc0 t) no_coo) = n_elements t 0 /\ ncols (nth k (acc0 t) no_coo) = n_elements t (S k) /\
  forall v e, v < n_elements t 0 -> e < n_elements t (S k) ->
    entry (nth k (acc0 t) no_coo) v e = if memb v (el t (S k) e) then wrap8 (Z.of_nat (fact (S k))) else 0%Z.
Proof.
  assert (V0 : forall v, v < n_elements t 0 -> el t 0 v = [v]).
  { intros v Hv. unfold el. rewrite (ct_verts _ _ _ T). rewrite nth_map_seq by auto. auto. }
  assert (LM : length (map abs_mat (matrices t)) = n) by (rewrite map_length; apply c_matrices_len).
  assert (NM : forall k, k < n -> nth k (map abs_mat (matrices t)) no_coo = abs_mat (matrix t k)).
  { intros k Hk. rewrite (nth_map_lt _ _ _ _ _ no_coo) by (rewrite c_matrices_len; auto). rewrite c_matrices_nth by auto. auto. }
  induction k as [|k IH]; intros Hk.
  - unfold acc0. rewrite accumulate_0, NM by auto. destruct (c_matrix_shape n rows t Hn T 0 Hk) as [R C].
    split; [exact R|]. split; [exact C|]. intros v e Hv He. rewrite c_abs_entry by auto.
    change (wrap8 (Z.of_nat (fact 1))) with 1%Z.
    destruct (memb v (el t 1 e)) eqn:M.
    + apply memb_iff in M. pose proof (c_count_down 0 v e Hk He M) as Q. destruct (filter _ _) as [|f l] eqn:F; [discriminate|].
      assert (I : In f (f :: l)) by (left; auto). rewrite <- F in I. apply filter_In in I as [I1 I2]. apply in_seq in I1. apply andb_true_iff in I2 as [I2 I3].
      rewrite V0 in I2 by lia. apply memb_iff in I2. destruct I2 as [<-|[]]. rewrite I3. auto.
    + destruct (sideb 0 (el t 0 v) (el t 1 e)) eqn:I; auto. apply side_incl in I; auto. rewrite V0 in I by auto. specialize (I v (or_introl eq_refl)).
      apply memb_iff in I. congruence.
  - destruct (IH ltac:(lia)) as (R & C & E). unfold acc0. rewrite accumulate_S by lia. fold (acc0 t). rewrite NM by auto.
    destruct (c_matrix_shape n rows t Hn T (S k) Hk) as [R1 C1].
    split; [exact R|]. split; [exact C1|]. intros v e Hv He.
    rewrite mul8_entry, R. unfold abs_mat at 1. unfold of_entries at 1. cbn [ncols]. rewrite C1, C.
    rewrite (proj2 (Nat.ltb_lt _ _) Hv), (proj2 (Nat.ltb_lt _ _) He). cbn [andb].
    rewrite (sumZ_map_ext _ _ (fun f => if memb v (el t (S k) f) && sideb (S k) (el t (S k) f) (el t (S (S k)) e) then wrap8 (Z.of_nat (fact (S k))) else 0%Z)).
    2:{ intros f Hf. apply in_seq in Hf. rewrite E by lia. rewrite c_abs_entry by lia.
        destruct (memb v (el t (S k) f)), (sideb (S k) (el t (S k) f) (el t (S (S k)) e)); cbn [andb]; lia. }
    rewrite sumZ_indicator. destruct (memb v (el t (S (S k)) e)) eqn:M.
    + apply memb_iff in M. rewrite c_count_down by auto. rewrite wrap8_wrap8_mul. f_equal.
      change (fact (S (S k))) with (S (S k) * fact (S k)). lia.
    + replace (filter _ _) with (@nil nat); [simpl length; rewrite Z.mul_0_r; reflexivity|]. symmetry.
      assert (X : forall l, filter (fun f => memb v (el t (S k) f) && sideb (S k) (el t (S k) f) (el t (S (S k)) e)) l = []).
      { induction l as [|f l IHl]; auto. cbn [filter]. destruct (_ && _) eqn:A; auto.
        apply andb_true_iff in A as [A1 A2]. apply memb_iff in A1. apply side_incl in A2; auto. apply A2 in A1. apply memb_iff in A1. congruence. }
      apply X.
Qed.

(** ---- towards the cubes ---- *)
Lemma side_of_face : forall k s f e, S k < n -> s < length rows -> f < n_elements t (S k) -> e < n_elements t k ->
  faceb (S k) n (nth s rows []) (el t (S k) f) = true -> sideb k (el t k e) (el t (S k) f) = true -> faceb k n (nth s rows []) (el t k e) = true.
Proof.
  intros k s f e Hk Hs Hf He A B. assert (L1 : S k <= n) by lia. assert (L2 : k <= n) by lia. assert (L3 : k < n) by lia.
  destruct (row_okc s Hs) as [L N]. apply faceb_face in A as (g & z & SC & R); auto. pose proof (subcube_length _ _ _ _ SC L) as Lg.
  apply sideb_iff in B; auto. apply (has_side_related _ _ _ _ _ R Lg) in B. apply has_side_slice in B as (i & b & z' & Hi & R'). replace (S k - 1) with k in R' by lia.
  apply faceb_face; auto. exists (slice (S k) i b g), z'. split; auto. apply subcube_of_slice; auto.
Qed.
Lemma c_count_up : forall k e s, S k < n -> e < n_elements t k -> s < length rows -> faceb k n (nth s rows []) (el t k e) = true ->
  length (filter (fun f => faceb (S k) n (nth s rows []) (el t (S k) f) && sideb k (el t k e) (el t (S k) f)) (seq 0 (n_elements t (S k)))) = n - k.
Proof.
  intros k e s Hk He Hs HF. assert (L1 : S k <= n) by lia. assert (L2 : k <= n) by lia. assert (L3 : k < n) by lia.
  destruct (row_okc s Hs) as [L N]. set (c := nth s rows []) in *. destruct (el_ok k e L2 He) as [Le Ne].
  apply faceb_perm in HF as (a & b & Ha & Hb & Eb & P); auto.
  assert (EK : length (filter (fun i => negb (nth i b false)) (seq 0 n)) = n - k).
  { rewrite <- Hb at 1. rewrite missing_count. lia. }
  rewrite <- EK.
  assert (CN : forall b, length b = n -> NoDup (cell c a b)) by (intros; apply (cell_nodup n); auto).
  assert (IN : forall i, In i (filter (fun i => negb (nth i b false)) (seq 0 n)) -> i < n /\ nth i b false = false).
  { intros i Hi. apply filter_In in Hi as [Hi Ei]. apply in_seq in Hi. apply negb_true_iff in Ei. split; auto. lia. }
  apply count_bij with (R := fun i f => Permutation (cell c a (flip_bit i b)) (el t (S k) f)).
  - apply NoDup_filter, seq_NoDup.
  - intros i Hi. apply IN in Hi as [Hi Ei].
    assert (Ef : bit_sum (flip_bit i b) = S k) by (rewrite bit_sum_flip_false; auto; lia).
    assert (SC : subcube (S k) n c (cell c a (flip_bit i b))). { rewrite <- Ef. apply cell_subcube; auto. rewrite flip_bit_length; auto. }
    destruct (proj2 (c_listed n rows t Hn T (n - S k) (S k) ltac:(lia)) _ _ (nth_In _ _ Hs) SC) as (f & z & Hf & R). fold (el t (S k) f) in R.
    exists f. split; auto. assert (Lc : length (cell c a (flip_bit i b)) = 2 ^ S k) by (rewrite cell_length, Ef; auto).
    pose proof (related_perm _ _ _ _ R Lc) as PF. split; auto. apply andb_true_iff. split.
    + apply faceb_perm; auto; [apply el_ok; auto|]. exists a, (flip_bit i b). rewrite flip_bit_length. auto.
    + apply sideb_iff; auto. apply has_side_related with (c := el t (S k) f) (d := cell c a (flip_bit i b)) (z := z); [apply related_sym; auto|apply el_ok; auto|].
      assert (EX : exists z', related k z' (cell c a b) (el t k e)).
      { assert (SC' : subcube k n c (cell c a b)) by (rewrite <- Eb; apply cell_subcube; auto).
        destruct (proj2 (c_listed n rows t Hn T (n - k) k ltac:(lia)) _ _ (nth_In _ _ Hs) SC') as (e' & z' & He' & R'). fold (el t k e') in R'.
        assert (e' = e). { apply (c_distinct n rows t T k); auto. eapply perm_trans; [apply Permutation_sym, (related_perm _ _ _ _ R'); rewrite cell_length, Eb; auto|exact P]. }
        subst e'. exists z'. auto. }
      destruct EX as (z' & R'). apply has_side_slice. exists (bit_sum (firstn i b)), (nth i a false), z'. replace (S k - 1) with k by lia. split; [pose proof (bit_sum_firstn i b); lia|].
      rewrite <- Eb. rewrite (cell_larger n) by auto. rewrite Eb. exact R'.
  - intros f Hf A. apply andb_true_iff in A as [A1 A2]. destruct (el_ok (S k) f L1 Hf) as [Lf Nf]. apply faceb_perm in A1 as (a' & b' & Ha' & Hb' & Eb' & P'); auto.
    apply side_incl in A2; auto.
    assert (IC : incl (cell c a b) (cell c a' b')). { intros v Hv. eapply Permutation_in; [apply Permutation_sym; exact P'|]. apply A2. eapply Permutation_in; [exact P|exact Hv]. }
    pose proof (cell_rebase n c a a' b' N L Ha Ha' Hb' (IC _ (cell_self n c a b Hb Ha))) as RB.
    destruct (one_more b b') as (i & Hi & Ei & ->); [lia| |lia|].
    + intros i Hi Ei. rewrite Hb in Hi. rewrite <- (cell_span n c a b' i) by auto. apply RB, IC. apply (cell_span n); auto.
    + exists i. split; [apply filter_In; split; [apply in_seq; lia|rewrite Ei; auto]|].
      eapply perm_trans; [|exact P']. apply NoDup_Permutation; auto. apply (cell_nodup n); auto.
  - intros i i' f Hi Hi' P1 P2. apply IN in Hi as [Hi Ei]. apply IN in Hi' as [Hi' Ei'].
    assert (Q : flip_bit i b = flip_bit i' b).
    { apply (cell_span_inj n c a); rewrite ?flip_bit_length; auto. intros v. split; apply Permutation_in; [|apply Permutation_sym]; eapply perm_trans; [exact P1|apply Permutation_sym; exact P2|exact P1|apply Permutation_sym; exact P2]. }
    assert (Q' : nth i (flip_bit i b) false = nth i (flip_bit i' b) false) by (rewrite Q; auto). rewrite !nth_flip, Nat.eqb_refl in Q'. replace (i <? length b) with true in Q' by (symmetry; apply Nat.ltb_lt; lia).
    destruct (Nat.eqb_spec i i'); auto. cbn [andb] in Q'. destruct (nth i b false); discriminate.
  - intros i f f' Hi Hf Hf' P1 P2. apply (c_distinct n rows t T (S k)); auto. eapply perm_trans; [apply Permutation_sym; exact P1|exact P2].
Qed.
Lemma c_abs_transpose_entry : forall k i j, k < n -> i < n_elements t (S k) -> j < n_elements t k ->
  entry (abs_mat (transpose (matrix t k))) i j = if sideb k (el t k j) (el t (S k) i) then 1%Z else 0%Z.
Proof.
  intros k i j Hk Hi Hj. rewrite <- c_abs_entry by auto. unfold abs_mat. rewrite !of_entries_entry.
  destruct (c_matrix_shape n rows t Hn T k Hk) as [R C]. cbn [transpose nrows ncols]. rewrite R, C.
  rewrite (proj2 (Nat.ltb_lt _ _) Hi), (proj2 (Nat.ltb_lt _ _) Hj). cbn [andb].
  unfold entry, transpose. cbn [triples]. rewrite map_map. f_equal. apply sumZ_map_ext.
  intros [[r c] v] _. rewrite andb_comm. auto.
Qed.
Lemma top_side : forall s e, s < length rows -> e < n_elements t (n - 1) -> sideb (n - 1) (el t (n - 1) e) (nth s rows []) = faceb (n - 1) n (nth s rows []) (el t (n - 1) e).
Proof.
  intros s e Hs He. assert (L1 : n - 1 <= n) by lia. assert (L2 : n - 1 < n) by lia. destruct (row_okc s Hs) as [L N]. apply Bool.eq_iff_eq_true. rewrite faceb_face by auto. unfold sideb. replace (S (n - 1)) with n by lia.
  rewrite negb_true_iff, Z.eqb_neq, incn_nz by auto. rewrite has_side_slice. split.
  - intros (a & b & z & Ha & R). exists (slice n a b (nth s rows [])), z. split; auto. apply (subcube_step _ n _ _ a b); auto. constructor.
  - intros (g & z & SC & R). apply subcube_inv in SC as [[Q _]|(_ & a & b & Ha & SC)]; [lia|]. apply subcube_top in SC. subst g. exists a, b, z. auto.
Qed.

(** position [j] relates the cubes to the (n-1-j)-elements *)
Lemma c_accN_spec : forall j, j < n ->
  nrows (nth j (accN t) no_coo) = length rows /\ ncols (nth j (accN t) no_coo) = n_elements t (n - 1 - j) /\
  forall s e, s < length rows -> e < n_elements t (n - 1 - j) ->
    entry (nth j (accN t) no_coo) s e = if faceb (n - 1 - j) n (nth s rows []) (el t (n - 1 - j) e) then wrap8 (Z.of_nat (fact (S j))) else 0%Z.
Proof.
  assert (LM : length (map (fun m => abs_mat (transpose m)) (rev (matrices t))) = n) by (rewrite map_length, rev_length; apply c_matrices_len).
  assert (NM : forall k, k < n -> nth k (map (fun m => abs_mat (transpose m)) (rev (matrices t))) no_coo = abs_mat (transpose (matrix t (n - 1 - k)))).
  { intros k Hk. rewrite (nth_map_lt _ _ _ _ _ no_coo) by (rewrite rev_length, c_matrices_len; auto).
    rewrite rev_nth by (rewrite c_matrices_len; auto). rewrite c_matrices_len, c_matrices_nth by lia. replace (n - S k) with (n - 1 - k) by lia. auto. }
  assert (NT : n_elements t n = length rows) by (unfold n_elements; rewrite (ct_top _ _ _ T); auto).
  assert (ET : forall s, el t n s = nth s rows []) by (intros; unfold el; rewrite (ct_top _ _ _ T); auto).
  induction j as [|j IH]; intros Hj.
  - unfold accN. rewrite accumulate_0, NM by auto. replace (n - 1 - 0) with (n - 1) by lia.
    destruct (c_matrix_shape n rows t Hn T (n - 1) ltac:(lia)) as [R C]. replace (S (n - 1)) with n in C by lia.
    split; [change (ncols (matrix t (n - 1)) = length rows); lia|]. split; [exact R|]. intros s e Hs He.
    rewrite c_abs_transpose_entry by (replace (S (n - 1)) with n by lia; lia).
    rewrite <- top_side by auto. replace (el t (S (n - 1)) s) with (nth s rows []); [reflexivity|]. rewrite <- ET. f_equal. lia.
  - destruct (IH ltac:(lia)) as (R & C & E). unfold accN. rewrite accumulate_S by lia. fold (accN t). rewrite NM by auto.
    set (k := n - 1 - S j) in *. assert (Ek : n - 1 - j = S k) by (unfold k; lia). rewrite Ek in *.
    destruct (c_matrix_shape n rows t Hn T k ltac:(lia)) as [R1 C1].
    split; [exact R|]. split; [exact R1|]. intros s e Hs He.
    rewrite mul8_entry, R. change (ncols (abs_mat (transpose (matrix t k)))) with (nrows (matrix t k)). rewrite R1, C.
    rewrite (proj2 (Nat.ltb_lt _ _) Hs), (proj2 (Nat.ltb_lt _ _) He). cbn [andb].
    rewrite (sumZ_map_ext _ _ (fun f => if faceb (S k) n (nth s rows []) (el t (S k) f) && sideb k (el t k e) (el t (S k) f) then wrap8 (Z.of_nat (fact (S j))) else 0%Z)).
    2:{ intros f Hf. apply in_seq in Hf. rewrite E by lia. rewrite c_abs_transpose_entry by lia.
        destruct (faceb (S k) n (nth s rows []) (el t (S k) f)), (sideb k (el t k e) (el t (S k) f)); cbn [andb]; lia. }
    rewrite sumZ_indicator. destruct (faceb k n (nth s rows []) (el t k e)) eqn:M.
    + rewrite c_count_up by (auto; lia). rewrite wrap8_wrap8_mul. f_equal.
      change (fact (S (S j))) with (S (S j) * fact (S j)). replace (n - k) with (S (S j)) by (unfold k; lia). lia.
    + replace (filter _ _) with (@nil nat); [simpl length; rewrite Z.mul_0_r; reflexivity|]. symmetry.
      assert (X : forall l, (forall f, In f l -> f < n_elements t (S k)) -> filter (fun f => faceb (S k) n (nth s rows []) (el t (S k) f) && sideb k (el t k e) (el t (S k) f)) l = []).
      { induction l as [|f l IHl]; intros Hl; auto. cbn [filter]. destruct (_ && _) eqn:A; [|apply IHl; intros; apply Hl; right; auto].
        apply andb_true_iff in A as [A1 A2]. assert (S k < n) by (unfold k; lia). rewrite (side_of_face k s f e) in M; auto; [discriminate|]. apply Hl. left; auto. }
      apply X. intros f Hf. apply in_seq in Hf. lia.
Qed.
End Top.
