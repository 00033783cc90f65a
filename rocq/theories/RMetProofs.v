(** Lemmas for C92: hypervolumes, extents and the sums over fundamental domains. *)
Require Import List Arith ZArith QArith Qabs Qminmax Bool Lia Lqa Permutation Sorting.Sorted.
From Verif Require Import Util CombModel CombSpec CombProofs SimpModel SimpSpec SimpProofs BdryModel BdryProofs SubdModel AvgModel AvgProofs AvgProps.
From Verif Require Import CubeModel CubeSpec CubeBits CubeBd CubeRel CubeTop CubeChain CDomModel CDomBits CDomProofs CDomTop CDomSub CDomPairs CAvgSpec CAvgProofs.
From Verif Require Import SmoModel SmoProofs RMetModel RMetSpec.
Import ListNotations.
Local Open Scope nat_scope.
Local Notation "x == y" := (Qeq x y) (at level 70, no associativity).

(** ---- products ---- *)
Lemma product_perm : forall l l', Permutation l l' -> product l == product l'.
Proof. induction 1; simpl; [reflexivity|rewrite IHPermutation; reflexivity|ring|rewrite IHPermutation1; auto]. Qed.
Lemma product_ext : forall A (f g : A -> Q) l, (forall x, In x l -> f x == g x) -> product (map f l) == product (map g l).
Proof. induction l; intros H; simpl; [reflexivity|]. rewrite (H a (or_introl eq_refl)), IHl; [reflexivity|]. intros; apply H; right; auto. Qed.
Lemma product_mult : forall A (f g : A -> Q) l, product (map (fun x => Qmult (f x) (g x)) l) == Qmult (product (map f l)) (product (map g l)).
Proof. induction l; simpl; [ring|]. rewrite IHl. ring. Qed.
Lemma product_nonneg : forall l, (forall x, In x l -> Qle 0 x) -> Qle 0 (product l).
Proof. induction l; intros H; simpl; [discriminate|]. apply Qmult_le_0_compat; [apply H; left; auto|apply IHl; intros; apply H; right; auto]. Qed.
Lemma product_pos : forall l, (forall x, In x l -> Qlt 0 x) -> Qlt 0 (product l).
Proof. induction l; intros H; simpl; [reflexivity|]. apply Qmult_lt_0_compat; [apply H; left; auto|apply IHl; intros; apply H; right; auto]. Qed.
Definition nz (x : Q) : bool := negb (Qeq_bool x 0).
Lemma nz_true : forall x, nz x = true <-> ~ x == 0.
Proof. intros x. unfold nz. rewrite negb_true_iff. split; [apply Qeq_bool_neq|]. intros H. destruct (Qeq_bool x 0) eqn:E; auto. apply Qeq_bool_eq in E. tauto. Qed.
Lemma nz_false : forall x, nz x = false <-> x == 0.
Proof. intros x. unfold nz. rewrite negb_false_iff. apply Qeq_bool_iff. Qed.
Lemma product_filter : forall l, product (filter nz l) == product (map (fun x => if nz x then x else 1%Q) l).
Proof. induction l as [|a l IH]; simpl; [reflexivity|]. destruct (nz a); simpl; rewrite IH; ring. Qed.

(** ---- sorting, and the last entries ---- *)
Lemma isort_sorted_Q : forall l, StronglySorted Qle (isort Qle_bool l).
Proof.
  assert (A : forall a l, StronglySorted Qle l -> StronglySorted Qle (insert Qle_bool a l)).
  { induction l as [|b l IH]; intros H; simpl; [repeat constructor|]. inversion H as [|? ? H1 H2]; subst. destruct (Qle_bool a b) eqn:E.
    - apply Qle_bool_iff in E. constructor; auto. constructor; auto. eapply Forall_impl; [|exact H2]. intros c Hc. eapply Qle_trans; eauto.
    - assert (L : Qle b a). { apply Qnot_lt_le. intros L. apply Qlt_le_weak in L. apply Qle_bool_iff in L. congruence. }
      constructor; auto. apply Forall_forall. intros c Hc. apply (Permutation_in c (Permutation_sym (insert_perm _ Qle_bool a l))) in Hc. destruct Hc as [<-|Hc]; auto. rewrite Forall_forall in H2. auto. }
  induction l as [|a l IH]; simpl; [constructor|]. apply A. auto.
Qed.
Lemma filter_short : forall A (P : A -> bool) l, length (filter P l) <= length l.
Proof. induction l as [|a l IH]; simpl; auto. destruct (P a); simpl; lia. Qed.
Lemma filter_split_len : forall A (P : A -> bool) l, length (filter P l) + length (filter (fun x => negb (P x)) l) = length l.
Proof. induction l as [|a l IH]; simpl; auto. destruct (P a); simpl; lia. Qed.
Lemma filter_all : forall A (P : A -> bool) l, (forall x, In x l -> P x = true) -> filter P l = l.
Proof. induction l as [|a l IH]; intros H; simpl; auto. rewrite (H a (or_introl eq_refl)). f_equal. apply IH. intros; apply H; right; auto. Qed.
Lemma sorted_tail : forall L, StronglySorted Qle L -> (forall x, In x L -> Qle 0 x) -> skipn (length L - length (filter nz L)) L = filter nz L.
Proof.
  induction L as [|a L IH]; intros SS P; [reflexivity|]. inversion SS as [|? ? S1 S2]; subst. cbn [filter]. destruct (nz a) eqn:E.
  - assert (F : filter nz L = L).
    { apply filter_all. intros x Hx. apply nz_true. intros Z. rewrite Forall_forall in S2. specialize (S2 x Hx). rewrite Z in S2. apply nz_true in E. apply E. apply Qle_antisym; auto. apply P. left; auto. }
    rewrite F. cbn [length]. rewrite Nat.sub_diag. reflexivity.
  - cbn [length]. assert (length (filter nz L) <= length L) by apply filter_short.
    replace (S (length L) - length (filter nz L)) with (S (length L - length (filter nz L))) by lia. cbn [skipn]. apply IH; auto. intros; apply P; right; auto.
Qed.
Lemma filter_perm : forall A (P : A -> bool) l l', Permutation l l' -> Permutation (filter P l) (filter P l').
Proof. induction 1; simpl; auto. - destruct (P x); auto. - destruct (P x); destruct (P y); auto. apply perm_swap. - eapply perm_trans; eauto. Qed.
Lemma filter_map_len : forall A B (f : A -> B) (P : B -> bool) l, length (filter P (map f l)) = length (filter (fun x => P (f x)) l).
Proof. induction l as [|a l IH]; simpl; auto. destruct (P (f a)); simpl; auto. Qed.

(** The restricted hypervolume is the product of the nonzero differences when there are [k] of them. *)
Lemma hypervolume_spec : forall n (p q g : nat -> Q) k,
  (forall x, x < n -> Qabs (Qminus (p x) (q x)) == g x) -> length (filter (fun x => nz (g x)) (seq 0 n)) = k ->
  hypervolume (map p (seq 0 n)) (map q (seq 0 n)) k == product (map (fun x => if nz (g x) then g x else 1%Q) (seq 0 n)).
Proof.
  intros n p q g k H E. unfold hypervolume. rewrite combine_maps, !map_map. cbn [fst snd].
  set (L := map (fun x => Qabs (Qminus (p x) (q x))) (seq 0 n)).
  assert (N : forall x, In x (seq 0 n) -> nz (Qabs (Qminus (p x) (q x))) = nz (g x)).
  { intros x Hx. apply in_seq in Hx. assert (W := H x ltac:(lia)). destruct (nz (g x)) eqn:F; [apply nz_true; apply nz_true in F|apply nz_false; apply nz_false in F]; rewrite W; auto. }
  assert (P : Permutation (isort Qle_bool L) L) by (apply Permutation_sym, isort_perm).
  assert (K : length (filter nz (isort Qle_bool L)) = k).
  { rewrite (Permutation_length (filter_perm _ nz _ _ P)). unfold L. rewrite filter_map_len. rewrite (filter_ext_in _ (fun x => nz (g x))); auto. }
  assert (NN : forall x, In x (isort Qle_bool L) -> Qle 0 x).
  { intros x Hx. apply (Permutation_in _ P) in Hx. unfold L in Hx. apply in_map_iff in Hx as (y & <- & _). apply Qabs_nonneg. }
  rewrite <- K. rewrite sorted_tail; auto using isort_sorted_Q. fold (product (filter nz (isort Qle_bool L))).
  rewrite Qabs_pos by (apply product_nonneg; intros x Hx; apply filter_In in Hx as [Hx _]; auto).
  rewrite (product_perm _ _ (filter_perm _ nz _ _ P)), product_filter. unfold L. rewrite map_map. apply product_ext.
  intros x Hx. rewrite N by auto. destruct (nz (g x)); [|reflexivity]. apply in_seq in Hx. apply H. lia.
Qed.

(** ---- extents ---- *)
Lemma highest_spec : forall V x c, c <> [] -> (exists v, In v c /\ highest V x c == nth x (V v) 0%Q) /\ forall v, In v c -> Qle (nth x (V v) 0%Q) (highest V x c).
Proof.
  intros V x [|v r]; [congruence|]. intros _. unfold highest. induction r as [|w r IH]; cbn [fold_right].
  - split; [exists v; split; [left; auto|reflexivity]|]. intros u [<-|[]]. apply Qle_refl.
  - destruct IH as [(u & Hu & Eu) B]. set (m := fold_right (fun w m => Qmax (nth x (V w) 0%Q) m) (nth x (V v) 0%Q) r) in *. split.
    + destruct (Q.max_spec (nth x (V w) 0%Q) m) as [[_ E]|[_ E]]; [exists u|exists w]; (split; [cbn [In] in *; tauto|]); rewrite E; auto. reflexivity.
    + intros z [<-|[<-|Hz]]; [eapply Qle_trans; [apply B; left; auto|apply Q.le_max_r]|apply Q.le_max_l|eapply Qle_trans; [apply B; right; auto|apply Q.le_max_r]].
Qed.
Lemma lowest_spec : forall V x c, c <> [] -> (exists v, In v c /\ lowest V x c == nth x (V v) 0%Q) /\ forall v, In v c -> Qle (lowest V x c) (nth x (V v) 0%Q).
Proof.
  intros V x [|v r]; [congruence|]. intros _. unfold lowest. induction r as [|w r IH]; cbn [fold_right].
  - split; [exists v; split; [left; auto|reflexivity]|]. intros u [<-|[]]. apply Qle_refl.
  - destruct IH as [(u & Hu & Eu) B]. set (m := fold_right (fun w m => Qmin (nth x (V w) 0%Q) m) (nth x (V v) 0%Q) r) in *. split.
    + destruct (Q.min_spec (nth x (V w) 0%Q) m) as [[_ E]|[_ E]]; [exists w|exists u]; (split; [cbn [In] in *; tauto|]); rewrite E; auto. reflexivity.
    + intros z [<-|[<-|Hz]]; [eapply Qle_trans; [apply Q.le_min_r|apply B; left; auto]|apply Q.le_min_l|eapply Qle_trans; [apply Q.le_min_r|apply B; right; auto]].
Qed.
(** A coordinate that takes the two values [u] and [u + w], or only the value [u]. *)
Lemma extent_two : forall V x c u w, (exists v, In v c /\ nth x (V v) 0%Q == u) -> (exists v, In v c /\ nth x (V v) 0%Q == Qplus u w) ->
  (forall v, In v c -> nth x (V v) 0%Q == u \/ nth x (V v) 0%Q == Qplus u w) -> extent V c x == Qabs w.
Proof.
  intros V x c u w (v1 & H1 & E1) (v2 & H2 & E2) A. assert (N : c <> []) by (destruct c; [destruct H1|congruence]).
  destruct (highest_spec V x c N) as [(h & Hh & Eh) B]. destruct (lowest_spec V x c N) as [(l & Hl & El) B']. unfold extent.
  pose proof (B v1 H1). pose proof (B v2 H2). pose proof (B' v1 H1). pose proof (B' v2 H2). pose proof (A h Hh). pose proof (A l Hl).
  apply Qabs_case; intros; lra.
Qed.
Lemma extent_one : forall V x c u, c <> [] -> (forall v, In v c -> nth x (V v) 0%Q == u) -> extent V c x == 0%Q.
Proof.
  intros V x c u N A. destruct (highest_spec V x c N) as [(h & Hh & Eh) B]. destruct (lowest_spec V x c N) as [(l & Hl & El) B']. unfold extent.
  pose proof (A h Hh). pose proof (A l Hl). lra.
Qed.

(** ---- means over the corners of a cell ---- *)
Lemma inject_pow : forall k, inject_Z (Z.of_nat (2 ^ S k)) == Qmult 2 (inject_Z (Z.of_nat (2 ^ k))).
Proof. intros k. rewrite Nat.pow_succ_r'. rewrite Nat2Z.inj_mul, inject_Z_mult. reflexivity. Qed.
Lemma sumQ_app : forall l l', sumQ (l ++ l') == Qplus (sumQ l) (sumQ l').
Proof. induction l; intros; simpl; [ring|]. rewrite IHl. ring. Qed.
Lemma half_corners : forall k r (s : Q), r < k -> sumQ (map (fun f : bits => if nth r f false then s else 0%Q) (corners k)) == Qmult (inject_Z (Z.of_nat (2 ^ k))) (s / 2)%Q.
Proof.
  induction k as [|k IH]; intros r s Hr; [lia|]. cbn [corners]. rewrite map_app, sumQ_app, !map_map, inject_pow. destruct r as [|r]; cbn [nth].
  - rewrite !sumQ_const, corners_length. field.
  - rewrite IH by lia. field.
Qed.
Lemma pow2_nz : forall k, ~ inject_Z (Z.of_nat (2 ^ k)) == 0%Q.
Proof. intros k H. assert (2 ^ k <> 0) by (apply Nat.pow_nonzero; lia). unfold Qeq in H. cbn in H. lia. Qed.
Lemma product_halves : forall (P : nat -> bool) (f : nat -> Q) l,
  product (map (fun x => if P x then (f x / 2)%Q else 1%Q) l) == (product (map (fun x => if P x then f x else 1%Q) l) / inject_Z (Z.of_nat (2 ^ length (filter P l))))%Q.
Proof.
  induction l as [|a l IH]; cbn [map product fold_right filter]; [reflexivity|]. fold (product (map (fun x => if P x then (f x / 2)%Q else 1%Q) l)). fold (product (map (fun x => if P x then f x else 1%Q) l)).
  rewrite IH. pose proof (pow2_nz (length (filter P l))). destruct (P a); cbn [length]; [rewrite inject_pow|]; field; auto.
Qed.
Lemma bit_sum_filter : forall b, length (filter (fun i => nth i b false) (seq 0 (length b))) = bit_sum b.
Proof.
  intros b. cut (forall k, length (filter (fun i => nth (i - k) b false) (seq k (length b))) = bit_sum b).
  { intros H. rewrite <- (H 0). f_equal. apply filter_ext. intros i. rewrite Nat.sub_0_r. auto. }
  induction b as [|x b IH]; intros k; [reflexivity|]. cbn [length seq filter]. rewrite Nat.sub_diag, bit_sum_cons. cbn [nth].
  rewrite <- (IH (S k)). rewrite (filter_ext_in (fun i => nth (i - k) (x :: b) false) (fun i => nth (i - S k) b false)).
  - destruct x; reflexivity.
  - intros i Hi. apply in_seq in Hi. replace (i - k) with (S (i - S k)) by lia. reflexivity.
Qed.

Ltac hlra := unfold Qdiv in *; change (Qinv 2) with (1 # 2)%Q in *; lra.

Section Box.
Set Default Proof Using "All".
Variables (n : nat) (V : nat -> list Q) (r : cube) (axis : nat -> nat) (o s : nat -> Q).
Hypothesis (L : length r = 2 ^ n).
Hypothesis A1 : forall i, i < n -> axis i < n /\ ~ s i == 0%Q.
Hypothesis A2 : forall i j, i < n -> j < n -> axis i = axis j -> i = j.
Hypothesis A3 : forall y i, length y = n -> i < n -> nth (axis i) (V (corner r y)) 0%Q == Qplus (o i) (if nth i y false then s i else 0%Q).

Lemma axis_perm : Permutation (map axis (seq 0 n)) (seq 0 n).
Proof.
  apply NoDup_Permutation_bis.
  - assert (G : forall l, NoDup l -> (forall i, In i l -> i < n) -> NoDup (map axis l)).
    { induction l as [|a l IH]; intros ND Hl; [constructor|]. inversion ND; subst. cbn [map]. constructor; [|apply IH; auto; intros; apply Hl; right; auto].
      intros I. apply in_map_iff in I as (b & E & Hb). apply A2 in E; [subst; auto|apply Hl; right; auto|apply Hl; left; auto]. }
    apply G; [apply seq_NoDup|]. intros i Hi. apply in_seq in Hi. lia.
  - rewrite map_length. auto.
  - intros x Hx. apply in_map_iff in Hx as (i & <- & Hi). apply in_seq in Hi. apply in_seq. destruct (A1 i ltac:(lia)). lia.
Qed.
Lemma axis_onto : forall x, x < n -> exists i, i < n /\ axis i = x.
Proof.
  intros x Hx. assert (I : In x (map axis (seq 0 n))) by (apply (Permutation_in x (Permutation_sym axis_perm)); apply in_seq; lia).
  apply in_map_iff in I as (i & E & Hi). apply in_seq in Hi. exists i. split; auto. lia.
Qed.

Section Cell.
Variables (a b : bits) (E : list nat).
Hypothesis La : length a = n.
Hypothesis Lb : length b = n.
Hypothesis PE : Permutation E (cell r a b).
Lemma cell_ne : E <> [].
Proof. intros Z. apply Permutation_length in PE. rewrite cell_length, Z in PE. assert (2 ^ bit_sum b <> 0) by (apply Nat.pow_nonzero; lia). simpl in PE. lia. Qed.
Lemma cell_coord : forall z i, i < n -> agree n a b z -> nth (axis i) (V (cget r z)) 0%Q == Qplus (o i) (if nth i z false then s i else 0%Q).
Proof. intros z i Hi [Lz _]. rewrite cget_corner. apply A3; auto. Qed.
Lemma cell_extent : forall i, i < n -> extent V E (axis i) == if nth i b false then Qabs (s i) else 0%Q.
Proof.
  intros i Hi. destruct (nth i b false) eqn:Bi.
  - assert (W : forall v : bool, exists w, In w E /\ nth (axis i) (V w) 0%Q == Qplus (o i) (if v then s i else 0%Q)).
    { intros v. set (f := repeat v (bit_sum b)). exists (cget r (place b a f)). split.
      - apply (Permutation_in _ (Permutation_sym PE)). apply (cell_in n); auto. eexists. split; [apply agree_place; auto|auto].
      - rewrite cell_coord by (auto using agree_place). rewrite nth_place by lia. rewrite Bi. unfold f. rewrite nth_repeat_b by (apply rank_lt; auto; lia). reflexivity. }
    apply (extent_two V (axis i) E (o i) (s i)).
    + destruct (W false) as (w & H1 & H2). exists w. split; auto. rewrite H2. ring.
    + destruct (W true) as (w & H1 & H2). exists w. split; auto.
    + intros v Hv. apply (Permutation_in _ PE) in Hv. apply (cell_in n) in Hv; auto. destruct Hv as (z & Az & <-). rewrite cell_coord by auto. destruct (nth i z false); [right; reflexivity|left; ring].
  - apply (extent_one V (axis i) E (Qplus (o i) (if nth i a false then s i else 0%Q))); [apply cell_ne|].
    intros v Hv. apply (Permutation_in _ PE) in Hv. apply (cell_in n) in Hv; auto. destruct Hv as (z & Az & <-). rewrite cell_coord by auto. destruct Az as [_ Az]. rewrite Az by auto. reflexivity.
Qed.
Lemma cell_mean : forall i, i < n -> mean (map (fun v => nth (axis i) (V v) 0%Q) E) == Qplus (o i) (if nth i b false then (s i / 2)%Q else if nth i a false then s i else 0%Q).
Proof.
  intros i Hi. unfold mean. rewrite map_length, (Permutation_length PE), cell_length.
  rewrite (sumQ_perm _ _ (Permutation_map _ PE)). unfold cell, cbuild. rewrite map_map.
  rewrite (sumQ_ext _ _ (fun f => Qplus (o i) (if nth i b false then (if nth (bit_sum (firstn i b)) f false then s i else 0%Q) else if nth i a false then s i else 0%Q))).
  2: { intros f _. rewrite cell_coord by (auto using agree_place). rewrite nth_place by lia. destruct (nth i b false); reflexivity. }
  rewrite sumQ_plus, sumQ_const, corners_length. pose proof (pow2_nz (bit_sum b)). destruct (nth i b false) eqn:Bi.
  - rewrite half_corners by (apply rank_lt; auto; lia). field. auto.
  - rewrite sumQ_const, corners_length. field. auto.
Qed.
Lemma cell_span_count : length (filter (fun x => nz (extent V E x)) (seq 0 n)) = bit_sum b.
Proof.
  rewrite <- (Permutation_length (filter_perm _ _ _ _ axis_perm)). rewrite filter_map_len. rewrite <- (bit_sum_filter b), Lb. f_equal. apply filter_ext_in.
  intros i Hi. apply in_seq in Hi. pose proof (cell_extent i ltac:(lia)) as X. destruct (A1 i ltac:(lia)) as [_ Hs]. destruct (nth i b false).
  - apply nz_true. rewrite X. intros Z. apply Hs. revert Z. apply Qabs_case; intros; lra.
  - apply nz_false. auto.
Qed.
End Cell.

Lemma full_cell : forall a, Permutation r (cell r a (repeat true n)).
Proof. intros a. rewrite (cell_full n); auto; rewrite ?repeat_length; auto. rewrite bit_sum_const. simpl. lia. Qed.
Lemma whole_extent : forall i, i < n -> extent V r (axis i) == Qabs (s i).
Proof. intros i Hi. rewrite (cell_extent (repeat false n) (repeat true n) r ltac:(apply repeat_length) ltac:(apply repeat_length) (full_cell _) i Hi). rewrite nth_repeat_b by auto. reflexivity. Qed.

Section Cells.
Variables (a b : bits) (E0 E : list nat).
Hypothesis La : length a = n.
Hypothesis Lb : length b = n.
Hypothesis P0 : Permutation E0 (cell r a (repeat false n)).
Hypothesis PE : Permutation E (cell r a b).
Lemma first_hypervolume : hypervolume (element_position n V E0) (element_position n V E) (bit_sum b) == (measure n V E / inject_Z (Z.of_nat (2 ^ bit_sum b)))%Q.
Proof.
  assert (HH : forall x, nz (extent V E x / 2)%Q = nz (extent V E x)).
  { intros x. destruct (nz (extent V E x)) eqn:N; [apply nz_true; apply nz_true in N; intros Z; apply N|apply nz_false; apply nz_false in N]; hlra. }
  unfold element_position. rewrite (hypervolume_spec n _ _ (fun x => (extent V E x / 2)%Q)).
  - unfold measure. pose proof (cell_span_count a b E La Lb PE) as C. rewrite <- C.
    rewrite (product_ext _ _ (fun x => if nz (extent V E x) then (extent V E x / 2)%Q else 1%Q)) by (intros x _; rewrite HH; reflexivity).
    rewrite product_halves. rewrite (product_ext _ (fun x => if flat V E x then _ else _) (fun x => if nz (extent V E x) then extent V E x else 1%Q)); [reflexivity|].
    intros x _. unfold nz, flat. destruct (Qeq_bool (extent V E x) 0); reflexivity.
  - intros x Hx. destruct (axis_onto x Hx) as (i & Hi & <-). rewrite (cell_mean a b E La Lb PE) by auto. rewrite (cell_mean a (repeat false n) E0 La ltac:(apply repeat_length) P0) by auto.
    rewrite (cell_extent a b E La Lb PE) by auto. rewrite nth_repeat_b by auto. destruct (nth i b false), (nth i a false); repeat apply Qabs_case; intros; hlra.
  - rewrite (filter_ext _ (fun x => nz (extent V E x))) by auto. apply (cell_span_count a b E La Lb PE).
Qed.
Lemma last_hypervolume : hypervolume (element_position n V E) (element_position n V r) (n - bit_sum b) == dual_part n V E r.
Proof.
  assert (X : forall x, x < n -> ~ extent V r x == 0%Q).
  { intros x Hx. destruct (axis_onto x Hx) as (i & Hi & <-). rewrite whole_extent by auto. destruct (A1 i Hi) as [_ Hs]. intros Z. apply Hs. revert Z. apply Qabs_case; intros; hlra. }
  assert (N : forall x, In x (seq 0 n) -> nz (if flat V E x then (extent V r x / 2)%Q else 0%Q) = flat V E x).
  { intros x Hx. apply in_seq in Hx. specialize (X x ltac:(lia)). destruct (flat V E x); [apply nz_true; intros Z; apply X; hlra|reflexivity]. }
  unfold element_position. rewrite (hypervolume_spec n _ _ (fun x => if flat V E x then (extent V r x / 2)%Q else 0%Q)).
  - unfold dual_part. apply product_ext. intros x Hx. rewrite N by auto. destruct (flat V E x); reflexivity.
  - intros x Hx. destruct (axis_onto x Hx) as (i & Hi & <-). rewrite (cell_mean a b E La Lb PE) by auto. rewrite (cell_mean a (repeat true n) r La ltac:(apply repeat_length) (full_cell _)) by auto.
    rewrite nth_repeat_b by auto. pose proof (cell_extent a b E La Lb PE i Hi) as C. unfold flat. pose proof (whole_extent i Hi) as W. destruct (A1 i Hi) as [_ Hs]. destruct (nth i b false).
    + destruct (Qeq_bool (extent V E (axis i)) 0) eqn:F; [apply Qeq_bool_eq in F; rewrite C in F; exfalso; apply Hs; revert F; apply Qabs_case; intros; hlra|]. apply Qabs_case; intros; hlra.
    + apply Qeq_bool_iff in C. rewrite C. rewrite W. destruct (nth i a false); repeat apply Qabs_case; intros; hlra.
  - rewrite (filter_ext_in _ (flat V E)) by auto. pose proof (cell_span_count a b E La Lb PE) as C. pose proof (filter_split_len _ (flat V E) (seq 0 n)) as F. rewrite seq_length in F.
    unfold nz in C. rewrite (filter_ext (fun x => negb (flat V E x)) (fun x => negb (Qeq_bool (extent V E x) 0))) in F by auto. lia.
Qed.
Lemma measure_dual : Qmult (measure n V E) (dual_part n V E r) == (measure n V r / inject_Z (Z.of_nat (2 ^ (n - bit_sum b))))%Q.
Proof.
  assert (C : length (filter (flat V E) (seq 0 n)) = n - bit_sum b).
  { pose proof (cell_span_count a b E La Lb PE) as C. pose proof (filter_split_len _ (flat V E) (seq 0 n)) as F. rewrite seq_length in F.
    unfold nz in C. rewrite (filter_ext (fun x => negb (flat V E x)) (fun x => negb (Qeq_bool (extent V E x) 0))) in F by auto. lia. }
  unfold dual_part. rewrite product_halves, C. unfold measure. pose proof (pow2_nz (n - bit_sum b)).
  rewrite (product_ext _ (fun x => if flat V r x then 1%Q else extent V r x) (fun x => Qmult (if flat V E x then 1%Q else extent V E x) (if flat V E x then extent V r x else 1%Q))).
  - rewrite product_mult. field. auto.
  - intros x Hx. apply in_seq in Hx. destruct (axis_onto x ltac:(lia)) as (i & Hi & <-). pose proof (cell_extent a b E La Lb PE i Hi) as X. pose proof (whole_extent i Hi) as W. unfold flat. destruct (A1 i Hi) as [_ Hs].
    assert (~ Qabs (s i) == 0%Q) by (intros Z; apply Hs; revert Z; apply Qabs_case; intros; hlra).
    destruct (Qeq_bool (extent V r (axis i)) 0) eqn:F; [apply Qeq_bool_eq in F; rewrite W in F; tauto|]. destruct (nth i b false).
    + destruct (Qeq_bool (extent V E (axis i)) 0) eqn:G; [apply Qeq_bool_eq in G; rewrite X in G; tauto|]. rewrite X, W. ring.
    + apply Qeq_bool_iff in X. rewrite X. ring.
Qed.
End Cells.
End Box.
