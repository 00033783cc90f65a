(** Lemmas for C17 - C19, C51, C52. *)
Require Import List Arith ZArith Bool Lia Permutation QArith.
From Verif Require Import Util CombModel CombSpec CombProofs SimpModel SimpSpec ParProofs SimpProofs LevelProofs TopProofs.
From Verif Require Import BdryModel BdrySpec OrientProofs AvgModel.
Import ListNotations.
Local Open Scope nat_scope.

(** ---- accumulate ---- *)
Lemma running_length : forall A (f : A -> A -> A) l x, length (running f x l) = length l.
Proof. induction l; simpl; auto. Qed.
Lemma running_nth : forall A (f : A -> A -> A) l x d i, i < length l ->
  nth i (running f x l) d = fold_left f (firstn (S i) l) x.
Proof.
  induction l as [|a l IH]; simpl; intros x d i Hi; [lia|]. destruct i; simpl; auto. apply IH. lia.
Qed.
Lemma accumulate_length : forall A (f : A -> A -> A) l, length (accumulate f l) = length l.
Proof. destruct l; simpl; auto. rewrite running_length. auto. Qed.
Lemma accumulate_0 : forall A (f : A -> A -> A) l d, nth 0 (accumulate f l) d = nth 0 l d.
Proof. destruct l; auto. Qed.
Lemma accumulate_S : forall A (f : A -> A -> A) l d i, S i < length l ->
  nth (S i) (accumulate f l) d = f (nth i (accumulate f l) d) (nth (S i) l d).
Proof.
  intros A f [|x l] d i Hi; simpl in Hi; [lia|]. unfold accumulate. cbn [nth].
  rewrite running_nth by lia. destruct i.
  - destruct l; simpl in *; [lia|auto].
  - cbn [nth]. rewrite running_nth by lia.
    rewrite <- (firstn_skipn (S i) (firstn (S (S i)) l)), firstn_firstn, Nat.min_l by lia.
    rewrite fold_left_app.
    assert (E : skipn (S i) (firstn (S (S i)) l) = [nth (S i) l d]).
    { clear -Hi. assert (H : S i < length l) by lia. clear Hi. revert H. generalize (S i). clear i. intros i. revert l.
      induction i; intros [|a l] H; simpl in *; try lia; auto. apply IHi. lia. }
    rewrite E. reflexivity.
Qed.

(** ---- of_entries ---- *)
Lemma of_entries_entry : forall r c f i j, entry (of_entries r c f) i j =
  if (i <? r) && (j <? c) then f i j else 0%Z.
Proof.
  intros r c f i j. unfold entry, of_entries. cbn [triples].
  assert (In1 : forall a l, NoDup l -> sumZ (map (fun t => match t with (r0, c0, v) => if (r0 =? i) && (c0 =? j) then v else 0%Z end)
     (flat_map (fun j0 => if (f a j0 =? 0)%Z then [] else [(a, j0, f a j0)]) l)) =
     if (a =? i) && existsb (Nat.eqb j) l then f a j else 0%Z).
  { intros a. induction l as [|x l IH]; intros ND; [rewrite andb_false_r; auto|]. inversion ND; subst.
    cbn [flat_map]. rewrite map_app, sumZ_app, IH by auto. cbn [existsb].
    assert (Q : existsb (Nat.eqb x) l = false).
    { destruct (existsb (Nat.eqb x) l) eqn:E; auto. apply existsb_exists in E as (y & Hy & E). apply Nat.eqb_eq in E. congruence. }
    destruct (j =? x) eqn:E.
    - apply Nat.eqb_eq in E. subst x. rewrite Q. cbn [orb]. rewrite andb_false_r, andb_true_r.
      destruct (f a j =? 0)%Z eqn:E0.
      + apply Z.eqb_eq in E0. destruct (a =? i); simpl; lia.
      + simpl. rewrite Nat.eqb_refl, andb_true_r. destruct (a =? i); lia.
    - cbn [orb]. destruct (f a x =? 0)%Z; [simpl; auto|]. simpl. rewrite (Nat.eqb_sym x j), E, andb_false_r. auto. }
  assert (In2 : forall l, NoDup l -> sumZ (map (fun t => match t with (r0, c0, v) => if (r0 =? i) && (c0 =? j) then v else 0%Z end)
     (flat_map (fun i0 => flat_map (fun j0 => if (f i0 j0 =? 0)%Z then [] else [(i0, j0, f i0 j0)]) (seq 0 c)) l)) =
     if existsb (Nat.eqb i) l && (j <? c) then f i j else 0%Z).
  { induction l as [|x l IH]; intros ND; auto. inversion ND; subst. cbn [flat_map]. rewrite map_app, sumZ_app, IH by auto.
    rewrite In1 by apply seq_NoDup. cbn [existsb].
    assert (Ec : existsb (Nat.eqb j) (seq 0 c) = (j <? c)).
    { destruct (j <? c) eqn:E.
      - apply existsb_exists. exists j. split; [|apply Nat.eqb_refl]. apply in_seq. apply Nat.ltb_lt in E. lia.
      - destruct (existsb (Nat.eqb j) (seq 0 c)) eqn:E'; auto. apply existsb_exists in E' as (y & Hy & E').
        apply Nat.eqb_eq in E'. subst. apply in_seq in Hy. apply Nat.ltb_ge in E. lia. }
    rewrite Ec. destruct (i =? x) eqn:E.
    - apply Nat.eqb_eq in E. subst x. rewrite Nat.eqb_refl. cbn [orb andb].
      assert (Q : existsb (Nat.eqb i) l = false).
      { destruct (existsb (Nat.eqb i) l) eqn:E; auto. apply existsb_exists in E as (y & Hy & E). apply Nat.eqb_eq in E. congruence. }
      rewrite Q. cbn [andb]. destruct (j <? c); lia.
    - rewrite (Nat.eqb_sym x i), E. cbn [orb andb]. destruct (existsb (Nat.eqb i) l && (j <? c)); lia. }
  rewrite In2 by apply seq_NoDup.
  replace (existsb (Nat.eqb i) (seq 0 r)) with (i <? r); auto. symmetry.
  destruct (i <? r) eqn:E.
  - apply existsb_exists. exists i. split; [|apply Nat.eqb_refl]. apply in_seq. apply Nat.ltb_lt in E. lia.
  - destruct (existsb (Nat.eqb i) (seq 0 r)) eqn:E'; auto. apply existsb_exists in E' as (y & Hy & E').
    apply Nat.eqb_eq in E'. subst. apply in_seq in Hy. apply Nat.ltb_ge in E. lia.
Qed.

Lemma of_entries_nnz : forall r c f, nnz (of_entries r c f) = 0 <-> forall i j, i < r -> j < c -> f i j = 0%Z.
Proof.
  intros r c f. unfold nnz, of_entries. cbn [triples]. rewrite length_zero_iff_nil. split.
  - intros E i j Hi Hj. destruct (Z.eq_dec (f i j) 0) as [|D]; auto. exfalso.
    assert (I : In (i, j, f i j) (flat_map (fun i => flat_map (fun j => if (f i j =? 0)%Z then [] else [(i, j, f i j)]) (seq 0 c)) (seq 0 r))).
    { apply in_flat_map. exists i. split; [apply in_seq; lia|]. apply in_flat_map. exists j. split; [apply in_seq; lia|].
      apply Z.eqb_neq in D. rewrite D. left; auto. }
    rewrite E in I. destruct I.
  - intros H. assert (E : forall l, (forall i, In i l -> i < r) -> flat_map (fun i => flat_map (fun j => if (f i j =? 0)%Z then [] else [(i, j, f i j)]) (seq 0 c)) l = []).
    { induction l as [|i l IH]; intros Hl; auto. cbn [flat_map]. rewrite IH by (intros; apply Hl; right; auto). rewrite app_nil_r.
      assert (Hi : i < r) by (apply Hl; left; auto). clear IH Hl.
      assert (E : forall m, (forall j, In j m -> j < c) -> flat_map (fun j => if (f i j =? 0)%Z then [] else [(i, j, f i j)]) m = []).
      { induction m as [|j m IH]; intros Hm; auto. cbn [flat_map]. rewrite (H i j) by (auto; apply Hm; left; auto). cbn. apply IH. intros; apply Hm; right; auto. }
      apply E. intros j Hj. apply in_seq in Hj. lia. }
    apply E. intros i Hi. apply in_seq in Hi. lia.
Qed.

(** ---- int8 ---- *)
Lemma wrap8_mod : forall z, ((wrap8 z - z) mod 256 = 0)%Z.
Proof.
  intros. unfold wrap8. replace ((z + 128) mod 256 - 128 - z)%Z with ((z + 128) mod 256 - (z + 128))%Z by ring.
  rewrite Zminus_mod, Zmod_mod, Z.sub_diag. auto.
Qed.
Lemma wrap8_cong : forall a b, ((a - b) mod 256 = 0)%Z -> wrap8 a = wrap8 b.
Proof.
  intros a b H. unfold wrap8. f_equal. apply Z.mod_divide in H as (q & H); [|lia].
  replace (a + 128)%Z with (b + 128 + q * 256)%Z by lia. apply Z_mod_plus_full.
Qed.
Lemma cong_wrap8 : forall a b, wrap8 a = wrap8 b -> ((a - b) mod 256 = 0)%Z.
Proof.
  intros a b H. pose proof (wrap8_mod a) as A. pose proof (wrap8_mod b) as B.
  apply Z.mod_divide in A as (q & A); [|lia]. apply Z.mod_divide in B as (p & B); [|lia].
  rewrite H in A. apply Z.mod_divide; [lia|]. exists (p - q)%Z. lia.
Qed.
Lemma wrap8_wrap8_mul : forall a b, wrap8 (wrap8 a * b) = wrap8 (a * b).
Proof.
  intros. apply wrap8_cong. replace (wrap8 a * b - a * b)%Z with ((wrap8 a - a) * b)%Z by ring.
  rewrite Z.mul_mod, wrap8_mod by lia. auto.
Qed.
Lemma wrap8_id : forall z, (-128 <= z < 128)%Z -> wrap8 z = z.
Proof. intros. unfold wrap8. rewrite Z.mod_small by lia. lia. Qed.
Lemma wrap8_range : forall z, (-128 <= wrap8 z < 128)%Z.
Proof. intros. unfold wrap8. pose proof (Z.mod_pos_bound (z + 128) 256). lia. Qed.

(** ---- counting ---- *)
Lemma count_bij : forall A (R : A -> nat -> Prop) (P : nat -> bool) (K : list A) N, NoDup K ->
  (forall k, In k K -> exists i, i < N /\ R k i /\ P i = true) ->
  (forall i, i < N -> P i = true -> exists k, In k K /\ R k i) ->
  (forall k k' i, In k K -> In k' K -> R k i -> R k' i -> k = k') ->
  (forall k i i', In k K -> i < N -> i' < N -> R k i -> R k i' -> i = i') ->
  length (filter P (seq 0 N)) = length K.
Proof.
  intros A R P K N ND T S I F.
  assert (L : forall K', incl K' K -> exists l, Forall2 (fun k i => R k i /\ i < N /\ P i = true) K' l).
  { induction K' as [|k K' IH]; intros Hi; [exists []; constructor|].
    destruct IH as (l & Hl); [intros x Hx; apply Hi; right; auto|].
    destruct (T k (Hi k (or_introl eq_refl))) as (i & A1 & A2 & A3). exists (i :: l). constructor; auto. }
  destruct (L K (incl_refl K)) as (l & Fl).
  rewrite (Forall2_len _ _ _ _ _ Fl). symmetry. apply Permutation_length. apply NoDup_Permutation.
  - clear L T S F. revert I ND Fl. revert l. induction K as [|k K IH]; intros l I ND Fl; inversion Fl; subst; constructor.
    + intros Hin. inversion ND; subst.
      assert (X : exists k', In k' K /\ R k' y).
      { clear -H3 Hin. induction H3; [destruct Hin|]. destruct Hin as [<-|Hin]; [exists x; split; [left; auto|apply H]|].
        destruct (IHForall2 Hin) as (k' & A1 & A2). exists k'. split; [right; auto|auto]. }
      destruct X as (k' & Hk' & Rk'). assert (k = k') by (eapply I; [left; auto|right; auto|apply H1|auto]). subst. auto.
    + inversion ND; subst. apply IH; auto. intros; eapply I; eauto; right; auto.
  - apply NoDup_filter, seq_NoDup.
  - intros i. rewrite filter_In, in_seq. split.
    + intros Hi. clear -Hi Fl. induction Fl; [destruct Hi|]. destruct Hi as [<-|Hi]; auto. intuition lia.
    + intros [Hi Pi]. destruct (S i ltac:(lia) Pi) as (k & Hk & Rk).
      assert (G : exists i', In i' l /\ R k i' /\ i' < N).
      { clear -Fl Hk. induction Fl; [destruct Hk|]. destruct Hk as [<-|Hk]; [exists y; split; [left; auto|intuition]|].
        destruct (IHFl Hk) as (i' & A1 & A2). exists i'. split; [right; auto|auto]. }
      destruct G as (i' & A1 & A2 & A3). assert (i = i') by (eapply F; eauto; lia). subst; auto.
Qed.

Lemma NoDup_app' : forall A (l l' : list A), NoDup l -> NoDup l' -> (forall x, In x l -> In x l' -> False) -> NoDup (l ++ l').
Proof.
  induction l as [|a l IH]; intros l' N N' D; auto. inversion N; subst. simpl. constructor.
  - rewrite in_app_iff. intros [H|H]; auto. apply (D a); auto. left; auto.
  - apply IH; auto. intros x Hx. apply D. right; auto.
Qed.

Definition memb (v : nat) (s : simplex) : bool := existsb (Nat.eqb v) s.
Lemma memb_iff : forall v s, memb v s = true <-> In v s.
Proof.
  intros. unfold memb. rewrite existsb_exists. split.
  - intros (y & Hy & E). apply Nat.eqb_eq in E. subst; auto.
  - intros H. exists v. split; auto. apply Nat.eqb_refl.
Qed.

Lemma sumZ_indicator : forall (P : nat -> bool) z l, sumZ (map (fun k => if P k then z else 0%Z) l) = (z * Z.of_nat (length (filter P l)))%Z.
Proof.
  induction l as [|k l IH]; simpl; [lia|]. change (fold_right Z.add 0%Z) with sumZ. rewrite IH. destruct (P k); simpl length; lia.
Qed.

Section Top.
Variables (n : nat) (rows : list simplex) (t : topology).
Hypothesis Hn : 1 <= n.
Hypothesis T : top_ok n rows t.

Lemma abs_entry : forall k i j, k < n -> i < n_elements t k -> j < n_elements t (S k) ->
  entry (abs_mat (matrix t k)) i j = if inclb (el t k i) (el t (S k) j) then 1%Z else 0%Z.
Proof.
  intros k i j Hk Hi Hj. unfold abs_mat. rewrite of_entries_entry.
  destruct (matrix_shape n rows t Hn T k Hk) as [R C]. rewrite R, C.
  rewrite (proj2 (Nat.ltb_lt _ _) Hi), (proj2 (Nat.ltb_lt _ _) Hj). cbn [andb].
  destruct (entry_values n rows t Hn T k i j Hk Hi Hj) as [A B]. fold (el t k i) in *. fold (el t (S k) j) in *.
  destruct (inclb (el t k i) (el t (S k) j)) eqn:E.
  - apply inclb_iff in E. destruct (A E) as [->| ->]; reflexivity.
  - rewrite B; [reflexivity|]. intros I. apply inclb_iff in I. congruence.
Qed.

(** facets of [e] that contain [v] *)
Lemma count_down : forall k v e, k < n -> e < n_elements t (S k) -> In v (el t (S k) e) ->
  length (filter (fun f => memb v (el t k f) && inclb (el t k f) (el t (S k) e)) (seq 0 (n_elements t k))) = S k.
Proof.
  intros k v e Hk He Hv. destruct (el_len n rows t Hn T (S k) e ltac:(lia) He) as [L N].
  pose proof (to_level _ _ _ T k Hk) as LV.
  set (s := el t (S k) e) in *.
  assert (EK : length (filter (fun w => negb (w =? v)) s) = S k).
  { apply In_nth with (d := 0) in Hv as (c & Hc & Ec).
    pose proof (omit_perm_cons c s Hc) as P. rewrite Ec in P.
    assert (ND : NoDup (v :: omit c s)) by (eapply Permutation_NoDup; eauto). inversion ND; subst.
    assert (PF : Permutation (filter (fun w => negb (w =? nth c s 0)) s) (omit c s)).
    { apply NoDup_Permutation; [apply NoDup_filter; auto|auto|]. intros x. rewrite filter_In, negb_true_iff, Nat.eqb_neq. split.
      - intros [A B]. eapply Permutation_in in A; [|exact P]. destruct A; auto. congruence.
      - intros A. split; [apply (omit_incl c); auto|]. intros ->. auto. }
    rewrite (Permutation_length PF), omit_length by lia. lia. }
  rewrite <- EK.
  apply count_bij with (R := fun w f => Permutation s (w :: el t k f)).
  - apply NoDup_filter; auto.
  - intros w Hw. apply filter_In in Hw as [Hw Hwv]. apply negb_true_iff, Nat.eqb_neq in Hwv.
    pose proof Hw as Hw'. apply In_nth with (d := 0) in Hw' as (c & Hc & Ec).
    destruct (lv_cover _ _ _ _ _ LV s c) as (i & Hi & P); [apply nth_In; auto|lia|].
    exists i. fold (el t k i) in P.
    assert (PS : Permutation s (w :: el t k i)).
    { rewrite <- Ec. eapply perm_trans; [exact (omit_perm_cons c s Hc)|]. constructor. auto. }
    split; auto. split; auto. apply andb_true_iff. split.
    + apply memb_iff. eapply Permutation_in in Hv; [|exact PS]. destruct Hv; auto. congruence.
    + apply inclb_iff. intros x Hx. eapply Permutation_in; [apply Permutation_sym; exact PS|right; auto].
  - intros i Hi E. apply andb_true_iff in E as [E1 E2]. apply memb_iff in E1. apply inclb_iff in E2.
    destruct (el_len n rows t Hn T k i ltac:(lia) Hi) as [L1 N1].
    destruct (exists_outside (el t k i) s) as (w & Hw & Hnw); [auto|lia|].
    exists w. split.
    + apply filter_In. split; auto. apply negb_true_iff, Nat.eqb_neq. intros ->. auto.
    + apply Permutation_sym. apply NoDup_Permutation_bis; [constructor; auto|simpl; lia|].
      intros x [<-|Hx]; auto.
  - intros w w' i Hw Hw' P P'. 
    assert (X : Permutation (w :: el t k i) (w' :: el t k i)) by (eapply perm_trans; [apply Permutation_sym; exact P|exact P']).
    assert (Hin : In w (w' :: el t k i)) by (eapply Permutation_in; [exact X|left; auto]).
    destruct Hin as [|Hin]; auto. exfalso. assert (ND : NoDup (w :: el t k i)) by (eapply Permutation_NoDup; eauto).
    inversion ND; auto.
  - intros w i i' Hw Hi Hi' P P'. apply (faces_unique n rows t T k); auto.
    apply Permutation_cons_inv with w. eapply perm_trans; [apply Permutation_sym; exact P|exact P'].
Qed.

(** ---- accumulated operators ---- *)
Lemma matrices_nth : forall k d, k < n -> nth k (matrices t) d = matrix t k.
Proof. intros. unfold matrices. rewrite (top_n_dim n rows t T). apply nth_map_seq; auto. Qed.
Lemma matrices_len : length (matrices t) = n.
Proof. unfold matrices. rewrite map_length, seq_length. apply (top_n_dim n rows t T). Qed.

Lemma mul8_entry : forall A B i j, entry (mul8 A B) i j =
  if (i <? nrows A) && (j <? ncols B) then wrap8 (sumZ (map (fun k => entry A i k * entry B k j)%Z (seq 0 (ncols A)))) else 0%Z.
Proof. intros. unfold mul8. apply of_entries_entry. Qed.

Definition no_coo := mkCoo 0 0 [].
Definition acc0 := accumulate mul8 (map abs_mat (matrices t)).
Lemma acc0_spec : forall k, k < n ->
  nrows (nth k acc0 no_coo) = n_elements t 0 /\ ncols (nth k acc0 no_coo) = n_elements t (S k) /\
  forall v e, v < n_elements t 0 -> e < n_elements t (S k) ->
    entry (nth k acc0 no_coo) v e = if memb v (el t (S k) e) then wrap8 (Z.of_nat (fact (S k))) else 0%Z.
Proof.
  assert (V0 : forall v, v < n_elements t 0 -> el t 0 v = [v]).
  { intros v Hv. unfold el. rewrite (to_verts _ _ _ T). rewrite nth_map_seq by auto. auto. }
  assert (LM : length (map abs_mat (matrices t)) = n) by (rewrite map_length; apply matrices_len).
  assert (NM : forall k, k < n -> nth k (map abs_mat (matrices t)) no_coo = abs_mat (matrix t k)).
  { intros k Hk. rewrite (nth_map_lt _ _ _ _ _ no_coo) by (rewrite matrices_len; auto). rewrite matrices_nth by auto. auto. }
  induction k as [|k IH]; intros Hk.
  - unfold acc0. rewrite accumulate_0, NM by auto. destruct (matrix_shape n rows t Hn T 0 Hk) as [R C].
    split; [exact R|]. split; [exact C|]. intros v e Hv He. rewrite abs_entry by auto. rewrite V0 by auto.
    change (wrap8 (Z.of_nat (fact 1))) with 1%Z.
    destruct (memb v (el t 1 e)) eqn:M.
    + apply memb_iff in M. rewrite (proj2 (inclb_iff _ _)); auto. intros x [<-|[]]; auto.
    + destruct (inclb [v] (el t 1 e)) eqn:I; auto. apply inclb_iff in I. specialize (I v (or_introl eq_refl)).
      apply memb_iff in I. congruence.
  - destruct (IH ltac:(lia)) as (R & C & E). unfold acc0. rewrite accumulate_S by lia. fold acc0. rewrite NM by auto.
    destruct (matrix_shape n rows t Hn T (S k) Hk) as [R1 C1].
    split; [exact R|]. split; [exact C1|]. intros v e Hv He.
    rewrite mul8_entry, R. unfold abs_mat at 1. unfold of_entries at 1. cbn [ncols]. rewrite C1, C.
    rewrite (proj2 (Nat.ltb_lt _ _) Hv), (proj2 (Nat.ltb_lt _ _) He). cbn [andb].
    rewrite (sumZ_map_ext _ _ (fun f => if memb v (el t (S k) f) && inclb (el t (S k) f) (el t (S (S k)) e) then wrap8 (Z.of_nat (fact (S k))) else 0%Z)).
    2:{ intros f Hf. apply in_seq in Hf. rewrite E by lia. rewrite abs_entry by lia.
        destruct (memb v (el t (S k) f)), (inclb (el t (S k) f) (el t (S (S k)) e)); cbn [andb]; lia. }
    rewrite sumZ_indicator. destruct (memb v (el t (S (S k)) e)) eqn:M.
    + apply memb_iff in M. rewrite count_down by auto. rewrite wrap8_wrap8_mul. f_equal.
      change (fact (S (S k))) with (S (S k) * fact (S k)). lia.
    + replace (filter _ _) with (@nil nat); [simpl length; rewrite Z.mul_0_r; reflexivity|]. symmetry.
      assert (X : forall l, filter (fun f => memb v (el t (S k) f) && inclb (el t (S k) f) (el t (S (S k)) e)) l = []).
      { induction l as [|f l IHl]; auto. cbn [filter]. destruct (_ && _) eqn:A; auto.
        apply andb_true_iff in A as [A1 A2]. apply memb_iff in A1. apply inclb_iff in A2. apply A2 in A1. apply memb_iff in A1. congruence. }
      apply X.
Qed.

(** elements between [e] and the top element [s] *)
Lemma count_up : forall k e s, S k < n -> e < n_elements t k -> s < length rows -> incl (el t k e) (nth s rows []) ->
  length (filter (fun f => inclb (el t (S k) f) (el t n s) && inclb (el t k e) (el t (S k) f)) (seq 0 (n_elements t (S k)))) = n - k.
Proof.
  intros k e s Hk He Hs HI. rewrite <- (el_top n rows t T) in HI.
  destruct (el_len n rows t Hn T k e ltac:(lia) He) as [Le Ne].
  destruct (el_len n rows t Hn T n s ltac:(lia) ltac:(rewrite (n_top n rows t T); auto)) as [Ls Ns].
  set (E := el t k e) in *. set (S0 := el t n s) in *.
  assert (EK : length (filter (fun w => negb (memb w E)) S0) = n - k).
  { assert (PF : Permutation S0 (E ++ filter (fun w => negb (memb w E)) S0)).
    { apply NoDup_Permutation; auto.
      - apply NoDup_app'; auto. 
        + apply NoDup_filter; auto.
        + intros x Hx Hx'. apply filter_In in Hx' as [_ Hx']. apply negb_true_iff in Hx'.
          assert (memb x E = true) by (apply memb_iff; auto). congruence.
      - intros x. rewrite in_app_iff, filter_In, negb_true_iff. split.
        + intros Hx. destruct (memb x E) eqn:M; [left; apply memb_iff; auto|right; auto].
        + intros [Hx|[Hx _]]; auto. }
    apply Permutation_length in PF. rewrite app_length in PF. lia. }
  rewrite <- EK.
  apply count_bij with (R := fun w f => Permutation (el t (S k) f) (w :: E)).
  - apply NoDup_filter; auto.
  - intros w Hw. apply filter_In in Hw as [Hw Hn']. apply negb_true_iff in Hn'.
    assert (NE : ~ In w E) by (intros X; apply memb_iff in X; congruence).
    destruct (proj2 (faces_complete n rows t Hn T (n - S k) (S k) ltac:(lia) (w :: E))) as (f & Hf & P).
    { exists S0. split.
      - unfold S0. rewrite (el_top n rows t T). apply nth_In; auto.
      - split; [constructor; auto|]. split; [simpl; lia|]. intros x [<-|Hx]; auto. }
    apply In_nth with (d := []) in Hf as (i & Hi & Ei). fold (el t (S k) i) in Ei. subst f.
    exists i. split; auto. split; auto. apply andb_true_iff. split; apply inclb_iff; intros x Hx.
    + eapply Permutation_in in Hx; [|exact P]. destruct Hx as [<-|Hx]; auto.
    + eapply Permutation_in; [apply Permutation_sym; exact P|right; auto].
  - intros i Hi Ei. apply andb_true_iff in Ei as [E1 E2]. apply inclb_iff in E1, E2.
    destruct (el_len n rows t Hn T (S k) i ltac:(lia) Hi) as [Li Ni].
    destruct (exists_outside E (el t (S k) i)) as (w & Hw & Hnw); [auto|lia|].
    exists w. split.
    + apply filter_In. split; [apply E1; auto|]. apply negb_true_iff. destruct (memb w E) eqn:M; auto. apply memb_iff in M. tauto.
    + apply Permutation_sym. apply NoDup_Permutation_bis; [constructor; auto|simpl; lia|]. intros x [<-|Hx]; auto.
  - intros w w' i Hw Hw' P P'.
    assert (X : Permutation (w :: E) (w' :: E)) by (eapply perm_trans; [apply Permutation_sym; exact P|exact P']).
    assert (Hin : In w (w' :: E)) by (eapply Permutation_in; [exact X|left; auto]).
    destruct Hin as [|Hin]; auto. exfalso. apply filter_In in Hw as [_ Hw]. apply negb_true_iff in Hw.
    apply memb_iff in Hin. congruence.
  - intros w i i' Hw Hi Hi' P P'.
    assert (PP : Permutation (el t (S k) i) (el t (S k) i')) by (eapply perm_trans; [exact P|apply Permutation_sym; exact P']).
    apply (faces_unique n rows t T (S k)); auto.
Qed.

Definition accN := accumulate mul8 (map (fun m => abs_mat (transpose m)) (rev (matrices t))).
Lemma abs_transpose_entry : forall k i j, k < n -> i < n_elements t (S k) -> j < n_elements t k ->
  entry (abs_mat (transpose (matrix t k))) i j = if inclb (el t k j) (el t (S k) i) then 1%Z else 0%Z.
Proof.
  intros k i j Hk Hi Hj. rewrite <- abs_entry by auto. unfold abs_mat. rewrite !of_entries_entry.
  destruct (matrix_shape n rows t Hn T k Hk) as [R C]. cbn [transpose nrows ncols]. rewrite R, C.
  rewrite (proj2 (Nat.ltb_lt _ _) Hi), (proj2 (Nat.ltb_lt _ _) Hj). cbn [andb].
  unfold entry, transpose. cbn [triples]. rewrite map_map. f_equal. apply sumZ_map_ext.
  intros [[r c] v] _. rewrite andb_comm. auto.
Qed.

(** position [j] relates the top elements to the (n-1-j)-elements *)
Lemma accN_spec : forall j, j < n ->
  nrows (nth j accN no_coo) = length rows /\ ncols (nth j accN no_coo) = n_elements t (n - 1 - j) /\
  forall s e, s < length rows -> e < n_elements t (n - 1 - j) ->
    entry (nth j accN no_coo) s e = if inclb (el t (n - 1 - j) e) (nth s rows []) then wrap8 (Z.of_nat (fact (S j))) else 0%Z.
Proof.
  assert (LM : length (map (fun m => abs_mat (transpose m)) (rev (matrices t))) = n) by (rewrite map_length, rev_length; apply matrices_len).
  assert (NM : forall k, k < n -> nth k (map (fun m => abs_mat (transpose m)) (rev (matrices t))) no_coo = abs_mat (transpose (matrix t (n - 1 - k)))).
  { intros k Hk. rewrite (nth_map_lt _ _ _ _ _ no_coo) by (rewrite rev_length, matrices_len; auto).
    rewrite rev_nth by (rewrite matrices_len; auto). rewrite matrices_len, matrices_nth by lia. replace (n - S k) with (n - 1 - k) by lia. auto. }
  assert (NT : n_elements t n = length rows) by apply (n_top n rows t T).
  induction j as [|j IH]; intros Hj.
  - unfold accN. rewrite accumulate_0, NM by auto. replace (n - 1 - 0) with (n - 1) by lia.
    destruct (matrix_shape n rows t Hn T (n - 1) ltac:(lia)) as [R C]. replace (S (n - 1)) with n in C by lia.
    split; [change (ncols (matrix t (n - 1)) = length rows); lia|]. split; [exact R|]. intros s e Hs He.
    rewrite abs_transpose_entry by (replace (S (n - 1)) with n by lia; lia).
    replace (S (n - 1)) with n by lia. rewrite (el_top n rows t T). reflexivity.
  - destruct (IH ltac:(lia)) as (R & C & E). unfold accN. rewrite accumulate_S by lia. fold accN. rewrite NM by auto.
    set (k := n - 1 - S j) in *. assert (Ek : n - 1 - j = S k) by (unfold k; lia). rewrite Ek in *.
    destruct (matrix_shape n rows t Hn T k ltac:(lia)) as [R1 C1].
    split; [exact R|]. split; [exact R1|]. intros s e Hs He.
    rewrite mul8_entry, R. change (ncols (abs_mat (transpose (matrix t k)))) with (nrows (matrix t k)). rewrite R1, C.
    rewrite (proj2 (Nat.ltb_lt _ _) Hs), (proj2 (Nat.ltb_lt _ _) He). cbn [andb].
    rewrite (sumZ_map_ext _ _ (fun f => if inclb (el t (S k) f) (el t n s) && inclb (el t k e) (el t (S k) f) then wrap8 (Z.of_nat (fact (S j))) else 0%Z)).
    2:{ intros f Hf. apply in_seq in Hf. rewrite E by lia. rewrite abs_transpose_entry by lia. rewrite (el_top n rows t T).
        destruct (inclb (el t (S k) f) (nth s rows [])), (inclb (el t k e) (el t (S k) f)); cbn [andb]; lia. }
    rewrite sumZ_indicator. destruct (inclb (el t k e) (nth s rows [])) eqn:M.
    + apply inclb_iff in M. rewrite count_up by (auto; lia). rewrite wrap8_wrap8_mul. f_equal.
      change (fact (S (S j))) with (S (S j) * fact (S j)). replace (n - k) with (S (S j)) by (unfold k; lia). lia.
    + replace (filter _ _) with (@nil nat); [simpl length; rewrite Z.mul_0_r; reflexivity|]. symmetry.
      assert (X : forall l, filter (fun f => inclb (el t (S k) f) (el t n s) && inclb (el t k e) (el t (S k) f)) l = []).
      { induction l as [|f l IHl]; auto. cbn [filter]. destruct (_ && _) eqn:A; auto.
        apply andb_true_iff in A as [A1 A2]. apply inclb_iff in A1, A2. rewrite (el_top n rows t T) in A1.
        assert (inclb (el t k e) (nth s rows []) = true); [|congruence]. apply inclb_iff. intros x Hx. auto. }
      apply X.
Qed.
End Top.
