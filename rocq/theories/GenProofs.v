(** Structure of the symbols returned by [generate]. *)
Require Import List Arith ZArith Bool Lia Permutation Sorting.Sorted.
From Verif Require Import Util CombModel CombSpec CombProofs SimpModel SimpSpec ParProofs SimpProofs Arr StModel.
Import ListNotations.

Lemma argsort_sgn : forall r, NoDup r -> sgn (argsort r) = sgn r.
Proof.
  intros r ND. pose proof (sgn_map _ _ (argsort_perm r) (fun i => nth i r 0) (seq_NoDup _ _)) as H.
  rewrite map_nth_seq in H. specialize (H ND). fold (take r (argsort r)) in H. fold (sort_row r) in H.
  rewrite sgn_seq in H. assert (E : sgn (sort_row r) = 1%Z).
  { unfold sgn. rewrite sort_row_isort, inv_sorted; auto.
    pose proof (isort_sorted nat Nat.leb r leb_total leb_trans) as X.
    revert X. generalize (isort Nat.leb r). induction 1; constructor; auto.
    eapply Forall_impl; [|eassumption]. cbv beta. intros b Hb. apply Nat.leb_le in Hb. auto. }
  rewrite E in H. lia.
Qed.

Lemma sgn_parity : forall a b, sgn a = sgn b -> inv a mod 2 = inv b mod 2.
Proof.
  intros a b. unfold sgn, sgn_pow. rewrite <- !Nat.bit0_mod, !Nat.bit0_odd. destruct (Nat.odd (inv a)), (Nat.odd (inv b)); intros; auto; discriminate.
Qed.

(** A symbol of degree k: a strictly increasing tuple of axes. *)
Definition is_symbol (ndim k : nat) (s : list nat) : Prop :=
  StronglySorted lt s /\ length s = k /\ Forall (fun a => a < ndim) s.

Lemma ssort_nodup : forall s, StronglySorted lt s -> NoDup s.
Proof.
  induction 1; constructor; auto. intros I. rewrite Forall_forall in H0. specialize (H0 a I). lia.
Qed.

Lemma ssort_sort_row : forall s, StronglySorted lt s -> sort_row s = s.
Proof.
  intros s S. rewrite sort_row_isort.
  apply (sorted_perm_eq nat (fun a b => Nat.leb a b = true)).
  - intros x y. rewrite !Nat.leb_le. lia.
  - apply isort_sorted. apply leb_total. apply leb_trans.
  - induction S; constructor; auto. eapply Forall_impl; [|eassumption]. cbv beta. intros. apply Nat.leb_le. lia.
  - apply Permutation_sym, isort_perm.
Qed.

Lemma sort_row_sorted : forall s, NoDup s -> StronglySorted lt (sort_row s).
Proof.
  intros s ND. rewrite sort_row_isort.
  pose proof (isort_sorted nat Nat.leb s leb_total leb_trans) as X.
  assert (N2 : NoDup (isort Nat.leb s)) by (eapply Permutation_NoDup; [apply isort_perm|auto]).
  revert X N2. generalize (isort Nat.leb s). induction 1; intros N2; constructor; inversion N2; subst; auto.
  apply Forall_forall. intros x Hx. rewrite Forall_forall in H. specialize (H x Hx). apply Nat.leb_le in H.
  assert (a <> x) by (intros ->; auto). lia.
Qed.

Lemma remove_perm : forall a s, NoDup s -> In a s -> Permutation s (a :: remove Nat.eq_dec a s).
Proof.
  induction s as [|x s IH]; intros ND I; [destruct I|]. inversion ND; subst. simpl. destruct (Nat.eq_dec a x) as [->|D].
  - rewrite notin_remove; auto.
  - destruct I as [->|I]; [congruence|]. eapply perm_trans; [apply perm_skip, IH; auto|]. apply perm_swap.
Qed.

Lemma remove_sorted : forall a s, StronglySorted lt s -> StronglySorted lt (remove Nat.eq_dec a s).
Proof.
  induction 1; simpl; [constructor|]. destruct (Nat.eq_dec a a0); auto. constructor; auto.
  apply Forall_forall. intros x Hx. apply in_remove in Hx as [Hx _]. rewrite Forall_forall in H0. auto.
Qed.

Lemma remove_len : forall a s, NoDup s -> In a s -> S (length (remove Nat.eq_dec a s)) = length s.
Proof. intros a s ND I. apply remove_perm, Permutation_length in I; auto. Qed.

Lemma remove_symbol : forall ndim k s a, is_symbol ndim (S k) s -> In a s -> is_symbol ndim k (remove Nat.eq_dec a s).
Proof.
  intros ndim k s a (S & L & F) I. split; [apply remove_sorted; auto|]. split.
  - pose proof (remove_len a s (ssort_nodup s S) I). lia.
  - apply Forall_forall. intros x Hx. apply in_remove in Hx as [Hx _]. rewrite Forall_forall in F. auto.
Qed.

Lemma filter_unique : forall A (P : A -> bool) l x, NoDup l -> In x l -> P x = true ->
  (forall y, In y l -> P y = true -> y = x) -> filter P l = [x].
Proof.
  induction l as [|a l IH]; intros x ND I Px U; [destruct I|]. inversion ND; subst. simpl. destruct I as [->|I].
  - rewrite Px. f_equal. apply filter_false. intros y Hy. destruct (P y) eqn:E; auto. exfalso.
    assert (y = x) by (apply U; [right; auto|auto]). subst. auto.
  - destruct (P a) eqn:E.
    + assert (a = x) by (apply U; [left; auto|auto]). subst. contradiction.
    + apply IH; auto. intros. apply U; auto. right; auto.
Qed.

Lemma filter_flat_map : forall A B (P : B -> bool) (f : A -> list B) l, filter P (flat_map f l) = flat_map (fun x => filter P (f x)) l.
Proof. induction l; simpl; auto. rewrite filter_app, IHl. auto. Qed.

Lemma flat_map_if : forall A B (P : A -> bool) (f : A -> B) l, flat_map (fun x => if P x then [f x] else []) l = map f (filter P l).
Proof. induction l as [|a l IH]; simpl; auto. destruct (P a); simpl; rewrite IH; auto. Qed.

Lemma flat_map_ext_in : forall A B (f g : A -> list B) l, (forall x, In x l -> f x = g x) -> flat_map f l = flat_map g l.
Proof. induction l; simpl; intros H; auto. rewrite H, IHl; auto. Qed.

Lemma filter_seq_sorted : forall ndim s, StronglySorted lt s -> Forall (fun a => a < ndim) s ->
  filter (fun d => existsb (Nat.eqb d) s) (seq 0 ndim) = s.
Proof.
  intros ndim s S F. apply (sorted_perm_eq nat lt); auto.
  - intros; lia.
  - apply StronglySorted_filter, seq_sorted.
  - apply NoDup_Permutation; [apply NoDup_filter, seq_NoDup|apply ssort_nodup; auto|].
    intros x. rewrite filter_In, in_seq. rewrite Forall_forall in F. split.
    + intros [_ E]. apply existsb_exists in E as (y & Hy & E). apply Nat.eqb_eq in E. subst. auto.
    + intros I. split; [specialize (F x I); lia|]. apply existsb_exists. exists x. split; auto. apply Nat.eqb_refl.
Qed.

Lemma existsb_eqb : forall d s, existsb (Nat.eqb d) s = true <-> In d s.
Proof.
  intros. rewrite existsb_exists. split; [intros (y & Hy & E); apply Nat.eqb_eq in E; subst; auto|].
  intros I. exists d. split; auto. apply Nat.eqb_refl.
Qed.

Definition syms_ok (ndim k : nat) (syms : list (list nat)) : Prop :=
  NoDup syms /\ forall s, In s syms <-> is_symbol ndim k s.

Lemma new_terms_group : forall ndim k syms u, syms_ok ndim k syms -> is_symbol ndim (S k) u ->
  filter (fun r => list_eqb (sort_row r) u) (new_terms ndim syms) = map (fun d => remove Nat.eq_dec d u ++ [d]) u.
Proof.
  intros ndim k syms u (ND & SY) U. pose proof U as (US & UL & UF).
  unfold new_terms. rewrite filter_flat_map.
  rewrite (flat_map_ext_in _ _ _ (fun d => if existsb (Nat.eqb d) u then [remove Nat.eq_dec d u ++ [d]] else [])).
  { rewrite flat_map_if, filter_seq_sorted by auto. auto. }
  intros d Hd.
  assert (E : flat_map (fun s => if existsb (Nat.eqb d) s then [] else [s ++ [d]]) syms
            = map (fun s => s ++ [d]) (filter (fun s => negb (existsb (Nat.eqb d) s)) syms)).
  { rewrite <- flat_map_if. apply flat_map_ext. intros s. destruct (existsb (Nat.eqb d) s); auto. }
  rewrite E. clear E.
  assert (E : forall l, filter (fun r => list_eqb (sort_row r) u) (map (fun s => s ++ [d]) (filter (fun s => negb (existsb (Nat.eqb d) s)) l))
       = map (fun s => s ++ [d]) (filter (fun s => negb (existsb (Nat.eqb d) s) && list_eqb (sort_row (s ++ [d])) u) l)).
  { induction l as [|x l IH]; auto. simpl. destruct (existsb (Nat.eqb d) x); simpl; auto.
    destruct (list_eqb (sort_row (x ++ [d])) u); simpl; rewrite IH; auto. }
  rewrite E. clear E.
  assert (Key : forall s, In s syms -> (negb (existsb (Nat.eqb d) s) && list_eqb (sort_row (s ++ [d])) u) = true ->
     In d u /\ s = remove Nat.eq_dec d u).
  { intros s Hs H. apply andb_true_iff in H as [H1 H2]. apply list_eqb_eq in H2.
    apply SY in Hs as (SS & SL & SF).
    assert (P : Permutation (s ++ [d]) u) by (rewrite <- H2; apply sort_row_perm).
    assert (I : In d u) by (eapply Permutation_in; [exact P|apply in_or_app; right; left; auto]).
    split; auto. apply (sorted_perm_eq nat lt); auto; [intros; lia|apply remove_sorted; auto|].
    apply Permutation_cons_inv with (a := d).
    eapply perm_trans; [apply Permutation_cons_append|]. eapply perm_trans; [exact P|]. apply remove_perm; auto. apply ssort_nodup; auto. }
  destruct (existsb (Nat.eqb d) u) eqn:Du.
  - apply existsb_eqb in Du. rewrite (filter_unique _ _ _ (remove Nat.eq_dec d u)); auto.
    + apply SY. eapply remove_symbol; eauto.
    + apply andb_true_iff. split.
      * apply negb_true_iff. destruct (existsb _ _) eqn:E; auto. apply existsb_eqb in E. apply in_remove in E. tauto.
      * apply list_eqb_eq. rewrite <- (ssort_sort_row u US) at 2. apply sort_row_eq.
        eapply perm_trans; [apply Permutation_sym, Permutation_cons_append|]. apply Permutation_sym, remove_perm; auto. apply ssort_nodup; auto.
    + intros y Hy H. apply Key in H; tauto.
  - rewrite filter_false; auto. intros s Hs. destruct (_ && _) eqn:E; auto. apply Key in E as [I _]; auto.
    apply existsb_eqb in I. congruence.
Qed.

Lemma in_new_terms : forall ndim syms r, In r (new_terms ndim syms) <->
  exists s d, In s syms /\ d < ndim /\ ~ In d s /\ r = s ++ [d].
Proof.
  intros. unfold new_terms. rewrite in_flat_map. split.
  - intros (d & Hd & H). apply in_flat_map in H as (s & Hs & H). apply in_seq in Hd.
    destruct (existsb (Nat.eqb d) s) eqn:E; [destruct H|]. destruct H as [<-|[]].
    exists s, d. split; auto. split; [lia|]. split; auto. intros I. apply existsb_eqb in I. congruence.
  - intros (s & d & Hs & Hd & N & ->). exists d. split; [apply in_seq; lia|]. apply in_flat_map. exists s. split; auto.
    destruct (existsb (Nat.eqb d) s) eqn:E; [apply existsb_eqb in E; contradiction|]. left; auto.
Qed.

Lemma filter_combine_map : forall A B V (P : A -> bool) (f : B -> A) (g : B -> V) l,
  map snd (filter (fun kv => P (fst kv)) (combine (map f l) (map g l))) = map g (filter (fun x => P (f x)) l).
Proof. induction l as [|a l IH]; simpl; auto. destruct (P (f a)); simpl; rewrite IH; auto. Qed.

Lemma filter_perm_len : forall A (f : A -> bool) a b, Permutation a b -> length (filter f a) = length (filter f b).
Proof.
  induction 1; simpl; auto; repeat match goal with |- context [if ?b then _ else _] => destruct b end; simpl; lia.
Qed.

Section Gen.
Variable row_leb : list nat -> list nat -> bool.

(** Number of axes of [u] above [d], mod 2. *)
Definition above_parity (d : nat) (u : list nat) : nat := length (filter (fun e => d <? e) u) mod 2.

Lemma term_parity : forall ndim k u d, is_symbol ndim (S k) u -> In d u ->
  relative_simplex_parity (S k) (argsort (remove Nat.eq_dec d u ++ [d])) = Ok (above_parity d u).
Proof.
  intros ndim k u d U I. pose proof U as (US & UL & UF).
  pose proof (remove_symbol ndim k u d U I) as (RS & RL & RF).
  set (s := remove Nat.eq_dec d u) in *.
  assert (P : Permutation (s ++ [d]) u).
  { eapply perm_trans; [apply Permutation_sym, Permutation_cons_append|]. apply Permutation_sym, remove_perm; auto. apply ssort_nodup; auto. }
  assert (NDr : NoDup (s ++ [d])) by (eapply Permutation_NoDup; [apply Permutation_sym; exact P|apply ssort_nodup; auto]).
  rewrite relative_simplex_parity_ok; [|lia|].
  2:{ replace (S k) with (length (s ++ [d])) by (rewrite app_length; simpl; lia). apply argsort_perm. }
  f_equal. rewrite (sgn_parity _ _ (argsort_sgn _ NDr)). unfold above_parity.
  rewrite inv_app. rewrite (inv_sorted s) by (apply StronglySorted_lt_le; auto). cbn [inv count_lt].
  f_equal. rewrite !Nat.add_0_l.
  transitivity (length (filter (fun e => d <? e) (s ++ [d]))).
  - rewrite filter_app. simpl. rewrite Nat.ltb_irrefl, app_nil_r. clear. induction s as [|x s IH]; auto. simpl.
    destruct (d <? x); simpl; rewrite IH; auto.
  - apply filter_perm_len. auto.
Qed.

Lemma gen_level_ok : forall ndim k syms, syms_ok ndim k syms -> k < ndim ->
  exists l, gen_level row_leb ndim k syms = Ok l /\ syms_ok ndim (S k) (lv_symbols l) /\
    lv_axes l = lv_symbols l /\
    lv_terms l = map (fun u => map (fun d => index_of list_eqb (remove Nat.eq_dec d u) syms) u) (lv_symbols l) /\
    lv_parities l = map (fun u => map (fun d => above_parity d u) u) (lv_symbols l).
Proof.
  intros ndim k syms OK Hk. pose proof OK as [ND SY]. unfold gen_level.
  set (t := new_terms ndim syms).
  assert (TS : forall r, In r t -> exists u d, is_symbol ndim (S k) u /\ In d u /\ r = remove Nat.eq_dec d u ++ [d] /\ sort_row r = u).
  { intros r Hr. apply in_new_terms in Hr as (s & d & Hs & Hd & Nd & ->). apply SY in Hs as (SS & SL & SF).
    assert (NDr : NoDup (s ++ [d])).
    { eapply Permutation_NoDup; [apply Permutation_cons_append|]. constructor; auto. apply ssort_nodup; auto. }
    assert (P : Permutation (s ++ [d]) (sort_row (s ++ [d]))) by apply sort_row_perm.
    assert (US : StronglySorted lt (sort_row (s ++ [d]))) by (apply sort_row_sorted; auto).
    assert (I : In d (sort_row (s ++ [d]))) by (eapply Permutation_in; [exact P|apply in_or_app; right; left; auto]).
    exists (sort_row (s ++ [d])), d. split.
    - split; auto. split.
      + rewrite <- (Permutation_length P), app_length. simpl. lia.
      + apply Forall_forall. intros x Hx. apply Permutation_sym in P. eapply Permutation_in in Hx; [|exact P].
        apply in_app_or in Hx as [Hx|[<-|[]]]; auto. rewrite Forall_forall in SF; auto.
    - split; auto. split; auto. f_equal. apply (sorted_perm_eq nat lt); auto; [intros; lia|apply remove_sorted; auto|].
      apply Permutation_cons_inv with (a := d). eapply perm_trans; [apply Permutation_cons_append|].
      eapply perm_trans; [exact P|]. apply remove_perm; auto. apply ssort_nodup; auto. }
  set (par := fun r => above_parity (last r 0) (sort_row r)).
  assert (Last : forall d u, last (remove Nat.eq_dec d u ++ [d]) 0 = d) by (intros; apply last_last).
  rewrite (mapM_map_ok _ _ _ par).
  2:{ intros r Hr. destruct (TS r Hr) as (u & d & U & I & -> & E). unfold par. rewrite E, Last. eapply term_parity; eauto. }
  cbn [bind]. fold t.
  set (uniq := unique_rows row_leb (map sort_row t)).
  assert (UQ : syms_ok ndim (S k) uniq).
  { split; [apply unique_rows_nodup|]. intros s. unfold uniq. rewrite unique_rows_in, in_map_iff. split.
    - intros (r & <- & Hr). destruct (TS r Hr) as (u & d & U & _ & _ & ->). auto.
    - intros U. destruct s as [|d s0] eqn:Es. { destruct U as (_ & L & _). discriminate. }
      rewrite <- Es in *. assert (I : In d s) by (rewrite Es; left; auto).
      exists (remove Nat.eq_dec d s ++ [d]). pose proof U as (US & _ & _). split.
      + rewrite <- (ssort_sort_row s US) at 2. apply sort_row_eq. eapply perm_trans; [apply Permutation_sym, Permutation_cons_append|].
        apply Permutation_sym, remove_perm; auto. apply ssort_nodup; auto.
      + apply in_new_terms. exists (remove Nat.eq_dec d s), d. split; [apply SY; eapply remove_symbol; eauto|].
        split; [destruct U as (_ & _ & F); rewrite Forall_forall in F; auto|]. split; auto. apply remove_In. }
  assert (SP : forall V (g : list nat -> V), split row_leb (map sort_row t) (map g t) =
     Ok (map (fun u => map (fun d => g (remove Nat.eq_dec d u ++ [d])) u) uniq)).
  { intros V g. unfold split. fold uniq.
    assert (E : map (fun u => map snd (filter (fun kv => list_eqb (fst kv) u) (combine (map sort_row t) (map g t)))) uniq =
       map (fun u => map (fun d => g (remove Nat.eq_dec d u ++ [d])) u) uniq).
    { apply map_ext_in. intros u Hu. rewrite (filter_combine_map _ _ _ (fun x => list_eqb x u)).
      unfold t. rewrite (new_terms_group ndim k); auto; [|apply UQ; auto]. rewrite map_map. auto. }
    rewrite E. destruct (map (fun u => map (fun d => g (remove Nat.eq_dec d u ++ [d])) u) uniq) as [|x r] eqn:EM; auto.
    replace (forallb (fun y => length y =? length x) r) with true; auto. symmetry. apply forallb_forall. intros y Hy.
    assert (A : forall z, In z (x :: r) -> length z = S k).
    { rewrite <- EM. intros z Hz. apply in_map_iff in Hz as (u & <- & Hu). rewrite map_length. apply UQ in Hu as (_ & L & _). auto. }
    apply Nat.eqb_eq. rewrite (A y) by (right; auto). rewrite (A x) by (left; auto). auto. }
  pose proof (SP _ (fun r => r)) as SPi. rewrite map_id in SPi. cbv zeta.
  rewrite SP. cbn [bind]. rewrite SPi. cbn [bind].
  rewrite (mapM_map_ok _ _ _ (map (fun r => index_of list_eqb (removelast r) syms))).
  2:{ intros g Hg. apply in_map_iff in Hg as (u & <- & Hu). apply mapM_map_ok. intros r Hr. apply in_map_iff in Hr as (d & <- & Hd).
      unfold tuple_index. cbv zeta. rewrite removelast_last.
      assert (I : In (remove Nat.eq_dec d u) syms) by (apply SY; eapply remove_symbol; [apply UQ|]; eauto).
      pose proof (index_of_lt _ list_eqb _ _ list_eqb_ok I) as L. apply Nat.ltb_lt in L. rewrite L. auto. }
  cbn [bind]. eexists. split; [reflexivity|]. cbn [lv_symbols lv_terms lv_axes lv_parities]. split; auto. split; [|split].
  - rewrite map_map. fold uniq. transitivity (map (fun u : list nat => u) uniq); [|apply map_id]. apply map_ext. intros u. rewrite map_map.
    transitivity (map (fun d : nat => d) u); [|apply map_id]. apply map_ext. intros d. apply Last.
  - rewrite map_map. apply map_ext. intros u. rewrite map_map. apply map_ext. intros d. rewrite removelast_last. auto.
  - apply map_ext_in. intros u Hu. apply map_ext_in. intros d Hd. unfold par. rewrite Last. f_equal.
    apply UQ in Hu as (US & _ & _). rewrite <- (ssort_sort_row u US) at 2. apply sort_row_eq.
    eapply perm_trans; [apply Permutation_sym, Permutation_cons_append|]. apply Permutation_sym, remove_perm; auto. apply ssort_nodup; auto.
Qed.

(** What [generate] returns, level by level. *)
Definition level_spec (ndim k : nat) (below : list (list nat)) (l : level) : Prop :=
  syms_ok ndim (S k) (lv_symbols l) /\ lv_axes l = lv_symbols l /\
  lv_terms l = map (fun u => map (fun d => index_of list_eqb (remove Nat.eq_dec d u) below) u) (lv_symbols l) /\
  lv_parities l = map (fun u => map (fun d => above_parity d u) u) (lv_symbols l).

Lemma gen_loop_ok : forall ndim fuel k syms, syms_ok ndim k syms -> k + fuel = ndim ->
  exists g, gen_loop row_leb ndim k fuel syms = Ok g /\ length g = fuel /\
   forall i, i < fuel -> level_spec ndim (k + i) (nth i (syms :: map lv_symbols g) []) (nth i g (mkLevel [] [] [] [])).
Proof.
  induction fuel as [|fuel IH]; intros k syms OK E.
  - exists []. split; auto. split; auto. intros; lia.
  - destruct (gen_level_ok ndim k syms OK ltac:(lia)) as (l & El & SL). cbn [gen_loop]. rewrite El. cbn [bind].
    destruct (IH (S k) (lv_symbols l)) as (g & Eg & Lg & X); [apply SL|lia|]. rewrite Eg. cbn [bind].
    exists (l :: g). split; auto. split; [simpl; lia|]. intros [|i] Hi.
    + rewrite Nat.add_0_r. exact SL.
    + replace (k + S i) with (S k + i) by lia. cbn [map nth]. apply X. lia.
Qed.

Lemma syms0_ok : forall ndim, syms_ok ndim 0 [[]].
Proof.
  intros. split; [repeat constructor; auto|]. intros s. split.
  - intros [<-|[]]. split; [constructor|]. split; auto.
  - intros (_ & L & _). destruct s; [left; auto|discriminate].
Qed.

Theorem generate_ok : forall ndim, exists g, generate row_leb ndim = Ok g /\ length g = ndim /\
   forall i, i < ndim -> level_spec ndim i (nth i (gen_symbols g) []) (nth i g (mkLevel [] [] [] [])).
Proof. intros. apply (gen_loop_ok ndim ndim 0 [[]]); auto. apply syms0_ok. Qed.

Lemma generate_symbols : forall ndim g, generate row_leb ndim = Ok g -> forall k, k <= ndim -> syms_ok ndim k (nth k (gen_symbols g) []).
Proof.
  intros ndim g E k Hk. destruct (generate_ok ndim) as (g' & E' & L & X). assert (g' = g) by congruence. subst g'.
  destruct k as [|k]; [apply syms0_ok|]. unfold gen_symbols. cbn [nth].
  destruct (X k ltac:(lia)) as (SL & _). rewrite (nth_map_lt _ _ _ _ _ (mkLevel [] [] [] [])) by lia. exact SL.
Qed.

End Gen.
