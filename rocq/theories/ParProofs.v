(** Signs of orderings. *)
Require Import List Arith ZArith Bool Lia Permutation Sorting.Sorted.
From Verif Require Import Util CombSpec CombProofs SimpModel SimpSpec.
Import ListNotations.
Local Open Scope Z_scope.

Lemma sgn_pow_add : forall a b, sgn_pow (a + b) = sgn_pow a * sgn_pow b.
Proof.
  intros. unfold sgn_pow. rewrite Nat.odd_add. destruct (Nat.odd a), (Nat.odd b); reflexivity.
Qed.
Lemma sgn_pow_sq : forall a, sgn_pow a * sgn_pow a = 1.
Proof. intros. unfold sgn_pow. destruct (Nat.odd a); reflexivity. Qed.
Lemma sgn_pow_S : forall a, sgn_pow (S a) = - sgn_pow a.
Proof. intros. unfold sgn_pow. rewrite Nat.odd_succ, <- Nat.negb_odd. destruct (Nat.odd a); reflexivity. Qed.
Lemma sgn_pow_cases : forall a, sgn_pow a = 1 \/ sgn_pow a = -1.
Proof. intros. unfold sgn_pow. destruct (Nat.odd a); auto. Qed.

Lemma sgn_cons : forall x l, sgn (x :: l) = sgn_pow (count_lt x l) * sgn l.
Proof. intros. unfold sgn. simpl. apply sgn_pow_add. Qed.
Lemma sgn_sq : forall l, sgn l * sgn l = 1.
Proof. intros. apply sgn_pow_sq. Qed.
Lemma sgn_cases : forall l, sgn l = 1 \/ sgn l = -1.
Proof. intros. apply sgn_pow_cases. Qed.

Ltac sgn_ring :=
  repeat (match goal with
    | |- context [sgn ?l] => let E := fresh in destruct (sgn_cases l) as [E|E]; rewrite !E; clear E
    | |- context [sgn_pow ?l] => let E := fresh in destruct (sgn_pow_cases l) as [E|E]; rewrite !E; clear E
    end); try ring.

Lemma sgn_swap : forall x y l, x <> y -> sgn (y :: x :: l) = - sgn (x :: y :: l).
Proof.
  intros. rewrite !sgn_cons. cbn [count_lt].
  rewrite !sgn_pow_add.
  destruct (x <? y)%nat eqn:E1, (y <? x)%nat eqn:E2;
   rewrite ?Nat.ltb_lt, ?Nat.ltb_ge in *; try lia; unfold sgn_pow; simpl; destruct (Nat.odd _), (Nat.odd _); lia.
Qed.



Lemma sgn_map : forall l l', Permutation l l' -> forall f, NoDup l -> NoDup (map f l) ->
  sgn l * sgn l' = sgn (map f l) * sgn (map f l').
Proof.
  induction 1; intros f ND NDf.
  - reflexivity.
  - cbn [map] in *. rewrite !sgn_cons.
    inversion ND; inversion NDf; subst.
    rewrite (count_lt_perm x l l') by auto.
    rewrite (count_lt_perm (f x) (map f l) (map f l')) by (apply Permutation_map; auto).
    specialize (IHPermutation f H3 H7).
    destruct (sgn_pow_cases (count_lt x l')) as [E|E], (sgn_pow_cases (count_lt (f x) (map f l'))) as [E'|E'];
      rewrite E, E'; nia.
  - cbn [map] in *. inversion ND; inversion NDf; subst. simpl in *.
    rewrite (sgn_swap x y) by (intros ->; tauto).
    rewrite (sgn_swap (f x) (f y)) by (intros E; rewrite E in *; tauto).
    pose proof (sgn_sq (x :: y :: l)). pose proof (sgn_sq (f x :: f y :: map f l)). lia.
  - assert (ND2 : NoDup l') by (eapply Permutation_NoDup; eauto).
    assert (NDf2 : NoDup (map f l')) by (eapply Permutation_NoDup; [apply Permutation_map|]; eauto).
    specialize (IHPermutation1 f ND NDf). specialize (IHPermutation2 f ND2 NDf2).
    pose proof (sgn_sq l'). pose proof (sgn_sq (map f l')).
    destruct (sgn_cases l'), (sgn_cases (map f l')); nia.
Qed.

(** sgn of a concatenation *)
Fixpoint cross (a b : list nat) : nat :=
  match a with [] => 0%nat | x :: t => (count_lt x b + cross t b)%nat end.

Lemma inv_app : forall a b, inv (a ++ b) = (inv a + inv b + cross a b)%nat.
Proof. induction a; simpl; intros; auto. rewrite count_lt_app, IHa. lia. Qed.

Lemma cross_nil_r : forall b, cross b [] = 0%nat.
Proof. induction b; simpl; auto. Qed.

Lemma cross_cons_r : forall b x a, ~ In x b ->
  (cross b (x :: a) + count_lt x b = cross b a + length b)%nat.
Proof.
  induction b as [|y b IH]; simpl; intros x a H; auto.
  specialize (IH x a ltac:(tauto)).
  assert (y <> x) by (intros ->; tauto).
  destruct (x <? y)%nat eqn:E1, (y <? x)%nat eqn:E2; rewrite ?Nat.ltb_lt, ?Nat.ltb_ge in *; lia.
Qed.

Lemma cross_comm : forall a b, (forall x, In x a -> ~ In x b) ->
  (cross a b + cross b a = length a * length b)%nat.
Proof.
  induction a as [|x a IH]; simpl; intros b H.
  - rewrite cross_nil_r. auto.
  - pose proof (cross_cons_r b x a (H x (or_introl eq_refl))).
    specialize (IH b ltac:(intros; apply H; auto)). lia.
Qed.

Lemma sgn_app_comm : forall a b, (forall x, In x a -> ~ In x b) ->
  sgn (b ++ a) = sgn_pow (length a * length b) * sgn (a ++ b).
Proof.
  intros a b H. unfold sgn. rewrite !inv_app, <- (cross_comm a b H), !sgn_pow_add.
  pose proof (sgn_pow_sq (cross a b)). pose proof (sgn_pow_sq (cross b a)).
  destruct (sgn_pow_cases (cross a b)), (sgn_pow_cases (cross b a)); rewrite H2, H3; ring.
Qed.

Lemma sgn_seq : forall a n, sgn (seq a n) = 1.
Proof. intros. unfold sgn. rewrite inv_sorted; auto. apply StronglySorted_lt_le, seq_sorted. Qed.

(** same_verts *)
Lemma leb_total : forall a b, (a <=? b)%nat = true \/ (b <=? a)%nat = true.
Proof. intros. rewrite !Nat.leb_le. lia. Qed.
Lemma leb_trans : forall a b c, (a <=? b)%nat = true -> (b <=? c)%nat = true -> (a <=? c)%nat = true.
Proof. intros a b c. rewrite !Nat.leb_le. lia. Qed.

Lemma isort_nat_eq : forall a b, isort Nat.leb a = isort Nat.leb b <-> Permutation a b.
Proof.
  split; intros H.
  - eapply perm_trans; [apply (isort_perm _ Nat.leb)|]. rewrite H. apply Permutation_sym, isort_perm.
  - apply (sorted_perm_eq nat (fun a b => Nat.leb a b = true)).
    + intros x y. rewrite !Nat.leb_le. lia.
    + apply isort_sorted. apply leb_total. apply leb_trans.
    + apply isort_sorted. apply leb_total. apply leb_trans.
    + eapply perm_trans; [apply Permutation_sym, isort_perm|].
      eapply perm_trans; [exact H|]. apply isort_perm.
Qed.

Lemma same_verts_iff : forall a b, same_verts a b = true <-> Permutation a b.
Proof. intros. unfold same_verts. rewrite list_eqb_eq. apply isort_nat_eq. Qed.

Lemma same_verts_false : forall a b, same_verts a b = false <-> ~ Permutation a b.
Proof.
  intros. rewrite <- same_verts_iff. destruct (same_verts a b); split; congruence.
Qed.

Lemma rel_sign_perm : forall a b, Permutation a b -> rel_sign a b = sgn a * sgn b.
Proof. intros. unfold rel_sign. apply same_verts_iff in H. rewrite H. auto. Qed.
Lemma rel_sign_neq : forall a b, ~ Permutation a b -> rel_sign a b = 0.
Proof. intros. unfold rel_sign. apply same_verts_false in H. rewrite H. auto. Qed.

Lemma rel_sign_antisym : forall b, antisymmetric (fun a => rel_sign a b).
Proof.
  intros b l l' ND P. unfold rel_sign.
  destruct (same_verts l b) eqn:E.
  - apply same_verts_iff in E. assert (P2 : Permutation l' b) by (eapply perm_trans; [apply Permutation_sym|]; eauto).
    apply same_verts_iff in P2. rewrite P2. sgn_ring.
  - apply same_verts_false in E. assert (P2 : ~ Permutation l' b) by (intros Q; apply E; eapply perm_trans; eauto).
    apply same_verts_false in P2. rewrite P2. ring.
Qed.

(** ---- alternating sums ---- *)

Lemma omit_0 : forall x s, omit 0 (x :: s) = s.
Proof. reflexivity. Qed.
Lemma omit_S : forall c x s, omit (S c) (x :: s) = x :: omit c s.
Proof. reflexivity. Qed.

Lemma alternating_cons : forall f x s,
  alternating f (x :: s) = f s - alternating (fun t => f (x :: t)) s.
Proof.
  intros. unfold alternating. cbn [length seq map sumZ fold_right]. rewrite omit_0.
  change (fold_right Z.add 0) with sumZ.
  rewrite <- seq_shift, map_map.
  rewrite (sumZ_map_ext _ _ (fun c => - (sgn_pow c * f (x :: omit c s)))).
  - rewrite sumZ_map_opp. change (sgn_pow 0) with 1. unfold sumZ. lia.
  - intros c _. rewrite omit_S, sgn_pow_S. ring.
Qed.

Lemma alternating_ext : forall f g s, (forall c, (c < length s)%nat -> f (omit c s) = g (omit c s)) ->
  alternating f s = alternating g s.
Proof.
  intros. unfold alternating. apply sumZ_map_ext. intros c Hc. apply in_seq in Hc. rewrite H by lia. auto.
Qed.

Lemma alternating_opp : forall f s, alternating (fun t => - f t) s = - alternating f s.
Proof.
  intros. unfold alternating. rewrite <- sumZ_map_opp. apply sumZ_map_ext. intros; ring.
Qed.

Lemma alternating_add : forall f g s, alternating (fun t => f t + g t) s = alternating f s + alternating g s.
Proof.
  intros. unfold alternating. rewrite <- sumZ_map_add. apply sumZ_map_ext. intros; ring.
Qed.

Lemma alternating_mul : forall f k s, alternating (fun t => k * f t) s = k * alternating f s.
Proof.
  intros. unfold alternating. rewrite <- sumZ_map_mul. apply sumZ_map_ext. intros; ring.
Qed.

(** The boundary of a boundary vanishes. *)
Lemma alternating_alternating : forall s f, alternating (fun t => alternating f t) s = 0.
Proof.
  induction s as [|x s IH]; intros f.
  - reflexivity.
  - rewrite alternating_cons.
    rewrite (alternating_ext (fun t => alternating f (x :: t)) (fun t => f t + - alternating (fun u => f (x :: u)) t)).
    + rewrite alternating_add, alternating_opp, IH. change (fun t => f t) with f. lia.
    + intros. rewrite alternating_cons. lia.
Qed.

Lemma omit_incl : forall c s, incl (omit c s) s.
Proof.
  intros c s x H. unfold omit in H. apply in_app_iff in H as [H|H].
  - rewrite <- (firstn_skipn c s). apply in_app_iff; auto.
  - rewrite <- (firstn_skipn (S c) s). apply in_app_iff; auto.
Qed.

Lemma omit_length : forall c s, (c < length s)%nat -> length (omit c s) = (length s - 1)%nat.
Proof.
  intros. unfold omit. rewrite app_length, firstn_length, skipn_length. lia.
Qed.

Lemma omit_split : forall c s, (c < length s)%nat -> s = firstn c s ++ nth c s 0%nat :: skipn (S c) s.
Proof.
  induction c; destruct s; simpl; intros; try lia; auto.
  f_equal. apply IHc. lia.
Qed.

Lemma omit_nodup : forall c s, NoDup s -> NoDup (omit c s).
Proof.
  intros c s ND. destruct (Nat.ltb_spec c (length s)) as [H|H].
  - rewrite (omit_split c s H) in ND. apply NoDup_remove_1 in ND. auto.
  - unfold omit. rewrite firstn_all2, skipn_all2, app_nil_r by lia. auto.
Qed.

Lemma omit_perm_cons : forall c s, (c < length s)%nat -> Permutation s (nth c s 0%nat :: omit c s).
Proof.
  intros. rewrite (omit_split c s H) at 1. apply Permutation_sym, Permutation_middle.
Qed.

(** [antisymmetric] relative to lists avoiding some vertices *)
Lemma alternating_antisym_gen : forall l l', Permutation l l' -> forall f,
  NoDup l ->
  (forall t t', incl t l -> NoDup t -> Permutation t t' -> f t' = sgn t * sgn t' * f t) ->
  alternating f l' = sgn l * sgn l' * alternating f l.
Proof.
  induction 1; intros f ND Hf.
  - unfold sgn, sgn_pow; simpl; unfold alternating; simpl; lia.
  - inversion ND; subst. rewrite !alternating_cons.
    rewrite (Hf l l') by (auto; intros z Hz; right; auto).
    rewrite (IHPermutation (fun t => f (x :: t))); auto.
    + rewrite !sgn_cons, (count_lt_perm x l l') by auto.
      destruct (sgn_pow_cases (count_lt x l')) as [E|E]; rewrite E; ring.
    + intros t t' Hi NDt P. rewrite (Hf (x :: t) (x :: t')).
      * rewrite !sgn_cons, (count_lt_perm x t t') by auto.
        destruct (sgn_pow_cases (count_lt x t')) as [E|E]; rewrite E; ring.
      * intros z [->|Hz]; [left; auto|right; auto].
      * constructor; auto.
      * constructor; auto.
  - inversion ND; inversion H2; subst. simpl in H1.
    rewrite !alternating_cons.
    assert (Hxy : x <> y) by (intros ->; tauto).
    rewrite (alternating_ext (fun t => f (x :: y :: t)) (fun t => - f (y :: x :: t))).
    + rewrite alternating_opp.
      assert (Eyx : sgn (y :: x :: l) * sgn (x :: y :: l) = -1).
      { rewrite (sgn_swap x y) by auto. pose proof (sgn_sq (x :: y :: l)). lia. }
      rewrite Eyx. ring.
    + intros c Hc. rewrite (Hf (y :: x :: omit c l) (x :: y :: omit c l)).
      * rewrite (sgn_swap x y) by auto. sgn_ring.
      * intros z [->|[->|Hz]]; [left; auto|right; left; auto|right; right; eapply omit_incl; eauto].
      * constructor; [|constructor].
        -- intros [?|Hin]; [congruence|]. apply omit_incl in Hin. tauto.
        -- intros Hin. apply omit_incl in Hin. tauto.
        -- apply omit_nodup; auto.
      * constructor.
  - assert (ND2 : NoDup l') by (eapply Permutation_NoDup; eauto).
    rewrite (IHPermutation2 f ND2).
    + rewrite (IHPermutation1 f ND Hf). pose proof (sgn_sq l').
      destruct (sgn_cases l') as [E|E]; rewrite E; ring.
    + intros t t' Hi NDt P. apply Hf; auto.
      intros z Hz. eapply Permutation_in; [apply Permutation_sym; eassumption|]. auto.
Qed.

Lemma alternating_antisym : forall f, antisymmetric f -> antisymmetric (alternating f).
Proof.
  intros f Hf l l' ND P. apply alternating_antisym_gen; auto.
Qed.

Lemma incidence_alternating : forall f s, incidence_number f s = alternating (fun t => rel_sign t f) s.
Proof. reflexivity. Qed.

Lemma incidence_antisym_simplex : forall f, antisymmetric (incidence_number f).
Proof. intros f. apply (alternating_antisym (fun t => rel_sign t f)). apply rel_sign_antisym. Qed.

(** ---- the generated faces ---- *)

Definition swap2 (l : list nat) : list nat := match l with a :: b :: t => b :: a :: t | _ => l end.
Definition facet (n c : nat) (s : list nat) : list nat :=
  let b := tl (roll_left c s) in if Nat.odd c && Nat.odd n then swap2 b else b.

Lemma tl_roll : forall c s, (c < length s)%nat -> tl (roll_left c s) = skipn (S c) s ++ firstn c s.
Proof.
  intros. unfold roll_left. rewrite (omit_split c s H) at 1.
  rewrite skipn_app. rewrite firstn_length, Nat.min_l, Nat.sub_diag by lia.
  rewrite (skipn_all2 (firstn c s)) by (rewrite firstn_length; lia). reflexivity.
Qed.

Lemma face_facet : forall n c s, length s = S n -> (c < S n)%nat -> (2 <= n)%nat ->
  face n c s = Ok (facet n c s).
Proof.
  intros n c s L Hc Hn. unfold face, facet.
  destruct (Nat.odd c && Nat.odd n); auto.
  rewrite tl_roll by lia.
  remember (skipn (S c) s ++ firstn c s) as b.
  assert (length b = n). { subst b. rewrite app_length, skipn_length, firstn_length. lia. }
  destruct b as [|u [|v b]]; simpl in *; try lia. reflexivity.
Qed.

Lemma swap2_perm : forall l, Permutation l (swap2 l).
Proof. destruct l as [|a [|b l]]; simpl; auto. constructor. Qed.

Lemma facet_perm : forall n c s, (c < length s)%nat -> Permutation (omit c s) (facet n c s).
Proof.
  intros. unfold facet, omit. rewrite tl_roll by auto.
  destruct (_ && _).
  - eapply perm_trans; [apply Permutation_app_comm|]. apply swap2_perm.
  - apply Permutation_app_comm.
Qed.

Lemma sgn_facet : forall n c s, length s = S n -> (c < S n)%nat -> (2 <= n)%nat -> NoDup s ->
  sgn (facet n c s) = sgn_pow c * sgn (omit c s).
Proof.
  intros n c s L Hc Hn ND. unfold facet. rewrite tl_roll by lia.
  assert (Hd : forall x, In x (firstn c s) -> ~ In x (skipn (S c) s)).
  { intros x H1 H2. rewrite (omit_split c s) in ND by lia.
    apply NoDup_remove_1 in ND. clear -H1 H2 ND.
    induction (firstn c s); simpl in *; [tauto|]. inversion ND; subst.
    destruct H1 as [->|H1]; auto. apply H3. apply in_app_iff; auto. }
  pose proof (sgn_app_comm _ _ Hd) as E.
  rewrite firstn_length, skipn_length in E.
  replace (Nat.min c (length s)) with c in E by lia.
  unfold omit.
  assert (Sw : forall b, (2 <= length b)%nat -> NoDup b -> sgn (swap2 b) = - sgn b).
  { intros b Lb NDb. destruct b as [|u [|v b]]; simpl in Lb; try lia.
    apply sgn_swap. inversion NDb; subst. intros ->. apply H1. left; auto. }
  assert (NDb : NoDup (skipn (S c) s ++ firstn c s)).
  { eapply Permutation_NoDup; [apply Permutation_app_comm|]. apply omit_nodup with (c := c) in ND. exact ND. }
  assert (Lb : length (skipn (S c) s ++ firstn c s) = n).
  { rewrite app_length, skipn_length, firstn_length. lia. }
  destruct (Nat.odd c) eqn:Oc; cbn [andb].
  - destruct (Nat.odd n) eqn:On.
    + rewrite Sw by (auto; lia). rewrite E.
      unfold sgn_pow. rewrite Nat.odd_mul, Oc. rewrite L. replace (S n - S c)%nat with (n - c)%nat by lia.
      rewrite Nat.odd_sub by lia. rewrite On, Oc. cbn [andb xorb negb]. lia.
    + rewrite E. unfold sgn_pow. rewrite Nat.odd_mul, Oc. rewrite L. replace (S n - S c)%nat with (n - c)%nat by lia.
      rewrite Nat.odd_sub by lia. rewrite On, Oc. cbn [andb xorb negb]. lia.
  - rewrite E. unfold sgn_pow. rewrite Nat.odd_mul, Oc. simpl. lia.
Qed.

Lemma facet_nodup : forall n c s, (c < length s)%nat -> NoDup s -> NoDup (facet n c s).
Proof. intros. eapply Permutation_NoDup; [apply facet_perm; auto|]. apply omit_nodup; auto. Qed.

Lemma facet_length : forall n c s, (c < length s)%nat -> length (facet n c s) = (length s - 1)%nat.
Proof. intros. rewrite <- (omit_length c s) by auto. apply Permutation_length, Permutation_sym, facet_perm; auto. Qed.

(** sum over the generated faces = alternating sum over omitted corners *)
Lemma facet_sum : forall f n s, antisymmetric f -> length s = S n -> (2 <= n)%nat -> NoDup s ->
  sumZ (map (fun c => f (facet n c s)) (seq 0 (S n))) = alternating f s.
Proof.
  intros f n s Hf L Hn ND. unfold alternating. rewrite L.
  apply sumZ_map_ext. intros c Hc. apply in_seq in Hc.
  rewrite (Hf (omit c s) (facet n c s)).
  - rewrite sgn_facet by (auto; lia). pose proof (sgn_sq (omit c s)).
    destruct (sgn_cases (omit c s)) as [E|E]; rewrite E; ring.
  - apply omit_nodup; auto.
  - apply facet_perm. lia.
Qed.

Lemma omit_perm_inj : forall c c' s, NoDup s -> (c < length s)%nat -> (c' < length s)%nat ->
  Permutation (omit c s) (omit c' s) -> c = c'.
Proof.
  intros c c' s ND Hc Hc' P.
  destruct (Nat.eq_dec c c') as [|Hne]; auto. exfalso.
  assert (H1 : In (nth c' s 0%nat) (omit c s)).
  { assert (In (nth c' s 0%nat) s) by (apply nth_In; auto).
    eapply Permutation_in in H; [|apply (omit_perm_cons c); auto].
    destruct H as [H|H]; auto. exfalso. apply Hne.
    eapply NoDup_nth in H; eauto. }
  eapply Permutation_in in H1; [|exact P].
  pose proof (Permutation_NoDup (omit_perm_cons c' s Hc') ND) as ND2.
  inversion ND2; auto.
Qed.
