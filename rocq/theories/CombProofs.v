Require Import List Arith Bool Lia Permutation Sorting.Sorted Factorial.
From Verif Require Import Util CombModel CombSpec.
Import ListNotations.

Lemma flen_concat : forall A (l : list (list A)), length (concat l) = list_sum (map (@length A) l).
Proof. induction l; simpl; auto. rewrite app_length, IHl. auto. Qed.

Lemma skipn_skipn' : forall A a b (l : list A), skipn a (skipn b l) = skipn (b + a) l.
Proof. induction b; simpl; intros; auto. destruct l; auto. rewrite skipn_nil; auto. Qed.

(** ---- combinations ---- *)

Fixpoint comb_pos (n off len : nat) : list (list nat) :=
  match n with
  | 0 => [[]]
  | S m => if len <? n then [[]]
           else flat_map (fun i => map (cons (off + i)) (comb_pos m (off + i + 1) (len - i - 1)))
                         (seq 0 (len - n + 1))
  end.

(* parity computed by the code in terms of positions *)
Fixpoint code_par (off : nat) (ps : list nat) : nat :=
  match ps with
  | [] => 0
  | p :: t => (code_par (p + 1) t + (p - off)) mod 2
  end.

Lemma Forall2_flat_map : forall A B C D (R : C -> D -> Prop) (f : A -> list C) (g : B -> list D) (S : A -> B -> Prop) la lb,
  Forall2 S la lb -> (forall a b, S a b -> In a la -> Forall2 R (f a) (g b)) ->
  Forall2 R (flat_map f la) (flat_map g lb).
Proof.
  induction 1; simpl; intros H1; auto.
  apply Forall2_app; [apply H1; auto|apply IHForall2; intros; apply H1; auto].
Qed.

Lemma Forall2_map_iff : forall A B C D (R : C -> D -> Prop) (f : A -> C) (g : B -> D) la lb,
  Forall2 R (map f la) (map g lb) <-> Forall2 (fun a b => R (f a) (g b)) la lb.
Proof.
  split.
  - revert lb. induction la; destruct lb; simpl; intros H; inversion H; subst; constructor; auto.
  - induction 1; simpl; constructor; auto.
Qed.

Lemma Forall2_refl_eq : forall A (l : list A), Forall2 eq l l.
Proof. induction l; constructor; auto. Qed.

Lemma Forall2_impl : forall A B (R S : A -> B -> Prop) la lb,
  (forall a b, R a b -> S a b) -> Forall2 R la lb -> Forall2 S la lb.
Proof. induction 2; constructor; auto. Qed.

Lemma nth_error_skipn : forall A n i (l : list A), nth_error (skipn n l) i = nth_error l (n + i).
Proof.
  induction n; simpl; intros; auto. destruct l; simpl; auto. destruct i; auto.
Qed.

Lemma combinations_pos : forall A n (L W : list A) off,
  L = skipn off W -> n <= length L ->
  Forall2 (fun pl ps => fst pl = code_par off ps /\ map Some (snd pl) = map (nth_error W) ps)
          (combinations n L) (comb_pos n off (length L)).
Proof.
  induction n; intros L W off EL Hn.
  - simpl. repeat constructor.
  - cbn [combinations comb_pos].
    destruct (length L <? S n) eqn:E. { apply Nat.ltb_lt in E; lia. }
    apply Forall2_flat_map with (S := eq); [apply Forall2_refl_eq|].
    intros i b <- Hi. apply in_seq in Hi.
    destruct (nth_error L i) eqn:EN.
    2:{ apply nth_error_None in EN. lia. }
    apply Forall2_map_iff.
    assert (LS : length (skipn (i + 1) L) = length L - i - 1) by (rewrite skipn_length; lia).
    rewrite <- LS.
    eapply Forall2_impl; [|apply (IHn (skipn (i+1) L) W (off + i + 1))].
    + intros [p t] ps [E1 E2]. simpl in *. subst p. split.
      * replace (off + i - off) with i by lia. reflexivity.
      * f_equal; auto. rewrite <- EN, EL, nth_error_skipn. reflexivity.
    + rewrite EL. rewrite skipn_skipn'. f_equal. lia.
    + rewrite LS. lia.
Qed.

Lemma comb_pos_spec : forall n off len ps, n <= len ->
  (In ps (comb_pos n off len) <->
   StronglySorted lt ps /\ length ps = n /\ Forall (fun p => off <= p < off + len) ps).
Proof.
  induction n; intros off len ps Hn.
  - simpl. split.
    + intros [<-|[]]. repeat split; constructor.
    + intros (_ & H & _). destruct ps; simpl in *; auto. lia.
  - cbn [comb_pos]. destruct (len <? S n) eqn:E. { apply Nat.ltb_lt in E; lia. }
    rewrite in_flat_map. split.
    + intros (i & Hi & H). apply in_seq in Hi. apply in_map_iff in H as (t & <- & Ht).
      apply IHn in Ht; [|lia]. destruct Ht as (S & Hl & F).
      repeat split.
      * constructor; auto. eapply Forall_impl; [|exact F]. simpl; intros; lia.
      * simpl; lia.
      * constructor; [lia|]. eapply Forall_impl; [|exact F]. simpl; intros; lia.
    + intros (S & Hl & F). destruct ps as [|p t]; [simpl in *; lia|].
      inversion S; inversion F; subst. simpl in Hl.
      exists (p - off).
      assert (Hlt : p - off + n < len).
      { (* n further distinct positions above p *)
        assert (Aux : forall m q t', StronglySorted lt t' -> length t' = m -> Forall (lt q) t' ->
                  Forall (fun p => p < off + len) t' -> q < off + len -> q + m < off + len).
        { induction m; intros q t' S' L' F' G' Q'; [lia|].
          destruct t' as [|x t']; [discriminate|]. inversion S'; inversion F'; inversion G'; subst.
          assert (x + m < off + len); [|lia].
          eapply IHm; eauto. }
        assert (p + n < off + len); [|lia].
        eapply Aux with (t' := t); eauto. 
        eapply Forall_impl; [|eassumption]. simpl; intros; lia. lia. }
      split. { apply in_seq. lia. }
      apply in_map_iff. exists t. split. { f_equal. lia. }
      apply IHn; [lia|]. repeat split; auto.
      rewrite Forall_forall in *. intros x Hx. specialize (H2 _ Hx). specialize (H6 _ Hx). simpl in *. lia.
Qed.

Lemma StronglySorted_app : forall A (R : A -> A -> Prop) l1 l2,
  StronglySorted R l1 -> StronglySorted R l2 -> (forall a b, In a l1 -> In b l2 -> R a b) ->
  StronglySorted R (l1 ++ l2).
Proof.
  induction 1; simpl; intros; auto. constructor.
  - apply IHStronglySorted; auto.
  - apply Forall_app. split; auto. apply Forall_forall. intros; apply H2; auto.
Qed.

Lemma StronglySorted_map : forall A B (R : A -> A -> Prop) (Q : B -> B -> Prop) (f : A -> B) l,
  (forall a b, R a b -> Q (f a) (f b)) -> StronglySorted R l -> StronglySorted Q (map f l).
Proof.
  induction 2; simpl; constructor; auto. apply Forall_map. eapply Forall_impl; eauto.
Qed.

Lemma comb_pos_sorted : forall n off len, n <= len -> StronglySorted lex_lt (comb_pos n off len).
Proof.
  induction n; intros off len Hn.
  - simpl. repeat constructor.
  - cbn [comb_pos]. destruct (len <? S n) eqn:E. { apply Nat.ltb_lt in E; lia. }
    assert (Aux : forall k a, a + k <= len - n -> StronglySorted lex_lt
       (flat_map (fun i => map (cons (off + i)) (comb_pos n (off + i + 1) (len - i - 1))) (seq a k))).
    { induction k; intros a Ha; simpl; [constructor|].
      apply StronglySorted_app.
      - apply StronglySorted_map with (R := lex_lt); [intros; apply lex_tail; auto|].
        apply IHn. lia.
      - apply IHk. lia.
      - intros x y Hx Hy. apply in_map_iff in Hx as (s & <- & _).
        apply in_flat_map in Hy as (j & Hj & Hy). apply in_map_iff in Hy as (t & <- & _).
        apply in_seq in Hj. constructor. lia. }
    apply Aux. lia.
Qed.

Lemma binom_0_lt : forall n k, n < k -> binom n k = 0.
Proof. induction n; destruct k; simpl; intros; try lia. rewrite !IHn; lia. Qed.

Lemma hockey : forall n len, n <= len ->
  list_sum (map (fun i => binom (len - i - 1) n) (seq 0 (len - n))) = binom len (S n).
Proof.
  intros n len H. remember (len - n) as d. revert len H Heqd.
  induction d; intros len H Hd.
  - simpl. assert (len = n) by lia. subst. symmetry. apply binom_0_lt. lia.
  - destruct len; [lia|]. cbn [seq map list_sum fold_right].
    cbn [binom]. rewrite <- seq_shift, map_map.
    specialize (IHd len ltac:(lia) ltac:(lia)).
    unfold list_sum in IHd |- *. rewrite <- IHd.
    f_equal. f_equal. lia.
Qed.

Lemma comb_pos_length : forall n off len, n <= len -> length (comb_pos n off len) = binom len n.
Proof.
  induction n; intros off len Hn.
  - simpl. destruct len; auto.
  - cbn [comb_pos]. destruct (len <? S n) eqn:E. { apply Nat.ltb_lt in E; lia. }
    rewrite flat_map_concat_map, flen_concat, map_map.
    rewrite <- (hockey n len) by lia.
    replace (len - S n + 1) with (len - n) by lia.
    f_equal. apply map_ext_in. intros i Hi. apply in_seq in Hi.
    rewrite map_length. apply IHn. lia.
Qed.

Lemma combinations_gt : forall A n (L : list A), length L < n -> combinations n L = [(0, [])].
Proof.
  intros A n L H. destruct n; [lia|]. cbn [combinations].
  destruct (length L <? S n) eqn:E; auto. apply Nat.ltb_ge in E. lia.
Qed.

Lemma combinations_enum : forall A (L : list A) n, n <= length L ->
  exists P : list (list nat),
    Forall2 (selects L) P (map snd (combinations n L)) /\
    StronglySorted lex_lt P /\
    (forall ps, In ps P <-> is_selection (length L) n ps) /\
    length P = binom (length L) n.
Proof.
  intros A L n Hn. exists (comb_pos n 0 (length L)). repeat split.
  - pose proof (combinations_pos A n L L 0 eq_refl Hn) as H.
    induction H; simpl; constructor; auto. destruct H; auto.
  - apply comb_pos_sorted; auto.
  - apply comb_pos_spec in H; auto. tauto.
  - apply comb_pos_spec in H; auto. tauto.
  - apply comb_pos_spec in H; auto. destruct H as (_ & _ & F).
    eapply Forall_impl; [|exact F]. simpl; intros; lia.
  - intros (S & Hl & F). apply comb_pos_spec; auto. repeat split; auto.
    eapply Forall_impl; [|exact F]. simpl; intros; lia.
  - apply comb_pos_length; auto.
Qed.

(** ---- parity of combinations ---- *)

Lemma count_lt_app : forall x a b, count_lt x (a ++ b) = count_lt x a + count_lt x b.
Proof. induction a; simpl; intros; auto. rewrite IHa. lia. Qed.

Lemma count_lt_perm : forall x a b, Permutation a b -> count_lt x a = count_lt x b.
Proof. induction 1; simpl; lia. Qed.

Lemma count_lt_none : forall x l, Forall (fun y => x <= y) l -> count_lt x l = 0.
Proof.
  induction 1; simpl; auto. destruct (x0 <? x) eqn:E; auto. apply Nat.ltb_lt in E. lia.
Qed.

Lemma inv_sorted : forall l, StronglySorted le l -> inv l = 0.
Proof. induction 1; simpl; auto. rewrite IHStronglySorted, count_lt_none; auto. Qed.

Lemma StronglySorted_lt_le : forall l, StronglySorted lt l -> StronglySorted le l.
Proof.
  induction 1; constructor; auto. eapply Forall_impl; [|eassumption]. simpl; intros; lia.
Qed.

Lemma seq_sorted : forall n a, StronglySorted lt (seq a n).
Proof.
  induction n; simpl; intros; constructor; auto.
  apply Forall_forall. intros x Hx. apply in_seq in Hx. lia.
Qed.

Lemma count_lt_seq : forall n a x, a <= x -> x <= a + n -> count_lt x (seq a n) = x - a.
Proof.
  induction n; simpl; intros; [lia|].
  destruct (a <? x) eqn:E.
  - apply Nat.ltb_lt in E. rewrite IHn; lia.
  - apply Nat.ltb_ge in E. assert (a = x) by lia. subst.
    rewrite count_lt_none. lia. apply Forall_forall. intros y Hy. apply in_seq in Hy. lia.
Qed.

Lemma StronglySorted_filter : forall A (R : A -> A -> Prop) f l,
  StronglySorted R l -> StronglySorted R (filter f l).
Proof.
  induction 1; simpl; [constructor|]. destruct (f a); auto. constructor; auto.
  apply Forall_forall. intros x Hx. apply filter_In in Hx as [Hx _].
  rewrite Forall_forall in H0. auto.
Qed.

Lemma filter_id : forall A (f : A -> bool) l, (forall x, In x l -> f x = true) -> filter f l = l.
Proof. induction l; simpl; intros; auto. rewrite H by auto. f_equal; auto. Qed.

Lemma count_lt_rest_single : forall len p, p < len -> count_lt p (rest len [p]) = p.
Proof.
  intros len p Hp. unfold rest.
  replace len with (p + (1 + (len - p - 1))) by lia.
  rewrite !seq_app, !filter_app. simpl.
  rewrite Nat.eqb_refl. simpl.
  assert (E1 : filter (fun i => negb ((i =? p) || false)) (seq 0 p) = seq 0 p).
  { apply filter_id. intros x Hx. apply in_seq in Hx.
    destruct (x =? p) eqn:E; auto. apply Nat.eqb_eq in E. lia. }
  rewrite E1, count_lt_app, count_lt_seq, count_lt_none; try lia.
  apply Forall_forall. intros x Hx. apply filter_In in Hx as [Hx _]. apply in_seq in Hx. lia.
Qed.

Lemma front_parity_single : forall len p, p < len -> front_parity len [p] = p mod 2.
Proof.
  intros. unfold front_parity. cbn [app inv]. rewrite count_lt_rest_single by auto.
  rewrite inv_sorted. f_equal; lia.
  apply StronglySorted_filter, StronglySorted_lt_le, seq_sorted.
Qed.

Lemma front_parity_nil : forall len, front_parity len [] = 0.
Proof.
  intros. unfold front_parity. cbn [app]. rewrite inv_sorted; auto.
  apply StronglySorted_filter, StronglySorted_lt_le, seq_sorted.
Qed.

Lemma filter_false : forall A (f : A -> bool) l, (forall x, In x l -> f x = false) -> filter f l = [].
Proof. induction l; simpl; intros; auto. rewrite H; auto. Qed.

Lemma sorted_len_all : forall ps n a, StronglySorted lt ps -> length ps = n ->
  Forall (fun p => a <= p < a + n) ps -> ps = seq a n.
Proof.
  intros ps n a S L F.
  apply (sorted_perm_eq nat lt); auto.
  - intros; lia.
  - apply seq_sorted.
  - apply NoDup_Permutation_bis.
    + clear -S. induction S; constructor; auto. intros Hi. rewrite Forall_forall in H.
      specialize (H _ Hi). lia.
    + rewrite seq_length. lia.
    + intros x Hx. rewrite Forall_forall in F. apply in_seq. auto.
Qed.

Lemma code_par_seq : forall n a, code_par a (seq a n) = 0.
Proof.
  induction n; simpl; intros; auto. rewrite Nat.add_1_r, IHn, Nat.sub_diag. reflexivity.
Qed.

Lemma combinations_parity_ends : forall A (L : list A) n, n <= length L ->
  (n <= 1 \/ n = length L) ->
  exists P, Forall2 (selects L) P (map snd (combinations n L)) /\
    (forall ps, In ps P <-> is_selection (length L) n ps) /\
    Forall2 (fun pl ps => fst pl = front_parity (length L) ps) (combinations n L) P.
Proof.
  intros A L n Hn HH.
  pose proof (combinations_pos A n L L 0 eq_refl Hn) as HC.
  exists (comb_pos n 0 (length L)). split; [|split].
  - clear HH. induction HC; simpl; constructor; auto. destruct H; auto.
  - intros ps. rewrite comb_pos_spec by auto. unfold is_selection.
    rewrite !Forall_forall.
    split; intros (H1 & H2 & H3); repeat split; auto; try lia; intros; specialize (H3 _ H); lia.
  - assert (HIn : forall ps, In ps (comb_pos n 0 (length L)) -> code_par 0 ps = front_parity (length L) ps).
    { intros ps Hps. apply comb_pos_spec in Hps; auto. destruct Hps as (S & Hl & F).
      destruct HH as [H1|H1].
      - destruct ps as [|p [|q t]].
        + rewrite front_parity_nil. reflexivity.
        + inversion F; subst. rewrite front_parity_single by lia. simpl. rewrite Nat.sub_0_r. reflexivity.
        + simpl in Hl; lia.
      - assert (ps = seq 0 n) by (apply sorted_len_all; auto; rewrite <- H1 in F; auto).
        subst ps. rewrite code_par_seq. unfold front_parity, rest. rewrite filter_false.
        + rewrite app_nil_r, inv_sorted; auto. apply StronglySorted_lt_le, seq_sorted.
        + intros x Hx. rewrite <- H1 in Hx. apply negb_false_iff. apply existsb_exists. exists x.
          rewrite Nat.eqb_refl; auto. }
    revert HC HIn. generalize (combinations n L) (comb_pos n 0 (length L)).
    induction 1; intros HIn; constructor.
    + destruct H as [H _]. rewrite H. apply HIn; simpl; auto.
    + apply IHHC. intros; apply HIn; simpl; auto.
Qed.

(** ---- permutations ---- *)

Lemma permutations_map : forall A B (f : A -> B) L,
  permutations (map f L) = map (fun pl => (fst pl, map f (snd pl))) (permutations L).
Proof.
  induction L as [|h t IH]; auto.
  destruct t as [|h2 t]; auto.
  change (permutations (map f (h :: h2 :: t))) with
   (flat_map (fun pp => map (fun i => ((fst pp + i) mod 2, firstn i (snd pp) ++ [f h] ++ skipn i (snd pp)))
            (seq 0 (length (snd pp) + 1))) (permutations (map f (h2 :: t)))).
  rewrite IH.
  change (permutations (h :: h2 :: t)) with
   (flat_map (fun pp => map (fun i => ((fst pp + i) mod 2, firstn i (snd pp) ++ [h] ++ skipn i (snd pp)))
            (seq 0 (length (snd pp) + 1))) (permutations (h2 :: t))).
  clear IH. generalize (permutations (h2 :: t)). induction l as [|[p l] ls IH]; auto.
  cbn [map flat_map]. rewrite map_app, IH. f_equal.
  cbn [fst snd]. rewrite map_length, map_map. apply map_ext. intros i. simpl.
  rewrite map_app, firstn_map. simpl. rewrite skipn_map. reflexivity.
Qed.

Lemma permutations_step : forall A (h : A) t, t <> [] ->
  permutations (h :: t) = flat_map (fun pp => map (fun i => ((fst pp + i) mod 2, firstn i (snd pp) ++ [h] ++ skipn i (snd pp)))
            (seq 0 (length (snd pp) + 1))) (permutations t).
Proof. intros. destruct t; [congruence|]. reflexivity. Qed.

Lemma inv_insert : forall h p i, i <= length p -> Forall (lt h) p ->
  inv (firstn i p ++ h :: skipn i p) = inv p + i.
Proof.
  intros h p. induction p as [|x p IH]; intros i Hi F.
  - simpl in Hi. assert (i = 0) by lia. subst. reflexivity.
  - destruct i as [|i].
    + change (inv (h :: x :: p) = inv (x :: p) + 0).
      cbn [inv]. rewrite count_lt_none. cbn [inv]. lia.
      eapply Forall_impl; [|exact F]. simpl; intros; lia.
    + inversion F; subst. simpl in Hi. cbn [firstn skipn app inv].
      rewrite IH by (auto; lia).
      rewrite count_lt_app. cbn [count_lt].
      assert (E : (h <? x) = true) by (apply Nat.ltb_lt; auto). rewrite E.
      assert (C : count_lt x p = count_lt x (firstn i p) + count_lt x (skipn i p))
        by (rewrite <- count_lt_app, firstn_skipn; auto). lia.
Qed.

Lemma permutations_nonempty_parity : forall L, StronglySorted lt L ->
  forall p l, In (p, l) (permutations L) -> p = inv l mod 2 /\ Permutation L l.
Proof.
  induction 1; intros p l0 Hin; [destruct Hin|].
  destruct (list_eq_dec Nat.eq_dec l []) as [->|Hne].
  - simpl in Hin. destruct Hin as [[= <- <-]|[]]. split; auto.
  - rewrite permutations_step in Hin by auto.
    apply in_flat_map in Hin as ([q m] & Hq & Hin). apply in_map_iff in Hin as (i & Ei & Hi).
    apply pair_equal_spec in Ei as [<- <-].
    apply IHStronglySorted in Hq as [-> HP]. cbn [fst snd app] in *. apply in_seq in Hi.
    assert (length l = length m) by (apply Permutation_length; auto).
    split.
    + rewrite inv_insert. rewrite Nat.add_mod_idemp_l; lia. lia.
      eapply Permutation_Forall; eauto.
    + eapply perm_trans; [apply perm_skip; exact HP|].
      rewrite <- (firstn_skipn i m) at 1. apply Permutation_middle.
Qed.

Lemma permutations_complete : forall A (L l : list A), L <> [] -> Permutation L l ->
  In l (map snd (permutations L)).
Proof.
  induction L as [|h t IH]; intros l Hne HP; [congruence|].
  destruct t as [|h2 t'] eqn:Et.
  - apply Permutation_length_1_inv in HP. subst. left; auto.
  - rewrite <- Et in *. assert (Ht : t <> []) by (subst; discriminate).
    rewrite permutations_step by auto.
    assert (Hin : In h l) by (eapply Permutation_in; [exact HP|left; auto]).
    apply in_split in Hin as (a & b & ->).
    apply Permutation_cons_app_inv in HP.
    specialize (IH (a ++ b) Ht HP). apply in_map_iff in IH as ([p m] & Em & Hm). simpl in Em. subst m.
    apply in_map_iff. exists ((p + length a) mod 2, a ++ h :: b). split; auto.
    apply in_flat_map. exists (p, a ++ b). split; auto.
    apply in_map_iff. exists (length a). split.
    + simpl. f_equal. rewrite firstn_app, Nat.sub_diag, firstn_all, firstn_O, app_nil_r.
      rewrite skipn_app, Nat.sub_diag, skipn_all. reflexivity.
    + apply in_seq. simpl. rewrite app_length. lia.
Qed.

Lemma permutations_sound : forall A (L : list A) l, In l (map snd (permutations L)) -> Permutation L l.
Proof.
  induction L as [|h t IH]; intros l H; [destruct H|].
  destruct t as [|h2 t'] eqn:Et.
  - simpl in H. destruct H as [<-|[]]. auto.
  - rewrite <- Et in *. assert (Ht : t <> []) by (subst; discriminate).
    rewrite permutations_step in H by auto.
    apply in_map_iff in H as ([p l'] & <- & H). apply in_flat_map in H as ([q m] & Hm & H).
    apply in_map_iff in H as (i & [= <- <-] & Hi). simpl.
    assert (HP : Permutation t m) by (apply IH; apply in_map_iff; exists (q, m); auto).
    eapply perm_trans; [apply perm_skip; exact HP|].
    rewrite <- (firstn_skipn i m) at 1. apply Permutation_middle.
Qed.

Lemma insert_inj : forall A (h : A) m m' i i',
  ~ In h m -> ~ In h m' -> i <= length m -> i' <= length m' ->
  firstn i m ++ h :: skipn i m = firstn i' m' ++ h :: skipn i' m' -> m = m' /\ i = i'.
Proof.
  intros A h m. induction m as [|x m IH]; intros m' i i' Hm Hm' Hi Hi' E.
  - simpl in Hi. assert (i = 0) by lia; subst. simpl in E.
    destruct i'; destruct m'; simpl in *; auto; try discriminate; try lia.
    injection E as E1 E2. subst. tauto.
  - destruct i as [|i]; simpl in E.
    + destruct i'; simpl in E.
      * injection E as E. auto.
      * destruct m'; simpl in *; [lia|]. injection E as E1 E2. subst. tauto.
    + destruct i'; simpl in E.
      * injection E as E1 E2. subst. simpl in Hm. tauto.
      * destruct m' as [|y m']; simpl in *; [lia|]. injection E as -> E.
        apply IH in E; try tauto; try lia. destruct E; split; congruence.
Qed.

Lemma NoDup_flat_map : forall A B (f : A -> list B) l,
  NoDup l -> (forall a, In a l -> NoDup (f a)) ->
  (forall a a' b, In a l -> In a' l -> In b (f a) -> In b (f a') -> a = a') ->
  NoDup (flat_map f l).
Proof.
  intros A B f l ND. induction ND; simpl; intros H1 H2; [constructor|].
  assert (Hd : forall b, In b (f x) -> ~ In b (flat_map f l)).
  { intros b Hb Hin. apply in_flat_map in Hin as (a' & Ha' & Hb').
    apply H. rewrite (H2 x a' b); auto. }
  assert (ND2 : NoDup (flat_map f l)).
  { apply IHND; auto. intros a a' b Ha Ha'. apply (H2 a a' b); auto. }
  revert Hd ND2. generalize (flat_map f l). intros r Hd ND2.
  specialize (H1 x (or_introl eq_refl)). revert H1 Hd. generalize (f x).
  induction 1; simpl; intros Hd; auto.
  constructor.
  - rewrite in_app_iff. intros [?|?]; [tauto|]. apply (Hd x0); auto.
  - apply IHNoDup. intros; apply Hd; auto.
Qed.

Lemma flat_map_map : forall A B C (f : A -> B) (g : B -> list C) l,
  flat_map g (map f l) = flat_map (fun a => g (f a)) l.
Proof. induction l; simpl; auto. rewrite IHl; auto. Qed.

Lemma map_flat_map : forall A B C (f : B -> C) (g : A -> list B) l,
  map f (flat_map g l) = flat_map (fun a => map f (g a)) l.
Proof. induction l; simpl; auto. rewrite map_app, IHl; auto. Qed.

Lemma permutations_nodup : forall A (L : list A), NoDup L -> NoDup (map snd (permutations L)).
Proof.
  induction 1; simpl; [constructor|].
  destruct l as [|h2 t'] eqn:Et.
  - repeat constructor; auto.
  - rewrite <- Et in *.
    change (NoDup (map snd (flat_map (fun pp => map (fun i => ((fst pp + i) mod 2, firstn i (snd pp) ++ [x] ++ skipn i (snd pp)))
            (seq 0 (length (snd pp) + 1))) (permutations l)))).
    rewrite map_flat_map.
    rewrite flat_map_concat_map.
    set (F := fun m => map (fun i => firstn i m ++ x :: skipn i m) (seq 0 (length m + 1))).
    rewrite (map_ext _ (fun pp => F (snd pp))).
    2:{ intros [p m]. unfold F. simpl. rewrite map_map. reflexivity. }
    rewrite <- (map_map snd F), <- flat_map_concat_map.
    assert (Hx : forall m, In m (map snd (permutations l)) -> ~ In x m).
    { intros m Hm Hin. apply H. apply permutations_sound in Hm.
      eapply Permutation_in; [apply Permutation_sym|]; eauto. }
    apply NoDup_flat_map; auto.
    + intros m Hm. apply NoDup_map_inj; [|apply seq_NoDup].
      intros i j Hi Hj E. apply in_seq in Hi, Hj.
      apply insert_inj in E; try lia; auto; tauto.
    + intros m m' b Hm Hm' Hb Hb'.
      apply in_map_iff in Hb as (i & <- & Hi). apply in_map_iff in Hb' as (j & E & Hj).
      apply in_seq in Hi, Hj. apply insert_inj in E; try lia; auto. symmetry; tauto.
Qed.

Lemma list_sum_const : forall A (l : list A) c, list_sum (map (fun _ => c) l) = c * length l.
Proof. intros A l c. unfold list_sum. induction l; simpl; lia. Qed.

Lemma permutations_length : forall A (L : list A), L <> [] -> length (permutations L) = fact (length L).
Proof.
  induction L as [|h t IH]; intros Hne; [congruence|].
  destruct t as [|h2 t'] eqn:Et; auto.
  rewrite <- Et in *. assert (Ht : t <> []) by (subst; discriminate).
  rewrite permutations_step by auto.
  rewrite flat_map_concat_map, flen_concat, map_map.
  rewrite (map_ext_in _ (fun _ => S (length t))).
  - rewrite list_sum_const, IH by auto. simpl. lia.
  - intros [p m] Hm. rewrite map_length, seq_length. simpl.
    assert (Permutation t m) by (apply permutations_sound; apply in_map_iff; exists (p, m); auto).
    apply Permutation_length in H. lia.
Qed.

Lemma map_nth_error_seq : forall A (L : list A), map (nth_error L) (seq 0 (length L)) = map Some L.
Proof.
  induction L; simpl; auto. f_equal. rewrite <- seq_shift, map_map. apply IHL.
Qed.

Lemma permutations_enum : forall A (L : list A), L <> [] ->
  exists P : list (list nat),
    Forall2 (fun pl s => selects L s (snd pl) /\ fst pl = inv s mod 2) (permutations L) P /\
    NoDup P /\
    (forall s, In s P <-> Permutation (seq 0 (length L)) s) /\
    length P = fact (length L).
Proof.
  intros A L Hne.
  set (Q := permutations (seq 0 (length L))).
  assert (Hs : seq 0 (length L) <> []) by (destruct L; simpl; congruence).
  exists (map snd Q). repeat split.
  - assert (Hd0 : exists d0 : A, True) by (destruct L; [congruence|eauto]). destruct Hd0 as [d0 _].
    assert (E : permutations L = map (fun pl => (fst pl, map (fun i => nth i L d0) (snd pl))) Q).
    { rewrite <- (map_nth_seq A L d0) at 1. apply permutations_map. }
    rewrite E. apply Forall2_map_iff.
    assert (HQ : forall pl, In pl Q -> fst pl = inv (snd pl) mod 2 /\ Permutation (seq 0 (length L)) (snd pl)).
    { intros [p l] H. apply permutations_nonempty_parity in H; auto. apply seq_sorted. }
    revert HQ. generalize Q. induction Q0 as [|[p s] Q0 IH]; intros HQ; constructor.
    + simpl. destruct (HQ (p, s) (or_introl eq_refl)) as [H1 H2]. split; auto.
      unfold selects. rewrite map_map. apply map_ext_in. intros i Hi. simpl in H2.
      assert (i < length L). { apply Permutation_sym in H2. eapply Permutation_in in Hi; [|exact H2]. apply in_seq in Hi. lia. }
      symmetry. apply nth_error_nth'. auto.
    + apply IH. intros; apply HQ; simpl; auto.
  - apply permutations_nodup, seq_NoDup.
  - intros H. apply permutations_sound in H. auto.
  - intros H. apply permutations_complete; auto.
  - rewrite map_length. unfold Q. rewrite permutations_length by auto. rewrite seq_length. auto.
Qed.
