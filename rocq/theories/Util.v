(** Shared list utilities (not tied to any source file of the library). *)
Require Import List Arith ZArith Lia Bool Permutation Sorting.Sorted.
Import ListNotations.

(** Result of a Python call: a value or a raised exception. *)
Inductive exn := IndexError | KeyError | ValueError | AssertionError | TypeError
               | UnboundLocalError | ZeroDivisionError | RuntimeError.

Inductive result (A : Type) := Ok (a : A) | Err (e : exn).
Arguments Ok {A} _.
Arguments Err {A} _.

Definition bind {A B} (r : result A) (f : A -> result B) : result B :=
  match r with Ok a => f a | Err e => Err e end.
Notation "'do' x <- r ; k" := (bind r (fun x => k))
  (at level 200, x name, r at level 100, k at level 200).
Notation "'do' ' p <- r ; k" := (bind r (fun x => match x with p => k end))
  (at level 200, p pattern, r at level 100, k at level 200).

Fixpoint mapM {A B} (f : A -> result B) (l : list A) : result (list B) :=
  match l with
  | [] => Ok []
  | x :: t => do y <- f x; do r <- mapM f t; Ok (y :: r)
  end.

(** Stable insertion sort with respect to a boolean order. *)
Fixpoint insert {A} (leb : A -> A -> bool) (x : A) (l : list A) : list A :=
  match l with
  | [] => [x]
  | y :: t => if leb x y then x :: l else y :: insert leb x t
  end.

Fixpoint isort {A} (leb : A -> A -> bool) (l : list A) : list A :=
  match l with
  | [] => []
  | x :: t => insert leb x (isort leb t)
  end.

(** Position of the first occurrence; [length l] if absent. *)
Fixpoint index_of {A} (eqb : A -> A -> bool) (x : A) (l : list A) : nat :=
  match l with
  | [] => 0
  | y :: t => if eqb x y then 0 else S (index_of eqb x t)
  end.

Fixpoint list_eqb (a b : list nat) : bool :=
  match a, b with
  | [], [] => true
  | x :: a', y :: b' => Nat.eqb x y && list_eqb a' b'
  | _, _ => false
  end.

Definition sumZ (l : list Z) : Z := fold_right Z.add 0%Z l.

(** ---------- lemmas ---------- *)

Lemma mapM_ok : forall A B (f : A -> result B) l r,
  mapM f l = Ok r <-> Forall2 (fun x y => f x = Ok y) l r.
Proof.
  induction l as [|x t IH]; simpl; intros r.
  - split; intros H. injection H as <-; constructor. inversion H; reflexivity.
  - split.
    + destruct (f x) eqn:E; simpl; try discriminate.
      destruct (mapM f t) eqn:E2; simpl; try discriminate.
      intros [= <-]. constructor; auto. apply IH; auto.
    + intros H; inversion H; subst. rewrite H2; simpl.
      apply IH in H4. rewrite H4. reflexivity.
Qed.

Lemma insert_perm : forall A leb (x : A) l, Permutation (x :: l) (insert leb x l).
Proof.
  induction l; simpl; auto.
  destruct (leb x a); auto.
  eapply perm_trans; [apply perm_swap|]. constructor; auto.
Qed.

Lemma isort_perm : forall A leb (l : list A), Permutation l (isort leb l).
Proof.
  induction l; simpl; auto.
  eapply perm_trans; [|apply insert_perm]. constructor; auto.
Qed.

Lemma isort_length : forall A leb (l : list A), length (isort leb l) = length l.
Proof. intros. symmetry. apply Permutation_length, isort_perm. Qed.

Lemma insert_sorted : forall A (leb : A -> A -> bool) x l,
  (forall a b, leb a b = true \/ leb b a = true) ->
  (forall a b c, leb a b = true -> leb b c = true -> leb a c = true) ->
  StronglySorted (fun a b => leb a b = true) l ->
  StronglySorted (fun a b => leb a b = true) (insert leb x l).
Proof.
  intros A leb x l Tot Tr. induction l; simpl; intros H.
  - repeat constructor.
  - inversion H; subst.
    destruct (leb x a) eqn:E.
    + constructor; auto. constructor; auto.
      eapply Forall_impl; [|eassumption]. simpl; intros; eauto.
    + constructor; auto.
      assert (Hax : leb a x = true) by (destruct (Tot a x); congruence).
      eapply Permutation_Forall; [apply insert_perm|].
      constructor; auto.
Qed.

Lemma isort_sorted : forall A (leb : A -> A -> bool) l,
  (forall a b, leb a b = true \/ leb b a = true) ->
  (forall a b c, leb a b = true -> leb b c = true -> leb a c = true) ->
  StronglySorted (fun a b => leb a b = true) (isort leb l).
Proof.
  intros A leb l Tot Tr. induction l; simpl; [constructor|].
  apply insert_sorted; auto.
Qed.

Lemma sorted_perm_eq : forall A (R : A -> A -> Prop) l l',
  (forall a b, R a b -> R b a -> a = b) ->
  StronglySorted R l -> StronglySorted R l' -> Permutation l l' -> l = l'.
Proof.
  intros A R l l' Anti. revert l'. induction l; intros l' S1 S2 P.
  - apply Permutation_nil in P; subst; auto.
  - destruct l' as [|b l']. { apply Permutation_sym, Permutation_nil in P; discriminate. }
    inversion S1; inversion S2; subst.
    assert (a = b).
    { assert (Ha : In a (b :: l')) by (eapply Permutation_in; [exact P|left; auto]).
      assert (Hb : In b (a :: l)) by (eapply Permutation_in; [apply Permutation_sym; exact P|left; auto]).
      destruct Ha as [->|Ha]; auto. destruct Hb as [->|Hb]; auto.
      rewrite Forall_forall in *. apply Anti; auto. }
    subst b. f_equal. apply IHl; auto. eapply Permutation_cons_inv; eauto.
Qed.

Lemma list_eqb_eq : forall a b, list_eqb a b = true <-> a = b.
Proof.
  induction a; destruct b; simpl; split; intros H; try discriminate; auto.
  - apply andb_true_iff in H as [H1 H2]. apply Nat.eqb_eq in H1. apply IHa in H2. congruence.
  - injection H as -> ->. rewrite Nat.eqb_refl. simpl. apply IHa; auto.
Qed.

Definition eqb_spec_ok {A} (eqb : A -> A -> bool) := forall a b, eqb a b = true <-> a = b.

Lemma nat_eqb_ok : eqb_spec_ok Nat.eqb.
Proof. intros a b. apply Nat.eqb_eq. Qed.
Lemma list_eqb_ok : eqb_spec_ok list_eqb.
Proof. intros a b. apply list_eqb_eq. Qed.

Lemma index_of_lt : forall A (eqb : A -> A -> bool) x l, eqb_spec_ok eqb ->
  In x l -> index_of eqb x l < length l.
Proof.
  intros A eqb x l OK. induction l; simpl; intros H; [tauto|].
  destruct (eqb x a) eqn:E; [lia|].
  destruct H as [->|H]. { assert (eqb x x = true) by (apply OK; auto). congruence. }
  specialize (IHl H). lia.
Qed.

Lemma nth_index_of : forall A (eqb : A -> A -> bool) x l d, eqb_spec_ok eqb ->
  In x l -> nth (index_of eqb x l) l d = x.
Proof.
  intros A eqb x l d OK. induction l; simpl; intros H; [tauto|].
  destruct (eqb x a) eqn:E. { apply OK in E; auto. }
  destruct H as [->|H]. { assert (eqb x x = true) by (apply OK; auto). congruence. }
  auto.
Qed.

Lemma index_of_nth : forall A (eqb : A -> A -> bool) l d i, eqb_spec_ok eqb ->
  NoDup l -> i < length l -> index_of eqb (nth i l d) l = i.
Proof.
  intros A eqb l d i OK ND. revert i. induction ND; simpl; intros i Hi; [lia|].
  destruct i.
  - assert (eqb x x = true) by (apply OK; auto). rewrite H0; auto.
  - destruct (eqb (nth i l d) x) eqn:E.
    + apply OK in E. subst x. exfalso. apply H. apply nth_In. lia.
    + f_equal. apply IHND. lia.
Qed.

Lemma index_of_inj : forall A (eqb : A -> A -> bool) x y l, eqb_spec_ok eqb ->
  In x l -> index_of eqb x l = index_of eqb y l -> x = y \/ ~ In y l.
Proof.
  intros A eqb x y l OK Hx E.
  assert (Dec : {eqb y x = true} + {eqb y x <> true}) by (destruct (eqb y x); [left|right]; congruence).
  destruct Dec as [D|D].
  - left. apply OK in D; auto.
  - right. intros Hy. apply D. apply OK.
    rewrite <- (nth_index_of A eqb x l x OK Hx).
    rewrite <- (nth_index_of A eqb y l x OK Hy) at 1. rewrite E. reflexivity.
Qed.

Lemma sumZ_app : forall a b, sumZ (a ++ b) = (sumZ a + sumZ b)%Z.
Proof. induction a; simpl; intros; auto. rewrite IHa. lia. Qed.

Lemma sumZ_map_ext : forall A (f g : A -> Z) l,
  (forall x, In x l -> f x = g x) -> sumZ (map f l) = sumZ (map g l).
Proof. induction l; simpl; intros; auto. rewrite H, IHl; auto. Qed.

Lemma sumZ_map_add : forall A (f g : A -> Z) l,
  sumZ (map (fun x => f x + g x)%Z l) = (sumZ (map f l) + sumZ (map g l))%Z.
Proof. induction l; simpl; auto. rewrite IHl. lia. Qed.

Lemma sumZ_map_opp : forall A (f : A -> Z) l,
  sumZ (map (fun x => - f x)%Z l) = (- sumZ (map f l))%Z.
Proof. induction l; simpl; auto. rewrite IHl. lia. Qed.

Lemma sumZ_map_mul : forall A (f : A -> Z) c l,
  sumZ (map (fun x => c * f x)%Z l) = (c * sumZ (map f l))%Z.
Proof. induction l; simpl; [lia|]. rewrite IHl. lia. Qed.

Lemma sumZ_map_0 : forall A (f : A -> Z) l, (forall x, In x l -> f x = 0%Z) -> sumZ (map f l) = 0%Z.
Proof. induction l; simpl; intros; auto. rewrite H, IHl; auto. Qed.

Lemma sumZ_perm : forall a b, Permutation a b -> sumZ a = sumZ b.
Proof. induction 1; simpl; lia. Qed.

Lemma sumZ_swap : forall A B (f : A -> B -> Z) la lb,
  sumZ (map (fun a => sumZ (map (fun b => f a b) lb)) la) =
  sumZ (map (fun b => sumZ (map (fun a => f a b) la)) lb).
Proof.
  induction la; simpl; intros.
  - symmetry. apply sumZ_map_0. auto.
  - rewrite IHla. rewrite <- sumZ_map_add. reflexivity.
Qed.

Lemma sumZ_single : forall (f : nat -> Z) n k, k < n ->
  (forall i, i < n -> i <> k -> f i = 0%Z) -> sumZ (map f (seq 0 n)) = f k.
Proof.
  intros f n k Hk H.
  replace n with (k + (1 + (n - k - 1))) by lia.
  rewrite !seq_app, !map_app, !sumZ_app. simpl.
  rewrite (sumZ_map_0 _ f (seq 0 k)), (sumZ_map_0 _ f (seq (k+1) _)).
  - lia.
  - intros x Hx. apply in_seq in Hx. apply H; lia.
  - intros x Hx. apply in_seq in Hx. apply H; lia.
Qed.

Lemma map_nth_seq : forall A (l : list A) d, map (fun i => nth i l d) (seq 0 (length l)) = l.
Proof.
  induction l; simpl; intros; auto. f_equal.
  rewrite <- seq_shift, map_map. apply IHl.
Qed.

Lemma Forall2_nth : forall A B (R : A -> B -> Prop) la lb da db, Forall2 R la lb ->
  forall i, i < length la -> R (nth i la da) (nth i lb db).
Proof.
  induction 1; simpl; intros i Hi; [lia|]. destruct i; auto. apply IHForall2; lia.
Qed.

Lemma Forall2_len : forall A B (R : A -> B -> Prop) la lb, Forall2 R la lb -> length la = length lb.
Proof. induction 1; simpl; auto. Qed.

Lemma nth_map_lt : forall A B (f : A -> B) l i da db, i < length l ->
  nth i (map f l) db = f (nth i l da).
Proof.
  intros. rewrite (nth_indep _ db (f da)). apply map_nth. rewrite map_length; auto.
Qed.

Lemma NoDup_map_inj : forall A B (f : A -> B) l,
  (forall x y, In x l -> In y l -> f x = f y -> x = y) -> NoDup l -> NoDup (map f l).
Proof.
  intros A B f l Inj ND. induction ND; simpl; constructor.
  - intros Hi. apply in_map_iff in Hi as [y [E Hy]]. apply H.
    rewrite (Inj x y); simpl; auto.
  - apply IHND. intros; apply Inj; simpl; auto.
Qed.

Lemma nodup_perm_same_elts : forall A (dec : forall x y : A, {x = y} + {x <> y}) (l l' : list A),
  NoDup l -> NoDup l' -> (forall x, In x l <-> In x l') -> Permutation l l'.
Proof. intros. apply NoDup_Permutation; auto. Qed.
