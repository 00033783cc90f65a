(** Commutative rings, n-dimensional arrays and sums (not tied to any source file).
    The library computes with floats; the model uses an arbitrary commutative ring in their place. *)
Require Import List Arith Lia Bool Permutation Ring.
From Verif Require Import Util.
Import ListNotations.

Record cring := mkRing {
  car :> Type; r0 : car; r1 : car;
  radd : car -> car -> car; rmul : car -> car -> car; rsub : car -> car -> car; ropp : car -> car;
  rth : ring_theory r0 r1 radd rmul rsub ropp eq
}.
Arguments r0 {_}. Arguments r1 {_}. Arguments radd {_}. Arguments rmul {_}. Arguments rsub {_}. Arguments ropp {_}.

Declare Scope ring_scope'.
Delimit Scope ring_scope' with K.
Notation "a + b" := (radd a b) : ring_scope'.
Notation "a * b" := (rmul a b) : ring_scope'.
Notation "a - b" := (rsub a b) : ring_scope'.
Notation "- a" := (ropp a) : ring_scope'.

(** A numpy array: its shape and the value at each multi-index. *)
Record array (K : Type) := mkArr { ashape : list nat; aget : list nat -> K }.
Arguments mkArr {K}. Arguments ashape {K}. Arguments aget {K}.

Definition in_range (shape idx : list nat) : Prop := Forall2 (fun i n => i < n) idx shape.

(** Equal shape and equal values at every valid index. *)
Definition aeq {K} (a b : array K) : Prop :=
  ashape a = ashape b /\ forall idx, in_range (ashape a) idx -> aget a idx = aget b idx.

(** All multi-indices of a shape in C order. *)
Fixpoint indices (shape : list nat) : list (list nat) :=
  match shape with
  | [] => [[]]
  | n :: r => flat_map (fun i => map (cons i) (indices r)) (seq 0 n)
  end.

Definition rsum {K : cring} (l : list K) : K := fold_right radd r0 l.

(** Sum of products of all entries of two arrays of the same shape. *)
Definition inner {K : cring} (a b : array K) : K :=
  rsum (map (fun idx => rmul (aget a idx) (aget b idx)) (indices (ashape a))).

Lemma indices_in : forall shape idx, In idx (indices shape) <-> in_range shape idx.
Proof.
  unfold in_range. induction shape as [|n r IH]; simpl; intros idx.
  - split; [intros [<-|[]]; constructor|]. intros H. inversion H. auto.
  - rewrite in_flat_map. split.
    + intros (i & Hi & H). apply in_map_iff in H as (t & <- & Ht). apply in_seq in Hi. constructor; [lia|]. apply IH; auto.
    + intros H. inversion H; subst. exists x. split; [apply in_seq; lia|]. apply in_map. apply IH; auto.
Qed.

Lemma NoDup_app_i : forall A (a b : list A), NoDup a -> NoDup b -> (forall x, In x a -> ~ In x b) -> NoDup (a ++ b).
Proof.
  induction a; simpl; intros b Na Nb D; auto. inversion Na; subst. constructor.
  - rewrite in_app_iff. intros [H|H]; auto. apply (D a); auto.
  - apply IHa; auto.
Qed.

Lemma indices_nodup : forall shape, NoDup (indices shape).
Proof.
  induction shape as [|n r IH]; simpl; [repeat constructor; auto|].
  assert (H : forall l, NoDup l -> NoDup (flat_map (fun i => map (cons i) (indices r)) l)).
  { induction l as [|a l IHl]; simpl; intros ND; [constructor|]. inversion ND; subst. apply NoDup_app_i; auto.
    - apply NoDup_map_inj; auto. intros x y _ _ [= ->]. auto.
    - intros x Hx Hl. apply in_map_iff in Hx as (t & <- & _). apply in_flat_map in Hl as (i & Hi & Hl).
      apply in_map_iff in Hl as (t' & E & _). injection E as -> _. auto. }
  apply H, seq_NoDup.
Qed.

Section Sums.
Variable K : cring.
Add Ring Kr : (rth K).
Local Open Scope ring_scope'.

Lemma rsum_app : forall (a b : list K), rsum (a ++ b) = rsum a + rsum b.
Proof. induction a; simpl; intros; [ring|]. rewrite IHa. ring. Qed.
Lemma rsum_ext : forall A (f g : A -> K) l, (forall x, In x l -> f x = g x) -> rsum (map f l) = rsum (map g l).
Proof. induction l; simpl; intros; auto. rewrite H, IHl; auto. Qed.
Lemma rsum_add : forall A (f g : A -> K) l, rsum (map (fun x => f x + g x) l) = rsum (map f l) + rsum (map g l).
Proof. induction l; simpl; [ring|]. rewrite IHl. ring. Qed.
Lemma rsum_sub : forall A (f g : A -> K) l, rsum (map (fun x => f x - g x) l) = rsum (map f l) - rsum (map g l).
Proof. induction l; simpl; [ring|]. rewrite IHl. ring. Qed.
Lemma rsum_mul : forall A (f : A -> K) c l, rsum (map (fun x => c * f x) l) = c * rsum (map f l).
Proof. induction l; simpl; [ring|]. rewrite IHl. ring. Qed.
Lemma rsum_mul_r : forall A (f : A -> K) c l, rsum (map (fun x => f x * c) l) = rsum (map f l) * c.
Proof. induction l; simpl; [ring|]. rewrite IHl. ring. Qed.
Lemma rsum_0 : forall A (f : A -> K) l, (forall x, In x l -> f x = r0) -> rsum (map f l) = r0.
Proof. induction l; simpl; intros; auto. rewrite H, IHl; auto. ring. Qed.
Lemma rsum_perm : forall (a b : list K), Permutation a b -> rsum a = rsum b.
Proof. induction 1; simpl; try congruence. ring. Qed.
Lemma rsum_flat_map : forall A B (f : B -> K) (g : A -> list B) l,
  rsum (map f (flat_map g l)) = rsum (map (fun x => rsum (map f (g x))) l).
Proof. induction l; simpl; auto. rewrite map_app, rsum_app, IHl. auto. Qed.
Lemma rsum_swap : forall A B (f : A -> B -> K) la lb,
  rsum (map (fun a => rsum (map (fun b => f a b) lb)) la) = rsum (map (fun b => rsum (map (fun a => f a b) la)) lb).
Proof.
  induction la; simpl; intros.
  - symmetry. apply rsum_0. auto.
  - rewrite IHla. rewrite <- rsum_add. reflexivity.
Qed.
Lemma rsum_single : forall A (f : A -> K) l a, NoDup l -> In a l -> (forall x, In x l -> x <> a -> f x = r0) -> rsum (map f l) = f a.
Proof.
  induction l as [|b l IH]; intros a ND I Z; [destruct I|]. inversion ND; subst. simpl. destruct I as [->|I].
  - rewrite rsum_0; [ring|]. intros x Hx. apply Z; [right; auto|]. intros ->. auto.
  - rewrite (IH a); auto; [|intros; apply Z; auto; right; auto].
    rewrite Z; [ring|left; auto|intros ->; auto].
Qed.

(** A sum over ordered pairs of different entries of an antisymmetric function vanishes. *)
Lemma rsum_pairs : forall A (dec : forall x y : A, {x = y} + {x <> y}) (G : A -> A -> K) l, NoDup l ->
  (forall a b, In a l -> In b l -> a <> b -> G a b + G b a = r0) ->
  rsum (map (fun a => rsum (map (fun b => G a b) (remove dec a l))) l) = r0.
Proof.
  induction l as [|a l IH]; intros ND H; auto. inversion ND as [|? ? Na NDl]; subst.
  cbn [map rsum fold_right]. fold (rsum (map (fun a0 => rsum (map (fun b => G a0 b) (remove dec a0 (a :: l)))) l)).
  assert (E1 : remove dec a (a :: l) = l).
  { simpl. destruct (dec a a); [|congruence]. apply notin_remove; auto. }
  rewrite E1.
  rewrite (rsum_ext _ (fun a0 => rsum (map (fun b => G a0 b) (remove dec a0 (a :: l)))) (fun a0 => G a0 a + rsum (map (fun b => G a0 b) (remove dec a0 l)))).
  2:{ intros x Hx. cbn [remove]. destruct (dec x a) as [->|]; [contradiction|]. reflexivity. }
  rewrite rsum_add, IH; auto; [|intros; apply H; auto; right; auto].
  replace (rsum (map (fun b => G a b) l) + (rsum (map (fun x => G x a) l) + r0))
    with (rsum (map (fun b => G a b) l) + rsum (map (fun x => G x a) l)) by ring.
  rewrite <- rsum_add. apply rsum_0. intros x Hx. apply H; simpl; auto. intros ->. auto.
Qed.

Lemma inner_comm : forall a b : array K, ashape a = ashape b -> inner a b = inner b a.
Proof. intros a b E. unfold inner. rewrite E. apply rsum_ext. intros. ring. Qed.

(** An array orthogonal to everything is zero. *)
Lemma inner_zero : forall a : array K, (forall b, ashape b = ashape a -> inner b a = r0) ->
  forall idx, in_range (ashape a) idx -> aget a idx = r0.
Proof.
  intros a H idx Hi. set (e := @mkArr K (ashape a) (fun j => if list_eqb j idx then @r1 K else r0)).
  specialize (H e eq_refl). unfold inner in H. rewrite (rsum_single _ _ _ idx) in H.
  - cbn [aget e] in H. rewrite (proj2 (list_eqb_eq idx idx) eq_refl) in H. rewrite <- H. ring.
  - apply indices_nodup.
  - apply indices_in. auto.
  - intros x _ Hx. cbn [aget e]. destruct (list_eqb x idx) eqn:E; [apply list_eqb_eq in E; congruence|]. ring.
Qed.

End Sums.
