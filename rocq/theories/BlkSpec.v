(** What the properties of block operators refer to.  Independent of how blocks are multiplied. *)
Require Import List Arith Bool.
From Verif Require Import Util Arr StModel OpModel OpSpec.
Import ListNotations.

Section Spec.
Variable K : cring.
Variable G : signature K.

(** A block operator mapping the spaces [J] to the spaces [I]; a block vector in the spaces [J]. *)
Definition tblock (A : list (list (op K))) (I J : list (space K G)) : Prop :=
  Forall2 (fun row i => Forall2 (fun o j => typed K G o i j) row J) A I.
Definition bv (x : list (array K)) (J : list (space K G)) : Prop := Forall2 (fun a j => ashape a = shp K G j) x J.
End Spec.

(** Sum of products of all entries of two block vectors of the same layout. *)
Definition binner {K : cring} (x y : list (array K)) : K := rsum (map (fun p => inner (fst p) (snd p)) (combine x y)).

(** Unit vectors; the entry of an operator in row [i] and column [j]. *)
Definition aunit {K : cring} (s j : list nat) : array K := mkArr s (fun i => if list_eqb i j then r1 else r0).

(** Neighbouring cells of a periodic grid: equal but for one axis, along which they differ by one step around it. *)
Definition neighbours (shape p q : list nat) : Prop := exists a, a < length shape /\
  (forall b, b <> a -> nth b p 0 = nth b q 0) /\
  ((nth a q 0 = (nth a p 0 + 1) mod nth a shape 0) \/ (nth a p 0 = (nth a q 0 + 1) mod nth a shape 0)).
