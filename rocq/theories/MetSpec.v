(** Centres of elements given by barycentric coordinates. *)
From mathcomp Require Import all_ssreflect all_algebra.
From Verif Require SimpModel SubdSpec.
Import GRing.Theory Num.Theory.
Local Open Scope ring_scope.

Section Met.
Variable K : rcfType.
Variable t : SimpModel.topology.
Variable d : nat.
(** [coef k e v] is the coordinate of the centre of k-element e with respect to vertex v: zero unless v is a corner of e;
    the coordinates add up to one; [PP k e] is the centre *)
Definition centres (n : nat) (pos : nat -> 'rV[K]_d) (PP : nat -> nat -> 'rV[K]_d) (coef : nat -> nat -> nat -> K) : Prop :=
  forall k e, (k <= n)%N -> (e < SimpModel.n_elements t k)%N ->
    (forall v, v \notin SubdSpec.element t k e -> coef k e v = 0) /\
    \sum_(v <- SubdSpec.element t k e) coef k e v = 1 /\
    PP k e = \sum_(v <- SubdSpec.element t k e) coef k e v *: pos v.
(** the positions of the corners of an element, as the rows of a matrix *)
Definition corners (k : nat) (pos : nat -> 'rV[K]_d) (s : seq nat) : 'M[K]_(k.+1, d) := \matrix_(i, j) pos (nth 0%N s i) 0 j.
(** the k-dimensional volume of k+1 points: length, area, volume, .., from the inner products of the edges at the first *)
Definition content (k : nat) (pts : 'M[K]_(k.+1, d)) : K :=
  Num.sqrt `|\det (\matrix_(i < k, l < k) \sum_j (pts (lift ord0 i) j - pts ord0 j) * (pts (lift ord0 l) j - pts ord0 j))| / k`!%:R.
(** distance of two points *)
Definition distance (p q : 'rV[K]_d) : K := Num.sqrt (\sum_j (p 0 j - q 0 j) ^+ 2).
(** the centre of every element is as far from one corner as from another *)
Definition circumcentred (n : nat) (pos : nat -> 'rV[K]_d) (PP : nat -> nat -> 'rV[K]_d) : Prop :=
  forall k e v w, (k <= n)%N -> (e < SimpModel.n_elements t k)%N -> v \in SubdSpec.element t k e -> w \in SubdSpec.element t k e ->
    distance (PP k e) (pos v) = distance (PP k e) (pos w).
End Met.
