(** Points in the simplices of a mesh, powers of points with respect to weighted vertices, and the contracts of scipy's
    closest point queries and linear solver. *)
From mathcomp Require Import all_ssreflect all_algebra.
From Verif Require Import MetSpec.
From Verif Require SimpModel SubdSpec.
Import GRing.Theory Num.Theory.
Local Open Scope ring_scope.

Section Tree.
Variable K : rcfType.
(** the answer is the position of a closest point *)
Definition nearest_contract (nearest : forall k, seq 'rV[K]_k -> 'rV[K]_k -> nat) : Prop :=
  forall k pts p, (0 < size pts)%N -> (nearest k pts p < size pts)%N /\
    forall i, (i < size pts)%N -> distance K k p (nth 0 pts (nearest k pts p)) <= distance K k p (nth 0 pts i).
(** a symmetric system is solved if it can be; a zero right hand side gives zero *)
Definition minres_contract (minres : forall N, 'M[K]_N -> 'cV[K]_N -> 'cV[K]_N) : Prop :=
  forall N A b, A^T = A -> ((exists x, A *m x = b) -> A *m minres N A b = b) /\ (b = 0 -> minres N A b = 0).

Variable t : SimpModel.topology.
Variables (n d : nat).
Variable pos : nat -> 'rV[K]_d.
Variable weight : nat -> K.
(** the power of point p with respect to vertex v: the squared distance less the weight *)
Definition power (p : 'rV[K]_d) (v : nat) : K := distance K d p (pos v) ^+ 2 - weight v.
(** the centre of every element has the same power with respect to its corners *)
Definition power_centred (PP : nat -> nat -> 'rV[K]_d) : Prop :=
  forall k e v w, (k <= n)%N -> (e < SimpModel.n_elements t k)%N -> v \in SubdSpec.element t k e -> w \in SubdSpec.element t k e ->
    power (PP k e) v = power (PP k e) w.
(** the centre of every top simplex has smaller power with respect to its corners than to the other vertices: without
    weights, every circumsphere has the other vertices strictly outside *)
Definition empty_spheres (PP : nat -> nat -> 'rV[K]_d) : Prop :=
  forall j i v w, (j < SimpModel.n_elements t n)%N -> (i < SimpModel.n_elements t n)%N -> v \in SubdSpec.element t n j -> w \in SubdSpec.element t n i -> w \notin SubdSpec.element t n j ->
    power (PP n j) v < power (PP n j) w.
(** p lies in top simplex j, with barycentric coordinates b *)
Definition within (j : nat) (b : nat -> K) (p : 'rV[K]_d) : Prop :=
  [/\ (j < SimpModel.n_elements t n)%N, forall v, v \in SubdSpec.element t n j -> 0 <= b v, forall v, v \notin SubdSpec.element t n j -> b v = 0,
      \sum_(v <- SubdSpec.element t n j) b v = 1 & p = \sum_(v <- SubdSpec.element t n j) b v *: pos v].
End Tree.
