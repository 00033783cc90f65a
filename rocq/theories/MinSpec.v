(** Krylov spaces and lengths; nothing here mentions the solver. *)
From mathcomp Require Import all_ssreflect all_algebra.
Import GRing.Theory Num.Theory.
Local Open Scope ring_scope.

Section S.
Variable K : rcfType.
Variable n : nat.
(** square of the length of a vector *)
Definition sqnorm (u : 'cV[K]_n) : K := \sum_i u i 0 ^+ 2.
(** combinations of the first k vectors of a sequence *)
Inductive span (V : nat -> 'cV[K]_n) (k : nat) : 'cV[K]_n -> Prop :=
| span0 : span V k 0
| spanA : forall z i c, span V k z -> (i < k)%N -> span V k (z + c *: V i).
(** b, B b, B B b, ... *)
Definition power (B : 'M[K]_n) (b : 'cV[K]_n) (j : nat) : 'cV[K]_n := iter j (mulmx B) b.
(** the k-th Krylov space *)
Definition krylov (B : 'M[K]_n) (b : 'cV[K]_n) (k : nat) : 'cV[K]_n -> Prop := span (power B b) k.
End S.
