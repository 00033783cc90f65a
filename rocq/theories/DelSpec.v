(** Neighbouring simplices in space. *)
From mathcomp Require Import all_ssreflect all_algebra.
From Verif Require Import MetSpec.
From Verif Require SimpModel SubdSpec.
Import GRing.Theory Num.Theory.
Local Open Scope ring_scope.

Section Del.
Variable K : rcfType.
Variable t : SimpModel.topology.
Variables (n d : nat).
Variable pos : nat -> 'rV[K]_d.
(** the corners of top simplex j are v and the corners of facet e *)
Definition opposite (e j v : nat) : Prop := (j < SimpModel.n_elements t n)%N /\ perm_eq (SubdSpec.element t n j) (v :: SubdSpec.element t n.-1 e).
(** a hyperplane through the facet, with normal nu, has v and w on different sides *)
Definition apart (e v w : nat) : Prop :=
  exists nu : 'rV[K]_d, (forall f g, f \in SubdSpec.element t n.-1 e -> g \in SubdSpec.element t n.-1 e -> \sum_q nu 0 q * (pos f - pos g) 0 q = 0) /\
    forall f, f \in SubdSpec.element t n.-1 e -> 0 < \sum_q nu 0 q * (pos v - pos f) 0 q /\ \sum_q nu 0 q * (pos w - pos f) 0 q < 0.
(** vertex w is strictly outside the sphere around centre o through the corners of facet e *)
Definition outside (o : 'rV[K]_d) (e w : nat) : Prop := forall f, f \in SubdSpec.element t n.-1 e -> distance K d o (pos f) < distance K d o (pos w).
End Del.
