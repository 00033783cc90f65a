(** What volumes, distances and dependence of points are, coordinate by coordinate; nothing here mentions the model. *)
From mathcomp Require Import all_ssreflect all_algebra.
Import GRing.Theory Num.Theory.
Local Open Scope ring_scope.

Section Geo.
Variable K : rcfType.

Definition dotp (n : nat) (u v : 'I_n -> K) : K := \sum_j u j * v j.
Definition len (n : nat) (u : 'I_n -> K) : K := Num.sqrt (dotp n u u).
(** squared distance of two rows *)
Definition sqdist (m n : nat) (pts : 'M[K]_(m, n)) (i k : 'I_m) : K := \sum_j (pts i j - pts k j) ^+ 2.
(** some combination of the points with weights that add up to zero, and are not all zero, vanishes *)
Definition dependent (m n : nat) (pts : 'M[K]_(m, n)) : Prop :=
  exists c : 'I_m -> K, (exists i, c i <> 0) /\ \sum_i c i = 0 /\ forall j, \sum_i c i * pts i j = 0.
(** the points with point i replaced by p *)
Definition swap_in (m n : nat) (pts : 'M[K]_(m, n)) (i : 'I_m) (p : 'rV[K]_n) : 'M[K]_(m, n) := \matrix_(k, j) (if k == i then p 0 j else pts k j).
End Geo.
