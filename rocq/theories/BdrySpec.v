(** Specification of orientation, boundary and selection, independent of the code. *)
Require Import List Arith ZArith Bool Permutation.
From Verif Require Import Util SimpModel SimpSpec.
Import ListNotations.

(** Boolean satisfiability in DIMACS convention: variable [k] is true / false for literal [k+1] / [-(k+1)]. *)
Definition lit_true (v : nat -> bool) (z : Z) : Prop :=
  ((0 < z)%Z /\ v (Z.to_nat z - 1) = true) \/ ((z < 0)%Z /\ v (Z.to_nat (- z) - 1) = false).
Definition satisfies (v : nat -> bool) (cls : list (Z * Z)) : Prop :=
  forall a b, In (a, b) cls -> lit_true v a \/ lit_true v b.
Definition max_var (cls : list (Z * Z)) : nat :=
  list_max (map (fun c => Nat.max (Z.abs_nat (fst c)) (Z.abs_nat (snd c))) cls).

(** Contract of the SAT solver: on nonzero literals it answers UNSAT only for unsatisfiable
    instances, and otherwise returns one signed literal for each variable up to the largest one. *)
Definition sat_contract (sat : list (Z * Z) -> option (list Z)) : Prop :=
  forall cls, (forall a b, In (a, b) cls -> a <> 0 /\ b <> 0)%Z ->
  match sat cls with
  | None => forall v, ~ satisfies v cls
  | Some l => length l = max_var cls /\
              (forall k, k < length l -> Z.abs (nth k l 0%Z) = (Z.of_nat k + 1)%Z) /\
              satisfies (fun k => (0 <? nth k l 0%Z)%Z) cls
  end.

(** [s1] and [s2] induce opposite orientations on every common facet. *)
Definition consistent_pair (n : nat) (s1 s2 : simplex) : Prop :=
  forall f, is_face (n - 1) f s1 -> is_face (n - 1) f s2 ->
    incidence_number f s1 = (- incidence_number f s2)%Z.
Definition consistent (n : nat) (rows : list simplex) : Prop :=
  forall j1 j2, j1 < length rows -> j2 < length rows -> j1 <> j2 ->
    consistent_pair n (nth j1 rows []) (nth j2 rows []).

(** No facet belongs to three different input simplices. *)
Definition at_most_two (n : nat) (rows : list simplex) : Prop :=
  forall f j1 j2 j3, j1 < length rows -> j2 < length rows -> j3 < length rows ->
    is_face (n - 1) f (nth j1 rows []) -> is_face (n - 1) f (nth j2 rows []) ->
    is_face (n - 1) f (nth j3 rows []) -> j1 = j2 \/ j1 = j3 \/ j2 = j3.

(** Two positions share a facet. *)
Definition adjacent (n : nat) (rows : list simplex) (j1 j2 : nat) : Prop :=
  j1 < length rows /\ j2 < length rows /\ j1 <> j2 /\
  exists f, is_face (n - 1) f (nth j1 rows []) /\ is_face (n - 1) f (nth j2 rows []).
Inductive linked (n : nat) (rows : list simplex) : nat -> nat -> Prop :=
| linked_refl : forall j, linked n rows j j
| linked_step : forall j1 j2 j3, linked n rows j1 j2 -> adjacent n rows j2 j3 -> linked n rows j1 j3.
Definition connected (n : nat) (rows : list simplex) : Prop :=
  forall j, j < length rows -> linked n rows 0 j.

(** Facets with exactly one coface. *)
Definition boundary_face (n : nat) (rows : list simplex) (f : simplex) : Prop :=
  exists j, j < length rows /\ is_face (n - 1) f (nth j rows []) /\
    forall j', j' < length rows -> is_face (n - 1) f (nth j' rows []) -> j' = j.

(** Exchange the first two corners: the simplex with opposite orientation. *)
Definition flip (s : simplex) : simplex :=
  match s with a :: b :: t => b :: a :: t | _ => s end.
