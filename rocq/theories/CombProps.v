(** Properties C01, C02, C03: enumeration of combinations and permutations. *)
Require Import List Arith Permutation Sorting.Sorted Factorial Lia.
From Verif Require Import Util CombModel CombSpec CombProofs.
Import ListNotations.

(** C01.  The yielded selections are exactly the [n]-subsets of positions, in lexicographic order. *)
Theorem C01_combinations_complete : forall A (L : list A) n, n <= length L ->
  exists P : list (list nat),
    Forall2 (selects L) P (map snd (combinations n L)) /\
    StronglySorted lex_lt P /\
    (forall ps, In ps P <-> is_selection (length L) n ps) /\
    length P = binom (length L) n.
Proof. exact combinations_enum. Qed.
Print Assumptions C01_combinations_complete.

Theorem C01_combinations_too_many : forall A (L : list A) n, length L < n ->
  map snd (combinations n L) = [[]].
Proof. intros. rewrite combinations_gt; auto. Qed.
Print Assumptions C01_combinations_too_many.

Example C01_example :
  map snd (combinations 2 [5; 6; 7; 8]) = [[5;6];[5;7];[5;8];[6;7];[6;8];[7;8]] /\ binom 4 2 = 6.
Proof. split; reflexivity. Qed.

(** C02 in full would be [C02_combinations_parity_partial] without its second hypothesis.
    That is false of the code (see the refutation); the cases [n <= 1] (the only ones
    used by the boundary constructions) and [n = len L] hold. *)
Theorem C02_combinations_parity_partial : forall A (L : list A) n, n <= length L ->
  (n <= 1 \/ n = length L) ->
  exists P, Forall2 (selects L) P (map snd (combinations n L)) /\
    (forall ps, In ps P <-> is_selection (length L) n ps) /\
    Forall2 (fun pl ps => fst pl = front_parity (length L) ps) (combinations n L) P.
Proof. exact combinations_parity_ends. Qed.
Print Assumptions C02_combinations_parity_partial.

Theorem C02_combinations_parity_refuted :
  exists (L : list nat) n ps p l, NoDup L /\ n <= length L /\
    is_selection (length L) n ps /\ selects L ps l /\
    In (p, l) (combinations n L) /\ p <> front_parity (length L) ps.
Proof.
  exists [10; 20; 30], 2, [1; 2], 1, [20; 30].
  repeat split; simpl; auto; try (repeat constructor; simpl; lia).
Qed.
Print Assumptions C02_combinations_parity_refuted.

Example C02_example : map fst (combinations 1 [7; 8; 9]) = [0; 1; 0]
  /\ front_parity 3 [0] = 0 /\ front_parity 3 [1] = 1 /\ front_parity 3 [2] = 0.
Proof. repeat split; reflexivity. Qed.

(** C03. *)
Theorem C03_permutations_complete : forall A (L : list A), L <> [] ->
  exists P : list (list nat),
    Forall2 (fun pl s => selects L s (snd pl) /\ fst pl = inv s mod 2) (permutations L) P /\
    NoDup P /\
    (forall s, In s P <-> Permutation (seq 0 (length L)) s) /\
    length P = fact (length L).
Proof. exact permutations_enum. Qed.
Print Assumptions C03_permutations_complete.

Theorem C03_permutations_distinct : forall A (L : list A), NoDup L -> NoDup (map snd (permutations L)).
Proof. exact permutations_nodup. Qed.
Print Assumptions C03_permutations_distinct.

Theorem C03_permutations_empty : forall A, permutations (@nil A) = [].
Proof. reflexivity. Qed.

Example C03_example : permutations [1; 2; 3] =
  [(0,[1;2;3]); (1,[2;1;3]); (0,[2;3;1]); (1,[1;3;2]); (0,[3;1;2]); (1,[3;2;1])].
Proof. reflexivity. Qed.
