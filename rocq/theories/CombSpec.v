(** What the enumeration properties mean, independently of the code. *)
Require Import List Arith Bool Sorting.Sorted.
Import ListNotations.

(** [l] consists of the entries of [L] at positions [ps]. *)
Definition selects {A} (L : list A) (ps : list nat) (l : list A) : Prop :=
  map Some l = map (nth_error L) ps.

(** A selection of [n] positions out of [len], in increasing order. *)
Definition is_selection (len n : nat) (ps : list nat) : Prop :=
  StronglySorted lt ps /\ length ps = n /\ Forall (fun p => p < len) ps.

(** Lexicographic order on position lists. *)
Inductive lex_lt : list nat -> list nat -> Prop :=
| lex_head a b s t : a < b -> lex_lt (a :: s) (b :: t)
| lex_tail a s t : lex_lt s t -> lex_lt (a :: s) (a :: t).

Fixpoint binom (n k : nat) : nat :=
  match n, k with
  | _, 0 => 1
  | 0, S _ => 0
  | S n', S k' => binom n' k' + binom n' k
  end.

(** Number of pairs that are out of order. *)
Fixpoint count_lt (x : nat) (l : list nat) : nat :=
  match l with
  | [] => 0
  | y :: t => (if y <? x then 1 else 0) + count_lt x t
  end.
Fixpoint inv (l : list nat) : nat :=
  match l with
  | [] => 0
  | x :: t => count_lt x t + inv t
  end.

(** The positions not selected, in increasing order. *)
Definition rest (len : nat) (ps : list nat) : list nat :=
  filter (fun i => negb (existsb (Nat.eqb i) ps)) (seq 0 len).

(** Parity of the permutation bringing the selection to the front. *)
Definition front_parity (len : nat) (ps : list nat) : nat := inv (ps ++ rest len ps) mod 2.
