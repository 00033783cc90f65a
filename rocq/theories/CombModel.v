(** Model of pycomplex/math/combinatorial.py *)
Require Import List Arith Bool.
Import ListNotations.

Section Comb.
Context {A : Type}.

(** combinatorial.py:38-43 [combinations(L, n)].  The generator is modelled by the list of all
    values it yields.  The recursive call decreases [n], so the recursion is structural in [n].
    [L[i]] never misses since [i <= len(L) - n]. *)
Fixpoint combinations (n : nat) (L : list A) : list (nat * list A) :=
  match n with
  | 0 => [(0, [])]
  | S m =>
    if length L <? n then [(0, [])]
    else flat_map (fun i =>
           match nth_error L i with
           | Some x => map (fun pt => ((fst pt + i) mod 2, x :: snd pt))
                           (combinations m (skipn (i + 1) L))
           | None => []
           end)
         (seq 0 (length L - n + 1))
  end.

(** combinatorial.py:73-79 [permutations(L)]. *)
Fixpoint permutations (L : list A) : list (nat * list A) :=
  match L with
  | [] => []
  | h :: t =>
    match t with
    | [] => [(0, [h])]
    | _ :: _ =>
      flat_map (fun pp =>
        map (fun i => ((fst pp + i) mod 2, firstn i (snd pp) ++ [h] ++ skipn i (snd pp)))
            (seq 0 (length (snd pp) + 1)))
        (permutations t)
    end
  end.

End Comb.
