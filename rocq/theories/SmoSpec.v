(** Smoothing of vertex positions, independently of the code. *)
Require Import List Arith ZArith QArith.
From Verif Require Import SimpModel.
Import ListNotations.
Local Open Scope nat_scope.

Definition average (l : list Q) : Q := (fold_right Qplus 0 l / inject_Z (Z.of_nat (length l)))%Q.
Definition element (t : topology) (k e : nat) : list nat := nth e (nth k (elements t) []) [].
(** Element [e] of dimension [k] is a crease: it has a nonzero coefficient in the k-chain given for dimension [k];
    where no chain is given, the elements of highest dimension [n], and only they, are creases. *)
Definition crease (t : topology) (n : nat) (chains : list (nat * list Z)) (k e : nat) : Prop :=
  e < length (nth k (elements t) []) /\
  ((exists c, In (k, c) chains /\ nth e c 0%Z <> 0%Z) \/ (~ In k (map fst chains) /\ k = n)).
(** [l] lists the creases of dimension [k] at vertex [v], and there is no crease of lower dimension at [v]. *)
Definition sources (t : topology) (n : nat) (chains : list (nat * list Z)) (v k : nat) (l : list nat) : Prop :=
  k <= n /\ NoDup l /\ l <> [] /\
  (forall e, In e l <-> crease t n chains k e /\ In v (element t k e)) /\
  (forall k' e, k' < k -> crease t n chains k' e -> ~ In v (element t k' e)).
(** Each chain belongs to one dimension of the mesh and has one coefficient per element. *)
Definition chains_ok (t : topology) (n : nat) (chains : list (nat * list Z)) : Prop :=
  NoDup (map fst chains) /\ Forall (fun kc => fst kc <= n /\ length (snd kc) = length (nth (fst kc) (elements t) [])) chains.
