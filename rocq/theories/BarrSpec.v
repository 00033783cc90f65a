(** Block vectors and block matrices, independently of the code. *)
Require Import List Arith.
From Verif Require Import Util Arr BarrModel.
Import ListNotations.

(** Where block [i] starts when blocks have sizes [l]. *)
Definition offset (l : list nat) (i : nat) : nat := list_sum (firstn i l).
(** [A] has blocks of R rows and C columns, size by size. *)
Definition sized {K : cring} (R C : list nat) (A : list (list (mat K))) : Prop :=
  Forall2 (fun r row => Forall2 (fun c a => mr a = r /\ mc a = c) C row) R A.
Definition blockat {K : cring} (A : list (list (mat K))) (i j : nat) : mat K := nth j (nth i A []) (mkMat 0 0 (fun _ _ => r0)).
(** [M] is the matrix with the blocks of [A] side by side. *)
Definition is_merged {K : cring} (R C : list nat) (A : list (list (mat K))) (M : mat K) : Prop :=
  mr M = list_sum R /\ mc M = list_sum C /\
  forall i j r c, i < length R -> j < length C -> r < nth i R 0 -> c < nth j C 0 ->
    mg M (offset R i + r) (offset C j + c) = mg (blockat A i j) r c.
