(** Mathematical specification of oriented simplicial complexes, independent of the code. *)
Require Import List Arith ZArith Bool Permutation.
From Verif Require Import Util CombSpec SimpModel.
Import ListNotations.

(** Sign of a natural number exponent, and of an ordering of vertex labels. *)
Definition sgn_pow (n : nat) : Z := if Nat.odd n then (-1)%Z else 1%Z.
Definition sgn (l : list nat) : Z := sgn_pow (inv l).

(** The simplex with corner number [c] left out. *)
Definition omit (c : nat) (s : list nat) : list nat := firstn c s ++ skipn (S c) s.

(** Same vertices, decidable. *)
Definition same_verts (a b : list nat) : bool := list_eqb (isort Nat.leb a) (isort Nat.leb b).

(** Relative orientation of two orderings of the same vertices, 0 if the vertices differ. *)
Definition rel_sign (a b : list nat) : Z := if same_verts a b then (sgn a * sgn b)%Z else 0%Z.

(** Classical signed incidence number of the oriented simplex [f] in the boundary of [s]. *)
Definition incidence_number (f s : list nat) : Z :=
  sumZ (map (fun c => sgn_pow c * rel_sign (omit c s) f)%Z (seq 0 (length s))).

(** A quantity on ordered simplices that changes sign with the orientation. *)
Definition antisymmetric (f : list nat -> Z) : Prop :=
  forall l l', NoDup l -> Permutation l l' -> f l' = (sgn l * sgn l' * f l)%Z.

(** Alternating sum over the faces of a simplex. *)
Definition alternating (f : list nat -> Z) (s : list nat) : Z :=
  sumZ (map (fun c => sgn_pow c * f (omit c s))%Z (seq 0 (length s))).

(** Input meshes: a non-empty array of non-degenerate [n]-simplices. *)
Definition simplices_ok (n : nat) (rows : list (list nat)) : Prop :=
  rows <> [] /\ Forall (fun s => length s = S n /\ NoDup s) rows.

(** [f] is a [k]-face of [s]. *)
Definition is_face (k : nat) (f s : list nat) : Prop :=
  NoDup f /\ length f = S k /\ incl f s.

(** Entry (i, j) of the product of two matrices. *)
Definition product_entry (A B : coo) (i j : nat) : Z :=
  sumZ (map (fun k => entry A i k * entry B k j)%Z (seq 0 (Nat.max (ncols A) (nrows B)))).
