(** Model of accumulated operators, averaging, degree and check_chain:
    pycomplex/topology/base.py, pycomplex/sparse.py, pycomplex/util.py. *)
Require Import List Arith ZArith Bool QArith.
From Verif Require Import Util SimpModel BdryModel.
Import ListNotations.
Local Open Scope nat_scope.

(** util.py:14-26 [accumulate]: running totals; an empty input yields nothing. *)
Fixpoint running {A} (func : A -> A -> A) (total : A) (l : list A) : list A :=
  match l with
  | [] => []
  | e :: r => func total e :: running func (func total e) r
  end.
Definition accumulate {A} (func : A -> A -> A) (l : list A) : list A :=
  match l with [] => [] | x :: r => x :: running func x r end.

(** sparse.py:23-29 [normalize_l1] on an [r] x [c] matrix given by its entries; [absf] is numpy's abs on
    the entry type; [1./0] only multiplies rows without entries.  Another axis returns None. *)
Definition sumQ (l : list Q) : Q := fold_right Qplus 0%Q l.
Definition normalize_l1 (absf : Q -> Q) (r c axis : nat) (A : nat -> nat -> Q) : option (nat -> nat -> Q) :=
  if axis =? 0 then Some (fun i j => A i j * (1 / sumQ (map (fun i' => absf (A i' j)) (seq 0 r))))%Q
  else if axis =? 1 then Some (fun i j => (1 / sumQ (map (fun j' => absf (A i j')) (seq 0 c))) * A i j)%Q
  else None.

(** Matrix with given shape and entries; zeros are not stored. *)
Definition of_entries (r c : nat) (f : nat -> nat -> Z) : coo :=
  mkCoo r c (flat_map (fun i => flat_map (fun j => if (f i j =? 0)%Z then [] else [(i, j, f i j)]) (seq 0 c)) (seq 0 r)).

(** np.abs of an int8 value: -128 is a fixed point. *)
Definition abs8 (z : Z) : Z := wrap8 (Z.abs z).
Definition abs_mat (M : coo) : coo := of_entries (nrows M) (ncols M) (fun i j => abs8 (entry M i j)).

(** scipy int8 sparse product: the sums are taken in int8 and zero sums are not stored. *)
Definition mul8 (A B : coo) : coo :=
  of_entries (nrows A) (ncols B)
    (fun i j => wrap8 (sumZ (map (fun k => entry A i k * entry B k j)%Z (seq 0 (ncols A))))).
Definition identity (n : nat) : coo := of_entries n n (fun i j => if i =? j then 1%Z else 0%Z).

(** base.py:207-221 [accumulated_operators_0]; [A[0]] raises on a 0-dimensional topology.
    The shapes of a constructed topology match, so that scipy's dimension check is not modelled. *)
Definition accumulated_operators_0 (t : topology) : result (list coo) :=
  let A := accumulate mul8 (map abs_mat (matrices t)) in
  match A with [] => Err IndexError | a :: _ => Ok (identity (nrows a) :: A) end.

(** base.py:223-234 [accumulated_operators_N] *)
Definition accumulated_operators_N (t : topology) : result (list coo) :=
  let A := accumulate mul8 (map (fun m => abs_mat (transpose m)) (rev (matrices t))) in
  match A with [] => Err IndexError | a :: _ => Ok (rev (identity (nrows a) :: A)) end.

(** base.py:236-247 and 249-260: [normalize_l1(a.T, axis=1)]; the row sums are taken in a wide integer
    type by scipy, after an int8 absolute value. *)
Definition normalized_transpose (a : coo) : option (nat -> nat -> Q) :=
  normalize_l1 (fun q => inject_Z (abs8 (Qnum q))) (ncols a) (nrows a) 1 (fun i j => inject_Z (entry a j i)).
Definition averaging_operators_0 (t : topology) : result (list (option (nat -> nat -> Q))) :=
  do A <- accumulated_operators_0 t; Ok (map normalized_transpose A).
Definition averaging_operators_N (t : topology) : result (list (option (nat -> nat -> Q))) :=
  do A <- accumulated_operators_N t; Ok (map normalized_transpose A).

(** base.py:262-275 [degree]: [ones_like(a.T) * N_elements] in int8. *)
Definition degree (t : topology) : result (list (list Z)) :=
  do A <- accumulated_operators_N t;
  Ok (map (fun a => map (fun i =>
        wrap8 (sumZ (map (fun s => if (entry a s i =? 0)%Z then 0%Z else 1%Z) (seq 0 (nrows a))))) (seq 0 (ncols a))) A).

(** base.py:198-205 [check_chain]: note the range [n_dim - 2]; scipy raises ValueError on a shape mismatch. *)
Definition nnz (M : coo) : nat := length (triples M).
Definition check_chain (t : topology) : result unit :=
  do r <- mapM (fun i =>
       let a := nth i (matrices t) (mkCoo 0 0 []) in
       let b := nth (S i) (matrices t) (mkCoo 0 0 []) in
       if negb (ncols a =? nrows b) then Err ValueError
       else if negb (nnz (mul8 a b) =? 0) then Err ValueError else Ok tt) (seq 0 (n_dim t - 2));
  Ok tt.
