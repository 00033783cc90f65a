(** Model of the 3x3 matrix functions of pycomplex/math/linalg.py, for one matrix at a time.
    Numbers live in an arbitrary field in place of floats. *)
Require Import List Arith ZArith Field.
From Verif Require Import Util Arr.
Import ListNotations.

Record cfield := mkField { fcar :> cring; finv : fcar -> fcar; fdiv : fcar -> fcar -> fcar;
  fth : field_theory (@r0 fcar) r1 radd rmul rsub ropp fdiv finv eq }.
Arguments finv {_}. Arguments fdiv {_}.

Section Lin.
Variable F : cfield.
Local Open Scope ring_scope'.
Notation vec3 := (nat -> F).
Notation mat3 := (nat -> nat -> F).

(** Index of a python list of length 3; -1 is the last element. *)
Definition pyidx (i : Z) : nat := Z.to_nat (i mod 3).
(** np.cross of two vectors. *)
Definition cross (a b : vec3) : vec3 := fun j =>
  match j with
  | 0 => a 1%nat * b 2%nat - a 2%nat * b 1%nat
  | 1 => a 2%nat * b 0%nat - a 0%nat * b 2%nat
  | 2 => a 0%nat * b 1%nat - a 1%nat * b 0%nat
  | _ => r0
  end.
(** linalg.py:7-22 *)
Definition dot (a b : vec3) : F := rsum (map (fun i => a i * b i) (seq 0 3)).
(** linalg.py:132-149; the loop fills all rows of the array. *)
Definition adjoint (A : mat3) : mat3 := fun i => cross (A (pyidx (Z.of_nat i - 2))) (A (pyidx (Z.of_nat i - 1))).
(** linalg.py:152-167 *)
Definition null (A : mat3) : vec3 := fun j => rsum (map (fun i => adjoint A i j) (seq 0 3)).
(** linalg.py:170-186; mean divides the sum of three numbers by 3. *)
Definition mean3 (v : vec3) : F := fdiv (rsum (map v (seq 0 3))) (r1 + r1 + r1).
Definition inverse_transpose (A : mat3) : mat3 :=
  let I := adjoint A in
  let det := mean3 (fun i => dot (I i) (A i)) in
  fun i j => fdiv (I i j) det.
(** linalg.py:189-203 *)
Definition inverse (A : mat3) : mat3 := fun i j => inverse_transpose A j i.
End Lin.
