(** Model of pycomplex/synthetic.py 16-47 (n_simplex).  Coordinates are elements of an ordered field with square roots in place of
    floats; a set of points is a matrix with one point per row. *)
From mathcomp Require Import all_ssreflect all_algebra.
From Verif Require Util.
Import GRing.Theory Num.Theory.
Local Open Scope ring_scope.

Section RegS.
Variable K : rcfType.
(** synthetic.py:29-38 [simplex_vertices] for n = m + 1 *)
Fixpoint simplex_vertices (m : nat) : 'M[K]_(m.+2, m.+1) :=
  match m with
  | 0%N => \matrix_(i, j) (if i == ord0 then -1 else 1)
  | S k =>
    let depth := 1 / (k.+2)%:R in
    let shrink := Num.sqrt (1 - depth ^+ 2) in
    let base := shrink *: simplex_vertices k in
    let top := row_mx (1%:M : 'M[K]_1) (0 : 'M[K]_(1, k.+1)) in
    let bottom := - depth *: const_mx 1 : 'M[K]_(k.+2, 1) in
    col_mx top (row_mx bottom base)
  end.
(** synthetic.py:16-47: vertices, and the corners of the one simplex.  For n = 0 the recursion divides by zero. *)
Definition n_simplex (n : nat) (equilateral : bool) : Util.result ('M[K]_(n.+1, n) * seq (seq nat)) :=
  let simplices := [:: iota 0 n.+1] in
  if equilateral
  then match n with 0%N => Util.Err Util.ZeroDivisionError | S m => Util.Ok (simplex_vertices m, [:: iota 0 m.+2]) end
  else Util.Ok (col' ord0 (1%:M : 'M[K]_n.+1), simplices).
End RegS.
