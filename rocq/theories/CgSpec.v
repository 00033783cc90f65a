(** What is asked of solve_cg: linear operators, projections, residual, energy. *)
Require Import List Arith ZArith Bool.
From Verif Require Import Util Arr LinModel Ofield CgModel.

Section Spec.
Variable F : ofield.
Variable n : nat.
Local Open Scope ring_scope'.
Definition linear (f : vec F n -> vec F n) : Prop :=
  (forall x y, f (vadd x y) = vadd (f x) (f y)) /\ (forall a x, f (vscale a x) = vscale a (f x)).
Definition projection (p : vec F n -> vec F n) : Prop := linear p /\ (forall x, p (p x) = p x).
Definition symmetric (f : vec F n -> vec F n) : Prop := forall x y, vdot x (f y) = vdot (f x) y.
(** Positive on the nonzero vectors of the constrained space. *)
Definition positive_on (p f : vec F n -> vec F n) : Prop := forall x, p x = x -> x <> vzero n -> pos (vdot x (f x)) = true.
(** The part of the equation error that the constraints allow to be removed. *)
Definition residual (p f : vec F n -> vec F n) (b x : vec F n) : vec F n := p (vsub b (f x)).
(** The function that a symmetric positive system minimises at its solution. *)
Definition energy (f : vec F n -> vec F n) (b x : vec F n) : F := vdot x (f x) - (r1 + r1) * vdot b x.
End Spec.
Arguments linear {_ _}. Arguments projection {_ _}. Arguments symmetric {_ _}. Arguments positive_on {_ _}. Arguments residual {_ _}. Arguments energy {_ _}.
