(** What the properties of multigrid refer to.  Independent of the cycle itself. *)
Require Import List Arith.
From Verif Require Import Util Arr StModel MgModel.
Import ListNotations.

(** The contract of one level: [exact e x y] says that x solves the equation e for the right hand side y. *)
Section Contract.
Variables E V : Type.
Variables residual smooth : E -> V -> V -> result V.
Variable solve : E -> V -> option V -> result V.
Variables restrict interpolate : E -> V -> result V.
Variable vsub : V -> V -> result V.
Variable vzero : V -> V.
Variables (dom : E -> V -> V -> Prop) (Zx Zy : E -> V -> Prop) (eqv : V -> V -> Prop).
Definition exact (e : E) (x y : V) : Prop := dom e x y /\ exists r, residual e x y = Ok r /\ Zy e r.
Record level_ok (e : E) : Prop := {
  lv_eqv : forall x x' y, exact e x y -> eqv x' x -> exact e x' y;
  lv_smooth : forall x y, exact e x y -> exists x', smooth e x y = Ok x' /\ eqv x' x;
  lv_sub : forall x y w, exact e x y -> Zx e w -> exists x', vsub x w = Ok x' /\ eqv x' x;
  lv_zero : forall y, Zy e y -> exact e (vzero y) y /\ Zx e (vzero y);
  lv_zx : forall x x', Zx e x -> eqv x' x -> Zx e x'
}.
Definition link_ok (e c : E) : Prop :=
  (forall y, Zy e y -> exists z, restrict e y = Ok z /\ Zy c z) /\ (forall x, Zx c x -> exists z, interpolate e x = Ok z /\ Zx e z).
Definition solver_ok (e : E) : Prop := forall x y, exact e x y -> exists x', solve e y (Some x) = Ok x' /\ eqv x' x.

(** Finest first: neighbouring levels are linked, and the coarsest is solved. *)
Fixpoint chain_ok (h : list E) : Prop :=
  match h with
  | [] => False
  | e :: h' => level_ok e /\ match h' with [] => solver_ok e | c :: _ => link_ok e c /\ chain_ok h' end
  end.
End Contract.

(** Block vectors of one array per degree in [0, 1] on a grid; vectors of zeros. *)
Definition fits {K : cring} (t : stopo) (x : list (array K)) : Prop := Forall2 (fun a n => ashape a = st_n_elements t n) x [0;1].
Definition all_zero {K : cring} (x : list (array K)) : Prop := Forall (fun a => forall idx, in_range (ashape a) idx -> aget a idx = r0) x.
