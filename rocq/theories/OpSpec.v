(** What the properties of operator expressions refer to: linear maps on arrays, adjoint pairs, and typed
    expressions.  Independent of simplification. *)
Require Import List Arith Bool.
From Verif Require Import Util Arr StModel OpModel.
Import ListNotations.

Section Spec.
Variable K : cring.

Definition aadd (a b : array K) : array K := mkArr (ashape a) (fun i => radd (aget a i) (aget b i)).

(** [f] maps arrays of shape [n] to arrays of shape [m], looks only at valid entries, and is additive. *)
Record linear (n m : list nat) (f : array K -> array K) : Prop := {
  lin_shape : forall x, ashape x = n -> ashape (f x) = m;
  lin_ext : forall x y, ashape x = n -> aeq x y -> aeq (f x) (f y);
  lin_add : forall x y, ashape x = n -> ashape y = n -> aeq (f (aadd x y)) (aadd (f x) (f y))
}.
Definition adjoint_pair (n m : list nat) (f g : array K -> array K) : Prop :=
  forall x y, ashape x = n -> ashape y = m -> inner (f x) y = inner x (g y).

(** The documented contract of an operator (operator.py:9): a transposable linear operator. *)
Record transposable (o : sop K) : Prop := {
  tr_right : linear (snd (so_shape K o)) (fst (so_shape K o)) (so_right K o);
  tr_left : linear (fst (so_shape K o)) (snd (so_shape K o)) (so_left K o);
  tr_adj : adjoint_pair (snd (so_shape K o)) (fst (so_shape K o)) (so_right K o) (so_left K o)
}.

(** A signature: the spaces, their array shapes, and which primal and dual derivatives map which space to which. *)
Record signature := mkSig {
  space : Type; shp : space -> list nat;
  d_ok : sop K -> space -> space -> Prop;
  dd_ok : sop K -> space -> space -> Prop;
  dg_ok : K -> Prop   (** the values allowed in diagonals *)
}.

(** Derivatives have the declared shapes, transposing exchanges the two kinds, and diagonal values can be multiplied. *)
Record sig_ok (G : signature) : Prop := {
  so_d : forall o i j, d_ok G o i j -> transposable o /\ so_shape K o = (shp G i, shp G j);
  so_dd : forall o i j, dd_ok G o i j -> transposable o /\ so_shape K o = (shp G i, shp G j);
  so_d_t : forall o i j, d_ok G o i j -> dd_ok G (so_transpose K o) j i;
  so_dd_t : forall o i j, dd_ok G o i j -> d_ok G (so_transpose K o) j i;
  so_dg_mul : forall a b, dg_ok G a -> dg_ok G b -> dg_ok G (rmul a b)
}.
(** Two composable derivatives of the same kind give zero. *)
Record sig_closed (G : signature) : Prop := {
  so_d_closed : forall o p i j k x, d_ok G o i j -> d_ok G p j k -> ashape x = shp G k ->
     aeq (so_right K o (so_right K p x)) (zeros K (shp G i));
  so_dd_closed : forall o p i j k x, dd_ok G o i j -> dd_ok G p j k -> ashape x = shp G k ->
     aeq (so_right K o (so_right K p x)) (zeros K (shp G i))
}.

(** A diagonal is a scalar or a full array of allowed values. *)
Definition diag_ok (G : signature) (d : array K) (i : space G) : Prop :=
  (ashape d = [] \/ ashape d = shp G i) /\ forall idx, in_range (ashape d) idx -> dg_ok G (aget d idx).

(** [typed G o i j]: every node maps the space of its input to that of its output; [j] is the input, [i] the output. *)
Inductive typed (G : signature) : op K -> space G -> space G -> Prop :=
| ty_gen : forall o i j, transposable o -> so_shape K o = (shp G i, shp G j) -> typed G (OGen o) i j
| ty_zero : forall i j, typed G (OZero (shp G i, shp G j)) i j
| ty_deriv : forall o i j, d_ok G o i j -> typed G (ODeriv o) i j
| ty_dual : forall o i j, dd_ok G o i j -> typed G (ODual o) i j
| ty_sym : forall f i, linear (shp G i) (shp G i) f -> adjoint_pair (shp G i) (shp G i) f f -> typed G (OSym f (shp G i)) i i
| ty_diag : forall d i, diag_ok G d i -> typed G (ODiag d (shp G i)) i i
| ty_hodge : forall d i, diag_ok G d i -> typed G (OHodge d (shp G i)) i i
| ty_id : forall i, typed G (OId (shp G i)) i i
| ty_comp : forall l i j, tchain G l i j -> typed G (OComp l) i j
| ty_comb : forall l i j, tsum G l i j -> typed G (OComb l) i j
with tchain (G : signature) : list (op K) -> space G -> space G -> Prop :=
| tc_one : forall o i j, typed G o i j -> tchain G [o] i j
| tc_cons : forall o l i j k, typed G o i j -> tchain G l j k -> tchain G (o :: l) i k
with tsum (G : signature) : list (op K) -> space G -> space G -> Prop :=
| ts_one : forall o i j, typed G o i j -> tsum G [o] i j
| ts_cons : forall o l i j, typed G o i j -> tsum G l i j -> tsum G (o :: l) i j.
End Spec.
Arguments aadd {K}. Arguments linear {K}. Arguments adjoint_pair {K}. Arguments transposable {K}.
