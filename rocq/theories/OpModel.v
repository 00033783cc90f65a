(** Model of pycomplex/stencil/operator.py: expressions over transposable operators.
    Values live in an arbitrary commutative ring in place of floats.  Arrays are [Arr.array].  [near0] and
    [near1] stand for [np.allclose(d, 0)] and [np.allclose(d, 1)]. *)
Require Import List Arith Bool.
From Verif Require Import Util Arr StModel.
Import ListNotations.

Section Ops.
Variable K : cring.
Variables near0 near1 : array K -> bool.

(** One constructor per class: StencilOperator operator.py:8-80, ZeroOperator 83-100, DerivativeOperator
    103-117, DualDerivativeOperator 120-129, SymmetricOperator 132-140, DiagonalOperator 143-166,
    HodgeOperator 169-171, IdentityOperator 174-190, ComposedOperator 193-254, CombinedOperator 257-300. *)
Inductive op :=
| OGen (o : sop K)
| OZero (s : list nat * list nat)
| ODeriv (o : sop K)
| ODual (o : sop K)
| OSym (f : array K -> array K) (s : list nat)
| ODiag (d : array K) (s : list nat)
| OHodge (d : array K) (s : list nat)
| OId (s : list nat)
| OComp (l : list op)
| OComb (l : list op).

(** The attribute [shape]; composed: operator.py:202, combined: operator.py:264. *)
Fixpoint oshape (o : op) : list nat * list nat :=
  match o with
  | OGen o | ODeriv o | ODual o => so_shape K o
  | OZero s => s
  | OSym _ s | ODiag _ s | OHodge _ s | OId s => (s, s)
  | OComp l => let ss := map oshape l in (fst (hd ([], []) ss), snd (last ss ([], [])))
  | OComb l => hd ([], []) (map oshape l)
  end.

Definition shapes_eqb (a b : list nat * list nat) : bool := list_eqb (fst a) (fst b) && list_eqb (snd a) (snd b).

(** operator.py:196-202.  Operators are always truthy, so [adjecent_pairs] is the list of neighbours (see C49). *)
Definition mk_comp (l : list op) : result op :=
  if forallb (fun p => list_eqb (snd (oshape (fst p))) (fst (oshape (snd p)))) (combine l (tl l)) then
    match l with [] => Err IndexError | _ => Ok (OComp l) end
  else Err AssertionError.
(** operator.py:260-271 *)
Definition mk_comb (l : list op) : result op :=
  match l with
  | [] => Err IndexError
  | o :: _ => if forallb (fun p => shapes_eqb (oshape p) (oshape o)) l then Ok (OComb l) else Err AssertionError
  end.

(** x * d for arrays of equal shape, or one of them a scalar; numpy's other broadcasts are not modelled. *)
Definition bmul (a b : array K) : result (array K) :=
  if list_eqb (ashape a) (ashape b) then Ok (mkArr (ashape a) (fun i => rmul (aget a i) (aget b i)))
  else match ashape a, ashape b with
       | _, [] => Ok (mkArr (ashape a) (fun i => rmul (aget a i) (aget b [])))
       | [], _ => Ok (mkArr (ashape b) (fun i => rmul (aget a []) (aget b i)))
       | _, _ => Err ValueError
       end.
(** a + b for arrays of equal shape. *)
Definition badd (a b : array K) : result (array K) :=
  if list_eqb (ashape a) (ashape b) then Ok (mkArr (ashape a) (fun i => radd (aget a i) (aget b i))) else Err ValueError.
Definition zeros (s : list nat) : array K := mkArr s (fun _ => r0).
(** The python sum: 0 + first + second + ...; 0 + first is [first]. *)
Fixpoint asum (a : array K) (l : list (array K)) : result (array K) :=
  match l with [] => Ok a | b :: r => do c <- badd a b; asum c r end.

(** operator.py:40-44 around any [right]. *)
Definition checked (s : list nat * list nat) (x : array K) (f : array K -> result (array K)) : result (array K) :=
  if list_eqb (ashape x) (snd s) then
    do r <- f x;
    if list_eqb (ashape r) (fst s) then Ok r else Err AssertionError
  else Err AssertionError.

(** The call of an operator: operator.py:40-44 for all classes but ComposedOperator (245-250).  A combined
    operator always has terms (operator.py:264). *)
Fixpoint ocall (o : op) (x : array K) : result (array K) :=
  match o with
  | OGen o | ODeriv o | ODual o => so_call K o x
  | OZero s => checked s x (fun _ => Ok (zeros (fst s)))
  | OSym f s => checked (s, s) x (fun x => Ok (f x))
  | ODiag d s | OHodge d s => checked (s, s) x (fun x => bmul x d)
  | OId s => checked (s, s) x (fun x => Ok x)
  | OComp l => checked (oshape o) x (fun x => fold_right (fun p acc => do v <- acc; ocall p v) (Ok x) l)
  | OComb l => checked (oshape o) x (fun x =>
      do rs <- (fix go (l : list op) := match l with [] => Ok [] | p :: r => do y <- ocall p x; do ys <- go r; Ok (y :: ys) end) l;
      match rs with [] => Err IndexError | a :: r => asum a r end)
  end.

(** isinstance tests; HodgeOperator and IdentityOperator are DiagonalOperators. *)
Definition isZero (o : op) := match o with OZero _ => true | _ => false end.
Definition isDeriv (o : op) := match o with ODeriv _ => true | _ => false end.
Definition isDual (o : op) := match o with ODual _ => true | _ => false end.
Definition isId (o : op) := match o with OId _ => true | _ => false end.
Definition isDiag (o : op) := match o with ODiag _ _ | OHodge _ _ | OId _ => true | _ => false end.

(** operator.py:204-214 *)
Definition is_zero (l : list op) : bool :=
  existsb isZero l ||
  existsb (fun p => isDeriv (fst p) && isDeriv (snd p)) (combine l (tl l)) ||
  existsb (fun p => isDual (fst p) && isDual (snd p)) (combine l (tl l)).

(** The first nested composition (operator.py:224-227) or sum (operator.py:287-290), with what precedes and follows it. *)
Fixpoint first_comp (l : list op) : option (list op * list op * list op) :=
  match l with
  | [] => None
  | OComp m :: r => Some ([], m, r)
  | o :: r => match first_comp r with Some (a, m, b) => Some (o :: a, m, b) | None => None end
  end.
Fixpoint first_comb (l : list op) : option (list op * list op * list op) :=
  match l with
  | [] => None
  | OComb m :: r => Some ([], m, r)
  | o :: r => match first_comb r with Some (a, m, b) => Some (o :: a, m, b) | None => None end
  end.
(** The first adjacent pair of diagonal operators (operator.py:236-237). *)
Fixpoint first_diags (l : list op) : option (list op * op * op * list op) :=
  match l with
  | p :: ((q :: r) as t) =>
      if isDiag p && isDiag q then Some ([], p, q, r)
      else match first_diags t with Some (a, u, v, b) => Some (p :: a, u, v, b) | None => None end
  | _ => None
  end.
(** The attribute [diagonal]; a bound method for IdentityOperator (operator.py:186-187), which cannot be multiplied. *)
Definition get_diag (o : op) : result (array K) :=
  match o with ODiag d _ | OHodge d _ => Ok d | _ => Err TypeError end.
(** operator.py:158-163, inherited by HodgeOperator. *)
Definition simplify_diag (d : array K) (s : list nat) (self : op) : op :=
  if near0 d then OZero (s, s) else if near1 d then OId s else self.

(** simplify: operator.py:54-55, 158-163, 183-184, 216-240, 273-293.  The recursion ends within the number of nodes. *)
Fixpoint simplify (fuel : nat) (o : op) : result op :=
  match fuel with
  | 0 => Err RuntimeError
  | S n =>
    match o with
    | ODiag d s | OHodge d s => Ok (simplify_diag d s o)
    | OComp [p] => simplify n p
    | OComp l =>
        if is_zero l then Ok (OZero (oshape o))
        else match first_comp l with
        | Some (a, m, b) => do c <- mk_comp (a ++ m ++ b); simplify n c
        | None =>
          if existsb isId l then
            match filter (fun p => negb (isId p)) l with
            | [] => Ok (OId (fst (oshape o)))
            | ops => do c <- mk_comp ops; simplify n c
            end
          else match first_diags l with
          | Some (a, p, q, b) =>
              do dp <- get_diag p; do dq <- get_diag q; do d <- bmul dp dq;
              let s := fst (oshape p) in
              do c <- mk_comp (a ++ [simplify_diag d s (ODiag d s)] ++ b); simplify n c
          | None => Ok o
          end
        end
    | OComb [p] => simplify n p
    | OComb l =>
        if existsb isZero l then
          match filter (fun p => negb (isZero p)) l with
          | [] => Ok (OZero (oshape o))
          | ops => do c <- mk_comb ops; simplify n c
          end
        else match first_comb l with
        | Some (a, m, b) => do c <- mk_comb (a ++ m ++ b); simplify n c
        | None => Ok o
        end
    | _ => Ok o
    end
  end.
Fixpoint osize (o : op) : nat :=
  match o with
  | OComp l | OComb l => S (fold_right (fun p n => osize p + n) 0 l)
  | _ => 1
  end.
Definition osimplify (o : op) : result op := simplify (osize o) o.

(** operator.py:46-53 *)
Definition op_add (a b : op) : result op := do c <- mk_comb [a; b]; osimplify c.
Definition op_mul (a b : op) : result op := do c <- mk_comp [a; b]; osimplify c.

(** transpose: operator.py:23-28, 95-98, 109-114, 121-126, 139-140, 242-243, 295-296. *)
Fixpoint otranspose (o : op) : result op :=
  match o with
  | OGen o => Ok (OGen (so_transpose K o))
  | OZero s => Ok (OZero (snd s, fst s))
  | ODeriv o => Ok (ODual (so_transpose K o))
  | ODual o => Ok (ODeriv (so_transpose K o))
  | OSym _ _ | ODiag _ _ | OHodge _ _ | OId _ => Ok o
  | OComp l =>
      do m <- (fix go (l : list op) := match l with [] => Ok [] | p :: r => do y <- otranspose p; do ys <- go r; Ok (y :: ys) end) l;
      mk_comp (rev m)
  | OComb l =>
      do m <- (fix go (l : list op) := match l with [] => Ok [] | p :: r => do y <- otranspose p; do ys <- go r; Ok (y :: ys) end) l;
      mk_comb m
  end.
End Ops.
Arguments OGen {K}. Arguments OZero {K}. Arguments ODeriv {K}. Arguments ODual {K}. Arguments OSym {K}.
Arguments ODiag {K}. Arguments OHodge {K}. Arguments OId {K}. Arguments OComp {K}. Arguments OComb {K}.

(** np.allclose(d, v) over the rationals with numpy's defaults rtol = 1e-5, atol = 1e-8 (operator.py:159,161). *)
Require Import QArith Qabs Qcanon.
Definition Qring : cring := mkRing Qc 0%Qc 1%Qc Qcplus Qcmult Qcminus Qcopp Qcrt.
Definition allclose (v : Q) (d : array Qring) : bool :=
  forallb (fun idx => Qle_bool (Qabs (this (aget d idx) - v)) ((1 # 100000000) + (1 # 100000) * Qabs v)) (indices (ashape d)).
