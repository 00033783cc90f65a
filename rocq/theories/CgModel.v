(** Model of pycomplex/solvers.py:6-79 solve_cg, with exact arithmetic in an ordered field. *)
Require Import List Arith ZArith Bool.
From Verif Require Import Util Arr LinModel Ofield.
Import ListNotations.

Section Vec.
Variable F : ofield.
Local Open Scope ring_scope'.
(** Flat arrays of n numbers. *)
Fixpoint vec (n : nat) : Type := match n with O => unit | S m => (F * vec m)%type end.
Fixpoint vzero (n : nat) : vec n := match n with O => tt | S m => (r0, vzero m) end.
Fixpoint vadd {n} : vec n -> vec n -> vec n :=
  match n with O => fun _ _ => tt | S m => fun x y => (fst x + fst y, vadd (snd x) (snd y)) end.
Fixpoint vsub {n} : vec n -> vec n -> vec n :=
  match n with O => fun _ _ => tt | S m => fun x y => (fst x - fst y, vsub (snd x) (snd y)) end.
Fixpoint vscale {n} (a : F) : vec n -> vec n :=
  match n with O => fun _ => tt | S m => fun x => (a * fst x, vscale a (snd x)) end.
(** solvers.py:31-32 *)
Fixpoint vdot {n} : vec n -> vec n -> F :=
  match n with O => fun _ _ => r0 | S m => fun x y => fst x * fst y + vdot (snd x) (snd y) end.
End Vec.
Arguments vzero {_}. Arguments vadd {_ _}. Arguments vsub {_ _}. Arguments vscale {_ _}. Arguments vdot {_ _}.

(** How the loop ended; the code does not return this. *)
Inductive cg_end := end_small_dq | end_converged | end_runaway | end_max_iter.
Record cg_state (F : ofield) (n : nat) := mkCg { cg_x : vec F n; cg_r : vec F n; cg_d : vec F n; cg_delta : F }.
Arguments mkCg {_ _}. Arguments cg_x {_ _}. Arguments cg_r {_ _}. Arguments cg_d {_ _}. Arguments cg_delta {_ _}.

Section Cg.
Variable F : ofield.
Local Open Scope ring_scope'.
Variable n : nat.
(** deflate works in place; it is the function from the argument to its new contents. *)
Variables (deflate operator : vec F n -> vec F n) (rhs : vec F n).
(** solvers.py:40 eps, solvers.py:72 the bound against runaway *)
Variables (eps huge : F).

(** solvers.py:43-50 *)
Definition cg_init (x0 : vec F n) : cg_state F n :=
  let x := deflate x0 in
  let r := deflate (vsub rhs (operator x)) in
  mkCg x r r (vdot r r).
(** solvers.py:53-78, one pass of the loop: stop with a state, or go on.  [delta_0] is not zero when it is divided by,
    because dq is then not small.  With dot(x0,x0) = 0 the code compares nan with 1e30, which is False. *)
Definition cg_step (x0 : vec F n) (delta_0 : F) (i : nat) (s : cg_state F n) : cg_state F n * option cg_end :=
  let d := deflate (cg_d s) in
  let q := deflate (operator d) in
  let dq := vdot d q in
  if fltb (fabs dq) eps then (s, Some end_small_dq) else
  let alpha := fdiv (cg_delta s) dq in
  let x := deflate (vadd (cg_x s) (vscale alpha d)) in
  let r := deflate (if Nat.eqb (i mod 50) 49 then vsub rhs (operator x) else vsub (cg_r s) (vscale alpha q)) in
  if fltb (fdiv (cg_delta s) delta_0) eps then (mkCg x r d (cg_delta s), Some end_converged) else
  if pos (vdot x0 x0) && fltb huge (fdiv (vdot x0 x) (vdot x0 x0)) then (mkCg x r d (cg_delta s), Some end_runaway) else
  let delta_new := vdot r r in
  let beta := fdiv delta_new (cg_delta s) in
  (mkCg x r (vadd r (vscale beta d)) delta_new, None).
Fixpoint cg_loop (x0 : vec F n) (delta_0 : F) (todo i : nat) (s : cg_state F n) : cg_state F n * cg_end :=
  match todo with
  | O => (s, end_max_iter)
  | S todo => match cg_step x0 delta_0 i s with (s', Some e) => (s', e) | (s', None) => cg_loop x0 delta_0 todo (S i) s' end
  end.
(** solvers.py:6-79; the code returns the x component only, and max_iter is 3000. *)
Definition solve_cg (max_iter : nat) (x0 : option (vec F n)) : cg_state F n * cg_end :=
  let x0 := match x0 with Some x => x | None => vzero n end in
  let s := cg_init x0 in
  cg_loop x0 (cg_delta s) max_iter 0 s.
End Cg.
