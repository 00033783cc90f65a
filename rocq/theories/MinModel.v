(** Model of pycomplex/solvers.py 82-267 (solve_minres).  Numbers are elements of an ordered field with square roots in place of
    floats; eps, the machine precision of the type of x0, is a positive number.  A vector is a column. *)
From mathcomp Require Import all_ssreflect all_algebra.
Import Order.TTheory GRing.Theory Num.Theory.
Local Open Scope ring_scope.

Section Minres.
Variable K : rcfType.
Variable n : nat.

(** np.inner *)
Definition inner (u v : 'cV[K]_n) : K := \sum_i u i 0 * v i 0.

(** What a call can end in.  [Nan]: the array returned has nan in all its places. *)
Inductive outcome := AttributeError | ValueError | Nan | Value of 'cV[K]_n.
(** The type of x0, as far as it matters: a float type with its precision, or an integer type. *)
Inductive dtype := Float of K | Integer.

(** istop: 0, -1, 1, 2, 3, 4, 6 *)
Inductive reason := Going | Early | Small_r | Small_Ar | Small_beta | Ill | Maxiter.
(** The variables of the loop.  Those that are written but never read (qrnorm, diag, epsr, Arnorm, rnorm, info) are left out. *)
Record state := State {
  itn : nat; istop : reason; x : 'cV[K]_n; y : 'cV[K]_n; r1 : 'cV[K]_n; r2 : 'cV[K]_n; w : 'cV[K]_n; w2 : 'cV[K]_n;
  oldb : K; beta : K; dbar : K; epsln : K; phibar : K; rhs1 : K; rhs2 : K; tnorm2 : K; ynorm2 : K; cs : K; sn : K; gmax : K; gmin : K }.

Variables (A : 'M[K]_n) (b : 'cV[K]_n) (shift tol eps : K) (maxiter : nat).

(** solvers.py:104-138.  gmax and gmin are set in the first pass. *)
Definition start : state :=
  let beta1 := Num.sqrt (inner b b) in
  State 0 Going 0 b b b 0 0 0 beta1 0 0 beta1 beta1 0 0 0 (-1) 0 0 0.

(** solvers.py:142-257: one pass of the loop, for beta <> 0.  solvers.py:160-161 (beta < 0) does not happen: beta is a sum of squares. *)
Definition pass (st : state) : state :=
  let itn' := (itn st).+1 in
  let s := 1 / beta st in
  let v := s *: y st in
  let y1 := A *m v in
  let y2 := y1 - shift *: v in
  let y3 := if (2 <= itn')%N then y2 - (beta st / oldb st) *: r1 st else y2 in
  let alfa := inner v y3 in
  let y4 := y3 - (alfa / beta st) *: r2 st in
  let r1' := r2 st in
  let r2' := y4 in
  let oldb' := beta st in
  let beta' := Num.sqrt (inner r2' r2') in
  let tnorm2' := tnorm2 st + (alfa ^+ 2 + oldb' ^+ 2 + beta' ^+ 2) in
  let early := (itn' == 1)%N && (beta' / oldb' <= 10%:R * eps) in
  let gmax1 := if (itn' == 1)%N then `|alfa| else gmax st in
  let gmin1 := if (itn' == 1)%N then `|alfa| else gmin st in
  let oldeps := epsln st in
  let delta := cs st * dbar st + sn st * alfa in
  let gbar := sn st * dbar st - cs st * alfa in
  let epsln' := sn st * beta' in
  let dbar' := - cs st * beta' in
  let root := Num.sqrt (gbar ^+ 2 + dbar' ^+ 2) in
  let gamma := Num.max (Num.sqrt (gbar ^+ 2 + beta' ^+ 2)) eps in
  let cs' := gbar / gamma in
  let sn' := beta' / gamma in
  let phi := cs' * phibar st in
  let phibar' := sn' * phibar st in
  let denom := 1 / gamma in
  let w1 := w2 st in
  let w2' := w st in
  let w' := denom *: (v - oldeps *: w1 - delta *: w2') in
  let x' := x st + phi *: w' in
  let gmax' := Num.max gmax1 gamma in
  let gmin' := Num.min gmin1 gamma in
  let z := rhs1 st / gamma in
  let ynorm2' := z ^+ 2 + ynorm2 st in
  let rhs1' := rhs2 st - delta * z in
  let rhs2' := - epsln' * z in
  let Anorm := Num.sqrt tnorm2' in
  let ynorm := Num.sqrt ynorm2' in
  let epsx := Anorm * ynorm * eps in
  let test1 := phibar' / (Anorm * ynorm) in
  let test2 := root / Anorm in
  (* gmax / gmin is infinite for gmin = 0 *)
  let ill := (gmin' == 0) || (1 / 10%:R / eps <= gmax' / gmin') in
  let i0 := if early then Early else istop st in
  let stop := match i0 with
    | Going =>
      let i1 := if 1 + test2 <= 1 then Small_Ar else i0 in
      let i2 := if 1 + test1 <= 1 then Small_r else i1 in
      let i3 := if (maxiter <= itn')%N then Maxiter else i2 in
      let i4 := if ill then Ill else i3 in
      let i5 := if beta' <= epsx then Small_beta else i4 in
      let i6 := if test2 <= tol then Small_Ar else i5 in
      if test1 <= tol then Small_r else i6
    | _ => i0
    end in
  State itn' stop x' r2' r1' r2' w' w2' oldb' beta' dbar' epsln' phibar' rhs1' rhs2' tnorm2' ynorm2' cs' sn' gmax' gmin'.
(** solvers.py:141, 259-267: the loop.  1.0 / beta for beta = 0 makes y, alfa, beta and x nan; no test is true for nan, so the loop runs
    through and returns nan. *)
Fixpoint loop (fuel : nat) (st : state) : outcome :=
  match fuel with
  | 0%N => Value (x st)
  | S f =>
    if beta st == 0 then Nan else
    let st' := pass st in
    match istop st' with Going => loop f st' | _ => Value (x st') end
  end.
End Minres.

(** solvers.py:82-102: without x0 there is no x0.dtype; np.finfo takes float types only.  x0 is not used for anything else. *)
Definition solve_minres (K : rcfType) (n : nat) (A : 'M[K]_n) (b : 'cV[K]_n) (x0 : option (dtype K)) (maxiter : option nat) (shift tol : K) : outcome K n :=
  let m := match maxiter with None => (5 * n)%N | Some m => m end in
  match x0 with
  | None => AttributeError K n
  | Some (Integer) => ValueError K n
  | Some (Float eps) => loop K n A shift tol eps m m (start K n b)
  end.
