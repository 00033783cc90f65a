(** C97: minres. *)
From mathcomp Require Import all_ssreflect all_algebra.
From Verif Require Import MinModel MinSpec MinProofs.
Import Order.TTheory GRing.Theory Num.Theory.
Local Open Scope ring_scope.

(** For a symmetric matrix that is not singular with respect to the precision, and a right hand side that is not zero: the vector returned lies in a
    Krylov space of at most n dimensions, and no vector of that space has a smaller residual; if it took n passes, it solves the system. *)
Theorem C97_minimal_partial : forall (K : rcfType) n (A : 'M[K]_n) (b : 'cV[K]_n) (maxiter : option nat) (shift tol eps : K),
  let B := A - shift%:M in
  (forall i j, A i j = A j i) -> 0 < eps -> (forall u, eps ^+ 2 * sqnorm K n u <= sqnorm K n (B *m u)) -> b <> 0 -> maxiter <> Some 0%N ->
  exists k x, solve_minres K n A b (Some (Float K eps)) maxiter shift tol = Value K n x /\
    (0 < k <= n)%N /\ (forall m, maxiter = Some m -> (k <= m)%N) /\ krylov K n B b k x /\
    (forall z, krylov K n B b k z -> sqnorm K n (b - B *m x) <= sqnorm K n (b - B *m z)) /\ (k = n -> B *m x = b).
Proof.
  move=> K n A b maxiter shift tol eps B As Pe Wc Nb Nm.
  have Wc' : forall u, eps ^+ 2 * inner K n u u <= inner K n (MinProofs.B K n A shift *m u) (MinProofs.B K n A shift *m u) by move=> u; rewrite -!sqnormE; exact: Wc.
  have n0 : (0 < n)%N. { case: (n) b Nb => // b' N. case: N. apply/matrixP => i. by case: i. }
  set m := match maxiter with None => (5 * n)%N | Some m => m end. have m0 : (0 < m)%N. { rewrite /m. case: maxiter Nm {m} => [[|m]|] // _. by rewrite muln_gt0. }
  pose s := st K n A b shift tol eps m. have I0 := inv0 K n A b shift tol eps m.
  have N0 : beta K n (s 0%N) != 0. { apply/eqP => Z. apply: Nb. have := I_r2 _ _ _ _ _ _ _ _ _ I0. rewrite -/s Z scale0r. by []. }
  have [l [/andP [L1 L2] [Il [Ik [Bl El]]]]] := loop_inv K n A b shift tol eps m As Pe Wc' m 0%N I0 N0 m0.
  case: l L1 L2 Il Ik Bl El => // k _ L2 Il Ik Bl El. exists k.+1, (x K n (s k.+1)).
  split; [exact: El|]. split; [exact: (passes K n A b shift tol eps m k Il Bl)|]. split. { move=> m' E. move: L2. by rewrite /m E. }
  split; [exact: (span_krylov K n A b shift tol eps m k.+1 _ Il (I_x _ _ _ _ _ _ _ _ _ Il))|]. split.
  - move=> z Hz. rewrite !sqnormE. exact: (minimal K n A b shift tol eps m k.+1 z Il Hz).
  - move=> En. apply/esym/eqP. rewrite -subr_eq0. apply/eqP. exact: (exact_end K n A b shift tol eps m k Il En Ik Bl).
Qed.

(** Without x0, as in solve_minres(A, b), there is no result; x0 itself is never used. *)
Theorem C97_default_refuted : forall (K : rcfType) n (A : 'M[K]_n) (b : 'cV[K]_n) maxiter shift tol, solve_minres K n A b None maxiter shift tol = AttributeError K n.
Proof. by []. Qed.
(** For the right hand side zero the result is nan. *)
Theorem C97_zero_refuted : forall (K : rcfType) n (A : 'M[K]_n) eps maxiter shift tol, (0 < n)%N -> maxiter <> Some 0%N ->
  solve_minres K n A 0 (Some (Float K eps)) maxiter shift tol = Nan K n.
Proof.
  move=> K n A eps maxiter shift tol n0 Nm. have E : beta K n (start K n 0) == 0. { rewrite /= /inner big1 ?sqrtr0 // => i _. by rewrite mxE mul0r. }
  rewrite /solve_minres. have [m ->] : exists m, (match maxiter with None => (5 * n)%N | Some m => m end) = m.+1.
  { case: maxiter Nm => [[|m]|] // _; [by exists m|]. exists (5 * n).-1. by rewrite prednK // muln_gt0. }
  by rewrite /loop E.
Qed.

(** gmin starts with the absolute value of the first alfa, which may be zero; the estimate of the condition is then infinite and the loop ends.  The
    matrix that exchanges two coordinates is as far from singular as can be, and the result is zero. *)
Definition exchange (K : rcfType) : 'M[K]_2 := \matrix_(i, j) (if i == j then 0 else 1).
Definition first2 (K : rcfType) : 'cV[K]_2 := \matrix_(i, j) (if i == ord0 then 1 else 0).
Definition second2 (K : rcfType) : 'cV[K]_2 := \matrix_(i, j) (if i == ord0 then 0 else 1).
Lemma exchange_first : forall K, exchange K *m first2 K = second2 K.
Proof. move=> K. apply/matrixP => i j. rewrite !mxE !big_ord_recl big_ord0 !mxE /=. case: i => [[|[|i]] L] //=; by rewrite ?mul0r ?mulr0 ?mul1r ?addr0 ?add0r. Qed.
Lemma exchange_second : forall K, exchange K *m second2 K = first2 K.
Proof. move=> K. apply/matrixP => i j. rewrite !mxE !big_ord_recl big_ord0 !mxE /=. case: i => [[|[|i]] L] //=; by rewrite ?mul0r ?mulr0 ?mul1r ?addr0 ?add0r. Qed.
Lemma alfa0 : forall (K : rcfType) n (A : 'M[K]_n) b shift tol eps m, inner K n b b = 1 -> inner K n b (A *m b - shift *: b) = 0 ->
  x K n (pass K n A shift tol eps m (start K n b)) = 0 /\ istop K n (pass K n A shift tol eps m (start K n b)) <> Going.
Proof.
  move=> K n A b shift tol eps m Hb Ha. rewrite /pass. cbn [x istop itn y beta oldb r1 r2 cs sn dbar epsln phibar w w2 gmax gmin start]. rewrite Hb sqrtr1 divr1 scale1r.
  rewrite ltnn eqxx Ha !mulr0 mul0r subr0 !mul0r scale0r addr0. split => //.
  rewrite normr0. have -> : forall t : K, Num.min 0 (Num.max (Num.sqrt t) eps) = 0. { move=> t. apply/min_idPl. by rewrite le_maxr sqrtr_ge0. }
  rewrite eqxx /=. case: (_ <= 10%:R * eps) => //. case: (_ <= tol) => //. case: (_ <= tol) => //. by case: (_ <= _).
Qed.
Theorem C97_solves_refuted : forall (K : rcfType) tol eps maxiter, maxiter <> Some 0%N ->
  solve_minres K 2 (exchange K) (first2 K) (Some (Float K eps)) maxiter 0 tol = Value K 2 0 /\
  (forall i j, exchange K i j = exchange K j i) /\ (forall u, sqnorm K 2 (exchange K *m u) = sqnorm K 2 u) /\ exchange K *m second2 K = first2 K /\ exchange K *m 0 <> first2 K.
Proof.
  move=> K tol eps maxiter Nm. split; [|split; [|split; [|split]]].
  - rewrite /solve_minres. have [m ->] : exists m, (match maxiter with None => (5 * 2)%N | Some m => m end) = m.+1. { case: maxiter Nm => [[|m]|] // _; [by exists m|by exists 9%N]. }
    have Hb : inner K 2 (first2 K) (first2 K) = 1. { rewrite /inner !big_ord_recl big_ord0 !mxE /=. by rewrite mulr1 mul0r !addr0. }
    have [E S] : x K 2 (pass K 2 (exchange K) 0 tol eps m.+1 (start K 2 (first2 K))) = 0 /\ istop K 2 (pass K 2 (exchange K) 0 tol eps m.+1 (start K 2 (first2 K))) <> Going.
    { apply: alfa0 => //. rewrite exchange_first scale0r subr0 /inner !big_ord_recl big_ord0 !mxE /=. by rewrite mulr0 mul0r !addr0. }
    have B0 : (beta K 2 (start K 2 (first2 K)) == 0) = false. { cbn [beta start]. by rewrite Hb sqrtr1 oner_eq0. }
    rewrite [LHS]/loop -/(loop K 2 (exchange K) 0 tol eps m.+1) B0. rewrite -E. by move: S; case: (istop _ _ _).
  - move=> i j. rewrite !mxE. by rewrite eq_sym.
  - move=> u. rewrite /sqnorm !big_ord_recl !big_ord0 !mxE !big_ord_recl !big_ord0 !mxE /=. by rewrite !mul0r !mul1r !addr0 !add0r addrC.
  - exact: exchange_second.
  - rewrite mulmx0 => /matrixP /(_ ord0 ord0) /eqP. by rewrite !mxE /= eq_sym oner_eq0.
Qed.

(** The hypotheses of C97_minimal_partial: the same matrix, another right hand side. *)
Example ex_minimal : forall K : rcfType, let b : 'cV[K]_2 := const_mx 1 in exists k x, solve_minres K 2 (exchange K) b (Some (Float K 1)) None 0 0 = Value K 2 x /\
  (0 < k <= 2)%N /\ krylov K 2 (exchange K - 0%:M) b k x /\
  (forall z, krylov K 2 (exchange K - 0%:M) b k z -> sqnorm K 2 (b - (exchange K - 0%:M) *m x) <= sqnorm K 2 (b - (exchange K - 0%:M) *m z)).
Proof.
  move=> K b. have H1 : forall i j, exchange K i j = exchange K j i by move=> i j; rewrite !mxE eq_sym.
  have H2 : forall u, 1 ^+ 2 * sqnorm K 2 u <= sqnorm K 2 ((exchange K - 0%:M) *m u).
  { move=> u. rewrite raddf0 subr0 expr1n mul1r. have N : (None : option nat) <> Some 0%N by []. by have [_ [_ [-> _]]] := C97_solves_refuted K 0 1 None N. }
  have H3 : b <> 0. { move/matrixP => /(_ ord0 ord0) /eqP. by rewrite !mxE oner_eq0. }
  have H4 : (None : option nat) <> Some 0%N by [].
  have [k [x [E [L [_ [S [M _]]]]]]] := C97_minimal_partial K 2 (exchange K) b None 0 0 1 H1 ltr01 H2 H3 H4. by exists k, x.
Qed.

Print Assumptions C97_minimal_partial.
Print Assumptions C97_default_refuted.
Print Assumptions C97_zero_refuted.
Print Assumptions C97_solves_refuted.
