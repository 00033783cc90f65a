(** The system for the weights of the dual vertices, and distances in one more dimension. *)
From mathcomp Require Import all_ssreflect all_algebra.
From Verif Require Import GeoRing MetSpec MetCot DelGeo TreeModel TreeSpec.
Import Order.TTheory GRing.Theory Num.Theory.
Local Open Scope nat_scope.
Local Open Scope ring_scope.

Section Linear.
Variable K : rcfType.
Lemma gram_zero : forall R N (T : 'M[K]_(R, N)) (y : 'cV[K]_N), T^T *m T *m y = 0 -> T *m y = 0.
Proof.
  move=> R N T y E. have Z : (T *m y)^T *m (T *m y) = 0 by rewrite trmx_mul -mulmxA (mulmxA T^T) E mulmx0. apply/trmx_inj. rewrite trmx0. apply: (dot_zero K).
  move/matrixP: Z => /(_ 0 0). rewrite [LHS]mxE [RHS]mxE => Z. rewrite -[RHS]Z. apply: eq_bigr => j _. by congr (_ * _); rewrite mxE.
Qed.
(** the weights differ by a solution of the homogeneous system from any vector with the right differences *)
Lemma solved : forall minres R N (T : 'M[K]_(R, N)) (q : 'cV[K]_R) (rad : 'cV[K]_N), minres_contract K minres -> T *m rad = q -> T *m const_mx 1 = 0 :> 'cV[K]_R ->
  let rhs := T^T *m q in T *m (minres N (T^T *m T) (rhs - const_mx ((\sum_j rhs j 0) / N%:R)) - rad) = 0.
Proof.
  move=> minres R N T q rad Mc E One rhs. have S0 : \sum_j rhs j 0 = 0. { have X : (const_mx 1 : 'cV[K]_N)^T *m rhs = 0 by rewrite /rhs mulmxA -trmx_mul One trmx0 mul0mx. move/matrixP: X => /(_ 0 0). rewrite [LHS]mxE [RHS]mxE => X. rewrite -[RHS]X. apply: eq_bigr => j _. have -> : (const_mx 1 : 'cV[K]_N)^T 0 j = 1 by rewrite !mxE. by rewrite mul1r. }
  rewrite S0 mul0r. have -> : const_mx 0 = 0 :> 'cV[K]_N by apply/matrixP => i j; rewrite !mxE. rewrite subr0. apply: gram_zero. rewrite mulmxBr. have Sy : (T^T *m T)^T = T^T *m T by rewrite trmx_mul trmxK. have [Q _] := Mc N (T^T *m T) rhs Sy. rewrite Q; [|by exists rad; rewrite -mulmxA E]. by rewrite -[X in _ - X]mulmxA E subrr.
Qed.
End Linear.

Section Extend0.
Variable K : rcfType.
Lemma distance_le : forall k (p q r : 'rV[K]_k), (distance K k p q <= distance K k p r) = (dot K k (p - q) (p - q) <= dot K k (p - r) (p - r)).
Proof. move=> k p q r. by rewrite -!distance_sqr ler_sqr ?nnegrE ?sqrtr_ge0. Qed.
End Extend0.
Section Extend.
Variable K : rcfType.
Variable d : nat.
Notation dot := (dot K).
Lemma extend_dot : forall (p q : 'rV[K]_d) x y, dot (d + 1)%N (extend K d p x - extend K d q y) (extend K d p x - extend K d q y) = dot d (p - q) (p - q) + (x - y) ^+ 2.
Proof.
  move=> p q x y. have -> : extend K d p x - extend K d q y = row_mx (p - q) (const_mx (x - y)). { rewrite /extend opp_row_mx add_row_mx. congr row_mx. by apply/matrixP => i j; rewrite !mxE. }
  rewrite /MetCot.dot big_split_ord /=. congr (_ + _); [by apply: eq_bigr => j _; rewrite row_mxEl|]. by rewrite big_ord_recl big_ord0 addr0 row_mxEr mxE expr2.
Qed.
Lemma largest_ge : forall (w : seq K) i, (i < size w)%N -> nth 0 w i <= largest K w.
Proof.
  move=> [|x r] // i. rewrite /largest. have Q : forall y, y \in x :: r -> y <= foldr Num.max x r.
  { move=> y. elim: r => [|z r IH]; [by rewrite inE => /eqP ->|]. rewrite !inE /= le_maxr => /or3P [/eqP E|/eqP E|E].
    - by rewrite IH ?orbT // E mem_head.
    - by rewrite E lexx.
    - by rewrite IH ?orbT // inE E orbT. }
  move=> L. apply: Q. exact: mem_nth.
Qed.
Lemma augment_nth : forall (pts : seq 'rV[K]_d) (w : seq K) i, size w = size pts -> (i < size pts)%N -> nth 0 (augment K d pts (Some w)) i = extend K d (nth 0 pts i) (Num.sqrt (- nth 0 w i + largest K w)).
Proof.
  move=> pts w i Sz L. rewrite /augment (nth_map (0, 0)); [|by rewrite size_zip size_map Sz minnn]. rewrite nth_zip; [|by rewrite size_map Sz]. by rewrite /= /weights_to_offsets (nth_map 0) // Sz.
Qed.
Lemma augment_size : forall (pts : seq 'rV[K]_d) (w : seq K), size w = size pts -> size (augment K d pts (Some w)) = size pts.
Proof. move=> pts w Sz. by rewrite size_map size_zip size_map Sz minnn. Qed.
(** the point closest in the extended space has the smallest squared distance less its weight *)
Lemma nearest_power : forall nearest (pts : seq 'rV[K]_d) (w : seq K) (p : 'rV[K]_d), nearest_contract K nearest -> size w = size pts -> (0 < size pts)%N ->
  let i := nearest (d + 1)%N (augment K d pts (Some w)) (extend K d p 0) in
  (i < size pts)%N /\ forall j, (j < size pts)%N -> dot d (p - nth 0 pts i) (p - nth 0 pts i) - nth 0 w i <= dot d (p - nth 0 pts j) (p - nth 0 pts j) - nth 0 w j.
Proof.
  move=> nearest pts w p Nc Sz P i. have [L M] := Nc (d + 1)%N (augment K d pts (Some w)) (extend K d p 0) (eq_ind_r (fun x => 0 < x)%N P (augment_size pts w Sz)). rewrite augment_size // in L M. split=> // j J. have := M j J. rewrite -/i in L *. rewrite !augment_nth // !distance_le.
  rewrite !extend_dot !sub0r !sqrrN !sqr_sqrtr; try by rewrite addrC subr_ge0 largest_ge // Sz. by rewrite !addrA ler_add2r.
Qed.
Lemma nearest_plain : forall nearest (pts : seq 'rV[K]_d) (p : 'rV[K]_d), nearest_contract K nearest -> (0 < size pts)%N ->
  let i := nearest d pts p in (i < size pts)%N /\ forall j, (j < size pts)%N -> dot d (p - nth 0 pts i) (p - nth 0 pts i) <= dot d (p - nth 0 pts j) (p - nth 0 pts j).
Proof. move=> nearest pts p Nc P i. have [L M] := Nc d pts p P. split=> // j J. have := M j J. by rewrite !distance_le. Qed.
End Extend.

(** both contracts can be met *)
Section Oracles.
Variable K : rcfType.
Definition scan (k : nat) (pts : seq 'rV[K]_k) (p : 'rV[K]_k) : nat :=
  foldr (fun i best => if distance K k p (nth 0 pts i) <= distance K k p (nth 0 pts best) then i else best) 0%N (iota 0 (size pts)).
Lemma scan_contract : nearest_contract K scan.
Proof.
  move=> k pts p P. rewrite /scan. set f := fun i best => _. have Q : forall l, (forall i, i \in l -> (i < size pts)%N) -> (foldr f 0%N l < size pts)%N /\ forall i, i \in l -> distance K k p (nth 0 pts (foldr f 0%N l)) <= distance K k p (nth 0 pts i).
  { elim=> [|x l IH] H; [by split|]. have [I1 I2] := IH (fun i M => H i (mem_behead (s := x :: l) M)). rewrite /= {1 3}/f. case: ifP => D.
    - split; [by apply: H; rewrite mem_head|]. move=> i. rewrite inE => /orP [/eqP ->|M]; [exact: lexx|]. exact: le_trans D (I2 i M).
    - split=> // i. rewrite inE => /orP [/eqP ->|M]; [|exact: I2]. by move/negbT: D; rewrite -ltNge => /ltW. }
  have I : forall i, i \in iota 0 (size pts) -> (i < size pts)%N by move=> i; rewrite mem_iota.
  have [Q1 Q2] := Q (iota 0 (size pts)) I. split=> // i L. apply: Q2. by rewrite mem_iota.
Qed.
Definition least (N : nat) (A : 'M[K]_N) (b : 'cV[K]_N) : 'cV[K]_N := (b^T *m pinvmx A^T)^T.
Lemma least_contract : minres_contract K least.
Proof.
  move=> N A b Sy. split=> [[x E]|->]; [|by rewrite /least trmx0 mul0mx trmx0]. apply/trmx_inj. rewrite /least trmx_mul trmxK. apply: mulmxKpV. rewrite -E trmx_mul. exact: submxMl.
Qed.
End Oracles.
