(** C75: volumes of simplices. *)
From mathcomp Require Import all_ssreflect all_fingroup all_algebra.
From Coq Require Import Ring Field.
From Verif Require Import GeoModel GeoSpec GeoProofs GeoRing.
From Verif Require Util.
Import GRing.Theory Num.Theory.
Local Open Scope ring_scope.

Section C75.
Variable K : rcfType.
Notation unsigned := (unsigned_volume K).
Notation signed := (signed_volume K).

(** A point has volume one. *)
Theorem C75_point : forall n (pts : 'M[K]_(1, n)), unsigned 0 n pts = Util.Ok 1.
Proof. by []. Qed.

(** The volume is defined exactly for simplices that fit into the space. *)
Theorem C75_defined : forall m n (pts : 'M[K]_(m.+1, n)),
  ((m <= n)%N -> exists v, 0 <= v /\ unsigned m n pts = Util.Ok v) /\ ((n < m)%N -> unsigned m n pts = Util.Err Util.ValueError) /\
  (m = n -> exists v, signed m n pts = Util.Ok v) /\ (m <> n -> signed m n pts = Util.Err Util.ValueError).
Proof.
  move=> m n pts. split; [|split; [|split]].
  - move=> L. rewrite /unsigned_volume ltnNge L /=. case: (m == 0)%N. { exists 1. split => //. exact: ler01. }
    eexists. split; [|reflexivity]. by rewrite divr_ge0 ?sqrtr_ge0 ?ler0n.
  - move=> L. by rewrite /unsigned_volume L.
  - move=> E. subst n. rewrite signed_square. by eexists.
  - exact: signed_other.
Qed.

(** Base times height: a corner at the foot of a perpendicular h over the plane of the others. *)
Theorem C75_height : forall m n (pts : 'M[K]_(m.+2, n)) (x : 'I_m.+1 -> K) (h : 'I_n -> K),
  let base := row' (lift ord0 ord0) pts in
  (m < n)%N -> \sum_i x i = 1 ->
  (forall i k, dotp K n h (fun j => base i j - base k j) = 0) ->
  (forall j, pts (lift ord0 ord0) j = \sum_i x i * base i j + h j) ->
  exists v, unsigned m n base = Util.Ok v /\ unsigned m.+1 n pts = Util.Ok (v * len K n h / m.+1%:R).
Proof.
  move=> m n pts x h base L Sx Oh Ep. pose A := edges_from_first K m n base. pose hr : 'rV[K]_n := \row_j h j.
  pose c : 'rV[K]_m := \row_i x (lift ord0 i).
  have EB : edges_from_first K m.+1 n pts = col_mx (c *m A + hr) A.
  { apply/matrixP => i j. rewrite mxE [RHS]mxE. case: splitP => k E.
    - have -> : i = ord0 by apply: val_inj; rewrite /= E; case: k {E} => [[]].
      have B0 : base ord0 j = pts ord0 j by rewrite mxE; congr (pts _ _); apply: val_inj.
      rewrite [RHS]mxE Ep addrAC -B0 [hr _ _]mxE [(c *m A) _ _]mxE. congr (_ + _). rewrite -[base ord0 j]mul1r -Sx mulr_suml -sumrB big_ord_recl subrr add0r.
      apply: eq_bigr => i' _. by rewrite !mxE mulrBr.
    - rewrite !mxE. congr (pts _ _ - pts _ _); apply: val_inj => //=. by rewrite E. }
  exists (if m == 0%N then 1 else Num.sqrt `|\det (A *m A^T)| / (m`!)%:R). split. { rewrite /unsigned_volume ltnNge (ltnW L) /=. by case: (m == 0)%N. }
  have Oh' : hr *m A^T = 0.
  { apply/matrixP => i k. rewrite !mxE. rewrite -[RHS](Oh (lift ord0 k) ord0). apply: eq_bigr => j _. by rewrite !mxE. }
  have G := gram_height K m n A c hr Oh'. cbv zeta in G. rewrite -EB in G. rewrite /unsigned_volume ltnNge L /= G.
  have -> : (hr *m hr^T) 0 0 = dotp K n h h. { rewrite mxE. apply: eq_bigr => j _. by rewrite !mxE. }
  have P : 0 <= dotp K n h h by apply: sumr_ge0 => j _; rewrite -expr2 sqr_ge0.
  congr Util.Ok. rewrite normrM (ger0_norm P) sqrtrM // /len factS natrM invfM.
  case: (eqVneq m 0%N) => [Z|Z].
  - rewrite mul1r. subst m. rewrite det_mx00 normr1 sqrtr1 mulr1 fact0 invr1 mulr1. by [].
  - rewrite [Num.sqrt _ * Num.sqrt _]mulrC -!mulrA. congr (_ * _). rewrite [RHS]mulrCA. congr (_ * _). by rewrite mulrC.
Qed.

(** The volume depends on nothing but the distances between the corners. *)
Theorem C75_distances : forall m n n' (pts : 'M[K]_(m.+1, n)) (pts' : 'M[K]_(m.+1, n')),
  (m <= n)%N -> (m <= n')%N -> (forall i k, sqdist K m.+1 n pts i k = sqdist K m.+1 n' pts' i k) ->
  unsigned m n pts = unsigned m n' pts'.
Proof.
  move=> m n n' pts pts' L L' E. rewrite /unsigned_volume !ltnNge L L' /=. case: (m == 0)%N => //.
  suff -> : edges_from_first K m n pts *m (edges_from_first K m n pts)^T = edges_from_first K m n' pts' *m (edges_from_first K m n' pts')^T by [].
  have P : forall n0 (q : 'M[K]_(m.+1, n0)) (a b : 'I_m), (edges_from_first K m n0 q *m (edges_from_first K m n0 q)^T) a b *+ 2 =
    sqdist K m.+1 n0 q (lift ord0 a) ord0 + sqdist K m.+1 n0 q (lift ord0 b) ord0 - sqdist K m.+1 n0 q (lift ord0 a) (lift ord0 b).
  { move=> n0 q a b. rewrite mxE /sqdist -sumrMnl -big_split -sumrB /=. apply: eq_bigr => j _. rewrite !mxE.
    set u := q _ j. set w := q _ j. set v := q _ j. have -> : u - v = (u - w) - (v - w) by rewrite opprB addrA subrK. by rewrite [X in _ = _ - X]sqrrB [X in _ = _ - X]addrAC subKr. }
  apply/matrixP => a b. apply: (@mulIf _ 2%:R). { by rewrite pnatr_eq0. } by rewrite !mulr_natr !P !E.
Qed.

(** It vanishes exactly when the corners are dependent. *)
Theorem C75_degenerate : forall m n (pts : 'M[K]_(m.+1, n)), (0 < m <= n)%N -> unsigned m n pts = Util.Ok 0 <-> dependent K m.+1 n pts.
Proof.
  move=> m n pts /andP [L0 L]. rewrite /unsigned_volume ltnNge L /=. have -> : (m == 0)%N = false by apply: negbTE; rewrite -lt0n.
  set A := edges_from_first K m n pts. split.
  - case=> /eqP. rewrite mulf_eq0 invr_eq0 (negbTE (fact_neq0 K m)) orbF sqrtr_eq0 normr_le0 => /eqP /gram_singular [v Nv E].
    exists (fun i => (v *m diff K m) 0 i). split; [|split].
    + suff /existsP [i Hi] : [exists i, (v *m diff K m) 0 i != 0] by exists i; apply/eqP.
      rewrite -negb_forall. apply/negP => /forallP Z. case/negP: Nv.
      have Z' : v *m diff K m = 0. { apply/rowP => i. rewrite [RHS]mxE. apply/eqP. exact: Z. }
      by rewrite -[v]mulmx1 -(diff_sect K m) mulmxA Z' mul0mx.
    + have := diff_ones K m. move/(congr1 (fun M => (v *m M) 0 0)). rewrite mulmxA mulmx0 mxE [RHS]mxE => D. rewrite -[RHS]D. apply: eq_bigr => i _. by rewrite [const_mx _ _ _]mxE mulr1.
    + move=> j. have := congr1 (fun M : 'rV_n => M 0 j) E. rewrite /A edges_diff mulmxA mxE [RHS]mxE. by [].
  - case=> c [[i0 Nc] [Sc Ec]]. congr Util.Ok. apply/eqP. rewrite mulf_eq0 sqrtr_eq0 normr_le0. apply/orP; left. apply/eqP/gram_singular.
    exists (\row_i c (lift ord0 i)).
    + apply/negP => /eqP Z. have Zl : forall i, c (lift ord0 i) = 0. { move=> i. have := congr1 (fun M : 'rV_m => M 0 i) Z. by rewrite !mxE. }
      apply: Nc. case: (unliftP ord0 i0) => [k ->|->] //. move: Sc. rewrite big_ord_recl big1 ?addr0 //.
    + apply/rowP => j. rewrite !mxE. have := Ec j. rewrite big_ord_recl => Ej. move: Sc. rewrite big_ord_recl => Sc.
      rewrite (eq_bigr (fun i => c (lift ord0 i) * pts (lift ord0 i) j - c (lift ord0 i) * pts ord0 j)). 2:{ move=> i _. by rewrite !mxE mulrBr. }
      rewrite sumrB -mulr_suml. have -> : \sum_i c (lift ord0 i) = - c ord0. { apply/eqP. by rewrite -addr_eq0 addrC Sc. }
      by rewrite mulNr opprK addrC.
Qed.

(** The signed volume is the unsigned one up to sign. *)
Theorem C75_signed_unsigned : forall n (pts : 'M[K]_(n.+1, n)) v, signed n n pts = Util.Ok v -> unsigned n n pts = Util.Ok `|v|.
Proof.
  move=> n pts v. rewrite signed_square. case=> <-. rewrite /unsigned_volume ltnn. case: (eqVneq n 0%N) => [Z|Z].
  - subst n. by rewrite det_mx00 fact0 divr1 normr1.
  - congr Util.Ok. rewrite det_mulmx det_tr -expr2 (ger0_norm (sqr_ge0 _)) sqrtr_sqr normrM normfV. congr (_ / _). by rewrite ger0_norm // ler0n.
Qed.

(** Reordering the corners keeps the volume and changes the sign by the sign of the permutation. *)
Theorem C75_reorder : forall m n (s : 'S_m.+1) (pts : 'M[K]_(m.+1, n)),
  unsigned m n (row_perm s pts) = unsigned m n pts /\
  forall v, signed m n pts = Util.Ok v -> signed m n (row_perm s pts) = Util.Ok ((-1) ^+ s * v).
Proof.
  move=> m n s pts. split.
  - rewrite /unsigned_volume. case: ltnP => // L. case: (m == 0)%N => //. rewrite reorder_edges trmx_mul !mulmxA -[_ *m _ *m (edges_from_first K m n pts)^T]mulmxA.
    rewrite !det_mulmx det_tr det_reorder mulrAC -expr2 -exprM muln2 -mul2n exprM sqrrN expr1n expr1n mul1r. by [].
  - move=> v. case: (eqVneq m n) => [E|/eqP N]. 2:{ by rewrite signed_other. }
    subst n. rewrite !signed_square => [[<-]]. by rewrite reorder_edges det_mulmx det_reorder mulrA.
Qed.

(** A translation changes neither; a linear map multiplies the signed volume by its determinant. *)
Theorem C75_translate : forall m n (pts : 'M[K]_(m.+1, n)) (t : 'rV[K]_n),
  let moved := \matrix_(i, j) (pts i j + t 0 j) in unsigned m n moved = unsigned m n pts /\ signed m n moved = signed m n pts.
Proof.
  move=> m n pts t moved. have E : edges_from_first K m n moved = edges_from_first K m n pts. { apply/matrixP => i j. rewrite !mxE opprD addrACA subrr addr0. by []. }
  by rewrite /unsigned_volume /signed_volume E.
Qed.
Theorem C75_linear : forall n (pts : 'M[K]_(n.+1, n)) (T : 'M[K]_n) v,
  signed n n pts = Util.Ok v -> signed n n (pts *m T) = Util.Ok (v * \det T).
Proof.
  move=> n pts T v. rewrite !signed_square => [[<-]]. rewrite edges_diff mulmxA -edges_diff det_mulmx. by rewrite mulrAC.
Qed.

(** The simplices from a point to the faces add up to the simplex, wherever the point is. *)
Theorem C75_parts : forall n (pts : 'M[K]_(n.+1, n)) (p : 'rV[K]_n),
  exists v (w : 'I_n.+1 -> K), signed n n pts = Util.Ok v /\ (forall i, signed n n (swap_in K n.+1 n pts i p) = Util.Ok (w i)) /\ \sum_i w i = v.
Proof.
  move=> n pts p. exists (\det (edges_from_first K n n pts) / (n`!)%:R), (fun i => \det (edges_from_first K n n (swap_in K n.+1 n pts i p)) / (n`!)%:R).
  split; [|split].
  - exact: signed_square.
  - move=> i. exact: signed_square.
  - rewrite -mulr_suml. congr (_ / _). exact: (split_volumes K n pts p).
Qed.

(** A triangle with base 4 and height 2 in the plane, and three points on a line. *)
Definition rows_mx (m n : nat) (rows : seq (seq nat)) : 'M[K]_(m, n) := \matrix_(i, j) (nth 0%N (nth [::] rows i) j)%:R.
Add Field Kf : (K_field K).
Ltac kring := kprep K; ring.
Ltac kfield := kprep K; field.

Example C75_height_example :
  let pts := rows_mx 3 2 [:: [:: 0; 0]; [:: 1; 2]; [:: 4; 0]]%N in
  let base := row' (lift ord0 ord0) pts in
  let x := fun i : 'I_2 => nth 0 [:: 3%:R / 4%:R; 1 / 4%:R] i in let h := fun j : 'I_2 => nth 0 [:: 0; 2%:R] j in
  \sum_i x i = 1 /\ (forall i k, dotp K 2 h (fun j => base i j - base k j) = 0) /\
  (forall j, pts (lift ord0 ord0) j = \sum_i x i * base i j + h j) /\ len K 2 h = 2%:R /\ unsigned 2 2 pts = Util.Ok 4%:R.
Proof.
  have N4 : (4%:R : K) <> 0 by apply/eqP; rewrite pnatr_eq0.
  move=> pts base x h. split; [|split; [|split; [|split]]].
  - rewrite !big_ord_recl big_ord0 /x /= addr0 -mulrDl -(natrD _ 3 1). apply: divff. exact/eqP.
  - move=> i k. rewrite /dotp !big_ord_recl big_ord0 !mxE /=. case: i => [[|[|i]] Li] //; case: k => [[|[|k]] Lk] //=; rewrite /h /=; kring.
  - move=> j. rewrite !big_ord_recl big_ord0 !mxE /=. case: j => [[|[|j]] Lj] //=; rewrite /x /h /=.
    + rewrite mulr0 add0r addr0 addr0 mul1r mulVf //. exact/eqP.
    + by rewrite !mulr0 !add0r.
  - rewrite /len /dotp !big_ord_recl big_ord0 /h /= mulr0 add0r addr0 -expr2 sqrtr_sqr ger0_norm //. exact: ler0n.
  - have : signed 2 2 pts = Util.Ok (- 4%:R).
    + rewrite signed_square. congr Util.Ok. rewrite (expand_det_row _ ord0) !big_ord_recl big_ord0 /cofactor !det_mx11 !mxE /=.
      have N2 : (2%:R : K) <> 0 by apply/eqP; rewrite pnatr_eq0.
      apply: (@mulIf _ 2%:R). { exact/eqP. } rewrite -mulrA mulVf; [|exact/eqP]. kring.
    + move/C75_signed_unsigned => ->. by rewrite normrN ger0_norm // ler0n.
Qed.
Example C75_degenerate_example : let pts := rows_mx 3 2 [:: [:: 0; 1]; [:: 1; 2]; [:: 2; 3]]%N in
  dependent K 3 2 pts /\ unsigned 2 2 pts = Util.Ok 0.
Proof.
  move=> pts. have D : dependent K 3 2 pts.
  { exists (fun i : 'I_3 => nth 0 [:: 1; - 2%:R; 1] i). split; [|split].
    - exists ord0 => /=. apply/eqP. exact: oner_neq0.
    - rewrite !big_ord_recl big_ord0 /=. kring.
    - move=> j. rewrite !big_ord_recl big_ord0 !mxE /=. case: j => [[|[|j]] Lj] //=; kring. }
  split => //. exact/C75_degenerate.
Qed.
(** The same triangle in space has the same area; the hypothesis on distances holds for different coordinates. *)
Example C75_distances_example :
  let pts := rows_mx 3 2 [:: [:: 0; 0]; [:: 1; 2]; [:: 4; 0]]%N in
  let pts' := rows_mx 3 3 [:: [:: 0; 1; 0]; [:: 2; 1; 1]; [:: 0; 1; 4]]%N in
  (forall i k, sqdist K 3 2 pts i k = sqdist K 3 3 pts' i k) /\ unsigned 2 3 pts' = Util.Ok 4%:R.
Proof.
  move=> pts pts'. have D : forall i k, sqdist K 3 2 pts i k = sqdist K 3 3 pts' i k.
  { move=> i k. rewrite /sqdist !big_ord_recl !big_ord0 !mxE /=. case: i => [[|[|[|i]]] Li] //; case: k => [[|[|[|k]]] Lk] //=; kring. }
  split => //. rewrite -(C75_distances 2 2 3 pts pts') //. by case: C75_height_example => _ [_ [_ [_ ->]]].
Qed.
(** Seen from a point outside, one part is negative: the parts -4, 4 and 4 add up to the area 4. *)
Example C75_parts_example :
  let pts := rows_mx 3 2 [:: [:: 0; 0]; [:: 4; 0]; [:: 0; 2]]%N in let p := rows_mx 1 2 [:: [:: 4; 2]]%N in
  signed 2 2 pts = Util.Ok 4%:R /\ signed 2 2 (swap_in K 3 2 pts ord0 p) = Util.Ok (- 4%:R) /\
  signed 2 2 (swap_in K 3 2 pts (lift ord0 ord0) p) = Util.Ok 4%:R /\ signed 2 2 (swap_in K 3 2 pts ord_max p) = Util.Ok 4%:R.
Proof.
  have N2 : (2%:R : K) != 0 by rewrite pnatr_eq0.
  move=> pts p. rewrite !signed_square /=. split; [|split; [|split]]; congr Util.Ok; rewrite (expand_det_row _ ord0) !big_ord_recl big_ord0 /cofactor !det_mx11 !mxE /=;
    apply: (@mulIf _ 2%:R) => //; rewrite -mulrA mulVf //; kring.
Qed.
End C75.

Print Assumptions C75_point.
Print Assumptions C75_defined.
Print Assumptions C75_height.
Print Assumptions C75_distances.
Print Assumptions C75_degenerate.
Print Assumptions C75_signed_unsigned.
Print Assumptions C75_reorder.
Print Assumptions C75_translate.
Print Assumptions C75_linear.
Print Assumptions C75_parts.
