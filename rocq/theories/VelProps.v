(** C93: velocities from fluxes. *)
From mathcomp Require Import all_ssreflect all_fingroup all_algebra.
From Coq Require Import Ring Field.
From Verif Require Import GeoModel GeoSpec GeoProofs GeoProps GeoRing NormModel NormSpec NormProofs NormProps Svd VelModel VelSpec VelProofs.
From Verif Require Util.
Import Order.TTheory GRing.Theory Num.Theory.
Local Open Scope ring_scope.

Section C93.
Variable K : rcfType.
Variable svd : forall p n, 'M[K]_(p, n) -> 'M[K]_(p, n) * 'rV[K]_n * 'M[K]_n.

Lemma mapM_ok : forall (A B : Type) (f : A -> Util.result B) (a0 : A) (h : nat -> B) (l : seq A), (forall c, (c < size l)%N -> f (nth a0 l c) = Util.Ok (h c)) -> Util.mapM f l = Util.Ok [seq h c | c <- iota 0 (size l)].
Proof.
  move=> A B f a0 h l. elim: l h => [|a l IH] h H //=. have -> := H 0%N (ltn0Sn _). rewrite /= (IH (fun c => h c.+1)); [|by move=> c L; exact: (H c.+1)].
  rewrite /=. congr (Util.Ok (_ :: _)). by rewrite -[1%N]addn0 iotaDl -map_comp.
Qed.

(** ---- one simplex ---- *)
Section Cell.
Variables (m n : nat) (pts : 'M[K]_(m.+2, n)) (G : 'M[K]_(m.+2, n)) (W : K).
Hypothesis W0 : 0 < W.
Hypothesis CG : forall i, coordinate_gradient K m.+2 n pts i (fun j => G i j / W).

Definition edges : 'M[K]_(m.+1, n) := \matrix_(l, j) (pts (lift ord0 l) j - pts ord0 j).

Lemma plane_edges : forall g : 'I_n -> K, in_plane K m.+2 n pts g <-> exists c : 'rV[K]_m.+1, (\row_j g j) = c *m edges.
Proof.
  move=> g. split.
  - case=> c [S0 E]. exists (\row_l c (lift ord0 l)). apply/rowP => j. rewrite [LHS]mxE [RHS]mxE E big_ord_recl.
    rewrite [RHS](eq_bigr (fun l : 'I_m.+1 => c (lift ord0 l) * pts (lift ord0 l) j - c (lift ord0 l) * pts ord0 j)). 2:{ move=> l _. by rewrite !mxE mulrBr. }
    have {}S0 : c ord0 = - \sum_(l < m.+1) c (lift ord0 l). { apply/eqP. rewrite -addr_eq0. move/eqP: S0. rewrite [X in X == 0 -> _]big_ord_recl. by []. }
    by rewrite sumrB -mulr_suml S0 addrC mulNr.
  - case=> c E. exists (fun k => if unlift ord0 k is Some l then c 0 l else - \sum_l c 0 l). split.
    + rewrite big_ord_recl unlift_none [X in _ + X](eq_bigr (fun l => c 0 l)); [by rewrite addNr|]. move=> l _. by rewrite liftK.
    + move=> j. have := congr1 (fun M : 'rV[K]_n => M 0 j) E. rewrite mxE => ->. rewrite mxE [RHS]big_ord_recl unlift_none mulNr mulr_suml [RHS]addrC -sumrB. apply: eq_bigr => l _. by rewrite liftK !mxE mulrBr.
Qed.
Lemma grads_in : (G <= edges)%MS.
Proof.
  have H : forall i, exists c : 'rV[K]_m.+1, row i G = c *m edges.
  { move=> i. case: (CG i) => /plane_edges [c E] _. exists (W *: c). rewrite -scalemxAl -E. apply/rowP => j. rewrite !mxE mulrC divfK //. exact: lt0r_neq0. }
  apply/row_subP => i. case: (H i) => c ->. exact: submxMl.
Qed.
Lemma grads_rank : \rank G = m.+1.
Proof.
  apply/eqP. rewrite eqn_leq. apply/andP. split. { apply: leq_trans (mxrankS grads_in) _. exact: rank_leq_row. }
  pose L := \matrix_(a, k) (lift ord0 a == k)%:R : 'M[K]_(m.+1, m.+2).
  have E : L *m G *m edges^T = W%:M.
  { apply/matrixP => a b. rewrite mxE. have LG : forall j, (L *m G) a j = G (lift ord0 a) j.
    { move=> j. rewrite mxE (bigD1 (lift ord0 a)) //= !mxE eqxx mul1r big1 ?addr0 // => k N. by rewrite mxE eq_sym (negbTE N) mul0r. }
    have -> : \sum_j (L *m G) a j * edges^T j b = W * along K m.+2 n pts (fun j => G (lift ord0 a) j / W) ord0 (lift ord0 b).
    { rewrite /along /dotp mulr_sumr. apply: eq_bigr => j _. rewrite LG !mxE mulrA [W * _]mulrC divfK //. exact: lt0r_neq0. }
    case: (CG (lift ord0 a)) => _ [Pp St]. rewrite [RHS]mxE. case: (eqVneq a b) => [<-|N].
    - rewrite St ?mulr1 //. - rewrite Pp ?mulr0 //. move=> /lift_inj /eqP. by rewrite eq_sym (negbTE N). }
  have R : \rank (W%:M : 'M[K]_m.+1) = m.+1 by apply: mxrank_unit; rewrite unitmxE det_scalar unitrX // unitfE; exact: lt0r_neq0.
  rewrite -[X in (X <= _)%N]R -E. apply: leq_trans (mxrankM_maxl _ _) _. exact: mxrankM_maxr.
Qed.
Lemma plane_rows : forall g : 'I_n -> K, in_plane K m.+2 n pts g -> exists y, (\row_j g j) = y *m G.
Proof.
  move=> g /plane_edges [c E]. have S : (edges <= G)%MS. { rewrite -(mxrank_leqif_sup grads_in). have Q := mxrankS grads_in. rewrite eqn_leq Q /= grads_rank. exact: rank_leq_row. }
  apply/submxP. rewrite E. exact: submx_trans (submxMl _ _) S.
Qed.
(** the step across a face is a multiple of the gradient of the opposite corner *)
Lemma step_grad : forall i l e, 0 < l -> step_across K m.+2 n pts i l e -> forall v, len K n (G i) / l * dotp K n v e = dotp K n v (G i).
Proof.
  move=> i l e L0 [Pl [Pp [Al Ln]]] v. have [k Nk] : exists k : 'I_m.+2, k <> i. { case: (unliftP ord0 i) => [j ->|->]; [by exists ord0|by exists (lift ord0 ord0)]. }
  pose a := along K m.+2 n pts e k i. have A0 : 0 < a by exact: Al. have NA := lt0r_neq0 A0.
  have C : coordinate_gradient K m.+2 n pts i (fun j => e j / a).
  { have Ad : forall g s t u, along K m.+2 n pts g s u = along K m.+2 n pts g s t + along K m.+2 n pts g t u.
    { move=> g s t u. rewrite /along /dotp -big_split. apply: eq_bigr => j _. rewrite /= -mulrDr. congr (_ * _). by rewrite [RHS]addrC addrA subrK. }
    have Sc : forall s t, along K m.+2 n pts (fun j => e j / a) s t = along K m.+2 n pts e s t / a. { move=> s t. rewrite /along /dotp mulr_suml. apply: eq_bigr => j _. by rewrite mulrAC. }
    split; [|split].
    - case: Pl => c [S0 E]. exists (fun q => c q / a). split; [by rewrite -mulr_suml S0 mul0r|]. move=> j. rewrite E mulr_suml. apply: eq_bigr => q _. by rewrite mulrAC.
    - move=> s t Ns Nt. by rewrite Sc Pp // mul0r.
    - move=> s Ns. rewrite Sc (Ad e s k i) Pp // add0r. exact: mulfV. }
  have E : forall j, e j = a / W * G i j. { move=> j. have := C77_unique K m.+2 n pts i _ _ isT C (CG i) j. move/(congr1 (fun x => x * a)). rewrite divfK // => ->. by rewrite mulrAC [RHS]mulrAC [a * _]mulrC. }
  have T0 : 0 < a / W by rewrite divr_gt0.
  have Le : l = a / W * len K n (G i).
  { rewrite -Ln /len. have -> : dotp K n e e = (a / W) ^+ 2 * dotp K n (G i) (G i). { rewrite /dotp mulr_sumr. apply: eq_bigr => j _. by rewrite E expr2 mulrACA. }
    rewrite sqrtrM ?sqr_ge0 // sqrtr_sqr ger0_norm //. exact: ltW. }
  have -> : dotp K n v e = a / W * dotp K n v (G i). { rewrite /dotp mulr_sumr. apply: eq_bigr => j _. by rewrite E mulrCA. }
  rewrite mulrA [_ / l * _]mulrAC [len K n (G i) * _]mulrC -Le mulfV ?mul1r //. exact: lt0r_neq0.
Qed.
(** the inverse of the gradients recovers the part of a velocity in the plane *)
Lemma cell_velocity : svd_of K m.+2 n G (svd m.+2 n G) -> exists P, in_plane_inverse K svd m.+1 m.+2 n G = Some P /\
  forall v, let w := fun k => \sum_i P k i * dotp K n v (G i) in part_in_plane K m.+2 n pts v w /\ (n = m.+1 -> forall k, w k = v k).
Proof.
  move=> Sv. case: (inverse_spec K svd m.+2 n m.+1 G Sv grads_rank) => P [EP [[Z EZ] EG]]. exists P. split => // v w.
  have Ew : forall k, w k = ((P *m G) *m (\col_j v j)) k 0. { move=> k. rewrite -mulmxA [RHS]mxE. apply: eq_bigr => i _. congr (_ * _). rewrite mxE. apply: eq_bigr => j _. by rewrite mxE mulrC. }
  split; [split|].
  - apply/plane_edges. case/submxP: grads_in => D ED. exists ((Z *m (\col_j v j))^T *m D). rewrite -mulmxA -ED. apply/rowP => k. rewrite [LHS]mxE Ew EZ -mulmxA [LHS]mxE [RHS]mxE. apply: eq_bigr => i _. by rewrite [G^T k i]mxE [(_^T) 0 i]mxE mulrC.
  - move=> g /plane_rows [y Ey]. have X : forall x : 'cV[K]_n, dotp K n (fun j => x j 0) g = ((\row_j g j) *m x) 0 0. { move=> x. rewrite [RHS]mxE. apply: eq_bigr => j _. by rewrite mxE mulrC. }
    have -> : dotp K n v g = ((\row_j g j) *m (\col_j v j)) 0 0. { rewrite -X. apply: eq_bigr => j _. by rewrite mxE. }
    have -> : dotp K n w g = ((\row_j g j) *m (P *m G *m (\col_j v j))) 0 0. { rewrite -X. apply: eq_bigr => j _. by rewrite Ew. }
    rewrite Ey. have -> : y *m G *m (P *m G *m (\col_j v j)) = y *m (G *m (P *m G)) *m (\col_j v j) by rewrite !mulmxA. by rewrite EG.
  - move=> En k. have F : row_full G by rewrite /row_full grads_rank En. have I : P *m G = 1%:M. { rewrite -[P *m G]mul1mx -(mulVpmx F) -mulmxA EG. by []. }
    rewrite Ew I mul1mx. by rewrite mxE.
Qed.
End Cell.

(** the velocity found, if the scaled fluxes are the inner products of x with the gradients *)
Lemma simplicial_any : forall r m n (corners : seq 'M[K]_(m.+2, n.+1)) (B : seq (seq nat)) (O : seq (seq int)) PM DM total flux,
  (forall p q (A : 'M[K]_(p, q)), (q <= p)%N -> svd_of K p q A (svd p q A)) ->
  0 < r -> (m <= n)%N -> (n < m.+2)%N -> size B = size corners -> size O = size corners -> all (fun x => size x == m.+2) B -> all (fun x => size x == m.+2) O ->
  size DM = size PM -> (size PM <= size flux)%N -> (size corners <= total)%N ->
  (forall c, (c < size corners)%N -> ~ dependent K m.+2 n.+1 (nth 0 corners c) /\ regular K svd r m.+2 n (nth 0 corners c)) ->
  exists G : nat -> 'M[K]_(m.+2, n.+1),
  (forall c, (c < size corners)%N -> exists W, 0 < W /\ (forall i, coordinate_gradient K m.+2 n.+1 (nth 0 corners c) i (fun j => G c i j / W)) /\
     (forall i, unsigned_volume K m n.+1 (row' i (nth 0 corners c)) = Util.Ok (len K n.+1 (G c i))) /\ forall j, \sum_i G c i j = 0) /\
  forall x, (forall c (i : 'I_m.+2), (c < size corners)%N -> let f := nth 0%N (nth [::] B c) i in
     (f < size PM)%N /\ nth 0 PM f / nth 0 DM f * ((nth 0 (nth [::] O c) i)%:~R * nth 0 flux f) = dotp K n.+1 x (G c i)) ->
  exists V, simplicial_velocity K svd r m n true corners B O PM DM total flux = Util.Ok (Some V) /\ size V = total /\ (forall c, (c < total)%N -> size (nth [::] V c) = n.+1) /\
    (forall c, (c < size corners)%N -> part_in_plane K m.+2 n.+1 (nth 0 corners c) x (fun k => nth 0 (nth [::] V c) k) /\ (n = m -> forall k : 'I_n.+1, nth 0 (nth [::] V c) k = x k)) /\
    (forall c (k : 'I_n.+1), (size corners <= c < total)%N -> nth 0 (nth [::] V c) k = 0).
Proof.
  move=> r m n corners B O PM DM total flux Sv R0 Lm L SB SO AB AO SD Lf Lt Reg.
  pose h c := match simplex_gradients K svd r m n (nth 0 corners c) with Util.Ok g => g | Util.Err _ => None end. pose G c := odflt 0 (h c).
  have EG : forall c, (c < size corners)%N -> simplex_gradients K svd r m n (nth 0 corners c) = Util.Ok (Some (G c)) /\
    exists W, 0 < W /\ (forall i, coordinate_gradient K m.+2 n.+1 (nth 0 corners c) i (fun j => G c i j / W)) /\
    (forall i, unsigned_volume K m n.+1 (row' i (nth 0 corners c)) = Util.Ok (len K n.+1 (G c i))) /\ forall j, \sum_i G c i j = 0.
  { move=> c Lc. case: (Reg c Lc) => ND Rg. case: (C77_gradients_partial K svd r m n _ R0 Lm L ND Rg) => V [g [_ [V0 [E [C [Vol Sm]]]]]].
    have Eh : h c = Some g by rewrite /h E. rewrite /G Eh /=. split => //. exists (m.+1%:R * V). split; [by rewrite mulr_gt0 // ltr0n|]. by split. }
  exists G. split; [by move=> c Lc; case: (EG c Lc)|]. move=> x Flow.
  pose P c := odflt 0 (in_plane_inverse K svd m.+1 m.+2 n.+1 (G c)).
  have EP : forall c, (c < size corners)%N -> in_plane_inverse K svd m.+1 m.+2 n.+1 (G c) = Some (P c) /\
    forall v, let w := fun k => \sum_i P c k i * dotp K n.+1 v (G c i) in part_in_plane K m.+2 n.+1 (nth 0 corners c) v w /\ (n.+1 = m.+1 -> forall k, w k = v k).
  { move=> c Lc. case: (EG c Lc) => _ [W [W0 [C _]]]. case: (cell_velocity m n.+1 _ (G c) W W0 C); [by apply: Sv|]. move=> p [Ep Hp]. by rewrite /P Ep. }
  rewrite /simplicial_velocity /= (mapM_ok _ _ _ 0 (fun c => Some (G c))) /=; [|by move=> c Lc; case: (EG c Lc)].
  have -> : all isSome [seq Some (G c) | c <- iota 0 (size corners)] by rewrite all_map; apply/allP.
  have -> : pmap id [seq Some (G c) | c <- iota 0 (size corners)] = [seq G c | c <- iota 0 (size corners)] by elim: (iota 0 (size corners)) => //= a l ->.
  set gs := [seq G c | c <- _]. have Sg : size gs = size corners by rewrite size_map size_iota. have Ng : forall c, (c < size corners)%N -> nth 0 gs c = G c by move=> c Lc; rewrite (nth_map 0%N) ?size_iota // nth_iota.
  have Sh : size (hodge_PD K PM DM) = size PM by rewrite size_map size_zip SD minnn.
  case: (velocity_nth K svd m.+1 m.+2 n.+1 gs B O (hodge_PD K PM DM) total flux P); rewrite ?Sg ?Sh //.
  { move=> c i Lc Li. by case: (Flow c (Ordinal Li) Lc). }
  { move=> c Lc. rewrite Ng //. by case: (EP c Lc). }
  move=> V [-> [SV [Sr [Ve Bd]]]]. exists V. split => //. split => //. split => //. split => // c Lc.
  case: (EP c Lc) => _ /(_ x) /= [Pl Fl]. set w := fun k : 'I_n.+1 => _ in Pl Fl.
  have Ew : forall k : 'I_n.+1, nth 0 (nth [::] V c) k = w k.
  { move=> k. rewrite Ve // /w. apply: eq_bigr => i _. congr (_ * _). case: (Flow c i Lc). set f := nth 0%N _ i. move=> Lp Ef.
    have -> : nth 0 (hodge_PD K PM DM) f = nth 0 PM f / nth 0 DM f. { rewrite (nth_map (0, 0)) ?size_zip ?SD ?minnn // nth_zip ?SD //. }
    by rewrite mulrCA Ef. }
  split.
  - case: Pl => [[q [S0 Eq]] Or]. split. + exists q. split => // j. by rewrite Ew. + move=> g Hg. rewrite Or //. apply: eq_bigr => k _. by rewrite Ew.
  - move=> En k. rewrite Ew. apply: Fl. by rewrite En.
Qed.

(** the oriented flux along the dual edge of each face of a cell is the inner product of v with the dual edge as a step into
    the cell; face i of a cell is opposite its corner i, and has the measure PM; its dual edge has the length DM *)
Definition uniform_flow (m n : nat) (corners : seq 'M[K]_(m.+2, n.+1)) (B : seq (seq nat)) (O : seq (seq int)) (PM DM flux : seq K) (v : 'I_n.+1 -> K) : Prop :=
  forall c (i : 'I_m.+2), (c < size corners)%N -> let f := nth 0%N (nth [::] B c) i in
     (f < size PM)%N /\ 0 < nth 0 DM f /\ unsigned_volume K m n.+1 (row' i (nth 0 corners c)) = Util.Ok (nth 0 PM f) /\
     exists e, step_across K m.+2 n.+1 (nth 0 corners c) i (nth 0 DM f) e /\ (nth 0 (nth [::] O c) i)%:~R * nth 0 flux f = dotp K n.+1 v e.

(** If the fluxes are those of a uniform velocity, the velocity found at each cell is the part of it in the plane of the cell;
    all of it, when the cells have the dimension of the space.  At the dual vertices of the boundary it is zero. *)
Theorem C93_simplicial_partial : forall r m n (corners : seq 'M[K]_(m.+2, n.+1)) (B : seq (seq nat)) (O : seq (seq int)) PM DM total flux (v : 'I_n.+1 -> K),
  (forall p q (A : 'M[K]_(p, q)), (q <= p)%N -> svd_of K p q A (svd p q A)) ->
  0 < r -> (m <= n)%N -> (n < m.+2)%N -> size B = size corners -> size O = size corners -> all (fun x => size x == m.+2) B -> all (fun x => size x == m.+2) O ->
  size DM = size PM -> (size PM <= size flux)%N -> (size corners <= total)%N ->
  (forall c, (c < size corners)%N -> ~ dependent K m.+2 n.+1 (nth 0 corners c) /\ regular K svd r m.+2 n (nth 0 corners c)) ->
  uniform_flow m n corners B O PM DM flux v ->
  exists V, simplicial_velocity K svd r m n true corners B O PM DM total flux = Util.Ok (Some V) /\ size V = total /\ (forall c, (c < total)%N -> size (nth [::] V c) = n.+1) /\
    (forall c, (c < size corners)%N -> part_in_plane K m.+2 n.+1 (nth 0 corners c) v (fun k => nth 0 (nth [::] V c) k) /\ (n = m -> forall k : 'I_n.+1, nth 0 (nth [::] V c) k = v k)) /\
    (forall c (k : 'I_n.+1), (size corners <= c < total)%N -> nth 0 (nth [::] V c) k = 0).
Proof.
  move=> r m n corners B O PM DM total flux v Sv R0 Lm L SB SO AB AO SD Lf Lt Reg Flow.
  case: (simplicial_any r m n corners B O PM DM total flux Sv R0 Lm L SB SO AB AO SD Lf Lt Reg) => G [HG]. apply => c i Lc f.
  case: (Flow c i Lc). rewrite -/f => Lp [D0 [Ep [e [St Ef]]]]. split => //. rewrite Ef.
  case: (HG c Lc) => W [W0 [C [Vol _]]]. move: Ep. rewrite Vol => [[<-]]. exact: (step_grad m n.+1 _ (G c) W W0 C i _ e D0 St).
Qed.

(** In a complex of segments face i of a cell is its corner i, not the one opposite, and the velocity found is the opposite. *)
Theorem C93_segments_refuted : forall r n (corners : seq 'M[K]_(2, n.+1)) (B : seq (seq nat)) (O : seq (seq int)) PM DM total flux (v : 'I_n.+1 -> K),
  (forall p q (A : 'M[K]_(p, q)), (q <= p)%N -> svd_of K p q A (svd p q A)) ->
  0 < r -> (n < 2)%N -> size B = size corners -> size O = size corners -> all (fun x => size x == 2%N) B -> all (fun x => size x == 2%N) O ->
  size DM = size PM -> (size PM <= size flux)%N -> (size corners <= total)%N ->
  (forall c, (c < size corners)%N -> ~ dependent K 2 n.+1 (nth 0 corners c) /\ regular K svd r 2 n (nth 0 corners c)) ->
  (forall c (i : 'I_2), (c < size corners)%N -> let f := nth 0%N (nth [::] B c) i in
     (f < size PM)%N /\ 0 < nth 0 DM f /\ nth 0 PM f = 1 /\
     exists e, step_across K 2 n.+1 (nth 0 corners c) (rev_ord i) (nth 0 DM f) e /\ (nth 0 (nth [::] O c) i)%:~R * nth 0 flux f = dotp K n.+1 v e) ->
  exists V, simplicial_velocity K svd r 0 n true corners B O PM DM total flux = Util.Ok (Some V) /\ size V = total /\
    (forall c, (c < size corners)%N -> part_in_plane K 2 n.+1 (nth 0 corners c) (fun k => - v k) (fun k => nth 0 (nth [::] V c) k)).
Proof.
  move=> r n corners B O PM DM total flux v Sv R0 L SB SO AB AO SD Lf Lt Reg Flow.
  case: (simplicial_any r 0 n corners B O PM DM total flux Sv R0 (leq0n _) L SB SO AB AO SD Lf Lt Reg) => G [HG]. case/(_ (fun k => - v k)).
  - move=> c i Lc f. case: (Flow c i Lc). rewrite -/f => Lp [D0 [Ep [e [St Ef]]]]. split => //. rewrite Ef Ep.
    case: (HG c Lc) => W [W0 [C [Vol Sm]]]. have := step_grad 0 n.+1 _ (G c) W W0 C (rev_ord i) _ e D0 St v.
    have L1 : len K n.+1 (G c (rev_ord i)) = 1. { by case: (Vol (rev_ord i)). }
    rewrite L1 => ->. have S2 : forall j, G c (rev_ord i) j = - G c i j.
    { move=> j. apply/eqP. rewrite -addr_eq0. move/eqP: (Sm j). rewrite !big_ord_recl big_ord0 addr0. case: (unliftP ord0 i) => [k ->|->].
      - rewrite (ord1 k). have -> : rev_ord (lift ord0 ord0) = ord0 :> 'I_2 by apply: val_inj. by [].
      - have -> : rev_ord ord0 = lift ord0 ord0 :> 'I_2 by apply: val_inj. by rewrite addrC. }
    rewrite /dotp. apply: eq_bigr => j _. by rewrite S2 mulrN mulNr.
  - move=> V [E [S [_ [H _]]]]. exists V. split => //. split => // c Lc. by case: (H c Lc).
Qed.

(** In a regular complex the velocity found is the opposite as well. *)
Theorem C93_regular_refuted : forall p n (fpos cpos : seq 'rV[K]_n) (B : seq (seq nat)) (O : seq (seq int)) PM DM total flux (v : 'I_n -> K),
  (forall p q (A : 'M[K]_(p, q)), (q <= p)%N -> svd_of K p q A (svd p q A)) ->
  size B = size cpos -> size O = size cpos -> all (fun x => size x == p) B -> all (fun x => size x == p) O -> size DM = size PM -> (size PM <= size flux)%N -> (size cpos <= total)%N ->
  (forall c (w : 'I_n -> K), (c < size cpos)%N -> (forall i : 'I_p, dotp K n w (fun j => nth 0 fpos (nth 0%N (nth [::] B c) i) 0 j - nth 0 cpos c 0 j) = 0) -> forall j, w j = 0) ->
  (forall c (i : 'I_p), (c < size cpos)%N -> let f := nth 0%N (nth [::] B c) i in
     (f < size PM)%N /\ 0 < nth 0 PM f /\ 0 < nth 0 DM f /\
     exists e, step_from K n (nth 0 fpos f 0) (nth 0 cpos c 0) (nth 0 DM f) e /\ (nth 0 (nth [::] O c) i)%:~R * nth 0 flux f = dotp K n v e) ->
  exists V, regular_velocity K svd p n true fpos cpos B O PM DM total flux = Util.Ok (Some V) /\ size V = total /\
    (forall c (k : 'I_n), (c < size cpos)%N -> nth 0 (nth [::] V c) k = - v k) /\
    (forall c (k : 'I_n), (size cpos <= c < total)%N -> nth 0 (nth [::] V c) k = 0).
Proof.
  move=> p n fpos cpos B O PM DM total flux v Sv SB SO AB AO SD Lf Lt Span Flow.
  pose D c := \matrix_(i, j) (nth 0 fpos (nth 0%N (nth [::] B c) i) 0 j - nth 0 cpos c 0 j) : 'M[K]_(p, n).
  pose G c := \matrix_(i, j) (D c i j / len K n (D c i) * nth 0 PM (nth 0%N (nth [::] B c) i)) : 'M[K]_(p, n).
  have St : forall c (i : 'I_p), (c < size cpos)%N -> let f := nth 0%N (nth [::] B c) i in 0 < len K n (D c i) /\ nth 0 PM f / nth 0 DM f * ((nth 0 (nth [::] O c) i)%:~R * nth 0 flux f) = - dotp K n v (G c i).
  { move=> c i Lc f. case: (Flow c i Lc). rewrite -/f => Lp [P0 [D0 [e [[[t [T0 E]] Ln] Ef]]]]. rewrite Ef.
    have El : nth 0 DM f = t * len K n (D c i).
    { rewrite -Ln /len. have -> : dotp K n e e = t ^+ 2 * dotp K n (D c i) (D c i). { rewrite /dotp mulr_sumr. apply: eq_bigr => j _. rewrite E !mxE -/f expr2 mulrACA. congr (_ * _). by rewrite -opprB mulrNN. }
      rewrite sqrtrM ?sqr_ge0 // sqrtr_sqr ger0_norm //. exact: ltW. }
    have Lp0 : 0 < len K n (D c i). { move: D0. by rewrite El pmulr_rgt0. }
    split => //. rewrite El. have -> : dotp K n v e = - (t * dotp K n v (D c i)). { rewrite /dotp mulr_sumr -sumrN. apply: eq_bigr => j _. rewrite E !mxE -/f -opprB !mulrN. by rewrite mulrCA. }
    have -> : dotp K n v (G c i) = dotp K n v (D c i) / len K n (D c i) * nth 0 PM f. { rewrite /dotp !mulr_suml. apply: eq_bigr => j _. by rewrite [G c i j]mxE -/f !mulrA. }
    rewrite mulrN. congr (- _). have Nt := lt0r_neq0 T0. by rewrite invfM mulrACA -[t^-1 * _ * _]mulrA [_ * t * _]mulrA mulfK // mulrC [_^-1 * _]mulrC. }
  have Rk : forall c, (c < size cpos)%N -> \rank (G c) = n.
  { move=> c Lc. rewrite -mxrank_tr. apply/eqP. rewrite -/(row_free _) -kermx_eq0. apply/eqP/row_matrixP => a. rewrite row0. set w := row a _.
    have Z : w *m (G c)^T = 0. { apply/sub_kermxP. exact: row_sub. }
    apply/rowP => j. rewrite [RHS]mxE. apply: (Span c (w 0) Lc) => i. case: (St c i Lc) => Lp _. case: (Flow c i Lc) => _ [P0 _].
    have := congr1 (fun M : 'rV[K]_p => M 0 i) Z. rewrite [RHS]mxE [LHS]mxE.
    have -> : \sum_j0 w 0 j0 * (G c)^T j0 i = dotp K n (w 0) (D c i) * (nth 0 PM (nth 0%N (nth [::] B c) i) / len K n (D c i)).
    { rewrite /dotp mulr_suml. apply: eq_bigr => q _. rewrite [(G c)^T q i]mxE [G c i q]mxE -!mulrA. congr (_ * (_ * _)). by rewrite mulrC. }
    move/eqP. rewrite mulf_eq0 => /orP [/eqP E|].
    - rewrite -[RHS]E. apply: eq_bigr => q _. by rewrite [D c i q]mxE.
    - by rewrite (gt_eqF (divr_gt0 P0 Lp)). }
  pose P c := odflt 0 (in_plane_inverse K svd n p n (G c)).
  have EP : forall c, (c < size cpos)%N -> in_plane_inverse K svd n p n (G c) = Some (P c) /\ P c *m G c = 1%:M.
  { move=> c Lc. have Ln : (n <= p)%N. { rewrite -[X in (X <= _)%N](Rk c Lc). exact: rank_leq_row. }
    case: (inverse_spec K svd p n n (G c) (Sv p n (G c) Ln) (Rk c Lc)) => Q [EQ [_ EG]]. rewrite /P EQ /=. split => //.
    have F : row_full (G c) by rewrite /row_full Rk. by rewrite -[Q *m G c]mul1mx -(mulVpmx F) -mulmxA EG. }
  rewrite /regular_velocity /=. set gs := [seq regular_gradients K p n PM _ _ _ | _ <- _].
  have Egs : gs = [seq Some (G c) | c <- iota 0 (size cpos)].
  { apply: (eq_from_nth (x0 := None)); [by rewrite !size_map size_zip size_iota SB minnn|]. move=> c. rewrite size_map size_zip SB minnn => Lc.
    rewrite (nth_map (0, [::])) ?size_zip ?SB ?minnn // nth_zip ?SB // (nth_map 0%N) ?size_iota // nth_iota // add0n /=.
    have ED : \matrix_(i < p, j < n) ((\matrix_(i0 < p, j0 < n) nth 0 fpos (nth 0%N (nth [::] B c) i0) 0 j0) i j - nth 0 cpos c 0 j) = D c. { apply/matrixP => i j. by rewrite !mxE. }
    rewrite /regular_gradients ED /normalized_rows. case: ifP => [_|/negP []]. 2:{ apply/forallP => i. case: (St c i Lc) => Lp _. exact: lt0r_neq0 Lp. }
    congr Some. apply/matrixP => i j. by rewrite [LHS]mxE [in RHS]mxE [X in X * _]mxE. }
  rewrite Egs. have -> : all isSome [seq Some (G c) | c <- iota 0 (size cpos)] by rewrite all_map; apply/allP.
  have -> : pmap id [seq Some (G c) | c <- iota 0 (size cpos)] = [seq G c | c <- iota 0 (size cpos)] by elim: (iota 0 (size cpos)) => //= a l ->.
  clear gs Egs. set gs := [seq G c | c <- _]. have Sg : size gs = size cpos by rewrite size_map size_iota. have Ng : forall c, (c < size cpos)%N -> nth 0 gs c = G c by move=> c Lc; rewrite (nth_map 0%N) ?size_iota // nth_iota.
  have Sh : size (hodge_PD K PM DM) = size PM by rewrite size_map size_zip SD minnn.
  case: (velocity_nth K svd n p n gs B O (hodge_PD K PM DM) total flux P); rewrite ?Sg ?Sh //.
  { move=> c i Lc Li. by case: (Flow c (Ordinal Li) Lc). }
  { move=> c Lc. rewrite Ng //. by case: (EP c Lc). }
  move=> V [-> [SV [Sr [Ve Bd]]]]. exists V. split => //. split => //. split => // c k Lc. rewrite Ve //.
  have -> : - v k = - (P c *m G c *m (\col_j v j)) k 0. { case: (EP c Lc) => _ ->. by rewrite mul1mx mxE. }
  rewrite -mulmxA [in RHS]mxE -sumrN. apply: eq_bigr => i _. rewrite -mulrN. congr (_ * _). case: (St c i Lc). set f := nth 0%N _ i. move=> _ Ef. case: (Flow c i Lc). rewrite -/f => Lp _.
  have -> : nth 0 (hodge_PD K PM DM) f = nth 0 PM f / nth 0 DM f. { rewrite (nth_map (0, 0)) ?size_zip ?SD ?minnn // nth_zip ?SD //. }
  rewrite mulrCA Ef. congr (- _). rewrite mxE. apply: eq_bigr => j _. by rewrite [(\col__ _) _ _]mxE mulrC.
Qed.
End C93.

Section C93_examples.
Variable K : rcfType.
Add Field Kv : (K_field K).
Ltac kring := kprep K; ring.

(** A triangle of height 3/2 over a base of 2 in a uniform flow, with an orientation of either sign, meets the hypotheses. *)
Example C93_example : forall v : 'I_2 -> K, exists svd PM flux, (forall p q (A : 'M[K]_(p, q)), (q <= p)%N -> svd_of K p q A (svd p q A)) /\
  size PM = 3%N /\ size flux = 6%N /\ ~ dependent K 3 2 (flat K (1 / 2%:R)) /\ regular K svd (10%:R ^- 9) 3 1 (flat K (1 / 2%:R)) /\
  uniform_flow K 1 1 [:: flat K (1 / 2%:R)] [:: [:: 2; 0; 1]%N] [:: [:: 1; -1; 1]] PM [:: 1; 3%:R; 2%:R] flux v.
Proof.
  move=> v. have H : 0 < (1 / 2%:R : K) by rewrite div1r invr_gt0 ltr0n. case: (C77_oracle K) => svd Sv.
  have Rg : regular K svd (10%:R ^- 9) 3 1 (flat K (1 / 2%:R)) by exact: flat_regular.
  have ND := flat_independent K _ H. have R0 : 0 < (10%:R ^- 9 : K) by rewrite invr_gt0 exprn_gt0 // ltr0n.
  case: (C77_normals_partial K svd _ 3 1 _ R0 isT isT ND Rg) => N [_ HN].
  pose F i := match unsigned_volume K 1 2 (row' i (flat K (1 / 2%:R))) with Util.Ok x => x | Util.Err _ => 0 end.
  pose f (i : 'I_3) (d : K) (o : K) := o * (d * dotp K 2 v (N i)).
  pose i0 : 'I_3 := ord0. pose i1 : 'I_3 := lift ord0 ord0. pose i2 : 'I_3 := lift ord0 (lift ord0 ord0).
  exists svd, [:: F i1; F i2; F i0], [:: f i1 1 (-1); f i2 3%:R 1; f i0 2%:R 1; 0; 0; 0]. split => //. do 4 (split => //).
  have St : forall i d, 0 < d -> step_across K 3 2 (flat K (1 / 2%:R)) i d (fun j => d * N i j).
  { move=> i d D0. case: (HN i) => [[c [S0 E]] [Pp [Al Ln]]]. have Sc : forall k l, along K 3 2 (flat K (1 / 2%:R)) (fun j => d * N i j) k l = d * along K 3 2 (flat K (1 / 2%:R)) (N i) k l.
    { move=> k l. rewrite /along /dotp mulr_sumr. apply: eq_bigr => j _. by rewrite mulrA. }
    split; [|split; [|split]].
    - exists (fun k => d * c k). split; [by rewrite -mulr_sumr S0 mulr0|]. move=> j. rewrite E mulr_sumr. apply: eq_bigr => k _. by rewrite mulrA.
    - move=> k l Nk Nl. by rewrite Sc Pp // mulr0.
    - move=> k Nk. by rewrite Sc mulr_gt0 // Al.
    - rewrite /len. have -> : dotp K 2 (fun j => d * N i j) (fun j => d * N i j) = d ^+ 2 * dotp K 2 (N i) (N i). { rewrite /dotp mulr_sumr. apply: eq_bigr => j _. by rewrite expr2 mulrACA. }
      rewrite Ln mulr1 sqrtr_sqr ger0_norm //. exact: ltW. }
  have Dt : forall i d, dotp K 2 v (fun j => d * N i j) = d * dotp K 2 v (N i). { move=> i d. rewrite /dotp mulr_sumr. apply: eq_bigr => j _. by rewrite mulrCA. }
  have Vl : forall i, unsigned_volume K 1 2 (row' i (flat K (1 / 2%:R))) = Util.Ok (F i) by [].
  move=> c i. rewrite ltnS leqn0 => /eqP ->. rewrite /=. case: i => [[|[|[|i]]] Li] //=.
  - have -> : Ordinal Li = i0 by apply: val_inj. split => //. split; [by rewrite ltr0n|]. split => //. exists (fun j => 2%:R * N i0 j). split; [by apply: St; rewrite ltr0n|]. by rewrite Dt /f mulr1z !mul1r.
  - have -> : Ordinal Li = i1 by apply: val_inj. split => //. split; [by rewrite ltr01|]. split => //. exists (fun j => 1 * N i1 j). split; [by apply: St; rewrite ltr01|]. by rewrite Dt /f mulrNz mulr1z !mulNr !mul1r opprK.
  - have -> : Ordinal Li = i2 by apply: val_inj. split => //. split; [by rewrite ltr0n|]. split => //. exists (fun j => 3%:R * N i2 j). split; [by apply: St; rewrite ltr0n|]. by rewrite Dt /f mulr1z !mul1r.
Qed.

(** A segment from 0 to 1 in a uniform flow of velocity 1 to the right: the velocity found is -1. *)
Example C93_segments_example : exists svd V, (forall p q (A : 'M[K]_(p, q)), (q <= p)%N -> svd_of K p q A (svd p q A)) /\
  simplicial_velocity K svd (10%:R ^- 9) 0 0 true [:: \matrix_(i < 2, j < 1) i%:R] [:: [:: 0; 1]%N] [:: [:: -1; 1]] [:: 1; 1] [:: 1 / 2%:R; 1 / 2%:R] 3 [:: - (1 / 2%:R); - (1 / 2%:R)] = Util.Ok (Some V) /\
  nth 0 (nth [::] V 0) 0 = -1.
Proof.
  case: (C77_oracle K) => svd Sv. exists svd. have H : 0 < (1 / 2%:R : K) by rewrite div1r invr_gt0 ltr0n. set h := 1 / 2%:R : K in H *. have R0 : 0 < (10%:R ^- 9 : K) by rewrite invr_gt0 exprn_gt0 // ltr0n.
  set X := \matrix_(i, j) _. pose v := (fun _ => 1) : 'I_1 -> K.
  have Al : forall e k l, along K 2 1 X e k l = e ord0 * (l%:R - k%:R). { move=> e k l. by rewrite /along /dotp big_ord_recl big_ord0 addr0 !mxE. }
  have St : forall (i : 'I_2) s, (i = ord0 /\ s = -1) \/ (i = lift ord0 ord0 /\ s = 1) -> step_across K 2 1 X i h (fun _ => s * h).
  { move=> i s Hi. have S2 : s * s = 1 by case: Hi => [[_ ->]|[_ ->]]; rewrite ?mulrNN mulr1. split; [|split; [|split]].
    - exists (fun k => if k == ord0 then - (s * h) else s * h). split; [by rewrite !big_ord_recl big_ord0 addr0 /= addNr|]. move=> j. by rewrite !big_ord_recl big_ord0 addr0 /= !mxE mulr0 add0r mulr1.
    - move=> k l Nk Nl. have -> : k = l; [|by rewrite Al subrr mulr0]. case: Hi Nk Nl => [[-> _]|[-> _]]; case: (unliftP ord0 k) => [k' ->|->]; case: (unliftP ord0 l) => [l' ->|->] //; rewrite ?(ord1 k') ?(ord1 l') //.
    - move=> k Nk. rewrite Al. case: Hi Nk => [[-> ->]|[-> ->]]; case: (unliftP ord0 k) => [k' ->|->] //; rewrite ?(ord1 k') //= => _.
      + by rewrite sub0r mulrN1 mulN1r opprK. + by rewrite subr0 mulr1 mul1r.
    - rewrite /len /dotp big_ord_recl big_ord0 addr0 mulrACA S2 mul1r -expr2 sqrtr_sqr ger0_norm //. exact: ltW. }
  case: (C93_segments_refuted K svd (10%:R ^- 9) 0 [:: X] [:: [:: 0; 1]%N] [:: [:: -1; 1]] [:: 1; 1] [:: h; h] 3 [:: - h; - h] v) => //.
  - move=> c. rewrite ltnS leqn0 => /eqP ->. rewrite /=. split.
    + case=> w [[i Ni] [S0 E]]. move: (E ord0). rewrite !big_ord_recl big_ord0 addr0 !mxE mulr0 add0r mulr1 => W1. move: S0. rewrite !big_ord_recl big_ord0 addr0 W1 addr0 => W0.
      apply: Ni. case: (unliftP ord0 i) => [k ->|->] //. by rewrite (ord1 k).
    + split; [exact: Sv|]. move=> j _. rewrite (ord1 j). set q := (svd _ _ _).1.2 0 0. have Q0 : 0 <= q. { have := Sv 2%N 1%N (\matrix_(i, j) (X i j - (\sum_k X k j) / 2%:R)) isT. rewrite /q. case: (svd _ _ _) => [[u s] w] /= [_ [_ [_ [P _]]]]. exact: P. }
      rewrite ler_pimull //. rewrite invf_le1 ?exprn_gt0 ?ltr0n //. apply: exprn_ege1. by rewrite ler1n.
  - move=> c i. rewrite ltnS leqn0 => /eqP ->. rewrite /=. case: (unliftP ord0 i) => [k ->|->]; rewrite ?(ord1 k) /=.
    + split => //. split => //. split => //. exists (fun _ => -1 * h). split. * have -> : rev_ord (lift ord0 ord0) = ord0 :> 'I_2 by apply: val_inj. apply: St. by left. * by rewrite /dotp big_ord_recl big_ord0 addr0 mulr1z !mul1r mulN1r.
    + split => //. split => //. split => //. exists (fun _ => 1 * h). split. * have -> : rev_ord ord0 = lift ord0 ord0 :> 'I_2 by apply: val_inj. apply: St. by right. * by rewrite /dotp big_ord_recl big_ord0 addr0 mulrNz mulr1z mulrNN !mul1r.
  - move=> V [E [_ Hv]]. exists V. split => //. split => //. case: (Hv 0%N isT) => _ Or. move: (Or (fun _ => 1)). rewrite /dotp !big_ord_recl !big_ord0 !addr0 !mulr1 /= => <- //.
    exists (fun k => if k == ord0 then -1 else 1). split; [by rewrite !big_ord_recl big_ord0 addr0 /= addNr|]. move=> j. by rewrite !big_ord_recl big_ord0 addr0 /= !mxE mulr0 add0r mulr1.
Qed.
(** The unit square in a uniform flow of velocity (1, 2): the velocity found is (-1, -2). *)
Example C93_regular_example : exists svd V, (forall p q (A : 'M[K]_(p, q)), (q <= p)%N -> svd_of K p q A (svd p q A)) /\
  let h := 1 / 2%:R : K in let point x y := \row_j (if j == ord0 then x else y) : 'rV[K]_2 in
  regular_velocity K svd 4 2 true [:: point 0 h; point 1 h; point h 0; point h 1] [:: point h h] [:: [:: 0; 1; 2; 3]%N] [:: [:: -1; 1; 1; -1]] [:: 1; 1; 1; 1] [:: h; h; h; h] 5 [:: - h; - h; 1; 1; 0; 0; 0; 0] = Util.Ok (Some V) /\
  nth 0 (nth [::] V 0) 0 = -1 /\ nth 0 (nth [::] V 0) 1 = - 2%:R /\ nth 0 (nth [::] V 3) 1 = 0.
Proof.
  case: (C77_oracle K) => svd Sv. exists svd. set h := 1 / 2%:R : K. have H : 0 < h by rewrite /h div1r invr_gt0 ltr0n. have H2 : h + h = 1. { rewrite -mulr2n -mulr_natr /h divfK //. by rewrite pnatr_eq0. }
  set point := fun x y : K => \row_j (if j == ord0 then x else y) : 'rV[K]_2.
  pose v := (fun j => if j == ord0 then 1 else 2%:R) : 'I_2 -> K.
  have H1 : 1 - h = h by rewrite -H2 addrK.
  have Dt : forall a b : 'I_2 -> K, dotp K 2 a b = a ord0 * b ord0 + a (lift ord0 ord0) * b (lift ord0 ord0) by move=> a b; rewrite /dotp !big_ord_recl big_ord0 addr0.
  case: (C93_regular_refuted K svd 4%N 2%N [:: point 0 h; point 1 h; point h 0; point h 1] [:: point h h] [:: [:: 0; 1; 2; 3]%N] [:: [:: -1; 1; 1; -1]] [:: 1; 1; 1; 1] [:: h; h; h; h] 5%N [:: - h; - h; 1; 1; 0; 0; 0; 0] v) => //.
  - move=> c w. rewrite ltnS leqn0 => /eqP -> Z. rewrite /= in Z. have Z1 := Z (inord 1). have Z3 := Z (inord 3). rewrite !inordK //= !Dt !mxE /= H1 in Z1. rewrite !inordK //= !Dt !mxE /= H1 in Z3.
    move/eqP: Z1. rewrite subrr mulr0 addr0 mulf_eq0 (gt_eqF H) orbF => /eqP Z1. move/eqP: Z3. rewrite subrr mulr0 add0r mulf_eq0 (gt_eqF H) orbF => /eqP Z3.
    move=> j. case: (unliftP ord0 j) => [k ->|->] //. by rewrite (ord1 k).
  - have Ln : forall a b : K, a * a + b * b = h * h -> len K 2 (fun j => if j == ord0 then a else b) = h. { move=> a b E. by rewrite /len Dt /= E -expr2 sqrtr_sqr ger0_norm // ltW. }
    have T : forall (x y x' y' : K) (a b : K), a = x' - x -> b = y' - y -> a * a + b * b = h * h -> step_from K 2 (point x y 0) (point x' y' 0) h (fun j => if j == ord0 then a else b).
    { move=> x y x' y' a b Ea Eb E. split; [|exact: Ln]. exists 1. split; [exact: ltr01|]. move=> j. rewrite !mxE mul1r. case: ifP => _ //. }
    have N2 : 2%:R * h = 1 by rewrite mulr_natl mulr2n.
    move=> c i. rewrite ltnS leqn0 => /eqP ->. case: i => [[|[|[|[|i]]]] Li] //=; do 3 (split; rewrite ?ltr01 //).
    + exists (fun j => if j == ord0 then h else 0). split; [by apply: T; rewrite ?subr0 ?subrr // mulr0 addr0|]. by rewrite Dt /v /= mulrNz mulr1z mulrNN !mul1r mulr0 addr0.
    + exists (fun j => if j == ord0 then - h else 0). split; [by apply: T; rewrite ?subrr ?mulr0 ?addr0 ?mulrNN // -opprB H1|]. by rewrite Dt /v /= mulr1z !mul1r mulr0 addr0.
    + exists (fun j => if j == ord0 then 0 else h). split; [by apply: T; rewrite ?subr0 ?subrr // mulr0 add0r|]. by rewrite Dt /v /= mulr1z !mul1r add0r N2.
    + exists (fun j => if j == ord0 then 0 else - h). split; [by apply: T; rewrite ?subrr ?mulr0 ?add0r ?mulrNN // -opprB H1|]. by rewrite Dt /v /= mulrNz mulr1z mul1r add0r mulrN N2 mulN1r.
  - move=> V [E [_ [Hv Hb]]]. exists V. split => //. split => //. split; [by rewrite (Hv 0%N ord0)|]. split; [by rewrite (Hv 0%N (lift ord0 ord0))|]. by rewrite (Hb 3%N (lift ord0 ord0)).
Qed.
End C93_examples.

Print Assumptions C93_simplicial_partial.
Print Assumptions C93_segments_refuted.
Print Assumptions C93_regular_refuted.
