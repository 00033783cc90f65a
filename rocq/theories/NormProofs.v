(** Pseudoinverses of centred corners are gradients of the barycentric coordinates. *)
From mathcomp Require Import all_ssreflect all_fingroup all_algebra.
From Coq Require Import Ring Field.
From Verif Require Import GeoModel GeoSpec GeoProofs GeoProps GeoRing NormModel NormSpec.
From Verif Require Util.
Import Order.TTheory GRing.Theory Num.Theory.
Local Open Scope ring_scope.

Section Norm.
Variable K : rcfType.
Add Field Kf : (K_field K).
Ltac kring := kprep K; ring.

(** ** The pseudoinverse *)
Section P.
Variables (p n : nat) (A : 'M[K]_(p, n)) (u : 'M[K]_(p, n)) (s : 'rV[K]_n) (v : 'M[K]_n) (d : 'rV[K]_n).
Hypothesis S : svd_of K p n A (u, s, v).
Hypothesis D : forall j, d 0 j = (s 0 j)^-1.
Let E1 : A = u *m diag_mx s *m v. Proof. by case: S. Qed.
Let E2 : u^T *m u = 1%:M. Proof. by case: S => _ []. Qed.
Let E3 : v *m v^T = 1%:M. Proof. by case: S => _ [_ []]. Qed.
(** the transpose of the pseudoinverse *)
Definition grads : 'M[K]_(p, n) := u *m diag_mx d *m v.
Lemma grads_entry : (\matrix_(k, i) \sum_j u i j * d 0 j * v j k)^T = grads.
Proof. apply/matrixP => i k. rewrite /grads [RHS]mxE !mxE. apply: eq_bigr => j _. congr (_ * _). by rewrite mul_mx_diag mxE. Qed.
Lemma sds : diag_mx s *m diag_mx d *m diag_mx s = diag_mx s.
Proof. rewrite !mulmx_diag. congr diag_mx. apply/rowP => j. rewrite !mxE D. case: (eqVneq (s 0 j) 0) => [->|N]; [by rewrite mulr0|]. by rewrite mulfV // mul1r. Qed.
Lemma dsd : diag_mx d *m diag_mx d *m diag_mx s = diag_mx d.
Proof. rewrite !mulmx_diag. congr diag_mx. apply/rowP => j. rewrite !mxE !D. case: (eqVneq (s 0 j) 0) => [->|N]; [by rewrite invr0 !mul0r|]. by rewrite -mulrA mulVf // mulr1. Qed.
Definition proj : 'M[K]_p := A *m grads^T.
Lemma proj_eq : proj = u *m (diag_mx s *m diag_mx d) *m u^T.
Proof. rewrite /proj E1 /grads !trmx_mul tr_diag_mx !mulmxA. congr (_ *m _). rewrite -[_ *m v *m v^T]mulmxA E3 mulmx1. by []. Qed.
Lemma proj_A : proj *m A = A.
Proof. rewrite proj_eq {1}E1 !mulmxA -[_ *m u^T *m u]mulmxA E2 mulmx1 -[u *m _ *m diag_mx d]mulmxA -[u *m _ *m diag_mx s]mulmxA sds -E1. by []. Qed.
Lemma proj_sym : proj^T = proj.
Proof. rewrite proj_eq !trmx_mul trmxK !tr_diag_mx !mulmxA. congr (_ *m _). rewrite -!mulmxA. congr (_ *m _). by rewrite diag_mxC. Qed.
Lemma grads_A : grads = (u *m (diag_mx d *m diag_mx d) *m u^T) *m A.
Proof. rewrite E1 !mulmxA -[_ *m u^T *m u]mulmxA E2 mulmx1 /grads. congr (_ *m _). rewrite -!mulmxA. congr (_ *m _). rewrite mulmxA. by rewrite dsd. Qed.
Lemma grads_kernel : forall x : 'rV[K]_p, x *m A = 0 -> x *m grads = 0.
Proof.
  move=> x E. have Q : x *m u *m diag_mx s = 0. { have := congr1 (fun M => M *m v^T) E. by rewrite E1 mul0mx -!mulmxA E3 mulmx1 !mulmxA. }
  rewrite /grads !mulmxA -[diag_mx d]dsd. have -> : diag_mx d *m diag_mx d *m diag_mx s = diag_mx s *m (diag_mx d *m diag_mx d) by rewrite mulmx_diag diag_mxC.
  by rewrite !mulmxA Q !mul0mx.
Qed.
End P.

(** ** Centred corners *)
Section C.
Variables (p n : nat) (pts : 'M[K]_(p, n)).
Hypothesis L : (0 < p)%N.
Notation A := (relative K p n pts).
Notation one := (const_mx 1 : 'M[K]_(p, 1)).
Let Np : (p%:R : K) != 0. Proof. by rewrite pnatr_eq0 -lt0n. Qed.
Lemma relative_sum : one^T *m A = 0.
Proof.
  apply/matrixP => i j. rewrite !mxE (eq_bigr (fun k => pts k j - (\sum_k pts k j) / p%:R)). 2:{ move=> k _. by rewrite !mxE mul1r. }
  rewrite sumrB sumr_const card_ord -[X in _ - X]mulr_natr divfK // subrr. by [].
Qed.
Lemma relative_comb : forall (c : 'I_p -> K) j, \sum_k c k * A k j = \sum_k c k * pts k j - (\sum_k c k) * ((\sum_k pts k j) / p%:R).
Proof. move=> c j. rewrite mulr_suml -sumrB. apply: eq_bigr => k _. by rewrite mxE mulrBr. Qed.
Hypothesis ND : ~ dependent K p n pts.
Lemma free : forall c : 'rV[K]_p, c *m A = 0 -> c *m one = 0 -> c = 0.
Proof.
  move=> c E E1. have S0 : \sum_k c 0 k = 0. { have := congr1 (fun M : 'M_1 => M 0 0) E1. rewrite !mxE => Q. rewrite -[RHS]Q. apply: eq_bigr => k _. by rewrite mxE mulr1. }
  apply/eqP/negPn/negP => N. apply: ND. exists (fun k => c 0 k). split; [|split] => //.
  - have /existsP [i Hi] : [exists i, c 0 i != 0]. { rewrite -negb_forall. apply/negP => /forallP Z. case/negP: N. apply/eqP/rowP => i. rewrite [RHS]mxE. exact/eqP. } exists i. exact/eqP.
  - move=> j. have := relative_comb (c 0) j. rewrite S0 mul0r subr0 => <-. have := congr1 (fun M : 'rV_n => M 0 j) E. by rewrite !mxE.
Qed.
Variables (u : 'M[K]_(p, n)) (s : 'rV[K]_n) (v : 'M[K]_n) (d : 'rV[K]_n).
Hypothesis S : svd_of K p n A (u, s, v).
Hypothesis D : forall j, d 0 j = (s 0 j)^-1.
Notation G := (grads p n u v d).
Lemma proj_centre : A *m G^T = 1%:M - p%:R^-1 *: (one *m one^T).
Proof.
  rewrite -/(proj p n A u v d). set P := proj _ _ _ _ _ _. pose Q := 1%:M - p%:R^-1 *: (one *m one^T) - P.
  suff Z : Q = 0 by apply/eqP; rewrite -subr_eq0 -oppr_eq0 opprB; apply/eqP.
  have O1 : one^T *m one = p%:R%:M. { apply/matrixP => i j. rewrite !ord1 !mxE eqxx mulr1n (eq_bigr (fun=> 1)). - by rewrite sumr_const card_ord. - move=> k _. by rewrite !mxE mulr1. }
  have QA : Q *m A = 0. { rewrite /Q !mulmxBl mul1mx -scalemxAl -mulmxA relative_sum mulmx0 scaler0 subr0 (proj_A p n A u s v d S D) subrr. by []. }
  have P1 : P *m one = 0. { have PT : P^T = P := proj_sym p n A u s v d S. rewrite -PT -[one]trmxK -trmx_mul. have -> : one^T *m P = 0 by rewrite /P /proj mulmxA relative_sum mul0mx. by rewrite trmx0. }
  have Q1 : Q *m one = 0. { rewrite /Q !mulmxBl mul1mx -scalemxAl -mulmxA O1 P1 subr0 mul_mx_scalar scalerA mulVf // scale1r subrr. by []. }
  apply/row_matrixP => i. rewrite row0. apply: free; rewrite -row_mul ?QA ?Q1 row0 //.
Qed.
Lemma grads_spec : forall i, coordinate_gradient K p n pts i (G i).
Proof.
  have AG : forall k l i, along K p n pts (G i) k l = (l == i)%:R - (k == i)%:R.
  { move=> k l i. have Q : forall a, (A *m G^T) a i = (a == i)%:R - p%:R^-1.
    { move=> a. rewrite proj_centre !mxE big_ord1 !mxE mulr1 mulr1. by []. }
    transitivity ((A *m G^T) l i - (A *m G^T) k i).
    - rewrite /along /dotp [(A *m _) l i]mxE [(A *m _) k i]mxE -sumrB. apply: eq_bigr => j _. rewrite [G^T _ _]mxE !(mxE _ (fun i j => pts i j - _)). set g := G i j. clearbody g. kring.
    - rewrite !Q opprB addrA subrK. by []. }
  move=> i. split; [|split].
  - pose M := u *m (diag_mx d *m diag_mx d) *m u^T. pose c k := M i k - (\sum_l M i l) / p%:R.
    have Sc : \sum_k c k = 0. { rewrite /c sumrB sumr_const card_ord -[X in _ - X]mulr_natr divfK // subrr. by []. }
    exists c. split => // j. have := relative_comb c j. rewrite Sc mul0r subr0 => <-.
    rewrite [in LHS](grads_A p n A u s v d S D) -/M [LHS]mxE /c.
    rewrite [RHS](eq_bigr (fun k => M i k * A k j - (\sum_l M i l) / p%:R * A k j)). 2:{ move=> k _. by rewrite mulrBl. }
    rewrite sumrB -mulr_sumr. have := congr1 (fun M : 'rV_n => M 0 j) relative_sum. rewrite mxE [RHS]mxE (eq_bigr (fun k => A k j)) => [->|k _]; [by rewrite mulr0 subr0|by rewrite !mxE mul1r].
  - move=> k l /eqP Nk /eqP Nl. by rewrite AG (negbTE Nk) (negbTE Nl) subrr.
  - move=> k /eqP Nk. by rewrite AG (negbTE Nk) eqxx subr0.
Qed.
Lemma grads_sum : forall j, \sum_i G i j = 0.
Proof.
  move=> j. have := grads_kernel p n A u s v d S D one^T relative_sum. move/(congr1 (fun M : 'rV_n => M 0 j)). rewrite mxE [RHS]mxE => Q.
  rewrite -[RHS]Q. apply: eq_bigr => k _. by rewrite !mxE mul1r.
Qed.
End C.

(** ** Gradients, heights and volumes *)
Lemma along_sum : forall p n (pts : 'M[K]_(p, n)) g (c : 'I_p -> K) k0, \sum_k c k = 0 -> \sum_j g j * (\sum_k c k * pts k j) = \sum_k c k * along K p n pts g k0 k.
Proof.
  move=> p n pts g c k0 S0. rewrite (eq_bigr (fun j => \sum_k c k * (g j * (pts k j - pts k0 j)))).
  - rewrite exchange_big /=. apply: eq_bigr => k _. by rewrite /along /dotp mulr_sumr.
  - move=> j _. transitivity (g j * (\sum_k c k * pts k j - (\sum_k c k) * pts k0 j)). { by rewrite S0 mul0r subr0. }
    rewrite mulr_suml -sumrB mulr_sumr. apply: eq_bigr => k _. set a := pts k j. set b := pts k0 j. set x := g j. kring.
Qed.
Lemma gradient_coef : forall p n (pts : 'M[K]_(p, n)) i g (c : 'I_p -> K), (1 < p)%N -> coordinate_gradient K p n pts i g -> \sum_k c k = 0 -> \sum_j g j * (\sum_k c k * pts k j) = c i.
Proof.
  move=> p n pts i g c L [_ [Pp St]] S0. have [k0 Nk] : exists k0 : 'I_p, k0 != i.
  { case: p L i {pts Pp St c S0} => [|[|p]] // _ i. case: (eqVneq i ord0) => [->|N]; [by exists (lift ord0 ord0)|by exists ord0; rewrite eq_sym]. }
  rewrite (along_sum _ _ _ _ _ k0) // (bigD1 i) //= St ?mulr1 ?big1 ?addr0 //. { move=> k Nk'. rewrite Pp ?mulr0 //; exact/eqP. } exact/eqP.
Qed.
Lemma gradient_pos : forall p n (pts : 'M[K]_(p, n)) i g, (1 < p)%N -> coordinate_gradient K p n pts i g -> 0 < dotp K n g g.
Proof.
  move=> p n pts i g L [_ [_ St]]. have [k0 Nk] : exists k0 : 'I_p, k0 <> i.
  { case: p L i {pts St} => [|[|p]] // _ i. case: (eqVneq i ord0) => [->|N]; [by exists (lift ord0 ord0)|exists ord0; apply/eqP; by rewrite eq_sym]. }
  rewrite lt_neqAle. apply/andP; split; [|by apply: sumr_ge0 => j _; rewrite -expr2 sqr_ge0].
  apply/negP => /eqP Z. have Z0 : forall j, g j = 0.
  { move=> j. have /eqP := Z. rewrite eq_sym psumr_eq0; [|by move=> k _; rewrite -expr2 sqr_ge0]. move/allP/(_ j (mem_index_enum j)). by rewrite /= mulf_eq0 orbb => /eqP. }
  have := St k0 Nk. rewrite /along /dotp big1. - move/esym/eqP. by rewrite oner_eq0. - move=> j _. by rewrite Z0 mul0r.
Qed.

Section H.
Variables (m n : nat) (pts : 'M[K]_(m.+2, n)) (i : 'I_m.+2).
Definition rotate (k : 'I_m.+2) : 'I_m.+2 := inord ((i + k) %% m.+2).
Lemma rotate_inj : injective rotate.
Proof.
  move=> a b E. have := congr1 (@nat_of_ord m.+2) E. rewrite !inordK ?ltn_mod // => /eqP. rewrite eqn_modDl !modn_small // => /eqP Q. exact: val_inj.
Qed.
Lemma rotate0 : rotate ord0 = i.
Proof. apply: val_inj. by rewrite /= inordK ?ltn_mod // addn0 modn_small. Qed.
Definition turn : 'S_m.+2 := (tperm ord0 (lift ord0 ord0) * perm rotate_inj)%g.
Lemma turn1 : turn (lift ord0 ord0) = i.
Proof. by rewrite /turn permM tpermR permE rotate0. Qed.
Lemma turn_base : row' (lift ord0 ord0) (row_perm turn pts) = opposite K m n pts i.
Proof.
  apply/matrixP => k j. rewrite !mxE /turn permM permE /rotate. congr (pts (inord _) j). congr ((_ + _) %% _)%N.
  case: (unliftP ord0 k) => [k' ->|->].
  - rewrite tpermD //=; apply/eqP => /(congr1 (@nat_of_ord _)) //=.
  - have -> : lift (lift ord0 ord0) ord0 = ord0 :> 'I_m.+2 by apply: val_inj. by rewrite tpermL.
Qed.
Notation one := (lift ord0 ord0 : 'I_m.+2).
Lemma sum_others : forall (t : 'S_m.+2) (f : 'I_m.+2 -> K), t one = i -> \sum_k f (t (lift one k)) = \sum_k f k - f i.
Proof.
  move=> t f E. rewrite [\sum_k f k](reindex_inj (@perm_inj _ t)) /= [X in _ = X - _](bigD1_ord one) //= E [RHS]addrC addrA addNr add0r. by [].
Qed.
Lemma apex_perm : forall (t : 'S_m.+2) g, (m < n)%N -> coordinate_gradient K m.+2 n pts i g -> t one = i ->
  exists v, unsigned_volume K m n (row' one (row_perm t pts)) = Util.Ok v /\ unsigned_volume K m.+1 n pts = Util.Ok (v * (len K n g)^-1 / m.+1%:R).
Proof.
  move=> t g L CG Et. have P0 := gradient_pos _ _ _ _ _ (isT : (1 < m.+2)%N) CG. case: (CG) => [[c [S0 Ec]] [Pp St]].
  have Cg : c i = dotp K n g g. { rewrite -(gradient_coef _ _ _ _ _ c (isT : (1 < m.+2)%N) CG S0). apply: eq_bigr => j _. by rewrite -Ec. }
  set q := dotp K n g g in P0 Cg. have Nq : q != 0 by exact: lt0r_neq0.
  case: (C75_reorder K m.+1 n t pts) => R _. rewrite -R.
  pose x (k : 'I_m.+1) := - (c (t (lift one k)) / q).
  have Sx : \sum_k x k = 1. { rewrite sumrN -mulr_suml (sum_others t c) // S0 Cg sub0r mulNr opprK mulfV //. }
  have Lh : len K n (fun j => g j / q) = (len K n g)^-1.
  { rewrite /len -/q. have -> : dotp K n (fun j => g j / q) (fun j => g j / q) = q^-1.
    { rewrite /dotp (eq_bigr (fun j => g j * g j * (q^-1 * q^-1))). - rewrite -mulr_suml -/(dotp K n g g) -/q mulrA mulfV // mul1r. by []. - move=> j _. by rewrite mulrACA. }
    rewrite sqrtrV //. exact: ltW. }
  case: (C75_height K m n (row_perm t pts) x (fun j => g j / q) L Sx).
  - move=> a b. have Nr : forall k, t (lift one k) <> i. { move=> k. rewrite -Et. move/perm_inj/eqP. by rewrite eq_sym (negbTE (neq_lift _ _)). }
    have := Pp (t (lift one b)) (t (lift one a)) (Nr b) (Nr a). rewrite /along /dotp => Z.
    transitivity (q^-1 * \sum_j g j * (pts (t (lift one a)) j - pts (t (lift one b)) j)); [|by rewrite Z mulr0].
    rewrite mulr_sumr. apply: eq_bigr => j _. rewrite !mxE. by rewrite [g j / q]mulrC mulrA.
  - move=> j. rewrite mxE Et /x. rewrite (eq_bigr (fun k => - q^-1 * (c (t (lift one k)) * pts (t (lift one k)) j))).
    2:{ move=> k _. rewrite !mxE. rewrite !mulNr. congr (- _). by rewrite mulrAC mulrC. }
    rewrite -mulr_sumr (sum_others t (fun k => c k * pts k j)) // -Ec Cg mulNr mulrBr opprB mulrA mulVf // mul1r [q^-1 * _]mulrC subrK. by [].
  - move=> v [Ev EV]. exists v. by rewrite Ev EV Lh.
Qed.
Lemma apex : forall g, (m < n)%N -> coordinate_gradient K m.+2 n pts i g ->
  exists v, unsigned_volume K m n (opposite K m n pts i) = Util.Ok v /\ unsigned_volume K m n (row' i pts) = Util.Ok v /\ unsigned_volume K m.+1 n pts = Util.Ok (v * (len K n g)^-1 / m.+1%:R).
Proof.
  move=> g L CG. case: (apex_perm turn g L CG turn1) => v [E1 E2]. rewrite turn_base in E1.
  case: (apex_perm (lift_perm one i 1%g) g L CG (lift_perm_id _ _ _)) => v' [E1' E2'].
  have B : row' one (row_perm (lift_perm one i 1%g) pts) = row' i pts. { apply/matrixP => k j. rewrite !mxE lift_perm_lift perm1. by []. }
  rewrite B in E1'. exists v. split; [|split] => //. rewrite E1'. congr Util.Ok. move: E2'. rewrite E2 => [[Q]].
  have P0 := gradient_pos _ _ _ _ _ (isT : (1 < m.+2)%N) CG.
  apply: (@mulIf _ ((len K n g)^-1 / m.+1%:R)). { rewrite mulf_neq0 // invr_eq0 ?pnatr_eq0 //. apply: lt0r_neq0. by rewrite sqrtr_gt0. }
  by rewrite !mulrA.
Qed.
End H.
End Norm.
