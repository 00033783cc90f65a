(** Properties C34, C35. *)
Require Import List Arith ZArith Bool Lia Ring QArith Qabs Qcanon.
From Verif Require Import Util SimpProps Arr StModel StProps OpModel OpSpec OpProofs TrProofs.
Import ListNotations.
Local Open Scope nat_scope.

(** C34.  Products and sums of typed expressions act like composing or adding the actions of the factors.
    Full property: all operators and diagonals whose array shapes fit, with numpy's [allclose].  Missing: diagonal
    values that [allclose] confuses with 0 or 1 ([near0], [near1] must be exact on the allowed values), and
    derivatives that fit by shape but are not consecutive (typed by a signature, see [typed]); both fail below. *)
Definition near_exact (K : cring) (ok : K -> Prop) (v : K) (near : array K -> bool) : Prop :=
  forall d, (forall idx, in_range (ashape d) idx -> ok (aget d idx)) -> near d = true -> forall idx, in_range (ashape d) idx -> aget d idx = v.

Theorem C34_product_partial : forall (K : cring) near0 near1 (G : signature K), sig_ok K G -> sig_closed K G ->
  near_exact K (dg_ok K G) r0 near0 -> near_exact K (dg_ok K G) r1 near1 ->
  forall a b i j k, typed K G a i j -> typed K G b j k ->
  exists c, op_mul K near0 near1 a b = Ok c /\ typed K G c i k /\
  forall x, ashape x = shp K G k -> exists y z w, ocall K b x = Ok y /\ ocall K a y = Ok z /\ ocall K c x = Ok w /\ aeq w z.
Proof.
  intros K near0 near1 G GO GC N0 N1 a b i j k Ta Tb. unfold op_mul.
  assert (TC : tchain K G [a; b] i k) by (econstructor; eauto; constructor; auto).
  rewrite (mk_comp_ok K G GO _ i k) by auto. cbn [bind]. unfold osimplify.
  destruct (simplify_ok K G GO GC near0 near1 N0 N1 (osize K (OComp [a; b])) (OComp [a; b]) i k) as (c & E & Tc & Sc); auto. { constructor; auto. }
  exists c. split; auto. split; auto. intros x Sx. destruct (typed_good K G GO _ _ _ Tb) as (_ & Lb & Cb). destruct (typed_good K G GO _ _ _ Ta) as (_ & La & Ca).
  destruct (typed_good K G GO _ _ _ Tc) as (_ & Lc & Cc). exists (act K b x), (act K a (act K b x)), (act K c x).
  split; auto. split; [apply Ca; apply (lin_shape _ _ _ _ Lb); auto|]. split; auto. apply aeq_sym. specialize (Sc x Sx).
  rewrite (proj2 (good_comp K G _ _ _ (tchain_good K G GO _ _ _ TC))) in Sc by auto. exact Sc.
Qed.
Print Assumptions C34_product_partial.

Theorem C34_sum_partial : forall (K : cring) near0 near1 (G : signature K), sig_ok K G -> sig_closed K G ->
  near_exact K (dg_ok K G) r0 near0 -> near_exact K (dg_ok K G) r1 near1 ->
  forall a b i j, typed K G a i j -> typed K G b i j ->
  exists c, op_add K near0 near1 a b = Ok c /\ typed K G c i j /\
  forall x, ashape x = shp K G j -> exists y z w, ocall K a x = Ok y /\ ocall K b x = Ok z /\ ocall K c x = Ok w /\
    ashape w = shp K G i /\ forall idx, in_range (shp K G i) idx -> aget w idx = radd (aget y idx) (aget z idx).
Proof.
  intros K near0 near1 G GO GC N0 N1 a b i j Ta Tb. unfold op_add.
  assert (TC : tsum K G [a; b] i j) by (apply ts_cons; auto; constructor; auto).
  rewrite (mk_comb_ok K G GO _ i j) by auto. cbn [bind]. unfold osimplify.
  destruct (simplify_ok K G GO GC near0 near1 N0 N1 (osize K (OComb [a; b])) (OComb [a; b]) i j) as (c & E & Tc & Sc); auto. { constructor; auto. }
  exists c. split; auto. split; auto. intros x Sx. destruct (typed_good K G GO _ _ _ Tb) as (_ & Lb & Cb). destruct (typed_good K G GO _ _ _ Ta) as (_ & La & Ca).
  destruct (typed_good K G GO _ _ _ Tc) as (_ & Lc & Cc). exists (act K a x), (act K b x), (act K c x).
  split; auto. split; auto. split; auto. split; [apply (lin_shape _ _ _ _ Lc); auto|]. intros idx R. destruct (Sc x Sx) as [S1 S2].
  destruct (good_comb K G _ _ _ (tsum_good K G GO _ _ _ TC)) as [(_ & L & _) V]. rewrite <- S2 by (rewrite (lin_shape _ _ _ _ L); auto).
  rewrite V by auto. simpl. rewrite (Radd_comm (rth K) (aget (act K b x) idx)), (Radd_0_l (rth K)). auto.
Qed.
Print Assumptions C34_sum_partial.

(** The signature hypotheses hold for the derivatives of every periodic stencil topology, with spaces the form degrees. *)
Theorem C34_stencil_signature : forall (K : cring) row_leb shape t empty (ok : K -> Prop), (forall a b, ok a -> ok b -> ok (rmul a b)) ->
  stencil_topology row_leb shape true = Ok t ->
  sig_ok K (st_sig K empty t ok) /\ sig_closed K (st_sig K empty t ok) /\
  exists P D, st_primal K empty t = Ok P /\ st_dual K empty t = Ok D /\ length P = length shape /\ length D = length shape /\
  forall n, n < length shape -> exists p d, nth_error P n = Some p /\ nth_error D n = Some d /\
    typed K (st_sig K empty t ok) (ODeriv p) (S n) n /\ typed K (st_sig K empty t ok) (ODual d) n (S n).
Proof.
  intros K row_leb shape t empty ok OM Et. destruct (st_self _ _ _ _ Et) as (ES & EP & Ht).
  split; [eapply st_sig_ok; eauto|]. split; [eapply st_sig_closed; eauto|]. unfold st_dual, st_primal. rewrite EP. cbn [bind].
  pose proof (StProofs.st_len row_leb t Ht) as L. eexists. eexists. split; [reflexivity|]. split; [reflexivity|].
  rewrite !map_length, seq_length, L, ES. split; auto. split; auto. intros n Hn. exists (st_sop K empty t n), (so_transpose K (st_sop K empty t n)).
  rewrite !nth_error_map. rewrite (nth_error_nth' _ 0) by (rewrite seq_length; auto). rewrite seq_nth by auto. split; auto. split; auto.
  split; constructor; cbn [st_sig d_ok dd_ok]; rewrite ES; auto.
Qed.
Print Assumptions C34_stencil_signature.

(** numpy's [allclose] is exact on integer diagonals, so C34 applies to them. *)
Definition Qint (q : Qc) : Prop := exists z : Z, this q == inject_Z z.
Theorem C34_allclose_integer : near_exact Qring Qint r0 (allclose 0) /\ near_exact Qring Qint r1 (allclose 1).
Proof.
  assert (H : forall (v : Z), (v = 0 \/ v = 1)%Z -> forall d : array Qring, (forall idx, in_range (ashape d) idx -> Qint (aget d idx)) -> allclose (inject_Z v) d = true ->
     forall idx, in_range (ashape d) idx -> this (aget d idx) == inject_Z v).
  { intros v Hv d Hd A idx R. unfold allclose in A. rewrite forallb_forall in A. specialize (A idx (proj2 (indices_in _ _) R)). apply Qle_bool_iff in A.
    destruct (Hd idx R) as [z Hz]. rewrite Hz in *. destruct (Z.eq_dec z v) as [->|NE]; [reflexivity|]. exfalso.
    assert (B : Qabs (inject_Z z - inject_Z v)%Q == inject_Z (Z.abs (z - v))) by (unfold Qminus; rewrite <- inject_Z_opp, <- inject_Z_plus; reflexivity).
    assert (C : (Qabs (inject_Z v) <= 1)%Q) by (destruct Hv; subst; unfold Qle; simpl; lia).
    rewrite B in A. assert (D : (1 <= inject_Z (Z.abs (z - v)))%Q) by (unfold Qle; simpl; lia).
    assert (F : ((1 # 100000000) + (1 # 100000) * Qabs (inject_Z v) <= (1 # 100000000) + (1 # 100000))%Q).
    { apply Qplus_le_r. rewrite <- (Qmult_1_r (1 # 100000)) at 2. apply Qmult_le_l; [reflexivity|auto]. }
    pose proof (Qle_trans _ _ _ D (Qle_trans _ _ _ A F)) as X. compute in X. apply X. reflexivity. }
  split; intros d Hd A idx R; apply Qc_is_canon.
  - rewrite (H 0%Z (or_introl eq_refl) d Hd A idx R). reflexivity.
  - rewrite (H 1%Z (or_intror eq_refl) d Hd A idx R). reflexivity.
Qed.
Print Assumptions C34_allclose_integer.

(** A small non-zero diagonal: the product of two of them is replaced by zero. *)
Theorem C34_tolerance_refuted : forall (c : Qc) s, (this c * this c <= 1 # 100000000)%Q ->
  let D := ODiag (K := Qring) (mkArr [] (fun _ => c)) s in
  op_mul Qring (allclose 0) (allclose 1) D D = Ok (OZero (s, s)).
Proof.
  intros c s H D. assert (N : allclose 0 (mkArr (K := Qring) [] (fun _ => rmul (c : Qring) c)) = true).
  { unfold allclose. cbn [ashape indices forallb aget rmul Qring]. rewrite andb_true_r. apply Qle_bool_iff.
    setoid_replace (this (c * c)%Qc - 0)%Q with (this c * this c)%Q by (unfold Qcmult; cbn [this Q2Qc]; rewrite Qred_correct; ring).
    rewrite Qabs_pos by (destruct (Qlt_le_dec (this c) 0) as [L|L]; [setoid_replace (this c * this c)%Q with (- this c * - this c)%Q by ring; apply Qmult_le_0_compat; apply Qopp_le_compat in L || idtac; try (apply Qlt_le_weak in L; apply Qopp_le_compat in L; auto)|apply Qmult_le_0_compat; auto]).
    setoid_replace ((1 # 100000000) + (1 # 100000) * Qabs 0)%Q with (1 # 100000000)%Q by reflexivity. auto. }
  subst D. unfold op_mul, mk_comp. cbn [combine tl forallb fst snd oshape]. rewrite list_eqb_refl'. cbn [andb bind]. unfold osimplify. cbn [osize fold_right Nat.add].
  cbn [simplify is_zero existsb isZero isDeriv isDual combine tl fst snd orb andb first_comp isId first_diags isDiag get_diag bind]. unfold bmul. cbn [ashape list_eqb bind aget oshape fst app].
  unfold simplify_diag.
  match goal with |- context [allclose 0 ?a] => replace (allclose 0 a) with true by (symmetry; exact N) end. unfold mk_comp. cbn [combine tl forallb bind simplify]. reflexivity.
Qed.
Print Assumptions C34_tolerance_refuted.
Example C34_tolerance_example : exists y z, let D := ODiag (K := Qring) (mkArr [] (fun _ => Q2Qc (1 # 10000))) [2] in
  (this (Q2Qc (1 # 10000)) * this (Q2Qc (1 # 10000)) <= 1 # 100000000)%Q /\
  ocall Qring D (mkArr [2] (fun _ => 1%Qc)) = Ok y /\ ocall Qring D y = Ok z /\ this (aget z [0]) == 1 # 100000000.
Proof. eexists. eexists. cbv zeta. split; [unfold Qle; simpl; lia|]. split; [reflexivity|]. split; [reflexivity|]. reflexivity. Qed.

(** Derivatives that fit by shape but not by degree: on a one-dimensional grid the derivative fits itself, its
    square is the second difference, and the product is zero. *)
Definition delta (s at_ : list nat) : array Zring := mkArr s (fun i => if list_eqb i at_ then 1%Z else 0%Z).
Theorem C34_degree_refuted : forall near0 near1 (empty : nat -> list nat -> Zring), exists t d y z w,
  stencil_topology lex_leb [4] true = Ok t /\ st_primal Zring empty t = Ok [d] /\
  ocall Zring (ODeriv d) (delta [1;4] [0;1]) = Ok y /\ ocall Zring (ODeriv d) y = Ok z /\
  (do c <- op_mul Zring near0 near1 (ODeriv d) (ODeriv d); ocall Zring c (delta [1;4] [0;1])) = Ok w /\
  aget z [0;1] = 1%Z /\ aget z [0;0] = (-2)%Z /\ aget w [0;1] = 0%Z /\ aget w [0;0] = 0%Z.
Proof.
  intros. eexists. eexists. eexists. eexists. eexists. split; [vm_compute; reflexivity|]. split; [reflexivity|]. split; [reflexivity|]. split; [reflexivity|].
  split; [reflexivity|]. split; [vm_compute; reflexivity|]. split; [vm_compute; reflexivity|]. split; vm_compute; reflexivity.
Qed.
Print Assumptions C34_degree_refuted.

(** C35.  Transposing succeeds, gives the adjoint, and transposing again gives back the very same expression. *)
Theorem C35_transpose_adjoint : forall (K : cring) (G : signature K), sig_ok K G -> forall o i j, typed K G o i j ->
  exists t, otranspose K o = Ok t /\ typed K G t j i /\ otranspose K t = Ok o /\
  forall x y, ashape x = shp K G j -> ashape y = shp K G i -> exists ox ty, ocall K o x = Ok ox /\ ocall K t y = Ok ty /\
    ashape ox = ashape y /\ ashape ty = ashape x /\ inner ox y = inner x ty.
Proof.
  intros K G GO o i j T. destruct (proj1 (transpose_good K G GO) o i j T) as (t & E & Tt & A & E'). exists t. split; auto. split; auto. split; auto.
  intros x y Sx Sy. destruct (typed_good K G GO _ _ _ T) as (_ & L & C). destruct (typed_good K G GO _ _ _ Tt) as (_ & L' & C').
  exists (act K o x), (act K t y). split; auto. split; auto. split; [rewrite (lin_shape _ _ _ _ L); auto|]. split; [rewrite (lin_shape _ _ _ _ L'); auto|]. apply A; auto.
Qed.
Print Assumptions C35_transpose_adjoint.

(** Every transposable leaf is allowed when spaces are array shapes. *)
Definition shape_sig (K : cring) : signature K := mkSig K (list nat) (fun s => s)
  (fun o i j => transposable o /\ so_shape K o = (i, j)) (fun o i j => transposable o /\ so_shape K o = (i, j)) (fun _ => True).
Theorem C35_shape_signature : forall K, sig_ok K (shape_sig K).
Proof.
  intros K. constructor; cbn [shape_sig space shp d_ok dd_ok dg_ok]; auto.
  - intros o i j [T S]. split; [apply transposable_t; auto|]. simpl. rewrite S. auto.
  - intros o i j [T S]. split; [apply transposable_t; auto|]. simpl. rewrite S. auto.
Qed.
Print Assumptions C35_shape_signature.

(** (hodge * d) and (dual d * hodge) + 0 on a 2 x 3 grid: typed, multiplied, simplified to one flat composition. *)
Example C34_example : exists t P d c, stencil_topology lex_leb [2;3] true = Ok t /\ st_primal Zring (fun _ _ => 7%Z) t = Ok P /\ nth_error P 0 = Some d /\
  let H0 := OHodge (K := Zring) (mkArr [] (fun _ => 3%Z)) [1;2;3] in
  let H1 := OHodge (K := Zring) (mkArr [] (fun _ => 5%Z)) [2;2;3] in
  let dd := ODual (so_transpose Zring d) in
  let ex v := fun a : array Zring => forallb (fun i => Z.eqb (aget a i) v) (indices (ashape a)) in
  (do a <- op_mul Zring (ex 0%Z) (ex 1%Z) dd H1; do b <- op_mul Zring (ex 0%Z) (ex 1%Z) (ODeriv d) (OId [1;2;3]);
   do e <- op_mul Zring (ex 0%Z) (ex 1%Z) a b; op_add Zring (ex 0%Z) (ex 1%Z) e (OZero ([1;2;3],[1;2;3]))) = Ok c /\
  c = OComp [dd; H1; ODeriv d] /\
  (do y <- ocall Zring c (delta [1;2;3] [0;0;0]); Ok (map (aget y) (indices [1;2;3]))) = Ok [20;-5;-5;-10;0;0]%Z.
Proof.
  eexists. eexists. eexists. eexists. split; [vm_compute; reflexivity|]. split; [reflexivity|]. split; [reflexivity|]. cbv zeta.
  split; [reflexivity|]. split; [reflexivity|]. vm_compute. reflexivity.
Qed.
