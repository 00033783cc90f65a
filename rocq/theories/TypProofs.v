(** Simplification and block products keep the typing of operators, whatever [allclose] answers. *)
Require Import List Arith Bool Lia Ring.
From Verif Require Import Util Arr StModel OpModel OpSpec OpProofs TrProofs BlkModel BlkSpec BlkProofs.
Import ListNotations.

Section Typ.
Variable K : cring.
Variable G : signature K.
Hypothesis GO : sig_ok K G.
Notation sh := (shp K G).
Notation tblock := (tblock K G).
Variables near0 near1 : array K -> bool.

Lemma simplify_diag_typed : forall d i self, diag_ok K G d i -> (self = ODiag d (sh i) \/ self = OHodge d (sh i)) ->
  typed K G (simplify_diag K near0 near1 d (sh i) self) i i /\ osize K (simplify_diag K near0 near1 d (sh i) self) = 1.
Proof.
  intros d i self HD Hs. unfold simplify_diag. destruct (near0 d); [|destruct (near1 d)]; [split; [constructor|auto]..|].
  destruct Hs; subst; split; auto; constructor; auto.
Qed.

Lemma simplify_typed : forall n o i j, typed K G o i j -> osize K o <= n -> exists c, simplify K near0 near1 n o = Ok c /\ typed K G c i j.
Proof.
  induction n as [|n IH]; intros o i j T Sz; [pose proof (osize_pos K o); lia|].
  destruct o; try (cbn [simplify]; eexists; split; [reflexivity|]; exact T; fail).
  - cbn [simplify]. assert (Q : i = j /\ s = sh j /\ diag_ok K G d j) by (inversion T; subst; auto). destruct Q as (-> & -> & H1).
    eexists. split; [reflexivity|]. apply simplify_diag_typed; auto.
  - cbn [simplify]. assert (Q : i = j /\ s = sh j /\ diag_ok K G d j) by (inversion T; subst; auto). destruct Q as (-> & -> & H1).
    eexists. split; [reflexivity|]. apply simplify_diag_typed; auto.
  - assert (TC : tchain K G l i j) by (inversion T; auto). pose proof (tchain_tch K G _ _ _ TC) as TT. cbn [osize] in Sz. fold (lsize K l) in Sz.
    destruct l as [|p l]; [inversion TC|]. destruct l as [|q l].
    { cbn [simplify]. assert (Tp : typed K G p i j) by (inversion TC; subst; auto; inversion H4). apply IH; auto. simpl in Sz. lia. }
    remember (p :: q :: l) as L eqn:EL.
    assert (US : simplify K near0 near1 (S n) (OComp L) =
        if is_zero K L then Ok (OZero (oshape K (OComp L)))
        else match first_comp K L with
        | Some (a, m, b) => do c <- mk_comp K (a ++ m ++ b); simplify K near0 near1 n c
        | None =>
          if existsb (isId K) L then
            match filter (fun p => negb (isId K p)) L with
            | [] => Ok (OId (fst (oshape K (OComp L))))
            | ops => do c <- mk_comp K ops; simplify K near0 near1 n c
            end
          else match first_diags K L with
          | Some (a, p, q, b) =>
              do dp <- get_diag K p; do dq <- get_diag K q; do d <- bmul K dp dq;
              let s := fst (oshape K p) in
              do c <- mk_comp K (a ++ [simplify_diag K near0 near1 d s (ODiag d s)] ++ b); simplify K near0 near1 n c
          | None => Ok (OComp L)
          end
        end) by (subst L; reflexivity).
    rewrite US. clear US EL p q l. destruct (is_zero K L) eqn:Z; [|destruct (first_comp K L) as [[[a m] b]|] eqn:FC; [|destruct (existsb (isId K) L) eqn:EI]].
    + destruct (tchain_good K G GO _ _ _ TC) as (S & _). rewrite S. eexists. split; [reflexivity|]. constructor.
    + apply first_comp_some in FC. subst L. apply tch_app in TT as (k & Ta & Tb). apply tch_inv in Tb as (j0 & H2 & H4). assert (H1 : tchain K G m k j0) by (inversion H2; auto).
      assert (Tm : tch K G m k j0) by (apply tchain_tch; auto).
      assert (T' : tchain K G (a ++ m ++ b) i j).
      { apply tch_tchain; [apply tch_app; exists k; split; auto; apply tch_app; eauto|]. destruct a; [|discriminate]. destruct m; [inversion H1|discriminate]. }
      rewrite (mk_comp_ok K G GO _ i j) by auto. cbn [bind]. apply IH.
      * constructor. auto.
      * cbn [osize]. fold (lsize K (a ++ m ++ b)). rewrite !lsize_app in *. cbn [lsize fold_right osize] in Sz. fold (lsize K m) in Sz. fold (lsize K b) in Sz. lia.
    + destruct (filter_id_ok K G GO _ _ _ TT) as [T' V]. pose proof (lsize_filter_lt K (fun p => negb (isId K p)) L) as LT.
      assert (EI' : existsb (fun p => negb (negb (isId K p))) L = true).
      { rewrite existsb_exists in *. destruct EI as (p & P1 & P2). exists p. rewrite P2. auto. }
      specialize (LT EI'). destruct (filter (fun p => negb (isId K p)) L) as [|p f] eqn:F.
      * inversion T'; subst. destruct (tchain_good K G GO _ _ _ TC) as (S & _). rewrite S. eexists. split; [reflexivity|]. constructor.
      * assert (T2 : tchain K G (p :: f) i j) by (apply tch_tchain; auto; discriminate). rewrite (mk_comp_ok K G GO _ i j) by auto. cbn [bind].
        apply IH; [constructor; auto|]. cbn [osize]. fold (lsize K (p :: f)). lia.
    + destruct (first_diags K L) as [[[[a p] q] b]|] eqn:FD; [|eexists; split; [reflexivity|]; auto].
      apply first_diags_some in FD as (-> & Dp & Dq). rewrite existsb_app in EI. apply orb_false_iff in EI as [_ EI]. cbn [existsb] in EI.
      apply orb_false_iff in EI as [Ip EI]. apply orb_false_iff in EI as [Iq _].
      apply tch_app in TT as (k & Ta & Tb). apply tch_inv in Tb as (j0 & H2 & H4). apply tch_inv in H4 as (j1 & H5 & H7).
      assert (DD : forall u i1 jj, typed K G u i1 jj -> isDiag K u = true -> isId K u = false ->
        i1 = jj /\ exists d, get_diag K u = Ok d /\ oshape K u = (sh i1, sh i1) /\ diag_ok K G d i1).
      { intros u i1 jj Tu Du Iu. destruct u; try discriminate; assert (Q : i1 = jj /\ s = sh jj /\ diag_ok K G d jj) by (inversion Tu; subst; auto); destruct Q as (-> & -> & H3); (split; [reflexivity|]); exists d; auto. }
      destruct (DD p k j0 H2 Dp Ip) as (-> & dp & Gp & Op & Sp). destruct (DD q j0 j1 H5 Dq Iq) as (-> & dq & Gq & Oq & Sq). clear DD.
      rewrite Gp, Gq. cbn [bind]. destruct (bmul_diag K G GO j1 dp dq Sp Sq) as (d & Ed & Sd & _). rewrite Ed. cbn [bind]. cbv zeta. rewrite Op. cbn [fst].
      destruct (simplify_diag_typed d j1 (ODiag d (sh j1)) Sd (or_introl eq_refl)) as (Tsd & Zsd).
      set (sd := simplify_diag K near0 near1 d (sh j1) (ODiag d (sh j1))) in *.
      assert (T' : tchain K G (a ++ [sd] ++ b) i j).
      { apply tch_tchain; [|destruct a; discriminate]. apply tch_app. exists j1. split; auto. econstructor; eauto. }
      rewrite (mk_comp_ok K G GO _ i j) by auto. cbn [bind]. apply IH; [constructor; auto|].
      cbn [osize]. fold (lsize K (a ++ [sd] ++ b)). rewrite !lsize_app in *. cbn [lsize fold_right] in *. fold (lsize K b) in *. pose proof (osize_pos K p). pose proof (osize_pos K q). lia.
  - assert (TC : tsum K G l i j) by (inversion T; auto). pose proof (proj1 (tsum_iff K G _ _ _) TC) as [NE F]. cbn [osize] in Sz. fold (lsize K l) in Sz.
    destruct l as [|p l]; [congruence|]. destruct l as [|q l].
    { cbn [simplify]. assert (Tp : typed K G p i j) by (inversion F; auto). apply IH; auto. simpl in Sz. lia. }
    remember (p :: q :: l) as L eqn:EL.
    assert (US : simplify K near0 near1 (S n) (OComb L) =
        if existsb (isZero K) L then
          match filter (fun p => negb (isZero K p)) L with
          | [] => Ok (OZero (oshape K (OComb L)))
          | ops => do c <- mk_comb K ops; simplify K near0 near1 n c
          end
        else match first_comb K L with
        | Some (a, m, b) => do c <- mk_comb K (a ++ m ++ b); simplify K near0 near1 n c
        | None => Ok (OComb L)
        end) by (subst L; reflexivity).
    rewrite US. clear US EL p q l. destruct (existsb (isZero K) L) eqn:EZ; [|destruct (first_comb K L) as [[[a m] b]|] eqn:FC].
    + pose proof (lsize_filter_lt K (fun p => negb (isZero K p)) L) as LT.
      assert (EZ' : existsb (fun p => negb (negb (isZero K p))) L = true).
      { rewrite existsb_exists in *. destruct EZ as (p & P1 & P2). exists p. rewrite P2. auto. }
      specialize (LT EZ').
      assert (F' : Forall (fun o => typed K G o i j) (filter (fun p => negb (isZero K p)) L)).
      { rewrite Forall_forall in *. intros p Hp. apply filter_In in Hp as [Hp _]. auto. }
      destruct (filter (fun p => negb (isZero K p)) L) as [|p f].
      * destruct (good_comb K G _ _ _ (tsum_good K G GO _ _ _ TC)) as [(S & L1 & _) V1]. rewrite S. eexists. split; [reflexivity|]. constructor.
      * assert (T2 : tsum K G (p :: f) i j) by (apply tsum_iff; split; auto; discriminate). rewrite (mk_comb_ok K G GO _ i j) by auto. cbn [bind].
        apply IH; [constructor; auto|]. cbn [osize]. fold (lsize K (p :: f)). lia.
    + apply first_comb_some in FC. subst L. apply Forall_app in F as [Fa Fb]. inversion Fb as [|? ? H1 H2]; subst. assert (H3 : tsum K G m i j) by (inversion H1; auto).
      assert (Fm := proj2 (proj1 (tsum_iff K G _ _ _) H3)).
      assert (T' : tsum K G (a ++ m ++ b) i j).
      { apply tsum_iff. split; [|apply Forall_app; split; auto; apply Forall_app; auto]. destruct a; [|discriminate]. destruct m; [inversion H3|discriminate]. }
      rewrite (mk_comb_ok K G GO _ i j) by auto. cbn [bind]. apply IH.
      * constructor. auto.
      * cbn [osize]. fold (lsize K (a ++ m ++ b)). rewrite !lsize_app in *. cbn [lsize fold_right osize] in Sz. fold (lsize K m) in Sz. fold (lsize K b) in Sz. lia.
    + eexists. split; [reflexivity|]. auto.
Qed.

Lemma op_mul_typed : forall a b i j k, typed K G a i j -> typed K G b j k -> exists c, op_mul K near0 near1 a b = Ok c /\ typed K G c i k.
Proof.
  intros a b i j k Ta Tb. unfold op_mul. assert (TC : tchain K G [a; b] i k) by (econstructor; eauto; constructor; auto).
  rewrite (mk_comp_ok K G GO _ i k) by auto. cbn [bind]. apply simplify_typed; auto. constructor; auto.
Qed.
Lemma op_add_typed : forall a b i j, typed K G a i j -> typed K G b i j -> exists c, op_add K near0 near1 a b = Ok c /\ typed K G c i j.
Proof.
  intros a b i j Ta Tb. unfold op_add. assert (TC : tsum K G [a; b] i j) by (apply ts_cons; auto; constructor; auto).
  rewrite (mk_comb_ok K G GO _ i j) by auto. cbn [bind]. apply simplify_typed; auto. constructor; auto.
Qed.

Lemma add_products_typed : forall o i j, typed K G o i j -> forall brow L, Forall2 (fun b k => typed K G b j k) brow L -> forall acc, Forall2 (fun a k => typed K G a i k) acc L ->
  exists acc', add_products K near0 near1 o acc brow = Ok acc' /\ Forall2 (fun a k => typed K G a i k) acc' L.
Proof.
  intros o i j To brow L HB. induction HB as [|b k brow L Tb HB IH]; intros acc HA; inversion HA as [|a k' acc0 L' Ta HA']; subst.
  - exists []. auto.
  - destruct (op_mul_typed o b i j k To Tb) as (p & Ep & Tp). destruct (op_add_typed a p i k Ta Tp) as (s & Es & Ts).
    destruct (IH acc0 HA') as (acc' & E & HA''). cbn [add_products]. rewrite Ep. cbn [bind]. rewrite Es. cbn [bind]. rewrite E. cbn [bind]. eauto.
Qed.
Lemma row_matmul_typed : forall row J i, Forall2 (fun o j => typed K G o i j) row J -> forall B L, tblock B J L -> forall acc, Forall2 (fun a k => typed K G a i k) acc L ->
  exists acc', row_matmul K near0 near1 acc row B = Ok acc' /\ Forall2 (fun a k => typed K G a i k) acc' L.
Proof.
  intros row J i H. induction H as [|o j row J To H IH]; intros B L HB acc HA; inversion HB as [|brow j' B' J' Tb HB']; subst; [exists acc; auto|].
  cbn [row_matmul].
  assert (STEP : exists acc1, (if isZero K o then Ok acc else add_products K near0 near1 o acc brow) = Ok acc1 /\ Forall2 (fun a k => typed K G a i k) acc1 L).
  { destruct (isZero K o); [exists acc; auto|]. apply (add_products_typed o i j); auto. }
  destruct STEP as (acc1 & E1 & HA1). rewrite E1. cbn [bind]. auto.
Qed.
Lemma matmul_typed : forall A B I J L, tblock A I J -> tblock B J L -> J <> [] -> exists C, matmul K near0 near1 A B = Ok C /\ tblock C I L.
Proof.
  intros A B I J L HA HB NE. unfold matmul.
  replace (forallb (fun row => length row =? length B) A) with true.
  2:{ symmetry. apply forallb_forall. intros row Hr. apply Nat.eqb_eq. rewrite (tblock_lengths K G A I J) by auto. symmetry. eapply Forall2_len; eauto. }
  rewrite (row_shapes K G GO A I J) by auto. cbn [bind].
  assert (CS : col_shapes K B = Ok (map sh L)).
  { inversion HB as [|brow j B' J' Tb HB']; subst; [congruence|]. cbn [col_shapes]. f_equal. clear - Tb GO. induction Tb; auto. cbn [map]. f_equal; auto.
    destruct (typed_good K G GO _ _ _ H) as (S & _). rewrite S. auto. }
  rewrite CS. cbn [bind]. induction HA as [|row i A I T HA IH]; [exists []; split; auto; constructor|].
  destruct IH as (C & E & HC).
  assert (ZA : Forall2 (fun a k => typed K G a i k) (map (fun r => OZero (sh i, r)) (map sh L)) L).
  { clear. induction L; constructor; auto. constructor. }
  destruct (row_matmul_typed row J i T B L HB _ ZA) as (c & Ec & Tc). exists (c :: C). cbn [combine map mapM fst snd]. rewrite Ec. cbn [bind]. rewrite E. cbn [bind].
  split; auto. constructor; auto.
Qed.
Lemma bsimplify_typed : forall A I J, tblock A I J -> exists C, bsimplify K near0 near1 A = Ok C /\ tblock C I J.
Proof.
  intros A I J H. unfold bsimplify. induction H as [|row i A I T H IH]; [exists []; split; auto; constructor|].
  destruct IH as (C & E & HC).
  assert (R : exists c, mapM (osimplify K near0 near1) row = Ok c /\ Forall2 (fun o j => typed K G o i j) c J).
  { clear - T GO. induction T as [|o j row J To T IH]; [exists []; auto|].
    destruct IH as (c & E & Tc). destruct (simplify_typed (osize K o) o i j To (le_n _)) as (p & Ep & Tp). exists (p :: c). cbn [mapM]. unfold osimplify at 1. rewrite Ep. cbn [bind]. rewrite E. cbn [bind]. auto. }
  destruct R as (c & Ec & Tc). exists (c :: C). cbn [mapM]. rewrite Ec. cbn [bind]. rewrite E. cbn [bind]. split; auto. constructor; auto.
Qed.

(** A typed block operator sends a block vector of zeros to a block vector of zeros. *)
Definition bzero (x : list (array K)) : Prop := Forall (fun a => forall idx, in_range (ashape a) idx -> aget a idx = r0) x.
Lemma vector_mul_zero : forall A I J x, tblock A I J -> J <> [] -> bv K G x J -> bzero x -> exists y, vector_mul K A x = Ok y /\ bv K G y I /\ bzero y.
Proof.
  intros A I J x T NE B Z. destruct (vector_mul_ok K G GO A I J x T NE B) as (y & E & By & V). exists y. split; auto. split; auto.
  assert (RZ : forall row i, Forall2 (fun o j => typed K G o i j) row J -> forall idx, in_range (sh i) idx -> rowval K row x idx = r0).
  { clear - B Z GO. intros row i F. revert x B Z. induction F as [|o j row J To F IH]; intros x B Z idx R; [reflexivity|].
    inversion B as [|v j' xs J' Sv B']; subst. inversion Z as [|? ? Z0 Z']; subst. rewrite rowval_cons. rewrite (IH xs) by auto.
    assert (Q : aeq (act K o v) (zeros K (sh i))).
    { pose proof (proj1 (proj2 (typed_good K G GO _ _ _ To))) as Lo. eapply aeq_trans; [apply (lin_ext _ _ _ _ Lo v (zeros K (sh j))); auto|apply lin_zero; auto]. split; auto. }
    destruct Q as [Q1 Q2]. rewrite Q2 by (rewrite Q1; auto). cbn [aget zeros]. apply (rth K). }
  clear E. unfold vmul_spec in V. revert y By V. induction T as [|row i A I Tr T IH]; intros y By V; inversion V as [|? y0 ? ys [S0 V0] V']; subst; constructor.
  - cbn [fst snd] in *. intros idx R. rewrite S0 in R. rewrite V0 by auto. eapply RZ; eauto.
  - inversion By; subst. apply IH; auto.
Qed.
End Typ.
