(** Proofs about block operators. *)
Require Import List Arith Bool Lia Ring.
From Verif Require Import Util Arr StModel OpModel OpSpec OpProofs TrProofs BlkModel BlkSpec.
Import ListNotations.

Section BlkP.
Variable K : cring.
Add Ring Kr : (rth K).
Local Open Scope ring_scope'.
Variable G : signature K.
Hypothesis GO : sig_ok K G.
Notation sh := (shp K G).
Notation tblock := (tblock K G).
Notation bv := (bv K G).
Notation bop := (list (list (op K))).
Notation bvec := (list (array K)).

Definition rowval (row : list (op K)) (x : bvec) (idx : list nat) : K := rsum (map (fun p => aget (act K (fst p) (snd p)) idx) (combine row x)).

Lemma rowval_cons : forall o row v x idx, rowval (o :: row) (v :: x) idx = aget (act K o v) idx + rowval row x idx.
Proof. reflexivity. Qed.

Lemma act_shape : forall o i j x, typed K G o i j -> ashape x = sh j -> ashape (act K o x) = sh i.
Proof. intros o i j x T Sx. apply (lin_shape _ _ _ _ (proj1 (proj2 (typed_good K G GO _ _ _ T)))). auto. Qed.

Lemma row_mul_ok : forall row J i, Forall2 (fun o j => typed K G o i j) row J -> forall x acc, bv x J -> ashape acc = sh i ->
  exists r, row_mul K acc row x = Ok r /\ ashape r = sh i /\ forall idx, in_range (sh i) idx -> aget r idx = aget acc idx + rowval row x idx.
Proof.
  intros row J i H. induction H as [|o j row J T H IH]; intros x acc B Sa.
  - exists acc. split; auto. split; auto. intros. unfold rowval. simpl. ring.
  - inversion B as [|v j' x' J' Sv B']; subst. cbn [row_mul tl]. destruct (isZero K o) eqn:Z.
    + destruct (IH x' acc B' Sa) as (r & E & Sr & V). exists r. split; auto. split; auto. intros idx R. rewrite V by auto. rewrite rowval_cons.
      destruct o; try discriminate. rewrite (act_zero K G GO _ i j) by auto. simpl. ring.
    + destruct (typed_good K G GO _ _ _ T) as (_ & L & C). rewrite C by auto. cbn [bind]. unfold badd. rewrite (act_shape o i j) by auto. rewrite Sa, list_eqb_refl'. cbn [bind].
      destruct (IH x' (mkArr (sh i) (fun i => aget acc i + aget (act K o v) i)) B' eq_refl) as (r & E & Sr & V). rewrite E. exists r. split; auto. split; auto.
      intros idx R. rewrite V by auto. rewrite rowval_cons. simpl. ring.
Qed.

Definition vmul_spec (A : bop) (I : list (space K G)) (x y : bvec) : Prop :=
  Forall2 (fun ri yi => ashape yi = sh (snd ri) /\ forall idx, in_range (sh (snd ri)) idx -> aget yi idx = rowval (fst ri) x idx) (combine A I) y.

Lemma row_shapes : forall A I J, tblock A I J -> J <> [] -> mapM (row_shape K) A = Ok (map sh I).
Proof.
  intros A I J H NE. induction H as [|row i A I T H IH]; auto. cbn [mapM map]. inversion T as [|o j row' J' To T']; subst; [congruence|].
  cbn [row_shape]. destruct (typed_good K G GO _ _ _ To) as (S & _). rewrite S. cbn [bind fst]. rewrite IH by auto. auto.
Qed.

Lemma vector_mul_ok : forall A I J x, tblock A I J -> J <> [] -> bv x J -> exists y, vector_mul K A x = Ok y /\ bv y I /\ vmul_spec A I x y.
Proof.
  intros A I J x H NE B. unfold vector_mul. rewrite (row_shapes A I J) by auto. cbn [bind].
  induction H as [|row i A I T H IH].
  - exists []. split; auto. split; constructor.
  - destruct IH as (y & E & By & V). destruct (row_mul_ok row J i T x (zeros K (sh i)) B eq_refl) as (r & Er & Sr & Vr).
    exists (r :: y). cbn [combine map mapM fst snd]. rewrite Er. cbn [bind]. rewrite E. cbn [bind]. split; auto. split; [constructor; auto|].
    constructor; auto. cbn [fst snd]. split; auto. intros idx R. rewrite Vr by auto. simpl. ring.
Qed.

Lemma vmul_shapes : forall A I J x y, tblock A I J -> vmul_spec A I x y -> bv y I.
Proof.
  intros A I J x y H. revert y. induction H; intros z V; inversion V; subst; constructor; auto; [apply H3|]. apply IHForall2. auto.
Qed.
Lemma vmul_unique : forall A I x y z, vmul_spec A I x y -> vmul_spec A I x z -> Forall2 aeq y z.
Proof.
  intros A I x y z. unfold vmul_spec. generalize (combine A I). intros l H. revert z. induction H; intros z Hz; inversion Hz; subst; constructor; auto.
  destruct H as [S V], H3 as [S' V']. split; [congruence|]. intros idx R. rewrite S in R. rewrite V, V' by auto. auto.
Qed.

(** Only the action of the blocks matters. *)
Lemma rowval_ext : forall row J i x x', Forall2 (fun o j => typed K G o i j) row J -> bv x J -> Forall2 aeq x x' -> forall idx, in_range (sh i) idx -> rowval row x idx = rowval row x' idx.
Proof.
  intros row J i x x' H. revert x x'. induction H as [|o j row J T H IH]; intros x x' B E idx R; [reflexivity|].
  inversion B as [|v j' xs J' Sv B']; subst. inversion E as [|? v' ? xs' Ev E']; subst. rewrite !rowval_cons. f_equal; [|apply IH; auto].
  apply (lin_ext _ _ _ _ (proj1 (proj2 (typed_good K G GO _ _ _ T)))); auto. rewrite (act_shape o i j); auto.
Qed.

Section Products.
Hypothesis GC : sig_closed K G.
Variables near0 near1 : array K -> bool.
Hypothesis N0 : forall d, dgs K G d -> near0 d = true -> forall idx, in_range (ashape d) idx -> aget d idx = r0.
Hypothesis N1 : forall d, dgs K G d -> near1 d = true -> forall idx, in_range (ashape d) idx -> aget d idx = r1.

Lemma op_mul_ok : forall a b i j k, typed K G a i j -> typed K G b j k -> exists c, op_mul K near0 near1 a b = Ok c /\ typed K G c i k /\
  forall x, ashape x = sh k -> aeq (act K c x) (act K a (act K b x)).
Proof.
  intros a b i j k Ta Tb. unfold op_mul. assert (TC : tchain K G [a; b] i k) by (econstructor; eauto; constructor; auto).
  rewrite (mk_comp_ok K G GO _ i k) by auto. cbn [bind]. unfold osimplify.
  destruct (simplify_ok K G GO GC near0 near1 N0 N1 (osize K (OComp [a; b])) (OComp [a; b]) i k) as (c & E & Tc & Sc); auto. { constructor; auto. }
  exists c. split; auto. split; auto. intros x Sx. apply aeq_sym. specialize (Sc x Sx).
  rewrite (proj2 (good_comp K G _ _ _ (tchain_good K G GO _ _ _ TC))) in Sc by auto. exact Sc.
Qed.
Lemma op_add_ok : forall a b i j, typed K G a i j -> typed K G b i j -> exists c, op_add K near0 near1 a b = Ok c /\ typed K G c i j /\
  forall x, ashape x = sh j -> forall idx, in_range (sh i) idx -> aget (act K c x) idx = aget (act K a x) idx + aget (act K b x) idx.
Proof.
  intros a b i j Ta Tb. unfold op_add. assert (TC : tsum K G [a; b] i j) by (apply ts_cons; auto; constructor; auto).
  rewrite (mk_comb_ok K G GO _ i j) by auto. cbn [bind]. unfold osimplify.
  destruct (simplify_ok K G GO GC near0 near1 N0 N1 (osize K (OComb [a; b])) (OComb [a; b]) i j) as (c & E & Tc & Sc); auto. { constructor; auto. }
  exists c. split; auto. split; auto. intros x Sx idx R. destruct (Sc x Sx) as [S1 S2].
  destruct (good_comb K G _ _ _ (tsum_good K G GO _ _ _ TC)) as [(_ & L & _) V]. rewrite <- S2 by (rewrite (lin_shape _ _ _ _ L); auto).
  rewrite V by auto. simpl. ring.
Qed.

Lemma add_products_ok : forall o i j, typed K G o i j -> forall brow L, Forall2 (fun b k => typed K G b j k) brow L -> forall acc, Forall2 (fun a k => typed K G a i k) acc L ->
  exists acc', add_products K near0 near1 o acc brow = Ok acc' /\ Forall2 (fun a k => typed K G a i k) acc' L /\
  forall x, bv x L -> forall z, ashape z = sh j -> (forall idx, in_range (sh j) idx -> aget z idx = rowval brow x idx) ->
    forall idx, in_range (sh i) idx -> rowval acc' x idx = rowval acc x idx + aget (act K o z) idx.
Proof.
  intros o i j To brow L HB. pose proof (proj1 (proj2 (typed_good K G GO _ _ _ To))) as Lo.
  induction HB as [|b k brow L Tb HB IH]; intros acc HA; inversion HA as [|a k' acc0 L' Ta HA']; subst.
  - exists []. split; auto. split; auto. intros x B z Sz Vz idx R. inversion B; subst.
    assert (E : aeq (act K o z) (zeros K (sh i))).
    { eapply aeq_trans; [apply (lin_ext _ _ _ _ Lo); auto|apply lin_zero; eauto]. split; auto. intros q Hq. rewrite Sz in Hq. rewrite Vz by auto. reflexivity. }
    destruct E as [E1 E2]. rewrite E2 by (rewrite E1; auto). simpl. unfold rowval. simpl. ring.
  - destruct (op_mul_ok o b i j k To Tb) as (p & Ep & Tp & Vp). destruct (op_add_ok a p i k Ta Tp) as (s & Es & Ts & Vs).
    destruct (IH acc0 HA') as (acc' & E & HA'' & V). cbn [add_products]. rewrite Ep. cbn [bind]. rewrite Es. cbn [bind]. rewrite E. cbn [bind].
    exists (s :: acc'). split; auto. split; [constructor; auto|]. intros x B z Sz Vz idx R. inversion B as [|v k' xs J' Sv B']; subst.
    rewrite !rowval_cons. set (z' := mkArr (sh j) (rowval brow xs)).
    assert (Z : aeq z (aadd (act K b v) z')).
    { split; [simpl; rewrite (act_shape b j k); auto|]. intros q Hq. rewrite Sz in Hq. rewrite Vz by auto. rewrite rowval_cons. reflexivity. }
    assert (Q : aeq (act K o z) (aadd (act K o (act K b v)) (act K o z'))).
    { eapply aeq_trans; [apply (lin_ext _ _ _ _ Lo); eauto|]. apply (lin_add _ _ _ _ Lo); auto. apply (act_shape b j k); auto. }
    destruct Q as [Q1 Q2]. rewrite Q2 by (rewrite (act_shape o i j); auto). cbn [aadd aget].
    rewrite (V xs B' z') by auto. rewrite Vs by auto. destruct (Vp v Sv) as [_ Vp']. rewrite Vp' by (rewrite (act_shape p i k); auto). ring.
Qed.

Lemma row_matmul_ok : forall row J i, Forall2 (fun o j => typed K G o i j) row J -> forall B L, tblock B J L -> forall acc, Forall2 (fun a k => typed K G a i k) acc L ->
  exists acc', row_matmul K near0 near1 acc row B = Ok acc' /\ Forall2 (fun a k => typed K G a i k) acc' L /\
  forall x y, bv x L -> vmul_spec B J x y -> forall idx, in_range (sh i) idx -> rowval acc' x idx = rowval acc x idx + rowval row y idx.
Proof.
  intros row J i H. induction H as [|o j row J To H IH]; intros B L HB acc HA; inversion HB as [|brow j' B' J' Tb HB']; subst.
  - exists acc. split; auto. split; auto. intros x y Bx V idx R. unfold rowval at 3. simpl. ring.
  - cbn [row_matmul].
    assert (STEP : exists acc1, (if isZero K o then Ok acc else add_products K near0 near1 o acc brow) = Ok acc1 /\ Forall2 (fun a k => typed K G a i k) acc1 L /\
       forall x, bv x L -> forall z, ashape z = sh j -> (forall idx, in_range (sh j) idx -> aget z idx = rowval brow x idx) ->
         forall idx, in_range (sh i) idx -> rowval acc1 x idx = rowval acc x idx + aget (act K o z) idx).
    { destruct (isZero K o) eqn:Z.
      - exists acc. split; auto. split; auto. intros x Bx z Sz _ idx R. destruct o; try discriminate. rewrite (act_zero K G GO _ i j) by auto. simpl. ring.
      - apply (add_products_ok o i j); auto. }
    destruct STEP as (acc1 & E1 & HA1 & V1). rewrite E1. cbn [bind]. destruct (IH B' L HB' acc1 HA1) as (acc2 & E2 & HA2 & V2). exists acc2. split; auto. split; auto.
    intros x y Bx V idx R. inversion V as [|? yj ? ys [Sy Vy] V']; subst. cbn [fst snd] in *. rewrite rowval_cons. rewrite (V2 x ys) by auto. rewrite (V1 x Bx yj) by auto. ring.
Qed.

Lemma tblock_lengths : forall A I J, tblock A I J -> forall row, In row A -> length row = length J.
Proof. intros A I J H. induction H; intros row Hr; [destruct Hr|]. destruct Hr as [<-|Hr]; auto. apply Forall2_len in H. auto. Qed.

Lemma matmul_ok : forall A B I J L, tblock A I J -> tblock B J L -> J <> [] -> exists C, matmul K near0 near1 A B = Ok C /\ tblock C I L /\
  forall x y w, bv x L -> vmul_spec B J x y -> (vmul_spec C I x w <-> vmul_spec A I y w).
Proof.
  intros A B I J L HA HB NE. unfold matmul.
  replace (forallb (fun row => length row =? length B) A) with true.
  2:{ symmetry. apply forallb_forall. intros row Hr. apply Nat.eqb_eq. rewrite (tblock_lengths A I J) by auto. symmetry. eapply Forall2_len; eauto. }
  rewrite (row_shapes A I J) by auto. cbn [bind].
  assert (CS : col_shapes K B = Ok (map sh L)).
  { inversion HB as [|brow j B' J' Tb HB']; subst; [congruence|]. cbn [col_shapes]. f_equal. clear - Tb GO. induction Tb; auto. cbn [map]. f_equal; auto.
    destruct (typed_good K G GO _ _ _ H) as (S & _). rewrite S. auto. }
  rewrite CS. cbn [bind]. induction HA as [|row i A I T HA IH].
  - exists []. split; auto. split; [constructor|]. intros. split; intros V; inversion V; constructor.
  - destruct IH as (C & E & HC & V).
    assert (ZA : Forall2 (fun a k => typed K G a i k) (map (fun r => OZero (sh i, r)) (map sh L)) L).
    { clear. induction L; constructor; auto. constructor. }
    destruct (row_matmul_ok row J i T B L HB _ ZA) as (c & Ec & Tc & Vc). exists (c :: C). cbn [combine map mapM fst snd]. rewrite Ec. cbn [bind]. rewrite E. cbn [bind].
    split; auto. split; [constructor; auto|]. intros x y w Bx Vy.
    assert (RV : forall idx, in_range (sh i) idx -> rowval c x idx = rowval row y idx).
    { intros idx R. rewrite (Vc x y) by auto. assert (Z : rowval (map (fun r => OZero (sh i, r)) (map sh L)) x idx = r0); [|rewrite Z; ring].
      unfold rowval. apply rsum_0. intros [o v] Hov. clear - Hov Bx GO. revert Hov. induction Bx; simpl; [tauto|]. intros [Q|Hov]; auto.
      inversion Q; subst. cbn [fst snd]. rewrite (act_zero K G GO _ i y) by (auto; constructor). auto. }
    unfold vmul_spec. cbn [combine]. split; intros W; inversion W as [|? w0 ? ws [S0 V0] W']; subst; cbn [fst snd] in *; constructor; auto.
    + split; auto. intros idx R. cbn [fst]. rewrite <- RV by auto. auto.
    + apply (V x y ws); auto.
    + split; auto. intros idx R. cbn [fst]. rewrite RV by auto. auto.
    + apply (V x y ws); auto.
Qed.

Lemma osimplify_ok : forall o i j, typed K G o i j -> exists c, osimplify K near0 near1 o = Ok c /\ typed K G c i j /\ same K G o c j.
Proof. intros. apply (simplify_ok K G GO GC near0 near1 N0 N1); auto. Qed.

Lemma bsimplify_ok : forall A I J, tblock A I J -> exists C, bsimplify K near0 near1 A = Ok C /\ tblock C I J /\
  forall x w, bv x J -> (vmul_spec C I x w <-> vmul_spec A I x w).
Proof.
  intros A I J H. unfold bsimplify. induction H as [|row i A I T H IH].
  - exists []. split; auto. split; [constructor|]. intros; reflexivity.
  - destruct IH as (C & E & HC & V).
    assert (R : exists c, mapM (osimplify K near0 near1) row = Ok c /\ Forall2 (fun o j => typed K G o i j) c J /\
       forall x, bv x J -> forall idx, in_range (sh i) idx -> rowval c x idx = rowval row x idx).
    { clear - T GO GC N0 N1. induction T as [|o j row J To T IH]; [exists []; auto|].
      destruct IH as (c & E & Tc & V). destruct (osimplify_ok o i j To) as (p & Ep & Tp & Sp). exists (p :: c). cbn [mapM]. rewrite Ep. cbn [bind]. rewrite E. cbn [bind].
      split; auto. split; [constructor; auto|]. intros x B idx R. inversion B as [|v j' xs J' Sv B']; subst. rewrite !rowval_cons. rewrite V by auto. f_equal.
      symmetry. apply (Sp v Sv). rewrite (act_shape o i j); auto. }
    destruct R as (c & Ec & Tc & Vc). exists (c :: C). cbn [mapM]. rewrite Ec. cbn [bind]. rewrite E. cbn [bind]. split; auto. split; [constructor; auto|].
    intros x w B. unfold vmul_spec. cbn [combine]. split; intros W; inversion W as [|? w0 ? ws [S0 V0] W']; subst; cbn [fst snd] in *; constructor; auto.
    + split; auto. intros idx R. cbn [fst]. rewrite <- Vc by auto. auto.
    + apply (V x ws); auto.
    + split; auto. intros idx R. cbn [fst]. rewrite Vc by auto. auto.
    + apply (V x ws); auto.
Qed.
End Products.

(** ---- transpose ---- *)

Lemma inner_rowval : forall row J i x y a, Forall2 (fun o j => typed K G o i j) row J -> bv x J -> ashape y = sh i -> ashape a = sh i ->
  (forall idx, in_range (sh i) idx -> aget a idx = rowval row x idx) -> inner a y = rsum (map (fun p => inner (act K (fst p) (snd p)) y) (combine row x)).
Proof.
  intros row J i x y a T. revert x a. induction T as [|o j row J To T IH]; intros x a B Sy Sa Va.
  - simpl. unfold inner. apply rsum_0. intros idx Hi. apply indices_in in Hi. rewrite Va by (rewrite <- Sa; auto). unfold rowval. simpl. ring.
  - inversion B as [|v j' xs J' Sv B']; subst. cbn [combine map]. rewrite (rsum_cons K). cbn [fst snd].
    rewrite <- (IH xs (mkArr (sh i) (rowval row xs)) B' Sy eq_refl (fun _ _ => eq_refl)).
    rewrite <- inner_add_l by (rewrite (act_shape o i j); auto). unfold inner. simpl. rewrite Sa, (act_shape o i j) by auto. apply rsum_ext. intros idx Hi. apply indices_in in Hi.
    rewrite Va by auto. rewrite rowval_cons. reflexivity.
Qed.

(** The entries of a column. *)
Definition tcol (k : nat) (A : bop) : result (list (op K)) :=
  mapM (fun row => match nth_error row k with Some o => otranspose K o | None => Err IndexError end) A.

Lemma tcol_ok : forall A I J, tblock A I J -> forall k j, nth_error J k = Some j -> exists c, tcol k A = Ok c /\ Forall2 (fun o i => typed K G o j i) c I /\
  forall x y v, bv x J -> bv y I -> nth_error x k = Some v ->
    rsum (map (fun p => inner (act K (fst p) (snd p)) v) (combine c y)) =
    rsum (map (fun ry => match nth_error (fst ry) k with Some o => inner (act K o v) (snd ry) | None => r0 end) (combine A y)).
Proof.
  intros A I J H k j Hk. unfold tcol. induction H as [|row i A I T H IH].
  - exists []. auto.
  - destruct IH as (c & E & Tc & V). assert (Q : exists o, nth_error row k = Some o /\ typed K G o i j).
    { clear - T Hk. revert k Hk. induction T; intros [|k] Hk; try discriminate; cbn [nth_error] in *; eauto. injection Hk as <-. eauto. }
    destruct Q as (o & Ho & To). destruct (proj1 (transpose_good K G GO) o i j To) as (t & Et & Tt & At & _). exists (t :: c). cbn [mapM]. rewrite Ho, Et. cbn [bind].
    rewrite E. cbn [bind]. split; auto. split; [constructor; auto|]. intros x y v Bx By Hv. inversion By as [|y0 i' ys I' Sy By']; subst.
    cbn [combine map]. rewrite !(rsum_cons K). cbn [fst snd]. rewrite Ho. f_equal; [|apply (V x); auto].
    assert (Sv : ashape v = sh j).
    { clear - Bx Hv Hk. revert k Hk Hv. induction Bx; intros [|k] Hk Hv; try discriminate; cbn [nth_error] in *; eauto. congruence. }
    rewrite (inner_comm K) by (rewrite (act_shape t j i); auto). symmetry. apply At; auto.
Qed.

Lemma rsum_combine_seq : forall A B (f : A * B -> K) (l : list A) (m : list B) (da : A) (db : B), length l = length m ->
  rsum (map f (combine l m)) = rsum (map (fun i => f (nth i l da, nth i m db)) (seq 0 (length l))).
Proof.
  intros A B f l. induction l as [|a l IH]; intros m da db L; destruct m as [|b m]; try discriminate; auto.
  cbn [combine map length seq]. rewrite !(rsum_cons K). f_equal. rewrite <- seq_shift, map_map. apply (IH m da db). simpl in L. lia.
Qed.

Lemma btranspose_ok : forall A I J, tblock A I J -> I <> [] -> exists T, btranspose K A = Ok T /\ tblock T J I /\
  forall x y ax ty, bv x J -> bv y I -> vmul_spec A I x ax -> vmul_spec T J y ty -> binner ax y = binner x ty.
Proof.
  intros A I J H NE.
  assert (N : match A with [] => 0%nat | row :: _ => length row end = length J).
  { inversion H as [|row i A' I' T H']; subst; [congruence|]. eapply Forall2_len; eauto. }
  unfold btranspose. rewrite N.
  assert (GEN : forall J2 J1, J = J1 ++ J2 -> exists T, mapM (fun k => tcol k A) (seq (length J1) (length J2)) = Ok T /\ tblock T J2 I /\
     forall x y ty, bv x J -> bv y I -> vmul_spec T J2 y ty ->
       binner (skipn (length J1) x) ty = rsum (map (fun k => rsum (map (fun ry => match nth_error (fst ry) k, nth_error x k with Some o, Some v => inner (act K o v) (snd ry) | _, _ => r0 end) (combine A y))) (seq (length J1) (length J2)))).
  { induction J2 as [|j J2 IH]; intros J1 EJ.
    - exists []. split; auto. split; [constructor|]. intros x y ty Bx By V. inversion V; subst. unfold binner. rewrite combine_nil. reflexivity.
    - destruct (IH (J1 ++ [j])) as (T & E & HT & V). { rewrite <- app_assoc. auto. }
      rewrite app_length in *. cbn [length] in *. replace (length J1 + 1)%nat with (S (length J1)) in * by lia.
      assert (Hk : nth_error J (length J1) = Some j) by (rewrite EJ, nth_error_app2, Nat.sub_diag; auto).
      destruct (tcol_ok A I J H (length J1) j Hk) as (c & Ec & Tc & Vc). exists (c :: T). cbn [seq mapM]. rewrite Ec. cbn [bind]. rewrite E. cbn [bind].
      split; auto. split; [constructor; auto|]. intros x y ty Bx By W. unfold vmul_spec in W. cbn [combine] in W. inversion W as [|? t0 ? ts [S0 V0] W']; subst. cbn [fst snd] in *.
      assert (Sk : skipn (length J1) x = nth (length J1) x (zeros K []) :: skipn (S (length J1)) x /\ nth_error x (length J1) = Some (nth (length J1) x (zeros K [])) /\ ashape (nth (length J1) x (zeros K [])) = sh j).
      { clear - Bx. unfold bv in Bx. revert x Bx. induction J1 as [|a J1 IH]; intros x Bx; cbn [app length] in *; inversion Bx; subst; auto. apply (IH l). auto. }
      destruct Sk as (Sk & Nk & Shk). rewrite Sk. unfold binner. cbn [combine map]. rewrite !(rsum_cons K). f_equal; [|apply (V x y ts); auto].
      cbn [fst snd]. rewrite inner_comm by congruence. rewrite (inner_rowval c I j y _ t0) by auto. rewrite (Vc x y) by auto. rewrite Nk. reflexivity. }
  destruct (GEN J [] eq_refl) as (T & E & HT & V). exists T. split; auto. split; auto. intros x y ax ty Bx By W Wt.
  specialize (V x y ty Bx By Wt). cbn [length skipn] in V. rewrite V. clear V E HT Wt. rewrite (rsum_swap K).
  assert (W2 : Forall2 (fun ri yi => ashape yi = sh (snd ri) /\ forall idx, in_range (sh (snd ri)) idx -> aget yi idx = rowval (fst ri) x idx) (combine A I) ax) by exact W.
  clear W N GEN NE. revert y By ax W2. unfold binner. induction H as [|row i A I T0 H IH]; intros y By ax W; inversion By as [|y0 i' ys I' Sy By']; subst.
  - inversion W; subst. reflexivity.
  - cbn [combine] in W. inversion W as [|? a0 ? as_ [S0 V0] W']; subst. cbn [fst snd] in *. cbn [combine map]. rewrite !(rsum_cons K). f_equal; [|apply IH; auto].
    cbn [fst snd]. rewrite (inner_rowval row J i x) by auto. assert (LL : length row = length x) by (rewrite (Forall2_len _ _ _ _ _ T0); symmetry; eapply Forall2_len; eauto).
    rewrite (rsum_combine_seq _ _ _ row x (OZero ([],[])) (zeros K [])) by auto. rewrite <- (Forall2_len _ _ _ _ _ T0). apply rsum_ext. intros k Hk. apply in_seq in Hk. cbn [fst snd].
    rewrite (nth_error_nth' row (OZero ([],[]))) by lia. rewrite (nth_error_nth' x (zeros K [])) by lia. auto.
Qed.
End BlkP.
