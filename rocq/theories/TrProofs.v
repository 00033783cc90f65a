(** Transposed expressions; the signature of a stencil topology. *)
Require Import List Arith Bool Lia Ring.
From Verif Require Import Util Arr StModel GenProofs StProofs OpModel OpSpec OpProofs StProps.
Import ListNotations.

Lemma Forall2_imp : forall A B (R S : A -> B -> Prop) l m, (forall a b, R a b -> S a b) -> Forall2 R l m -> Forall2 S l m.
Proof. intros A B R S l m H F. induction F; constructor; auto. Qed.

Section Tr.
Variable K : cring.
Add Ring Kr : (rth K).
Local Open Scope ring_scope'.

Lemma rsum_cons : forall (a : K) l, rsum (a :: l) = a + rsum l.
Proof. reflexivity. Qed.
Lemma inner_ext : forall a b c d : array K, ashape a = ashape c -> aeq a b -> aeq c d -> inner a c = inner b d.
Proof.
  intros a b c d S [A1 A2] [B1 B2]. unfold inner. rewrite <- A1. apply rsum_ext. intros idx Hi. apply indices_in in Hi.
  rewrite A2, B2; auto. congruence.
Qed.
Lemma inner_add_l : forall a b y : array K, ashape a = ashape b -> inner (aadd a b) y = inner a y + inner b y.
Proof. intros a b y S. unfold inner. simpl. rewrite <- S. rewrite <- rsum_add. apply rsum_ext. intros. ring. Qed.
Lemma inner_add_r : forall a b y : array K, inner y (aadd a b) = inner y a + inner y b.
Proof. intros a b y. unfold inner. simpl. rewrite <- rsum_add. apply rsum_ext. intros. ring. Qed.
Lemma inner_zeros_l : forall s (y : array K), inner (zeros K s) y = r0.
Proof. intros. unfold inner. apply rsum_0. intros. simpl. ring. Qed.
Lemma inner_zeros_r : forall s (y : array K), inner y (zeros K s) = r0.
Proof. intros. unfold inner. apply rsum_0. intros. simpl. ring. Qed.

Lemma transposable_t : forall o : sop K, transposable o -> transposable (so_transpose K o).
Proof.
  intros o [R L A]. constructor; simpl; auto. intros x y Sx Sy.
  rewrite inner_comm by (rewrite (lin_shape _ _ _ _ L); auto). rewrite <- A by auto. apply inner_comm.
  rewrite (lin_shape _ _ _ _ R); auto.
Qed.

Variable G : signature K.
Hypothesis GO : sig_ok K G.
Notation sh := (shp K G).

Fixpoint t_all (l : list (op K)) : result (list (op K)) :=
  match l with [] => Ok [] | p :: r => do y <- otranspose K p; do ys <- t_all r; Ok (y :: ys) end.
Lemma t_comp : forall l, otranspose K (OComp l) = do m <- t_all l; mk_comp K (rev m).
Proof. reflexivity. Qed.
Lemma t_comb : forall l, otranspose K (OComb l) = do m <- t_all l; mk_comb K m.
Proof. reflexivity. Qed.
Lemma t_all_iff : forall l m, t_all l = Ok m <-> Forall2 (fun p q => otranspose K p = Ok q) l m.
Proof.
  induction l as [|p l IH]; intros m; simpl.
  - split; intros H; [injection H as <-; constructor|inversion H; auto].
  - split.
    + destruct (otranspose K p) eqn:E; [|discriminate]. cbn [bind]. destruct (t_all l); [|discriminate]. cbn [bind]. intros [= <-]. constructor; auto. apply IH. auto.
    + intros H. inversion H; subst. rewrite H2. cbn [bind]. apply IH in H4. rewrite H4. auto.
Qed.

Definition adj (f g : array K -> array K) (i j : space K G) : Prop := adjoint_pair (sh j) (sh i) f g.
Definition tr_good (o : op K) (i j : space K G) : Prop :=
  exists t, otranspose K o = Ok t /\ typed K G t j i /\ adj (act K o) (act K t) i j /\ otranspose K t = Ok o.

Lemma act_sop : forall (c : sop K -> op K) o i j x, (forall x, ocall K (c o) x = so_call K o x) -> transposable o -> so_shape K o = (sh i, sh j) -> ashape x = sh j ->
  act K (c o) x = so_right K o x.
Proof. intros c o i j x E T S Sx. unfold act. rewrite E. erewrite so_call_ok; eauto. Qed.

Lemma sop_tt : forall o : sop K, so_transpose K (so_transpose K o) = o.
Proof. intros [l r [a b]]. reflexivity. Qed.

Lemma sop_adj : forall (c c' : sop K -> op K) o i j, (forall x, ocall K (c o) x = so_call K o x) -> (forall x, ocall K (c' (so_transpose K o)) x = so_call K (so_transpose K o) x) ->
  transposable o -> so_shape K o = (sh i, sh j) -> adj (act K (c o)) (act K (c' (so_transpose K o))) i j.
Proof.
  intros c c' o i j E E' T S x y Sx Sy. rewrite (act_sop c o i j) by auto.
  assert (T' := transposable_t o T). assert (S' : so_shape K (so_transpose K o) = (sh j, sh i)) by (simpl; rewrite S; auto).
  rewrite (act_sop c' (so_transpose K o) j i y) by auto.
  pose proof (tr_adj _ _ T) as A. rewrite S in A. apply A; auto.
Qed.

Lemma diag_adj : forall d i (f : array K -> array K), (ashape d = [] \/ ashape d = sh i) ->
  (forall x, ashape x = sh i -> exists r, checked K (sh i, sh i) x (fun x => bmul K x d) = Ok r /\ f x = r) -> adj f f i i.
Proof.
  intros d i f H E x y Sx Sy. destruct (E x Sx) as (r & E1 & ->). destruct (E y Sy) as (r' & E2 & ->).
  destruct (diag_call K d (sh i) x H Sx) as (q & E3 & S3 & V3). rewrite E1 in E3. injection E3 as <-.
  destruct (diag_call K d (sh i) y H Sy) as (q & E3 & S4 & V4). rewrite E2 in E3. injection E3 as <-.
  unfold inner. rewrite S3, Sx. apply rsum_ext. intros idx Hi. apply indices_in in Hi. rewrite V3, V4 by auto. ring.
Qed.

Lemma vsum_inner : forall l i j x y, Forall (fun o => typed K G o i j) l -> ashape x = sh j -> ashape y = sh i -> forall a : array K, ashape a = sh i ->
  (forall idx, aget a idx = vsum K l x idx) -> inner a y = rsum (map (fun o => inner (act K o x) y) l).
Proof.
  intros l i j x y F Sx Sy. induction F; intros a Sa Va.
  - unfold inner. simpl. apply rsum_0. intros idx _. rewrite Va. simpl. ring.
  - cbn [map]. rewrite ?rsum_cons. 
    rewrite <- (IHF (mkArr (sh i) (vsum K l x)) eq_refl (fun _ => eq_refl)).
    assert (S0 : ashape (act K x0 x) = sh i) by (apply (lin_shape _ _ _ _ (proj1 (proj2 (typed_good K G GO _ _ _ H)))); auto).
    rewrite <- inner_add_l by auto. unfold inner. simpl. rewrite Sa, S0. apply rsum_ext. intros idx _. rewrite Va. reflexivity.
Qed.

Lemma tsum_inner : forall l i j x y, tsum K G l i j -> ashape x = sh j -> ashape y = sh i ->
  inner (act K (OComb l) x) y = rsum (map (fun o => inner (act K o x) y) l).
Proof.
  intros l i j x y T Sx Sy. destruct (good_comb K G l i j (tsum_good K G GO _ _ _ T)) as [(_ & L & _) V].
  eapply vsum_inner; eauto. { apply tsum_iff in T. apply T. } apply (lin_shape _ _ _ _ L); auto.
Qed.

Lemma Forall2_rev : forall A B (R : A -> B -> Prop) l m, Forall2 R l m -> Forall2 R (rev l) (rev m).
Proof. intros A B R l m H. induction H; simpl; [constructor|]. apply Forall2_app; auto. Qed.
Lemma Forall2_flip : forall A B (R : A -> B -> Prop) l m, Forall2 R l m -> Forall2 (fun b a => R a b) m l.
Proof. intros A B R l m H. induction H; constructor; auto. Qed.

Lemma transpose_good :
  (forall o i j, typed K G o i j -> tr_good o i j) /\
  (forall l i j, tchain K G l i j -> exists m, Forall2 (fun p q => otranspose K p = Ok q /\ otranspose K q = Ok p) l m /\ tchain K G (rev m) j i /\ adj (actl K l) (actl K (rev m)) i j) /\
  (forall l i j, tsum K G l i j -> exists m, Forall2 (fun p q => otranspose K p = Ok q /\ otranspose K q = Ok p) l m /\ tsum K G m j i /\
     forall x y, ashape x = sh j -> ashape y = sh i -> rsum (map (fun o => inner (act K o x) y) l) = rsum (map (fun o => inner (act K o y) x) m)).
Proof.
  apply typed_mut; intros.
  - exists (OGen (so_transpose K o)). split; auto. split; [constructor; [apply transposable_t; auto|simpl; rewrite H0; auto]|]. split.
    + apply (sop_adj (@OGen K) (@OGen K)); auto.
    + cbn [otranspose]. rewrite sop_tt. auto.
  - eexists. split; [reflexivity|]. split; [constructor|]. split; [|auto]. intros x y Sx Sy. cbn [fst snd].
    rewrite (act_zero K G GO _ i j) by (auto; constructor). rewrite (act_zero K G GO _ j i) by (auto; constructor). rewrite inner_zeros_l, inner_zeros_r. auto.
  - exists (ODual (so_transpose K o)). destruct (so_d _ _ GO _ _ _ H). split; auto. split; [constructor; eapply so_d_t; eauto|]. split.
    + apply (sop_adj (@ODeriv K) (@ODual K)); auto.
    + cbn [otranspose]. rewrite sop_tt. auto.
  - exists (ODeriv (so_transpose K o)). destruct (so_dd _ _ GO _ _ _ H). split; auto. split; [constructor; eapply so_dd_t; eauto|]. split.
    + apply (sop_adj (@ODual K) (@ODeriv K)); auto.
    + cbn [otranspose]. rewrite sop_tt. auto.
  - eexists. split; [reflexivity|]. split; [constructor; auto|]. split; auto. intros x y Sx Sy.
    assert (E : forall x, ashape x = sh i -> act K (OSym f (sh i)) x = f x).
    { intros z Sz. unfold act. cbn [ocall]. unfold checked. cbn [fst snd bind]. rewrite Sz, list_eqb_refl', (lin_shape _ _ _ _ H), list_eqb_refl'; auto. }
    rewrite !E by auto. apply H0; auto.
  - eexists. split; [reflexivity|]. split; [constructor; auto|]. split; auto. apply diag_adj with d; [apply H|]. intros x Sx.
    destruct (diag_call K d (sh i) x (proj1 H) Sx) as (r & E & _). exists r. split; auto. unfold act. cbn [ocall]. rewrite E. auto.
  - eexists. split; [reflexivity|]. split; [constructor; auto|]. split; auto. apply diag_adj with d; [apply H|]. intros x Sx.
    destruct (diag_call K d (sh i) x (proj1 H) Sx) as (r & E & _). exists r. split; auto. unfold act. cbn [ocall]. rewrite E. auto.
  - eexists. split; [reflexivity|]. split; [constructor|]. split; auto. intros x y Sx Sy. unfold act. cbn [ocall]. unfold checked. cbn [fst snd bind].
    rewrite Sx, Sy, list_eqb_refl'. auto.
  - destruct H0 as (m & F & T & A).
    assert (F1 : Forall2 (fun p q => otranspose K p = Ok q) l m) by (eapply Forall2_imp; [|exact F]; cbv beta; tauto).
    exists (OComp (rev m)). rewrite t_comp, (proj2 (t_all_iff l m)) by auto. cbn [bind]. rewrite (mk_comp_ok K G GO _ j i) by auto.
    split; auto. split; [constructor; auto|]. split.
    + intros x y Sx Sy. rewrite (proj2 (good_comp K G _ _ _ (tchain_good K G GO _ _ _ H))) by auto.
      rewrite (proj2 (good_comp K G _ _ _ (tchain_good K G GO _ _ _ T))) by auto. apply A; auto.
    + rewrite t_comp. rewrite (proj2 (t_all_iff (rev m) (rev l))).
      * cbn [bind]. rewrite rev_involutive. eapply mk_comp_ok; eauto.
      * apply Forall2_rev. apply Forall2_flip in F. eapply Forall2_imp; [|exact F]; cbv beta; tauto.
  - destruct H0 as (m & F & T & A).
    assert (F1 : Forall2 (fun p q => otranspose K p = Ok q) l m) by (eapply Forall2_imp; [|exact F]; cbv beta; tauto).
    exists (OComb m). rewrite t_comb, (proj2 (t_all_iff l m)) by auto. cbn [bind]. rewrite (mk_comb_ok K G GO _ j i) by auto.
    split; auto. split; [constructor; auto|]. split.
    + intros x y Sx Sy. rewrite (tsum_inner l i j) by auto. rewrite (inner_comm K x).
      * rewrite (tsum_inner m j i) by auto. apply A; auto.
      * destruct (good_comb K G m j i (tsum_good K G GO _ _ _ T)) as [(_ & L & _) _]. rewrite (lin_shape _ _ _ _ L); auto.
    + rewrite t_comb. rewrite (proj2 (t_all_iff m l)).
      * cbn [bind]. eapply mk_comb_ok; eauto.
      * apply Forall2_flip in F. eapply Forall2_imp; [|exact F]; cbv beta; tauto.
  - destruct H0 as (t & E & T & A & E'). exists [t]. split; [constructor; auto|]. split; [constructor; auto|]. exact A.
  - destruct H0 as (t & E & T & A & E'), H2 as (m & F & T' & A'). exists (t :: m). split; [constructor; auto|]. cbn [rev]. split.
    + apply tch_tchain; [|destruct (rev m); discriminate]. apply tch_app. exists j. split; [apply tchain_tch; auto|]. econstructor; eauto. constructor.
    + intros x y Sx Sy. rewrite actl_app. cbn [actl fold_right]. fold (actl K l x).
      assert (S1 : ashape (actl K l x) = sh j) by (apply (lin_shape _ _ _ _ (tch_lin K G GO _ _ _ (tchain_tch K G _ _ _ H1))); auto).
      assert (S2 : ashape (act K t y) = sh j) by (apply (lin_shape _ _ _ _ (proj1 (proj2 (typed_good K G GO _ _ _ T)))); auto).
      rewrite A by auto. apply A'; auto.
  - destruct H0 as (t & E & T & A & E'). exists [t]. split; [constructor; auto|]. split; [constructor; auto|]. intros x y Sx Sy. simpl. f_equal.
    rewrite A by auto. apply inner_comm. rewrite (lin_shape _ _ _ _ (proj1 (proj2 (typed_good K G GO _ _ _ T)))); auto.
  - destruct H0 as (t & E & T & A & E'), H2 as (m & F & T' & A'). exists (t :: m). split; [constructor; auto|]. split; [apply ts_cons; auto|].
    intros x y Sx Sy. cbn [map]. rewrite ?rsum_cons. f_equal; [|apply A'; auto]. rewrite A by auto. apply inner_comm. rewrite (lin_shape _ _ _ _ (proj1 (proj2 (typed_good K G GO _ _ _ T)))); auto.
Qed.
End Tr.

(** ---- the signature of a stencil topology ---- *)
Section Sig.
Variable K : cring.
Add Ring Kr2 : (rth K).
Local Open Scope ring_scope'.
Variable empty : nat -> (list nat -> K).
Variable row_leb : list nat -> list nat -> bool.
Variable t : stopo.
Hypothesis Ht : stencil_topology row_leb (st_shape t) (st_periodic t) = Ok t.
Notation ndim := (length (st_shape t)).

(** The derivative of degree [n], topology.py:120-131. *)
Definition st_sop (n : nat) : sop K := mkSop K (dual_inner K empty t n) (primal_inner K empty t n) (st_n_elements t (S n), st_n_elements t n).
(** Spaces are form degrees; the derivative of degree [n] maps degree [n] to [n + 1]. *)
Variable dg : K -> Prop.
Hypothesis dg_mul : forall a b, dg a -> dg b -> dg (rmul a b).
Definition st_sig : signature K := mkSig K nat (st_n_elements t)
  (fun o i j => i = S j /\ j < ndim /\ o = st_sop j)
  (fun o i j => j = S i /\ i < ndim /\ o = so_transpose K (st_sop i)) dg.

Lemma component_ext : forall n x y tm idx, aeq x y -> ashape x = st_n_elements t n -> tm < length (nth n (st_symbols t) []) -> in_range (st_shape t) idx ->
  component K x tm idx = component K y tm idx.
Proof. intros n x y tm idx [S E] Sx L R. unfold component. apply E. rewrite Sx. unfold st_n_elements. constructor; auto. Qed.

Lemma primal_linear : forall n, n < ndim -> linear (st_n_elements t n) (st_n_elements t (S n)) (primal_inner K empty t n).
Proof.
  intros n Hn. constructor.
  - reflexivity.
  - intros x y Sx E. split; [reflexivity|]. intros idx R. change (ashape (primal_inner K empty t n x)) with (st_n_elements t (S n)) in R.
    unfold st_n_elements in R. inversion R as [|c m idx' sh Lc R' E1 E2]; subst. rewrite !(primal_as_sum K row_leb t Ht) by auto.
    apply rsum_ext. intros [[[c' tm] a] p] I. apply filter_In in I as [I _]. apply (term_bounds row_leb t Ht) in I as (B1 & B2 & B3); auto.
    unfold convolve1d. rewrite !(component_ext n x y tm) by (auto; apply next_range; auto). auto.
  - intros x y Sx Sy. split; [reflexivity|]. intros idx R. change (ashape (primal_inner K empty t n (aadd x y))) with (st_n_elements t (S n)) in R.
    unfold st_n_elements in R. inversion R as [|c m idx' sh Lc R' E1 E2]; subst. cbn [aadd aget]. rewrite !(primal_as_sum K row_leb t Ht) by auto.
    rewrite <- rsum_add. apply rsum_ext. intros [[[c' tm] a] p] I. unfold convolve1d, component. cbn [aadd aget]. ring.
Qed.
Lemma dual_linear : forall n, n < ndim -> linear (st_n_elements t (S n)) (st_n_elements t n) (dual_inner K empty t n).
Proof.
  intros n Hn. constructor.
  - reflexivity.
  - intros x y Sx E. split; [reflexivity|]. intros idx R. change (ashape (dual_inner K empty t n x)) with (st_n_elements t n) in R.
    unfold st_n_elements in R. inversion R as [|c m idx' sh Lc R' E1 E2]; subst. rewrite !(dual_as_sum K row_leb t Ht) by auto.
    apply rsum_ext. intros [[[c' tm] a] p] I. apply filter_In in I as [I _]. apply (term_bounds row_leb t Ht) in I as (B1 & B2 & B3); auto.
    unfold correlate1d. rewrite !(component_ext (S n) x y c') by (auto; apply prev_range; auto). auto.
  - intros x y Sx Sy. split; [reflexivity|]. intros idx R. change (ashape (dual_inner K empty t n (aadd x y))) with (st_n_elements t n) in R.
    unfold st_n_elements in R. inversion R as [|c m idx' sh Lc R' E1 E2]; subst. cbn [aadd aget]. rewrite !(dual_as_sum K row_leb t Ht) by auto.
    rewrite <- rsum_add. apply rsum_ext. intros [[[c' tm] a] p] I. unfold correlate1d, component. cbn [aadd aget]. ring.
Qed.

Lemma st_transposable : forall n, n < ndim -> transposable (st_sop n).
Proof.
  intros n Hn. constructor; cbn [st_sop so_shape so_left so_right fst snd].
  - apply primal_linear; auto.
  - apply dual_linear; auto.
  - intros x y Sx Sy. apply (adjoint K row_leb t Ht); auto.
Qed.

Lemma st_sig_ok : sig_ok K st_sig.
Proof.
  constructor; cbn [st_sig space shp d_ok dd_ok dg_ok].
  - intros o i j (-> & L & ->). split; [apply st_transposable; auto|reflexivity].
  - intros o i j (-> & L & ->). split; [apply transposable_t, st_transposable; auto|reflexivity].
  - intros o i j (-> & L & ->). auto.
  - intros o i j (-> & L & ->). rewrite sop_tt. auto.
  - auto.
Qed.
Lemma st_sig_closed : sig_closed K st_sig.
Proof.
  constructor; cbn [st_sig space shp d_ok dd_ok dg_ok].
  - intros o p i j k x (-> & L & ->) (-> & L' & ->) Sx. split; [reflexivity|]. intros idx R. apply (dd_zero K row_leb t Ht); auto.
  - intros o p i j k x (-> & L & ->) (E & L' & ->) Sx. subst k. cbn [so_transpose st_sop so_right so_left].
    split; [reflexivity|]. intros idx R. cbn [zeros aget].
    change (ashape (dual_inner K empty t i (dual_inner K empty t (S i) x))) with (st_n_elements t i) in R.
    apply (inner_zero K (dual_inner K empty t i (dual_inner K empty t (S i) x))); auto. intros b Sb.
    change (ashape (dual_inner K empty t i (dual_inner K empty t (S i) x))) with (st_n_elements t i) in Sb.
    rewrite <- (adjoint K row_leb t Ht empty) by auto. rewrite <- (adjoint K row_leb t Ht empty) by auto.
    unfold inner. apply rsum_0. intros q Hq. apply indices_in in Hq. rewrite (dd_zero K row_leb t Ht) by auto. ring.
Qed.
End Sig.
