(** Proofs about operator expressions. *)
Require Import List Arith Bool Lia Ring.
From Verif Require Import Util Arr StModel OpModel OpSpec.
Import ListNotations.

Scheme typed_mind := Minimality for typed Sort Prop
  with tchain_mind := Minimality for tchain Sort Prop
  with tsum_mind := Minimality for tsum Sort Prop.
Combined Scheme typed_mut from typed_mind, tchain_mind, tsum_mind.

Lemma list_eqb_refl' : forall l, list_eqb l l = true.
Proof. intros. apply list_eqb_eq. auto. Qed.

Lemma aeq_refl : forall T (a : array T), aeq a a.
Proof. split; auto. Qed.
Lemma aeq_sym : forall T (a b : array T), aeq a b -> aeq b a.
Proof. intros T a b [H1 H2]. split; auto. intros idx Hi. symmetry. apply H2. rewrite H1. auto. Qed.
Lemma aeq_trans : forall T (a b c : array T), aeq a b -> aeq b c -> aeq a c.
Proof. intros T a b c [A1 A2] [B1 B2]. split; [congruence|]. intros idx Hi. rewrite A2 by auto. apply B2. congruence. Qed.

Section OpP.
Variable K : cring.
Add Ring Kr : (rth K).
Local Open Scope ring_scope'.

Lemma aadd_ext : forall a b c d : array K, ashape a = ashape c -> aeq a b -> aeq c d -> aeq (aadd a c) (aadd b d).
Proof. intros a b c d S [A1 A2] [B1 B2]. split; simpl; auto. intros idx Hi. rewrite A2, B2; auto. congruence. Qed.

(** A linear map sends zero to zero. *)
Lemma lin_zero : forall n m f, linear (K:=K) n m f -> aeq (f (zeros K n)) (zeros K m).
Proof.
  intros n m f L. assert (S : ashape (f (zeros K n)) = m) by (apply (lin_shape _ _ _ _ L); auto).
  split; auto. intros idx Hi. pose proof (lin_add _ _ _ _ L (zeros K n) (zeros K n) eq_refl eq_refl) as [A1 A2].
  assert (E : aeq (f (aadd (zeros K n) (zeros K n))) (f (zeros K n))).
  { apply (lin_ext _ _ _ _ L); auto. split; auto. intros. simpl. ring. }
  destruct E as [E1 E2]. rewrite E1 in *. specialize (A2 idx Hi). specialize (E2 idx Hi). rewrite E2 in A2. simpl in A2.
  set (v := aget (f (zeros K n)) idx) in *. simpl. transitivity (v + v - v); [ring|]. rewrite <- A2. ring.
Qed.

Lemma lin_comp : forall a b c f g, linear (K:=K) b c f -> linear a b g -> linear a c (fun x => f (g x)).
Proof.
  intros a b c f g F G. constructor; intros.
  - apply (lin_shape _ _ _ _ F), (lin_shape _ _ _ _ G). auto.
  - apply (lin_ext _ _ _ _ F); [apply (lin_shape _ _ _ _ G); auto|]. apply (lin_ext _ _ _ _ G); auto.
  - eapply aeq_trans; [|apply (lin_add _ _ _ _ F); apply (lin_shape _ _ _ _ G); auto].
    apply (lin_ext _ _ _ _ F); [|apply (lin_add _ _ _ _ G); auto]. apply (lin_shape _ _ _ _ G). auto.
Qed.
Lemma lin_id : forall n, linear (K:=K) n n (fun x => x).
Proof. intros. constructor; auto. intros. apply aeq_refl. Qed.
Lemma lin_aadd : forall a b f g, linear (K:=K) a b f -> linear a b g -> linear a b (fun x => aadd (f x) (g x)).
Proof.
  intros a b f g F G. pose proof (lin_shape _ _ _ _ F) as SF. pose proof (lin_shape _ _ _ _ G) as SG.
  constructor; intros.
  - simpl. auto.
  - apply aadd_ext; [rewrite SF, SG; auto|apply (lin_ext _ _ _ _ F)|apply (lin_ext _ _ _ _ G)]; auto.
  - destruct (lin_add _ _ _ _ F x y H H0) as [A1 A2]. destruct (lin_add _ _ _ _ G x y H H0) as [B1 B2]. split; simpl; auto.
    intros idx Hi. rewrite A2, B2; simpl; auto; [ring|]. rewrite SG by auto. rewrite <- (SF (aadd x y)) by auto. auto.
Qed.
Lemma lin_ext_fun : forall a b f g, linear (K:=K) a b f -> (forall x, ashape x = a -> g x = f x) -> linear a b g.
Proof.
  intros a b f g F E. constructor; intros.
  - rewrite E; auto. apply (lin_shape _ _ _ _ F); auto.
  - assert (ashape y = a) by (destruct H0; congruence). rewrite !E; auto. apply (lin_ext _ _ _ _ F); auto.
  - rewrite !E; auto. apply (lin_add _ _ _ _ F); auto.
Qed.

(** The action of an expression. *)
Definition act (o : op K) (x : array K) : array K := match ocall K o x with Ok y => y | Err _ => x end.
Definition actl (l : list (op K)) (x : array K) : array K := fold_right act x l.

(** ---- diagonals ---- *)
Definition dval (d : array K) (idx : list nat) : K := match ashape d with [] => aget d [] | _ => aget d idx end.

Lemma in_range_nil : forall idx, in_range [] idx -> idx = [].
Proof. intros idx H. inversion H. auto. Qed.

Lemma bmul_val : forall x d, ashape d = [] \/ ashape d = ashape x -> exists r, bmul K x d = Ok r /\ ashape r = ashape x /\
  forall idx, in_range (ashape x) idx -> aget r idx = aget x idx * dval d idx.
Proof.
  intros x d H. unfold bmul. destruct (list_eqb (ashape x) (ashape d)) eqn:E.
  - apply list_eqb_eq in E. eexists. split; [reflexivity|]. split; auto. intros idx Hi. simpl. unfold dval.
    destruct (ashape d) eqn:Ed; auto. rewrite E in Hi. apply in_range_nil in Hi. subst. auto.
  - destruct H as [H|H]; [|rewrite H, list_eqb_refl' in E; discriminate]. rewrite H. destruct (ashape x) eqn:Ex; [rewrite H in E; discriminate|].
    eexists. split; [reflexivity|]. split; auto. intros idx Hi. simpl. unfold dval. rewrite H. auto.
Qed.

Lemma bmul_dval : forall s a b, (ashape a = [] \/ ashape a = s) -> (ashape b = [] \/ ashape b = s) -> exists r, bmul K a b = Ok r /\
  (ashape r = [] \/ ashape r = s) /\ forall idx, in_range s idx -> dval r idx = dval a idx * dval b idx.
Proof.
  intros s a b Ha Hb. unfold bmul, dval. destruct (list_eqb (ashape a) (ashape b)) eqn:E.
  - apply list_eqb_eq in E. eexists. split; [reflexivity|]. simpl. split; auto. intros idx Hi. rewrite E. destruct (ashape b); auto.
  - destruct Ha as [Ha|Ha], Hb as [Hb|Hb]; rewrite Ha, Hb in *; try (rewrite list_eqb_refl' in E; discriminate).
    + destruct s; [discriminate|]. eexists. split; [reflexivity|]. simpl. split; auto.
    + destruct s; [discriminate|]. eexists. split; [reflexivity|]. simpl. split; auto.
Qed.

Lemma diag_call : forall d s x, (ashape d = [] \/ ashape d = s) -> ashape x = s ->
  exists r, checked K (s, s) x (fun x => bmul K x d) = Ok r /\ ashape r = s /\
    forall idx, in_range s idx -> aget r idx = aget x idx * dval d idx.
Proof.
  intros d s x H Sx. destruct (bmul_val x d) as (r & E & Sr & V). { rewrite Sx. auto. }
  exists r. unfold checked. cbn [fst snd]. rewrite Sx, list_eqb_refl', E. cbn [bind]. rewrite Sr, Sx, list_eqb_refl'. rewrite Sx in V. auto.
Qed.

Lemma diag_lin : forall d s (f : array K -> array K), (ashape d = [] \/ ashape d = s) ->
  (forall x, ashape x = s -> checked K (s, s) x (fun x => bmul K x d) = Ok (f x)) -> linear s s f.
Proof.
  intros d s f H E. assert (V : forall x, ashape x = s -> ashape (f x) = s /\ forall idx, in_range s idx -> aget (f x) idx = aget x idx * dval d idx).
  { intros x Sx. destruct (diag_call d s x H Sx) as (r & E' & Sr & V). rewrite E in E' by auto. injection E' as ->. auto. }
  constructor.
  - intros x Sx. apply V. auto.
  - intros x y Sx XY. assert (Sy : ashape y = s) by (destruct XY; congruence). destruct (V x Sx) as [A1 A2], (V y Sy) as [B1 B2].
    split; [congruence|]. intros idx Hi. rewrite A1 in Hi. rewrite A2, B2 by auto. f_equal. apply XY. congruence.
  - intros x y Sx Sy. destruct (V x Sx) as [A1 A2], (V y Sy) as [B1 B2], (V (aadd x y) Sx) as [C1 C2].
    split; simpl; [congruence|]. intros idx Hi. rewrite C1 in Hi. rewrite C2, A2, B2 by auto. simpl. ring.
Qed.

(** ---- typed expressions can be called and are linear ---- *)
Variable G : signature K.
Hypothesis GO : sig_ok K G.
Notation sh := (shp K G).

Definition good (o : op K) (i j : space K G) : Prop :=
  oshape K o = (sh i, sh j) /\ linear (sh j) (sh i) (act o) /\ forall x, ashape x = sh j -> ocall K o x = Ok (act o x).
Definition goodl (l : list (op K)) (i j : space K G) : Prop :=
  oshape K (OComp l) = (sh i, sh j) /\ linear (sh j) (sh i) (actl l) /\
  forall x, ashape x = sh j -> fold_right (fun p acc => do v <- acc; ocall K p v) (Ok x) l = Ok (actl l x).
Fixpoint call_all (l : list (op K)) (x : array K) : result (list (array K)) :=
  match l with [] => Ok [] | p :: r => do y <- ocall K p x; do ys <- call_all r x; Ok (y :: ys) end.
Definition goods (l : list (op K)) (i j : space K G) : Prop :=
  l <> [] /\ Forall (fun o => good o i j) l.

Lemma act_intro : forall o i j f, oshape K o = (sh i, sh j) -> linear (sh j) (sh i) f ->
  (forall x, ashape x = sh j -> ocall K o x = Ok (f x)) -> good o i j.
Proof.
  intros o i j f S L C. assert (E : forall x, ashape x = sh j -> act o x = f x) by (intros x Sx; unfold act; rewrite C; auto).
  split; auto. split.
  - eapply lin_ext_fun; eauto.
  - intros x Sx. rewrite C, E; auto.
Qed.

Lemma so_call_ok : forall o i j x, transposable o -> so_shape K o = (sh i, sh j) -> ashape x = sh j -> so_call K o x = Ok (so_right K o x).
Proof.
  intros o i j x T S Sx. unfold so_call, shape_eqb. rewrite S. cbn [fst snd]. rewrite Sx, list_eqb_refl'.
  rewrite (lin_shape _ _ _ _ (tr_right _ _ T)); rewrite S; cbn [fst snd]; auto. rewrite list_eqb_refl'. auto.
Qed.

Lemma good_sop : forall o i j (c : sop K -> op K), transposable o -> so_shape K o = (sh i, sh j) ->
  oshape K (c o) = so_shape K o -> (forall x, ocall K (c o) x = so_call K o x) -> good (c o) i j.
Proof.
  intros o i j c T S E1 E2. apply act_intro with (so_right K o); [congruence| |].
  - pose proof (tr_right _ _ T) as L. rewrite S in L. auto.
  - intros x Sx. rewrite E2. eapply so_call_ok; eauto.
Qed.

Lemma zeros_lin : forall n m, linear n m (fun _ : array K => zeros K m).
Proof. intros. constructor; auto. { intros. apply aeq_refl. } intros. split; auto. intros. simpl. ring. Qed.

Fixpoint vsum (l : list (op K)) (x : array K) (idx : list nat) : K := match l with [] => r0 | o :: r => aget (act o x) idx + vsum r x idx end.

Lemma call_all_ok : forall l i j x, Forall (fun o => good o i j) l -> ashape x = sh j -> call_all l x = Ok (map (fun o => act o x) l).
Proof.
  induction l as [|o l IH]; intros i j x F Sx; auto. inversion F; subst. cbn [call_all map].
  destruct H1 as (_ & _ & C). rewrite C by auto. cbn [bind]. rewrite (IH i j) by auto. auto.
Qed.

Definition lsum (g : array K -> array K) (l : list (op K)) (x : array K) : array K := fold_left (fun a o => aadd a (act o x)) l (g x).
Lemma lsum_lin : forall l i j g, Forall (fun o => good o i j) l -> linear (sh j) (sh i) g -> linear (sh j) (sh i) (lsum g l).
Proof.
  induction l as [|o l IH]; intros i j g F Lg; auto. inversion F; subst.
  apply (IH i j (fun x => aadd (g x) (act o x))); auto. apply lin_aadd; auto. apply H1.
Qed.
Lemma lsum_val : forall l g x idx, aget (lsum g l x) idx = aget (g x) idx + vsum l x idx.
Proof.
  induction l as [|o l IH]; intros; simpl; [unfold lsum; simpl; ring|].
  change (lsum g (o :: l) x) with (lsum (fun x => aadd (g x) (act o x)) l x). rewrite IH. simpl. ring.
Qed.
Lemma asum_ok : forall l i j g x, Forall (fun o => good o i j) l -> linear (sh j) (sh i) g -> ashape x = sh j ->
  asum K (g x) (map (fun o => act o x) l) = Ok (lsum g l x).
Proof.
  induction l as [|o l IH]; intros i j g x F Lg Sx; auto. inversion F; subst. cbn [map asum]. unfold badd.
  assert (S1 : ashape (g x) = sh i) by (apply (lin_shape _ _ _ _ Lg); auto).
  assert (S2 : ashape (act o x) = sh i) by (apply (lin_shape _ _ _ _ (proj1 (proj2 H1))); auto).
  rewrite S1, S2, list_eqb_refl'. cbn [bind]. rewrite <- S1. 
  apply (IH i j (fun x => aadd (g x) (act o x))); auto. apply lin_aadd; auto. apply H1.
Qed.

Lemma ocall_comb : forall l x, ocall K (OComb l) x = checked K (oshape K (OComb l)) x (fun x => do rs <- call_all l x; match rs with [] => Err IndexError | a :: r => asum K a r end).
Proof.
  intros. unfold checked. cbn [ocall]. unfold checked.
  assert (E : (fix go (l : list (op K)) := match l with [] => Ok [] | p :: r => do y <- ocall K p x; do ys <- go r; Ok (y :: ys) end) l = call_all l x).
  { clear. induction l as [|p r IH]; auto. cbn [call_all]. rewrite <- IH. auto. }
  rewrite E. auto.
Qed.

Lemma good_comb : forall l i j, goods l i j -> good (OComb l) i j /\ forall x idx, ashape x = sh j -> aget (act (OComb l) x) idx = vsum l x idx.
Proof.
  intros l i j [NE F]. destruct l as [|o l]; [congruence|]. inversion F; subst. pose proof H1 as (S1 & L1 & C1).
  assert (SH : oshape K (OComb (o :: l)) = (sh i, sh j)) by exact S1.
  assert (C : forall x, ashape x = sh j -> ocall K (OComb (o :: l)) x = Ok (lsum (act o) l x)).
  { intros x Sx. rewrite ocall_comb, SH. unfold checked. cbn [fst snd]. rewrite Sx, list_eqb_refl'. rewrite (call_all_ok _ i j) by auto. cbn [bind map].
    rewrite (asum_ok l i j) by auto. cbn [bind]. rewrite (lin_shape _ _ _ _ (lsum_lin l i j _ H2 L1)), list_eqb_refl'; auto. }
  split.
  - apply act_intro with (lsum (act o) l); auto. apply lsum_lin; auto.
  - intros x idx Sx. unfold act at 1. rewrite C by auto. rewrite lsum_val. auto.
Qed.

Lemma good_comp : forall l i j, goodl l i j -> good (OComp l) i j /\ forall x, ashape x = sh j -> act (OComp l) x = actl l x.
Proof.
  intros l i j (S & L & C).
  assert (E : forall x, ashape x = sh j -> ocall K (OComp l) x = Ok (actl l x)).
  { intros x Sx. cbn [ocall]. rewrite S. unfold checked. cbn [fst snd]. rewrite Sx, list_eqb_refl', C by auto. cbn [bind].
    rewrite (lin_shape _ _ _ _ L), list_eqb_refl'; auto. }
  split; [apply act_intro with (actl l); auto|]. intros x Sx. unfold act. rewrite E; auto.
Qed.

Lemma typed_good_all : (forall o i j, typed K G o i j -> good o i j) /\ (forall l i j, tchain K G l i j -> goodl l i j) /\ (forall l i j, tsum K G l i j -> goods l i j).
Proof.
  apply typed_mut; intros.
  - apply (good_sop o i j (@OGen K)); auto.
  - apply act_intro with (fun _ => zeros K (sh i)); auto; [apply zeros_lin|]. intros x Sx. cbn [ocall]. unfold checked. cbn [fst snd bind].
    rewrite Sx, !list_eqb_refl'. auto.
  - destruct (so_d _ _ GO _ _ _ H). apply (good_sop o i j (@ODeriv K)); auto.
  - destruct (so_dd _ _ GO _ _ _ H). apply (good_sop o i j (@ODual K)); auto.
  - apply act_intro with f; auto. intros x Sx. cbn [ocall]. unfold checked. cbn [fst snd bind]. rewrite Sx, list_eqb_refl'.
    rewrite (lin_shape _ _ _ _ H), list_eqb_refl'; auto.
  - assert (C : forall x, ashape x = sh i -> ocall K (ODiag d (sh i)) x = Ok (act (ODiag d (sh i)) x)).
    { intros x Sx. unfold act. cbn [ocall]. destruct (diag_call d (sh i) x (proj1 H) Sx) as (r & E & _). rewrite E. auto. }
    split; auto. split; auto. apply diag_lin with d; [apply H|auto].
  - assert (C : forall x, ashape x = sh i -> ocall K (OHodge d (sh i)) x = Ok (act (OHodge d (sh i)) x)).
    { intros x Sx. unfold act. cbn [ocall]. destruct (diag_call d (sh i) x (proj1 H) Sx) as (r & E & _). rewrite E. auto. }
    split; auto. split; auto. apply diag_lin with d; [apply H|auto].
  - apply act_intro with (fun x => x); auto; [apply lin_id|]. intros x Sx. cbn [ocall]. unfold checked. cbn [fst snd bind]. rewrite Sx, !list_eqb_refl'. auto.
  - apply good_comp; auto.
  - apply good_comb; auto.
  - destruct H0 as (S & L & C). split; [|split].
    + cbn [oshape map hd last]. rewrite S. auto.
    + auto.
    + intros x Sx. simpl. rewrite C; auto.
  - destruct H0 as (S & L & C), H2 as (S' & L' & C'). split; [|split].
    + cbn [oshape map hd]. rewrite S. cbn [fst]. f_equal. cbn [oshape] in S'. injection S' as _ S'. rewrite <- S'.
      destruct l; [inversion H1|]. cbn [map last]. auto.
    + apply (lin_comp (sh k) (sh j) (sh i) (act o) (actl l)); auto.
    + intros x Sx. cbn [fold_right]. rewrite C' by auto. cbn [bind]. rewrite C; auto. apply (lin_shape _ _ _ _ L'); auto.
  - split; [discriminate|]. auto.
  - split; [discriminate|]. constructor; auto. apply H2.
Qed.
Lemma typed_good : forall o i j, typed K G o i j -> good o i j.
Proof. apply typed_good_all. Qed.
Lemma tchain_good : forall l i j, tchain K G l i j -> goodl l i j.
Proof. apply typed_good_all. Qed.
Lemma tsum_good : forall l i j, tsum K G l i j -> goods l i j.
Proof. apply typed_good_all. Qed.

(** ---- chains with a possibly empty list ---- *)
Inductive tch : list (op K) -> space K G -> space K G -> Prop :=
| tch_nil : forall i, tch [] i i
| tch_cons : forall o l i j k, typed K G o i j -> tch l j k -> tch (o :: l) i k.

Lemma tchain_tch : forall l i j, tchain K G l i j -> tch l i j.
Proof. intros l i j H. induction H; econstructor; eauto; constructor. Qed.
Lemma tch_tchain : forall l i j, tch l i j -> l <> [] -> tchain K G l i j.
Proof.
  intros l i j H. induction H; intros NE; [congruence|]. destruct l.
  - inversion H0; subst. constructor. auto.
  - econstructor; eauto. apply IHtch. discriminate.
Qed.
Lemma tch_inv : forall o l i k, tch (o :: l) i k -> exists j, typed K G o i j /\ tch l j k.
Proof. intros o l i k H. inversion H; subst. eauto. Qed.
Lemma tch_app : forall a b i k, tch (a ++ b) i k <-> exists j, tch a i j /\ tch b j k.
Proof.
  induction a; simpl; intros b i k; split.
  - intros H. exists i. split; auto. constructor.
  - intros (j & H & H'). inversion H; subst. auto.
  - intros H. inversion H; subst. apply IHa in H5 as (j' & A & B). exists j'. split; auto. econstructor; eauto.
  - intros (j & H & H'). inversion H; subst. econstructor; eauto. apply IHa. eauto.
Qed.
Lemma tch_lin : forall l i j, tch l i j -> linear (sh j) (sh i) (actl l).
Proof. intros l i j H. induction H; [apply lin_id|]. apply (lin_comp (sh k) (sh j) (sh i) (act o) (actl l)); auto. apply typed_good; auto. Qed.

Lemma actl_app : forall a b x, actl (a ++ b) x = actl a (actl b x).
Proof. intros. unfold actl. apply fold_right_app. Qed.

Lemma mk_comp_ok : forall l i j, tchain K G l i j -> mk_comp K l = Ok (OComp l).
Proof.
  intros l i j H. unfold mk_comp. assert (E : forallb (fun p => list_eqb (snd (oshape K (fst p))) (fst (oshape K (snd p)))) (combine l (tl l)) = true).
  { induction H; auto. destruct l as [|p l]; [inversion H0|]. cbn [tl combine forallb fst snd].
    apply andb_true_iff. split; [|exact IHtchain]. destruct (typed_good _ _ _ H) as (S & _). rewrite S.
    destruct (tchain_good _ _ _ H0) as (S' & _). cbn [oshape map hd] in S'. injection S' as S' _. rewrite S'. apply list_eqb_refl'. }
  rewrite E. destruct l; [inversion H|]. auto.
Qed.

Lemma tsum_iff : forall l i j, tsum K G l i j <-> l <> [] /\ Forall (fun o => typed K G o i j) l.
Proof.
  intros l i j. split.
  - intros H. induction H; split; try discriminate; auto. constructor; auto. apply IHtsum.
  - intros [NE F]. induction F; [congruence|]. destruct l; [constructor; auto|]. apply ts_cons; auto. apply IHF. discriminate.
Qed.

Lemma mk_comb_ok : forall l i j, tsum K G l i j -> mk_comb K l = Ok (OComb l).
Proof.
  intros l i j H. apply tsum_iff in H as [NE F]. destruct l as [|o l]; [congruence|]. unfold mk_comb.
  assert (S : forall p, In p (o :: l) -> oshape K p = (sh i, sh j)).
  { intros p Hp. rewrite Forall_forall in F. apply F in Hp. apply typed_good in Hp. apply Hp. }
  rewrite (proj2 (forallb_forall _ _)); auto. intros p Hp. unfold shapes_eqb. rewrite !S; simpl; auto. rewrite !list_eqb_refl'. auto.
Qed.

(** ---- simplification ---- *)
Definition same (o c : op K) (j : space K G) : Prop := forall x, ashape x = sh j -> aeq (act o x) (act c x).

Lemma existsb_split : forall A (f : A -> bool) l, existsb f l = true -> exists a x b, l = a ++ x :: b /\ f x = true.
Proof.
  intros A f l H. apply existsb_exists in H as (x & Hx & F). apply in_split in Hx as (a & b & ->). eauto.
Qed.
Lemma pairs_split : forall A (f : A * A -> bool) l, existsb f (combine l (tl l)) = true -> exists a x y b, l = a ++ x :: y :: b /\ f (x, y) = true.
Proof.
  induction l as [|x l IH]; simpl; intros H; [discriminate|]. destruct l as [|y l]; [discriminate|]. cbn [combine existsb] in H.
  apply orb_true_iff in H as [H|H].
  - exists [], x, y, l. auto.
  - apply IH in H as (a & u & v & b & -> & F). exists (x :: a), u, v, b. auto.
Qed.

Lemma aeq_zero_through : forall a i j x, tch a i j -> aeq x (zeros K (sh j)) -> aeq (actl a x) (zeros K (sh i)).
Proof.
  intros a i j x T E. pose proof (tch_lin _ _ _ T) as L. eapply aeq_trans; [apply (lin_ext _ _ _ _ L); [destruct E; auto|eauto]|]. apply lin_zero. auto.
Qed.

Hypothesis GC : sig_closed K G.
Lemma is_zero_ok : forall l i j x, tch l i j -> ashape x = sh j -> is_zero K l = true -> aeq (actl l x) (zeros K (sh i)).
Proof.
  intros l i j x T Sx Z. unfold is_zero in Z. apply orb_true_iff in Z as [Z|Z]; [apply orb_true_iff in Z as [Z|Z]|].
  - apply existsb_split in Z as (a & o & b & -> & F). destruct o; try discriminate. apply tch_app in T as (k & Ta & Tb).
    apply tch_inv in Tb as (j0 & H2 & H4). rewrite actl_app. apply aeq_zero_through with k; auto. cbn [actl fold_right]. fold (actl b x).
    pose proof (lin_shape _ _ _ _ (tch_lin _ _ _ H4) x Sx) as S1. destruct (typed_good _ _ _ H2) as (S & _ & C). cbn [oshape] in S.
    unfold act. cbn [ocall]. rewrite S. unfold checked. cbn [fst snd bind]. rewrite S1, !list_eqb_refl'. apply aeq_refl.
  - apply pairs_split in Z as (a & o & p & b & -> & F). cbn [fst snd] in F. apply andb_true_iff in F as [F1 F2].
    destruct o; try discriminate. destruct p; try discriminate. apply tch_app in T as (k & Ta & Tb). apply tch_inv in Tb as (j0 & H2 & H4). apply tch_inv in H4 as (j1 & H5 & H7).
    rewrite actl_app. apply aeq_zero_through with k; auto. cbn [actl fold_right]. fold (actl b x).
    pose proof (lin_shape _ _ _ _ (tch_lin _ _ _ H7) x Sx) as S1. assert (H1 : d_ok K G o k j0) by (inversion H2; auto). assert (H0 : d_ok K G o0 j0 j1) by (inversion H5; auto).
    destruct (so_d _ _ GO _ _ _ H1) as [T1 E1]. destruct (so_d _ _ GO _ _ _ H0) as [T2 E2].
    assert (A1 : act (ODeriv o0) (actl b x) = so_right K o0 (actl b x)).
    { unfold act. cbn [ocall]. erewrite so_call_ok; eauto. }
    assert (S2 : ashape (so_right K o0 (actl b x)) = sh j0).
    { pose proof (lin_shape _ _ _ _ (tr_right _ _ T2) (actl b x)) as Q. rewrite E2 in Q. cbn [fst snd] in Q. auto. }
    rewrite A1. unfold act. cbn [ocall]. rewrite (so_call_ok o k j0) by auto. eapply (so_d_closed K G GC); eauto.
  - apply pairs_split in Z as (a & o & p & b & -> & F). cbn [fst snd] in F. apply andb_true_iff in F as [F1 F2].
    destruct o; try discriminate. destruct p; try discriminate. apply tch_app in T as (k & Ta & Tb). apply tch_inv in Tb as (j0 & H2 & H4). apply tch_inv in H4 as (j1 & H5 & H7).
    rewrite actl_app. apply aeq_zero_through with k; auto. cbn [actl fold_right]. fold (actl b x).
    pose proof (lin_shape _ _ _ _ (tch_lin _ _ _ H7) x Sx) as S1. assert (H1 : dd_ok K G o k j0) by (inversion H2; auto). assert (H0 : dd_ok K G o0 j0 j1) by (inversion H5; auto).
    destruct (so_dd _ _ GO _ _ _ H1) as [T1 E1]. destruct (so_dd _ _ GO _ _ _ H0) as [T2 E2].
    assert (A1 : act (ODual o0) (actl b x) = so_right K o0 (actl b x)).
    { unfold act. cbn [ocall]. erewrite so_call_ok; eauto. }
    assert (S2 : ashape (so_right K o0 (actl b x)) = sh j0).
    { pose proof (lin_shape _ _ _ _ (tr_right _ _ T2) (actl b x)) as Q. rewrite E2 in Q. cbn [fst snd] in Q. auto. }
    rewrite A1. unfold act. cbn [ocall]. rewrite (so_call_ok o k j0) by auto. eapply (so_dd_closed K G GC); eauto.
Qed.

Lemma first_comp_some : forall l a m b, first_comp K l = Some (a, m, b) -> l = a ++ OComp m :: b.
Proof.
  induction l as [|o l IH]; simpl; intros a m b H; [discriminate|].
  destruct o; try (destruct (first_comp K l) as [[[a' m'] b']|]; [|discriminate]; injection H as <- <- <-; simpl; f_equal; auto; fail).
  injection H as <- <- <-. auto.
Qed.
Lemma first_comb_some : forall l a m b, first_comb K l = Some (a, m, b) -> l = a ++ OComb m :: b.
Proof.
  induction l as [|o l IH]; simpl; intros a m b H; [discriminate|].
  destruct o; try (destruct (first_comb K l) as [[[a' m'] b']|]; [|discriminate]; injection H as <- <- <-; simpl; f_equal; auto; fail).
  injection H as <- <- <-. auto.
Qed.
Lemma first_diags_some : forall l a p q b, first_diags K l = Some (a, p, q, b) -> l = a ++ p :: q :: b /\ isDiag K p = true /\ isDiag K q = true.
Proof.
  induction l as [|o l IH]; cbn [first_diags]; intros a p q b H; [discriminate|]. destruct l as [|o' l]; [discriminate|].
  destruct (isDiag K o && isDiag K o') eqn:E.
  - injection H as <- <- <- <-. apply andb_true_iff in E as [E1 E2]. auto.
  - destruct (first_diags K (o' :: l)) as [[[[a' p'] q'] b']|]; [|discriminate]. injection H as <- <- <- <-.
    destruct (IH _ _ _ _ eq_refl) as (E1 & E2 & E3). split; auto. rewrite E1. auto.
Qed.

Definition lsize (l : list (op K)) : nat := fold_right (fun p n => (osize K p + n)%nat) 0%nat l.
Lemma lsize_app : forall a b, lsize (a ++ b) = (lsize a + lsize b)%nat.
Proof. induction a; simpl; intros; auto. rewrite IHa. lia. Qed.
Lemma osize_pos : forall o, 1 <= osize K o.
Proof. destruct o; simpl; lia. Qed.
Lemma lsize_filter : forall f l, lsize (filter f l) <= lsize l.
Proof. induction l; simpl; auto. destruct (f a); simpl; lia. Qed.
Lemma lsize_filter_lt : forall f l, existsb (fun p => negb (f p)) l = true -> lsize (filter f l) < lsize l.
Proof.
  induction l; simpl; intros H; [discriminate|]. pose proof (lsize_filter f l). pose proof (osize_pos a). destruct (f a); simpl in *; [apply IHl in H|]; lia.
Qed.

Variables near0 near1 : array K -> bool.
Definition dgs (d : array K) : Prop := forall idx, in_range (ashape d) idx -> dg_ok K G (aget d idx).
Hypothesis near0_ok : forall d, dgs d -> near0 d = true -> forall idx, in_range (ashape d) idx -> aget d idx = r0.
Hypothesis near1_ok : forall d, dgs d -> near1 d = true -> forall idx, in_range (ashape d) idx -> aget d idx = r1.

Lemma dval_const : forall d s v, (ashape d = [] \/ ashape d = s) -> (forall idx, in_range (ashape d) idx -> aget d idx = v) ->
  forall idx, in_range s idx -> dval d idx = v.
Proof.
  intros d s v H E idx Hi. unfold dval. destruct (ashape d) eqn:Ed.
  - apply E. constructor.
  - destruct H as [H|H]; [discriminate|]. apply E. rewrite H. auto.
Qed.

Lemma simplify_diag_ok : forall d i self, diag_ok K G d i -> (self = ODiag d (sh i) \/ self = OHodge d (sh i)) ->
  typed K G (simplify_diag K near0 near1 d (sh i) self) i i /\ osize K (simplify_diag K near0 near1 d (sh i) self) = 1 /\
  forall x, ashape x = sh i -> ashape (act (simplify_diag K near0 near1 d (sh i) self) x) = sh i /\
    forall idx, in_range (sh i) idx -> aget (act (simplify_diag K near0 near1 d (sh i) self) x) idx = aget x idx * dval d idx.
Proof.
  intros d i self HD Hs. pose proof HD as [H HV]. unfold simplify_diag. destruct (near0 d) eqn:N0; [|destruct (near1 d) eqn:N1].
  - split; [constructor|]. split; auto. intros x Sx. unfold act. cbn [ocall]. unfold checked. cbn [fst snd bind]. rewrite Sx, !list_eqb_refl'.
    split; auto. intros idx Hi. rewrite (dval_const d (sh i) r0); auto. simpl. ring.
  - split; [constructor|]. split; auto. intros x Sx. unfold act. cbn [ocall]. unfold checked. cbn [fst snd bind]. rewrite Sx, !list_eqb_refl'.
    split; auto. intros idx Hi. rewrite (dval_const d (sh i) r1); auto. ring.
  - split; [destruct Hs; subst; constructor; auto|]. split; [destruct Hs; subst; auto|]. intros x Sx.
    destruct (diag_call d (sh i) x H Sx) as (r & E & Sr & V). unfold act. destruct Hs; subst; cbn [ocall]; rewrite E; auto.
Qed.

Lemma bmul_diag : forall i a b, diag_ok K G a i -> diag_ok K G b i -> exists r, bmul K a b = Ok r /\
  diag_ok K G r i /\ forall idx, in_range (sh i) idx -> dval r idx = dval a idx * dval b idx.
Proof.
  intros i a b [Ha Va] [Hb Vb]. destruct (bmul_dval (sh i) a b Ha Hb) as (r & E & S & V). exists r. split; auto. split; auto. split; auto.
  unfold bmul in E. destruct (list_eqb (ashape a) (ashape b)) eqn:Q.
  - apply list_eqb_eq in Q. injection E as <-. simpl. intros idx R. apply (so_dg_mul _ _ GO); auto. apply Vb. rewrite <- Q. auto.
  - destruct Ha as [Ha|Ha], Hb as [Hb|Hb]; rewrite Ha, Hb in *; try (rewrite list_eqb_refl' in Q; discriminate); destruct (sh i); try discriminate;
      injection E as <-; simpl; intros idx R; apply (so_dg_mul _ _ GO); auto; first [apply Va|apply Vb]; constructor.
Qed.

Lemma tch_cong : forall a m m' b i k k' j, tch a i k -> tch m k k' -> tch m' k k' -> tch b k' j ->
  (forall x, ashape x = sh k' -> aeq (actl m x) (actl m' x)) ->
  forall x, ashape x = sh j -> aeq (actl (a ++ m ++ b) x) (actl (a ++ m' ++ b) x).
Proof.
  intros a m m' b i k k' j Ta Tm Tm' Tb E x Sx. rewrite !actl_app.
  pose proof (lin_shape _ _ _ _ (tch_lin _ _ _ Tb) x Sx) as S1.
  apply (lin_ext _ _ _ _ (tch_lin _ _ _ Ta)); auto. apply (lin_shape _ _ _ _ (tch_lin _ _ _ Tm)); auto.
Qed.

Lemma filter_id_ok : forall l i j, tch l i j -> tch (filter (fun p => negb (isId K p)) l) i j /\
  forall x, ashape x = sh j -> actl (filter (fun p => negb (isId K p)) l) x = actl l x.
Proof.
  intros l i j T. induction T; simpl; [split; [constructor|auto]|]. destruct IHT as [T' E].
  destruct (isId K o) eqn:I; simpl.
  - destruct o; try discriminate. inversion H; subst. split; auto. intros x Sx. rewrite E by auto. fold (actl l x).
    pose proof (lin_shape _ _ _ _ (tch_lin _ _ _ T) x Sx) as S1. unfold act. cbn [ocall]. unfold checked. cbn [fst snd bind].
    rewrite S1, !list_eqb_refl'. auto.
  - split; [econstructor; eauto|]. intros x Sx. fold (actl l x). rewrite <- E by auto. auto.
Qed.

Lemma vsum_app : forall a b x idx, vsum (a ++ b) x idx = vsum a x idx + vsum b x idx.
Proof. induction a; simpl; intros; [ring|]. rewrite IHa. ring. Qed.
Lemma act_zero : forall s i j x, typed K G (OZero s) i j -> ashape x = sh j -> act (OZero s) x = zeros K (sh i).
Proof.
  intros s i j x T Sx. destruct (typed_good _ _ _ T) as (S & _). cbn [oshape] in S. subst s. unfold act. cbn [ocall]. unfold checked. cbn [fst snd bind].
  rewrite Sx, !list_eqb_refl'. auto.
Qed.
Lemma filter_zero_ok : forall l i j x idx, Forall (fun o => typed K G o i j) l -> ashape x = sh j ->
  vsum (filter (fun p => negb (isZero K p)) l) x idx = vsum l x idx.
Proof.
  intros l i j x idx F Sx. induction F; simpl; auto. destruct (isZero K x0) eqn:Z; simpl; rewrite IHF; auto.
  destruct x0; try discriminate. rewrite (act_zero s i j) by auto. simpl. ring.
Qed.

Lemma same_comp : forall l m i j, tchain K G l i j -> tchain K G m i j -> (forall x, ashape x = sh j -> aeq (actl l x) (actl m x)) -> same (OComp l) (OComp m) j.
Proof.
  intros l m i j Tl Tm E x Sx. rewrite (proj2 (good_comp _ _ _ (tchain_good _ _ _ Tl))) by auto. rewrite (proj2 (good_comp _ _ _ (tchain_good _ _ _ Tm))) by auto. auto.
Qed.
Lemma same_comb : forall l m i j, tsum K G l i j -> tsum K G m i j -> (forall x idx, ashape x = sh j -> vsum l x idx = vsum m x idx) -> same (OComb l) (OComb m) j.
Proof.
  intros l m i j Tl Tm E x Sx. destruct (good_comb _ _ _ (tsum_good _ _ _ Tl)) as [(_ & L1 & _) V1]. destruct (good_comb _ _ _ (tsum_good _ _ _ Tm)) as [(_ & L2 & _) V2].
  split; [rewrite (lin_shape _ _ _ _ L1), (lin_shape _ _ _ _ L2); auto|]. intros idx Hi. rewrite V1, V2 by auto. auto.
Qed.
Lemma same_trans : forall a b c j, same a b j -> same b c j -> same a c j.
Proof. intros a b c j A B x Sx. eapply aeq_trans; eauto. Qed.
Lemma same_refl : forall a j, same a a j.
Proof. intros a j x _. apply aeq_refl. Qed.

Lemma simplify_ok : forall n o i j, typed K G o i j -> osize K o <= n ->
  exists c, simplify K near0 near1 n o = Ok c /\ typed K G c i j /\ same o c j.
Proof.
  induction n as [|n IH]; intros o i j T Sz; [pose proof (osize_pos o); lia|].
  destruct o; try (exists o; fail); try (cbn [simplify]; eexists; split; [reflexivity|]; split; [exact T|apply same_refl]; fail).
  - (* diagonal *)
    cbn [simplify]. assert (Q : i = j /\ s = sh j /\ diag_ok K G d j) by (inversion T; subst; auto). destruct Q as (-> & -> & H1). destruct (simplify_diag_ok d j (ODiag d (sh j)) H1 (or_introl eq_refl)) as (A & B & C).
    eexists. split; [reflexivity|]. split; auto. intros x Sx. destruct (C x Sx) as [C1 C2].
    destruct (diag_call d (sh j) x (proj1 H1) Sx) as (r & E & Sr & V). unfold act at 1. cbn [ocall]. rewrite E. split; [congruence|].
    intros idx Hi. rewrite Sr in Hi. rewrite V, C2; auto.
  - cbn [simplify]. assert (Q : i = j /\ s = sh j /\ diag_ok K G d j) by (inversion T; subst; auto). destruct Q as (-> & -> & H1). destruct (simplify_diag_ok d j (OHodge d (sh j)) H1 (or_intror eq_refl)) as (A & B & C).
    eexists. split; [reflexivity|]. split; auto. intros x Sx. destruct (C x Sx) as [C1 C2].
    destruct (diag_call d (sh j) x (proj1 H1) Sx) as (r & E & Sr & V). unfold act at 1. cbn [ocall]. rewrite E. split; [congruence|].
    intros idx Hi. rewrite Sr in Hi. rewrite V, C2; auto.
  - (* composed *)
    assert (TC : tchain K G l i j) by (inversion T; auto). pose proof (tchain_tch _ _ _ TC) as TT. cbn [osize] in Sz. fold (lsize l) in Sz.
    destruct l as [|p l]; [inversion TC|]. destruct l as [|q l].
    { cbn [simplify]. assert (Tp : typed K G p i j) by (inversion TC; subst; auto; inversion H4).
      destruct (IH p i j Tp) as (c & E & Tc & Sc); [simpl in Sz; lia|]. exists c. split; auto. split; auto.
      eapply same_trans; [|exact Sc]. intros x Sx. rewrite (proj2 (good_comp _ _ _ (tchain_good _ _ _ TC))) by auto. apply aeq_refl. }
    remember (p :: q :: l) as L eqn:EL.
    assert (US : simplify K near0 near1 (S n) (OComp L) =
        if is_zero K L then Ok (OZero (oshape K (OComp L)))
        else match first_comp K L with
        | Some (a, m, b) => do c <- mk_comp K (a ++ m ++ b); simplify K near0 near1 n c
        | None =>
          if existsb (isId K) L then
            match filter (fun p => negb (isId K p)) L with
            | [] => Ok (OId (fst (oshape K (OComp L))))
            | ops => do c <- mk_comp K ops; simplify K near0 near1 n c
            end
          else match first_diags K L with
          | Some (a, p, q, b) =>
              do dp <- get_diag K p; do dq <- get_diag K q; do d <- bmul K dp dq;
              let s := fst (oshape K p) in
              do c <- mk_comp K (a ++ [simplify_diag K near0 near1 d s (ODiag d s)] ++ b); simplify K near0 near1 n c
          | None => Ok (OComp L)
          end
        end) by (subst L; reflexivity).
    rewrite US. clear US EL p q l. destruct (is_zero K L) eqn:Z; [|destruct (first_comp K L) as [[[a m] b]|] eqn:FC; [|destruct (existsb (isId K) L) eqn:EI]].
    + destruct (tchain_good _ _ _ TC) as (S & _). rewrite S. eexists. split; [reflexivity|]. split; [constructor|]. intros x Sx.
      rewrite (proj2 (good_comp _ _ _ (tchain_good _ _ _ TC))) by auto. rewrite (act_zero _ i j) by (auto; constructor). eapply is_zero_ok; eauto.
    + apply first_comp_some in FC. subst L. apply tch_app in TT as (k & Ta & Tb). apply tch_inv in Tb as (j0 & H2 & H4). assert (H1 : tchain K G m k j0) by (inversion H2; auto).
      assert (Tm : tch m k j0) by (apply tchain_tch; auto).
      assert (T' : tchain K G (a ++ m ++ b) i j).
      { apply tch_tchain; [apply tch_app; exists k; split; auto; apply tch_app; eauto|]. destruct a; [|discriminate]. destruct m; [inversion H1|discriminate]. }
      rewrite (mk_comp_ok _ i j) by auto. cbn [bind]. destruct (IH (OComp (a ++ m ++ b)) i j) as (c & E & Tc & Sc).
      * constructor. auto.
      * cbn [osize]. fold (lsize (a ++ m ++ b)). rewrite !lsize_app in *. cbn [lsize fold_right osize] in Sz. fold (lsize m) in Sz. fold (lsize b) in Sz. lia.
      * exists c. split; auto. split; auto. eapply same_trans; [|exact Sc]. eapply same_comp; eauto. intros x Sx.
        rewrite !actl_app. cbn [actl fold_right]. fold (actl b x). rewrite (proj2 (good_comp _ _ _ (tchain_good _ _ _ H1))); [apply aeq_refl|].
        apply (lin_shape _ _ _ _ (tch_lin _ _ _ H4)). auto.
    + destruct (filter_id_ok _ _ _ TT) as [T' V]. pose proof (lsize_filter_lt (fun p => negb (isId K p)) L) as LT.
      assert (EI' : existsb (fun p => negb (negb (isId K p))) L = true).
      { rewrite existsb_exists in *. destruct EI as (p & P1 & P2). exists p. rewrite P2. auto. }
      specialize (LT EI'). destruct (filter (fun p => negb (isId K p)) L) as [|p f] eqn:F.
      * inversion T'; subst. destruct (tchain_good _ _ _ TC) as (S & _). rewrite S. eexists. split; [reflexivity|]. split; [constructor|]. intros x Sx.
        rewrite (proj2 (good_comp _ _ _ (tchain_good _ _ _ TC))) by auto. rewrite <- V by auto. unfold act. cbn [ocall]. unfold checked. cbn [fst snd bind actl fold_right].
        rewrite Sx, list_eqb_refl'. apply aeq_refl.
      * assert (T2 : tchain K G (p :: f) i j) by (apply tch_tchain; auto; discriminate). rewrite (mk_comp_ok _ i j) by auto. cbn [bind].
        destruct (IH (OComp (p :: f)) i j) as (c & E & Tc & Sc); [constructor; auto| |].
        { cbn [osize]. fold (lsize (p :: f)). lia. }
        exists c. split; auto. split; auto. eapply same_trans; [|exact Sc]. eapply same_comp; eauto. intros x Sx. rewrite V by auto. apply aeq_refl.
    + destruct (first_diags K L) as [[[[a p] q] b]|] eqn:FD.
      2:{ eexists. split; [reflexivity|]. split; auto. apply same_refl. }
      apply first_diags_some in FD as (-> & Dp & Dq). rewrite existsb_app in EI. apply orb_false_iff in EI as [_ EI]. cbn [existsb] in EI.
      apply orb_false_iff in EI as [Ip EI]. apply orb_false_iff in EI as [Iq _].
      apply tch_app in TT as (k & Ta & Tb). apply tch_inv in Tb as (j0 & H2 & H4). apply tch_inv in H4 as (j1 & H5 & H7).
      assert (DD : forall u i1 jj, typed K G u i1 jj -> isDiag K u = true -> isId K u = false ->
        i1 = jj /\ exists d, get_diag K u = Ok d /\ oshape K u = (sh i1, sh i1) /\ diag_ok K G d i1 /\
          forall x, ashape x = sh i1 -> ashape (act u x) = sh i1 /\ forall idx, in_range (sh i1) idx -> aget (act u x) idx = aget x idx * dval d idx).
      { intros u i1 jj Tu Du Iu. destruct u; try discriminate; assert (Q : i1 = jj /\ s = sh jj /\ diag_ok K G d jj) by (inversion Tu; subst; auto); destruct Q as (-> & -> & H3); (split; [reflexivity|]); exists d; (split; [reflexivity|]); (split; [reflexivity|]);
          (split; [auto|]); intros x Sx; destruct (diag_call d (sh jj) x (proj1 H3) Sx) as (r & Er & Sr & Vr); unfold act; cbn [ocall]; rewrite Er; auto. }
      destruct (DD p k j0 H2 Dp Ip) as (-> & dp & Gp & Op & Sp & Vp). destruct (DD q j0 j1 H5 Dq Iq) as (-> & dq & Gq & Oq & Sq & Vq). clear DD.
      rewrite Gp, Gq. cbn [bind]. destruct (bmul_diag j1 dp dq Sp Sq) as (d & Ed & Sd & Vd). rewrite Ed. cbn [bind]. cbv zeta. rewrite Op. cbn [fst].
      destruct (simplify_diag_ok d j1 (ODiag d (sh j1)) Sd (or_introl eq_refl)) as (Tsd & Zsd & Csd).
      set (sd := simplify_diag K near0 near1 d (sh j1) (ODiag d (sh j1))) in *.
      assert (T' : tchain K G (a ++ [sd] ++ b) i j).
      { apply tch_tchain; [|destruct a; discriminate]. apply tch_app. exists j1. split; auto. econstructor; eauto. }
      rewrite (mk_comp_ok _ i j) by auto. cbn [bind]. destruct (IH (OComp (a ++ [sd] ++ b)) i j) as (c & E & Tc & Sc); [constructor; auto| |].
      { cbn [osize]. fold (lsize (a ++ [sd] ++ b)). rewrite !lsize_app in *. cbn [lsize fold_right] in *. fold (lsize b) in *. pose proof (osize_pos p). pose proof (osize_pos q). lia. }
      exists c. split; auto. split; auto. eapply same_trans; [|exact Sc]. eapply same_comp; eauto.
      intros x Sx. apply (tch_cong a [p; q] [sd] b i j1 j1 j); auto.
      * econstructor; eauto. econstructor; eauto. constructor.
      * econstructor; eauto. constructor.
      * intros y Sy. cbn [actl fold_right]. destruct (Vq y Sy) as [Q1 Q2]. destruct (Vp (act q y) Q1) as [P1 P2]. destruct (Csd y Sy) as [C1 C2].
        split; [congruence|]. intros idx Hi. rewrite P1 in Hi. rewrite P2, Q2, C2, Vd by auto. ring.
  - (* combined *)
    assert (TC : tsum K G l i j) by (inversion T; auto). pose proof (proj1 (tsum_iff _ _ _) TC) as [NE F]. cbn [osize] in Sz. fold (lsize l) in Sz.
    destruct l as [|p l]; [congruence|]. destruct l as [|q l].
    { cbn [simplify]. assert (Tp : typed K G p i j) by (inversion F; auto).
      destruct (IH p i j Tp) as (c & E & Tc & Sc); [simpl in Sz; lia|]. exists c. split; auto. split; auto.
      eapply same_trans; [|exact Sc]. intros x Sx. destruct (good_comb _ _ _ (tsum_good _ _ _ TC)) as [(_ & L1 & _) V1].
      destruct (typed_good _ _ _ Tp) as (_ & L2 & _). split; [rewrite (lin_shape _ _ _ _ L1), (lin_shape _ _ _ _ L2); auto|].
      intros idx Hi. rewrite V1 by auto. simpl. ring. }
    remember (p :: q :: l) as L eqn:EL.
    assert (US : simplify K near0 near1 (S n) (OComb L) =
        if existsb (isZero K) L then
          match filter (fun p => negb (isZero K p)) L with
          | [] => Ok (OZero (oshape K (OComb L)))
          | ops => do c <- mk_comb K ops; simplify K near0 near1 n c
          end
        else match first_comb K L with
        | Some (a, m, b) => do c <- mk_comb K (a ++ m ++ b); simplify K near0 near1 n c
        | None => Ok (OComb L)
        end) by (subst L; reflexivity).
    rewrite US. clear US EL p q l. destruct (existsb (isZero K) L) eqn:EZ; [|destruct (first_comb K L) as [[[a m] b]|] eqn:FC].
    + pose proof (lsize_filter_lt (fun p => negb (isZero K p)) L) as LT.
      assert (EZ' : existsb (fun p => negb (negb (isZero K p))) L = true).
      { rewrite existsb_exists in *. destruct EZ as (p & P1 & P2). exists p. rewrite P2. auto. }
      specialize (LT EZ'). pose proof (fun x idx => filter_zero_ok L i j x idx F) as V.
      assert (F' : Forall (fun o => typed K G o i j) (filter (fun p => negb (isZero K p)) L)).
      { rewrite Forall_forall in *. intros p Hp. apply filter_In in Hp as [Hp _]. auto. }
      destruct (filter (fun p => negb (isZero K p)) L) as [|p f].
      * destruct (good_comb _ _ _ (tsum_good _ _ _ TC)) as [(S & L1 & _) V1]. rewrite S. eexists. split; [reflexivity|]. split; [constructor|]. intros x Sx.
        rewrite (act_zero _ i j) by (auto; constructor). split; [rewrite (lin_shape _ _ _ _ L1); auto|]. intros idx Hi. rewrite V1, <- V by auto. reflexivity.
      * assert (T2 : tsum K G (p :: f) i j) by (apply tsum_iff; split; auto; discriminate). rewrite (mk_comb_ok _ i j) by auto. cbn [bind].
        destruct (IH (OComb (p :: f)) i j) as (c & E & Tc & Sc); [constructor; auto| |].
        { cbn [osize]. fold (lsize (p :: f)). lia. }
        exists c. split; auto. split; auto. eapply same_trans; [|exact Sc]. eapply same_comb; eauto. intros x idx Sx. rewrite V by auto. auto.
    + apply first_comb_some in FC. subst L. apply Forall_app in F as [Fa Fb]. inversion Fb as [|? ? H1 H2]; subst. assert (H3 : tsum K G m i j) by (inversion H1; auto).
      assert (Fm := proj2 (proj1 (tsum_iff _ _ _) H3)).
      assert (T' : tsum K G (a ++ m ++ b) i j).
      { apply tsum_iff. split; [|apply Forall_app; split; auto; apply Forall_app; auto]. destruct a; [|discriminate]. destruct m; [inversion H3|discriminate]. }
      rewrite (mk_comb_ok _ i j) by auto. cbn [bind]. destruct (IH (OComb (a ++ m ++ b)) i j) as (c & E & Tc & Sc).
      * constructor. auto.
      * cbn [osize]. fold (lsize (a ++ m ++ b)). rewrite !lsize_app in *. cbn [lsize fold_right osize] in Sz. fold (lsize m) in Sz. fold (lsize b) in Sz. lia.
      * exists c. split; auto. split; auto. eapply same_trans; [|exact Sc]. eapply same_comb; eauto. intros x idx Sx.
        rewrite !vsum_app. cbn [vsum]. rewrite (proj2 (good_comb _ _ _ (tsum_good _ _ _ H3))) by auto. ring.
    + eexists. split; [reflexivity|]. split; auto. apply same_refl.
Qed.
End OpP.
