(** Proofs about relaxation: exact solutions are fixed points of jacobi iterations. *)
Require Import List Arith Bool Lia Ring.
From Verif Require Import Util Arr StModel OpModel OpSpec OpProofs TrProofs BlkModel BlkSpec BlkProofs DiagProofs TypProofs MgModel SmProofs.
Import ListNotations.

Section Sys.
Variable K : cring.
Add Ring Ks : (rth K).
Local Open Scope ring_scope'.
Variable G : signature K.
Hypothesis GO : sig_ok K G.
Notation sh := (shp K G).
Notation tblock := (tblock K G).
Notation bv := (bv K G).
Notation bzero := (bzero K).

Lemma aeq_sym' : forall a b : array K, aeq a b -> aeq b a.
Proof. intros a b [S V]. split; auto. intros i Hi. symmetry. apply V. rewrite S. auto. Qed.
Lemma feq_refl : forall x : list (array K), Forall2 aeq x x.
Proof. induction x; constructor; auto. apply aeq_refl. Qed.
Lemma feq_trans : forall x y z : list (array K), Forall2 aeq x y -> Forall2 aeq y z -> Forall2 aeq x z.
Proof. intros x y z H. revert z. induction H; intros z Q; inversion Q; subst; constructor; auto. eapply aeq_trans; eauto. Qed.
Lemma feq_sym : forall x y : list (array K), Forall2 aeq x y -> Forall2 aeq y x.
Proof. intros x y H. induction H; constructor; auto. apply aeq_sym'; auto. Qed.
Lemma bv_eqv : forall x x' J, bv x J -> Forall2 aeq x' x -> bv x' J.
Proof. intros x x' J B E. revert J B. induction E as [|a b l l' Q E IH]; intros J B; inversion B; subst; constructor; auto. destruct Q as [S _]. congruence. apply IH; auto. Qed.
Lemma bzero_eqv : forall x x', bzero x -> Forall2 aeq x' x -> bzero x'.
Proof.
  intros x x' Z E. induction E as [|a b l l' [S V] E IH]; [constructor|]. inversion Z; subst. constructor; [|apply IH; auto]. intros idx R. rewrite V by auto. apply H1. rewrite <- S. auto.
Qed.

(** Blockwise operations on vectors of the same layout. *)
Lemma zip_ok : forall f (P : array K -> array K -> array K -> Prop), (forall a b, ashape a = ashape b -> exists c, f a b = Ok c /\ ashape c = ashape a /\ P a b c) ->
  forall J x y, bv x J -> bv y J -> exists z, zip_blocks K f x y = Ok z /\ bv z J /\ Forall2 (fun p c => P (fst p) (snd p) c) (combine x y) z.
Proof.
  intros f P H J x y Bx By. unfold zip_blocks.
  assert (L : length x =? length y = true) by (apply Nat.eqb_eq; apply Forall2_len in Bx; apply Forall2_len in By; congruence). rewrite L. clear L. revert y By.
  induction Bx as [|a j x J Sa Bx IH]; intros y By; inversion By as [|b j' y' J' Sb By']; subst; cbn [combine mapM fst snd].
  - exists []. repeat split; constructor.
  - destruct (H a b ltac:(congruence)) as (c & Ec & Sc & Pc). rewrite Ec. cbn [bind]. destruct (IH y' By') as (z & Ez & Bz & Fz). rewrite Ez. cbn [bind]. exists (c :: z).
    split; auto. split; constructor; auto. congruence.
Qed.
Lemma asub_ok : forall a b : array K, ashape a = ashape b -> exists c, asub K a b = Ok c /\ ashape c = ashape a /\ (forall i, aget c i = aget a i - aget b i).
Proof. intros a b S. unfold asub. rewrite S, list_eqb_refl'. eexists. split; [reflexivity|]. auto. Qed.
Lemma bsub_zero : forall J x w, bv x J -> bv w J -> bzero w -> exists x', bsub K x w = Ok x' /\ Forall2 aeq x' x.
Proof.
  intros J x w Bx Bw Z. destruct (zip_ok (asub K) (fun a b c => ashape c = ashape a /\ forall i, aget c i = aget a i - aget b i)) with (J := J) (x := x) (y := w) as (x' & E & B & F); auto.
  { intros a b S. destruct (asub_ok a b S) as (c & ? & ? & ?). eauto. }
  exists x'. split; auto. clear E. revert w x' Bw Z B F. induction Bx as [|a j x J Sa Bx IH]; intros w x' Bw Z B F; inversion Bw as [|b j' w' J' Sb Bw']; subst; cbn [combine] in F; inversion F as [|? c ? x'' [Sc Vc] F']; subst; constructor.
  - cbn [fst snd] in *. split; auto. intros i Hi. rewrite Vc. inversion Z; subst. rewrite H1; [ring|]. rewrite Sc in Hi. congruence.
  - inversion Z; subst. inversion B; subst. apply (IH w'); auto.
Qed.
(** The difference of two vectors is zero just if they agree. *)
Lemma bsub_spec : forall J x w, bv x J -> bv w J -> exists d, bsub K x w = Ok d /\ bv d J /\ (bzero d <-> Forall2 aeq x w).
Proof.
  intros J x w Bx Bw. destruct (zip_ok (asub K) (fun a b c => ashape c = ashape a /\ forall i, aget c i = aget a i - aget b i)) with (J := J) (x := x) (y := w) as (d & E & B & F); auto.
  { intros a b S. destruct (asub_ok a b S) as (c & ? & ? & ?). eauto. }
  exists d. split; auto. split; auto. clear E. revert w d Bw B F. induction Bx as [|a j x J Sa Bx IH]; intros w d Bw B F; inversion Bw as [|b j' w' J' Sb Bw']; subst; cbn [combine] in F; inversion F as [|? c ? d' [Sc Vc] F']; subst.
  - split; constructor.
  - inversion B; subst. destruct (IH w' d') as [IH1 IH2]; auto. cbn [fst snd] in *. split; intros Q; inversion Q; subst.
    + constructor; auto. split; [congruence|]. intros i Hi. assert (X : aget c i = r0) by (apply H1; rewrite Sc; auto). rewrite Vc in X.
      transitivity (aget b i + (aget a i - aget b i)); [ring|]. rewrite X. ring.
    + constructor; [|apply IH2; auto]. intros i Hi. rewrite Vc. destruct H3 as [_ V]. rewrite V by (rewrite <- Sc; auto). ring.
Qed.

Lemma diag_block_shape : forall o i n sp, typed K G o i i -> sh i = n :: sp -> (0 < n)%nat -> exists d, diag_block K o = Ok d /\ ashape d = n :: sp.
Proof.
  intros o i n sp T Si Hn. destruct (typed_good K G GO _ _ _ T) as (So & Lo & Co). unfold diag_block. rewrite So, Si. cbn [snd hd].
  assert (D : forall c, (0 <= c < 0 + n)%nat -> exists y, diag_do K o (n :: sp) c = Ok y /\ ashape y = n :: sp).
  { intros c _. unfold diag_do. assert (P : forall s, exists r, ocall K o (pattern K (n :: sp) c s) = Ok r /\ ashape r = n :: sp).
    { intros s. rewrite Co by (rewrite Si; auto). eexists. split; [reflexivity|]. rewrite (lin_shape _ _ _ _ Lo); auto. }
    destruct (P false) as (r1' & E1 & S1). destruct (P true) as (r2 & E2 & S2). rewrite E1, E2. cbn [bind].
    assert (M : forall a b : array K, ashape a = n :: sp -> ashape b = n :: sp -> bmul K a b = Ok (mkArr (n :: sp) (fun i => aget a i * aget b i))).
    { intros a b Sa Sb. unfold bmul. rewrite Sa, Sb, list_eqb_refl'. auto. }
    rewrite !M by auto. cbn [bind]. unfold badd. cbn [ashape]. rewrite list_eqb_refl'. eexists. split; [reflexivity|]. auto. }
  destruct (mapM_seq_spec _ _ (fun _ y => ashape y = n :: sp) 0 n D) as (l & El & Fl). rewrite El. cbn [bind].
  destruct l as [|a l]; [apply Forall2_len in Fl; rewrite seq_length in Fl; simpl in Fl; lia|].
  assert (FS : Forall (fun b : array K => ashape b = n :: sp) (a :: l)) by (clear - Fl; induction Fl; constructor; auto). inversion FS; subst.
  destruct (asum_val K l a (n :: sp)) as (r & E & S & _); auto. eauto.
Qed.

Definition real_space (j : space K G) : Prop := exists n sp, sh j = n :: sp /\ (0 < n)%nat.
Lemma bdiagonal_shape : forall N J, tblock N J J -> Forall real_space J -> exists D, bdiagonal K N = Ok D /\ bv D J.
Proof.
  intros N J T R. unfold bdiagonal. pose proof (Forall2_len _ _ _ _ _ T) as L.
  destruct J as [|j0 J'] eqn:EJ. { destruct N; [|discriminate]. exists []. split; auto. constructor. } rewrite <- EJ in *. 
  destruct (mapM_seq_spec _ (fun i => match nth_error N i with Some row => match nth_error row i with Some o => diag_block K o | None => Err IndexError end | None => Err IndexError end)
    (fun i d => ashape d = sh (nth i J j0)) 0 (length N)) as (D & E & F).
  - intros c Hc. pose proof (Forall2_nth _ _ _ N J [] j0 T c ltac:(lia)) as Tr. cbn beta in Tr.
    rewrite (nth_error_nth' N []) by lia. pose proof (Forall2_len _ _ _ _ _ Tr) as Lr.
    rewrite (nth_error_nth' (nth c N []) (OZero ([],[]))) by lia.
    pose proof (Forall2_nth _ _ _ (nth c N []) J (OZero ([],[])) j0 Tr c ltac:(lia)) as To. cbn beta in To.
    rewrite Forall_forall in R. destruct (R (nth c J j0)) as (n & sp & Sj & Hn); [apply nth_In; lia|].
    destruct (diag_block_shape _ _ n sp To Sj Hn) as (d & Ed & Sd). exists d. split; auto. congruence.
  - exists D. split; auto. pose proof (Forall2_len _ _ _ _ _ F) as LD. rewrite seq_length in LD. apply Forall2_nth_intro with (d1 := zeros K []) (d2 := j0); [lia|].
    intros i Hi. pose proof (Forall2_nth _ _ _ _ _ 0%nat (zeros K []) F i) as Q. rewrite seq_length, seq_nth in Q by lia. apply Q. lia.
Qed.

Section System.
Variables near0 near1 : array K -> bool.
Variable inv : nat -> K.
Variable kinv : K -> K.
Variable s : system K.
Variables I J M : list (space K G).
Hypothesis TA : tblock (sys_A K s) I J.
Hypothesis TB : tblock (sys_B K s) I M.
Hypotheses (NI : I <> []) (NJ : J <> []) (NM : M <> []).
Hypothesis RJ : Forall real_space J.

Lemma residual_ok : forall x y, bv x J -> bv y M -> exists r, residual K s x y = Ok r /\ bv r I.
Proof.
  intros x y Bx By. unfold residual. destruct (vector_mul_ok K G GO _ _ _ x TA NJ Bx) as (ax & -> & Bax & _). cbn [bind].
  destruct (vector_mul_ok K G GO _ _ _ y TB NM By) as (b & -> & Bb & _). cbn [bind]. destruct (bsub_spec I ax b Bax Bb) as (d & E & B & _). eauto.
Qed.
Lemma vector_mul_ext : forall A I' J' x x', tblock A I' J' -> J' <> [] -> bv x J' -> Forall2 aeq x' x -> exists y y', vector_mul K A x = Ok y /\ vector_mul K A x' = Ok y' /\ bv y I' /\ bv y' I' /\ Forall2 aeq y' y.
Proof.
  intros A I' J' x x' T NE B E. pose proof (bv_eqv _ _ _ B E) as B'. destruct (vector_mul_ok K G GO _ _ _ x T NE B) as (y & Ey & By & V). destruct (vector_mul_ok K G GO _ _ _ x' T NE B') as (y' & Ey' & By' & V').
  exists y, y'. split; auto. split; auto. split; auto. split; auto. apply (vmul_unique K G A I' x'); auto. clear Ey Ey'. unfold vmul_spec in *.
  clear By By' V' y'. revert y V. induction T as [|row i A I' Tr T IH]; intros y V; inversion V as [|? y0 ? ys [S0 V0] V1]; subst; constructor; auto.
  cbn [fst snd] in *. split; auto. intros idx R. rewrite V0 by auto. apply (rowval_ext K G GO row J' i); auto. apply feq_sym; auto.
Qed.
Lemma residual_ext : forall x x' y, bv x J -> bv y M -> Forall2 aeq x' x -> forall r, residual K s x y = Ok r -> bzero r -> exists r', residual K s x' y = Ok r' /\ bzero r' /\ bv r' I.
Proof.
  intros x x' y Bx By E r Er Z. unfold residual in *. destruct (vector_mul_ext _ _ _ x x' TA NJ Bx E) as (ax & ax' & E1 & E2 & B1 & B2 & EQ). rewrite E1 in Er. rewrite E2. cbn [bind] in *.
  destruct (vector_mul_ok K G GO _ _ _ y TB NM By) as (b & Eb & Bb & _). rewrite Eb in *. cbn [bind] in *.
  destruct (bsub_spec I ax b B1 Bb) as (d & Ed & Bd & Zd). rewrite Ed in Er. injection Er as <-.
  destruct (bsub_spec I ax' b B2 Bb) as (d' & Ed' & Bd' & Zd'). exists d'. split; auto. split; auto. apply Zd'. eapply feq_trans; eauto. apply Zd. auto.
Qed.
Lemma residual_zero : forall x y, bv x J -> bv y M -> bzero x -> bzero y -> exists r, residual K s x y = Ok r /\ bv r I /\ bzero r.
Proof.
  intros x y Bx By Zx Zy. unfold residual. destruct (vector_mul_zero K G GO _ _ _ x TA NJ Bx Zx) as (ax & -> & Bax & Zax). cbn [bind].
  destruct (vector_mul_zero K G GO _ _ _ y TB NM By Zy) as (b & -> & Bb & Zb). cbn [bind].
  destruct (bsub_zero I ax b Bax Bb Zb) as (d & E & F). exists d. split; auto. split; [eapply bv_eqv; [|exact F]|eapply bzero_eqv; [|exact F]]; auto.
Qed.

Lemma normal_ok : exists N, normal_system K near0 near1 s = Ok N /\ tblock (fst N) J J /\ tblock (snd N) J M.
Proof.
  unfold normal_system. destruct (btranspose_ok K G GO _ _ _ TA NI) as (AT & -> & TT & _). cbn [bind].
  destruct (matmul_typed K G GO near0 near1 AT (sys_A K s) J I J TT TA NI) as (P & -> & TP). cbn [bind]. destruct (bsimplify_typed K G GO near0 near1 P J J TP) as (NA & -> & TNA). cbn [bind].
  destruct (matmul_typed K G GO near0 near1 AT (sys_B K s) J I M TT TB NI) as (Q & -> & TQ). cbn [bind]. destruct (bsimplify_typed K G GO near0 near1 Q J M TQ) as (NB & -> & TNB). cbn [bind].
  eexists. split; [reflexivity|]. auto.
Qed.
Lemma inverse_diagonal_ok : exists D, inverse_normal_diagonal K near0 near1 kinv s = Ok D /\ bv D J.
Proof.
  unfold inverse_normal_diagonal. destruct normal_ok as (N & -> & TN & _). cbn [bind]. destruct (bdiagonal_shape _ _ TN RJ) as (D & -> & BD). cbn [bind].
  eexists. split; [reflexivity|]. clear - BD. unfold BlkSpec.bv in *. induction BD; constructor; auto.
Qed.

(** The jacobi iteration with any relaxation, and any number of them, keep exact solutions. *)
Lemma jacobi_fixed : forall x y k, bv x J -> bv y M -> (exists r, residual K s x y = Ok r /\ bzero r) -> exists x', jacobi K near0 near1 inv kinv s x y k = Ok x' /\ Forall2 aeq x' x.
Proof.
  intros x y k Bx By (r & Er & Zr). unfold jacobi. destruct (residual_ok x y Bx By) as (r' & Er' & Br). rewrite Er in Er'. injection Er' as <-. rewrite Er. cbn [bind].
  destruct (btranspose_ok K G GO _ _ _ TA NI) as (AT & -> & TT & _). cbn [bind]. destruct (vector_mul_zero K G GO _ _ _ r TT NI Br Zr) as (ar & -> & Bar & Zar). cbn [bind].
  destruct inverse_diagonal_ok as (D & -> & BD). cbn [bind].
  assert (Q : exists q, bmulv K D ar = Ok q /\ bv q J /\ bzero q).
  { destruct (zip_ok (bmul K) (fun a b c => ashape c = ashape b /\ forall i, aget c i = aget a i * aget b i)) with (J := J) (x := D) (y := ar) as (q & E & B & F); auto.
    { intros a b S. unfold bmul. rewrite S, list_eqb_refl'. eexists. split; [reflexivity|]. auto. }
    exists q. split; auto. split; auto. clear E B. revert q F. clear - Bar BD Zar. revert D BD. induction Bar as [|b j ar J Sb Bar IH]; intros D BD q F; inversion BD as [|a j' D' J' Sa BD']; subst; cbn [combine] in F; inversion F as [|? c ? q' [Sc Vc] F']; subst; constructor.
    - cbn [fst snd] in *. intros idx R. rewrite Vc. inversion Zar; subst. rewrite H1; [ring|]. rewrite <- Sc. auto.
    - inversion Zar; subst. apply (IH ltac:(auto) D'); auto. }
  destruct Q as (q & -> & Bq & Zq). cbn [bind]. apply (bsub_zero J); auto.
  - clear - Bq. unfold BlkSpec.bv, bscale in *. induction Bq; constructor; auto.
  - clear - Zq. unfold bscale. induction Zq; constructor; auto. cbn [ashape aget]. intros idx R. rewrite H by auto. ring.
Qed.
Lemma overrelax_fixed : forall ks x y, bv x J -> bv y M -> (exists r, residual K s x y = Ok r /\ bzero r) -> exists x', overrelax K near0 near1 inv kinv s x y ks = Ok x' /\ Forall2 aeq x' x.
Proof.
  unfold overrelax. induction ks as [|k ks IH]; intros x y Bx By (r & Er & Zr); cbn [foldM].
  - exists x. split; auto. apply feq_refl.
  - destruct (jacobi_fixed x y k Bx By) as (x1 & -> & E1); eauto. cbn [bind]. destruct (residual_ext x x1 y Bx By E1 r Er Zr) as (r' & Er' & Zr' & _).
    destruct (IH x1 y (bv_eqv _ _ _ Bx E1) By) as (x2 & E2 & V2); eauto. exists x2. split; auto. eapply feq_trans; eauto.
Qed.
End System.
End Sys.
