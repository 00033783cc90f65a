(** Proofs about the checkerboard evaluation of diagonals. *)
Require Import List Arith Bool Lia Ring.
From Verif Require Import Util Arr StModel GenProofs StProofs OpModel OpSpec OpProofs TrProofs BlkModel BlkSpec BlkProofs.
Import ListNotations.

(** ---- neighbouring cells have different colours ---- *)
Lemma sum_change : forall a p q, length p = length q -> a < length p -> (forall b, b <> a -> nth b p 0 = nth b q 0) ->
  fold_right Nat.add 0 p + nth a q 0 = fold_right Nat.add 0 q + nth a p 0.
Proof.
  induction a as [|a IH]; intros [|x p] [|y q] L La E; simpl in *; try lia.
  - assert (p = q); [|subst; lia]. apply nth_ext with (d := 0) (d' := 0); [lia|]. intros n Hn. apply (E (S n)). lia.
  - assert (x = y) by (apply (E 0); lia). subst. specialize (IH p q ltac:(lia) ltac:(lia)). rewrite <- Nat.add_assoc, IH; [lia|].
    intros b Hb. apply (E (S b)). lia.
Qed.
Lemma step_parity : forall n x y, Nat.even n = true -> x < n -> y = (x + 1) mod n -> y mod 2 <> x mod 2.
Proof.
  intros n x y En Hx ->. apply Nat.even_spec in En as [m ->]. destruct (Nat.eq_dec (x + 1) (2 * m)) as [E|E].
  - rewrite E, Nat.mod_same by lia. replace x with (1 + (m - 1) * 2) by lia. rewrite Nat.mod_add by lia. cbn. lia.
  - rewrite (Nat.mod_small (x + 1)) by lia. pose proof (Nat.div_mod x 2 ltac:(lia)). pose proof (Nat.div_mod (x + 1) 2 ltac:(lia)).
    pose proof (Nat.mod_upper_bound x 2 ltac:(lia)). pose proof (Nat.mod_upper_bound (x + 1) 2 ltac:(lia)). lia.
Qed.
Lemma neighbours_colour : forall shape p q, Forall (fun n => Nat.even n = true) shape -> in_range shape p -> in_range shape q -> neighbours shape p q -> checkerboard p <> checkerboard q.
Proof.
  intros shape p q Ev Rp Rq (a & La & E & N). unfold checkerboard. pose proof (in_range_len _ _ Rp) as Lp. pose proof (in_range_len _ _ Rq) as Lq.
  pose proof (sum_change a p q ltac:(lia) ltac:(lia) E) as S. assert (En : Nat.even (nth a shape 0) = true) by (rewrite Forall_forall in Ev; apply Ev, nth_In; auto).
  pose proof (in_range_nth _ _ a Rp La) as Bp. pose proof (in_range_nth _ _ a Rq La) as Bq.
  assert (D : nth a p 0 mod 2 <> nth a q 0 mod 2).
  { destruct N as [N|N]; [apply not_eq_sym|]; eapply step_parity; eauto. }
  set (A := fold_right Nat.add 0 p) in *. set (B := fold_right Nat.add 0 q) in *. set (x := nth a p 0) in *. set (y := nth a q 0) in *.
  pose proof (Nat.div_mod A 2 ltac:(lia)). pose proof (Nat.div_mod B 2 ltac:(lia)). pose proof (Nat.div_mod x 2 ltac:(lia)). pose proof (Nat.div_mod y 2 ltac:(lia)).
  pose proof (Nat.mod_upper_bound A 2 ltac:(lia)). pose proof (Nat.mod_upper_bound B 2 ltac:(lia)). pose proof (Nat.mod_upper_bound x 2 ltac:(lia)). pose proof (Nat.mod_upper_bound y 2 ltac:(lia)). lia.
Qed.

Section Diag.
Variable K : cring.
Add Ring Kr : (rth K).
Local Open Scope ring_scope'.

Lemma unit_same : forall s j, aget (@aunit K s j) j = r1.
Proof. intros. simpl. rewrite list_eqb_refl'. auto. Qed.
Lemma unit_other : forall s j i, i <> j -> aget (@aunit K s j) i = r0.
Proof. intros. simpl. destruct (list_eqb i j) eqn:E; auto. apply list_eqb_eq in E. congruence. Qed.

Lemma lin_units : forall n m f, linear (K:=K) n m f -> forall l,
  aeq (f (mkArr n (fun i => rsum (map (fun j => aget (@aunit K n j) i) l)))) (mkArr m (fun i => rsum (map (fun j => aget (f (@aunit K n j)) i) l))).
Proof.
  intros n m f L. induction l as [|j l IH].
  - eapply aeq_trans; [|apply (lin_zero K n m f L)]. apply (lin_ext _ _ _ _ L); auto. apply aeq_refl.
  - eapply aeq_trans; [apply (lin_ext _ _ _ _ L _ (aadd (@aunit K n j) (mkArr n (fun i => rsum (map (fun j => aget (@aunit K n j) i) l)))))|]; auto.
    { split; auto. }
    eapply aeq_trans; [apply (lin_add _ _ _ _ L); auto|]. split; [cbn [aadd ashape]; apply (lin_shape _ _ _ _ L); auto|].
    intros idx R. cbn [aadd aget map]. rewrite (rsum_cons K). f_equal. cbn [aadd ashape] in R. rewrite (lin_shape _ _ _ _ L) in R by auto.
    destruct IH as [S V]. rewrite V; auto. rewrite S. auto.
Qed.

Definition inpat (c : nat) (sign : bool) (j : list nat) : bool := match j with c' :: r => (c' =? c) && Bool.eqb sign (checkerboard r =? 1) | [] => false end.
Lemma pattern_val : forall s c sign i, aget (pattern K s c sign) i = if inpat c sign i then r1 else r0.
Proof. intros s c sign [|c' r]; simpl; auto. destruct (c' =? c); auto. Qed.
Lemma pattern_units : forall s c sign, aeq (pattern K s c sign) (mkArr s (fun i => rsum (map (fun j => aget (@aunit K s j) i) (filter (inpat c sign) (indices s))))).
Proof.
  intros. split; auto. intros i R. rewrite pattern_val. cbn [aget]. destruct (inpat c sign i) eqn:E.
  - rewrite (rsum_single K _ _ _ i); [rewrite unit_same; auto| | |].
    + apply NoDup_filter, indices_nodup.
    + apply filter_In. split; auto. apply indices_in. exact R.
    + intros x _ D. apply unit_other. auto.
  - symmetry. apply rsum_0. intros j Hj. apply filter_In in Hj as [_ Hj]. apply unit_other. intros ->. congruence.
Qed.

Variable G : signature K.
Hypothesis GO : sig_ok K G.
Notation sh := (shp K G).

(** Coupling only to the cell itself and cells of the other colour. *)
Lemma diag_do_ok : forall o i n sp, typed K G o i i -> sh i = n :: sp ->
  (forall c p q, in_range (n :: sp) (c :: p) -> in_range (n :: sp) (c :: q) -> p <> q -> checkerboard p = checkerboard q ->
     aget (act K o (@aunit K (n :: sp) (c :: q))) (c :: p) = r0) ->
  forall c, c < n -> exists r, diag_do K o (n :: sp) c = Ok r /\ ashape r = n :: sp /\
   forall c' p, in_range (n :: sp) (c' :: p) -> aget r (c' :: p) = if c' =? c then aget (act K o (@aunit K (n :: sp) (c' :: p))) (c' :: p) else r0.
Proof.
  intros o i n sp T Si LOC c Hc. destruct (typed_good K G GO _ _ _ T) as (_ & L & C). rewrite Si in *. unfold diag_do.
  assert (SP : forall sign, ashape (act K o (pattern K (n :: sp) c sign)) = n :: sp) by (intros; apply (lin_shape _ _ _ _ L); auto).
  assert (V : forall sign p, in_range (n :: sp) (c :: p) -> Bool.eqb sign (checkerboard p =? 1) = true ->
     aget (act K o (pattern K (n :: sp) c sign)) (c :: p) = aget (act K o (@aunit K (n :: sp) (c :: p))) (c :: p)).
  { intros sign p R E. pose proof (lin_ext _ _ _ _ L (pattern K (n :: sp) c sign) _ eq_refl (pattern_units (n :: sp) c sign)) as X1. pose proof (lin_units _ _ _ L (filter (inpat c sign) (indices (n :: sp)))) as X2.
    destruct (aeq_trans _ _ _ _ X1 X2) as [_ X]. rewrite X by (rewrite SP; auto). cbn [aget].
    apply (rsum_single K _ (fun j => aget (act K o (@aunit K (n :: sp) j)) (c :: p)) _ (c :: p)).
    - apply NoDup_filter, indices_nodup.
    - apply filter_In. split; [apply indices_in; auto|]. simpl. rewrite Nat.eqb_refl, E. auto.
    - intros j Hj D. apply filter_In in Hj as [Hj Pj]. apply indices_in in Hj. destruct j as [|c' q]; [discriminate|]. simpl in Pj. apply andb_true_iff in Pj as [P1 P2].
      apply Nat.eqb_eq in P1. subst c'. apply LOC; auto; [congruence|].
      apply eqb_prop in E, P2. rewrite E in P2. unfold checkerboard in *. pose proof (Nat.mod_upper_bound (fold_right Nat.add 0%nat p) 2 ltac:(lia)).
      pose proof (Nat.mod_upper_bound (fold_right Nat.add 0%nat q) 2 ltac:(lia)).
      destruct (Nat.eqb_spec (fold_right Nat.add 0 p mod 2) 1)%nat, (Nat.eqb_spec (fold_right Nat.add 0 q mod 2) 1)%nat; congruence || lia. }
  rewrite !C by auto. cbn [bind].
  destruct (bmul_val K (act K o (pattern K (n :: sp) c false)) (pattern K (n :: sp) c false)) as (u & Eu & Su & Vu); [right; rewrite SP; auto|].
  destruct (bmul_val K (act K o (pattern K (n :: sp) c true)) (pattern K (n :: sp) c true)) as (v & Ev & Sv & Vv); [right; rewrite SP; auto|].
  rewrite Eu. cbn [bind]. rewrite Ev. cbn [bind]. unfold badd. rewrite Su, Sv, !SP, list_eqb_refl'. eexists. split; [reflexivity|]. split; auto.
  intros c' p R. cbn [aget]. rewrite Vu, Vv by (rewrite SP; auto). cbn [dval pattern ashape]. rewrite !pattern_val. cbn [inpat]. destruct (Nat.eqb_spec c' c) as [->|D]; cbn [andb]; [|ring].
  destruct (checkerboard p =? 1) eqn:E; cbn [Bool.eqb].
  - rewrite (V true) by (auto; rewrite E; auto). ring.
  - rewrite (V false) by (auto; rewrite E; auto). ring.
Qed.

Lemma asum_val : forall l a s, ashape a = s -> Forall (fun b => ashape b = s) l -> exists r, asum K a l = Ok r /\ ashape r = s /\
  forall idx, aget r idx = aget a idx + rsum (map (fun b => aget b idx) l).
Proof.
  induction l as [|b l IH]; intros a s Sa F; cbn [asum].
  - exists a. split; auto. split; auto. intros. simpl. ring.
  - inversion F; subst. unfold badd. rewrite H1, list_eqb_refl'. cbn [bind].
    destruct (IH (mkArr (ashape a) (fun i => aget a i + aget b i)) (ashape a) eq_refl H2) as (r & E & Sr & V). exists r. split; auto. split; auto.
    intros. rewrite V. cbn [aget map]. rewrite (rsum_cons K). ring.
Qed.

Lemma mapM_seq_spec : forall B (f : nat -> result B) (R : nat -> B -> Prop) s n, (forall c, (s <= c < s + n)%nat -> exists y, f c = Ok y /\ R c y) ->
  exists l, mapM f (seq s n) = Ok l /\ Forall2 R (seq s n) l.
Proof.
  intros B f R s n. revert s. induction n as [|n IH]; intros s Q; [exists []; split; auto; constructor|].
  destruct (Q s ltac:(lia)) as (y & E & Ry). destruct (IH (S s)) as (l & El & Fl). { intros c Hc. apply Q. lia. }
  exists (y :: l). cbn [seq mapM]. rewrite E. cbn [bind]. rewrite El. split; auto.
Qed.

Lemma diag_block_colour : forall o i n sp, typed K G o i i -> sh i = n :: sp -> (0 < n)%nat ->
  (forall c p q, in_range (n :: sp) (c :: p) -> in_range (n :: sp) (c :: q) -> p <> q -> checkerboard p = checkerboard q ->
     aget (act K o (@aunit K (n :: sp) (c :: q))) (c :: p) = r0) ->
  exists d, diag_block K o = Ok d /\ ashape d = n :: sp /\
   forall idx, in_range (n :: sp) idx -> aget d idx = aget (act K o (@aunit K (n :: sp) idx)) idx.
Proof.
  intros o i n sp T Si Hn LOC. unfold diag_block. destruct (typed_good K G GO _ _ _ T) as (S & _). rewrite S, Si. cbn [snd hd].
  destruct (mapM_seq_spec _ (diag_do K o (n :: sp)) (fun c r => ashape r = n :: sp /\
   forall c' p, in_range (n :: sp) (c' :: p) -> aget r (c' :: p) = if c' =? c then aget (act K o (@aunit K (n :: sp) (c' :: p))) (c' :: p) else r0) 0 n) as (l & E & F).
  { intros c Hc. apply (diag_do_ok o i n sp); auto. lia. }
  rewrite E. cbn [bind]. pose proof (Forall2_len _ _ _ _ _ F) as LL. rewrite seq_length in LL. destruct l as [|a l]; [simpl in LL; lia|]. clear LL.
  assert (FS : Forall (fun b => ashape b = n :: sp) (a :: l)).
  { clear - F. induction F; constructor; auto. apply H. }
  inversion FS as [|? ? Sa Sl]; subst. destruct (asum_val l a (n :: sp) Sa Sl) as (r & Er & Sr & Vr). exists r. split; auto. split; auto.
  intros idx R. rewrite Vr. rewrite <- (rsum_cons K). change (aget a idx :: map (fun b => aget b idx) l) with (map (fun b => aget b idx) (a :: l)).
  destruct idx as [|c' p]; [inversion R|]. assert (Hc : (c' < n)%nat) by (inversion R; subst; auto).
  assert (EQ : map (fun b => aget b (c' :: p)) (a :: l) = map (fun c => if c' =? c then aget (act K o (@aunit K (n :: sp) (c' :: p))) (c' :: p) else r0) (seq 0 n)).
  { revert F. generalize (a :: l), (seq 0 n). intros l' s' F. clear - F R. induction F as [|c b s l [_ V] F IH]; auto. cbn [map]. rewrite V, IH by auto. auto. }
  rewrite EQ. rewrite (rsum_single K _ _ _ c'); [rewrite Nat.eqb_refl; auto|apply seq_NoDup|apply in_seq; lia|].
  intros x _ D. destruct (Nat.eqb_spec c' x); [congruence|auto].
Qed.
End Diag.
