(** Proofs about the dense conversion of block vectors, and the diagonal of the normal equations. *)
Require Import List Arith Bool Lia Ring.
From Verif Require Import Util Arr StModel GenProofs StProofs TransferProofs OpModel OpSpec OpProofs TrProofs BlkModel BlkSpec BlkProofs CanProofs DiagProofs LocProofs.
Import ListNotations.

Lemma nth_flat_cons : forall (L : list (list nat)) n s i k d, i < n -> k < length L ->
  nth (i * length L + k) (flat_map (fun i => map (cons i) L) (seq s n)) d = (s + i) :: nth k L [].
Proof.
  intros L. induction n as [|n IH]; intros s i k d Hi Hk; [lia|]. cbn [seq flat_map]. destruct i as [|i].
  - cbn [Nat.mul Nat.add]. rewrite app_nth1 by (rewrite map_length; auto). rewrite (nth_map_lt _ _ _ _ _ []) by auto. rewrite Nat.add_0_r. auto.
  - rewrite app_nth2 by (rewrite map_length; lia). rewrite map_length. replace (S i * length L + k - length L) with (i * length L + k) by lia.
    rewrite IH by lia. f_equal. lia.
Qed.
Lemma nth_ravel : forall s idx, in_range s idx -> nth (ravel s idx) (indices s) [] = idx.
Proof.
  induction s as [|n s IH]; intros idx R; inversion R as [|i ? r ? Hi Hr]; subst; auto. cbn [ravel indices].
  pose proof (ravel_lt s r Hr) as B. pose proof (indices_length s) as L. unfold size in L, B. rewrite <- L in B |- *. rewrite nth_flat_cons by auto. rewrite IH by auto. auto.
Qed.

Section Dense.
Variable K : cring.
Lemma flatten_length : forall a, length (flatten K a) = size (ashape a).
Proof. intros. unfold flatten. rewrite map_length. apply indices_length. Qed.
Lemma reshape_flatten : forall a d, exists b, reshape1 K d (flatten K a) (ashape a) = Ok b /\ aeq b a.
Proof.
  intros a d. unfold reshape1. rewrite flatten_length, Nat.eqb_refl. eexists. split; [reflexivity|]. split; auto. cbn [ashape aget]. intros idx R.
  unfold flatten. rewrite (nth_map_lt _ _ _ _ _ []) by (rewrite indices_length; apply ravel_lt; auto). rewrite nth_ravel; auto.
Qed.
Lemma flatten_reshape : forall v s d b, reshape1 K d v s = Ok b -> flatten K b = v.
Proof.
  intros v s d b E. unfold reshape1 in E. destruct (Nat.eqb_spec (length v) (size s)) as [L|]; [|discriminate]. injection E as <-. unfold flatten. cbn [ashape aget].
  apply nth_ext with (d := d) (d' := d). { rewrite map_length, indices_length. auto. }
  intros k Hk. rewrite map_length in Hk. rewrite (nth_map_lt _ _ _ _ _ []) by auto. f_equal.
  pose proof (nth_In (indices s) [] Hk) as I. apply indices_in in I. pose proof (nth_ravel s _ I) as E. apply (proj1 (NoDup_nth (indices s) []) (indices_nodup s)); auto.
  rewrite indices_length. apply ravel_lt. auto.
Qed.
End Dense.

Section NormalDiag.
Variable K : cring.
Add Ring Kr : (rth K).
Local Open Scope ring_scope'.

Lemma rowval_single : forall (G : signature K), sig_ok K G -> forall row J i s, Forall2 (fun o j => typed K G o i j) row J -> forall m u dj, (m < length J)%nat -> ashape u = shp K G (nth m J dj) ->
  in_range (shp K G i) s ->
  rowval K row (map (fun k => if k =? m then u else zeros K (shp K G (nth k J dj))) (seq 0 (length J))) s = aget (act K (nth m row (OZero ([],[]))) u) s.
Proof.
  intros G GO row J i s F m u dj Hm Su R. unfold rowval. pose proof (Forall2_len _ _ _ _ _ F) as L.
  rewrite (rsum_combine_seq K _ _ _ _ _ (OZero ([],[])) (zeros K [])) by (rewrite map_length, seq_length; auto). cbn [fst snd]. rewrite L.
  rewrite (rsum_single K _ _ _ m); [|apply seq_NoDup|apply in_seq; lia|].
  - rewrite (nth_map_lt _ _ _ _ _ 0%nat) by (rewrite seq_length; auto). rewrite seq_nth by auto. cbn [Nat.add]. rewrite Nat.eqb_refl. auto.
  - intros k Hk D. apply in_seq in Hk. rewrite (nth_map_lt _ _ _ _ _ 0%nat) by (rewrite seq_length; lia). rewrite seq_nth by lia. cbn [Nat.add]. destruct (Nat.eqb_spec k m); [congruence|].
    assert (T : typed K G (nth k row (OZero ([],[]))) i (nth k J dj)) by (apply (Forall2_nth _ _ _ row J (OZero ([],[])) dj F); lia).
    destruct (lin_zero K _ _ _ (proj1 (proj2 (typed_good K G GO _ _ _ T)))) as [S V]. rewrite V; auto. rewrite S. auto.
Qed.

Lemma vmul_nth : forall G A I x y, vmul_spec K G A I x y -> forall i di dy, (i < length y)%nat -> (i < length A)%nat -> (i < length I)%nat ->
  ashape (nth i y dy) = shp K G (nth i I di) /\ forall idx, in_range (shp K G (nth i I di)) idx -> aget (nth i y dy) idx = rowval K (nth i A []) x idx.
Proof.
  intros G A I x y. unfold vmul_spec. revert I y. induction A as [|row A IH]; intros [|i0 I] y F i di dy Hy HA HI; simpl in HA, HI; try lia.
  cbn [combine] in F. inversion F as [|? y0 ? ys [S V] F']; subst. destruct i as [|i]; cbn [nth]; auto. apply IH; auto; simpl in Hy; lia.
Qed.

Variable row_leb : list nat -> list nat -> bool.
Variable t : stopo.
Hypothesis Ht : stencil_topology row_leb (st_shape t) (st_periodic t) = Ok t.
Variable empty : nat -> list nat -> K.
Notation ndim := (length (st_shape t)).
Notation NE n := (st_n_elements t n).
Notation unit := (@aunit K).
Variable hv : nat -> K.
Variable dg : K -> Prop.
Hypothesis dg_mul : forall a b, dg a -> dg b -> dg (a * b).
Hypothesis dg_hv : forall n, (n <= ndim)%nat -> dg (hv n).
Notation G := (st_sig K empty t dg).
Notation cm := (cmat K t empty hv).
Variables near0 near1 : array K -> bool.
Hypothesis N0 : forall d, dgs K G d -> near0 d = true -> forall idx, in_range (ashape d) idx -> aget d idx = r0.
Hypothesis N1 : forall d, dgs K G d -> near1 d = true -> forall idx, in_range (ashape d) idx -> aget d idx = r1.
Let GO : sig_ok K G := st_sig_ok K empty row_leb t Ht dg dg_mul.
Let GC : sig_closed K G := st_sig_closed K empty row_leb t Ht dg.
Notation A := (mat (S ndim) cm).
Notation J := (seq 0 (S ndim)).

Lemma normal_local : exists N, normal K near0 near1 A = Ok N /\ tblock K G N J J /\
  (forall x w, bv K G x J -> vmul_spec K G N J x w -> forall y, vmul_spec K G A J x y -> vmul_spec K G A J y w) /\
  forall i c p q, (i <= ndim)%nat -> in_range (NE i) (c :: p) -> apart t p q ->
    aget (act K (nth i (nth i N []) (OZero ([],[]))) (unit (NE i) (c :: q))) (c :: p) = r0.
Proof.
  pose proof (canonical_typed K t empty hv dg dg_hv) as TA. assert (NEJ : (seq 0 (S ndim) : list (space K G)) <> []) by discriminate.
  unfold normal. rewrite (canonical_transpose K t empty hv). cbn [bind].
  destruct (matmul_ok K G GO GC near0 near1 N0 N1 A A J J J TA TA NEJ) as (P & EP & TP & VP). rewrite EP. cbn [bind].
  destruct (bsimplify_ok K G GO GC near0 near1 N0 N1 P J J TP) as (N & EN & TN & VN). exists N. split; auto. split; auto.
  assert (VV : forall x w, bv K G x J -> vmul_spec K G N J x w -> forall y, vmul_spec K G A J x y -> vmul_spec K G A J y w).
  { intros x w Bx W y Wy. apply (VP x y w Bx Wy). apply VN; auto. }
  split; auto. intros i c p q Hi R Ap.
  set (u := unit (NE i) (c :: q)). set (x := map (fun k => if k =? i then u else zeros K (NE (nth k J 0%nat))) (seq 0 (length J))).
  assert (Bx : bv K G x J).
  { unfold bv, x. rewrite seq_length. assert (X : forall s m, Forall2 (fun a j => ashape a = NE j) (map (fun k => if k =? i then u else zeros K (NE k)) (seq s m)) (seq s m)).
    { intros s m. revert s. induction m; intros s; constructor; auto. destruct (Nat.eqb_spec s i) as [->|]; auto. }
    rewrite (map_ext_in _ (fun k => if k =? i then u else zeros K (NE k))); [apply X|]. intros k Hk. apply in_seq in Hk. rewrite seq_nth by lia. auto. }
  destruct (vector_mul_ok K G GO N J J x TN NEJ Bx) as (w & _ & Bw & Ww). destruct (vector_mul_ok K G GO A J J x TA NEJ Bx) as (y & _ & By & Wy).
  pose proof (VV x w Bx Ww y Wy) as WW. pose proof (Forall2_len _ _ _ _ _ TN) as LN. pose proof (Forall2_len _ _ _ _ _ Bw) as Lw. pose proof (Forall2_len _ _ _ _ _ By) as Ly.
  assert (LA : length A = S ndim) by (unfold mat; rewrite map_length, seq_length; auto).
  assert (EJ : forall k, (k <= ndim)%nat -> nth k J 0%nat = k) by (intros; rewrite seq_nth by lia; auto).
  assert (LJ : length J = S ndim) by apply seq_length.
  assert (LN' : length N = S ndim) by (etransitivity; [exact LN|exact LJ]). assert (Lw' : length w = S ndim) by (etransitivity; [exact Lw|exact LJ]).
  assert (Ly' : length y = S ndim) by (etransitivity; [exact Ly|exact LJ]). assert (LJ' : length (J : list (space K G)) = S ndim) by exact LJ. clear LN Lw Ly.
  destruct (vmul_nth G N J x w Ww i 0%nat (zeros K [])) as [_ V1]; try lia. destruct (vmul_nth G A J y w WW i 0%nat (zeros K [])) as [_ V2]; try lia.
  rewrite EJ in V1, V2 by auto. specialize (V1 (c :: p) R). specialize (V2 (c :: p) R). rewrite V1 in V2.
  assert (TNi : Forall2 (fun o j => typed K G o i j) (nth i N []) J).
  { pose proof (Forall2_nth _ _ _ N J [] 0%nat TN i) as Q. rewrite EJ in Q by auto. apply Q. lia. }
  assert (Su : nat -> ashape u = shp K G (nth i (J : list (space K G)) 0%nat)).
  { intros _. change (NE i = NE (nth i J 0%nat)). rewrite EJ by auto. auto. }
  assert (Li : (i < length (J : list (space K G)))%nat) by lia.
  assert (RS : rowval K (nth i N []) x (c :: p) = aget (act K (nth i (nth i N []) (OZero ([],[]))) u) (c :: p)) by exact (rowval_single G GO _ _ i (c :: p) TNi i u 0%nat Li (Su 0%nat) R).
  rewrite RS in V2.
  rewrite V2. unfold rowval. rewrite (rsum_combine_seq K _ _ _ _ _ (OZero ([],[])) (zeros K [])).
  2:{ unfold mat. rewrite (nth_map_lt _ _ _ _ _ 0%nat) by (rewrite seq_length; lia). rewrite map_length, seq_length. lia. }
  apply rsum_0. intros k Hk. apply in_seq in Hk. cbn [fst snd]. unfold mat in Hk |- *. rewrite (nth_map_lt _ _ _ _ _ 0%nat) in Hk |- * by (rewrite seq_length; lia).
  rewrite EJ in Hk |- * by auto. rewrite map_length, seq_length in Hk. rewrite (nth_map_lt _ _ _ _ _ 0%nat) by (rewrite seq_length; lia). rewrite EJ by lia.
  destruct (vmul_nth G A J x y Wy k 0%nat (zeros K [])) as [S3 V3]; try lia. rewrite EJ in S3, V3 by lia.
  assert (TAk : Forall2 (fun o j => typed K G o k j) (nth k A []) J).
  { pose proof (Forall2_nth _ _ _ A J [] 0%nat TA k) as Q. rewrite EJ in Q by lia. apply Q. lia. }
  assert (Tik : typed K G (cm i k) i k) by (apply cmat_typed; auto; lia). assert (Tki : typed K G (cm k i) k i) by (apply cmat_typed; auto; lia).
  assert (AE : aeq (nth k y (zeros K [])) (act K (cm k i) u)).
  { split; [rewrite (act_shape K G GO _ k i); auto|]. intros idx Ri. rewrite S3 in Ri. rewrite V3 by auto.
    assert (RS2 : rowval K (nth k A []) x idx = aget (act K (nth i (nth k A []) (OZero ([],[]))) u) idx) by exact (rowval_single G GO _ _ k idx TAk i u 0%nat Li (Su 0%nat) Ri).
    rewrite RS2. unfold mat. rewrite (nth_map_lt _ _ _ _ _ 0%nat) by (rewrite seq_length; lia). rewrite EJ by lia. rewrite (nth_map_lt _ _ _ _ _ 0%nat) by (rewrite seq_length; lia). rewrite EJ by lia. auto. }
  pose proof (lin_ext _ _ _ _ (proj1 (proj2 (typed_good K G GO _ _ _ Tik))) _ _ S3 AE) as [SE VE]. rewrite VE by (rewrite (act_shape K G GO _ i k); auto).
  apply (block_local K row_leb t Ht empty hv dg dg_mul dg_hv); auto. lia.
Qed.
End NormalDiag.
