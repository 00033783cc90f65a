(** Merging and multiplying block matrices. *)
Require Import List Arith Lia Bool Ring.
From Verif Require Import Util Arr BarrModel BarrSpec.
Import ListNotations.
Local Open Scope nat_scope.

Lemma forall2_len : forall A B (P : A -> B -> Prop) l m, Forall2 P l m -> length l = length m.
Proof. induction 1; simpl; auto. Qed.
Lemma forall2_nth : forall A B (P : A -> B -> Prop) l m, Forall2 P l m -> forall i a b, i < length l -> P (nth i l a) (nth i m b).
Proof. induction 1; intros i a b Hi; simpl in *; [lia|]. destruct i; auto. apply IHForall2. lia. Qed.
Lemma offset_S : forall l i, i < length l -> offset l (S i) = offset l i + nth i l 0.
Proof.
  unfold offset. induction l as [|n l IH]; intros i Hi; simpl in *; [lia|]. destruct i as [|i]; [cbn; lia|]. specialize (IH i ltac:(lia)). cbn [firstn list_sum fold_right nth] in *. unfold list_sum in *. cbn [fold_right]. lia.
Qed.
Lemma offset_le : forall l i j, i <= j -> offset l i <= offset l j.
Proof.
  unfold offset. induction l as [|n l IH]; intros i j H; [rewrite !firstn_nil; auto|]. destruct i, j; simpl; try lia. specialize (IH i j ltac:(lia)). lia.
Qed.
Lemma offset_all : forall l, offset l (length l) = list_sum l.
Proof. intros. unfold offset. rewrite firstn_all. auto. Qed.
Lemma locate : forall l r, r < list_sum l -> exists i r', i < length l /\ r' < nth i l 0 /\ r = offset l i + r'.
Proof.
  induction l as [|n l IH]; intros r H; [simpl in H; lia|]. change (list_sum (n :: l)) with (n + list_sum l) in H. destruct (le_lt_dec n r) as [Q|Q].
  - destruct (IH (r - n)) as (i & r' & Hi & Hr & E); [lia|]. exists (S i), r'. repeat split; auto; [simpl; lia|]. unfold offset in *. cbn [firstn]. change (list_sum (n :: firstn i l)) with (n + list_sum (firstn i l)). lia.
  - exists 0, r. repeat split; auto. simpl. lia.
Qed.
Lemma located_lt : forall l i r, i < length l -> r < nth i l 0 -> offset l i + r < list_sum l.
Proof. intros l i r Hi Hr. pose proof (offset_S l i Hi). pose proof (offset_le l (S i) (length l) ltac:(lia)). rewrite offset_all in *. lia. Qed.
Lemma located_in : forall l i i' r, i < length l -> i' < length l -> r < nth i l 0 -> within_block (offset l i') (nth i' l 0) (offset l i + r) = (i' =? i).
Proof.
  intros l i i' r Hi Hi' Hr. unfold within_block. pose proof (offset_S l i Hi). pose proof (offset_S l i' Hi'). destruct (Nat.eqb_spec i' i) as [->|Q].
  - rewrite (proj2 (Nat.leb_le _ _)), (proj2 (Nat.ltb_lt _ _)) by lia. auto.
  - destruct (Nat.leb_spec (offset l i') (offset l i + r)); auto. cbn [andb]. apply Nat.ltb_ge. destruct (le_lt_dec i' i); [|pose proof (offset_le l (S i) i' ltac:(lia)); lia]. pose proof (offset_le l (S i') i ltac:(lia)). lia.
Qed.

Lemma cumsum_nth : forall l acc c, c <= length l -> nth c (acc :: cumsum acc l) 0 = acc + offset l c.
Proof.
  induction l as [|n l IH]; intros acc c Hc; [simpl in Hc; assert (c = 0) by lia; subst; unfold offset; simpl; lia|]. cbn [cumsum]. destruct c as [|c]; [unfold offset; simpl; lia|]. change (nth (S c) (acc :: (acc + n) :: cumsum (acc + n) l) 0) with (nth c ((acc + n) :: cumsum (acc + n) l) 0). rewrite IH by (simpl in Hc; lia). unfold offset. cbn [firstn]. change (list_sum (n :: firstn c l)) with (n + list_sum (firstn c l)). lia.
Qed.
Lemma pieces : forall A (l : list (list A)) i, i < length l -> firstn (length (nth i l [])) (skipn (offset (map (@length A) l) i) (concat l)) = nth i l [].
Proof.
  induction l as [|v l IH]; intros i Hi; [simpl in Hi; lia|]. cbn [concat map]. destruct i as [|i].
  - unfold offset. cbn [firstn list_sum fold_right skipn nth]. rewrite firstn_app, firstn_all, Nat.sub_diag. cbn. apply app_nil_r.
  - unfold offset. cbn [firstn nth]. change (list_sum (length v :: firstn i (map (@length A) l))) with (length v + offset (map (@length A) l) i). rewrite skipn_app. rewrite skipn_all2 by lia. cbn [app]. replace (length v + offset (map (@length A) l) i - length v) with (offset (map (@length A) l) i) by lia. apply IH. simpl in Hi. lia.
Qed.
Lemma cut_concat : forall A (sz : list nat) (x : list A), length x = list_sum sz -> concat (map (fun i => firstn (nth i sz 0) (skipn (offset sz i) x)) (seq 0 (length sz))) = x.
Proof.
  induction sz as [|n sz IH]; intros x H; [destruct x; [auto|simpl in H; lia]|]. change (list_sum (n :: sz)) with (n + list_sum sz) in H. cbn [length seq map concat]. rewrite <- seq_shift, map_map. unfold offset at 1. cbn [firstn list_sum fold_right skipn nth].
  transitivity (firstn n x ++ skipn n x); [|apply firstn_skipn]. f_equal. transitivity (concat (map (fun i => firstn (nth i sz 0) (skipn (offset sz i) (skipn n x))) (seq 0 (length sz)))); [|apply IH; rewrite skipn_length; lia]. f_equal. apply map_ext. intros i. f_equal. unfold offset. cbn [firstn]. change (list_sum (n :: firstn i sz)) with (n + list_sum (firstn i sz)). generalize (list_sum (firstn i sz)) as k. intros k. clear. revert x. induction n; intros x; auto. destruct x; [rewrite !skipn_nil; auto|]. cbn. apply IHn.
Qed.

Lemma mapM_ok_all : forall A B (f : A -> result B) (g : A -> B) l, (forall x, In x l -> f x = Ok (g x)) -> mapM f l = Ok (map g l).
Proof. induction l as [|a l IH]; intros H; auto. simpl. rewrite H by (left; auto). cbn [bind]. rewrite IH by (intros; apply H; right; auto). reflexivity. Qed.
Lemma blen_const : forall l n, (forall x, In x l -> x = n) -> l <> [] -> blen 0 l = Ok n.
Proof.
  assert (G : forall l n, (forall x, In x l -> x = n) -> blen n l = Ok n).
  { induction l as [|a l IH]; intros n H; auto. cbn [blen]. rewrite (H a) by (left; auto). destruct (n =? 0); [|rewrite Nat.eqb_refl]; apply IH; intros; apply H; right; auto. }
  intros l n H NE. destruct l as [|a l]; [congruence|]. cbn. rewrite (H a) by (left; auto). apply G. intros. apply H. right. auto.
Qed.

Lemma seq_moved : forall k n s, seq (n + s) k = map (fun m => n + m) (seq s k).
Proof. induction k as [|k IH]; intros n s; auto. cbn [seq map]. f_equal. rewrite <- IH. f_equal. lia. Qed.

Section R.
Variable K : cring.
Add Ring Kr : (rth K).
Local Open Scope ring_scope'.

Lemma rsum_blocks : forall (f : nat -> K) sz, rsum (map f (seq 0 (list_sum sz))) = rsum (map (fun j => rsum (map (fun m => f (offset sz j + m)%nat) (seq 0 (nth j sz 0)))) (seq 0 (length sz))).
Proof.
  intros f sz. revert f. induction sz as [|n sz IH]; intros f; auto. change (list_sum (n :: sz)) with (n + list_sum sz)%nat. rewrite seq_app, map_app, rsum_app. cbn [length seq map]. rewrite <- seq_shift, map_map. change (rsum (?a :: ?l)) with (a + rsum l). f_equal.
  rewrite Nat.add_0_l. rewrite <- (Nat.add_0_r n) at 1. 
  assert (E : map f (seq (n + 0) (list_sum sz)) = map (fun m => f (n + m)%nat) (seq 0 (list_sum sz))).
  { rewrite <- (map_map (fun m => n + m)%nat f). rewrite seq_moved. auto. }
  rewrite E. rewrite (IH (fun m => f (n + m)%nat)). apply rsum_ext. intros j _. apply rsum_ext. intros m _. f_equal. unfold offset. cbn [firstn]. change (list_sum (n :: firstn j sz)) with (n + list_sum (firstn j sz))%nat. lia.
Qed.

Variables (R C : list nat) (A : list (list (mat K))).
Hypothesis SZ : sized R C A.
Lemma sized_len : length A = length R.
Proof. symmetry. eapply forall2_len. exact SZ. Qed.
Lemma sized_row : forall i, i < length R -> length (nth i A []) = length C.
Proof. intros i Hi. symmetry. eapply forall2_len. apply (forall2_nth _ _ _ _ _ SZ i 0 [] Hi). Qed.
Lemma sized_at : forall i j, i < length R -> j < length C -> mr (blockat A i j) = nth i R 0 /\ mc (blockat A i j) = nth j C 0.
Proof. intros i j Hi Hj. pose proof (forall2_nth _ _ _ _ _ SZ i 0 [] Hi) as H. apply (forall2_nth _ _ _ _ _ H j 0 (mkMat 0 0 (fun _ _ => r0)) Hj). Qed.
Lemma sized_cols : R <> [] -> cols K A = Ok (length C).
Proof.
  intros NE. unfold cols. destruct A as [|row r] eqn:E; [inversion SZ; subst; congruence|]. inversion SZ as [|r0' ? R' ? H0 H1]; subst. apply forall2_len in H0 as L. rewrite (proj2 (forallb_forall _ _)); [congruence|]. intros w Hw. apply Nat.eqb_eq. clear -H1 Hw L. rewrite <- L. clear L row. revert Hw. induction H1; intros []; subst; auto. symmetry. eapply forall2_len; eauto.
Qed.
Lemma bmat_ok : R <> [] -> C <> [] -> exists M, bmat K A = Ok M /\ is_merged R C A M.
Proof.
  intros NR NC. unfold bmat. rewrite sized_cols by auto. cbn [bind]. pose proof sized_len as LA.
  assert (E1 : mapM (fun row => blen 0 (map mr row)) A = Ok R).
  { clear LA NR. induction SZ as [|r row R' A' H0 H1 IH]; auto. cbn [mapM]. rewrite (blen_const _ r).
    - cbn [bind]. rewrite IH by auto. reflexivity.
    - intros x Hx. apply in_map_iff in Hx as (a & <- & Ha). clear -H0 Ha. induction H0; destruct Ha; subst; auto. tauto.
    - intros E. apply map_eq_nil in E. subst. inversion H0. subst. congruence. }
  assert (E2 : mapM (fun j => blen 0 (map (fun row => mc (nth j row (none K))) A)) (seq 0 (length C)) = Ok C).
  { rewrite (mapM_ok_all _ _ _ (fun j => nth j C 0)).
    - f_equal. apply (map_nth_seq _ C 0).
    - intros j Hj. apply in_seq in Hj. apply blen_const.
      + intros x Hx. apply in_map_iff in Hx as (row & <- & Hr). apply In_nth with (d := []) in Hr as (i & Hi & <-). apply sized_at; lia.
      + intros E. apply map_eq_nil in E. rewrite E in LA. destruct R; [congruence|discriminate]. }
  rewrite E1. cbn [bind]. rewrite E2. cbn [bind]. eexists. split; [reflexivity|]. split; [reflexivity|]. split; [reflexivity|].
  intros i j r c Hi Hj Hr Hc. cbn [mg].
  rewrite (rsum_single _ _ _ _ i).
  - rewrite (rsum_single _ _ _ _ j).
    + cbv zeta beta. change (nth j (nth i A []) (none K)) with (blockat A i j). destruct (sized_at i j Hi Hj) as [-> ->]. change (list_sum (firstn i R)) with (offset R i). change (list_sum (firstn j C)) with (offset C j). rewrite !located_in by auto. rewrite !Nat.eqb_refl. cbn [andb]. f_equal; lia.
    + apply seq_NoDup.
    + apply in_seq. lia.
    + intros j' Hj' Q. apply in_seq in Hj'. cbv zeta beta. change (nth j' (nth i A []) (none K)) with (blockat A i j'). destruct (sized_at i j' Hi ltac:(lia)) as [-> ->]. change (list_sum (firstn j' C)) with (offset C j'). rewrite (located_in C j j') by (auto; lia). rewrite (proj2 (Nat.eqb_neq j' j)) by auto. rewrite andb_false_r. auto.
  - apply seq_NoDup.
  - apply in_seq. rewrite LA. lia.
  - intros i' Hi' Q. apply in_seq in Hi'. apply rsum_0. intros j' Hj'. apply in_seq in Hj'. cbv zeta beta. change (nth j' (nth i' A []) (none K)) with (blockat A i' j'). destruct (sized_at i' j' ltac:(lia) ltac:(lia)) as [-> ->]. change (list_sum (firstn i' R)) with (offset R i'). rewrite (located_in R i i') by (auto; lia). rewrite (proj2 (Nat.eqb_neq i' i)) by auto. auto.
Qed.
End R.

Section Mul.
Variable K : cring.
Add Ring Kr2 : (rth K).
Local Open Scope ring_scope'.

Lemma accumulate_mat : forall l (a : mat K) r c, mr a = r -> mc a = c -> (forall m, In m l -> mr m = r /\ mc m = c) ->
  exists m, accumulate (mat_add K) a (map Ok l) = Ok m /\ mr m = r /\ mc m = c /\ forall i j, mg m i j = mg a i j + rsum (map (fun b => mg b i j) l).
Proof.
  induction l as [|b l IH]; intros a r c Hr Hc H; cbn [map accumulate bind].
  - exists a. repeat split; auto. intros. simpl. ring.
  - destruct (H b (or_introl eq_refl)) as [Hb1 Hb2]. unfold mat_add at 1. rewrite Hr, Hc, Hb1, Hb2, !Nat.eqb_refl. cbn [andb bind].
    destruct (IH (mkMat r c (fun i j => mg a i j + mg b i j)) r c eq_refl eq_refl) as (m & E & E1 & E2 & E3); [intros; apply H; right; auto|]. exists m. repeat split; auto. intros i j. rewrite E3. cbn [mg map rsum fold_right]. fold (rsum (map (fun b0 => mg b0 i j) l)). ring.
Qed.
Lemma contract_mat : forall n (f : nat -> mat K) r c, 0 < n -> (forall j, j < n -> mr (f j) = r /\ mc (f j) = c) ->
  exists m, contract (mat_add K) (map (fun j => Ok (f j)) (seq 0 n)) = Ok m /\ mr m = r /\ mc m = c /\ forall i k, mg m i k = rsum (map (fun j => mg (f j) i k) (seq 0 n)).
Proof.
  intros n f r c Hn H. destruct n as [|n]; [lia|]. cbn [seq map contract bind]. rewrite <- (map_map f (@Ok _)). destruct (accumulate_mat (map f (seq 1 n)) (f 0%nat) r c) as (m & E & E1 & E2 & E3).
  - apply H. lia.
  - apply H. lia.
  - intros b Hb. apply in_map_iff in Hb as (j & <- & Hj). apply in_seq in Hj. apply H. lia.
  - exists m. repeat split; auto. intros i k. rewrite E3. rewrite map_map. reflexivity.
Qed.

Variables (R M C : list nat) (A B : list (list (mat K))).
Hypothesis SA : sized R M A.
Hypothesis SB : sized M C B.
Hypothesis NR : R <> [].
Hypothesis NM : M <> [].
Definition bprod (i k : nat) (P : mat K) : Prop :=
  mr P = nth i R 0%nat /\ mc P = nth k C 0%nat /\ forall r c, mg P r c = rsum (map (fun j => rsum (map (fun m => mg (blockat A i j) r m * mg (blockat B j k) m c) (seq 0 (nth j M 0%nat)))) (seq 0 (length M))).
Lemma smul_ok : exists P, smul K A B = Ok P /\ sized R C P /\ forall i k, i < length R -> k < length C -> bprod i k (blockat P i k).
Proof.
  unfold smul. rewrite (sized_cols K R M A SA NR), (sized_cols K M C B SB NM). cbn [bind]. rewrite (sized_len K M C B SB), Nat.eqb_refl.
  pose proof (sized_len K R M A SA) as LA.
  assert (G : forall i k, i < length R -> k < length C -> exists P, contract (mat_add K) (map (fun j => mat_mul K (nth j (nth i A []) (none K)) (nth k (nth j B []) (none K))) (seq 0 (length M))) = Ok P /\ bprod i k P).
  { intros i k Hi Hk. 
    assert (E : map (fun j => mat_mul K (nth j (nth i A []) (none K)) (nth k (nth j B []) (none K))) (seq 0 (length M)) = map (fun j => Ok (mkMat (nth i R 0%nat) (nth k C 0%nat) (fun r c => rsum (map (fun m => mg (blockat A i j) r m * mg (blockat B j k) m c) (seq 0 (nth j M 0%nat)))))) (seq 0 (length M))).
    { apply map_ext_in. intros j Hj. apply in_seq in Hj. unfold mat_mul. cbv zeta beta. change (nth j (nth i A []) (none K)) with (blockat A i j). change (nth k (nth j B []) (none K)) with (blockat B j k). destruct (sized_at K R M A SA i j Hi ltac:(lia)) as [-> ->]. destruct (sized_at K M C B SB j k ltac:(lia) Hk) as [-> ->]. rewrite Nat.eqb_refl. reflexivity. }
    rewrite E. destruct (contract_mat (length M) (fun j => mkMat (nth i R 0%nat) (nth k C 0%nat) (fun r c => rsum (map (fun m => mg (blockat A i j) r m * mg (blockat B j k) m c) (seq 0 (nth j M 0%nat))))) (nth i R 0%nat) (nth k C 0%nat)) as (P & E0 & E1 & E2 & E3).
    - destruct M; [congruence|simpl; lia].
    - intros j Hj. auto.
    - exists P. split; [exact E0|]. split; [auto|]. split; [auto|]. exact E3. }
  assert (G2 : forall i, i < length R -> exists row, mapM (fun k => contract (mat_add K) (map (fun j => mat_mul K (nth j (nth i A []) (none K)) (nth k (nth j B []) (none K))) (seq 0 (length M)))) (seq 0 (length C)) = Ok row /\ Forall2 (fun k P => bprod i k P) (seq 0 (length C)) row).
  { intros i Hi. assert (Hs : forall k, In k (seq 0 (length C)) -> k < length C) by (intros k Hk; apply in_seq in Hk; lia). revert Hs. generalize (seq 0 (length C)) as ks. induction ks as [|k ks IH]; intros Hs; [exists []; split; auto|]. destruct (G i k Hi) as (P & E & HP); [apply Hs; left; auto|]. destruct IH as (row & E' & HF); [intros; apply Hs; right; auto|]. exists (P :: row). split; [|constructor; auto]. cbn [mapM]. rewrite E. cbn [bind]. rewrite E'. auto. }
  assert (G3 : forall n s, (s + n)%nat = length R -> exists P, mapM (fun row => mapM (fun k => contract (mat_add K) (map (fun j => mat_mul K (nth j row (none K)) (nth k (nth j B []) (none K))) (seq 0 (length M)))) (seq 0 (length C))) (skipn s A) = Ok P /\ Forall2 (fun i row => Forall2 (fun k Q => bprod i k Q) (seq 0 (length C)) row) (seq s n) P).
  { induction n as [|n IH]; intros s Hs.
    - rewrite skipn_all2 by lia. exists []. split; auto. constructor.
    - destruct (IH (S s) ltac:(lia)) as (P & E & HF). destruct (G2 s ltac:(lia)) as (row & Er & Hr). exists (row :: P). cbn [seq]. split; [|constructor; auto].
      assert (Es : skipn s A = nth s A [] :: skipn (S s) A). { clear -LA Hs. assert (H : s < length A) by lia. clear LA Hs. revert A H. induction s; intros [|a A] H; simpl in *; try lia; auto. apply IHs. lia. }
      rewrite Es. cbn [mapM]. rewrite Er. cbn [bind]. rewrite E. auto. }
  destruct (G3 (length R) 0%nat ltac:(lia)) as (P & E & HF). exists P. split; [exact E|].
  assert (Q : forall i k, i < length R -> k < length C -> bprod i k (blockat P i k)).
  { intros i k Hi Hk. pose proof (forall2_nth _ _ _ _ _ HF i 0%nat [] ltac:(rewrite seq_length; auto)) as H1. cbn beta in H1. rewrite seq_nth in H1 by auto. pose proof (forall2_nth _ _ _ _ _ H1 k 0%nat (mkMat 0 0 (fun _ _ => r0)) ltac:(rewrite seq_length; auto)) as H2. cbn beta in H2. rewrite seq_nth in H2 by auto. exact H2. }
  split; [|exact Q]. clear Q E. unfold sized. revert P HF.
  assert (T : forall n s P, (s + n)%nat = length R -> Forall2 (fun i row => Forall2 (fun k Q => bprod i k Q) (seq 0 (length C)) row) (seq s n) P -> Forall2 (fun r row => Forall2 (fun c a => mr a = r /\ mc a = c) C row) (skipn s R) P).
  { induction n as [|n IH]; intros s P Hs H; inversion H; subst.
    - rewrite skipn_all2 by lia. constructor.
    - assert (Es : skipn s R = nth s R 0%nat :: skipn (S s) R). { assert (Hl : s < length R) by lia. clear -Hl. revert R Hl. induction s; intros [|a R] Hl; simpl in *; try lia; auto. apply IHs. lia. }
      rewrite Es. constructor; [|apply IH; auto; lia].
      assert (U : forall n' s' row, (s' + n')%nat = length C -> Forall2 (fun k Q => bprod s k Q) (seq s' n') row -> Forall2 (fun c a => mr a = nth s R 0%nat /\ mc a = c) (skipn s' C) row).
      { induction n' as [|n' IH']; intros s' row Hs' H'; inversion H'; subst.
        - rewrite skipn_all2 by lia. constructor.
        - assert (Ec : skipn s' C = nth s' C 0%nat :: skipn (S s') C). { assert (Hl : s' < length C) by lia. clear -Hl. revert C Hl. induction s'; intros [|a C] Hl; simpl in *; try lia; auto. apply IHs'. lia. }
          rewrite Ec. constructor; [|apply IH'; auto; lia]. match goal with H : bprod s s' _ |- _ => destruct H as (? & ? & _); auto end. }
      apply (U (length C) 0%nat); auto. }
  intros P HF. apply (T (length R) 0%nat); auto.
Qed.

Lemma smul_merged : C <> [] -> exists P AM BM PM, smul K A B = Ok P /\ bmat K A = Ok AM /\ bmat K B = Ok BM /\ bmat K P = Ok PM /\
  is_merged R M A AM /\ is_merged M C B BM /\ is_merged R C P PM /\
  forall r c, r < list_sum R -> c < list_sum C -> mg PM r c = rsum (map (fun m => mg AM r m * mg BM m c) (seq 0 (list_sum M))).
Proof.
  intros NC. destruct smul_ok as (P & E & SP & HP). destruct (bmat_ok K R M A SA NR NM) as (AM & EA & HA). destruct (bmat_ok K M C B SB NM NC) as (BM & EB & HB). destruct (bmat_ok K R C P SP NR NC) as (PM & EP & HPM).
  exists P, AM, BM, PM. split; [auto|]. split; [auto|]. split; [auto|]. split; [auto|]. split; [auto|]. split; [auto|]. split; [auto|].
  intros r c Hr Hc. apply locate in Hr as (i & r' & Hi & Hr' & ->). apply locate in Hc as (k & c' & Hk & Hc' & ->). destruct HPM as (_ & _ & HPM). rewrite HPM by auto. destruct (HP i k Hi Hk) as (_ & _ & ->). rewrite (rsum_blocks K _ M). apply rsum_ext. intros j Hj. apply in_seq in Hj. apply rsum_ext. intros m Hm. apply in_seq in Hm. destruct HA as (_ & _ & HA), HB as (_ & _ & HB). rewrite HA, HB by (auto; lia). auto.
Qed.
End Mul.

(** Matrix times vector. *)
Section MulVec.
Variable K : cring.
Add Ring Kr3 : (rth K).
Local Open Scope ring_scope'.
Notation vec := (list K).

Lemma nth_zip : forall (a b : vec) i, length a = length b -> nth i (map (fun p => fst p + snd p) (combine a b)) r0 = nth i a r0 + nth i b r0.
Proof.
  induction a as [|x a IH]; intros [|y b] i L; try discriminate; [destruct i; simpl; ring|]. cbn [combine map]. destruct i; auto. cbn [nth]. apply IH. simpl in L. lia.
Qed.
Lemma accumulate_vec : forall l (a : vec) r, length a = r -> (forall m, In m l -> length m = r) ->
  exists m, accumulate (vec_add K) a (map Ok l) = Ok m /\ length m = r /\ forall i, nth i m r0 = nth i a r0 + rsum (map (fun b => nth i b r0) l).
Proof.
  induction l as [|b l IH]; intros a r Hr H; cbn [map accumulate bind].
  - exists a. repeat split; auto. intros. simpl. ring.
  - pose proof (H b (or_introl eq_refl)) as Hb. unfold vec_add at 1. rewrite Hr, Hb, Nat.eqb_refl. cbn [bind].
    destruct (IH (map (fun p => fst p + snd p) (combine a b)) r) as (m & E & E1 & E2); [rewrite map_length, combine_length; lia|intros; apply H; right; auto|]. exists m. repeat split; auto. intros i. rewrite E2. rewrite nth_zip by lia. cbn [map rsum fold_right]. fold (rsum (map (fun b0 => nth i b0 r0) l)). ring.
Qed.
Lemma contract_vec : forall n (f : nat -> vec) r, 0 < n -> (forall j, j < n -> length (f j) = r) ->
  exists m, contract (vec_add K) (map (fun j => Ok (f j)) (seq 0 n)) = Ok m /\ length m = r /\ forall i, nth i m r0 = rsum (map (fun j => nth i (f j) r0) (seq 0 n)).
Proof.
  intros n f r Hn H. destruct n as [|n]; [lia|]. cbn [seq map contract bind]. rewrite <- (map_map f (@Ok _)). destruct (accumulate_vec (map f (seq 1 n)) (f 0%nat) r) as (m & E & E1 & E2).
  - apply H. lia.
  - intros b Hb. apply in_map_iff in Hb as (j & <- & Hj). apply in_seq in Hj. apply H. lia.
  - exists m. repeat split; auto. intros i. rewrite E2. rewrite map_map. reflexivity.
Qed.

Lemma nth_concat : forall A (l : list (list A)) i r d, i < length l -> r < length (nth i l []) -> nth (offset (map (@length A) l) i + r) (concat l) d = nth r (nth i l []) d.
Proof.
  induction l as [|v l IH]; intros i r d Hi Hr; [simpl in Hi; lia|]. cbn [concat map]. destruct i as [|i].
  - unfold offset. cbn [firstn list_sum fold_right Nat.add nth] in *. rewrite app_nth1; auto.
  - unfold offset. cbn [firstn nth] in *. change (list_sum (length v :: firstn i (map (@length A) l))) with (length v + offset (map (@length A) l) i)%nat. rewrite app_nth2 by lia. replace (length v + offset (map (@length A) l) i + r - length v)%nat with (offset (map (@length A) l) i + r)%nat by lia. apply IH; auto. simpl in Hi. lia.
Qed.
Lemma concat_len : forall A (l : list (list A)), length (concat l) = list_sum (map (@length A) l).
Proof. induction l; simpl; auto. rewrite app_length, IHl. auto. Qed.

Variables (R M : list nat) (A : list (list (mat K))) (x : list vec).
Hypothesis SA : sized R M A.
Hypothesis SX : map (@length K) x = M.
Hypothesis NR : R <> [].
Hypothesis NM : M <> [].
Lemma smul_vec_ok : exists y, smul_vec K A x = Ok y /\ map (@length K) y = R /\ forall i r, i < length R -> r < nth i R 0%nat ->
  nth r (nth i y []) r0 = rsum (map (fun j => rsum (map (fun m => mg (blockat A i j) r m * nth m (nth j x []) r0) (seq 0 (nth j M 0%nat)))) (seq 0 (length M))).
Proof.
  unfold smul_vec. rewrite (sized_cols K R M A SA NR). cbn [bind]. assert (LX : length x = length M) by (rewrite <- SX, map_length; auto). rewrite LX, Nat.eqb_refl. pose proof (sized_len K R M A SA) as LA.
  set (V := fun i v => length v = nth i R 0%nat /\ forall r, r < nth i R 0%nat -> nth r v r0 = rsum (map (fun j => rsum (map (fun m => mg (blockat A i j) r m * nth m (nth j x []) r0) (seq 0 (nth j M 0%nat)))) (seq 0 (length M)))).
  assert (G : forall i, i < length R -> exists v, contract (vec_add K) (map (fun j => mat_vec K (nth j (nth i A []) (none K)) (nth j x [])) (seq 0 (length M))) = Ok v /\ V i v).
  { intros i Hi.
    assert (E : map (fun j => mat_vec K (nth j (nth i A []) (none K)) (nth j x [])) (seq 0 (length M)) = map (fun j => Ok (map (fun r => rsum (map (fun m => mg (blockat A i j) r m * nth m (nth j x []) r0) (seq 0 (nth j M 0%nat)))) (seq 0 (nth i R 0%nat)))) (seq 0 (length M))).
    { apply map_ext_in. intros j Hj. apply in_seq in Hj. unfold mat_vec. cbv zeta beta. change (nth j (nth i A []) (none K)) with (blockat A i j). destruct (sized_at K R M A SA i j Hi ltac:(lia)) as [-> ->]. assert (El : length (nth j x []) = nth j M 0%nat) by (rewrite <- SX; change 0%nat with (length (@nil K)); rewrite map_nth; auto). rewrite El, Nat.eqb_refl. auto. }
    rewrite E. destruct (contract_vec (length M) (fun j => map (fun r => rsum (map (fun m => mg (blockat A i j) r m * nth m (nth j x []) r0) (seq 0 (nth j M 0%nat)))) (seq 0 (nth i R 0%nat))) (nth i R 0%nat)) as (v & E0 & E1 & E2).
    - destruct M; [congruence|simpl; lia].
    - intros. rewrite map_length, seq_length. auto.
    - exists v. split; [exact E0|]. split; auto. intros r Hr. rewrite E2. apply rsum_ext. intros j _. rewrite (nth_map_lt _ _ _ _ _ 0%nat) by (rewrite seq_length; auto). rewrite seq_nth by auto. auto. }
  assert (G3 : forall n s, (s + n)%nat = length R -> exists y, mapM (fun row => contract (vec_add K) (map (fun j => mat_vec K (nth j row (none K)) (nth j x [])) (seq 0 (length M)))) (skipn s A) = Ok y /\ Forall2 V (seq s n) y).
  { induction n as [|n IH]; intros s Hs.
    - rewrite skipn_all2 by lia. exists []. split; auto. constructor.
    - destruct (IH (S s) ltac:(lia)) as (P & E & HF). destruct (G s ltac:(lia)) as (v & Er & Hr). exists (v :: P). cbn [seq]. split; [|constructor; auto].
      assert (Es : skipn s A = nth s A [] :: skipn (S s) A). { clear -LA Hs. assert (H : s < length A) by lia. clear LA Hs. revert A H. induction s; intros [|a A] H; simpl in *; try lia; auto. apply IHs. lia. }
      rewrite Es. cbn [mapM]. rewrite Er. cbn [bind]. rewrite E. auto. }
  destruct (G3 (length R) 0%nat ltac:(lia)) as (y & E & HF). exists y. split; [exact E|]. pose proof (forall2_len _ _ _ _ _ HF) as Ly. rewrite seq_length in Ly.
  assert (Q : forall i, i < length R -> V i (nth i y [])) by (intros i Hi; pose proof (forall2_nth _ _ _ _ _ HF i 0%nat [] ltac:(rewrite seq_length; auto)) as H1; rewrite seq_nth in H1 by auto; exact H1).
  split.
  - apply (nth_ext _ _ 0%nat 0%nat); [rewrite map_length; auto|]. intros i Hi. rewrite map_length, <- Ly in Hi. change 0%nat with (length (@nil K)) at 1. rewrite map_nth. apply Q. auto.
  - intros i r Hi Hr. apply Q; auto.
Qed.
Lemma smul_vec_merged : exists y AM, smul_vec K A x = Ok y /\ bmat K A = Ok AM /\ is_merged R M A AM /\ length (concat y) = list_sum R /\
  forall r, r < list_sum R -> nth r (concat y) r0 = rsum (map (fun m => mg AM r m * nth m (concat x) r0) (seq 0 (list_sum M))).
Proof.
  destruct smul_vec_ok as (y & E & Sy & Hy). destruct (bmat_ok K R M A SA NR NM) as (AM & EA & HA). exists y, AM. split; [auto|]. split; [auto|]. split; [auto|]. split; [rewrite concat_len, Sy; auto|].
  intros r Hr. apply locate in Hr as (i & r' & Hi & Hr' & ->). assert (Ey : length (nth i y []) = nth i R 0%nat) by (rewrite <- Sy; change 0%nat with (length (@nil K)); rewrite map_nth; auto).
  rewrite <- Sy at 1. rewrite nth_concat; [|rewrite <- (map_length (@length K)), Sy; auto|rewrite Ey; auto]. rewrite Hy by auto. rewrite (rsum_blocks K _ M). apply rsum_ext. intros j Hj. apply in_seq in Hj. apply rsum_ext. intros m Hm. apply in_seq in Hm. destruct HA as (_ & _ & HA). rewrite HA by (auto; lia). f_equal.
  rewrite <- SX. rewrite nth_concat; auto; [rewrite <- (map_length (@length K)), SX; lia|]. assert (El : length (nth j x []) = nth j M 0%nat) by (rewrite <- SX; change 0%nat with (length (@nil K)); rewrite map_nth; auto). lia.
Qed.
End MulVec.
