(** The blocks on the diagonal of the canonical normal equations couple a cell only to itself and its neighbours. *)
Require Import List Arith Bool Lia Ring.
From Verif Require Import Util Arr StModel GenProofs StProofs OpModel OpSpec OpProofs TrProofs BlkModel BlkSpec BlkProofs CanProofs DiagProofs.
Import ListNotations.

Section Loc.
Variable K : cring.
Add Ring Kr : (rth K).
Local Open Scope ring_scope'.
Variable row_leb : list nat -> list nat -> bool.
Variable t : stopo.
Hypothesis Hp : st_periodic t = true.
Hypothesis Ht : stencil_topology row_leb (st_shape t) (st_periodic t) = Ok t.
Variable empty : nat -> list nat -> K.
Notation ndim := (length (st_shape t)).
Notation T n := (term_list (nth n (st_levels t) (mkLevel [] [] [] []))).
Notation NE n := (st_n_elements t n).
Notation unit := (@aunit K).

Lemma term_axis_unique : forall n c tm a p a' p', (n < ndim)%nat -> In (c, tm, a, p) (T n) -> In (c, tm, a', p') (T n) -> a = a'.
Proof.
  intros n c tm a p a' p' Hn I I'. assert (X : forall a p, In (c, tm, a, p) (T n) -> let u := nth c (nth (S n) (st_symbols t) []) [] in In a u /\ nth tm (nth n (st_symbols t) []) [] = remove Nat.eq_dec a u).
  { clear a p a' p' I I'. intros a p I u. rewrite (term_list_spec ndim n (nth n (st_symbols t) [])) in I by (apply (st_level row_leb t Ht); auto).
    apply in_flat_map in I as ([c' u'] & Hc & I). apply (in_combine_seq _ _ _ _ []) in Hc as [Hc Eu]. cbn [fst snd] in I.
    apply in_map_iff in I as (d & E & Hd). injection E as -> <- -> <-. rewrite <- (st_syms_S row_leb t Ht) in Hc, Eu by auto. fold u in Eu. subst u'. split; auto.
    assert (U : is_symbol ndim (S n) u). { destruct (st_syms row_leb t Ht (S n) ltac:(lia)) as (_ & SY). apply SY. apply nth_In. auto. }
    apply nth_index_of; [apply list_eqb_ok|]. pose proof (st_syms row_leb t Ht n ltac:(lia)) as [_ SY]. apply SY. eapply remove_symbol; eauto. }
  destruct (X a p I) as [Ha E]. destruct (X a' p' I') as [Ha' E']. cbv zeta in *. rewrite E in E'. set (u := nth c (nth (S n) (st_symbols t) []) []) in *.
  destruct (Nat.eq_dec a a') as [|D]; auto. exfalso. apply (remove_In Nat.eq_dec u a). rewrite E'. apply in_in_remove; auto.
Qed.

Lemma next_neighbours : forall a p, (a < ndim)%nat -> in_range (st_shape t) p -> neighbours (st_shape t) p (next_idx (st_shape t) a p).
Proof.
  intros a p Ha R. pose proof (in_range_len _ _ R) as L. exists a. split; auto. unfold next_idx. split.
  - intros b Hb. rewrite set_at_nth by lia. destruct (Nat.eqb_spec b a); [congruence|auto].
  - left. rewrite set_at_nth by lia. rewrite Nat.eqb_refl. auto.
Qed.
Lemma prev_neighbours : forall a p, (a < ndim)%nat -> in_range (st_shape t) p -> neighbours (st_shape t) p (prev_idx (st_shape t) a p).
Proof.
  intros a p Ha R. pose proof (prev_range _ a _ R Ha) as R'. destruct (next_neighbours a _ Ha R') as (b & Lb & E & D). rewrite next_prev in * by auto.
  exists b. split; auto. split; [intros; symmetry; auto|]. tauto.
Qed.

Definition apart (p q : list nat) : Prop := p <> q /\ ~ neighbours (st_shape t) p q.

Lemma unit_c : forall s c q c' r, (c', r) <> (c, q) -> aget (unit s (c :: q)) (c' :: r) = r0.
Proof. intros. apply unit_other. congruence. Qed.

Lemma dual_primal_local : forall n c p q g w, (n < ndim)%nat -> in_range (NE n) (c :: p) -> apart p q ->
  (forall c2 r, in_range (NE (S n)) (c2 :: r) -> aget g (c2 :: r) = w (c2 :: r) * aget (primal_inner K empty t n (unit (NE n) (c :: q))) (c2 :: r)) ->
  aget (dual_inner K empty t n g) (c :: p) = r0.
Proof.
  intros n c p q g w Hn R [D NN] Hg. inversion R as [|? ? ? ? Lc Rp]; subst. rewrite (dual_as_sum K row_leb t Ht) by auto. apply rsum_0. intros [[[c2 tm] a] pp] Hq.
  apply filter_In in Hq as [Hq E]. apply Nat.eqb_eq in E. subst tm. destruct (term_bounds row_leb t Ht n c2 c a pp Hn Hq) as (Lc2 & _ & La).
  assert (V : forall r, in_range (st_shape t) r -> (r = p \/ r = prev_idx (st_shape t) a p) -> component K g c2 r = r0).
  { intros r Rr Er. unfold component. rewrite Hg by (constructor; auto). assert (Z : aget (primal_inner K empty t n (unit (NE n) (c :: q))) (c2 :: r) = r0); [|rewrite Z; ring].
    rewrite (primal_as_sum K row_leb t Ht) by auto. apply rsum_0. intros [[[c2' tm] a2] p2] Hq2. apply filter_In in Hq2 as [Hq2 E2]. apply Nat.eqb_eq in E2. subst c2'.
    unfold convolve1d, component. destruct (Nat.eq_dec tm c) as [->|Dc].
    - assert (a2 = a) by (eapply (term_axis_unique n c2 c); eauto). subst a2. rewrite !unit_c; [ring| |].
      + intros E2. injection E2 as E2. destruct Er as [->| ->]; [apply NN; rewrite <- E2; apply next_neighbours; auto|]. rewrite next_prev in E2 by auto. auto.
      + intros E2. injection E2 as E2. destruct Er as [->| ->]; auto. apply NN. rewrite <- E2. apply prev_neighbours; auto.
    - rewrite !unit_c by congruence. ring. }
  unfold correlate1d. rewrite !V by (auto; apply prev_range; auto). ring.
Qed.

Lemma primal_dual_local : forall n c p q g w, (n < ndim)%nat -> in_range (NE (S n)) (c :: p) -> apart p q ->
  (forall c2 r, in_range (NE n) (c2 :: r) -> aget g (c2 :: r) = w (c2 :: r) * aget (dual_inner K empty t n (unit (NE (S n)) (c :: q))) (c2 :: r)) ->
  aget (primal_inner K empty t n g) (c :: p) = r0.
Proof.
  intros n c p q g w Hn R [D NN] Hg. inversion R as [|? ? ? ? Lc Rp]; subst. rewrite (primal_as_sum K row_leb t Ht) by auto. apply rsum_0. intros [[[c' tm] a] pp] Hq.
  apply filter_In in Hq as [Hq E]. apply Nat.eqb_eq in E. subst c'. destruct (term_bounds row_leb t Ht n c tm a pp Hn Hq) as (_ & Ltm & La).
  assert (V : forall r, in_range (st_shape t) r -> (r = p \/ r = next_idx (st_shape t) a p) -> component K g tm r = r0).
  { intros r Rr Er. unfold component. rewrite Hg by (constructor; auto). assert (Z : aget (dual_inner K empty t n (unit (NE (S n)) (c :: q))) (tm :: r) = r0); [|rewrite Z; ring].
    rewrite (dual_as_sum K row_leb t Ht) by auto. apply rsum_0. intros [[[c2 tm'] a2] p2] Hq2. apply filter_In in Hq2 as [Hq2 E2]. apply Nat.eqb_eq in E2. subst tm'.
    unfold correlate1d, component. destruct (Nat.eq_dec c2 c) as [->|Dc].
    - assert (a2 = a) by (eapply (term_axis_unique n c tm); eauto). subst a2. rewrite !unit_c; [ring| |].
      + intros E2. injection E2 as E2. destruct Er as [->| ->]; auto. apply NN. rewrite <- E2. apply next_neighbours; auto.
      + intros E2. injection E2 as E2. destruct Er as [->| ->]; [apply NN; rewrite <- E2; apply prev_neighbours; auto|]. rewrite prev_next in E2 by auto. auto.
    - rewrite !unit_c by congruence. ring. }
  unfold convolve1d. rewrite !V by (auto; apply next_range; auto). ring.
Qed.

(** ---- the canonical blocks ---- *)
Variable hv : nat -> K.
Variable dg : K -> Prop.
Hypothesis dg_mul : forall a b, dg a -> dg b -> dg (a * b).
Hypothesis dg_hv : forall n, (n <= ndim)%nat -> dg (hv n).
Notation G := (st_sig K empty t dg).
Notation cm := (cmat K t empty hv).
Let GO : sig_ok K G := st_sig_ok K empty row_leb t Ht dg dg_mul.

Lemma hodge_act : forall n x idx, (n <= ndim)%nat -> ashape x = NE n -> in_range (NE n) idx -> aget (act K (hodge K hv t n) x) idx = aget x idx * hv n.
Proof.
  intros n x idx Hn Sx R. unfold hodge. destruct (diag_call K (mkArr [] (fun _ => hv n)) (NE n) x (or_introl eq_refl) Sx) as (r & E & S & V).
  unfold act. cbn [ocall]. rewrite E. rewrite V by auto. auto.
Qed.
Lemma deriv_act : forall n x, (n < ndim)%nat -> ashape x = NE n -> act K (ODeriv (st_sop K empty t n)) x = primal_inner K empty t n x.
Proof.
  intros n x Hn Sx. unfold act. cbn [ocall]. rewrite (so_call_ok K G _ (S n) n); auto. apply (st_transposable K empty row_leb t Ht). auto.
Qed.
Lemma dual_act : forall n x, (n < ndim)%nat -> ashape x = NE (S n) -> act K (ODual (so_transpose K (st_sop K empty t n))) x = dual_inner K empty t n x.
Proof.
  intros n x Hn Sx. unfold act. cbn [ocall]. rewrite (so_call_ok K G _ n (S n)); auto. apply transposable_t, (st_transposable K empty row_leb t Ht). auto.
Qed.
Lemma comp_act : forall a b i j k x, typed K G a i j -> typed K G b j k -> ashape x = NE k -> act K (OComp [a; b]) x = act K a (act K b x).
Proof.
  intros a b i j k x Ta Tb Sx. assert (TC : tchain K G [a; b] i k) by (eapply tc_cons; [exact Ta|]; apply tc_one; auto).
  rewrite (proj2 (good_comp K G _ _ _ (tchain_good K G GO _ _ _ TC))) by auto. reflexivity.
Qed.
Lemma deriv_typed : forall n, (n < ndim)%nat -> typed K G (ODeriv (st_sop K empty t n)) (S n) n.
Proof. intros. apply ty_deriv. cbn [st_sig d_ok]. auto. Qed.
Lemma dual_typed : forall n, (n < ndim)%nat -> typed K G (ODual (so_transpose K (st_sop K empty t n))) n (S n).
Proof. intros. apply ty_dual. cbn [st_sig dd_ok]. auto. Qed.

Lemma block_local : forall i k c p q, (i <= ndim)%nat -> (k <= ndim)%nat -> in_range (NE i) (c :: p) -> apart p q ->
  aget (act K (cm i k) (act K (cm k i) (unit (NE i) (c :: q)))) (c :: p) = r0.
Proof.
  intros i k c p q Hi Hk R A. pose proof (hodge_typed K t empty hv dg dg_hv) as HT. unfold cmat. destruct (Nat.eqb_spec i k) as [<-|D].
  - rewrite Nat.eqb_refl. rewrite hodge_act by (auto; apply (act_shape K G GO _ i i); auto; apply HT; auto).
    rewrite hodge_act by auto. rewrite unit_c by (destruct A; congruence). ring.
  - rewrite (Nat.eqb_sym k i). destruct (Nat.eqb_spec i k) as [|_]; [congruence|]. destruct (Nat.eqb_spec k (S i)) as [->|D1].
    + destruct (Nat.eqb_spec i (S (S i))); [lia|]. rewrite (comp_act (hodge K hv t (S i)) (ODeriv _) (S i) (S i) i) by (auto; apply deriv_typed; lia).
      rewrite deriv_act by (auto; lia). set (U := primal_inner K empty t i (unit (NE i) (c :: q))).
      assert (SU : ashape U = NE (S i)) by reflexivity. assert (S1 : ashape (act K (hodge K hv t (S i)) U) = NE (S i)) by (apply (act_shape K G GO _ (S i) (S i)); auto; apply HT; auto).
      rewrite (comp_act _ _ i (S i) (S i)) by (auto; apply dual_typed; lia). rewrite dual_act by (try lia; apply (act_shape K G GO _ (S i) (S i)); auto; apply HT; auto).
      apply (dual_primal_local i c p q _ (fun _ => hv (S i) * hv (S i))); auto. intros c2 r R2. rewrite !hodge_act by auto. unfold U. ring.
    + destruct (Nat.eqb_spec i (S k)) as [->|D2].
      * destruct (Nat.eqb_spec (S k) k); [lia|].
        rewrite (comp_act (ODual _) (hodge K hv t (S k)) k (S k) (S k)) by (auto; apply dual_typed; lia).
        assert (S1 : ashape (act K (hodge K hv t (S k)) (unit (NE (S k)) (c :: q))) = NE (S k)) by (apply (act_shape K G GO _ (S k) (S k)); auto; apply HT; auto).
        rewrite dual_act by (auto; lia). rewrite (comp_act _ _ (S k) (S k) k) by (auto; apply deriv_typed; lia). rewrite deriv_act by (auto; lia). rewrite hodge_act by auto.
        assert (Z : aget (primal_inner K empty t k (dual_inner K empty t k (act K (hodge K hv t (S k)) (unit (NE (S k)) (c :: q))))) (c :: p) = r0); [|rewrite Z; ring].
        apply (primal_dual_local k c p q _ (fun _ => hv (S k))); auto. intros c2 r R2.
        inversion R2 as [|? ? ? ? Lc2 Rr]; subst. rewrite !(dual_as_sum K row_leb t Ht) by (auto; lia). rewrite <- (rsum_mul K). apply rsum_ext. intros [[[c3 tm] a] pp] Hq.
        apply filter_In in Hq as [Hq _]. destruct (term_bounds row_leb t Ht k c3 tm a pp ltac:(lia) Hq) as (Lc3 & _ & La).
        unfold correlate1d, component. rewrite !hodge_act by (auto; constructor; auto; apply prev_range; auto). ring.
      * rewrite (act_zero K G GO _ i k); [auto| |]; [apply (ty_zero K G i k)|]. apply (act_shape K G GO _ k i); auto. apply (ty_zero K G k i).
Qed.
End Loc.
