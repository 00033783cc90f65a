(** Properties C30 - C33, C49, C50. *)
Require Import List Arith ZArith Bool Lia Permutation Sorting.Sorted Ring QArith Qcanon.
From Verif Require Import Util CombModel CombSpec CombProofs SimpModel SimpProps Arr StModel GenProofs StProofs TransferProofs.
Import ListNotations.
Local Open Scope nat_scope.

(** C30.  A symbol of degree k over [ndim] axes is a strictly increasing k-tuple of axes below [ndim]. *)
Theorem C30_symbols : forall row_leb ndim, exists g, generate row_leb ndim = Ok g /\ length (gen_symbols g) = S ndim /\
  forall k, k <= ndim ->
    let syms := nth k (gen_symbols g) [] in
    NoDup syms /\ length syms = binom ndim k /\
    forall s, In s syms <-> (StronglySorted lt s /\ length s = k /\ Forall (fun a => a < ndim) s).
Proof.
  intros row_leb ndim. destruct (generate_ok row_leb ndim) as (g & E & L & _). exists g. split; auto.
  split; [unfold gen_symbols; simpl; rewrite map_length; auto|]. intros k Hk. cbv zeta.
  destruct (generate_symbols row_leb ndim g E k Hk) as [ND SY]. split; auto. split; [|exact SY].
  rewrite <- (comb_pos_length k 0 ndim Hk). apply Permutation_length. apply NoDup_Permutation; auto.
  - pose proof (comb_pos_sorted k 0 ndim Hk) as S. clear - S. induction S; constructor; auto.
    intros I. rewrite Forall_forall in H. specialize (H a I). clear - H. induction a as [|x a IH]; inversion H; subst; try lia. auto.
  - intros s. rewrite SY, (comb_pos_spec k 0 ndim s Hk). unfold is_symbol.
    split; intros (A & B & C); repeat split; auto; try (eapply Forall_impl; [|exact C]; cbv beta; intros; lia);
      try (eapply Forall_impl; [|exact B]; cbv beta; intros; lia).
Qed.
Print Assumptions C30_symbols.

(** Each symbol [s] of degree k+1 lists its axes in increasing order; the term for axis [a] refers to
    the symbol without [a], with the parity of the number of larger axes. *)
Theorem C30_terms : forall row_leb ndim g, generate row_leb ndim = Ok g -> forall k c, k < ndim ->
  c < length (nth (S k) (gen_symbols g) []) ->
  let s := nth c (nth (S k) (gen_symbols g) []) [] in
  let l := nth k g (mkLevel [] [] [] []) in
  nth c (lv_axes l) [] = s /\
  length (nth c (lv_terms l) []) = S k /\ length (nth c (lv_parities l) []) = S k /\
  forall i, i < S k -> let a := nth i s 0 in
    nth (nth i (nth c (lv_terms l) []) 0) (nth k (gen_symbols g) []) [] = filter (fun e => negb (e =? a)) s /\
    nth i (nth c (lv_parities l) []) 0 = length (filter (fun e => a <? e) s) mod 2.
Proof.
  intros row_leb ndim g E k c Hk Hc. cbv zeta.
  destruct (generate_ok row_leb ndim) as (g' & E' & L & X). assert (g' = g) by congruence. subst g'.
  destruct (X k Hk) as ((NDs & SY) & EA & ET & EP). clear X.
  assert (ES : nth (S k) (gen_symbols g) [] = lv_symbols (nth k g (mkLevel [] [] [] []))).
  { unfold gen_symbols. cbn [nth]. apply nth_map_lt. lia. }
  rewrite ES in *. set (l := nth k g (mkLevel [] [] [] [])) in *. set (s := nth c (lv_symbols l) []).
  assert (U : is_symbol ndim (S k) s) by (apply SY, nth_In; auto). pose proof U as (US & UL & UF).
  rewrite EA, ET, EP. rewrite !(nth_map_lt _ _ _ _ _ []) by auto. fold s. rewrite !map_length.
  split; auto. split; auto. split; auto. intros i Hi. rewrite !(nth_map_lt _ _ _ _ _ 0) by lia. split; auto.
  assert (I : In (nth i s 0) s) by (apply nth_In; lia).
  rewrite (nth_index_of _ list_eqb).
  - clear. generalize (nth i s 0). intros a. induction s as [|x s IH]; simpl; auto. destruct (Nat.eq_dec a x) as [->|D].
    + rewrite Nat.eqb_refl. simpl. auto.
    + destruct (x =? a) eqn:E; [apply Nat.eqb_eq in E; congruence|]. simpl. rewrite IH. auto.
  - apply list_eqb_ok.
  - apply (generate_symbols row_leb ndim g E k ltac:(lia)). eapply remove_symbol; eauto.
Qed.
Print Assumptions C30_terms.
Example C30_example : exists g, generate lex_leb 3 = Ok g /\
  gen_symbols g = [[[]]; [[0];[1];[2]]; [[0;1];[0;2];[1;2]]; [[0;1;2]]] /\
  map lv_parities g = [[[0];[0];[0]]; [[1;0];[1;0];[1;0]]; [[0;1;0]]] /\
  map lv_terms g = [[[0];[0];[0]]; [[1;0];[2;0];[2;1]]; [[2;1;0]]].
Proof. eexists. split; [vm_compute; reflexivity|]. vm_compute. auto. Qed.

(** C31.  [st_primal] is topology.primal; [empty] are the contents of uninitialised memory. *)
Lemma st_self : forall row_leb shape p t, stencil_topology row_leb shape p = Ok t ->
  st_shape t = shape /\ st_periodic t = p /\ stencil_topology row_leb (st_shape t) (st_periodic t) = Ok t.
Proof.
  intros row_leb shape p t H. pose proof H as H0. unfold stencil_topology in H. destruct (generate row_leb (length shape)) as [g|]; [|discriminate].
  cbn [bind] in H. injection H as <-. cbn [st_shape st_periodic]. auto.
Qed.

Lemma call_ok : forall (K : cring) (o : sop K) x, ashape x = snd (so_shape K o) -> ashape (so_right K o x) = fst (so_shape K o) ->
  so_call K o x = Ok (so_right K o x).
Proof.
  intros K o x H1 H2. unfold so_call. cbv zeta. unfold shape_eqb. rewrite (proj2 (list_eqb_eq _ _) H1), (proj2 (list_eqb_eq _ _) H2). auto.
Qed.

Theorem C31_derivative_closed : forall (K : cring) row_leb shape, exists t, stencil_topology row_leb shape true = Ok t /\
  forall empty, exists P, st_primal K empty t = Ok P /\ length P = length shape /\
  forall n f, S n < length shape -> ashape f = st_n_elements t n ->
  exists d0 d1 g h, nth_error P n = Some d0 /\ nth_error P (S n) = Some d1 /\
    so_call K d0 f = Ok g /\ so_call K d1 g = Ok h /\ ashape h = st_n_elements t (S (S n)) /\
    forall idx, in_range (ashape h) idx -> aget h idx = r0.
Proof.
  intros K row_leb shape. destruct (stencil_topology row_leb shape true) as [t|] eqn:E.
  2:{ unfold stencil_topology in E. destruct (generate_ok row_leb (length shape)) as (g & Eg & _). rewrite Eg in E. discriminate. }
  exists t. split; auto. destruct (st_self _ _ _ _ E) as (ES & EP & Ht). intros empty. unfold st_primal. rewrite EP.
  pose proof (st_len row_leb t Ht) as L. eexists. split; [reflexivity|]. rewrite map_length, seq_length, L, ES. split; auto.
  intros n f Hn Sf.
  assert (NE : forall m, m < length (st_levels t) -> nth_error (map (fun n => mkSop K (dual_inner K empty t n) (primal_inner K empty t n) (st_n_elements t (S n), st_n_elements t n)) (seq 0 (length (st_levels t)))) m
     = Some (mkSop K (dual_inner K empty t m) (primal_inner K empty t m) (st_n_elements t (S m), st_n_elements t m))).
  { intros m Hm. rewrite nth_error_map. rewrite (nth_error_nth' _ 0) by (rewrite seq_length; auto). rewrite seq_nth by auto. auto. }
  rewrite L, ES in NE. eexists. eexists. eexists. eexists. rewrite <- ES, <- L in NE |- *. rewrite !NE by (rewrite L, ES; lia).
  split; [reflexivity|]. split; [reflexivity|]. split; [apply call_ok; auto|]. split; [apply call_ok; auto|]. split; [reflexivity|].
  cbn [so_right ashape primal_inner of_components]. intros idx R. apply (dd_zero K row_leb t Ht); auto. rewrite ES. auto.
Qed.
Print Assumptions C31_derivative_closed.

(** The same for the dual operators: dual[n] after dual[n+1] gives zero. *)
Theorem C31_dual_closed : forall (K : cring) row_leb shape t, stencil_topology row_leb shape true = Ok t ->
  forall empty, exists D, st_dual K empty t = Ok D /\ length D = length shape /\
  forall n f, S n < length shape -> ashape f = st_n_elements t (S (S n)) ->
  exists d0 d1 g h, nth_error D n = Some d0 /\ nth_error D (S n) = Some d1 /\
    so_call K d1 f = Ok g /\ so_call K d0 g = Ok h /\ ashape h = st_n_elements t n /\
    forall idx, in_range (ashape h) idx -> aget h idx = r0.
Proof.
  intros K row_leb shape t E empty. destruct (st_self _ _ _ _ E) as (ES & EP & Ht). unfold st_dual, st_primal. rewrite EP. cbn [bind].
  pose proof (st_len row_leb t Ht) as L. eexists. split; [reflexivity|]. rewrite !map_length, seq_length, L, ES. split; auto.
  intros n f Hn Sf.
  assert (NE : forall m, m < length shape -> nth_error (map (so_transpose K) (map (fun n => mkSop K (dual_inner K empty t n) (primal_inner K empty t n) (st_n_elements t (S n), st_n_elements t n)) (seq 0 (length shape)))) m
     = Some (mkSop K (primal_inner K empty t m) (dual_inner K empty t m) (st_n_elements t m, st_n_elements t (S m)))).
  { intros m Hm. rewrite !nth_error_map. rewrite (nth_error_nth' _ 0) by (rewrite seq_length; auto). rewrite seq_nth by auto. auto. }
  exists (mkSop K (primal_inner K empty t n) (dual_inner K empty t n) (st_n_elements t n, st_n_elements t (S n))).
  exists (mkSop K (primal_inner K empty t (S n)) (dual_inner K empty t (S n)) (st_n_elements t (S n), st_n_elements t (S (S n)))).
  exists (dual_inner K empty t (S n) f), (dual_inner K empty t n (dual_inner K empty t (S n) f)).
  rewrite !NE by lia. split; auto. split; auto. split; [apply call_ok; auto|]. split; [apply call_ok; auto|]. split; auto.
  apply (inner_zero K). intros b Sb. cbn [ashape dual_inner of_components] in Sb.
  rewrite <- (adjoint K row_leb t Ht empty empty) by (auto; rewrite ES; lia).
  rewrite <- (adjoint K row_leb t Ht empty empty) by (auto; rewrite ES; lia).
  unfold inner. apply rsum_0. intros idx Hi. apply indices_in in Hi. rewrite (dd_zero K row_leb t Ht); auto; [|rewrite ES; auto].
  destruct K as [C z o a m s p th]; cbn in *. apply (Ring_theory.Rmul_0_l (Eqsth C) (Eq_ext a m p) th) || (destruct th; auto).
Qed.
Print Assumptions C31_dual_closed.

(** C32.  The dual operators are the adjoints of the primal ones, for every shape (extent 1 included). *)
Theorem C32_dual_is_adjoint : forall (K : cring) row_leb shape t, stencil_topology row_leb shape true = Ok t ->
  forall empty, exists P D, st_primal K empty t = Ok P /\ st_dual K empty t = Ok D /\ length P = length shape /\ length D = length shape /\
  forall n f g, n < length shape -> ashape f = st_n_elements t n -> ashape g = st_n_elements t (S n) ->
  exists p d df dg, nth_error P n = Some p /\ nth_error D n = Some d /\ so_call K p f = Ok df /\ so_call K d g = Ok dg /\
    ashape df = ashape g /\ ashape dg = ashape f /\ inner df g = inner f dg.
Proof.
  intros K row_leb shape t E empty. destruct (st_self _ _ _ _ E) as (ES & EP & Ht). unfold st_dual, st_primal. rewrite EP. cbn [bind].
  pose proof (st_len row_leb t Ht) as L. eexists. eexists. split; [reflexivity|]. split; [reflexivity|].
  rewrite !map_length, seq_length, L, ES. split; auto. split; auto. intros n f g Hn Sf Sg.
  exists (mkSop K (dual_inner K empty t n) (primal_inner K empty t n) (st_n_elements t (S n), st_n_elements t n)).
  exists (mkSop K (primal_inner K empty t n) (dual_inner K empty t n) (st_n_elements t n, st_n_elements t (S n))).
  exists (primal_inner K empty t n f), (dual_inner K empty t n g).
  rewrite !nth_error_map. rewrite (nth_error_nth' _ 0) by (rewrite seq_length; auto). rewrite seq_nth by auto.
  split; auto. split; auto. split; [apply call_ok; auto|]. split; [apply call_ok; auto|]. split; auto. split; auto.
  apply (adjoint K row_leb t Ht); auto. rewrite ES; auto.
Qed.
Print Assumptions C32_dual_is_adjoint.

(** The operators are not trivial: on a 2x3 grid the derivative of the indicator of one vertex. *)
Definition Zring : cring := mkRing Z 0%Z 1%Z Z.add Z.mul Z.sub Z.opp Zth.
Example C31_example : exists t P d0, stencil_topology lex_leb [2;3] true = Ok t /\ st_primal Zring (fun _ _ => 77%Z) t = Ok P /\
  nth_error P 0 = Some d0 /\ forall g, so_call Zring d0 (mkArr [1;2;3] (fun i => if list_eqb i [0;0;1] then 1%Z else 0%Z)) = Ok g ->
   map (aget g) (indices [2;2;3]) = [0;-1;0; 0;1;0; 1;-1;0; 0;0;0]%Z.
Proof.
  eexists. eexists. eexists. split; [vm_compute; reflexivity|]. split; [reflexivity|]. split; [reflexivity|].
  intros g [= <-]. vm_compute. reflexivity.
Qed.

(** C33.  transfers[n] is [bin] with transpose [tile]; [inv m] stands for 1/m. *)
Theorem C33_coarsen_refine : forall (K : cring) (inv : nat -> K), (forall m, 0 < m -> rmul (inv m) (of_nat K m) = r1) ->
  forall row_leb shape p t co, stencil_topology row_leb shape p = Ok t -> coarse row_leb t = Ok co ->
  forall n, n <= length shape -> forall x, ashape x = st_n_elements co n ->
  exists y z, tile K t n x = Ok y /\ ashape y = st_n_elements t n /\ bin K inv t co n y = Ok z /\ aeq z x.
Proof.
  intros K inv Hinv row_leb shape p t co E Eco n Hn x Sx. destruct (st_self _ _ _ _ E) as (ES & EP & Ht).
  unfold coarse in Eco. destruct (is_even t) eqn:Ev; [|discriminate]. destruct (st_self _ _ _ _ Eco) as (ES' & EP' & Ht').
  assert (X : st_shape t = map (fun m => m * 2) (st_shape co)).
  { rewrite ES', map_map. unfold is_even in Ev. rewrite forallb_forall in Ev. rewrite <- (map_id (st_shape t)) at 1. apply map_ext_in.
    intros a Ha. apply Ev in Ha. apply Nat.even_spec in Ha as (b & ->). replace (2 * b) with (b * 2) by lia. rewrite Nat.div_mul; lia. }
  apply (bin_tile K inv Hinv t co n (st_shape co) X eq_refl). rewrite Sx. unfold st_n_elements. f_equal.
  assert (EL : st_levels co = st_levels t).
  { pose proof (st_gen row_leb t Ht) as G1. pose proof (st_gen row_leb co Ht') as G2. rewrite X, map_length in G1. congruence. }
  unfold st_symbols. rewrite EL. auto.
Qed.
Print Assumptions C33_coarsen_refine.

Lemma Qc_inv_ok : forall m, 0 < m -> rmul (c := mkRing Qc 0%Qc 1%Qc Qcplus Qcmult Qcminus Qcopp Qcrt) (Qcinv (Q2Qc (inject_Z (Z.of_nat m))))
   (of_nat (mkRing Qc 0%Qc 1%Qc Qcplus Qcmult Qcminus Qcopp Qcrt) m) = 1%Qc.
Proof.
  intros m Hm. assert (E : forall k, of_nat (mkRing Qc 0%Qc 1%Qc Qcplus Qcmult Qcminus Qcopp Qcrt) k = Q2Qc (inject_Z (Z.of_nat k))).
  { induction k as [|k IH]; [apply Qc_is_canon; reflexivity|]. cbn [of_nat radd r1]. rewrite IH. apply Qc_is_canon. cbn [Qcplus this Q2Qc].
    rewrite !Qred_correct. rewrite Nat2Z.inj_succ, <- Z.add_1_l, inject_Z_plus. reflexivity. }
  rewrite E. cbn [rmul]. rewrite Qcmult_comm. apply Qcmult_inv_r. intros Z0. apply (f_equal this) in Z0. cbn [this Q2Qc] in Z0.
  assert (H : (inject_Z (Z.of_nat m) == 0)%Q) by (rewrite <- Qred_correct, Z0; reflexivity). unfold Qeq in H. simpl in H. lia.
Qed.
Example C33_example : exists t co, stencil_topology lex_leb [4;2] true = Ok t /\ coarse lex_leb t = Ok co /\ st_n_elements co 1 = [2;2;1].
Proof. eexists. eexists. split; [vm_compute; reflexivity|]. split; vm_compute; reflexivity. Qed.

(** C49.  With only truthy items every adjacent pair is produced. *)
Theorem C49_adjacent_pairs_partial : forall A (truthy : A -> bool) l, (forall x, In x l -> truthy x = true) ->
  adjecent_pairs truthy l = combine l (tl l).
Proof.
  intros A truthy l H. unfold adjecent_pairs. destruct l as [|x l]; auto. cbn [pairs_from tl app].
  revert x H. induction l as [|y l IH]; intros x H; auto. cbn [pairs_from combine]. rewrite (H x (or_introl eq_refl)). cbn [app]. f_equal.
  apply IH. intros z Hz. apply H. right. auto.
Qed.
Print Assumptions C49_adjacent_pairs_partial.
(** A falsy item that is not last loses its pair. *)
Theorem C49_falsy_refuted : forall A (truthy : A -> bool) l, (exists i d, S i < length l /\ truthy (nth i l d) = false) ->
  length (adjecent_pairs truthy l) < length (combine l (tl l)).
Proof.
  intros A truthy l (i & d & Hi & F). unfold adjecent_pairs. destruct l as [|x l]; [simpl in Hi; lia|]. cbn [pairs_from tl app].
  assert (LE : forall l x, length (pairs_from truthy (Some x) l) <= length (combine (x :: l) l)).
  { induction l0 as [|y l0 IH]; intros x0; auto. cbn [pairs_from combine]. specialize (IH y). rewrite app_length. simpl length in *. destruct (truthy x0); simpl; lia. }
  revert x i Hi F. induction l as [|y l IH]; intros x i Hi F; [simpl in Hi; lia|]. cbn [pairs_from combine]. rewrite app_length.
  destruct i as [|i].
  - cbn [nth] in F. rewrite F. specialize (LE l y). simpl length in *. lia.
  - specialize (IH y i ltac:(simpl in *; lia) F). simpl length in *. destruct (truthy x); simpl; lia.
Qed.
Print Assumptions C49_falsy_refuted.
Example C49_example : adjecent_pairs (fun n => negb (n =? 0)) [3;0;5;7] = [(3,0);(5,7)] /\ combine [3;0;5;7] [0;5;7] = [(3,0);(0,5);(5,7)].
Proof. auto. Qed.

(** C50.  For 0 <= k <= n a recursion depth of n + 1 suffices. *)
Theorem C50_pascal_binomial : forall n k depth, k <= n -> n < depth -> pascal depth (Z.of_nat n) (Z.of_nat k) = Some (Z.of_nat (binom n k)).
Proof.
  assert (BN : forall n, binom n n = 1).
  { induction n; auto. cbn [binom]. rewrite IHn. rewrite binom_0_lt; lia. }
  induction n as [|n IH]; intros k depth Hk Hd; (destruct depth as [|depth]; [lia|]); cbn [pascal].
  - assert (k = 0) by lia. subst. reflexivity.
  - destruct (Z.of_nat k =? 0)%Z eqn:E0.
    + apply Z.eqb_eq in E0. assert (k = 0) by lia. subst. reflexivity.
    + destruct (Z.of_nat k =? Z.of_nat (S n))%Z eqn:E1; cbn [orb].
      * apply Z.eqb_eq in E1. assert (k = S n) by lia. subst. rewrite BN. reflexivity.
      * apply Z.eqb_neq in E0, E1. destruct k as [|k]; [lia|]. replace (Z.of_nat (S n) - 1)%Z with (Z.of_nat n) by lia.
        replace (Z.of_nat (S k) - 1)%Z with (Z.of_nat k) by lia. rewrite !IH by lia. cbn [binom]. f_equal. lia.
Qed.
Print Assumptions C50_pascal_binomial.
(** Outside of this range the recursion never ends. *)
Theorem C50_pascal_diverges : forall depth n k, (n >= 0 -> k < 0 \/ n < k -> pascal depth n k = None)%Z.
Proof.
  assert (A : forall depth n k, (k < 0 -> k < n -> pascal depth n k = None)%Z).
  { induction depth as [|d IH]; intros n k H1 H2; auto. cbn [pascal]. rewrite (proj2 (Z.eqb_neq k 0)), (proj2 (Z.eqb_neq k n)) by lia. cbn [orb].
    rewrite (IH (n - 1)%Z (k - 1)%Z) by lia. auto. }
  assert (B : forall depth n k, (0 < k -> n < k -> pascal depth n k = None)%Z).
  { induction depth as [|d IH]; intros n k H1 H2; auto. cbn [pascal]. rewrite (proj2 (Z.eqb_neq k 0)), (proj2 (Z.eqb_neq k n)) by lia. cbn [orb].
    rewrite (IH (n - 1)%Z k) by lia. destruct (pascal d (n - 1) (k - 1)); auto. }
  intros depth n k Hn [H|H]; [apply A; lia|apply B; lia].
Qed.
Print Assumptions C50_pascal_diverges.
Example C50_example : pascal 10 6 3 = Some 20%Z /\ pascal 500 2 3 = None.
Proof. split; vm_compute; reflexivity. Qed.
