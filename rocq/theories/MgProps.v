(** Properties C40, C41, C57 - C59. *)
Require Import List Arith ZArith Bool Lia Ring QArith Qcanon.
From Verif Require Import Util SimpProps Arr StModel TransferProofs StProps OpModel OpSpec OpProps BlkModel MgModel MgSpec CycleProofs CoarsenProofs DfProofs.
Import ListNotations.
Local Open Scope nat_scope.

(** C40.  Any kind of equation that meets the contract, hierarchies of any depth, any number of cycles. *)
Theorem C40_cycle_contract : forall E V residual smooth solve restrict interpolate vsub vzero (dom : E -> V -> V -> Prop) Zx Zy (eqv : V -> V -> Prop),
  (forall x, eqv x x) -> (forall x y z, eqv x y -> eqv y z -> eqv x z) ->
  forall h e, chain_ok E V residual smooth solve restrict interpolate vsub vzero dom Zx Zy eqv (rev (h ++ [e])) ->
  forall x y, exact E V residual dom Zy e x y ->
  (exists x', v_cycle E V residual smooth solve restrict interpolate vsub vzero (h ++ [e]) y (Some x) = Ok x' /\ eqv x' x) /\
  forall n, exists x', solve_v_cycle E V residual smooth solve restrict interpolate vsub vzero (h ++ [e]) y (Some x) n = Ok (Some x') /\ eqv x' x.
Proof.
  intros E V residual smooth solve restrict interpolate vsub vzero dom Zx Zy eqv R T h e C x y X. split; [eapply v_cycle_fixed; eauto|]. intros n. eapply solve_v_cycle_fixed; eauto.
Qed.
Print Assumptions C40_cycle_contract.

(** The diffusion equations meet it, on every periodic grid that can be coarsened, whatever the coefficient fields. *)
Theorem C40_diffusion_fixed_point : forall (K : cring) near0 near1 row_leb (inv : nat -> K) (kinv : K -> K) empty solve shape t scale f d levels h,
  stencil_topology row_leb shape true = Ok t -> diffusion_formulate K near0 near1 kinv empty (mkCx K t scale) f = Ok d ->
  df_hierarchy K near0 near1 row_leb inv kinv empty d levels = Ok h ->
  (forall e x y r, fits (cx_topo K (sys_cx K (df_sys K e))) x -> fits (cx_topo K (sys_cx K (df_sys K e))) y -> df_residual K e x y = Ok r -> all_zero r ->
     exists x', solve e y (Some x) = Ok x' /\ Forall2 aeq x' x) ->
  forall x y r, fits t x -> fits t y -> df_residual K d x y = Ok r -> all_zero r ->
  (exists x', df_v_cycle K near0 near1 row_leb inv kinv solve h y (Some x) = Ok x' /\ Forall2 aeq x' x) /\
  (forall n, exists x', df_solve_v_cycle K near0 near1 row_leb inv kinv solve h y (Some x) n = Ok (Some x') /\ Forall2 aeq x' x) /\
  (all_zero y -> exists x', df_v_cycle K near0 near1 row_leb inv kinv solve h y None = Ok x' /\ all_zero x').
Proof.
  intros K near0 near1 row_leb inv kinv empty solve shape t scale f d levels h Et Ed Eh HS x y r Fx Fy Er Zr.
  destruct (st_self _ _ _ _ Et) as (ES & EP & Ht). unfold diffusion_formulate in Ed. destruct (formulate K near0 near1 kinv empty (mkCx K t scale) f) as [s|] eqn:Es; [|discriminate]. cbn [bind] in Ed. injection Ed as <-.
  destruct (formulate_good K near0 near1 row_leb kinv empty (mkCx K t scale) f s Ht EP Es) as [Gs Fs]. pose proof (g_cx K empty _ _ Gs) as Ec.
  assert (TO : topo_of K (mkDiff K s f) = t) by (unfold topo_of; cbn [df_sys]; rewrite Ec; auto).
  assert (Gd : df_good K row_leb empty (mkDiff K s f)) by (unfold df_good; rewrite TO; cbn [df_sys df_fields]; rewrite Ec; auto).
  destruct (hierarchy_spec _ _ _ _ _ Eh) as (l & -> & Ll & Cl).
  assert (C := df_chain K near0 near1 row_leb inv kinv empty solve l (mkDiff K s f) Gd Cl).
  assert (SO : forall e, solver_ok (diffusion K) (list (array K)) (df_residual K) solve (df_dom K empty) (df_Z K empty) (Forall2 aeq) e).
  { intros e x0 y0 ((B1 & B2) & r0' & E0 & (_ & Z0)). apply (HS e x0 y0 r0'); auto. }
  specialize (C (SO _)). cbn [rev]. set (D := mkDiff K s f) in *.
  assert (X : exact (diffusion K) (list (array K)) (df_residual K) (df_dom K empty) (df_Z K empty) D x y).
  { split; [split; rewrite TO; assumption|]. exists r. split; auto. split; [|exact Zr].
    destruct (SysProofs.residual_ok K (TrProofs.st_sig K empty t (fun _ => True)) (TrProofs.st_sig_ok K empty row_leb t Ht (fun _ => True) (fun _ _ _ _ => Logic.I)) s [0;1] [0;1] [0;1] (g_A K empty _ _ Gs) (g_B K empty _ _ Gs) ltac:(discriminate) ltac:(discriminate) x y Fx Fy) as (r' & Er' & Br').
    unfold df_residual in Er. cbn [df_sys D] in Er. rewrite Er in Er'. injection Er' as <-. rewrite TO. exact Br'. }
  destruct (C40_cycle_contract _ _ _ _ _ _ _ _ _ _ _ _ _ (SysProofs.feq_refl K) (SysProofs.feq_trans K) (rev l) D ltac:(rewrite rev_app_distr, rev_involutive; exact C) x y X) as [V1 V2].
  split; [exact V1|]. split; [exact V2|]. intros Zy. unfold df_v_cycle, v_cycle. rewrite rev_app_distr, rev_involutive.
  destruct (cycle_fixed _ _ _ _ _ _ _ _ _ _ _ _ _ (SysProofs.feq_trans K) _ C D l eq_refl) as [_ Q]. destruct (Q y) as (x' & E' & Z').
  - split; [rewrite TO; assumption|exact Zy].
  - exists x'. split; [exact E'|]. apply Z'.
Qed.
Print Assumptions C40_diffusion_fixed_point.

(** C41.  For any coarsening; [last] is python's hierarchy[-1]. *)
Theorem C41_hierarchy : forall E (coarse : E -> result E) self levels h, hierarchy E coarse self levels = Ok h ->
  length h = S levels /\ nth_error h levels = Some self /\
  forall i, i < levels -> exists c e, nth_error h i = Some c /\ nth_error h (S i) = Some e /\ coarse e = Ok c.
Proof.
  intros E coarse self levels h H. destruct (hierarchy_spec _ _ _ _ _ H) as (l & -> & <- & C). split; [rewrite rev_length; auto|].
  split; [cbn [rev]; rewrite nth_error_app2 by (rewrite rev_length; auto); rewrite rev_length, Nat.sub_diag; auto|]. clear H.
  assert (P : forall l a, coarsens E coarse (a :: l) -> forall i, i < length l -> exists c e, nth_error (a :: l) (S i) = Some c /\ nth_error (a :: l) i = Some e /\ coarse e = Ok c).
  { clear. induction l as [|b l IH]; intros a C i Hi; [simpl in Hi; lia|]. destruct C as [Ca C]. destruct i as [|i]; [exists b, a; auto|]. destruct (IH b C i ltac:(simpl in Hi; lia)) as (c & e & E1 & E2 & E3). exists c, e. auto. }
  assert (RV : forall (l : list E) i, i < length l -> nth_error (rev l) i = nth_error l (length l - 1 - i)).
  { clear. intros l i Hi. destruct l as [|d0 l0] eqn:El; [simpl in Hi; lia|]. rewrite <- El in *. rewrite (nth_error_nth' (rev l) d0) by (rewrite rev_length; auto). rewrite rev_nth by auto. rewrite (nth_error_nth' l d0) by lia. do 2 f_equal. lia. }
  intros i Hi. destruct (P l self C (length l - 1 - i) ltac:(lia)) as (c & e & E1 & E2 & E3). exists c, e. rewrite !RV by (cbn [length]; lia). cbn [length].
  replace (S (length l) - 1 - i) with (S (length l - 1 - i)) by lia. replace (S (length l) - 1 - S i) with (length l - 1 - i) by lia. auto.
Qed.
Print Assumptions C41_hierarchy.

(** Diffusion equations: a hierarchy exists just if the extents are multiples of 2^levels, and level i of the finest
    has extents divided by 2^i. *)
Theorem C41_diffusion_levels : forall (K : cring) near0 near1 row_leb (inv : nat -> K) (kinv : K -> K) empty shape t scale f d levels,
  stencil_topology row_leb shape true = Ok t -> diffusion_formulate K near0 near1 kinv empty (mkCx K t scale) f = Ok d ->
  ((exists h, df_hierarchy K near0 near1 row_leb inv kinv empty d levels = Ok h) <-> forall m, In m shape -> exists q, m = 2 ^ levels * q) /\
  forall h, df_hierarchy K near0 near1 row_leb inv kinv empty d levels = Ok h -> forall i, i <= levels -> exists e, nth_error h (levels - i) = Some e /\
    map (fun m => 2 ^ i * m) (st_shape (cx_topo K (sys_cx K (df_sys K e)))) = shape.
Proof.
  intros K near0 near1 row_leb inv kinv empty shape t scale f d levels Et Ed.
  destruct (st_self _ _ _ _ Et) as (ES & EP & Ht). unfold diffusion_formulate in Ed. destruct (formulate K near0 near1 kinv empty (mkCx K t scale) f) as [s|] eqn:Es; [|discriminate]. cbn [bind] in Ed. injection Ed as <-.
  destruct (formulate_good K near0 near1 row_leb kinv empty (mkCx K t scale) f s Ht EP Es) as [Gs Fs]. pose proof (g_cx K empty _ _ Gs) as Ec.
  assert (TO : topo_of K (mkDiff K s f) = t) by (unfold topo_of; cbn [df_sys]; rewrite Ec; auto).
  assert (Gd : df_good K row_leb empty (mkDiff K s f)) by (unfold df_good; rewrite TO; cbn [df_sys df_fields]; rewrite Ec; auto).
  split.
  - unfold df_hierarchy. rewrite hierarchy_ok. rewrite (df_iter K near0 near1 row_leb inv kinv empty levels _ Gd). rewrite TO, ES, Forall_forall. reflexivity.
  - intros h Eh. destruct (C41_hierarchy _ _ _ _ _ Eh) as (L & Last & Step).
    assert (Q : forall i, i <= levels -> exists e, nth_error h (levels - i) = Some e /\ df_good K row_leb empty e /\ map (fun m => 2 ^ i * m) (st_shape (topo_of K e)) = shape).
    { induction i as [|i IH]; intros Hi.
      - rewrite Nat.sub_0_r. eexists. split; [exact Last|]. split; auto. rewrite TO, ES. erewrite map_ext; [apply map_id|]. intros. simpl. lia.
      - destruct (IH ltac:(lia)) as (e & E1 & Ge & Sh). destruct (Step (levels - S i) ltac:(lia)) as (c & e' & E2 & E3 & Co). replace (S (levels - S i)) with (levels - i) in E3 by lia. rewrite E1 in E3. injection E3 as <-.
        destruct (df_coarse_good K near0 near1 row_leb inv kinv empty e c Ge Co) as (Gc & co & _ & _ & Etc). exists c. split; auto. split; auto.
        destruct (coarse_facts row_leb _ _ (proj1 Ge) Etc) as (_ & H2 & _ & _). rewrite H2, map_map in Sh. rewrite <- Sh. apply map_ext. intros m. cbn [Nat.pow]. lia. }
    intros i Hi. destruct (Q i Hi) as (e & E1 & _ & Sh). eauto.
Qed.
Print Assumptions C41_diffusion_levels.

(** C57 *)
Theorem C57_smoother_symmetric : forall (K : cring) (inv : nat -> K) row_leb shape p t, stencil_topology row_leb shape p = Ok t ->
  forall scaled n (f g : array K), ashape f = st_n_elements t n -> ashape g = st_n_elements t n ->
  ashape (smoother K inv t scaled n f) = ashape f /\ inner (smoother K inv t scaled n f) g = inner f (smoother K inv t scaled n g).
Proof. intros. split; [reflexivity|]. apply smoother_sym; auto. Qed.
Print Assumptions C57_smoother_symmetric.

(** C58 *)
Theorem C58_coarsen_refine_adjoint : forall (K : cring) (inv : nat -> K), (forall m, 0 < m -> rmul (inv m) (of_nat K m) = r1) ->
  forall row_leb shape p t co, stencil_topology row_leb shape p = Ok t -> coarse row_leb t = Ok co ->
  forall n (f g : array K), ashape f = st_n_elements t n -> ashape g = st_n_elements co n ->
  exists cf rg, coarsen K inv t co n f = Ok cf /\ refine K inv t co n g = Ok rg /\ ashape cf = ashape g /\ ashape rg = ashape f /\
   rmul (of_nat K (2 ^ length shape)) (inner cf g) = inner f rg.
Proof.
  intros K inv Hinv row_leb shape p t co E Eco n f g Sf Sg. destruct (st_self _ _ _ _ E) as (ES & EP & Ht). destruct (coarse_facts row_leb t co Ht Eco) as (_ & H2 & HS & _).
  destruct (coarsen_val K inv t co H2 HS n f Sf) as (cf & Ec & Sc & _). destruct (refine_val K inv t co H2 HS n g Sg) as (rg & Er & Sr & _).
  exists cf, rg. split; auto. split; auto. split; [congruence|]. split; [congruence|]. rewrite <- ES. eapply coarsen_refine_adjoint; eauto.
Qed.
Print Assumptions C58_coarsen_refine_adjoint.

(** C59.  Forms that are constant in each component. *)
Theorem C59_constants : forall (K : cring) (inv : nat -> K), (forall m, 0 < m -> rmul (inv m) (of_nat K m) = r1) ->
  forall row_leb shape p t co, stencil_topology row_leb shape p = Ok t -> coarse row_leb t = Ok co ->
  forall n (v : nat -> K),
  (exists z, coarsen K inv t co n (mkArr (st_n_elements t n) (fun i => v (hd 0 i))) = Ok z /\ aeq z (mkArr (st_n_elements co n) (fun i => v (hd 0 i)))) /\
  (exists z, refine K inv t co n (mkArr (st_n_elements co n) (fun i => v (hd 0 i))) = Ok z /\ aeq z (mkArr (st_n_elements t n) (fun i => v (hd 0 i)))).
Proof.
  intros K inv Hinv row_leb shape p t co E Eco n v. destruct (st_self _ _ _ _ E) as (ES & EP & Ht). destruct (coarse_facts row_leb t co Ht Eco) as (_ & H2 & HS & _). split.
  - destruct (coarsen_const K inv t co H2 HS Hinv n (mkArr (st_n_elements t n) (fun i => v (hd 0 i))) v) as (z & Ez & Sz & Vz); auto. exists z. split; auto. split; auto.
    intros idx R. rewrite Sz in R. pose proof R as R'. inversion R'; subst. apply Vz. rewrite Sz. auto.
  - destruct (refine_const K inv t co H2 HS Hinv n (mkArr (st_n_elements co n) (fun i => v (hd 0 i))) v) as (z & Ez & Sz & Vz); auto. exists z. split; auto. split; auto.
    intros idx R. rewrite Sz in R. pose proof R as R'. inversion R'; subst. apply Vz. rewrite Sz. auto.
Qed.
Print Assumptions C59_constants.

(** ---- concrete cases ---- *)
Definition qinv (m : nat) : Qring := Qcinv (Q2Qc (inject_Z (Z.of_nat m))).
Lemma qinv_ok : forall m, 0 < m -> rmul (qinv m) (of_nat Qring m) = r1.
Proof. exact Qc_inv_ok. Qed.
Definition q (n : nat) : Qring := Q2Qc (inject_Z (Z.of_nat n)).
Definition ex_fields (t : stopo) : fields Qring :=
  mkFields Qring (mkArr (st_n_elements t 0) (fun i => q (fold_right Nat.add 0 i))) (mkArr (st_n_elements t 1) (fun _ => q 2)) (mkArr (st_n_elements t 1) (fun _ => q 3)) (mkArr (st_n_elements t 1) (fun _ => q 5)).

(** A 4 x 2 grid with two levels, and an exact solution that is not zero: y = A x. *)
Example C40_example : let near0 := allclose 0 in let near1 := allclose 1 in
  (do t <- stencil_topology lex_leb [4;2] true;
   do d <- diffusion_formulate Qring near0 near1 Qcinv (fun _ _ => q 7) (mkCx Qring t (q 2)) (ex_fields t);
   do h <- df_hierarchy Qring near0 near1 lex_leb qinv Qcinv (fun _ _ => q 7) d 1;
   let x := map (fun n => mkArr (K := Qring) (st_n_elements t n) (fun i => q (n + fold_right Nat.add 0 i))) [0;1] in
   do y <- vector_mul Qring (sys_A Qring (df_sys Qring d)) x;
   do r <- df_residual Qring d x y;
   Ok (length h, map (fun e => st_shape (cx_topo Qring (sys_cx Qring (df_sys Qring e)))) h, map ashape y, map (fun a => this (aget a [0;1;1])) y, map (fun v => this v) (to_dense Qring r)))
  = Ok (2, [[2;1];[4;2]], [[1;4;2];[2;4;2]], [-20 # 1; 14 # 1]%Q, repeat (0 # 1)%Q 24).
Proof. vm_compute. reflexivity. Qed.

(** An odd extent has no hierarchy. *)
Example C41_example :
  (do t <- stencil_topology lex_leb [4;6] true;
   do d <- diffusion_formulate Qring (allclose 0) (allclose 1) Qcinv (fun _ _ => q 7) (mkCx Qring t (q 2)) (ex_fields t);
   Ok (match df_hierarchy Qring (allclose 0) (allclose 1) lex_leb qinv Qcinv (fun _ _ => q 7) d 2 with Ok _ => None | Err e => Some e end)) = Ok (Some AssertionError).
Proof. vm_compute. reflexivity. Qed.

Example C57_example : (do t <- stencil_topology lex_leb [4;2] true;
   let f := mkArr (K := Qring) (st_n_elements t 1) (fun i => if list_eqb i [0;1;0] then q 16 else q 0) in
   Ok (map (fun i => this (aget (smoother Qring qinv t true 1 f) i)) [[0;1;0];[0;1;1];[0;0;0];[1;1;0]])) = Ok [8 # 1; 8 # 1; 0 # 1; 0 # 1]%Q.
Proof. vm_compute. reflexivity. Qed.

Example C58_example : (do t <- stencil_topology lex_leb [4;2] true; do co <- coarse lex_leb t;
   let f := mkArr (K := Qring) (st_n_elements t 1) (fun i => q (fold_right Nat.add 0 i)) in let g := mkArr (K := Qring) (st_n_elements co 1) (fun i => if list_eqb i [0;1;0] then q 3 else q 0) in
   do cf <- coarsen Qring qinv t co 1 f; do rg <- refine Qring qinv t co 1 g;
   Ok (st_n_elements co 1, this (@inner Qring cf g), this (@inner Qring f rg))) = Ok ([2;2;1], (9 # 1)%Q, (36 # 1)%Q).
Proof. vm_compute. reflexivity. Qed.
Example C59_example : exists t co, stencil_topology lex_leb [4;2] true = Ok t /\ coarse lex_leb t = Ok co /\ st_n_elements co 1 = [2;2;1] /\ st_n_elements t 1 = [2;4;2].
Proof. eexists. eexists. split; [vm_compute; reflexivity|]. split; [vm_compute; reflexivity|]. split; vm_compute; reflexivity. Qed.
