(** Diffusion equations meet the contract of the multigrid cycle. *)
Require Import List Arith Bool Lia Ring.
From Verif Require Import Util Arr StModel GenProofs StProofs OpModel OpSpec OpProofs TrProofs BlkModel BlkSpec BlkProofs CanProofs TypProofs MgModel MgSpec SmProofs CoarsenProofs SysProofs CycleProofs.
Import ListNotations.

Section Df.
Variable K : cring.
Add Ring Kd : (rth K).
Local Open Scope ring_scope'.
Variables near0 near1 : array K -> bool.
Variable row_leb : list nat -> list nat -> bool.
Variable inv : nat -> K.
Variable kinv : K -> K.
Variable empty : nat -> list nat -> K.
Notation G t := (st_sig K empty t (fun _ => True)).

(** ---- assembling the system ---- *)
Lemma bset_one_mat : forall N f i (ne : nat -> list nat), i < N -> oshape K (f i i) = (ne i, ne i) ->
  bset_one K (mat N f) i i = Ok (mat N (fun a b => if (a =? i) && (b =? i) then OId (ne i) else f a b)).
Proof.
  intros N f i ne Hi E. unfold bset_one. rewrite mat_row by auto. rewrite row_entry by auto. rewrite E. cbn [fst snd]. rewrite list_eqb_refl'. rewrite set_nth_mat. auto.
Qed.
Lemma foldM_id : forall (ne : nat -> list nat) N m s f, (s + m = N)%nat -> (forall i j, oshape K (f i j) = (ne i, ne j)) ->
  foldM (fun A i => bset_one K A i i) (seq s m) (mat N f) = Ok (mat N (fun i j => if (i =? j) && (s <=? i) then OId (ne i) else f i j)).
Proof.
  induction m as [|m IH]; intros s f E SF; cbn [seq foldM].
  - f_equal. apply mat_ext. intros i j Hi Hj. destruct (Nat.leb_spec s i); [lia|]. rewrite andb_false_r. auto.
  - rewrite (bset_one_mat N f s ne); [|lia|auto]. cbn [bind]. rewrite IH; [|lia|].
    2:{ intros i j. destruct (Nat.eqb_spec i s) as [->|]; [destruct (Nat.eqb_spec j s) as [->|]|]; cbn [andb]; auto. }
    f_equal. apply mat_ext. intros i j Hi Hj. destruct (Nat.eqb_spec i j) as [->|D]; cbn [andb].
    + destruct (Nat.leb_spec (S s) j), (Nat.leb_spec s j); try lia; auto.
      * replace j with s by lia. rewrite Nat.eqb_refl. auto.
      * destruct (Nat.eqb_spec j s); [lia|]. auto.
    + destruct (Nat.eqb_spec i s) as [->|]; cbn [andb]; auto. destruct (Nat.eqb_spec j s); [congruence|auto].
Qed.
Lemma bidentity_mat : forall (ne : nat -> list nat) N, bidentity K (map ne (seq 0 N)) = Ok (mat N (fun i j => if i =? j then OId (ne i) else OZero (ne i, ne j))).
Proof.
  intros ne N. unfold bidentity. rewrite map_length, seq_length.
  replace (bzeros K (map ne (seq 0 N)) (map ne (seq 0 N))) with (mat N (fun i j => OZero (K := K) (ne i, ne j))).
  2:{ unfold bzeros, mat. rewrite map_map. apply map_ext. intros i. rewrite map_map. auto. }
  rewrite (foldM_id ne N N 0); auto. f_equal. apply mat_ext. intros i j _ _. cbn [Nat.leb]. rewrite andb_true_r. auto.
Qed.

Lemma op_mul_shape : forall a b c, op_mul K near0 near1 a b = Ok c -> snd (oshape K a) = fst (oshape K b).
Proof.
  intros a b c E. unfold op_mul, mk_comp in E. cbn [combine tl forallb fst snd] in E. destruct (list_eqb (snd (oshape K a)) (fst (oshape K b))) eqn:Q; [apply list_eqb_eq; auto|discriminate].
Qed.
Lemma DO_typed : forall t d n, ashape d = st_n_elements t n -> typed K (G t) (DO K d) n n.
Proof.
  intros t d n S. unfold DO. rewrite S. apply (ty_diag K (G t) d n). split; [right; auto|]. intros. exact I.
Qed.

Record good (c : cplx K) (s : system K) : Prop := {
  g_cx : sys_cx K s = c;
  g_A : tblock K (G (cx_topo K c)) (sys_A K s) [0;1]%nat [0;1]%nat;
  g_B : tblock K (G (cx_topo K c)) (sys_B K s) [0;1]%nat [0;1]%nat;
  g_L : sys_L K s = [0;1]%nat;
  g_R : sys_R K s = [0;1]%nat;
  g_dim : 1 <= length (st_shape (cx_topo K c))
}.

Definition fields_ok (t : stopo) (f : fields K) : Prop :=
  ashape (constraint K f) = st_n_elements t 0 /\ ashape (conductance K f) = st_n_elements t 1 /\ ashape (resistance K f) = st_n_elements t 1 /\ ashape (foo K f) = st_n_elements t 1.

Lemma formulate_good : forall c f s, topo_ok row_leb (cx_topo K c) -> st_periodic (cx_topo K c) = true -> formulate K near0 near1 kinv empty c f = Ok s -> good c s /\ fields_ok (cx_topo K c) f.
Proof.
  intros c f s Ht Hp E. set (t := cx_topo K c) in *. unfold formulate in E. fold t in E.
  rewrite (canonical_ok K near0 near1 row_leb t Hp Ht empty (hodge_value K kinv c)) in E. cbn [bind] in E. rewrite bidentity_mat in E. cbn [bind] in E.
  pose proof (st_sig_ok K empty row_leb t Ht (fun _ => True) (fun _ _ _ _ => I)) as GO.
  destruct (length (st_shape t)) as [|m] eqn:Em.
  { exfalso. set (M := cmat K t empty (hodge_value K kinv c)) in *. change (slice2 K (mat 1 M)) with [[M 0 0]]%nat in E. change (entry K [[M 0 0]] 0 0)%nat with (Ok (M 0 0))%nat in E. cbn [bind] in E.
    destruct (op_mul K near0 near1 (M 0 0)%nat (DO K (aneg K (constraint K f)))) as [v|]; [|discriminate]. cbn [bind] in E. unfold bset at 1 in E. cbn [nth_error] in E. destruct (shapes_eqb _ _); [|discriminate].
    cbn [bind] in E. change (set_nth 0 (set_nth 0 v [M 0 0]) [[M 0 0]])%nat with [[v]] in E. discriminate. }
  pose proof (cmat_typed K t empty (hodge_value K kinv c) (fun _ => True) (fun _ _ => I)) as CT.
  pose proof (CT 0%nat 0%nat ltac:(lia) ltac:(lia)) as T00. pose proof (CT 0%nat 1%nat ltac:(lia) ltac:(lia)) as T01. pose proof (CT 1%nat 0%nat ltac:(lia) ltac:(lia)) as T10. pose proof (CT 1%nat 1%nat ltac:(lia) ltac:(lia)) as T11. clear CT.
  assert (SH : forall o i j, typed K (G t) o i j -> oshape K o = (st_n_elements t i, st_n_elements t j)) by (intros o i j T; apply (typed_good K (G t) GO _ _ _ T)).
  replace (slice2 K (mat (S (S m)) (cmat K t empty (hodge_value K kinv c)))) with (mat 2 (cmat K t empty (hodge_value K kinv c))) in E by reflexivity.
  set (M := cmat K t empty (hodge_value K kinv c)) in *. 
  assert (ENT : forall g i j, i < 2 -> j < 2 -> entry K (mat 2 g) i j = Ok (g i j)) by (intros g i j Hi Hj; unfold entry; rewrite mat_row, row_entry by auto; auto).
  rewrite ENT in E by lia. cbn [bind] in E.
  destruct (op_mul K near0 near1 (M 0 0)%nat (DO K (aneg K (constraint K f)))) as [v00|] eqn:E00; [|discriminate]. cbn [bind] in E.
  pose proof (op_mul_shape _ _ _ E00) as S00. rewrite (SH _ _ _ T00) in S00. cbn [snd fst DO oshape aneg ashape] in S00.
  destruct (op_mul_typed K (G t) GO near0 near1 _ _ _ _ _ T00 (DO_typed t (aneg K (constraint K f)) 0 (eq_sym S00))) as (v & Ev & Tv00). rewrite E00 in Ev. injection Ev as <-.
  rewrite bset_mat in E by (auto; rewrite (SH _ _ _ T00), (SH _ _ _ Tv00); auto). cbn [bind] in E. rewrite ENT in E by lia. cbn [Nat.eqb andb bind] in E.
  destruct (op_mul K near0 near1 (M 0 1)%nat (DO K (conductance K f))) as [v01|] eqn:E01; [|discriminate]. cbn [bind] in E.
  pose proof (op_mul_shape _ _ _ E01) as S01. rewrite (SH _ _ _ T01) in S01. cbn [snd fst DO oshape] in S01.
  destruct (op_mul_typed K (G t) GO near0 near1 _ _ _ _ _ T01 (DO_typed t (conductance K f) 1 (eq_sym S01))) as (v & Ev & Tv01). rewrite E01 in Ev. injection Ev as <-.
  rewrite bset_mat in E by (auto; cbn [Nat.eqb andb]; rewrite (SH _ _ _ T01), (SH _ _ _ Tv01); auto). cbn [bind] in E. rewrite ENT in E by lia. cbn [Nat.eqb andb bind] in E.
  destruct (op_mul K near0 near1 (M 1 1)%nat (DO K (resistance K f))) as [v11|] eqn:E11; [|discriminate]. cbn [bind] in E.
  pose proof (op_mul_shape _ _ _ E11) as S11. rewrite (SH _ _ _ T11) in S11. cbn [snd fst DO oshape] in S11.
  destruct (op_mul_typed K (G t) GO near0 near1 _ _ _ _ _ T11 (DO_typed t (resistance K f) 1 (eq_sym S11))) as (v & Ev & Tv11). rewrite E11 in Ev. injection Ev as <-.
  rewrite bset_mat in E by (auto; cbn [Nat.eqb andb]; rewrite (SH _ _ _ T11), (SH _ _ _ Tv11); auto). cbn [bind] in E. rewrite ENT in E by lia. cbn [Nat.eqb andb bind] in E.
  destruct (op_mul K near0 near1 (DO K (foo K f)) (M 1 0)%nat) as [v10|] eqn:E10; [|discriminate]. cbn [bind] in E.
  pose proof (op_mul_shape _ _ _ E10) as S10. rewrite (SH _ _ _ T10) in S10. cbn [snd fst DO oshape] in S10.
  destruct (op_mul_typed K (G t) GO near0 near1 _ _ _ _ _ (DO_typed t (foo K f) 1 S10) T10) as (v & Ev & Tv10). rewrite E10 in Ev. injection Ev as <-.
  rewrite bset_mat in E by (auto; cbn [Nat.eqb andb]; rewrite (SH _ _ _ T10), (SH _ _ _ Tv10); auto). cbn [bind] in E. injection E as <-.
  split; [|repeat split; auto].
  constructor; cbn [sys_cx sys_A sys_B sys_L sys_R]; auto; [| |fold t; rewrite Em; apply le_n_S, Nat.le_0_l].
  - unfold mat. cbn [seq map Nat.eqb andb]. repeat constructor; auto.
  - unfold mat. cbn [seq map slice2 firstn Nat.eqb]. fold t. repeat constructor; [apply (ty_id K (G t) 0%nat)|apply (ty_zero K (G t) 0%nat 1%nat)|apply (ty_zero K (G t) 1%nat 0%nat)|apply (ty_id K (G t) 1%nat)].
Qed.

Lemma formulate_ok : forall c f, topo_ok row_leb (cx_topo K c) -> st_periodic (cx_topo K c) = true -> 1 <= length (st_shape (cx_topo K c)) -> fields_ok (cx_topo K c) f ->
  exists s, formulate K near0 near1 kinv empty c f = Ok s.
Proof.
  intros c f Ht Hp L (S0 & S1 & S2 & S3). set (t := cx_topo K c) in *. unfold formulate. fold t.
  rewrite (canonical_ok K near0 near1 row_leb t Hp Ht empty (hodge_value K kinv c)). cbn [bind]. rewrite bidentity_mat. cbn [bind].
  pose proof (st_sig_ok K empty row_leb t Ht (fun _ => True) (fun _ _ _ _ => I)) as GO.
  destruct (length (st_shape t)) as [|m] eqn:Em; [lia|].
  pose proof (cmat_typed K t empty (hodge_value K kinv c) (fun _ => True) (fun _ _ => I)) as CT.
  pose proof (CT 0%nat 0%nat ltac:(lia) ltac:(lia)) as T00. pose proof (CT 0%nat 1%nat ltac:(lia) ltac:(lia)) as T01. pose proof (CT 1%nat 0%nat ltac:(lia) ltac:(lia)) as T10. pose proof (CT 1%nat 1%nat ltac:(lia) ltac:(lia)) as T11. clear CT.
  assert (SH : forall o i j, typed K (G t) o i j -> oshape K o = (st_n_elements t i, st_n_elements t j)) by (intros o i j T; apply (typed_good K (G t) GO _ _ _ T)).
  replace (slice2 K (mat (S (S m)) (cmat K t empty (hodge_value K kinv c)))) with (mat 2 (cmat K t empty (hodge_value K kinv c))) by reflexivity.
  set (M := cmat K t empty (hodge_value K kinv c)) in *. 
  assert (ENT : forall g i j, i < 2 -> j < 2 -> entry K (mat 2 g) i j = Ok (g i j)) by (intros g i j Hi Hj; unfold entry; rewrite mat_row, row_entry by auto; auto).
  rewrite ENT by lia. cbn [bind].
  destruct (op_mul_typed K (G t) GO near0 near1 _ _ _ _ _ T00 (DO_typed t (aneg K (constraint K f)) 0 S0)) as (v00 & E00 & Tv00). rewrite E00. cbn [bind].
  rewrite bset_mat by (auto; rewrite (SH _ _ _ T00), (SH _ _ _ Tv00); auto). cbn [bind]. rewrite ENT by lia. cbn [Nat.eqb andb bind].
  destruct (op_mul_typed K (G t) GO near0 near1 _ _ _ _ _ T01 (DO_typed t (conductance K f) 1 S1)) as (v01 & E01 & Tv01). rewrite E01. cbn [bind].
  rewrite bset_mat by (auto; cbn [Nat.eqb andb]; rewrite (SH _ _ _ T01), (SH _ _ _ Tv01); auto). cbn [bind]. rewrite ENT by lia. cbn [Nat.eqb andb bind].
  destruct (op_mul_typed K (G t) GO near0 near1 _ _ _ _ _ T11 (DO_typed t (resistance K f) 1 S2)) as (v11 & E11 & Tv11). rewrite E11. cbn [bind].
  rewrite bset_mat by (auto; cbn [Nat.eqb andb]; rewrite (SH _ _ _ T11), (SH _ _ _ Tv11); auto). cbn [bind]. rewrite ENT by lia. cbn [Nat.eqb andb bind].
  destruct (op_mul_typed K (G t) GO near0 near1 _ _ _ _ _ (DO_typed t (foo K f) 1 S3) T10) as (v10 & E10 & Tv10). rewrite E10. cbn [bind].
  rewrite bset_mat by (auto; cbn [Nat.eqb andb]; rewrite (SH _ _ _ T10), (SH _ _ _ Tv10); auto). cbn [bind]. eauto.
Qed.

(** ---- the contract ---- *)
Notation bvt t x := (bv K (G t) x [0;1]%nat).
Definition topo_of (d : diffusion K) : stopo := cx_topo K (sys_cx K (df_sys K d)).
Definition df_dom (d : diffusion K) (x y : list (array K)) : Prop := bvt (topo_of d) x /\ bvt (topo_of d) y.
Definition df_Z (d : diffusion K) (x : list (array K)) : Prop := bvt (topo_of d) x /\ bzero K x.
Definition df_good (d : diffusion K) : Prop := topo_ok row_leb (topo_of d) /\ st_periodic (topo_of d) = true /\ good (sys_cx K (df_sys K d)) (df_sys K d) /\ fields_ok (topo_of d) (df_fields K d).

Lemma df_coarse_good : forall d c, df_good d -> df_coarse K near0 near1 row_leb inv kinv empty d = Ok c -> df_good c /\
  exists co, cx_coarse K row_leb (sys_cx K (df_sys K d)) = Ok co /\ sys_cx K (df_sys K c) = co /\ coarse row_leb (topo_of d) = Ok (topo_of c).
Proof.
  intros d c (Ht & Hp & Hg & Hf) E. unfold df_coarse in E. destruct (cx_coarse K row_leb (sys_cx K (df_sys K d))) as [co|] eqn:Eco; [|discriminate]. cbn [bind] in E.
  destruct (coarsen K inv _ _ 0 _) as [f0|]; [|discriminate]. cbn [bind] in E. destruct (coarsen K inv _ _ 1 (conductance K _)) as [f1|]; [|discriminate]. cbn [bind] in E.
  destruct (coarsen K inv _ _ 1 (resistance K _)) as [f2|]; [|discriminate]. cbn [bind] in E. destruct (coarsen K inv _ _ 1 (foo K _)) as [f3|]; [|discriminate]. cbn [bind] in E.
  unfold diffusion_formulate in E. destruct (formulate K near0 near1 kinv empty co _) as [s|] eqn:Es; [|discriminate]. cbn [bind] in E. injection E as <-.
  unfold cx_coarse in Eco. destruct (coarse row_leb (cx_topo K (sys_cx K (df_sys K d)))) as [tc|] eqn:Et; [|discriminate]. cbn [bind] in Eco. injection Eco as <-.
  destruct (coarse_facts row_leb _ tc Ht Et) as (Htc & _ & _ & Hpc).
  assert (Gs : good _ s /\ fields_ok _ _) by (eapply formulate_good; [| |exact Es]; cbn [cx_topo]; [auto|rewrite Hpc; auto]). destruct Gs as [Gs Fs].
  pose proof (g_cx _ _ Gs) as Ec. unfold df_good, topo_of in *. cbn [df_sys]. rewrite !Ec. cbn [cx_topo df_fields]. split; [split; auto; split; auto; rewrite Hpc; auto|]. eexists. split; [reflexivity|]. auto.
Qed.
Lemma df_coarse_ok : forall d, df_good d -> (exists c, df_coarse K near0 near1 row_leb inv kinv empty d = Ok c) <-> is_even (topo_of d) = true.
Proof.
  intros d Gd. split.
  - intros (c & E). destruct (df_coarse_good d c Gd E) as (_ & co & _ & _ & Et). unfold coarse in Et. destruct (is_even (topo_of d)); auto. discriminate.
  - intros Ev. destruct Gd as (Ht & Hp & Hg & (F0 & F1 & F2 & F3)).
    assert (Et : exists tc, coarse row_leb (topo_of d) = Ok tc).
    { unfold coarse. rewrite Ev. unfold stencil_topology. rewrite map_length. rewrite (st_gen row_leb (topo_of d) Ht). cbn [bind]. eauto. }
    destruct Et as (tc & Et). destruct (coarse_facts row_leb _ tc Ht Et) as (Htc & H2 & HS & Hpc).
    unfold df_coarse, cx_coarse. fold (topo_of d). rewrite Et. cbn [bind cx_topo].
    destruct (coarsen_val K inv (topo_of d) tc H2 HS 0 _ F0) as (f0 & -> & S0 & _). cbn [bind]. destruct (coarsen_val K inv (topo_of d) tc H2 HS 1 _ F1) as (f1 & -> & S1 & _). cbn [bind].
    destruct (coarsen_val K inv (topo_of d) tc H2 HS 1 _ F2) as (f2 & -> & S2 & _). cbn [bind]. destruct (coarsen_val K inv (topo_of d) tc H2 HS 1 _ F3) as (f3 & -> & S3 & _). cbn [bind].
    unfold diffusion_formulate. pose proof (g_dim _ _ Hg) as GD. fold (topo_of d) in GD. rewrite H2, map_length in GD.
    destruct (formulate_ok (mkCx K tc (radd (cx_scale K (sys_cx K (df_sys K d))) (cx_scale K (sys_cx K (df_sys K d))))) (mkFields K f0 f1 f2 f3)) as (s & ->); cbn [cx_topo]; auto; [congruence|repeat split; auto|]. cbn [bind]. eauto.
Qed.
(** Coarsening [n] times succeeds just if all extents are multiples of 2^n. *)
Lemma df_iter : forall n d, df_good d -> (exists c, iter_coarse (diffusion K) (df_coarse K near0 near1 row_leb inv kinv empty) n d = Ok c) <-> Forall (fun m => exists q, m = (2 ^ n * q)%nat) (st_shape (topo_of d)).
Proof.
  induction n as [|n IH]; intros d Gd; cbn [iter_coarse].
  - split; eauto. intros _. apply Forall_forall. intros m _. exists m. simpl. lia.
  - split.
    + intros (c & E). destruct (df_coarse K near0 near1 row_leb inv kinv empty d) as [d'|] eqn:Ed; [|discriminate]. cbn [bind] in E.
      destruct (df_coarse_good d d' Gd Ed) as (Gd' & co & _ & _ & Et). destruct (coarse_facts row_leb _ _ (proj1 Gd) Et) as (_ & H2 & _ & _).
      assert (F := proj1 (IH d' Gd') (ex_intro _ c E)). rewrite H2. apply Forall_map. eapply Forall_impl; [|exact F]. intros m (q & ->). exists q. cbn [Nat.pow]. lia.
    + intros F. assert (Ev : is_even (topo_of d) = true).
      { unfold is_even. apply forallb_forall. intros m Hm. rewrite Forall_forall in F. destruct (F m Hm) as (q & ->). cbn [Nat.pow]. rewrite <- Nat.mul_assoc, Nat.even_mul. auto. }
      destruct (proj2 (df_coarse_ok d Gd) Ev) as (d' & Ed). rewrite Ed. cbn [bind]. destruct (df_coarse_good d d' Gd Ed) as (Gd' & co & _ & _ & Et). apply IH; auto.
      destruct (coarse_facts row_leb _ _ (proj1 Gd) Et) as (_ & H2 & _ & _). rewrite H2 in F. rewrite Forall_forall in *. intros m Hm. destruct (F (m * 2)%nat) as (q & E); [apply in_map_iff; eauto|]. exists q. cbn [Nat.pow] in E. lia.
Qed.

Lemma real_01 : forall t, topo_ok row_leb t -> 1 <= length (st_shape t) -> Forall (real_space K (G t)) [0;1]%nat.
Proof.
  intros t Ht L. assert (R : forall n, n <= 1 -> real_space K (G t) n).
  { intros n Hn. exists (length (nth n (st_symbols t) [])), (st_shape t). split; auto. pose proof (st_syms row_leb t Ht n ltac:(lia)) as SO.
    destruct SO as [_ SO]. destruct (nth n (st_symbols t) []) as [|s l]; [|simpl; lia]. exfalso. apply (proj2 (SO (seq 0 n))).
    split; [|split; [apply seq_length|apply Forall_forall; intros a Ha; apply in_seq in Ha; lia]]. clear. destruct n as [|[|n]]; [constructor|repeat constructor|]. generalize 0. induction (S (S n)) as [|k IH]; intros s; constructor; auto. apply Forall_forall. intros a Ha. apply in_seq in Ha. lia. }
  repeat constructor; apply R; lia.
Qed.

Lemma df_level : forall d, df_good d -> level_ok (diffusion K) (list (array K)) (df_residual K) (df_smooth K near0 near1 inv kinv) (bsub K) (bscale K r0) df_dom df_Z df_Z (Forall2 aeq) d.
Proof.
  intros d (Ht & Hp & Hg & _). set (t := topo_of d) in *. pose proof (st_sig_ok K empty row_leb t Ht (fun _ => True) (fun _ _ _ _ => I)) as GO.
  pose proof (g_A _ _ Hg) as TA. pose proof (g_B _ _ Hg) as TB. fold (topo_of d) in TA, TB. fold t in TA, TB.
  assert (RJ : Forall (real_space K (G t)) [0;1]%nat) by (apply real_01; auto; apply (g_dim _ _ Hg)).
  assert (NE : [0;1]%nat <> []) by discriminate.
  assert (BV0 : forall y, bvt t y -> bvt t (bscale K r0 y)) by (intros y B; unfold bscale; clear - B; unfold bv in *; remember [0;1]%nat as J; clear HeqJ; induction B; constructor; auto).
  assert (BZ0 : forall y, bzero K (bscale K r0 y)) by (intros y; unfold bscale; induction y; constructor; auto; cbn [aget]; intros; ring).
  constructor.
  - intros x x' y ((Bx & By) & r & Er & (Br & Zr)) Q. destruct (residual_ext K (G t) GO (df_sys K d) _ _ _ TA TB NE NE x x' y Bx By Q r Er Zr) as (r' & Er' & Zr' & Br').
    split; [split; [exact (bv_eqv K (G t) x x' _ Bx Q)|exact By]|]. exists r'. split; auto. split; auto.
  - intros x y ((Bx & By) & r & Er & (Br & Zr)). apply (overrelax_fixed K (G t) GO near0 near1 inv kinv (df_sys K d) [0;1]%nat [0;1]%nat [0;1]%nat); auto. exists r. auto.
  - intros x y w ((Bx & By) & _) (Bw & Zw). eapply (bsub_zero K (G t)); eauto.
  - intros y (By & Zy). split; [|split; auto]. split; [split; auto|].
    destruct (residual_zero K (G t) GO (df_sys K d) _ _ _ TA TB NE NE (bscale K r0 y) y (BV0 y By) By (BZ0 y) Zy) as (r & Er & Br & Zr). exists r. split; auto. split; auto.
  - intros x x' (Bx & Zx) Q. split; [exact (bv_eqv K (G t) x x' _ Bx Q)|exact (bzero_eqv K x x' Zx Q)].
Qed.

Lemma scalar_call_zero : forall (k : K) s (x : array K), ashape x = s -> (forall idx, in_range s idx -> aget x idx = r0) ->
  exists y, ocall K (OHodge (mkArr [] (fun _ => k)) s) x = Ok y /\ ashape y = s /\ forall idx, in_range s idx -> aget y idx = r0.
Proof.
  intros k s x Sx Zx. destruct (bmul_val K x (mkArr [] (fun _ => k)) (or_introl eq_refl)) as (r & Er & Sr & Vr). exists r. split.
  - cbn [ocall]. apply checked_ok; cbn [fst snd]; auto. congruence.
  - split; [congruence|]. intros idx R. rewrite Vr by (rewrite Sx; auto). rewrite Zx by auto. ring.
Qed.

Lemma df_link : forall d c, df_good d -> df_coarse K near0 near1 row_leb inv kinv empty d = Ok c ->
  link_ok (diffusion K) (list (array K)) (df_restrict K row_leb inv kinv) (df_interpolate K row_leb inv) df_Z df_Z d c.
Proof.
  intros d c Gd E. destruct (df_coarse_good d c Gd E) as (Gc & co & Eco & Sc & Et). destruct Gd as (Ht & Hp & Hg & _).
  destruct (coarse_facts row_leb _ _ Ht Et) as (_ & H2 & HS & _).
  split; intros v (Bv & Zv).
  - unfold df_restrict. rewrite Eco. cbn [bind]. rewrite (g_L _ _ Hg).
    assert (STEP : forall n a, ashape a = st_n_elements (topo_of d) n -> (forall idx, in_range (ashape a) idx -> aget a idx = r0) ->
      exists z, (do u <- ocall K (cx_hodge_inv K kinv (sys_cx K (df_sys K d)) n) a; do v <- coarsen K inv (cx_topo K (sys_cx K (df_sys K d))) (cx_topo K co) n u; ocall K (cx_hodge K kinv co n) v) = Ok z /\
        ashape z = st_n_elements (topo_of c) n /\ forall idx, in_range (ashape z) idx -> aget z idx = r0).
    { intros n a Sa Za. destruct (scalar_call_zero (kinv (hodge_value K kinv (sys_cx K (df_sys K d)) n)) (st_n_elements (topo_of d) n) a Sa) as (u & Eu & Su & Zu); [rewrite <- Sa; auto|].
      unfold cx_hodge_inv, hodge. fold (topo_of d). rewrite Eu. cbn [bind]. rewrite <- Sc. fold (topo_of c).
      destruct (coarsen_zero K inv (topo_of d) (topo_of c) H2 HS n u Su) as (w & Ew & Sw & Zw); [rewrite Su; auto|]. rewrite Ew. cbn [bind].
      unfold cx_hodge, hodge. fold (topo_of c). destruct (scalar_call_zero (hodge_value K kinv (sys_cx K (df_sys K c)) n) (st_n_elements (topo_of c) n) w Sw) as (z & Ez & Sz & Zz); [rewrite <- Sw; auto|]. exists z. split; auto. split; auto. rewrite Sz. auto. }
    inversion Bv as [|a j0 v' J' Sa B']; subst. inversion B' as [|b j1 v'' J'' Sb B'']; subst. inversion B''; subst. inversion Zv as [|? ? Za Z']; subst. inversion Z' as [|? ? Zb _]; subst.
    destruct (STEP 0%nat a Sa Za) as (z0 & E0 & S0 & Z0). destruct (STEP 1%nat b Sb Zb) as (z1 & E1 & S1 & Z1). cbn [combine mapM fst snd]. rewrite E0. cbn [bind]. rewrite E1. cbn [bind].
    eexists. split; [reflexivity|]. split; repeat constructor; auto.
  - unfold df_interpolate. rewrite Eco. cbn [bind]. rewrite (g_R _ _ Hg). rewrite <- Sc. fold (topo_of d) (topo_of c).
    inversion Bv as [|a j0 v' J' Sa B']; subst. inversion B' as [|b j1 v'' J'' Sb B'']; subst. inversion B''; subst. inversion Zv as [|? ? Za Z']; subst. inversion Z' as [|? ? Zb _]; subst.
    destruct (refine_zero K inv (topo_of d) (topo_of c) H2 HS 0 a Sa Za) as (z0 & E0 & S0 & Z0). destruct (refine_zero K inv (topo_of d) (topo_of c) H2 HS 1 b Sb Zb) as (z1 & E1 & S1 & Z1).
    cbn [combine mapM fst snd]. rewrite E0. cbn [bind]. rewrite E1. cbn [bind]. eexists. split; [reflexivity|]. split; repeat constructor; auto.
Qed.

Variable solve : diffusion K -> list (array K) -> option (list (array K)) -> result (list (array K)).
Lemma df_chain : forall l d, df_good d -> coarsens (diffusion K) (df_coarse K near0 near1 row_leb inv kinv empty) (d :: l) ->
  solver_ok (diffusion K) (list (array K)) (df_residual K) solve df_dom df_Z (Forall2 aeq) (last l d) ->
  chain_ok (diffusion K) (list (array K)) (df_residual K) (df_smooth K near0 near1 inv kinv) solve (df_restrict K row_leb inv kinv) (df_interpolate K row_leb inv) (bsub K) (bscale K r0) df_dom df_Z df_Z (Forall2 aeq) (d :: l).
Proof.
  assert (LD : forall (l : list (diffusion K)) a b, l <> [] -> last l a = last l b) by (induction l as [|e l IH]; intros a b NE; [congruence|]; destruct l; auto; apply IH; discriminate).
  induction l as [|c l IH]; intros d Gd C S.
  - cbn [chain_ok]. split; [apply df_level; auto|exact S].
  - cbn [coarsens] in C. destruct C as [E C]. change (level_ok (diffusion K) (list (array K)) (df_residual K) (df_smooth K near0 near1 inv kinv) (bsub K) (bscale K r0) df_dom df_Z df_Z (Forall2 aeq) d /\
      link_ok (diffusion K) (list (array K)) (df_restrict K row_leb inv kinv) (df_interpolate K row_leb inv) df_Z df_Z d c /\
      chain_ok (diffusion K) (list (array K)) (df_residual K) (df_smooth K near0 near1 inv kinv) solve (df_restrict K row_leb inv kinv) (df_interpolate K row_leb inv) (bsub K) (bscale K r0) df_dom df_Z df_Z (Forall2 aeq) (c :: l)).
    split; [apply df_level; auto|]. split; [apply df_link; auto|]. apply IH; auto; [eapply df_coarse_good; eauto|].
    destruct l; [exact S|]. rewrite (LD (d0 :: l) c d) by discriminate. exact S.
Qed.
End Df.
