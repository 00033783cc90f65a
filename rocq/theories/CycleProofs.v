(** Fixed points of the multigrid cycle, over any kind of equation that meets a contract. *)
Require Import List Arith Lia.
From Verif Require Import Util MgModel MgSpec.
Import ListNotations.

Section Cycle.
Variables E V : Type.
Variables residual smooth : E -> V -> V -> result V.
Variable solve : E -> V -> option V -> result V.
Variables restrict interpolate : E -> V -> result V.
Variable vsub : V -> V -> result V.
Variable vzero : V -> V.
Variables (dom : E -> V -> V -> Prop) (Zx Zy : E -> V -> Prop) (eqv : V -> V -> Prop).
Hypothesis eqv_refl : forall x, eqv x x.
Hypothesis eqv_trans : forall x y z, eqv x y -> eqv y z -> eqv x z.
Notation exact := (exact E V residual dom Zy).
Notation level_ok := (level_ok E V residual smooth vsub vzero dom Zx Zy eqv).
Notation link_ok := (link_ok E V restrict interpolate Zx Zy).
Notation solver_ok := (solver_ok E V residual solve dom Zy eqv).
Notation chain_ok := (chain_ok E V residual smooth solve restrict interpolate vsub vzero dom Zx Zy eqv).
Notation lv_eqv := (lv_eqv E V residual smooth vsub vzero dom Zx Zy eqv).
Notation lv_smooth := (lv_smooth E V residual smooth vsub vzero dom Zx Zy eqv).
Notation lv_sub := (lv_sub E V residual smooth vsub vzero dom Zx Zy eqv).
Notation lv_zero := (lv_zero E V residual smooth vsub vzero dom Zx Zy eqv).
Notation lv_zx := (lv_zx E V residual smooth vsub vzero dom Zx Zy eqv).

Lemma cycle_fixed : forall h, chain_ok h -> forall e h', h = e :: h' ->
  (forall x y, exact e x y -> exists x', cycle E V residual smooth solve restrict interpolate vsub vzero h y (Some x) = Ok x' /\ eqv x' x) /\
  (forall y, Zy e y -> exists x', cycle E V residual smooth solve restrict interpolate vsub vzero h y None = Ok x' /\ Zx e x').
Proof.
  induction h as [|e0 h IH]; intros C e h' [= -> ->].
  assert (S : forall x y, exact e x y -> exists x', cycle E V residual smooth solve restrict interpolate vsub vzero (e :: h') y (Some x) = Ok x' /\ eqv x' x).
  { destruct h' as [|c h'']; cbn [MgSpec.chain_ok] in C; destruct C as [L C]; intros x y X; cbn [cycle].
    - apply C. auto.
    - destruct C as [[R I] C]. destruct (IH C c h'' eq_refl) as [_ Z].
      destruct (lv_smooth e L x y X) as (x1 & E1 & V1). rewrite E1. cbn [bind]. pose proof (lv_eqv e L _ _ _ X V1) as X1. destruct X1 as (D1 & r & Er & Zr). rewrite Er. cbn [bind].
      destruct (R r Zr) as (cr & Ec & Zc). rewrite Ec. cbn [bind]. destruct (Z cr Zc) as (ce & Ee & Ze). cbn [cycle] in Ee. rewrite Ee. cbn [bind].
      destruct (I ce Ze) as (fe & Ef & Zf). rewrite Ef. cbn [bind]. destruct (lv_sub e L x1 y fe (conj D1 (ex_intro _ r (conj Er Zr))) Zf) as (x2 & E2 & V2). rewrite E2. cbn [bind].
      assert (X2 : exact e x2 y) by (eapply (lv_eqv e L); [exact X|]; eapply eqv_trans; eauto).
      destruct (lv_smooth e L x2 y X2) as (x3 & E3 & V3). exists x3. split; auto. eauto. }
  split; auto. intros y Zy0. assert (L : level_ok e) by (destruct h'; apply C). destruct (lv_zero e L y Zy0) as [X Z].
  destruct (S _ _ X) as (x' & Ex & Vx). exists x'. split; auto. apply (lv_zx e L _ _ Z Vx).
Qed.

Lemma v_cycle_fixed : forall h e, chain_ok (rev (h ++ [e])) -> forall x y, exact e x y ->
  exists x', v_cycle E V residual smooth solve restrict interpolate vsub vzero (h ++ [e]) y (Some x) = Ok x' /\ eqv x' x.
Proof. intros h e C x y X. unfold v_cycle. rewrite rev_app_distr in *. apply (cycle_fixed _ C e (rev h) eq_refl); auto. Qed.

Lemma solve_v_cycle_fixed : forall h e, chain_ok (rev (h ++ [e])) -> forall n x y, exact e x y ->
  exists x', solve_v_cycle E V residual smooth solve restrict interpolate vsub vzero (h ++ [e]) y (Some x) n = Ok (Some x') /\ eqv x' x.
Proof.
  intros h e C. assert (L : level_ok e) by (rewrite rev_app_distr in C; cbn [app rev MgSpec.chain_ok] in C; destruct (rev h); apply C).
  induction n as [|n IH]; intros x y X; cbn [solve_v_cycle]; [eauto|].
  destruct (v_cycle_fixed h e C x y X) as (x1 & E1 & V1). rewrite E1. cbn [bind]. destruct (IH x1 y (lv_eqv e L _ _ _ X V1)) as (x2 & E2 & V2). eauto.
Qed.
End Cycle.

(** ---- hierarchy ---- *)
Section Hier.
Variable E : Type.
Variable coarse : E -> result E.
(** [refines l]: every entry but the first is the coarsening of the one before it. *)
Fixpoint coarsens (l : list E) : Prop := match l with a :: ((b :: _) as r) => coarse a = Ok b /\ coarsens r | _ => True end.

Lemma coarsens_snoc : forall l a b, coarsens (l ++ [a]) -> coarse a = Ok b -> coarsens ((l ++ [a]) ++ [b]).
Proof.
  induction l as [|x l IH]; intros a b H C; [cbn; auto|]. cbn [app]. specialize (IH a b). destruct l as [|y l]; cbn [app coarsens] in *; intuition.
Qed.
Lemma grow_spec : forall levels h a, coarsens (h ++ [a]) -> forall g, grow E coarse levels (h ++ [a]) = Ok g ->
  exists t, g = (h ++ [a]) ++ t /\ length t = levels /\ coarsens g.
Proof.
  induction levels as [|n IH]; intros h a C g G; cbn [grow] in G.
  - injection G as <-. exists []. rewrite app_nil_r. auto.
  - rewrite rev_app_distr in G. cbn [rev app] in G. destruct (coarse a) as [c|] eqn:Ec; [|discriminate]. cbn [bind] in G.
    destruct (IH (h ++ [a]) c (coarsens_snoc h a c C Ec) g G) as (t & -> & L & Cg). exists (c :: t). rewrite <- !app_assoc in *. cbn [app length] in *. split; auto.
Qed.
Lemma hierarchy_spec : forall self levels h, hierarchy E coarse self levels = Ok h ->
  exists t, h = rev (self :: t) /\ length t = levels /\ coarsens (self :: t).
Proof.
  intros self levels h H. unfold hierarchy in H. destruct (grow E coarse levels [self]) as [g|] eqn:G; [|discriminate]. cbn [bind] in H. injection H as <-.
  destruct (grow_spec levels [] self I g G) as (t & -> & L & C). exists t. auto.
Qed.
(** When it succeeds. *)
Fixpoint iter_coarse (n : nat) (e : E) : result E := match n with 0 => Ok e | S m => do c <- coarse e; iter_coarse m c end.
Lemma grow_ok : forall levels h a, (exists g, grow E coarse levels (h ++ [a]) = Ok g) <-> (exists c, iter_coarse levels a = Ok c).
Proof.
  induction levels as [|n IH]; intros h a; cbn [grow iter_coarse]; [split; eauto|]. rewrite rev_app_distr. cbn [rev app].
  destruct (coarse a) as [c|]; cbn [bind]; [apply IH|]. split; intros (x & Q); discriminate.
Qed.
Lemma hierarchy_ok : forall self levels, (exists h, hierarchy E coarse self levels = Ok h) <-> (exists c, iter_coarse levels self = Ok c).
Proof.
  intros. rewrite <- (grow_ok levels [] self). unfold hierarchy. cbn [app]. destruct (grow E coarse levels [self]); cbn [bind]; split; intros (x & Q); eauto; discriminate.
Qed.
End Hier.
