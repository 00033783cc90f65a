(** Proofs about the periodic stencil derivative operators. *)
Require Import List Arith ZArith Bool Lia Permutation Sorting.Sorted Ring.
From Verif Require Import Util CombModel CombSpec CombProofs SimpModel SimpSpec ParProofs SimpProofs Arr StModel GenProofs.
Import ListNotations.

(** ---- set_at ---- *)
Lemma set_at_length : forall idx a v, length (set_at a v idx) = length idx.
Proof. induction idx; intros [|a'] v; simpl; auto. Qed.
Lemma set_at_nth : forall idx a v i, a < length idx -> nth i (set_at a v idx) 0 = if i =? a then v else nth i idx 0.
Proof.
  induction idx as [|x idx IH]; intros [|a] v [|i] H; simpl in *; try lia; auto. apply IH. lia.
Qed.
Lemma set_at_comm : forall idx a b v w, a <> b -> set_at a v (set_at b w idx) = set_at b w (set_at a v idx).
Proof.
  induction idx as [|x idx IH]; intros [|a] [|b] v w H; simpl; auto; [lia|]. rewrite IH; auto.
Qed.
Lemma set_at_set_at : forall idx a v w, set_at a v (set_at a w idx) = set_at a v idx.
Proof. induction idx; intros [|a'] v w; simpl; auto. rewrite IHidx; auto. Qed.
Lemma set_at_same : forall idx a, set_at a (nth a idx 0) idx = idx.
Proof. induction idx; intros [|a']; simpl; auto. rewrite IHidx; auto. Qed.
Lemma in_range_len : forall shape idx, in_range shape idx -> length idx = length shape.
Proof. intros shape idx H. exact (Forall2_len _ _ _ _ _ H). Qed.
Lemma in_range_nth : forall shape idx a, in_range shape idx -> a < length shape -> nth a idx 0 < nth a shape 0.
Proof.
  intros shape idx a H L. pose proof (in_range_len _ _ H) as E.
  apply (Forall2_nth _ _ (fun i n => i < n) idx shape 0 0 H a). lia.
Qed.
Lemma set_at_range : forall shape idx a v, in_range shape idx -> v < nth a shape 0 -> in_range shape (set_at a v idx).
Proof.
  unfold in_range. intros shape idx a v H. revert a. induction H as [|i n idx shape L H IH]; intros [|a] Hv; simpl in *; try constructor; auto.
Qed.

Lemma next_range : forall shape a idx, in_range shape idx -> a < length shape -> in_range shape (next_idx shape a idx).
Proof.
  intros shape a idx H L. apply set_at_range; auto. apply Nat.mod_upper_bound. pose proof (in_range_nth _ _ _ H L). lia.
Qed.
Lemma prev_range : forall shape a idx, in_range shape idx -> a < length shape -> in_range shape (prev_idx shape a idx).
Proof.
  intros shape a idx H L. apply set_at_range; auto. apply Nat.mod_upper_bound. pose proof (in_range_nth _ _ _ H L). lia.
Qed.
Lemma prev_next : forall shape a idx, in_range shape idx -> a < length shape -> prev_idx shape a (next_idx shape a idx) = idx.
Proof.
  intros shape a idx H L. pose proof (in_range_nth _ _ _ H L) as B. pose proof (in_range_len _ _ H) as E.
  unfold prev_idx, next_idx. rewrite set_at_set_at, set_at_nth by lia. rewrite Nat.eqb_refl.
  rewrite Nat.add_mod_idemp_l by lia.
  replace (nth a idx 0 + 1 + (nth a shape 0 - 1)) with (nth a idx 0 + 1 * nth a shape 0) by lia.
  rewrite Nat.mod_add, Nat.mod_small by lia. apply set_at_same.
Qed.
Lemma next_prev : forall shape a idx, in_range shape idx -> a < length shape -> next_idx shape a (prev_idx shape a idx) = idx.
Proof.
  intros shape a idx H L. pose proof (in_range_nth _ _ _ H L) as B. pose proof (in_range_len _ _ H) as E.
  unfold prev_idx, next_idx. rewrite set_at_set_at, set_at_nth by lia. rewrite Nat.eqb_refl.
  rewrite Nat.add_mod_idemp_l by lia.
  replace (nth a idx 0 + (nth a shape 0 - 1) + 1) with (nth a idx 0 + 1 * nth a shape 0) by lia.
  rewrite Nat.mod_add, Nat.mod_small by lia. apply set_at_same.
Qed.
Lemma next_comm : forall shape a b idx, a < length idx -> b < length idx -> a <> b ->
  next_idx shape a (next_idx shape b idx) = next_idx shape b (next_idx shape a idx).
Proof.
  intros shape a b idx La Lb D. unfold next_idx. rewrite !set_at_nth by auto.
  rewrite (proj2 (Nat.eqb_neq a b) D), (proj2 (Nat.eqb_neq b a) (Nat.neq_sym _ _ D)). apply set_at_comm. auto.
Qed.
Lemma next_perm : forall shape a, a < length shape -> Permutation (map (next_idx shape a) (indices shape)) (indices shape).
Proof.
  intros shape a L. apply NoDup_Permutation.
  - apply NoDup_map_inj; [|apply indices_nodup]. intros x y Hx Hy E. apply indices_in in Hx, Hy.
    rewrite <- (prev_next shape a x), <- (prev_next shape a y), E; auto.
  - apply indices_nodup.
  - intros x. rewrite in_map_iff, indices_in. split.
    + intros (y & <- & Hy). apply indices_in in Hy. apply next_range; auto.
    + intros Hx. exists (prev_idx shape a x). split; [apply next_prev; auto|]. apply indices_in, prev_range; auto.
Qed.

(** ---- signs ---- *)
Lemma filter_remove : forall (P : nat -> bool) e u, filter P (remove Nat.eq_dec e u) = remove Nat.eq_dec e (filter P u).
Proof.
  induction u as [|x u IH]; simpl; auto. destruct (Nat.eq_dec e x) as [->|D].
  - rewrite IH. destruct (P x); auto. simpl. destruct (Nat.eq_dec x x); [auto|congruence].
  - simpl. rewrite IH. destruct (P x); auto. simpl. destruct (Nat.eq_dec e x); [congruence|auto].
Qed.

Lemma above_swap : forall u d e, NoDup u -> In d u -> In e u -> d < e ->
  above_parity d u = (above_parity d (remove Nat.eq_dec e u) + 1) mod 2 /\ above_parity e (remove Nat.eq_dec d u) = above_parity e u.
Proof.
  intros u d e ND Hd He L. unfold above_parity. rewrite !filter_remove. split.
  - assert (I : In e (filter (fun x => d <? x) u)) by (apply filter_In; split; auto; apply Nat.ltb_lt; auto).
    pose proof (remove_len e _ (NoDup_filter _ ND) I) as R. rewrite <- R. rewrite Nat.add_mod_idemp_l by lia. f_equal. lia.
  - rewrite notin_remove; auto. intros I. apply filter_In in I as [_ I]. apply Nat.ltb_lt in I. lia.
Qed.

Lemma remove_comm : forall a b u, remove Nat.eq_dec a (remove Nat.eq_dec b u) = remove Nat.eq_dec b (remove Nat.eq_dec a u).
Proof.
  induction u as [|x u IH]; simpl; auto.
  destruct (Nat.eq_dec b x) as [->|Db], (Nat.eq_dec a x) as [->|Da]; simpl; auto.
  - destruct (Nat.eq_dec x x); [auto|congruence].
  - destruct (Nat.eq_dec x x); [auto|congruence].
  - destruct (Nat.eq_dec a x), (Nat.eq_dec b x); try congruence.
Qed.

(** ---- the list of terms ---- *)
Lemma zip3_map : forall A B C D (f : A -> B) (g : A -> C) (h : A -> D) l, zip3 (map f l) (map g l) (map h l) = map (fun x => (f x, g x, h x)) l.
Proof. unfold zip3. induction l; simpl; auto. rewrite IHl. auto. Qed.

Lemma combine_map_r : forall A B C (f : B -> C) (a : list A) b, combine a (map f b) = map (fun p => (fst p, f (snd p))) (combine a b).
Proof. induction a; intros [|y b]; simpl; auto. rewrite IHa. auto. Qed.

Lemma term_list_spec : forall ndim k below l, level_spec ndim k below l ->
  term_list l = flat_map (fun cu => map (fun d => (fst cu, index_of list_eqb (remove Nat.eq_dec d (snd cu)) below, d, above_parity d (snd cu))) (snd cu))
                         (combine (seq 0 (length (lv_symbols l))) (lv_symbols l)).
Proof.
  intros ndim k below l (_ & EA & ET & EP). unfold term_list. rewrite ET, EA, EP, map_length.
  rewrite <- (map_id (lv_symbols l)) at 3. rewrite zip3_map, combine_map_r, flat_map_concat_map, map_map, <- flat_map_concat_map.
  apply flat_map_ext. intros [c u]. cbn [fst snd]. rewrite <- (map_id u) at 2. rewrite zip3_map, map_map. auto.
Qed.

Lemma in_combine_seq : forall A (l : list A) c x d, In (c, x) (combine (seq 0 (length l)) l) <-> c < length l /\ x = nth c l d.
Proof.
  intros A l c x d. split.
  - intros H. apply (In_nth _ _ (0, d)) in H as (i & Hi & E). rewrite combine_length, seq_length, Nat.min_id in Hi.
    rewrite combine_nth in E by (rewrite seq_length; auto). rewrite seq_nth in E by auto. injection E as <- <-. split; [simpl; auto|]. auto.
  - intros [Hc ->]. assert (E : (c, nth c l d) = nth c (combine (seq 0 (length l)) l) (0, d)).
    { rewrite combine_nth by (rewrite seq_length; auto). rewrite seq_nth by auto. auto. }
    rewrite E. apply nth_In. rewrite combine_length, seq_length. lia.
Qed.

Section Ring.
Variable K : cring.
Add Ring Kr2 : (rth K).
Local Open Scope ring_scope'.

(** ---- the loop ---- *)
Definition tsum (steps : list (nat * (list nat -> K))) (k : nat) (idx : list nat) : K :=
  rsum (map (fun cx => snd cx idx) (filter (fun cx => fst cx =? k) steps)).

Lemma fold_loop : forall steps d ini k idx,
  fst (fold_left (loop_step K) steps (d, ini)) k idx =
    if ini k then d k idx + tsum steps k idx
    else if existsb (fun cx => fst cx =? k) steps then tsum steps k idx else d k idx.
Proof.
  induction steps as [|[c x] steps IH]; intros d ini k idx.
  - unfold tsum. simpl. destruct (ini k); [ring|auto].
  - cbn [fold_left]. unfold loop_step at 2. rewrite IH. unfold tsum. cbn [filter existsb fst]. rewrite (Nat.eqb_sym c k).
    destruct (k =? c) eqn:E.
    + apply Nat.eqb_eq in E. subst c. cbn [map rsum fold_right snd orb].
      fold (rsum (map (fun cx : nat * (list nat -> K) => snd cx idx) (filter (fun cx => fst cx =? k) steps))).
      destruct (ini k); ring.
    + cbn [orb]. auto.
Qed.

Lemma run_loop_spec : forall empty steps k idx, (exists x, In (k, x) steps) -> run_loop K empty steps k idx = tsum steps k idx.
Proof.
  intros empty steps k idx (x & I). unfold run_loop. rewrite fold_loop.
  replace (existsb (fun cx => fst cx =? k) steps) with true; auto.
  symmetry. apply existsb_exists. exists (k, x). split; auto. apply Nat.eqb_refl.
Qed.

Lemma tsum_map : forall Q (T : list Q) (tg : Q -> nat) (F : Q -> list nat -> K) k idx,
  tsum (map (fun q => (tg q, F q)) T) k idx = rsum (map (fun q => F q idx) (filter (fun q => tg q =? k) T)).
Proof.
  intros. unfold tsum. induction T as [|q T IH]; auto. cbn [map filter fst]. destruct (tg q =? k); cbn [map rsum fold_right snd]; auto.
  f_equal. exact IH.
Qed.

(** ---- one derivative ---- *)
Definition sg (p : nat) : K := if p =? 0 then r1 else - r1.

Lemma convolve_weights : forall shape a p f idx, convolve1d K shape a (weights K p) f idx = sg p * (f (next_idx shape a idx) - f idx).
Proof. intros. unfold convolve1d, weights, sg. destruct (p =? 0); cbn [fst snd]; ring. Qed.

Lemma sg_opp : forall m, sg ((m + 1) mod 2) = - sg (m mod 2).
Proof.
  intros m. unfold sg. pose proof (Nat.mod_upper_bound m 2 ltac:(lia)).
  rewrite <- Nat.add_mod_idemp_l by lia. destruct (m mod 2) as [|[|q]]; [| |lia]; cbn; ring.
Qed.

Lemma sg_mod : forall d u, sg (above_parity d u mod 2) = sg (above_parity d u).
Proof. intros. unfold above_parity. rewrite Nat.mod_mod by lia. auto. Qed.

Lemma sign_flip : forall u d e, NoDup u -> In d u -> In e u -> d <> e ->
  sg (above_parity d u) * sg (above_parity e (remove Nat.eq_dec d u)) =
  - (sg (above_parity e u) * sg (above_parity d (remove Nat.eq_dec e u))).
Proof.
  assert (H : forall u d e, NoDup u -> In d u -> In e u -> d < e ->
    sg (above_parity d u) * sg (above_parity e (remove Nat.eq_dec d u)) =
    - (sg (above_parity e u) * sg (above_parity d (remove Nat.eq_dec e u)))).
  { intros u d e ND Hd He L. destruct (above_swap u d e ND Hd He L) as [E1 E2]. rewrite E1, E2, sg_opp, sg_mod. ring. }
  intros u d e ND Hd He D. destruct (Nat.lt_ge_cases d e) as [L|L]; [apply H; auto|].
  rewrite (H u e d) by (auto; lia). ring.
Qed.

Section Topology.
Variable row_leb : list nat -> list nat -> bool.
Variable t : stopo.
Hypothesis Ht : stencil_topology row_leb (st_shape t) (st_periodic t) = Ok t.

Let ndim := length (st_shape t).
Lemma st_gen : generate row_leb ndim = Ok (st_levels t).
Proof.
  unfold stencil_topology in Ht. fold ndim in Ht. destruct (generate row_leb ndim) as [g|]; [|discriminate].
  cbn [bind] in Ht. injection Ht as E. rewrite <- E. auto.
Qed.
Lemma st_len : length (st_levels t) = ndim.
Proof. destruct (generate_ok row_leb ndim) as (g & E & L & _). rewrite st_gen in E. injection E as <-. auto. Qed.
Lemma st_level : forall n, n < ndim -> level_spec ndim n (nth n (st_symbols t) []) (nth n (st_levels t) (mkLevel [] [] [] [])).
Proof. intros n Hn. destruct (generate_ok row_leb ndim) as (g & E & L & X). rewrite st_gen in E. injection E as <-. apply X; auto. Qed.
Lemma st_syms : forall n, n <= ndim -> syms_ok ndim n (nth n (st_symbols t) []).
Proof. intros n Hn. apply (generate_symbols row_leb); auto. apply st_gen. Qed.
Lemma st_syms_S : forall n, n < ndim -> nth (S n) (st_symbols t) [] = lv_symbols (nth n (st_levels t) (mkLevel [] [] [] [])).
Proof.
  intros n Hn. unfold st_symbols, gen_symbols. cbn [nth]. rewrite (nth_map_lt _ _ _ _ _ (mkLevel [] [] [] [])); auto. rewrite st_len; auto.
Qed.

(** Component of a form of degree [n] with symbol [s]. *)
Definition cmp (n : nat) (f : array K) (s : list nat) : list nat -> K := component K f (index_of list_eqb s (nth n (st_symbols t) [])).

Lemma component_nth : forall n f c, n <= ndim -> c < length (nth n (st_symbols t) []) ->
  component K f c = cmp n f (nth c (nth n (st_symbols t) []) []).
Proof. intros n f c Hn Hc. unfold cmp. rewrite index_of_nth; auto. apply list_eqb_ok. apply st_syms. auto. Qed.

Lemma filter_terms : forall n c, n < ndim -> c < length (nth (S n) (st_symbols t) []) ->
  let u := nth c (nth (S n) (st_symbols t) []) [] in
  filter (fun q => match q with (c', _, _, _) => c' =? c end) (term_list (nth n (st_levels t) (mkLevel [] [] [] []))) =
  map (fun d => (c, index_of list_eqb (remove Nat.eq_dec d u) (nth n (st_symbols t) []), d, above_parity d u)) u.
Proof.
  intros n c Hn Hc. cbv zeta. rewrite (term_list_spec ndim n (nth n (st_symbols t) [])) by (apply st_level; auto).
  rewrite <- st_syms_S by auto. set (S1 := nth (S n) (st_symbols t) []) in *. rewrite filter_flat_map.
  set (h := fun cu : nat * list nat => map (fun d => (fst cu, index_of list_eqb (remove Nat.eq_dec d (snd cu)) (nth n (st_symbols t) []), d, above_parity d (snd cu))) (snd cu)).
  rewrite (flat_map_ext_in _ _ _ (fun cu => if fst cu =? c then h cu else [])).
  - assert (G : forall l, NoDup (map fst l) -> In (c, nth c S1 []) l -> flat_map (fun cu => if fst cu =? c then h cu else []) l = h (c, nth c S1 [])).
    { induction l as [|[c' u'] l IH]; intros ND I; [destruct I|]. cbn [flat_map fst]. inversion ND; subst. destruct I as [E|I].
      - injection E as -> ->. rewrite Nat.eqb_refl. transitivity (h (c, nth c S1 []) ++ []); [|apply app_nil_r]. f_equal.
        assert (X : forall l', ~ In c (map fst l') -> flat_map (fun cu => if fst cu =? c then h cu else []) l' = []).
        { induction l' as [|[c2 u2] l' IH']; auto. intros N. cbn [flat_map fst]. destruct (c2 =? c) eqn:E2.
          - apply Nat.eqb_eq in E2. subst. exfalso. apply N. left; auto.
          - apply IH'. intros I. apply N. right; auto. }
        apply X. auto.
      - destruct (c' =? c) eqn:E2.
        + apply Nat.eqb_eq in E2. subst. exfalso. apply H1. change c with (fst (c, nth c S1 [])). apply in_map. auto.
        + apply IH; auto. }
    rewrite G; auto.
    + assert (M : forall (a : list nat) (b : list (list nat)), length a = length b -> map fst (combine a b) = a).
      { induction a as [|x a IHa]; intros [|y b] L; simpl in *; try discriminate; auto. rewrite IHa; auto. }
      rewrite M by apply seq_length. apply seq_NoDup.
    + apply in_combine_seq with (d := []). auto.
  - intros [c' u'] I. cbn [fst snd h]. unfold h. cbn [fst snd]. destruct (c' =? c) eqn:E.
    + apply filter_id. intros q Hq. apply in_map_iff in Hq as (d & <- & _). auto.
    + apply filter_false. intros q Hq. apply in_map_iff in Hq as (d & <- & _). auto.
Qed.

Lemma primal_value : forall empty n f c idx, n < ndim -> c < length (nth (S n) (st_symbols t) []) ->
  let u := nth c (nth (S n) (st_symbols t) []) [] in
  aget (primal_inner K empty t n f) (c :: idx) =
  rsum (map (fun d => sg (above_parity d u) * (cmp n f (remove Nat.eq_dec d u) (next_idx (st_shape t) d idx) - cmp n f (remove Nat.eq_dec d u) idx)) u).
Proof.
  intros empty n f c idx Hn Hc u. unfold primal_inner, of_components. cbn [aget].
  set (T := term_list (nth n (st_levels t) (mkLevel [] [] [] []))).
  pose proof (filter_terms n c Hn Hc) as F. cbv zeta in F. fold T in F. fold u in F.
  rewrite (map_ext _ (fun q : nat * nat * nat * nat => ((fun q => match q with (c', _, _, _) => c' end) q, (fun q => match q with (_, tm, a, p) => convolve1d K (st_shape t) a (weights K p) (component K f tm) end) q))) by (intros [[[c' tm] a] p]; auto).
  rewrite run_loop_spec.
  - rewrite tsum_map.
    rewrite (filter_ext _ (fun q => match q with (c', _, _, _) => c' =? c end)) by (intros [[[c' tm] a] p]; auto).
    rewrite F, map_map. apply rsum_ext. intros d Hd. rewrite convolve_weights. auto.
  - destruct u as [|d u'] eqn:Eu.
    { pose proof (st_syms (S n) ltac:(lia)) as [_ SY]. assert (I : In u (nth (S n) (st_symbols t) [])) by (apply nth_In; auto).
      rewrite Eu in I. apply SY in I as (_ & L & _). discriminate. }
    assert (I : In (c, index_of list_eqb (remove Nat.eq_dec d (d :: u')) (nth n (st_symbols t) []), d, above_parity d (d :: u')) T).
    { assert (I' : In (c, index_of list_eqb (remove Nat.eq_dec d (d :: u')) (nth n (st_symbols t) []), d, above_parity d (d :: u'))
         (filter (fun q => match q with (c', _, _, _) => c' =? c end) T)) by (rewrite F; apply in_map_iff; exists d; split; [auto|left; auto]).
      apply filter_In in I' as [I' _]. auto. }
    eexists. apply in_map_iff. eexists. split; [|exact I]. cbv beta iota. reflexivity.
Qed.

Lemma sym_axes : forall n c d, n <= ndim -> c < length (nth n (st_symbols t) []) -> In d (nth c (nth n (st_symbols t) []) []) -> d < ndim.
Proof.
  intros n c d Hn Hc Hd. pose proof (st_syms n Hn) as [_ SY].
  assert (I : In (nth c (nth n (st_symbols t) []) []) (nth n (st_symbols t) [])) by (apply nth_In; auto).
  apply SY in I as (_ & _ & F). rewrite Forall_forall in F. auto.
Qed.

(** Value of the derivative at a symbol. *)
Lemma primal_cmp : forall empty n f u idx, n < ndim -> is_symbol ndim (S n) u ->
  cmp (S n) (primal_inner K empty t n f) u idx =
  rsum (map (fun d => sg (above_parity d u) * (cmp n f (remove Nat.eq_dec d u) (next_idx (st_shape t) d idx) - cmp n f (remove Nat.eq_dec d u) idx)) u).
Proof.
  intros empty n f u idx Hn U. pose proof (st_syms (S n) ltac:(lia)) as [_ SY]. apply SY in U.
  unfold cmp at 1, component. pose proof (index_of_lt _ list_eqb u _ list_eqb_ok U) as L.
  rewrite primal_value by auto. rewrite (nth_index_of _ list_eqb) by (auto; apply list_eqb_ok). auto.
Qed.

Lemma dd_zero : forall empty1 empty2 n f idx, S n < ndim -> in_range (st_n_elements t (S (S n))) idx ->
  aget (primal_inner K empty2 t (S n) (primal_inner K empty1 t n f)) idx = r0.
Proof.
  intros empty1 empty2 n f idx Hn R. unfold st_n_elements in R. inversion R as [|c m idx' sh Lc R' E1 E2]; subst.
  rewrite primal_value by auto. set (u := nth c (nth (S (S n)) (st_symbols t) []) []).
  assert (U : is_symbol ndim (S (S n)) u).
  { pose proof (st_syms (S (S n)) ltac:(lia)) as [_ SY]. apply SY. apply nth_In. auto. }
  pose proof U as (US & UL & UF). pose proof (ssort_nodup u US) as ND.
  set (sh := st_shape t) in *. pose proof (in_range_len _ _ R') as Li. fold ndim in Li.
  set (F := fun d e j => cmp n f (remove Nat.eq_dec e (remove Nat.eq_dec d u)) (next_idx sh e j) - cmp n f (remove Nat.eq_dec e (remove Nat.eq_dec d u)) j).
  rewrite (rsum_ext _ _ _ (fun d => rsum (map (fun e =>
     sg (above_parity d u) * sg (above_parity e (remove Nat.eq_dec d u)) * (F d e (next_idx sh d idx') - F d e idx')) (remove Nat.eq_dec d u)))).
  2:{ intros d Hd. rewrite !primal_cmp by (auto; try lia; eapply remove_symbol; eauto).
      rewrite <- rsum_sub, <- rsum_mul. apply rsum_ext. intros e He. unfold F, sh. ring. }
  apply (rsum_pairs K nat Nat.eq_dec (fun d e => sg (above_parity d u) * sg (above_parity e (remove Nat.eq_dec d u)) * (F d e (next_idx sh d idx') - F d e idx')) u ND).
  intros d e Hd He D. rewrite (sign_flip u d e ND Hd He D). unfold F. rewrite (remove_comm d e u).
  rewrite Forall_forall in UF. rewrite (next_comm sh e d) by (auto; unfold sh in *; rewrite Li; apply UF; auto). ring.
Qed.

(** ---- adjointness ---- *)
Lemma conv_corr : forall shape a w f g, a < length shape ->
  rsum (map (fun i => convolve1d K shape a w f i * g i) (indices shape)) = rsum (map (fun i => f i * correlate1d K shape a w g i) (indices shape)).
Proof.
  intros shape a w f g La. unfold convolve1d, correlate1d.
  rewrite (rsum_ext _ _ _ (fun i => snd w * (f i * g i) + fst w * (f (next_idx shape a i) * g i))) by (intros; ring).
  rewrite (rsum_ext K _ (fun i => f i * (fst w * g (prev_idx shape a i) + snd w * g i)) (fun i => snd w * (f i * g i) + fst w * (f i * g (prev_idx shape a i)))) by (intros; ring).
  rewrite !rsum_add, !rsum_mul. f_equal. f_equal.
  rewrite <- (rsum_perm K _ _ (Permutation_map (fun i => f i * g (prev_idx shape a i)) (next_perm shape a La))).
  rewrite map_map. apply rsum_ext. intros i Hi. rewrite prev_next; auto. apply indices_in; auto.
Qed.

Lemma rsum_by_target : forall Q (T : list Q) (tg : Q -> nat) (X : Q -> nat -> K) C, (forall q, In q T -> tg q < C) ->
  rsum (map (fun c => rsum (map (fun q => X q c) (filter (fun q => tg q =? c) T))) (seq 0 C)) = rsum (map (fun q => X q (tg q)) T).
Proof.
  induction T as [|q T IH]; intros tg X C H; cbn [filter map].
  - apply rsum_0. auto.
  - rewrite (rsum_ext _ _ _ (fun c => (if tg q =? c then X q c else r0) + rsum (map (fun q => X q c) (filter (fun q => tg q =? c) T)))).
    + rewrite rsum_add, IH by (intros; apply H; right; auto). cbn [rsum fold_right]. f_equal.
      rewrite (rsum_single K _ _ _ (tg q)); [rewrite Nat.eqb_refl; auto|apply seq_NoDup|apply in_seq; split; [lia|apply H; left; auto]|].
      intros x _ D. destruct (tg q =? x) eqn:E; auto. apply Nat.eqb_eq in E. congruence.
    + intros c _. destruct (tg q =? c); [reflexivity|]. ring.
Qed.

Lemma inner_components : forall C (sh : list nat) (a b : array K), ashape a = C :: sh ->
  inner a b = rsum (map (fun c => rsum (map (fun i => aget a (c :: i) * aget b (c :: i)) (indices sh))) (seq 0 C)).
Proof.
  intros C sh a b E. unfold inner. rewrite E. cbn [indices]. rewrite rsum_flat_map. apply rsum_ext. intros c _. rewrite map_map. auto.
Qed.

Lemma term_bounds : forall n c tm a p, n < ndim -> In (c, tm, a, p) (term_list (nth n (st_levels t) (mkLevel [] [] [] []))) ->
  c < length (nth (S n) (st_symbols t) []) /\ tm < length (nth n (st_symbols t) []) /\ a < ndim.
Proof.
  intros n c tm a p Hn I. rewrite (term_list_spec ndim n (nth n (st_symbols t) [])) in I by (apply st_level; auto).
  apply in_flat_map in I as ([c' u] & Hc & I). apply (in_combine_seq _ _ _ _ []) in Hc as [Hc Eu]. cbn [fst snd] in I.
  apply in_map_iff in I as (d & E & Hd). injection E as -> <- -> <-. rewrite st_syms_S by auto. split; auto.
  assert (U : is_symbol ndim (S n) u).
  { destruct (st_level n Hn) as ((_ & SY) & _). apply SY. rewrite Eu. apply nth_In. auto. }
  split.
  - apply index_of_lt; [apply list_eqb_ok|]. pose proof (st_syms n ltac:(lia)) as [_ SY]. apply SY. eapply remove_symbol; eauto.
  - destruct U as (_ & _ & F). rewrite Forall_forall in F. auto.
Qed.

Lemma dual_hit : forall n tm, n < ndim -> tm < length (nth n (st_symbols t) []) -> exists c a p,
  In (c, tm, a, p) (term_list (nth n (st_levels t) (mkLevel [] [] [] []))).
Proof.
  intros n tm Hn Htm. pose proof (st_syms n ltac:(lia)) as [ND SY]. set (s := nth tm (nth n (st_symbols t) []) []).
  assert (Is : In s (nth n (st_symbols t) [])) by (apply nth_In; auto).
  pose proof (proj1 (SY s) Is) as (SS & SL & SF).
  (* an axis outside s *)
  destruct (existsb (fun d => negb (existsb (Nat.eqb d) s)) (seq 0 ndim)) eqn:E.
  - apply existsb_exists in E as (d & Hd & Nd). apply negb_true_iff in Nd. apply in_seq in Hd.
    assert (NI : ~ In d s) by (intros I; apply existsb_eqb in I; congruence).
    assert (P : Permutation (d :: s) (sort_row (d :: s))) by apply sort_row_perm.
    assert (NDu : NoDup (d :: s)) by (constructor; auto; apply ssort_nodup; auto).
    set (u := sort_row (d :: s)) in *.
    assert (U : is_symbol ndim (S n) u).
    { split; [apply sort_row_sorted; auto|]. split; [rewrite <- (Permutation_length P); simpl; lia|].
      apply Forall_forall. intros x Hx. apply Permutation_sym in P. eapply Permutation_in in Hx; [|exact P].
      destruct Hx as [<-|Hx]; [lia|]. rewrite Forall_forall in SF. auto. }
    assert (Iu : In d u) by (eapply Permutation_in; [exact P|left; auto]).
    assert (R : remove Nat.eq_dec d u = s).
    { apply (sorted_perm_eq nat lt); auto; [intros; lia|apply remove_sorted; apply U|]. apply Permutation_cons_inv with (a := d).
      eapply perm_trans; [apply Permutation_sym, remove_perm; auto; apply ssort_nodup; apply U|]. apply Permutation_sym; auto. }
    exists (index_of list_eqb u (nth (S n) (st_symbols t) [])), d, (above_parity d u).
    rewrite (term_list_spec ndim n (nth n (st_symbols t) [])) by (apply st_level; auto).
    pose proof (st_syms (S n) ltac:(lia)) as [_ SY1]. apply SY1 in U.
    pose proof (index_of_lt _ list_eqb u _ list_eqb_ok U) as Lu. rewrite st_syms_S in * by auto.
    apply in_flat_map. exists (index_of list_eqb u (lv_symbols (nth n (st_levels t) (mkLevel [] [] [] []))), u). split.
    + apply in_combine_seq with (d := []). split; auto. symmetry. apply nth_index_of; auto. apply list_eqb_ok.
    + cbn [fst snd]. apply in_map_iff. exists d. split; auto. rewrite R. unfold s. rewrite index_of_nth; auto. apply list_eqb_ok.
  - exfalso. assert (X : incl (seq 0 ndim) s).
    { intros d Hd. destruct (existsb (Nat.eqb d) s) eqn:E2; [apply existsb_eqb; auto|]. exfalso.
      assert (existsb (fun d => negb (existsb (Nat.eqb d) s)) (seq 0 ndim) = true) by (apply existsb_exists; exists d; rewrite E2; auto). congruence. }
    apply NoDup_incl_length in X; [|apply seq_NoDup]. rewrite seq_length in X. lia.
Qed.

Lemma primal_as_sum : forall empty n f c idx, n < ndim -> c < length (nth (S n) (st_symbols t) []) ->
  aget (primal_inner K empty t n f) (c :: idx) =
  rsum (map (fun q => match q with (_, tm, a, p) => convolve1d K (st_shape t) a (weights K p) (component K f tm) idx end)
    (filter (fun q => match q with (c', _, _, _) => c' end =? c) (term_list (nth n (st_levels t) (mkLevel [] [] [] []))))).
Proof.
  intros empty n f c idx Hn Hc. rewrite primal_value by auto.
  rewrite (filter_ext (fun q : nat * nat * nat * nat => match q with (c', _, _, _) => c' end =? c) (fun q => match q with (c', _, _, _) => c' =? c end)) by (intros [[[c' tm] a] p]; auto).
  rewrite (filter_terms n c Hn Hc). rewrite map_map. apply rsum_ext. intros d Hd. rewrite convolve_weights. auto.
Qed.

Lemma dual_as_sum : forall empty n g tm idx, n < ndim -> tm < length (nth n (st_symbols t) []) ->
  aget (dual_inner K empty t n g) (tm :: idx) =
  rsum (map (fun q => match q with (c, _, a, p) => correlate1d K (st_shape t) a (weights K p) (component K g c) idx end)
    (filter (fun q => match q with (_, tm', _, _) => tm' end =? tm) (term_list (nth n (st_levels t) (mkLevel [] [] [] []))))).
Proof.
  intros empty n g tm idx Hn Htm. unfold dual_inner, of_components. cbn [aget].
  set (T := term_list (nth n (st_levels t) (mkLevel [] [] [] []))).
  rewrite (map_ext _ (fun q : nat * nat * nat * nat => ((fun q => match q with (_, tm, _, _) => tm end) q, (fun q => match q with (c, _, a, p) => correlate1d K (st_shape t) a (weights K p) (component K g c) end) q))) by (intros [[[c' tm'] a] p]; auto).
  rewrite run_loop_spec.
  - rewrite tsum_map. apply rsum_ext. intros [[[c tm'] a] p] _. auto.
  - destruct (dual_hit n tm Hn Htm) as (c & a & p & I). eexists. apply in_map_iff. exists (c, tm, a, p). split; [reflexivity|exact I].
Qed.

Lemma adjoint : forall empty empty' n f g, n < ndim -> ashape f = st_n_elements t n -> ashape g = st_n_elements t (S n) ->
  inner (primal_inner K empty t n f) g = inner f (dual_inner K empty' t n g).
Proof.
  intros empty empty' n f g Hn Sf Sg.
  set (T := term_list (nth n (st_levels t) (mkLevel [] [] [] []))).
  set (tc := fun q : nat * nat * nat * nat => match q with (c', _, _, _) => c' end).
  set (tt' := fun q : nat * nat * nat * nat => match q with (_, t', _, _) => t' end).
  rewrite (inner_components (length (nth (S n) (st_symbols t) [])) (st_shape t)) by auto.
  rewrite (inner_components (length (nth n (st_symbols t) [])) (st_shape t)) by auto.
  set (X := fun (q : nat * nat * nat * nat) c => match q with (_, tm, a, p) =>
     rsum (map (fun i => convolve1d K (st_shape t) a (weights K p) (component K f tm) i * component K g c i) (indices (st_shape t))) end).
  set (Y := fun (q : nat * nat * nat * nat) tm => match q with (c, _, a, p) =>
     rsum (map (fun i => component K f tm i * correlate1d K (st_shape t) a (weights K p) (component K g c) i) (indices (st_shape t))) end).
  transitivity (rsum (map (fun q => X q (tc q)) T)).
  - rewrite <- (rsum_by_target _ T tc X (length (nth (S n) (st_symbols t) []))).
    2:{ intros [[[c tm] a] p] I. apply term_bounds in I; auto. apply I. }
    apply rsum_ext. intros c Hc. apply in_seq in Hc.
    rewrite (rsum_ext K _ (fun i => aget (primal_inner K empty t n f) (c :: i) * aget g (c :: i))
      (fun i => rsum (map (fun q => match q with (_, tm, a, p) => convolve1d K (st_shape t) a (weights K p) (component K f tm) i end * component K g c i) (filter (fun q => tc q =? c) T)))).
    + rewrite rsum_swap. apply rsum_ext. intros [[[c' tm] a] p] _. auto.
    + intros i Hi. rewrite primal_as_sum by (auto; lia). rewrite rsum_mul_r. auto.
  - transitivity (rsum (map (fun q => Y q (tt' q)) T)).
    + apply rsum_ext. intros [[[c tm] a] p] I. cbn [tc tt']. unfold X, Y. apply conv_corr. apply term_bounds in I; auto. apply I.
    + rewrite <- (rsum_by_target _ T tt' Y (length (nth n (st_symbols t) []))).
      2:{ intros [[[c tm] a] p] I. apply term_bounds in I; auto. apply I. }
      apply rsum_ext. intros tm Htm. apply in_seq in Htm.
      rewrite (rsum_ext K _ (fun i => aget f (tm :: i) * aget (dual_inner K empty' t n g) (tm :: i))
       (fun i => rsum (map (fun q => component K f tm i * match q with (c, _, a, p) => correlate1d K (st_shape t) a (weights K p) (component K g c) i end) (filter (fun q => tt' q =? tm) T)))).
      * rewrite rsum_swap. apply rsum_ext. intros [[[c' tm'] a] p] _. auto.
      * intros i Hi. rewrite dual_as_sum by (auto; lia). rewrite rsum_mul. auto.
Qed.

End Topology.
End Ring.
