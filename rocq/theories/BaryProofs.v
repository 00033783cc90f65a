(** Orientation of the barycentric subdivision. *)
Require Import List Arith ZArith Bool Lia Permutation Factorial Sorting.Sorted.
From Verif Require Import Util CombModel CombSpec CombProofs SimpModel SimpSpec ParProofs SimpProofs LevelProofs TopProofs
  BdryModel BdrySpec OrientProofs SubProofs SubdModel SubdSpec FundProofs.
Import ListNotations.
Local Open Scope nat_scope.

(** ---- signs ---- *)
Lemma sgn_front : forall c s, c < length s -> NoDup s -> sgn s = (sgn_pow c * sgn (nth c s 0%nat :: omit c s))%Z.
Proof.
  induction c as [|c IH]; intros [|y s] Hc ND; simpl in Hc; try lia.
  - rewrite omit_0. cbn [nth]. change (sgn_pow 0) with 1%Z. lia.
  - inversion ND as [|? ? Hy ND']; subst. rewrite omit_S. cbn [nth]. rewrite sgn_cons. rewrite (IH s ltac:(lia) ND'). set (x := nth c s 0) in *.
    assert (Hx : x <> y). { intros <-. apply Hy. apply nth_In. lia. }
    rewrite sgn_swap by auto. rewrite (sgn_cons y (x :: omit c s)). rewrite (count_lt_perm y s (x :: omit c s)) by (apply omit_perm_cons; lia). rewrite sgn_pow_S. lia.
Qed.

Lemma sgn_back : forall c s o, c < length s -> NoDup s -> Permutation o (omit c s) ->
  (sgn (o ++ [nth c s 0%nat]) * sgn s = sgn_pow (length s - 1) * sgn_pow c * (sgn o * sgn (omit c s)))%Z.
Proof.
  intros c s o Hc ND P. set (x := nth c s 0). pose proof (omit_perm_cons c s Hc) as Q. fold x in Q.
  assert (Hx : ~ In x o). { intros H. apply (Permutation_NoDup Q) in ND. inversion ND; subst. apply H2. eapply Permutation_in; eauto. }
  assert (D : forall y, In y [x] -> ~ In y o) by (intros y [<-|[]]; auto).
  pose proof (sgn_app_comm [x] o D) as E. rewrite E. rewrite (sgn_front c s Hc ND). fold x. cbn [app]. rewrite !sgn_cons.
  rewrite (count_lt_perm x o (omit c s) P). rewrite <- (omit_length c s Hc). rewrite <- (Permutation_length P). replace (length [x] * length o) with (length o) by (simpl; lia).
  pose proof (sgn_pow_sq (count_lt x (omit c s))) as Q2. generalize (sgn_pow (count_lt x (omit c s))) Q2. intros z Hz.
  transitivity (z * z * (sgn_pow (length o) * sgn_pow c * (sgn o * sgn (omit c s))))%Z; [ring|rewrite Hz; ring].
Qed.

Lemma cross_perm_r : forall a b b', Permutation b b' -> cross a b = cross a b'.
Proof. induction a as [|x a IH]; intros b b' P; simpl; auto. rewrite (count_lt_perm x b b' P), (IH b b' P). auto. Qed.

Lemma sgn_swap_mid : forall a x y b, x <> y -> sgn (a ++ y :: x :: b) = (- sgn (a ++ x :: y :: b))%Z.
Proof.
  intros a x y b H. unfold sgn. rewrite !inv_app. rewrite (cross_perm_r a (y :: x :: b) (x :: y :: b)) by constructor. rewrite !sgn_pow_add.
  change (sgn_pow (inv (y :: x :: b))) with (sgn (y :: x :: b)). change (sgn_pow (inv (x :: y :: b))) with (sgn (x :: y :: b)). rewrite sgn_swap by auto. lia.
Qed.

Lemma swap_last_spec : forall q b a, swap_last (q ++ [b; a]) = q ++ [a; b].
Proof. intros. unfold swap_last. rewrite rev_app_distr. cbn [rev app]. rewrite rev_involutive, <- app_assoc. reflexivity. Qed.

Lemma split_last2 : forall (l : list nat), 2 <= length l -> exists q b a, l = q ++ [b; a].
Proof.
  intros l H. destruct (rev l) as [|a [|b q]] eqn:E; try (apply (f_equal (@length nat)) in E; rewrite rev_length in E; simpl in E; lia).
  exists (rev q), b, a. rewrite <- (rev_involutive l), E. cbn [rev]. rewrite <- app_assoc. auto.
Qed.

Lemma swap_last_perm : forall l, Permutation l (swap_last l).
Proof.
  intros l. destruct (le_lt_dec 2 (length l)) as [H|H].
  - destruct (split_last2 l H) as (q & b & a & ->). rewrite swap_last_spec. apply Permutation_app_head. constructor.
  - destruct l as [|x [|]]; try reflexivity. simpl in H. lia.
Qed.

Lemma sgn_swap_last : forall l, 2 <= length l -> NoDup l -> sgn (swap_last l) = (- sgn l)%Z.
Proof.
  intros l H ND. destruct (split_last2 l H) as (q & b & a & ->). rewrite swap_last_spec. apply sgn_swap_mid.
  intros ->. apply NoDup_remove_2 in ND. apply ND. apply in_or_app. right. left; auto.
Qed.

Lemma sgn_sorted : forall l, StronglySorted lt l -> sgn l = 1%Z.
Proof. intros l H. unfold sgn. rewrite inv_sorted by (apply StronglySorted_lt_le; auto). reflexivity. Qed.

(** Incidence number when the facet is known. *)
Lemma incidence_omit : forall k f s, k < length s -> NoDup s -> Permutation (omit k s) f -> incidence_number f s = (sgn_pow k * (sgn (omit k s) * sgn f))%Z.
Proof.
  intros k f s Hk ND P. unfold incidence_number. rewrite (sumZ_single _ (length s) k); auto.
  - rewrite rel_sign_perm by auto. auto.
  - intros i Hi Hne. rewrite rel_sign_neq; [lia|]. intros Q. apply Hne. apply (omit_perm_inj i k s); auto. rewrite Q. symmetry. auto.
Qed.

Lemma omit_snoc : forall a (x : nat), omit (length a) (a ++ [x]) = a.
Proof. intros. unfold omit. rewrite firstn_app, firstn_all, Nat.sub_diag. rewrite skipn_app. rewrite skipn_all2 by lia. replace (S (length a) - length a) with 1 by lia. simpl. rewrite !app_nil_r. auto. Qed.

Lemma perm_snoc : forall (a b : list nat) x y, Permutation (a ++ [x]) (b ++ [y]) -> Permutation a b -> x = y.
Proof. intros a b x y P Q. rewrite Q in P. apply Permutation_app_inv_l in P. apply Permutation_length_1 in P. auto. Qed.

Lemma fact_even : forall m, 2 <= m -> Nat.even (fact m) = true.
Proof. intros m H. induction m as [|m IH]; [lia|]. destruct (Nat.eq_dec m 1) as [->|]; [reflexivity|]. change (fact (S m)) with (S m * fact m). rewrite Nat.even_mul, IH by lia. apply orb_true_r. Qed.

Lemma sgn_pow_block : forall a b m, 2 <= m -> sgn_pow (a * fact m + b) = sgn_pow b.
Proof.
  intros a b m H. rewrite sgn_pow_add. unfold sgn_pow at 1. rewrite Nat.odd_mul. rewrite <- (Nat.negb_even (fact m)), fact_even by auto. rewrite andb_false_r. lia.
Qed.

Lemma nth_flat_map_rect : forall A B (f : A -> list B) c l p d da, 0 < c -> (forall x, In x l -> length (f x) = c) -> p < length l * c ->
  nth p (flat_map f l) d = nth (p mod c) (f (nth (p / c) l da)) d /\ p / c < length l.
Proof.
  intros A B f c l p d da Hc H Hp. assert (Q : p / c < length l) by (apply Nat.div_lt_upper_bound; lia). split; auto. rewrite flat_map_concat_map.
  assert (F : Forall (fun l0 => length l0 = c) (map f l)) by (apply Forall_forall; intros y Hy; apply in_map_iff in Hy as (x & <- & Hx); auto).
  destruct (nth_concat_rect B c (map f l) d p Hc F) as [E _]; [rewrite (concat_length_rect _ _ c F), map_length; auto|]. rewrite E. rewrite (nth_map_lt _ _ _ _ _ da) by auto. auto.
Qed.

Lemma firstn_prefix : forall (a b : list nat) i, i <= length a -> firstn i (a ++ b) = firstn i a.
Proof. intros. rewrite firstn_app. replace (i - length a) with 0 by lia. rewrite firstn_O, app_nil_r. auto. Qed.

Lemma firstn_snoc_nth : forall i (o : list nat), i < length o -> firstn (S i) o = firstn i o ++ [nth i o 0].
Proof. induction i as [|i IH]; intros [|x o] H; simpl in *; try lia; auto. f_equal. apply IH. lia. Qed.

Section Top.
Variables (n : nat) (rows : list simplex) (t : topology).
Hypothesis Hn : 1 <= n.
Hypothesis T : top_ok n rows t.

Fixpoint ksign (m : nat) : Z := match m with 0 => 1%Z | S k => if k =? 0 then 1%Z else (sgn_pow m * ksign k)%Z end.
Lemma ksign_sq : forall m, (ksign m * ksign m = 1)%Z.
Proof. induction m as [|k IH]; simpl; auto. destruct (k =? 0); auto. pose proof (sgn_pow_sq (S k)). nia. Qed.

(** The order in which a flag collects the vertices, and its sign. *)
Lemma tails_order : forall m s, 1 <= m <= n -> length s = S m -> inside rows s -> forall p, p < fact (S m) ->
  exists o, Permutation o s /\ (forall k, k < m -> Permutation (el t k (nth k (nth p (tails t m s) []) 0)) (firstn (S k) o)) /\
    (sgn o * sgn s = ksign m * sgn_pow p)%Z.
Proof.
  induction m as [|k IH]; intros s Hm L I p Hp; [lia|]. cbn [tails ksign]. destruct (Nat.eqb_spec k 0) as [->|Hk].
  - destruct s as [|a [|b [|]]]; try discriminate. destruct I as (ND & r & Hr & Hi).
    assert (V : forall v, In v [a; b] -> v < n_elements t 0). { intros v Hv. apply (to_vused _ _ _ T). apply in_concat. exists r. auto. }
    assert (Hab : a <> b) by (inversion ND; subst; intros ->; apply H1; left; auto).
    change (fact 2) with 2 in Hp. destruct p as [|[|]]; [| |lia].
    + exists [a; b]. split; auto. split; [|rewrite sgn_sq; auto]. intros q Hq. replace q with 0 by lia. cbn [nth map firstn]. rewrite (vert_el n rows t T) by (apply V; left; auto). auto.
    + exists [b; a]. split; [constructor|]. split; [|rewrite sgn_swap by auto; pose proof (sgn_sq [a;b]); change (sgn_pow 1) with (-1)%Z; lia].
      intros q Hq. replace q with 0 by lia. cbn [nth map firstn]. rewrite (vert_el n rows t T) by (apply V; right; left; auto). auto.
  - set (c := p / fact (S k)). set (q := p mod fact (S k)). pose proof (lt_O_fact (S k)) as F0.
    assert (LF : forall c, c < S (S k) -> length (facet (S k) c s) = S k) by (intros; rewrite facet_length by lia; lia).
    assert (IF : forall c, c < S (S k) -> inside rows (facet (S k) c s)) by (intros; apply facet_inside; auto; lia).
    destruct (nth_flat_map_rect _ _ (fun f => map (fun r => r ++ [idx t k f]) (tails t k f)) (fact (S k)) (map (fun c => facet (S k) c s) (seq 0 (S (S k)))) p [] [] F0) as [E Hc].
    { intros f Hf. apply in_map_iff in Hf as (c' & <- & Hc'). apply in_seq in Hc'. rewrite map_length. apply (tails_length n t Hn); [lia|apply LF; lia]. }
    { rewrite map_length, seq_length. change (fact (S (S k))) with (S (S k) * fact (S k)) in Hp. lia. }
    fold c q in E, Hc. rewrite map_length, seq_length in Hc. rewrite E. rewrite (nth_map_lt _ _ _ _ _ 0) by (rewrite seq_length; auto). rewrite seq_nth by auto. cbn [Nat.add].
    set (f := facet (S k) c s). assert (Hq : q < fact (S k)) by (apply Nat.mod_upper_bound; lia).
    destruct (IH f ltac:(lia) (LF c Hc) (IF c Hc) q Hq) as (o & P & PF & Sg).
    assert (LT : length (tails t k f) = fact (S k)) by (apply (tails_length n t Hn); [lia|apply LF; auto]).
    rewrite (nth_map_lt _ _ _ _ _ []) by lia. set (r := nth q (tails t k f) []) in *.
    assert (Lr : length r = k). { assert (Q : In r (tails t k f)) by (apply nth_In; lia). apply (tails_spec n rows t Hn T k f) in Q; [apply Q|lia|apply LF; auto|apply IF; auto]. }
    assert (Lo : length o = S k) by (rewrite (Permutation_length P); apply LF; auto).
    assert (Po : Permutation o (omit c s)) by (rewrite P; symmetry; apply facet_perm; lia).
    exists (o ++ [nth c s 0]). split; [|split].
    + rewrite Po. rewrite (Permutation_app_comm (omit c s)). symmetry. apply (omit_perm_cons c s). lia.
    + intros i Hi. rewrite firstn_prefix by lia. destruct (Nat.eq_dec i k) as [->|].
      * rewrite app_nth2 by lia. rewrite Lr, Nat.sub_diag. cbn [nth]. destruct (idx_ok n rows t Hn T k f ltac:(lia) (LF c Hc) (IF c Hc)) as [_ X]. rewrite X, <- P. rewrite firstn_all2 by lia. auto.
      * rewrite app_nth1 by lia. apply PF. lia.
    + rewrite (sgn_back c s o) by (auto; try lia; apply I). rewrite L. replace (S (S k) - 1) with (S k) by lia.
      pose proof (sgn_facet (S k) c s L ltac:(lia) ltac:(lia) (proj1 I)) as SF. fold f in SF. rewrite SF in Sg.
      replace p with (c * fact (S k) + q) by (unfold c, q; rewrite Nat.mul_comm; symmetry; apply Nat.div_mod; lia). rewrite sgn_pow_block by lia.
      transitivity (sgn_pow (S k) * (sgn o * (sgn_pow c * sgn (omit c s))))%Z; [ring|rewrite Sg; ring].
Qed.

Definition total : nat := fact (S n).
Definition D : list (list nat) := flat_map (block n rows t) (seq 0 (length rows)).

Lemma D_nth : forall p, p < length rows * total -> nth p D [] = nth (p mod total) (block n rows t (p / total)) [] /\ p / total < length rows /\ p mod total < total.
Proof.
  intros p Hp. pose proof (lt_O_fact (S n)) as F0. destruct (nth_flat_map_rect _ _ (block n rows t) total (seq 0 (length rows)) p [] 0 F0) as [E Q].
  - intros j Hj. apply in_seq in Hj. apply (block_length n rows t Hn T). lia.
  - rewrite seq_length. auto.
  - rewrite seq_length in Q. unfold D. rewrite E. rewrite seq_nth by auto. split; auto. split; auto. apply Nat.mod_upper_bound. unfold total. lia.
Qed.

Lemma D_length : length D = length rows * total.
Proof.
  unfold D. rewrite flat_map_concat_map, flen_concat, map_map. rewrite (map_ext_in _ (fun _ => total)); [rewrite list_sum_const, seq_length; lia|]. intros j Hj. apply in_seq in Hj. apply (block_length n rows t Hn T). lia.
Qed.

Lemma D_in : forall fl, In fl D <-> exists j, j < length rows /\ is_flag n t j fl.
Proof.
  intros fl. unfold D. rewrite in_flat_map. split; intros (j & Hj & H).
  - apply in_seq in Hj. exists j. split; [lia|]. apply (block_spec n rows t Hn T j fl) in H; auto. lia.
  - exists j. split; [apply in_seq; lia|]. apply (block_spec n rows t Hn T); auto.
Qed.

Lemma D_nodup : NoDup D.
Proof.
  unfold D. apply NoDup_flat_map; [apply seq_NoDup| |].
  - intros j Hj. apply in_seq in Hj. apply (block_nodup n rows t Hn T). lia.
  - intros j j' fl Hj Hj' H1 H2. apply in_seq in Hj. apply in_seq in Hj'. apply (block_spec n rows t Hn T j fl) in H1; [|lia]. apply (block_spec n rows t Hn T j' fl) in H2; [|lia]. destruct H1 as (_ & <- & _). destruct H2 as (_ & <- & _). auto.
Qed.

(** For each domain: its flag, and the vertex order of the flag with its sign. *)
Lemma D_order : forall p, p < length D -> let fl := nth p D [] in is_flag n t (p / total) fl /\ p / total < length rows /\
  exists o, Permutation o (nth (p / total) rows []) /\ (forall k, k <= n -> Permutation (el t k (nth k fl 0)) (firstn (S k) o)) /\
    (sgn o * sgn (nth (p / total) rows []) = ksign n * sgn_pow p)%Z.
Proof.
  intros p Hp fl. rewrite D_length in Hp. destruct (D_nth p Hp) as (E & Hj & Hq). unfold fl. clear fl. rewrite E. set (j := p / total) in *. set (q := p mod total) in *.
  pose proof (block_length n rows t Hn T j Hj) as BL. split; [|split; auto].
  - apply (block_spec n rows t Hn T); auto. apply nth_In. unfold total in *. lia.
  - pose proof (rows_inside n rows t Hn T) as F. rewrite Forall_forall in F. destruct (F _ (nth_In rows [] Hj)) as [L I].
    destruct (tails_order n (nth j rows []) ltac:(lia) L I q Hq) as (o & P & PF & Sg). exists o. split; auto. unfold block in *. rewrite map_length in BL.
    rewrite (nth_map_lt _ _ _ _ _ []) by (unfold total in *; lia). set (r := nth q (tails t n (nth j rows [])) []) in *.
    assert (Lr : length r = n). { assert (Q : In r (tails t n (nth j rows []))) by (apply nth_In; unfold total in *; lia). apply (tails_spec n rows t Hn T n) in Q; [apply Q|lia|auto|auto]. }
    split.
    + intros k Hk. destruct (Nat.eq_dec k n) as [->|]; [|rewrite app_nth1 by lia; apply PF; lia]. rewrite app_nth2 by lia. rewrite Lr, Nat.sub_diag. cbn [nth]. rewrite (el_top n rows t T). rewrite firstn_all2 by (rewrite (Permutation_length P); lia). symmetry. auto.
    + rewrite Sg. replace p with (j * total + q) by (unfold j, q; rewrite Nat.mul_comm; symmetry; apply Nat.div_mod; unfold total; pose proof (lt_O_fact (S n)); lia). unfold total. rewrite sgn_pow_block by lia. auto.
Qed.

(** ---- labels ---- *)
Lemma offset_S : forall k, offset t (S k) = offset t k + n_elements t k.
Proof. intros. unfold offset. rewrite seq_S, map_app. cbn [map]. rewrite list_sum_app. simpl. lia. Qed.
Lemma offset_mono : forall k k', k <= k' -> offset t k <= offset t k'.
Proof. intros k k' H. induction H; auto. rewrite offset_S. lia. Qed.

Definition lab (fl : list nat) : list nat := add_offset t fl.
Lemma lab_length : forall fl, length (lab fl) = length fl.
Proof. intros. unfold lab, add_offset. rewrite map_length, seq_length. auto. Qed.
Lemma lab_nth : forall fl k, k < length fl -> nth k (lab fl) 0 = nth k fl 0 + offset t k.
Proof. intros. unfold lab, add_offset. rewrite (nth_map_lt _ _ _ _ _ 0) by (rewrite seq_length; auto). rewrite seq_nth by auto. auto. Qed.

Lemma sorted_of_nth : forall l, (forall i j, i < j < length l -> nth i l 0 < nth j l 0) -> StronglySorted lt l.
Proof.
  induction l as [|x l IH]; intros H; constructor.
  - apply IH. intros i j Hij. apply (H (S i) (S j)). simpl. lia.
  - apply Forall_forall. intros y Hy. apply In_nth with (d := 0) in Hy as (i & Hi & <-). apply (H 0 (S i)). simpl. lia.
Qed.

Lemma flag_lt : forall j fl k, is_flag n t j fl -> k <= n -> nth k fl 0 < n_elements t k.
Proof. intros j fl k (_ & _ & H & _). auto. Qed.

Lemma lab_sorted : forall j fl, is_flag n t j fl -> StronglySorted lt (lab fl).
Proof.
  intros j fl F. pose proof F as (L & _). apply sorted_of_nth. intros i k Hik. rewrite lab_length in Hik. rewrite !lab_nth by lia.
  pose proof (flag_lt j fl i F ltac:(lia)). pose proof (offset_mono (S i) k ltac:(lia)). rewrite offset_S in H0. lia.
Qed.

Lemma sorted_nodup : forall l, StronglySorted lt l -> NoDup l.
Proof. induction l as [|x l IH]; intros H; constructor; inversion H; subst; auto. intros Hx. rewrite Forall_forall in H3. specialize (H3 x Hx). lia. Qed.

Lemma omit_sorted : forall k l, StronglySorted lt l -> StronglySorted lt (omit k l).
Proof.
  induction k as [|k IH]; intros [|x l] H; simpl; auto; try (inversion H; subst; auto; fail). rewrite omit_S. inversion H; subst. constructor; auto. apply Forall_forall. intros y Hy. apply omit_incl in Hy. rewrite Forall_forall in H3. auto.
Qed.

Lemma nth_omit : forall k (l : list nat) i, k < length l -> nth i (omit k l) 0 = if i <? k then nth i l 0 else nth (S i) l 0.
Proof.
  induction k as [|k IH]; intros [|x l] i H; simpl in H; try lia.
  - rewrite omit_0. reflexivity.
  - rewrite omit_S. destruct i as [|i]; [reflexivity|]. cbn [nth]. rewrite IH by lia. change (S i <? S k) with (i <? k). reflexivity.
Qed.

(** Two flags whose label sets share a facet differ in one dimension only. *)
Lemma shared_facet : forall j j' fl fl' f, is_flag n t j fl -> is_flag n t j' fl' ->
  NoDup f -> length f = n -> incl f (lab fl) -> incl f (lab fl') ->
  exists k, k <= n /\ Permutation (omit k (lab fl)) f /\ omit k (lab fl) = omit k (lab fl') /\ forall i, i <= n -> i <> k -> nth i fl 0 = nth i fl' 0.
Proof.
  intros j j' fl fl' f F F' ND Lf I I'. pose proof (lab_sorted _ _ F) as S1. pose proof (lab_sorted _ _ F') as S2. pose proof F as (L & _). pose proof F' as (L' & _).
  destruct (incl_omit f (lab fl) ND (sorted_nodup _ S1) ltac:(rewrite lab_length; lia) I) as (k & Hk & P). destruct (incl_omit f (lab fl') ND (sorted_nodup _ S2) ltac:(rewrite lab_length; lia) I') as (k' & Hk' & P').
  rewrite lab_length in Hk, Hk'.
  assert (E : omit k (lab fl) = omit k' (lab fl')).
  { apply (sorted_perm_eq _ lt); [intros; lia|apply omit_sorted; auto|apply omit_sorted; auto|]. rewrite P. symmetry. auto. }
  assert (B : forall a fa i, is_flag n t a fa -> i <= n -> offset t i <= nth i (lab fa) 0 < offset t (S i)).
  { intros a fa i Fa Hi. pose proof Fa as (La & _). rewrite lab_nth by lia. rewrite offset_S. pose proof (flag_lt a fa i Fa Hi). lia. }
  assert (Ek : k = k').
  { destruct (Nat.lt_trichotomy k k') as [Hlt|[|Hlt]]; auto; exfalso.
    - assert (Q : nth k (omit k (lab fl)) 0 = nth k (omit k' (lab fl')) 0) by (rewrite E; auto). rewrite !nth_omit in Q by (rewrite lab_length; lia). destruct (Nat.ltb_spec k k); [lia|]. destruct (Nat.ltb_spec k k'); [|lia].
      pose proof (B _ _ (S k) F ltac:(lia)). pose proof (B _ _ k F' ltac:(lia)). lia.
    - assert (Q : nth k' (omit k (lab fl)) 0 = nth k' (omit k' (lab fl')) 0) by (rewrite E; auto). rewrite !nth_omit in Q by (rewrite lab_length; lia). destruct (Nat.ltb_spec k' k'); [lia|]. destruct (Nat.ltb_spec k' k); [|lia].
      pose proof (B _ _ (S k') F' ltac:(lia)). pose proof (B _ _ k' F ltac:(lia)). lia. }
  subst k'. exists k. split; [lia|]. split; auto. split; auto. intros i Hi Hne.
  assert (Q : nth i (lab fl) 0 = nth i (lab fl') 0).
  { destruct (Nat.lt_ge_cases i k).
    - assert (Q : nth i (omit k (lab fl)) 0 = nth i (omit k (lab fl')) 0) by (rewrite E; auto). rewrite !nth_omit in Q by (rewrite lab_length; lia). destruct (Nat.ltb_spec i k); [auto|lia].
    - assert (Q : nth (i - 1) (omit k (lab fl)) 0 = nth (i - 1) (omit k (lab fl')) 0) by (rewrite E; auto). rewrite !nth_omit in Q by (rewrite lab_length; lia). destruct (Nat.ltb_spec (i - 1) k); [lia|]. replace (S (i - 1)) with i in Q by lia. auto. }
  rewrite !lab_nth in Q by lia. lia.
Qed.

(** Orders of flags that agree in two consecutive dimensions add the same vertex. *)
Lemma order_agree : forall fl fl' o o', length o = S n -> length o' = S n ->
  (forall k, k <= n -> Permutation (el t k (nth k fl 0)) (firstn (S k) o)) -> (forall k, k <= n -> Permutation (el t k (nth k fl' 0)) (firstn (S k) o')) ->
  forall i, i <= n -> nth i fl 0 = nth i fl' 0 -> (i = 0 \/ nth (i - 1) fl 0 = nth (i - 1) fl' 0) -> nth i o 0 = nth i o' 0.
Proof.
  intros fl fl' o o' L L' H H' i Hi E1 E2.
  assert (P : Permutation (firstn (S i) o) (firstn (S i) o')) by (rewrite <- H, <- H' by auto; rewrite E1; auto). rewrite !firstn_snoc_nth in P by lia.
  apply (perm_snoc _ _ _ _ P). destruct E2 as [->|E2]; [auto|]. destruct i as [|i]; [auto|]. replace (S i - 1) with i in E2 by lia. rewrite <- H, <- H' by lia. rewrite E2. auto.
Qed.

Lemma list_ext_nth : forall (a b : list nat), length a = length b -> (forall i, i < length a -> nth i a 0 = nth i b 0) -> a = b.
Proof. intros. eapply nth_ext; eauto. Qed.

Lemma split_pair : forall k (o : list nat), S k < length o -> o = firstn k o ++ nth k o 0 :: nth (S k) o 0 :: skipn (S (S k)) o.
Proof. induction k as [|k IH]; intros o H; [destruct o as [|a [|b o]]; simpl in *; try lia; auto|]. destruct o as [|a o]; simpl in H; [lia|]. cbn [firstn nth skipn app]. f_equal. apply IH. lia. Qed.

Lemma skipn_nth_ext : forall m (a b : list nat), length a = length b -> (forall i, m <= i < length a -> nth i a 0 = nth i b 0) -> skipn m a = skipn m b.
Proof.
  induction m as [|m IH]; intros a b L H; [simpl; apply list_ext_nth; auto; intros; apply H; lia|]. destruct a as [|x a]; destruct b as [|y b]; simpl in *; try lia; auto. apply IH; [lia|]. intros i Hi. apply (H (S i)). lia.
Qed.
Lemma firstn_nth_ext : forall m (a b : list nat), length a = length b -> (forall i, i < m -> i < length a -> nth i a 0 = nth i b 0) -> firstn m a = firstn m b.
Proof.
  induction m as [|m IH]; intros a b L H; [auto|]. destruct a as [|x a]; destruct b as [|y b]; simpl in *; try lia; auto. f_equal; [apply (H 0); lia|]. apply IH; [lia|]. intros i Hi Hl. apply (H (S i)); lia.
Qed.

(** Parities of the positions of two adjacent domains. *)
Lemma adjacent_parity : forall p p' k, p < length D -> p' < length D -> p <> p' -> k <= n ->
  (forall i, i <= n -> i <> k -> nth i (nth p D []) 0 = nth i (nth p' D []) 0) ->
  (k < n -> sgn_pow p = (- sgn_pow p')%Z) /\
  (k = n -> exists a, NoDup a /\ length a = n /\ incl a (nth (p / total) rows []) /\ incl a (nth (p' / total) rows []) /\ p / total <> p' / total /\
     Permutation (el t (n - 1) (nth (n - 1) (nth p D []) 0)) a /\
     incidence_number a (nth (p / total) rows []) = (sgn_pow n * ksign n * sgn_pow p)%Z /\ incidence_number a (nth (p' / total) rows []) = (sgn_pow n * ksign n * sgn_pow p')%Z).
Proof.
  intros p p' k Hp Hp' Hne Hk A. destruct (D_order p Hp) as (F & Hj & o & P & PF & Sg). destruct (D_order p' Hp') as (F' & Hj' & o' & P' & PF' & Sg').
  set (fl := nth p D []) in *. set (fl' := nth p' D []) in *. set (j := p / total) in *. set (j' := p' / total) in *.
  assert (Fne : fl <> fl'). { intros E. apply Hne. apply (proj1 (NoDup_nth D []) D_nodup); auto. }
  pose proof (rows_inside n rows t Hn T) as RI. rewrite Forall_forall in RI. destruct (RI _ (nth_In rows [] Hj)) as [Lj [NDj _]]. destruct (RI _ (nth_In rows [] Hj')) as [Lj' [NDj' _]].
  assert (Lo : length o = S n) by (rewrite (Permutation_length P); auto). assert (Lo' : length o' = S n) by (rewrite (Permutation_length P'); auto).
  pose proof F as (LF & TF & _). pose proof F' as (LF' & TF' & _).
  assert (AG : forall i, i <= n -> i <> k -> i <> S k -> nth i o 0 = nth i o' 0).
  { intros i Hi N1 N2. apply (order_agree fl fl' o o'); auto. destruct i; auto. right. apply A; lia. }
  assert (Kne : nth k fl 0 <> nth k fl' 0).
  { intros E. apply Fne. apply list_ext_nth; [congruence|]. intros i Hi. destruct (Nat.eq_dec i k) as [->|]; auto. apply A; auto. lia. }
  pose proof (ksign_sq n) as KS. split.
  - intros Hkn. assert (Ej : j = j') by (rewrite <- TF, <- TF'; apply A; lia).
    pose proof (split_pair k o ltac:(lia)) as S1. pose proof (split_pair k o' ltac:(lia)) as S2.
    rewrite <- (firstn_nth_ext k o o') in S2 by (try congruence; intros; apply AG; lia). rewrite <- (skipn_nth_ext (S (S k)) o o') in S2 by (try congruence; intros; apply AG; lia).
    set (a := firstn k o) in *. set (b := skipn (S (S k)) o) in *. set (x := nth k o 0) in *. set (y := nth (S k) o 0) in *. set (x' := nth k o' 0) in *. set (y' := nth (S k) o' 0) in *.
    assert (Pxy : Permutation [x; y] [x'; y']).
    { assert (Q : Permutation o o') by (rewrite P, P', Ej; auto). rewrite S1, S2 in Q. apply Permutation_app_inv_l in Q. change (x :: y :: b) with ([x; y] ++ b) in Q. change (x' :: y' :: b) with ([x'; y'] ++ b) in Q. apply Permutation_app_inv_r in Q. auto. }
    assert (Hx : x <> x').
    { intros Ex. apply Kne. apply (faces_unique n rows t T k); [auto|apply (flag_lt j); auto|apply (flag_lt j'); auto|]. change (Permutation (el t k (nth k fl 0)) (el t k (nth k fl' 0))). rewrite PF, PF' by lia. rewrite !firstn_snoc_nth by lia. fold x x'. rewrite Ex. rewrite (firstn_nth_ext k o o') by (try congruence; intros; apply AG; lia). auto. }
    apply Permutation_length_2_inv in Pxy as [Q|Q]; injection Q as <- <-; [congruence|].
    rewrite S1 in Sg. rewrite S2 in Sg'. rewrite sgn_swap_mid in Sg' by auto. rewrite Ej in Sg.
    transitivity (ksign n * (ksign n * sgn_pow p))%Z; [rewrite Z.mul_assoc, KS; lia|]. rewrite <- Sg. transitivity (- (ksign n * (ksign n * sgn_pow p')))%Z; [rewrite <- Sg'; ring|rewrite Z.mul_assoc, KS; lia].
  - intros ->. exists (firstn n o). rewrite <- (firstn_all2 o (n := S n)) in P by lia. rewrite firstn_snoc_nth in P by lia. rewrite <- (firstn_all2 o' (n := S n)) in P' by lia. rewrite firstn_snoc_nth in P' by lia.
    rewrite <- (firstn_nth_ext n o o') in P' by (try congruence; intros; apply AG; lia). set (a := firstn n o) in *.
    assert (La : length a = n) by (unfold a; rewrite firstn_length; lia).
    assert (Eo : o = a ++ [nth n o 0]) by (rewrite <- (firstn_all2 o (n := S n)) at 1 by lia; apply firstn_snoc_nth; lia).
    assert (Eo' : o' = a ++ [nth n o' 0]). { rewrite <- (firstn_all2 o' (n := S n)) at 1 by lia. rewrite firstn_snoc_nth by lia. unfold a. rewrite (firstn_nth_ext n o o') by (try congruence; intros; apply AG; lia). auto. }
    assert (NDa : NoDup (a ++ [nth n o 0])) by (eapply Permutation_NoDup; [symmetry; exact P|auto]). assert (NDa' : NoDup (a ++ [nth n o' 0])) by (eapply Permutation_NoDup; [symmetry; exact P'|auto]).
    assert (IN : forall x s, NoDup (a ++ [x]) -> Permutation (a ++ [x]) s -> incidence_number a s = (sgn (a ++ [x]) * sgn s * sgn_pow n)%Z).
    { intros x s N Q. rewrite (incidence_antisym_simplex a (a ++ [x]) s N Q). rewrite (incidence_omit n a (a ++ [x])); [|rewrite app_length; simpl; lia|auto|rewrite <- La at 1; rewrite omit_snoc; auto].
      replace (omit n (a ++ [x])) with a by (rewrite <- La; rewrite omit_snoc; auto). rewrite sgn_sq. ring. }
    split; [rewrite <- (omit_snoc a (nth n o 0)); apply omit_nodup; auto|]. split; auto. split; [|split; [|split; [|split; [|split]]]].
    + intros z Hz. apply (Permutation_in z P). apply in_or_app. auto.
    + intros z Hz. apply (Permutation_in z P'). apply in_or_app. auto.
    + intros E. apply Kne. rewrite TF, TF'. auto.
    + unfold a. replace n with (S (n - 1)) at 3 by lia. apply PF. lia.
    + rewrite (IN _ _ NDa P). rewrite <- Eo. rewrite Sg. ring.
    + rewrite (IN _ _ NDa' P'). rewrite <- Eo'. rewrite Sg'. ring.
Qed.
End Top.
