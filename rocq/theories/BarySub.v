(** The mesh produced by the barycentric subdivision. *)
Require Import List Arith ZArith Bool Lia Permutation Factorial Sorting.Sorted.
From Verif Require Import Util CombModel CombSpec CombProofs SimpModel SimpSpec ParProofs SimpProofs LevelProofs TopProofs
  BdryModel BdrySpec OrientProofs SubProofs SubdModel SubdSpec FundProofs BaryProofs.
Import ListNotations.
Local Open Scope nat_scope.

Lemma complete_perm : forall f s : list nat, NoDup f -> NoDup s -> incl f s -> exists r, Permutation (f ++ r) s.
Proof.
  induction f as [|x f IH]; intros s ND NDs I; [exists s; auto|]. inversion ND; subst.
  assert (Hx : In x s) by (apply I; left; auto). apply in_split in Hx as (a & b & ->).
  pose proof (NoDup_remove_1 _ _ _ NDs) as N1. pose proof (NoDup_remove_2 _ _ _ NDs) as N2.
  destruct (IH (a ++ b)) as (r & P); auto.
  - intros y Hy. assert (Q : In y (a ++ x :: b)) by (apply I; right; auto). apply in_app_or in Q as [Q|[Q|Q]]; apply in_or_app; auto. subst. contradiction.
  - exists r. cbn [app]. rewrite P. apply Permutation_middle.
Qed.

Section Top.
Variables (n : nat) (rows : list simplex) (t : topology).
Hypothesis Hn : 1 <= n.
Hypothesis T : top_ok n rows t.

(** The flag that collects the vertices of top simplex [j] in the order [o]. *)
Definition flag_of (o : list nat) (j : nat) : list nat := map (fun i => idx t i (firstn (S i) o)) (seq 0 n) ++ [j].

Lemma firstn_incl : forall i (o : list nat), incl (firstn i o) o.
Proof. intros i o x Hx. rewrite <- (firstn_skipn i o). apply in_or_app. auto. Qed.
Lemma firstn_nodup : forall i (o : list nat), NoDup o -> NoDup (firstn i o).
Proof. induction i as [|i IH]; intros [|x o] H; simpl; try constructor; inversion H; subst; auto. intros Q. apply H2. apply (firstn_incl i o). auto. Qed.

Lemma flag_of_ok : forall o j, j < length rows -> Permutation o (nth j rows []) -> is_flag n t j (flag_of o j) /\
  (forall k, k <= n -> Permutation (el t k (nth k (flag_of o j) 0)) (firstn (S k) o)).
Proof.
  intros o j Hj P. pose proof (rows_inside n rows t Hn T) as RI. rewrite Forall_forall in RI. destruct (RI _ (nth_In rows [] Hj)) as [Lj [NDj _]].
  assert (Lo : length o = S n) by (rewrite (Permutation_length P); auto). assert (NDo : NoDup o) by (eapply Permutation_NoDup; [symmetry; exact P|auto]).
  assert (IN : forall i, inside rows (firstn i o)). { intros i. split; [apply firstn_nodup; auto|]. exists (nth j rows []). split; [apply nth_In; auto|]. intros x Hx. apply (Permutation_in x P). apply (firstn_incl i o x Hx). }
  assert (LF : length (flag_of o j) = S n) by (unfold flag_of; rewrite app_length, map_length, seq_length; simpl; lia).
  assert (NF : forall k, k < n -> nth k (flag_of o j) 0 = idx t k (firstn (S k) o)).
  { intros k Hk. unfold flag_of. rewrite app_nth1 by (rewrite map_length, seq_length; auto). rewrite (nth_map_lt _ _ _ _ _ 0) by (rewrite seq_length; auto). rewrite seq_nth by auto. auto. }
  assert (NT : nth n (flag_of o j) 0 = j). { unfold flag_of. rewrite app_nth2 by (rewrite map_length, seq_length; auto). rewrite map_length, seq_length, Nat.sub_diag. auto. }
  assert (IX : forall k, k < n -> nth k (flag_of o j) 0 < n_elements t k /\ Permutation (el t k (nth k (flag_of o j) 0)) (firstn (S k) o)).
  { intros k Hk. rewrite NF by auto. apply (idx_ok n rows t Hn T); auto. rewrite firstn_length. lia. }
  assert (EL : forall k, k <= n -> Permutation (el t k (nth k (flag_of o j) 0)) (firstn (S k) o)).
  { intros k Hk. destruct (Nat.eq_dec k n) as [->|]; [|apply IX; lia]. rewrite NT, (el_top n rows t T). rewrite firstn_all2 by lia. symmetry. auto. }
  split; auto. split; auto. split; auto. split.
  - intros k Hk. destruct (Nat.eq_dec k n) as [->|]; [|apply IX; lia]. rewrite NT. unfold n_elements. rewrite (to_top _ _ _ T). auto.
  - intros k Hk x Hx. change (In x (el t k (nth k (flag_of o j) 0))) in Hx. apply (Permutation_in x (EL k ltac:(lia))) in Hx. change (In x (el t (S k) (nth (S k) (flag_of o j) 0))). apply (Permutation_in x (Permutation_sym (EL (S k) ltac:(lia)))).
    rewrite firstn_snoc_nth by lia. apply in_or_app. auto.
Qed.

Notation DD := (D n rows t).
Definition sub (oriented : bool) : list simplex := fundamental_simplices t oriented DD.

Lemma sub_length : forall b, length (sub b) = length rows * fact (S n).
Proof. intros b. unfold sub, fundamental_simplices. destruct b; rewrite ?map_length, ?seq_length, ?map_length; apply (D_length n rows t Hn T). Qed.

Lemma sub_nth : forall b p, p < length DD -> nth p (sub b) [] = if b && Nat.odd p then swap_last (lab t (nth p DD [])) else lab t (nth p DD []).
Proof.
  intros b p Hp. unfold sub, fundamental_simplices. destruct b; cbn [andb].
  - rewrite (nth_map_lt _ _ _ _ _ 0) by (rewrite seq_length, map_length; auto). rewrite seq_nth by (rewrite map_length; auto). cbn [Nat.add]. rewrite (nth_map_lt _ _ _ _ _ []) by auto. auto.
  - rewrite (nth_map_lt _ _ _ _ _ []) by auto. auto.
Qed.

Definition bsign (b : bool) (p : nat) : Z := if b then sgn_pow p else 1%Z.

Lemma sub_facts : forall b p, p < length DD -> let F := lab t (nth p DD []) in
  StronglySorted lt F /\ length F = S n /\ Permutation F (nth p (sub b) []) /\ forall f, incidence_number f (nth p (sub b) []) = (bsign b p * incidence_number f F)%Z.
Proof.
  intros b p Hp F. destruct (D_order n rows t Hn T p Hp) as (FL & _ & _). pose proof (lab_sorted n t Hn _ _ FL) as S1. pose proof FL as (LF & _). fold F in S1.
  assert (L : length F = S n) by (unfold F; rewrite lab_length; auto). split; auto. split; auto.
  assert (P : Permutation F (nth p (sub b) [])) by (rewrite sub_nth by auto; fold F; destruct (b && Nat.odd p); auto; apply swap_last_perm). split; auto.
  intros f. rewrite (incidence_antisym_simplex f F _ ((sorted_nodup n Hn) _ S1) P). rewrite sub_nth by auto. fold F. pose proof (sgn_sorted _ S1) as SG. unfold bsign, sgn_pow. destruct b; cbn [andb].
  - destruct (Nat.odd p); [rewrite sgn_swap_last by (try lia; apply (sorted_nodup n Hn); auto)|]; rewrite SG; ring.
  - rewrite SG. ring.
Qed.

Lemma offset_split : forall m v, v < offset t m -> exists k i, k < m /\ i < n_elements t k /\ v = i + offset t k.
Proof.
  induction m as [|m IH]; intros v Hv; [unfold offset in Hv; simpl in Hv; lia|]. rewrite (offset_S n t Hn) in Hv. destruct (Nat.lt_ge_cases v (offset t m)) as [H|H].
  - destruct (IH v H) as (k & i & Hk & Hi & E). exists k, i. repeat split; auto; lia.
  - exists m, (v - offset t m). repeat split; auto; lia.
Qed.

Lemma flag_through : forall k i, k <= n -> i < n_elements t k -> exists fl, In fl DD /\ nth k fl 0 = i.
Proof.
  intros k i Hk Hi. destruct (Nat.eq_dec k n) as [->|].
  - assert (Hj : i < length rows) by (unfold n_elements in Hi; rewrite (to_top _ _ _ T) in Hi; auto).
    destruct (flag_of_ok (nth i rows []) i Hj (Permutation_refl _)) as [F _]. exists (flag_of (nth i rows []) i). split; [apply (D_in n rows t Hn T); eauto|apply F].
  - destruct (el_len n rows t Hn T k i ltac:(lia) Hi) as [L ND].
    destruct (proj1 (faces_complete n rows t Hn T (n - k) k ltac:(lia) (el t k i))) as (s & Hs & (_ & _ & I)); [exists (el t k i); split; auto; apply el_in; auto|].
    apply In_nth with (d := []) in Hs as (j & Hj & <-). pose proof (rows_inside n rows t Hn T) as RI. rewrite Forall_forall in RI. destruct (RI _ (nth_In rows [] Hj)) as [Lj [NDj _]].
    destruct (complete_perm _ _ ND NDj I) as (r & P). destruct (flag_of_ok _ j Hj P) as [F EL]. exists (flag_of (el t k i ++ r) j). split; [apply (D_in n rows t Hn T); eauto|].
    specialize (EL k ltac:(lia)). rewrite firstn_prefix in EL by lia. rewrite firstn_all2 in EL by lia. pose proof F as (_ & _ & F1 & _). apply (faces_unique n rows t T k); auto; lia.
Qed.

Lemma sub_ok : forall b, simplices_ok n (sub b) /\ forall v, In v (concat (sub b)) <-> v < offset t (S n).
Proof.
  intros b. pose proof (D_length n rows t Hn T) as LD. pose proof (sub_length b) as LS. fold (total n) in LS. split; [split|].
  - pose proof (to_ok _ _ _ T n ltac:(lia)) as [NE _]. rewrite (to_top _ _ _ T) in NE. intros E. rewrite E in LS. destruct rows; [congruence|]. pose proof (lt_O_fact (S n)). unfold total in LS. cbn [length] in LS. nia.
  - apply Forall_forall. intros s Hs. apply In_nth with (d := []) in Hs as (p & Hp & <-). destruct (sub_facts b p ltac:(lia)) as (S1 & L & P & _). split; [rewrite <- (Permutation_length P); auto|]. eapply Permutation_NoDup; [exact P|apply (sorted_nodup n Hn); auto].
  - intros v. rewrite in_concat. split.
    + intros (s & Hs & Hv). apply In_nth with (d := []) in Hs as (p & Hp & <-). destruct (sub_facts b p ltac:(lia)) as (S1 & L & P & _). apply (Permutation_in v (Permutation_sym P)) in Hv. apply In_nth with (d := 0) in Hv as (k & Hk & <-).
      destruct (D_order n rows t Hn T p ltac:(lia)) as (FL & _ & _). pose proof FL as (LF & _). rewrite lab_nth by lia. pose proof (flag_lt n t _ _ k FL ltac:(lia)). pose proof (offset_mono n t Hn (S k) (S n) ltac:(lia)). rewrite (offset_S n t Hn) in H0. lia.
    + intros Hv. destruct (offset_split (S n) v Hv) as (k & i & Hk & Hi & ->). destruct (flag_through k i ltac:(lia) Hi) as (fl & HD & E). apply In_nth with (d := []) in HD as (p & Hp & <-).
      destruct (sub_facts b p Hp) as (S1 & L & P & _). exists (nth p (sub b) []). split; [apply nth_In; lia|]. apply (Permutation_in _ P). rewrite <- E. rewrite <- lab_nth by (rewrite <- lab_length with (t := t); lia). apply nth_In. lia.
Qed.

Lemma facet_label : forall b b' p p' f, p < length DD -> p' < length DD -> is_face (n - 1) f (nth p (sub b) []) -> is_face (n - 1) f (nth p' (sub b') []) ->
  exists k x, k <= n /\ (x = 1 \/ x = -1)%Z /\ (forall i, i <= n -> i <> k -> nth i (nth p DD []) 0 = nth i (nth p' DD []) 0) /\
   incidence_number f (nth p (sub b) []) = (bsign b p * x)%Z /\ incidence_number f (nth p' (sub b') []) = (bsign b' p' * x)%Z.
Proof.
  intros b b' p p' f Hp Hp' (ND & Lf & I) (_ & _ & I'). destruct (sub_facts b p Hp) as (S1 & L1 & P1 & E1). destruct (sub_facts b' p' Hp') as (S2 & L2 & P2 & E2).
  destruct (D_order n rows t Hn T p Hp) as (F & _ & _). destruct (D_order n rows t Hn T p' Hp') as (F' & _ & _).
  destruct (shared_facet n t Hn _ _ _ _ f F F' ND ltac:(lia)) as (k & Hk & Pk & Eo & Ag).
  - intros x Hx. apply (Permutation_in x (Permutation_sym P1)). auto.
  - intros x Hx. apply (Permutation_in x (Permutation_sym P2)). auto.
  - exists k, (incidence_number f (lab t (nth p DD []))). split; auto. split; [|split; auto; split; [apply E1|]].
    + apply (incidence_values f _ ND ((sorted_nodup n Hn) _ S1)); [lia|]. intros x Hx. apply (Permutation_in x (Permutation_sym P1)). auto.
    + rewrite E2. f_equal. rewrite !(incidence_omit k f) by (try apply (sorted_nodup n Hn); auto; try lia; rewrite <- Eo; auto). rewrite Eo. auto.
Qed.

Lemma sub_consistent : consistent n rows <-> consistent n (sub true).
Proof.
  pose proof (sub_length true) as LS. pose proof (D_length n rows t Hn T) as LD. unfold total in LD. split.
  - intros C p p' Hp Hp' Hne f F F'. destruct (facet_label true true p p' f ltac:(lia) ltac:(lia) F F') as (k & x & Hk & Hx & Ag & E1 & E2). rewrite E1, E2. cbn [bsign].
    destruct (adjacent_parity n rows t Hn T p p' k ltac:(lia) ltac:(lia) Hne Hk Ag) as [A1 A2].
    assert (Q : sgn_pow p = (- sgn_pow p')%Z).
    { destruct (Nat.lt_ge_cases k n); [auto|]. destruct (A2 ltac:(lia)) as (a & NDa & La & Ia & Ia' & Nj & _ & J1 & J2).
      destruct (D_order n rows t Hn T p ltac:(lia)) as (_ & Hj & _). destruct (D_order n rows t Hn T p' ltac:(lia)) as (_ & Hj' & _).
      pose proof (C _ _ Hj Hj' Nj a) as Q. rewrite J1, J2 in Q. specialize (Q ltac:(repeat split; auto; lia) ltac:(repeat split; auto; lia)).
      pose proof (ksign_sq n Hn n) as KS. pose proof (sgn_pow_sq n) as KN. clear - Q KS KN. revert Q. generalize (sgn_pow p) (sgn_pow p'). intros v u Q.
      transitivity ((sgn_pow n * sgn_pow n) * (ksign n * ksign n) * v)%Z; [rewrite KS, KN; ring|]. transitivity (sgn_pow n * ksign n * (sgn_pow n * ksign n * v))%Z; [ring|]. rewrite Q. transitivity (- ((sgn_pow n * sgn_pow n) * (ksign n * ksign n) * u))%Z; [ring|rewrite KS, KN; ring]. }
    rewrite Q. ring.
  - intros C j j' Hj Hj' Hne f (ND & Lf & I) (_ & _ & I').
    pose proof (rows_inside n rows t Hn T) as RI. rewrite Forall_forall in RI. destruct (RI _ (nth_In rows [] Hj)) as [Lj [NDj _]]. destruct (RI _ (nth_In rows [] Hj')) as [Lj' [NDj' _]].
    destruct (complete_perm _ _ ND NDj I) as (r & P). destruct (complete_perm _ _ ND NDj' I') as (r' & P').
    destruct (flag_of_ok _ j Hj P) as [F EL]. destruct (flag_of_ok _ j' Hj' P') as [F' EL']. set (fl := flag_of (f ++ r) j) in *. set (fl' := flag_of (f ++ r') j') in *. clearbody fl fl'.
    assert (Ag : forall i, i <= n -> i <> n -> nth i fl 0 = nth i fl' 0).
    { intros i Hi Hni. pose proof F as (_ & _ & F1 & _). pose proof F' as (_ & _ & F1' & _). apply (faces_unique n rows t T i); [lia|apply F1; lia|apply F1'; lia|]. change (Permutation (el t i (nth i fl 0)) (el t i (nth i fl' 0))).
      rewrite EL, EL' by lia. rewrite !firstn_prefix by lia. auto. }
    assert (HD : In fl DD) by (apply (D_in n rows t Hn T); eauto). assert (HD' : In fl' DD) by (apply (D_in n rows t Hn T); eauto).
    apply In_nth with (d := []) in HD as (p & Hp & Ep). apply In_nth with (d := []) in HD' as (p' & Hp' & Ep').
    assert (Hpp : p <> p'). { intros ->. rewrite Ep in Ep'. apply Hne. destruct F as (_ & <- & _). destruct F' as (_ & <- & _). rewrite Ep'. auto. }
    destruct (adjacent_parity n rows t Hn T p p' n Hp Hp' Hpp ltac:(lia)) as [_ A2]; [intros; rewrite Ep, Ep'; apply Ag; auto|].
    destruct (A2 eq_refl) as (a & NDa & La & Ia & Ia' & Nj & Pa & J1 & J2).
    destruct (D_order n rows t Hn T p Hp) as ((_ & Tp & _) & _ & _). destruct (D_order n rows t Hn T p' Hp') as ((_ & Tp' & _) & _ & _). rewrite Ep in Tp. rewrite Ep' in Tp'. destruct F as (Lfl & TF & F1 & F2). destruct F' as (Lfl' & TF' & F1' & F2').
    rewrite TF in Tp. rewrite TF' in Tp'. rewrite <- Tp in J1, Ia. rewrite <- Tp' in J2, Ia'.
    assert (Pf : Permutation f a). { rewrite <- Pa. rewrite Ep. rewrite (EL (n - 1) ltac:(lia)). rewrite firstn_prefix by lia. rewrite firstn_all2 by lia. auto. }
    (* the children share the facet without the top label *)
    set (g := omit n (lab t fl)).
    destruct (sub_facts true p Hp) as (S1 & L1 & P1 & _). destruct (sub_facts true p' Hp') as (S2 & L2 & P2 & _). rewrite Ep in *. rewrite Ep' in *.
    assert (Eg : g = omit n (lab t fl')).
    { apply list_ext_nth; [unfold g; rewrite !omit_length by lia; lia|]. intros i Hi. unfold g in *. rewrite omit_length in Hi by lia. rewrite !(nth_omit n Hn) by lia. destruct (Nat.ltb_spec i n); [|lia]. rewrite !lab_nth by lia. rewrite Ag by lia. auto. }
    assert (G1 : is_face (n - 1) g (nth p (sub true) [])). { split; [apply omit_nodup; apply (sorted_nodup n Hn); auto|]. split; [unfold g; rewrite omit_length; lia|]. intros x Hx. apply (Permutation_in x P1). apply (omit_incl n _ x Hx). }
    assert (G2 : is_face (n - 1) g (nth p' (sub true) [])). { split; [apply omit_nodup; apply (sorted_nodup n Hn); auto|]. split; [unfold g; rewrite omit_length; lia|]. intros x Hx. apply (Permutation_in x P2). rewrite Eg in Hx. apply (omit_incl n _ x Hx). }
    pose proof (C p p' ltac:(lia) ltac:(lia) Hpp g G1 G2) as Q. destruct (facet_label true true p p' g Hp Hp' G1 G2) as (k & x & _ & Hx & _ & E1 & E2). rewrite E1, E2 in Q. cbn [bsign] in Q.
    assert (QS : sgn_pow p = (- sgn_pow p')%Z) by (destruct Hx as [-> | ->]; lia).
    rewrite (incidence_perm_face a f) by (symmetry; auto). rewrite (incidence_perm_face a f (nth j' rows [])) by (symmetry; auto). rewrite J1, J2, QS. ring.
Qed.
End Top.
