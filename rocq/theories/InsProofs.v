(** Subdivision by inserting a vertex in every simplex. *)
Require Import List Arith ZArith Bool Lia Permutation.
From Verif Require Import Util CombModel CombSpec CombProofs SimpModel SimpSpec ParProofs SimpProofs LevelProofs TopProofs
  BdryModel BdrySpec OrientProofs SubProofs SubdModel SubdSpec FundProofs BaryProofs.
Import ListNotations.
Local Open Scope nat_scope.

(** Only [i] and [k] contribute. *)
Lemma sumZ_two : forall (f : nat -> Z) n i k, i < n -> k < n -> i <> k -> (forall j, j < n -> j <> i -> j <> k -> f j = 0%Z) ->
  sumZ (map f (seq 0 n)) = (f i + f k)%Z.
Proof.
  intros f n i k Hi Hk Hne H.
  transitivity (sumZ (map (fun j => Z.add (if j =? i then f i else 0%Z) (if j =? k then f k else 0%Z)) (seq 0 n))).
  - apply sumZ_map_ext. intros j Hj. apply in_seq in Hj. destruct (Nat.eqb_spec j i), (Nat.eqb_spec j k); subst; try lia. rewrite H by lia. lia.
  - rewrite sumZ_map_add. rewrite (sumZ_single _ n i) by (auto; intros j _ Hj; destruct (Nat.eqb_spec j i); congruence). rewrite (sumZ_single _ n k) by (auto; intros j _ Hj; destruct (Nat.eqb_spec j k); congruence). rewrite !Nat.eqb_refl. auto.
Qed.

Lemma omit_app1 : forall c (a : list nat) v, c < length a -> omit c (a ++ [v]) = omit c a ++ [v].
Proof. intros. unfold omit. rewrite firstn_app, skipn_app. replace (c - length a) with 0 by lia. replace (S c - length a) with 0 by lia. simpl. rewrite app_nil_r, app_assoc. auto. Qed.

Lemma alternating_snoc : forall f a v, alternating f (a ++ [v]) = (alternating (fun x => f (x ++ [v])) a + sgn_pow (length a) * f a)%Z.
Proof.
  intros. unfold alternating. rewrite app_length. cbn [length]. rewrite Nat.add_1_r, seq_S, map_app, sumZ_app. cbn [map Nat.add sumZ fold_right]. rewrite omit_snoc. f_equal; [|unfold sumZ; simpl; lia].
  apply sumZ_map_ext. intros c Hc. apply in_seq in Hc. rewrite omit_app1 by lia. auto.
Qed.

Lemma nodup_snoc : forall (a : list nat) v, NoDup a -> ~ In v a -> NoDup (a ++ [v]).
Proof. intros. eapply Permutation_NoDup; [apply Permutation_cons_append|]. constructor; auto. Qed.

Lemma sgn_snoc : forall (a b : list nat) v, Permutation a b -> (sgn (a ++ [v]) * sgn (b ++ [v]) = sgn a * sgn b)%Z.
Proof.
  intros a b v P. unfold sgn. rewrite !inv_app, !sgn_pow_add. rewrite !(Nat.add_comm _ (cross _ _)) || idtac.
  assert (E : cross a [v] = cross b [v]). { clear - P. induction P; cbn [cross] in *; auto; try lia. }
  rewrite E. pose proof (sgn_pow_sq (cross b [v])). pose proof (sgn_pow_sq (inv [v])).
  transitivity (sgn_pow (inv a) * sgn_pow (inv b) * (sgn_pow (cross b [v]) * sgn_pow (cross b [v])) * (sgn_pow (inv [v]) * sgn_pow (inv [v])))%Z; [ring|]. rewrite H, H0. ring.
Qed.

(** The children of a simplex, as oriented chains, have the boundary of the parent. *)
Lemma ins_sum : forall f n s v, 2 <= n -> antisymmetric f -> length s = S n -> NoDup s -> ~ In v s ->
  sumZ (map (fun c => alternating f (facet n c s ++ [v])) (seq 0 (S n))) = (sgn_pow n * alternating f s)%Z.
Proof.
  intros f n s v Hn Hf L ND Hv.
  set (h := fun x : list nat => if in_dec Nat.eq_dec v x then 0%Z else f (x ++ [v])).
  assert (Hh : antisymmetric h).
  { intros l l' NDl P. unfold h. destruct (in_dec Nat.eq_dec v l) as [I|I]; destruct (in_dec Nat.eq_dec v l') as [I'|I']; try ring.
    - exfalso. apply I'. apply (Permutation_in v P); auto.
    - exfalso. apply I. apply (Permutation_in v (Permutation_sym P)); auto.
    - rewrite (Hf (l ++ [v]) (l' ++ [v])); [|apply nodup_snoc; auto|apply Permutation_app_tail; auto]. rewrite sgn_snoc by auto. ring. }
  assert (E : forall x, ~ In v x -> alternating (fun y => f (y ++ [v])) x = alternating h x).
  { intros x Hx. apply alternating_ext. intros c Hc. unfold h. destruct (in_dec Nat.eq_dec v (omit c x)) as [I|I]; auto. exfalso. apply Hx. apply (omit_incl c x v I). }
  transitivity (sumZ (map (fun c => (fun b => alternating h b + sgn_pow n * f b)%Z (facet n c s)) (seq 0 (S n)))).
  - apply sumZ_map_ext. intros c Hc. apply in_seq in Hc. rewrite alternating_snoc, facet_length by lia. rewrite L. replace (S n - 1) with n by lia. rewrite E; auto.
    intros I. apply Hv. apply (Permutation_in v (Permutation_sym (facet_perm n c s ltac:(lia)))) in I. apply (omit_incl c s v I).
  - rewrite (facet_sum (fun b => alternating h b + sgn_pow n * f b)%Z); auto.
    + rewrite alternating_add, alternating_alternating, alternating_mul. ring.
    + intros l l' NDl P. pose proof (alternating_antisym h Hh l l' NDl P) as E1. rewrite E1. rewrite (Hf l l' NDl P). ring.
Qed.

Section Top.
Variables (n : nat) (rows : list simplex) (t : topology).
Hypothesis Hn : 2 <= n.
Hypothesis T : top_ok n rows t.
Notation n0 := (n_elements t 0).

Definition child (j c : nat) : simplex := facet n c (nth j rows []) ++ [j + n0].
Definition ins : list simplex := flat_map (fun j => map (child j) (seq 0 (S n))) (seq 0 (length rows)).

Lemma row_facts : forall j, j < length rows -> length (nth j rows []) = S n /\ NoDup (nth j rows []) /\ (forall v, In v (nth j rows []) -> v < n0).
Proof.
  intros j Hj. pose proof (rows_inside n rows t ltac:(lia) T) as RI. rewrite Forall_forall in RI. destruct (RI _ (nth_In rows [] Hj)) as [L [ND _]]. split; auto. split; auto.
  intros v Hv. apply (to_vused _ _ _ T). apply in_concat. exists (nth j rows []). split; auto. apply nth_In; auto.
Qed.

Lemma insertion_ok : exists fb, generate_simplex_boundary (S n) rows = Ok fb /\ insertion_simplices n0 n rows fb = ins.
Proof.
  exists (full n rows). split.
  - apply generate_ok; auto. pose proof (rows_inside n rows t ltac:(lia) T) as RI. eapply Forall_impl; [|exact RI]. intros s [L [ND _]]. auto.
  - unfold insertion_simplices, ins. rewrite flat_map_concat_map. f_equal. apply map_ext_in. intros j Hj. apply in_seq in Hj. unfold full. rewrite (nth_map_lt _ _ _ _ _ []) by lia. rewrite map_map. auto.
Qed.

Lemma ins_length : length ins = length rows * S n.
Proof. unfold ins. rewrite flat_map_concat_map, flen_concat, map_map. rewrite (map_ext _ (fun _ => S n)) by (intros; rewrite map_length, seq_length; auto). rewrite list_sum_const, seq_length. lia. Qed.
Lemma ins_nth : forall p, p < length rows * S n -> nth p ins [] = child (p / S n) (p mod S n) /\ p / S n < length rows /\ p mod S n < S n.
Proof.
  intros p Hp. destruct (nth_flat_map_rect _ _ (fun j => map (child j) (seq 0 (S n))) (S n) (seq 0 (length rows)) p [] 0 ltac:(lia)) as [E Q].
  - intros. rewrite map_length, seq_length. auto.
  - rewrite seq_length. auto.
  - rewrite seq_length in Q. assert (M : p mod S n < S n) by (apply Nat.mod_upper_bound; lia). split; auto. unfold ins. rewrite E. rewrite seq_nth by auto. rewrite nth_map_seq by auto. auto.
Qed.
Lemma ins_at : forall j c, j < length rows -> c <= n -> nth (j * S n + c) ins [] = child j c /\ j * S n + c < length ins.
Proof.
  intros j c Hj Hc. assert (B : j * S n + c < length rows * S n) by nia. split; [|rewrite ins_length; auto]. destruct (ins_nth _ B) as [E _]. rewrite E. f_equal.
  - rewrite Nat.add_comm, Nat.div_add by lia. rewrite Nat.div_small by lia. auto.
  - rewrite Nat.add_comm, Nat.mod_add by lia. apply Nat.mod_small. lia.
Qed.

Lemma child_facts : forall j c, j < length rows -> c <= n -> length (child j c) = S n /\ NoDup (child j c) /\ Permutation (child j c) (j + n0 :: omit c (nth j rows [])).
Proof.
  intros j c Hj Hc. destruct (row_facts j Hj) as (L & ND & B). pose proof (facet_perm n c (nth j rows []) ltac:(lia)) as P.
  assert (Q : Permutation (child j c) (j + n0 :: omit c (nth j rows []))). { unfold child. rewrite <- Permutation_cons_append. constructor. symmetry. auto. }
  split; [|split; auto].
  - unfold child. rewrite app_length, facet_length by lia. simpl. lia.
  - apply nodup_snoc; [apply facet_nodup; auto; lia|]. intros I. apply (Permutation_in _ (Permutation_sym P)) in I. apply (omit_incl c _) in I. apply B in I. lia.
Qed.

Lemma ins_ok : simplices_ok n ins /\ forall v, In v (concat ins) <-> v < n0 + length rows.
Proof.
  split; [split|].
  - pose proof (to_ok _ _ _ T n ltac:(lia)) as [NE _]. rewrite (to_top _ _ _ T) in NE. intros E. pose proof ins_length as LS. rewrite E in LS. destruct rows; [congruence|]. simpl in LS. lia.
  - apply Forall_forall. intros s Hs. apply In_nth with (d := []) in Hs as (p & Hp & <-). rewrite ins_length in Hp. destruct (ins_nth p Hp) as (-> & Hj & Hc). destruct (child_facts (p / S n) (p mod S n)) as (A & B & _); auto. lia.
  - intros v. rewrite in_concat. split.
    + intros (s & Hs & Hv). apply In_nth with (d := []) in Hs as (p & Hp & <-). rewrite ins_length in Hp. destruct (ins_nth p Hp) as (E & Hj & Hc). rewrite E in Hv. destruct (child_facts (p / S n) (p mod S n)) as (_ & _ & P); auto; [lia|].
      apply (Permutation_in _ P) in Hv as [<-|Hv]; [lia|]. apply (omit_incl _ _) in Hv. apply row_facts in Hv; auto. lia.
    + intros Hv. destruct (Nat.lt_ge_cases v n0) as [H|H].
      * apply (to_vused _ _ _ T) in H. apply in_concat in H as (s & Hs & Hvs). apply In_nth with (d := []) in Hs as (j & Hj & <-). destruct (row_facts j Hj) as (L & ND & B).
        assert (Q : exists c, c <= n /\ In v (omit c (nth j rows []))).
        { apply In_nth with (d := 0) in Hvs as (q & Hq & E). set (c := if q =? 0 then 1 else 0). assert (Hc : c <= n /\ c <> q) by (unfold c; destruct (Nat.eqb_spec q 0); lia). exists c. split; [apply Hc|].
          pose proof (omit_perm_cons c (nth j rows []) ltac:(lia)) as P. assert (I : In v (nth c (nth j rows []) 0 :: omit c (nth j rows []))) by (apply (Permutation_in _ P); rewrite <- E; apply nth_In; auto).
          destruct I as [I|I]; auto. exfalso. rewrite <- E in I. apply (proj1 (NoDup_nth _ 0) ND) in I; lia. }
        destruct Q as (c & Hc & I). destruct (ins_at j c Hj Hc) as [E Lp]. exists (child j c). split; [rewrite <- E; apply nth_In; auto|]. destruct (child_facts j c Hj Hc) as (_ & _ & P). apply (Permutation_in _ (Permutation_sym P)). right. auto.
      * destruct (ins_at (v - n0) 0 ltac:(lia) ltac:(lia)) as [E Lp]. exists (child (v - n0) 0). split; [rewrite <- E; apply nth_In; auto|]. destruct (child_facts (v - n0) 0 ltac:(lia) ltac:(lia)) as (_ & _ & P). apply (Permutation_in _ (Permutation_sym P)). left. lia.
Qed.

(** Boundary of the children. *)
Lemma children_boundary : forall g j, j < length rows ->
  sumZ (map (fun c => incidence_number g (child j c)) (seq 0 (S n))) = (sgn_pow n * incidence_number g (nth j rows []))%Z.
Proof.
  intros g j Hj. destruct (row_facts j Hj) as (L & ND & B). rewrite incidence_alternating. rewrite <- (ins_sum (fun x => rel_sign x g) n (nth j rows []) (j + n0) Hn (rel_sign_antisym g) L ND).
  - apply sumZ_map_ext. intros c _. apply incidence_alternating.
  - intros I. apply B in I. lia.
Qed.

Lemma tip_in : forall g j c, j < length rows -> c <= n -> is_face (n - 1) g (child j c) -> In (j + n0) g \/ Permutation g (omit c (nth j rows [])).
Proof.
  intros g j c Hj Hc (ND & L & I). destruct (in_dec Nat.eq_dec (j + n0) g) as [|N]; [left; auto|right]. destruct (row_facts j Hj) as (Lr & NDr & B). destruct (child_facts j c Hj Hc) as (_ & _ & P).
  apply NoDup_Permutation_bis; auto; [rewrite omit_length; lia|]. intros x Hx. pose proof (I x Hx) as Q. apply (Permutation_in _ P) in Q as [Q|Q]; [subst; contradiction|auto].
Qed.

Lemma ins_consistent : consistent n rows <-> consistent n ins.
Proof.
  assert (Out : forall g j c, j < length rows -> c <= n -> Permutation g (omit c (nth j rows [])) -> incidence_number g (child j c) = (sgn_pow n * incidence_number g (nth j rows []))%Z).
  { intros g j c Hj Hc P. rewrite <- (children_boundary g j Hj). symmetry. destruct (row_facts j Hj) as (L & ND & B). apply (sumZ_single (fun c => incidence_number g (child j c)) (S n) c); [lia|]. intros c' Hc' Hne. destruct (child_facts j c' Hj ltac:(lia)) as (L1 & ND1 & P1).
    apply incidence_values; auto; [eapply Permutation_NoDup; [symmetry; exact P|apply omit_nodup; auto]|rewrite L1, (Permutation_length P), omit_length; lia|].
    intros I. apply Hne. apply (omit_perm_inj c' c (nth j rows [])); auto; try lia. rewrite <- P. symmetry. apply NoDup_Permutation_bis.
    - eapply Permutation_NoDup; [symmetry; exact P|apply omit_nodup; auto].
    - rewrite (Permutation_length P), !omit_length; lia.
    - intros x Hx. pose proof (I x Hx) as Q. apply (Permutation_in _ P1) in Q as [Q|Q]; auto. apply (Permutation_in _ P) in Hx. apply omit_incl in Hx. apply B in Hx. lia. }
  split.
  - intros C p p' Hp Hp' Hne g F F'. rewrite ins_length in Hp, Hp'. destruct (ins_nth p Hp) as (E & Hj & Hc). destruct (ins_nth p' Hp') as (E' & Hj' & Hc'). rewrite E in F |- *. rewrite E' in F' |- *.
    set (j := p / S n) in *. set (j' := p' / S n) in *. set (c := p mod S n) in *. set (c' := p' mod S n) in *.
    assert (D1 : p = S n * j + c) by (apply Nat.div_mod; lia). assert (D2 : p' = S n * j' + c') by (apply Nat.div_mod; lia).
    destruct (row_facts j Hj) as (L & ND & B). destruct (row_facts j' Hj') as (L' & ND' & B'). destruct (child_facts j c Hj ltac:(lia)) as (L1 & ND1 & P1). destruct (child_facts j' c' Hj' ltac:(lia)) as (L1' & ND1' & P1').
    pose proof F as (NDg & Lg & Ig). pose proof F' as (_ & _ & Ig').
    destruct (tip_in g j c Hj ltac:(lia) F) as [I|P].
    + (* shared facet contains the new vertex: same parent *)
      assert (Ej : j = j'). { pose proof (Ig' _ I) as Q. apply (Permutation_in _ P1') in Q as [Q|Q]; [lia|]. apply omit_incl in Q. apply B' in Q. lia. }
      clearbody j j' c c'. subst j'. assert (Hcc : c <> c') by (intros ->; apply Hne; lia).
      pose proof (children_boundary g j Hj) as S1. rewrite (sumZ_two _ (S n) c c') in S1; auto; try lia.
      * assert (Z0 : incidence_number g (nth j rows []) = 0%Z). { apply incidence_values; auto; [lia|]. intros Q. apply Q in I. apply B in I. lia. } rewrite Z0 in S1. lia.
      * intros d Hd Hd1 Hd2. destruct (child_facts j d Hj ltac:(lia)) as (L2 & ND2 & P2). apply incidence_values; auto; [lia|]. intros Id.
        (* g without the tip misses three corners *)
        set (s := nth j rows []) in *. assert (Q : incl (j + n0 :: nth c s 0 :: nth c' s 0 :: nth d s 0 :: g) (j + n0 :: s)).
        { intros x [<-|[<-|[<-|[<-|Hx]]]]; [left; auto|right; apply nth_In; lia|right; apply nth_In; lia|right; apply nth_In; lia|]. pose proof (Ig _ Hx) as Q. apply (Permutation_in _ P1) in Q as [Q|Q]; [left; auto|right; apply (omit_incl c s x Q)]. }
        assert (Miss : forall e, e <= n -> incl g (child j e) -> ~ In (nth e s 0) g).
        { intros e He Ie X. destruct (child_facts j e Hj He) as (_ & _ & Pe). pose proof (Ie _ X) as Y. apply (Permutation_in _ Pe) in Y as [Y|Y].
          - assert (nth e s 0 < n0) by (apply B; apply nth_In; lia). lia.
          - pose proof (omit_perm_cons e s ltac:(lia)) as Pp. pose proof (Permutation_NoDup Pp ND) as NN. inversion NN; contradiction. }
        assert (ND3 : NoDup (nth c s 0 :: nth c' s 0 :: nth d s 0 :: g)).
        { assert (Inj : forall a b, a <= n -> b <= n -> nth a s 0 = nth b s 0 -> a = b) by (intros a b Ha Hb Eab; apply (proj1 (NoDup_nth s 0) ND); auto; lia).
          constructor; [intros [X|[X|X]]|constructor; [intros [X|X]|constructor; auto]].
          - apply Inj in X; lia. - apply Inj in X; lia. - apply (Miss c); auto; lia. - apply Inj in X; lia. - apply (Miss c'); auto; lia. - apply (Miss d); auto; lia. }
        assert (Len : length (nth c s 0 :: nth c' s 0 :: nth d s 0 :: g) <= length (j + n0 :: s)). { apply NoDup_incl_length; auto. intros x Hx. apply Q. right. auto. }
        cbn [length] in Len. lia.
    + destruct (tip_in g j' c' Hj' ltac:(lia) F') as [I'|P'].
      { exfalso. apply (Permutation_in _ P) in I'. apply omit_incl in I'. apply B in I'. lia. }
      rewrite (Out g j c), (Out g j' c') by (auto; lia). assert (Hjj : j <> j').
      { clearbody j j' c c'. intros ->. apply Hne. assert (c = c') by (apply (omit_perm_inj c c' (nth j' rows [])); auto; try lia; rewrite <- P, <- P'; auto). lia. }
      rewrite (C j j' Hj Hj' Hjj g); [ring| |].
      * split; auto. split; auto. intros x Hx. apply (Permutation_in _ P) in Hx. apply (omit_incl c _ x Hx).
      * split; auto. split; auto. intros x Hx. apply (Permutation_in _ P') in Hx. apply (omit_incl c' _ x Hx).
  - intros C j j' Hj Hj' Hne g (NDg & Lg & Ig) (_ & _ & Ig'). destruct (row_facts j Hj) as (L & ND & B). destruct (row_facts j' Hj') as (L' & ND' & B').
    destruct (incl_omit g _ NDg ND ltac:(lia) Ig) as (c & Hc & P). destruct (incl_omit g _ NDg ND' ltac:(lia) Ig') as (c' & Hc' & P').
    destruct (ins_at j c Hj ltac:(lia)) as [E Lp]. destruct (ins_at j' c' Hj' ltac:(lia)) as [E' Lp']. destruct (child_facts j c Hj ltac:(lia)) as (L1 & ND1 & P1). destruct (child_facts j' c' Hj' ltac:(lia)) as (L1' & ND1' & P1').
    assert (Hpp : j * S n + c <> j' * S n + c') by (intros X; apply Hne; nia).
    pose proof (C _ _ Lp Lp' Hpp g) as Q. rewrite E, E' in Q. rewrite (Out g j c), (Out g j' c') in Q by (auto; lia || (symmetry; auto)).
    assert (X : (sgn_pow n * incidence_number g (nth j rows []) = - (sgn_pow n * incidence_number g (nth j' rows [])))%Z).
    { apply Q; (split; [auto|split; [auto|]]); intros x Hx; [apply (Permutation_in _ (Permutation_sym P1))|apply (Permutation_in _ (Permutation_sym P1'))]; right; [apply (Permutation_in _ (Permutation_sym P))|apply (Permutation_in _ (Permutation_sym P'))]; auto. }
    destruct (sgn_pow_cases n) as [S1|S1]; rewrite S1 in X; lia.
Qed.
End Top.
