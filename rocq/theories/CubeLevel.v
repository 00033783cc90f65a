(** One step of from_cubes: the lower cubes, their index and orientation. *)
Require Import List Arith ZArith Bool Lia Permutation.
From Verif Require Import Util CombModel CombSpec CombProofs SimpModel SimpSpec ParProofs SimpProofs LevelProofs CubeModel CubeSpec CubeBits CubeBd CubeRel.
Import ListNotations.
Local Open Scope nat_scope.

(** ---- parity of one cube relative to another ---- *)
Lemma parity_orientation : forall x, parity_to_orientation (x mod 2) = (- sgn_pow x)%Z.
Proof.
  intros x. rewrite sgn_odd. unfold parity_to_orientation. pose proof (mod2_odd x) as Q. pose proof (Nat.mod_upper_bound x 2 ltac:(lia)) as B. destruct (Nat.odd x).
  - apply Nat.eqb_eq in Q. rewrite Q. reflexivity.
  - apply Nat.eqb_neq in Q. replace (x mod 2) with 0 by lia. reflexivity.
Qed.
Lemma sgn_pow_inv2 : forall a b, sgn_pow (a mod 2 + b) = (sgn_pow a * sgn_pow b)%Z.
Proof.
  intros a b. rewrite sgn_pow_add. f_equal. rewrite !sgn_odd. pose proof (mod2_odd a) as Q. pose proof (Nat.mod_upper_bound a 2 ltac:(lia)) as B. destruct (Nat.odd a).
  - apply Nat.eqb_eq in Q. rewrite Q. auto.
  - apply Nat.eqb_neq in Q. replace (a mod 2) with 0 by lia. auto.
Qed.
Lemma pm_in : forall m p row, In (p, row) (permutation_map m) -> exists h, In h (group m) /\ row = act m h (seq 0 (2 ^ m)) /\ parity_to_orientation p = (- gsign h)%Z.
Proof.
  intros m p row H. unfold permutation_map in H. apply in_flat_map in H as ([q l] & Hq & H). apply in_map_iff in H as (c & E & Hc). assert (E1 := f_equal fst E). assert (E2 := f_equal snd E). cbn [fst snd] in E1, E2. clear E. subst p row. apply corners_in in Hc.
  apply permutations_nonempty_parity in Hq as [-> P]; [|apply seq_sorted]. exists (l, c). assert (Hh : In (l, c) (group m)) by (apply group_in; auto). split; auto. split; [rewrite act_flips by auto; reflexivity|].
  rewrite parity_orientation, sgn_pow_inv2. unfold gsign. cbn [fst snd]. reflexivity.
Qed.
Lemma pm_has : forall m h, 1 <= m -> In h (group m) -> In (act m h (seq 0 (2 ^ m))) (map snd (permutation_map m)).
Proof.
  intros m h Hm Hh. pose proof (proj1 (group_in m h) Hh) as [P L]. rewrite act_flips by auto.
  assert (In (fst h) (map snd (permutations (seq 0 m)))) as Q by (apply permutations_complete; auto; destruct m; [lia|discriminate]). apply in_map_iff in Q as (pp & E & Hp).
  apply in_map_iff. exists ((fst pp + bit_sum (snd h)) mod 2, flips m (snd h) (transpose_cube m (fst h) (seq 0 (2 ^ m)))). split; auto. unfold permutation_map. apply in_flat_map. exists pp. split; auto. apply in_map_iff. exists (snd h). rewrite E. split; auto. apply corners_in. auto.
Qed.
Lemma take_act : forall m h x, In h (group m) -> length x = 2 ^ m -> take x (act m h (seq 0 (2 ^ m))) = act m h x.
Proof.
  intros m h x Hh L. apply group_in in Hh as [P Lf]. unfold take, act, cbuild. rewrite map_map. apply map_ext_in. intros bs Hb. apply corners_in in Hb. unfold cget. f_equal.
  pose proof (scatter_length m (fst h) (xor bs (snd h)) P) as LS. pose proof (ravel_lt (scatter (fst h) (xor bs (snd h)))) as R. rewrite LS in R. rewrite seq_nth; auto.
Qed.
Lemma take_inj : forall x l l', NoDup x -> (forall i, In i l -> i < length x) -> (forall i, In i l' -> i < length x) -> take x l = take x l' -> l = l'.
Proof.
  intros x l. induction l as [|a l IH]; destruct l' as [|b l']; intros ND H H' E; try discriminate; auto. injection E as E1 E2. f_equal.
  - apply (proj1 (NoDup_nth x 0) ND); [apply H; left; auto|apply H'; left; auto|auto].
  - apply IH; auto; intros; [apply H|apply H']; right; auto.
Qed.
Lemma parity_ok : forall m x r, 1 <= m -> NoDup x -> length x = 2 ^ m -> Permutation x r -> csign m x r <> 0%Z -> 2 ^ m < 128 ->
  exists p, relative_cube_parity m (relative_permutation (argsort x) (argsort r)) = Ok p /\ parity_to_orientation p = (- csign m x r)%Z.
Proof.
  intros m x r Hm ND L P H B. destruct (relative_permutation_spec x r P) as [Q E]. set (rel := relative_permutation (argsort x) (argsort r)) in *. clearbody rel.
  apply csign_nz in H as (h & Hh & Er).
  assert (Erel : rel = act m h (seq 0 (2 ^ m))).
  { apply (take_inj x); auto.
    - intros i Hi. apply Permutation_sym in Q. apply (Permutation_in _ Q) in Hi. apply in_seq in Hi. lia.
    - intros i Hi. pose proof (act_perm m (seq 0 (2 ^ m)) h (seq_length _ _) Hh) as P'. apply Permutation_sym in P'. apply (Permutation_in _ P') in Hi. apply in_seq in Hi. lia.
    - rewrite take_act by auto. congruence. }
  assert (HI : In rel (map snd (permutation_map m))) by (rewrite Erel; apply pm_has; auto).
  unfold relative_cube_parity. replace (128 <=? 2 ^ m) with false by (symmetry; apply Nat.leb_gt; auto).
  pose proof (index_of_lt _ list_eqb _ _ list_eqb_ok HI) as HL. rewrite map_length in HL. pose proof (nth_index_of _ list_eqb _ _ [] list_eqb_ok HI) as HN.
  set (k := index_of list_eqb rel (map snd (permutation_map m))) in *. clearbody k.
  destruct (nth_error (permutation_map m) k) as [[p row]|] eqn:En; [|apply nth_error_None in En; lia]. exists p. split; auto.
  rewrite (nth_map_lt _ _ _ _ _ (0, [])) in HN by auto. rewrite (nth_error_nth _ _ (0, []) En) in HN. cbn [snd] in HN. subst row.
  apply nth_error_In in En. apply pm_in in En as (h' & Hh' & E2 & E3). rewrite E3. rewrite Erel in E2. apply act_inj in E2; auto; [|apply seq_NoDup|apply seq_length]. subst h'. rewrite <- Er. rewrite csign_act by auto. auto.
Qed.
Lemma parity_err : forall m x r, length x = 2 ^ m -> NoDup x -> Permutation x r -> csign m x r = 0%Z -> 2 ^ m < 128 ->
  relative_cube_parity m (relative_permutation (argsort x) (argsort r)) = Err ValueError.
Proof.
  intros m x r L ND P H B. destruct (relative_permutation_spec x r P) as [Q E]. set (rel := relative_permutation (argsort x) (argsort r)) in *. clearbody rel.
  unfold relative_cube_parity. replace (128 <=? 2 ^ m) with false by (symmetry; apply Nat.leb_gt; auto).
  destruct (nth_error (permutation_map m) _) as [[p row]|] eqn:En; auto. exfalso.
  pose proof (nth_error_In _ _ En) as Hin. assert (HL : index_of list_eqb rel (map snd (permutation_map m)) < length (map snd (permutation_map m))) by (rewrite map_length; apply nth_error_Some; congruence).
  assert (HI : In rel (map snd (permutation_map m))).
  { clear -HL. revert HL. generalize (map snd (permutation_map m)). induction l as [|a l IH]; cbn [index_of length]; intros HL; [lia|]. destruct (list_eqb rel a) eqn:E; [apply list_eqb_eq in E; left; auto|right; apply IH; lia]. }
  apply in_map_iff in HI as ([p' row'] & E1 & HI). cbn [snd] in E1. subst row'. apply pm_in in HI as (h & Hh & E2 & _). rewrite E2, take_act in E by auto. subst r. rewrite csign_act in H by auto. destruct (gsign_cases h); lia.
Qed.

Lemma mapM_err : forall A B (f : A -> result B) e l, (forall x, In x l -> f x = Err e \/ exists y, f x = Ok y) -> (exists x, In x l /\ f x = Err e) -> mapM f l = Err e.
Proof.
  induction l as [|a l IH]; intros H (x & Hx & E); [destruct Hx|]. cbn [mapM]. destruct (H a (or_introl eq_refl)) as [Ea|[y Ea]]; rewrite Ea; cbn [bind]; auto.
  destruct Hx as [->|Hx]; [congruence|]. rewrite IH; auto; [intros; apply H; right; auto|eauto].
Qed.
Lemma mapM_ok_map : forall A B (f : A -> result B) l, (forall x, In x l -> exists y, f x = Ok y) -> exists ys, mapM f l = Ok ys /\ length ys = length l /\ forall i, i < length l -> forall d d', f (nth i l d) = Ok (nth i ys d').
Proof.
  induction l as [|a l IH]; intros H; [exists []; repeat split; auto; intros; simpl in *; lia|]. destruct (H a (or_introl eq_refl)) as [y Ey]. destruct IH as (ys & E & L & N); [intros; apply H; right; auto|].
  exists (y :: ys). cbn [mapM]. rewrite Ey. cbn [bind]. rewrite E. repeat split; [simpl; lia|]. intros [|i] Hi d d'; cbn [nth]; auto. apply N. simpl in Hi. lia.
Qed.

Section Order.
Variable row_leb : list nat -> list nat -> bool.
Section Lower.
Variables (n : nat) (rows : list cube).
Hypothesis Hn : 2 <= n.
Hypothesis OK : Forall (fun c => length c = 2 ^ n /\ NoDup c) rows.
Let bc := concat (map (gfaces n) rows).
Let U := unique_rows row_leb (map sort_row bc).
Definition lows : list cube := map (rep bc) U.
Definition lidx (x : cube) : nat := index_of list_eqb (sort_row x) U.

Lemma bc_in : forall x, In x bc <-> exists c a s, In c rows /\ a < n /\ x = gface n a s c.
Proof.
  intros x. unfold bc. rewrite <- flat_map_concat_map, in_flat_map. split.
  - intros (c & Hc & H). unfold gfaces in H. apply in_flat_map in H as (a & Ha & H). apply in_map_iff in H as (s & <- & _). apply in_seq in Ha. exists c, a, s. repeat split; auto. lia.
  - intros (c & a & s & Hc & Ha & ->). exists c. split; auto. unfold gfaces. apply in_flat_map. exists a. split; [apply in_seq; lia|]. apply in_map_iff. exists s. split; auto. destruct s; simpl; auto.
Qed.
Lemma bc_ok : forall x, In x bc -> NoDup x /\ length x = 2 ^ (n - 1).
Proof. intros x Hx. apply bc_in in Hx as (c & a & s & Hc & Ha & ->). rewrite Forall_forall in OK. destruct (OK c Hc). split; [apply gface_nodup; auto|apply gface_length]. Qed.
Lemma lidx_ok : forall x, In x bc -> lidx x < length lows /\ nth (lidx x) lows [] = rep bc (sort_row x).
Proof.
  intros x Hx. unfold lidx, lows. rewrite map_length.
  assert (HU : In (sort_row x) U) by (apply unique_rows_in, in_map; auto).
  assert (index_of list_eqb (sort_row x) U < length U) by (apply index_of_lt; [apply list_eqb_ok|auto]).
  split; auto. rewrite (nth_map_lt _ _ _ _ _ []) by auto. rewrite nth_index_of; auto. apply list_eqb_ok.
Qed.
Lemma lows_in : forall k, k < length lows -> In (nth k lows []) bc.
Proof.
  intros k Hk. unfold lows in *. rewrite map_length in *. rewrite (nth_map_lt _ _ _ _ _ []) by auto.
  assert (Hu : In (nth k U []) U) by (apply nth_In; auto). apply (proj1 (unique_rows_in _ _ _)) in Hu. apply in_map_iff in Hu as (x & <- & Hx). apply rep_in; auto.
Qed.
Lemma lows_uniq : forall k k', k < length lows -> k' < length lows -> Permutation (nth k lows []) (nth k' lows []) -> k = k'.
Proof.
  intros k k' Hk Hk' P. unfold lows in *. rewrite map_length in *. rewrite !(nth_map_lt _ _ _ _ _ []) in P by auto.
  assert (Aux : forall u, In u U -> sort_row (rep bc u) = u).
  { intros u Hu. apply (proj1 (unique_rows_in _ _ _)) in Hu. apply in_map_iff in Hu as (x & <- & Hx). apply sort_row_eq. apply Permutation_sym, rep_in; auto. }
  apply sort_row_eq in P. rewrite !Aux in P by (apply nth_In; auto). eapply NoDup_nth; eauto. apply unique_rows_nodup.
Qed.

Definition lrel (x : cube) : list nat := relative_permutation (argsort x) (argsort (rep bc (sort_row x))).
Lemma lower_form : lower row_leb true n rows =
  bind (mapM (fun x => relative_cube_parity (n - 1) (lrel x)) bc) (fun parity => Ok (lows, map (map lidx) (map (gfaces n) rows), chunks (length rows) (n * 2) (map parity_to_orientation parity))).
Proof.
  assert (Rect : Forall (fun l => length l = n * 2) (map (gfaces n) rows)) by (apply Forall_forall; intros l Hl; apply in_map_iff in Hl as (c & <- & _); apply gfaces_length).
  unfold lower. destruct (n =? 1) eqn:E1; [apply Nat.eqb_eq in E1; lia|].
  assert (Ebc : concat (map (fun c => concat (generate_cube_boundary n 1 true c)) rows) = bc).
  { unfold bc. f_equal. apply map_ext_in. intros c Hc. rewrite Forall_forall in OK. destruct (OK c Hc). rewrite generate_1 by auto. unfold gfaces. rewrite flat_map_concat_map. auto. }
  rewrite Ebc.
  assert (Einv : index_inverse row_leb (map sort_row bc) = map lidx bc) by (unfold index_inverse; rewrite map_map; reflexivity). rewrite Einv.
  assert (Elow : map (fun k => nth k bc []) (index_index row_leb (map sort_row bc)) = lows) by (unfold index_index, lows; rewrite map_map; reflexivity). rewrite Elow.
  assert (Ecan : map (fun k => nth k (map argsort bc) []) (index_index row_leb (map sort_row bc)) = map argsort lows).
  { rewrite <- Elow. rewrite map_map. unfold index_index. rewrite !map_map. apply map_ext_in. intros u Hu.
    apply (proj1 (unique_rows_in _ _ _)) in Hu. rewrite (nth_map_lt _ _ _ _ _ []); auto. rewrite <- (map_length sort_row). apply index_of_lt; auto. apply list_eqb_ok. }
  rewrite Ecan, map_map, combine_map, map_map.
  assert (Erel : map (fun x => relative_permutation (fst (argsort x, nth (lidx x) (map argsort lows) [])) (snd (argsort x, nth (lidx x) (map argsort lows) []))) bc = map lrel bc).
  { apply map_ext_in. intros x Hx. cbn [fst snd]. destruct (lidx_ok x Hx) as [H1 H2]. rewrite (nth_map_lt _ _ _ _ _ []) by auto. rewrite H2. reflexivity. }
  rewrite Erel, mapM_map.
  assert (Ech : chunks (length rows) (n * 2) (map lidx bc) = map (map lidx) (map (gfaces n) rows)).
  { unfold bc. rewrite concat_map. rewrite <- (map_length (gfaces n) rows), <- (map_length (map lidx)). apply chunks_concat. apply Forall_map. eapply Forall_impl; [|exact Rect]. cbn beta. intros l Hl. rewrite map_length; auto. }
  rewrite Ech. reflexivity.
Qed.

Definition compat_faces : Prop := forall x, In x bc -> csign (n - 1) x (rep bc (sort_row x)) <> 0%Z.
Definition lori (x : cube) : Z := (- csign (n - 1) x (nth (lidx x) lows []))%Z.

Lemma lower_ok : 2 ^ (n - 1) < 128 -> compat_faces -> lower row_leb true n rows = Ok (lows, map (map lidx) (map (gfaces n) rows), map (map lori) (map (gfaces n) rows)).
Proof.
  intros B C. rewrite lower_form.
  assert (Rect : Forall (fun l => length l = n * 2) (map (gfaces n) rows)) by (apply Forall_forall; intros l Hl; apply in_map_iff in Hl as (c & <- & _); apply gfaces_length).
  assert (HO : forall x, In x bc -> exists p, relative_cube_parity (n - 1) (lrel x) = Ok p /\ parity_to_orientation p = lori x).
  { intros x Hx. destruct (bc_ok x Hx) as [ND L]. destruct (rep_in bc x Hx) as [_ P]. destruct (parity_ok (n - 1) x (rep bc (sort_row x))) as (p & E1 & E2); auto; [lia|]. exists p. split; auto. unfold lori. destruct (lidx_ok x Hx) as [_ ->]. auto. }
  destruct (mapM_ok_map _ _ (fun x => relative_cube_parity (n - 1) (lrel x)) bc) as (ys & E & L & N); [intros x Hx; destruct (HO x Hx) as (p & E & _); eauto|]. rewrite E. cbn [bind].
  assert (Eys : map parity_to_orientation ys = map lori bc).
  { apply (nth_ext _ _ 0%Z 0%Z); [rewrite !map_length; auto|]. intros i Hi. rewrite map_length in Hi. rewrite (nth_map_lt _ _ _ _ _ 0), (nth_map_lt _ _ _ _ _ []) by lia. specialize (N i ltac:(lia) [] 0).
    destruct (HO (nth i bc []) ltac:(apply nth_In; lia)) as (p & E1 & E2). rewrite E1 in N. injection N as N. rewrite <- N. auto. }
  rewrite Eys. assert (Ech : chunks (length rows) (n * 2) (map lori bc) = map (map lori) (map (gfaces n) rows)).
  { unfold bc. rewrite concat_map. rewrite <- (map_length (gfaces n) rows), <- (map_length (map lori)). apply chunks_concat. apply Forall_map. eapply Forall_impl; [|exact Rect]. cbn beta. intros l Hl. rewrite map_length; auto. }
  rewrite Ech. auto.
Qed.
Lemma lower_err : 2 ^ (n - 1) < 128 -> ~ compat_faces -> lower row_leb true n rows = Err ValueError.
Proof.
  intros B C. rewrite lower_form.
  assert (HX : exists x, In x bc /\ csign (n - 1) x (rep bc (sort_row x)) = 0%Z).
  { destruct (Exists_dec (fun x => csign (n - 1) x (rep bc (sort_row x)) = 0%Z) bc) as [H|H]; [intros x; apply Z.eq_dec|apply Exists_exists in H; auto|]. exfalso. apply C. intros x Hx E. apply H. apply Exists_exists. eauto. }
  rewrite (mapM_err _ _ _ ValueError); auto.
  - intros x Hx. destruct (bc_ok x Hx) as [ND L]. destruct (rep_in bc x Hx) as [_ P]. destruct (Z.eq_dec (csign (n - 1) x (rep bc (sort_row x))) 0%Z) as [E|E].
    + left. apply parity_err; auto.
    + right. destruct (parity_ok (n - 1) x (rep bc (sort_row x))) as (p & E1 & _); auto; [lia|]. eauto.
  - destruct HX as (x & Hx & E). exists x. split; auto. destruct (bc_ok x Hx) as [ND L]. destruct (rep_in bc x Hx) as [_ P]. apply parity_err; auto.
Qed.
Lemma lower_big : 128 <= 2 ^ (n - 1) -> rows <> [] -> lower row_leb true n rows = Err AssertionError.
Proof.
  intros B Hne. rewrite lower_form.
  assert (A : forall x, In x bc -> relative_cube_parity (n - 1) (lrel x) = Err AssertionError) by (intros x Hx; unfold relative_cube_parity; rewrite (proj2 (Nat.leb_le _ _) B); auto).
  rewrite (mapM_err _ _ _ AssertionError); auto. assert (HC : exists c, In c rows) by (clear -Hne; destruct rows as [|c r]; [congruence|exists c; left; auto]). destruct HC as [c Hc]. exists (gface n 0 false c).
  assert (HI : In (gface n 0 false c) bc) by (apply bc_in; exists c, 0, false; repeat split; auto; lia). auto.
Qed.
End Lower.
End Order.
