(** Products of cubes, and grids as products of intervals. *)
Require Import List Arith ZArith Bool Lia Permutation.
From Verif Require Import Util CombModel CombSpec CombProofs SimpModel SimpSpec ParProofs SimpProofs LevelProofs TopProofs CubeModel CubeSpec CubeBits CubeBd CubeRel CubeLevel CubeTop.
Import ListNotations.
Local Open Scope nat_scope.

Lemma nth_firstn_lt : forall A (l : list A) n i d, i < n -> nth i (firstn n l) d = nth i l d.
Proof. induction l; destruct n, i; simpl; intros; try lia; auto. apply IHl. lia. Qed.
Lemma nth_skipn_add : forall A (l : list A) n i d, nth i (skipn n l) d = nth (n + i) l d.
Proof. induction l; destruct n; simpl; intros; auto. destruct i; auto. Qed.

Section Prod.
Variable lab : nat -> nat -> nat.
Definition gcube (n1 n2 : nat) (s o : cube) : cube := cbuild (n1 + n2) (fun bs => lab (cget s (firstn n1 bs)) (cget o (skipn n1 bs))).

Lemma gcube_length : forall n1 n2 s o, length (gcube n1 n2 s o) = 2 ^ (n1 + n2).
Proof. intros. apply cbuild_length. Qed.
Lemma cget_gcube : forall n1 n2 s o b b', length b = n1 -> length b' = n2 -> cget (gcube n1 n2 s o) (b ++ b') = lab (cget s b) (cget o b').
Proof.
  intros n1 n2 s o b b' L L'. unfold gcube. rewrite cget_build by (rewrite app_length; lia). rewrite <- L. rewrite firstn_app, skipn_app, firstn_all, skipn_all, Nat.sub_diag. cbn [firstn skipn app]. rewrite app_nil_r. auto.
Qed.
Lemma gcube_in : forall n1 n2 s o v, length s = 2 ^ n1 -> length o = 2 ^ n2 -> (In v (gcube n1 n2 s o) <-> exists u w, In u s /\ In w o /\ v = lab u w).
Proof.
  intros n1 n2 s o v L L'. split.
  - intros H. apply (in_cget (n1 + n2)) in H as (bs & Lb & <-); [|apply gcube_length]. unfold gcube. rewrite cget_build by auto. eexists _, _. repeat split.
    + apply (cget_in n1); auto. rewrite firstn_length. lia.
    + apply (cget_in n2); auto. rewrite skipn_length. lia.
  - intros (u & w & Hu & Hw & ->). apply (in_cget n1) in Hu as (b & Lb & <-); auto. apply (in_cget n2) in Hw as (b' & Lb' & <-); auto. rewrite <- (cget_gcube n1 n2) by auto. apply (cget_in (n1 + n2)); [apply gcube_length|rewrite app_length; lia].
Qed.
(** Two product arrays with equal entries. *)
Lemma gcube_ext : forall n1 n2 n s o c, n = n1 + n2 -> length c = 2 ^ n -> (forall b b', length b = n1 -> length b' = n2 -> cget c (b ++ b') = lab (cget s b) (cget o b')) -> c = gcube n1 n2 s o.
Proof.
  intros n1 n2 n s o c -> L H. apply (cube_ext (n1 + n2)); auto; [apply gcube_length|]. intros bs Lb. rewrite <- (firstn_skipn n1 bs). rewrite H, cget_gcube; auto; rewrite ?firstn_length, ?skipn_length; lia.
Qed.

Lemma insert_app_l : forall a t b b', a <= length b -> insert_at a t (b ++ b') = insert_at a t b ++ b'.
Proof. induction a; destruct b; simpl; intros; try lia; auto. f_equal. apply IHa. lia. Qed.
Lemma insert_app_r : forall a t b b', insert_at (length b + a) t (b ++ b') = b ++ insert_at a t b'.
Proof. induction b; simpl; intros; auto. f_equal. auto. Qed.
Lemma flip_app_l : forall a b b', a < length b -> flip_bit a (b ++ b') = flip_bit a b ++ b'.
Proof. intros a b. revert a. induction b as [|x b IH]; intros [|a] b' H; simpl in *; try lia; auto. f_equal. apply IH. lia. Qed.
Lemma flip_app_r : forall a b b', flip_bit (length b + a) (b ++ b') = b ++ flip_bit a b'.
Proof. induction b; simpl; intros; auto. f_equal. auto. Qed.
Lemma swap_app_l : forall a b b', S a < length b -> swap_bit a (b ++ b') = swap_bit a b ++ b'.
Proof.
  intros a b b' Ha. apply (bits_ext (length b + length b')); [rewrite swap_bit_length, app_length; auto|rewrite app_length, swap_bit_length; auto|]. intros i Hi. rewrite nth_swap by (rewrite app_length; auto).
  destruct (Nat.lt_ge_cases i (length b)).
  - rewrite (app_nth1 (swap_bit a b)) by (rewrite swap_bit_length; auto). rewrite nth_swap by auto. apply app_nth1. apply tr_lt; auto.
  - rewrite (app_nth2 (swap_bit a b)) by (rewrite swap_bit_length; auto). rewrite swap_bit_length. replace (tr a i) with i by (unfold tr; bitcase). apply app_nth2. auto.
Qed.
Lemma swap_app_r : forall a b b', S a < length b' -> swap_bit (length b + a) (b ++ b') = b ++ swap_bit a b'.
Proof.
  intros a b b' Ha. apply (bits_ext (length b + length b')); [rewrite swap_bit_length, app_length; auto|rewrite app_length, swap_bit_length; auto|]. intros i Hi. rewrite nth_swap by (rewrite app_length; auto).
  destruct (Nat.lt_ge_cases i (length b)).
  - rewrite (app_nth1 b (swap_bit a b')) by auto. replace (tr (length b + a) i) with i by (unfold tr; bitcase). apply app_nth1. auto.
  - rewrite (app_nth2 b (swap_bit a b')) by auto. rewrite nth_swap by lia. replace (tr (length b + a) i) with (length b + tr a (i - length b)) by (unfold tr; bitcase). rewrite app_nth2 by lia. f_equal. lia.
Qed.

Lemma slice_gcube_l : forall n1 n2 a t s o, a < n1 -> slice (n1 + n2) a t (gcube n1 n2 s o) = gcube (n1 - 1) n2 (slice n1 a t s) o.
Proof.
  intros n1 n2 a t s o Ha. apply (gcube_ext _ _ (n1 + n2 - 1)); [lia|apply slice_length|]. intros b b' L L'. rewrite cget_slice by (rewrite app_length; lia). rewrite insert_app_l by lia. rewrite cget_gcube by (rewrite ?insert_at_length; lia). rewrite cget_slice by auto. auto.
Qed.
Lemma slice_gcube_r : forall n1 n2 a t s o, a < n2 -> slice (n1 + n2) (n1 + a) t (gcube n1 n2 s o) = gcube n1 (n2 - 1) s (slice n2 a t o).
Proof.
  intros n1 n2 a t s o Ha. apply (gcube_ext _ _ (n1 + n2 - 1)); [lia|apply slice_length|]. intros b b' L L'. rewrite cget_slice by (rewrite app_length; lia). pose proof (insert_app_r a t b b') as Q. rewrite L in Q. rewrite Q. rewrite cget_gcube by (rewrite ?insert_at_length; lia). rewrite cget_slice by auto. auto.
Qed.
Lemma flip_gcube_l : forall n1 n2 a s o, a < n1 -> flip (n1 + n2) a (gcube n1 n2 s o) = gcube n1 n2 (flip n1 a s) o.
Proof.
  intros n1 n2 a s o Ha. apply (gcube_ext _ _ (n1 + n2)); [auto|apply cbuild_length|]. intros b b' L L'. unfold flip. rewrite !cget_build by (rewrite ?app_length; lia). rewrite flip_app_l by lia. rewrite cget_gcube by (rewrite ?flip_bit_length; auto). auto.
Qed.
Lemma flip_gcube_r : forall n1 n2 a s o, a < n2 -> flip (n1 + n2) (n1 + a) (gcube n1 n2 s o) = gcube n1 n2 s (flip n2 a o).
Proof.
  intros n1 n2 a s o Ha. apply (gcube_ext _ _ (n1 + n2)); [auto|apply cbuild_length|]. intros b b' L L'. unfold flip. rewrite !cget_build by (rewrite ?app_length; lia). pose proof (flip_app_r a b b') as Q. rewrite L in Q. rewrite Q. rewrite cget_gcube by (rewrite ?flip_bit_length; auto). auto.
Qed.
Lemma swap_gcube_l : forall n1 n2 a s o, S a < n1 -> swapc (n1 + n2) a (gcube n1 n2 s o) = gcube n1 n2 (swapc n1 a s) o.
Proof.
  intros n1 n2 a s o Ha. apply (gcube_ext _ _ (n1 + n2)); [auto|apply cbuild_length|]. intros b b' L L'. unfold swapc. rewrite !cget_build by (rewrite ?app_length; lia). rewrite swap_app_l by lia. rewrite cget_gcube by (rewrite ?swap_bit_length; auto). auto.
Qed.
Lemma swap_gcube_r : forall n1 n2 a s o, S a < n2 -> swapc (n1 + n2) (n1 + a) (gcube n1 n2 s o) = gcube n1 n2 s (swapc n2 a o).
Proof.
  intros n1 n2 a s o Ha. apply (gcube_ext _ _ (n1 + n2)); [auto|apply cbuild_length|]. intros b b' L L'. unfold swapc. rewrite !cget_build by (rewrite ?app_length; lia). pose proof (swap_app_r a b b' ltac:(lia)) as Q. rewrite L in Q. rewrite Q. rewrite cget_gcube by (rewrite ?swap_bit_length; auto). auto.
Qed.

Lemma related_gcube_l : forall n1 n2 z s s' o, related n1 z s s' -> related (n1 + n2) z (gcube n1 n2 s o) (gcube n1 n2 s' o).
Proof.
  intros n1 n2 z s s' o R. induction R; [constructor|..].
  - apply mirrored_flip in H0; auto. subst e. rewrite <- flip_gcube_l by auto. apply (related_mirror _ a s _ (gcube n1 n2 d o)); auto; [lia|]. apply flip_mirrored. lia.
  - apply swapped_swapc in H0; auto. subst e. rewrite <- swap_gcube_l by auto. apply (related_swap _ a s _ (gcube n1 n2 d o)); auto; [lia|]. apply swapc_swapped. lia.
Qed.
Lemma related_gcube_r : forall n1 n2 z s o o', related n2 z o o' -> related (n1 + n2) z (gcube n1 n2 s o) (gcube n1 n2 s o').
Proof.
  intros n1 n2 z s o o' R. induction R as [|a w c d e R IH Ha M|a w c d e R IH Ha M]; [constructor|..].
  - apply mirrored_flip in M; auto. subst e. rewrite <- flip_gcube_r by auto. apply (related_mirror _ (n1 + a) w _ (gcube n1 n2 s d)); auto; [lia|]. apply flip_mirrored. lia.
  - apply swapped_swapc in M; auto. subst e. rewrite <- swap_gcube_r by auto. apply (related_swap _ (n1 + a) w _ (gcube n1 n2 s d)); auto; [lia|]. apply swapc_swapped. lia.
Qed.

Lemma subcube_gcube : forall k N n1 n2 s o f, N = n1 + n2 -> subcube k N (gcube n1 n2 s o) f ->
  exists k1 k2 f1 f2, k1 + k2 = k /\ subcube k1 n1 s f1 /\ subcube k2 n2 o f2 /\ f = gcube k1 k2 f1 f2.
Proof.
  intros k. induction N as [|N IH]; intros n1 n2 s o f E H; apply subcube_inv in H as [[-> <-]|(Hk & a & t & Ha & H)]; try lia.
  - exists n1, n2, s, o. repeat split; auto; constructor.
  - exists n1, n2, s, o. repeat split; auto; constructor.
  - rewrite E in H. destruct (Nat.lt_ge_cases a n1) as [H1|H1].
    + rewrite slice_gcube_l in H by auto. replace (n1 + n2 - 1) with N in H by lia. destruct (IH (n1 - 1) n2 (slice n1 a t s) o f ltac:(lia) H) as (k1 & k2 & f1 & f2 & A & B & C & D). exists k1, k2, f1, f2. repeat split; auto. apply (subcube_step k1 n1 s f1 a t); auto.
    + replace a with (n1 + (a - n1)) in H by lia. rewrite slice_gcube_r in H by lia. replace (n1 + n2 - 1) with N in H by lia. destruct (IH n1 (n2 - 1) s (slice n2 (a - n1) t o) f ltac:(lia) H) as (k1 & k2 & f1 & f2 & A & B & C & D). exists k1, k2, f1, f2. repeat split; auto. apply (subcube_step k2 n2 o f2 (a - n1) t); auto. lia.
Qed.

Variables (n1 n2 : nat) (R1 R2 : list cube).
Hypothesis OK1 : Forall (fun c => length c = 2 ^ n1 /\ NoDup c) R1.
Hypothesis OK2 : Forall (fun c => length c = 2 ^ n2 /\ NoDup c) R2.
Hypothesis Inj : forall u v u' v', In u (concat R1) -> In u' (concat R1) -> In v (concat R2) -> In v' (concat R2) -> lab u v = lab u' v' -> u = u' /\ v = v'.
Hypothesis C1 : forall k, k <= n1 -> faces_match k n1 R1.
Hypothesis C2 : forall k, k <= n2 -> faces_match k n2 R2.

Lemma gcube_nodup : forall s o, In s R1 -> In o R2 -> NoDup (gcube n1 n2 s o).
Proof.
  intros s o Hs Ho. rewrite Forall_forall in OK1, OK2. destruct (OK1 s Hs) as [Ls Ns], (OK2 o Ho) as [Lo No]. apply cbuild_nodup. intros b b' Lb Lb' E.
  assert (A : forall x : bits, length x = n1 + n2 -> length (firstn n1 x) = n1 /\ length (skipn n1 x) = n2) by (intros x Lx; rewrite firstn_length, skipn_length; lia). destruct (A b Lb) as [A1 A2], (A b' Lb') as [A3 A4].
  apply Inj in E as [E1 E2]; try (apply in_concat; eexists; split; [eassumption|]; first [apply (cget_in n1); auto; fail | apply (cget_in n2); auto]).
  apply (cget_inj n1) in E1; auto. apply (cget_inj n2) in E2; auto. rewrite <- (firstn_skipn n1 b), <- (firstn_skipn n1 b'). congruence.
Qed.
Lemma comp_gprod : forall k R, (forall c, In c R -> exists s o, In s R1 /\ In o R2 /\ c = gcube n1 n2 s o) -> faces_match k (n1 + n2) R.
Proof.
  intros k R HR c d f g Hc Hd Hf Hg P. destruct (HR c Hc) as (s & o & Hs & Ho & ->). destruct (HR d Hd) as (s' & o' & Hs' & Ho' & ->). clear HR Hc Hd. rewrite Forall_forall in OK1, OK2.
  destruct (OK1 s Hs) as [Ls Ns], (OK2 o Ho) as [Lo No]. destruct (OK1 s' Hs') as [Ls' Ns'], (OK2 o' Ho') as [Lo' No'].
  apply subcube_gcube in Hf as (k1 & k2 & f1 & f2 & E1 & F1 & F2 & ->); auto. apply subcube_gcube in Hg as (k1' & k2' & g1 & g2 & E2 & G1 & G2 & ->); auto.
  pose proof (subcube_length _ _ _ _ F1 Ls) as LF1. pose proof (subcube_length _ _ _ _ F2 Lo) as LF2. pose proof (subcube_length _ _ _ _ G1 Ls') as LG1. pose proof (subcube_length _ _ _ _ G2 Lo') as LG2.
  pose proof (subcube_nodup _ _ _ _ F1 Ls Ns) as NF1. pose proof (subcube_nodup _ _ _ _ F2 Lo No) as NF2. pose proof (subcube_nodup _ _ _ _ G1 Ls' Ns') as NG1. pose proof (subcube_nodup _ _ _ _ G2 Lo' No') as NG2.
  assert (I1 : forall x, In x f1 -> In x (concat R1)) by (intros x Hx; apply in_concat; exists s; split; auto; eapply subcube_incl; eauto).
  assert (I2 : forall x, In x f2 -> In x (concat R2)) by (intros x Hx; apply in_concat; exists o; split; auto; eapply subcube_incl; eauto).
  assert (I3 : forall x, In x g1 -> In x (concat R1)) by (intros x Hx; apply in_concat; exists s'; split; auto; eapply subcube_incl; eauto).
  assert (I4 : forall x, In x g2 -> In x (concat R2)) by (intros x Hx; apply in_concat; exists o'; split; auto; eapply subcube_incl; eauto).
  assert (NE : forall (l : list nat) m, length l = 2 ^ m -> exists x, In x l). { intros l m Hl. destruct l as [|x l]; [exfalso; simpl in Hl; pose proof (Nat.pow_nonzero 2 m ltac:(lia)); lia|exists x; left; auto]. }
  destruct (NE f1 k1 LF1) as [x1 X1]. destruct (NE f2 k2 LF2) as [x2 X2]. destruct (NE g1 k1' LG1) as [y1 Y1]. destruct (NE g2 k2' LG2) as [y2 Y2].
  assert (Fwd : forall u w, In u f1 -> In w f2 -> In u g1 /\ In w g2).
  { intros u w Hu Hw. assert (Q : In (lab u w) (gcube k1' k2' g1 g2)) by (apply (Permutation_in _ P); apply gcube_in; eauto). apply gcube_in in Q as (u' & w' & Hu' & Hw' & E); auto. apply Inj in E as [-> ->]; auto. }
  assert (Bwd : forall u w, In u g1 -> In w g2 -> In u f1 /\ In w f2).
  { intros u w Hu Hw. assert (Q : In (lab u w) (gcube k1 k2 f1 f2)) by (apply (Permutation_in _ (Permutation_sym P)); apply gcube_in; eauto). apply gcube_in in Q as (u' & w' & Hu' & Hw' & E); auto. apply Inj in E as [-> ->]; auto. }
  assert (P1 : Permutation f1 g1) by (apply NoDup_Permutation; auto; intros u; split; intros Hu; [apply (Fwd u x2 Hu X2)|apply (Bwd u y2 Hu Y2)]).
  assert (P2 : Permutation f2 g2) by (apply NoDup_Permutation; auto; intros w; split; intros Hw; [apply (Fwd x1 w X1 Hw)|apply (Bwd y1 w Y1 Hw)]).
  assert (EK : k1' = k1) by (apply Permutation_length in P1; rewrite LF1, LG1 in P1; apply (Nat.pow_inj_r 2); lia). assert (EK2 : k2' = k2) by lia. subst k1' k2'. clear E2. subst k.
  destruct (C1 k1 (subcube_le _ _ _ _ F1) s s' f1 g1 Hs Hs' F1 G1 P1) as [z1 Z1]. destruct (C2 k2 (subcube_le _ _ _ _ F2) o o' f2 g2 Ho Ho' F2 G2 P2) as [z2 Z2].
  exists (z1 * z2)%Z. eapply related_trans; [apply related_gcube_l; exact Z1|apply related_gcube_r; exact Z2].
Qed.
End Prod.
