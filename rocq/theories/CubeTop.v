(** Topologies built by from_cubes. *)
Require Import List Arith ZArith Bool Lia Permutation.
From Verif Require Import Util CombModel CombSpec CombProofs SimpModel SimpSpec ParProofs SimpProofs LevelProofs TopProofs CubeModel CubeSpec CubeBits CubeBd CubeRel CubeLevel.
Import ListNotations.
Local Open Scope nat_scope.

Record clevel (n : nat) (rows low : list cube) (B : list (list nat)) (Or : list (list Z)) : Prop := {
  cl_lenB : length B = length rows;
  cl_lenO : length Or = length rows;
  cl_rectB : Forall (fun l => length l = n * 2) B;
  cl_rectO : Forall (fun l => length l = n * 2) Or;
  cl_sub : forall k, k < length low -> exists c a s z, In c rows /\ a < n /\ related (n - 1) z (slice n a s c) (nth k low []);
  cl_uniq : forall k k', k < length low -> k' < length low -> Permutation (nth k low []) (nth k' low []) -> k = k';
  cl_idx : forall j a s, j < length rows -> a < n ->
      let k := nth (2 * a + nat_of s) (nth j B []) 0 in
      k < length low /\ (exists z, related (n - 1) z (slice n a s (nth j rows [])) (nth k low [])) /\
      nth (2 * a + nat_of s) (nth j Or []) 0%Z = (- (sgn_pow (a + nat_of s) * csign (n - 1) (slice n a s (nth j rows [])) (nth k low [])))%Z
}.

Lemma nth_pairs : forall A (f : nat -> bool -> A) n st a s d, a < n -> nth (2 * a + nat_of s) (flat_map (fun a => map (f a) sides) (seq st n)) d = f (st + a) s.
Proof.
  induction n as [|n IH]; intros st a s d Ha; [lia|]. cbn [seq flat_map sides map]. destruct a as [|a].
  - rewrite Nat.add_0_r. destruct s; reflexivity.
  - replace (2 * S a + nat_of s) with (S (S (2 * a + nat_of s))) by lia. cbn [app nth]. change (flat_map (fun a0 => [f a0 false; f a0 true])) with (flat_map (fun a0 => map (f a0) sides)). rewrite IH by lia. f_equal. lia.
Qed.
Lemma nth_gfaces : forall n c a s d, a < n -> nth (2 * a + nat_of s) (gfaces n c) d = gface n a s c.
Proof. intros. unfold gfaces. rewrite (nth_pairs _ (fun a s => gface n a s c)) by auto. auto. Qed.

Lemma gface_related : forall n a s c, 2 <= n -> exists z, related (n - 1) z (slice n a s c) (gface n a s c).
Proof. intros n a s c Hn. unfold gface. destruct (xorb _ s); [exists (-1)%Z; apply related_flip; lia|exists 1%Z; constructor]. Qed.
Lemma csign_rel_nz : forall n c d, NoDup c -> length c = 2 ^ n -> (csign n c d <> 0%Z <-> exists s, related n s c d).
Proof.
  intros n c d ND L. split; [intros H; exists (csign n c d); apply csign_related; auto|]. intros [s R]. rewrite (related_csign n s c d R ND L). destruct (related_sign _ _ _ _ R); lia.
Qed.

Section Order.
Variable row_leb : list nat -> list nat -> bool.

Lemma compat_comp : forall n rows, 2 <= n -> Forall (fun c => length c = 2 ^ n /\ NoDup c) rows -> (compat_faces n rows <-> faces_match (n - 1) n rows).
Proof.
  intros n rows Hn OK. split.
  - intros C c d f g Hc Hd Hf Hg P. rewrite Forall_forall in OK. destruct (OK c Hc) as [Lc NDc], (OK d Hd) as [Ld NDd].
    apply subcube_inv in Hf as [[Q _]|(_ & a & s & Ha & Hf)]; [lia|]. apply subcube_inv in Hg as [[Q _]|(_ & b & t & Hb & Hg)]; [lia|]. apply subcube_top in Hf, Hg. subst f g.
    set (bc := concat (map (gfaces n) rows)) in *.
    assert (H1 : In (gface n a s c) bc) by (apply (bc_in n _ Hn); exists c, a, s; auto). assert (H2 : In (gface n b t d) bc) by (apply (bc_in n _ Hn); exists d, b, t; auto).
    assert (P2 : Permutation (gface n a s c) (gface n b t d)) by (eapply perm_trans; [apply Permutation_sym, gface_perm; auto|]; eapply perm_trans; [exact P|apply gface_perm; auto]).
    pose proof (C _ H1) as C1. pose proof (C _ H2) as C2. apply csign_rel_nz in C1 as [z1 R1]; [|apply gface_nodup; auto|apply gface_length]. apply csign_rel_nz in C2 as [z2 R2]; [|apply gface_nodup; auto|apply gface_length].
    apply sort_row_eq in P2. rewrite P2 in R1. apply related_sym in R2; [|apply gface_length].
    destruct (gface_related n a s c Hn) as [z3 R3]. destruct (gface_related n b t d Hn) as [z4 R4]. apply related_sym in R4; [|apply slice_length].
    exists (z3 * (z1 * (z2 * z4)))%Z. eapply related_trans; [exact R3|]. eapply related_trans; [exact R1|]. eapply related_trans; [exact R2|exact R4].
  - intros C x Hx. pose proof (bc_ok n rows Hn OK x Hx) as [ND L]. apply csign_rel_nz; auto. destruct (rep_in _ x Hx) as [Hr P]. set (r := rep (concat (map (gfaces n) rows)) (sort_row x)) in *. clearbody r.
    apply (bc_in n _ Hn) in Hx as (c & a & s & Hc & Ha & ->). apply (bc_in n _ Hn) in Hr as (d & b & t & Hd & Hb & ->).
    destruct (C c d (slice n a s c) (slice n b t d)) as [z R]; auto.
    + apply (subcube_step _ _ _ _ a s); auto. constructor.
    + apply (subcube_step _ _ _ _ b t); auto. constructor.
    + eapply perm_trans; [apply gface_perm; auto|]. eapply perm_trans; [exact P|apply Permutation_sym, gface_perm; auto].
    + destruct (gface_related n a s c Hn) as [z3 R3]. apply related_sym in R3; [|apply slice_length]. destruct (gface_related n b t d Hn) as [z4 R4]. exists (z3 * (z * z4))%Z. eapply related_trans; [exact R3|]. eapply related_trans; [exact R|exact R4].
Qed.

Lemma lower_level : forall n rows low B Or, 2 <= n -> cubes_ok n rows -> lower row_leb true n rows = Ok (low, B, Or) ->
  clevel n rows low B Or /\ cubes_ok (n - 1) low /\ faces_match (n - 1) n rows /\ 2 ^ (n - 1) < 128.
Proof.
  intros n rows low B Or Hn [Hne OK] E.
  destruct (le_lt_dec 128 (2 ^ (n - 1))) as [Big|Small]; [rewrite lower_big in E by auto; discriminate|].
  assert (D : compat_faces n rows \/ ~ compat_faces n rows).
  { destruct (Forall_dec (fun x => csign (n - 1) x (rep (concat (map (gfaces n) rows)) (sort_row x)) <> 0%Z)) with (l := concat (map (gfaces n) rows)) as [H|H].
    - intros x. destruct (Z.eq_dec (csign (n - 1) x (rep (concat (map (gfaces n) rows)) (sort_row x))) 0%Z); [right|left]; auto.
    - left. rewrite Forall_forall in H. exact H.
    - right. intros C. apply H. apply Forall_forall. exact C. }
  destruct D as [C|C]; [|rewrite lower_err in E by auto; discriminate]. rewrite lower_ok in E by auto. injection E as <- <- <-.
  pose proof OK as OKf. rewrite Forall_forall in OKf.
  assert (HC : faces_match (n - 1) n rows) by (apply compat_comp; auto).
  assert (HL : forall k, k < length (lows row_leb n rows) -> exists c a s, In c rows /\ a < n /\ nth k (lows row_leb n rows) [] = gface n a s c) by (intros k Hk; apply lows_in in Hk; apply (bc_in n _ Hn) in Hk; auto).
  split; [|split; [|split]]; auto.
  - constructor.
    + rewrite !map_length; auto.
    + rewrite !map_length; auto.
    + rewrite map_map. apply Forall_forall. intros l Hl. apply in_map_iff in Hl as (c & <- & _). rewrite map_length, gfaces_length. auto.
    + rewrite map_map. apply Forall_forall. intros l Hl. apply in_map_iff in Hl as (c & <- & _). rewrite map_length, gfaces_length. auto.
    + intros k Hk. destruct (HL k Hk) as (c & a & s & Hc & Ha & ->). destruct (gface_related n a s c Hn) as [z R]. exists c, a, s, z. auto.
    + apply lows_uniq.
    + intros j a s Hj Ha. set (c := nth j rows []). assert (Hc : In c rows) by (apply nth_In; auto). destruct (OKf c Hc) as [Lc NDc].
      assert (Hlt : 2 * a + nat_of s < length (gfaces n c)) by (rewrite gfaces_length; destruct s; simpl; lia).
      rewrite !map_map. rewrite !(nth_map_lt _ _ _ rows j []) by auto. fold c. rewrite !(nth_map_lt _ _ _ (gfaces n c) _ []) by auto. rewrite !nth_gfaces by auto. cbn zeta.
      assert (Hx : In (gface n a s c) (concat (map (gfaces n) rows))) by (apply (bc_in n _ Hn); exists c, a, s; auto).
      destruct (lidx_ok row_leb n rows _ Hx) as [H1 H2]. split; auto. pose proof (C _ Hx) as C1. split.
      * rewrite H2. apply csign_rel_nz in C1 as [z1 R1]; [|apply gface_nodup; auto|apply gface_length]. destruct (gface_related n a s c Hn) as [z R]. exists (z * z1)%Z. eapply related_trans; eauto.
      * unfold lori. rewrite <- (gface_sign n (fun x => csign (n - 1) x (nth (lidx row_leb n rows (gface n a s c)) (lows row_leb n rows) []))); auto. apply csign_antisym.
  - split.
    + destruct rows as [|c r]; [congruence|]. intros E. assert (Hx : In (gface n 0 false c) (concat (map (gfaces n) (c :: r)))) by (apply (bc_in n _ Hn); exists c, 0, false; repeat split; simpl; auto; lia).
      destruct (lidx_ok row_leb n _ _ Hx) as [H1 _]. rewrite E in H1. simpl in H1. lia.
    + apply Forall_forall. intros x Hx. apply In_nth with (d := []) in Hx as (k & Hk & <-). destruct (HL k Hk) as (c & a & s & Hc & Ha & ->). destruct (OKf c Hc). split; [apply gface_length|apply gface_nodup; auto].
Qed.

Lemma lower_cases : forall n rows, 2 <= n -> cubes_ok n rows ->
  (2 ^ (n - 1) < 128 -> faces_match (n - 1) n rows -> exists low B Or, lower row_leb true n rows = Ok (low, B, Or)) /\
  (2 ^ (n - 1) < 128 -> ~ faces_match (n - 1) n rows -> lower row_leb true n rows = Err ValueError) /\
  (128 <= 2 ^ (n - 1) -> lower row_leb true n rows = Err AssertionError).
Proof.
  intros n rows Hn [Hne OK]. split; [|split].
  - intros B C. rewrite lower_ok by (auto; apply compat_comp; auto). eauto.
  - intros B C. apply lower_err; auto. intros Q. apply C. apply compat_comp; auto.
  - intros B. apply lower_big; auto.
Qed.

(** Lower cubes are faces of the higher ones and the other way round, up to orientation. *)
Lemma comp_lower : forall k n rows low B Or, 2 <= n -> k < n -> cubes_ok n rows -> cubes_ok (n - 1) low -> clevel n rows low B Or -> (faces_match k n rows <-> faces_match k (n - 1) low).
Proof.
  intros k n rows low B Or Hn Hk [Hne OK] [Hne' OK'] L. rewrite Forall_forall in OK, OK'.
  assert (Down : forall c f, In c rows -> subcube k n c f -> exists d g s, In d low /\ subcube k (n - 1) d g /\ related k s g f).
  { intros c f Hc Hf. destruct (OK c Hc) as [Lc NDc]. apply subcube_inv in Hf as [[Q _]|(_ & a & s & Ha & Hf)]; [lia|]. apply In_nth with (d := []) in Hc as (j & Hj & <-).
    destruct (cl_idx _ _ _ _ _ L j a s Hj Ha) as (H1 & (z & R) & _). set (d := nth _ low []) in *. assert (Hd : In d low) by (apply nth_In; auto). clearbody d.
    apply related_sym in R; [|apply slice_length]. destruct (OK' d Hd) as [Ld _]. destruct (subcube_related k (n - 1) z d _ f R Ld Hf) as (g & s' & Hg & R'). exists d, g, s'. auto. }
  assert (Up : forall d g, In d low -> subcube k (n - 1) d g -> exists c f s, In c rows /\ subcube k n c f /\ related k s f g).
  { intros d g Hd Hg. apply In_nth with (d := []) in Hd as (i & Hi & <-). destruct (cl_sub _ _ _ _ _ L i Hi) as (c & a & s & z & Hc & Ha & R).
    destruct (subcube_related k (n - 1) z _ _ g R (slice_length _ _ _ _) Hg) as (f & s' & Hf & R'). exists c, f, s'. repeat split; auto. apply (subcube_step k n c f a s); auto. }
  split.
  - intros C d d' g g' Hd Hd' Hg Hg' P. destruct (Up d g Hd Hg) as (c & f & s & Hc & Hf & R). destruct (Up d' g' Hd' Hg') as (c' & f' & s' & Hc' & Hf' & R').
    destruct (OK c Hc) as [Lc _]. destruct (OK c' Hc') as [Lc' _]. pose proof (subcube_length _ _ _ _ Hf Lc) as Lf. pose proof (subcube_length _ _ _ _ Hf' Lc') as Lf'.
    destruct (C c c' f f' Hc Hc' Hf Hf') as [z Z].
    + eapply perm_trans; [apply (related_perm _ _ _ _ R Lf)|]. eapply perm_trans; [exact P|]. apply Permutation_sym, (related_perm _ _ _ _ R' Lf').
    + exists (s * (z * s'))%Z. eapply related_trans; [apply related_sym; [exact R|auto]|]. eapply related_trans; [exact Z|exact R'].
  - intros C c c' f f' Hc Hc' Hf Hf' P. destruct (Down c f Hc Hf) as (d & g & s & Hd & Hg & R). destruct (Down c' f' Hc' Hf') as (d' & g' & s' & Hd' & Hg' & R').
    destruct (OK' d Hd) as [Ld _]. destruct (OK' d' Hd') as [Ld' _]. pose proof (subcube_length _ _ _ _ Hg Ld) as Lg. pose proof (subcube_length _ _ _ _ Hg' Ld') as Lg'.
    destruct (C d d' g g' Hd Hd' Hg Hg') as [z Z].
    + eapply perm_trans; [apply (related_perm _ _ _ _ R Lg)|]. eapply perm_trans; [exact P|]. apply Permutation_sym, (related_perm _ _ _ _ R' Lg').
    + exists (s * (z * s'))%Z. eapply related_trans; [apply related_sym; [exact R|auto]|]. eapply related_trans; [exact Z|exact R'].
Qed.

Lemma comp_dec : forall n rows, 2 <= n -> cubes_ok n rows -> faces_match (n - 1) n rows \/ ~ faces_match (n - 1) n rows.
Proof.
  intros n rows Hn [Hne OK]. rewrite <- compat_comp by auto.
  destruct (Forall_dec (fun x => csign (n - 1) x (rep (concat (map (gfaces n) rows)) (sort_row x)) <> 0%Z)) with (l := concat (map (gfaces n) rows)) as [H|H].
  - intros x. destruct (Z.eq_dec (csign (n - 1) x (rep (concat (map (gfaces n) rows)) (sort_row x))) 0%Z); [right|left]; auto.
  - left. rewrite Forall_forall in H. exact H.
  - right. intros C. apply H. apply Forall_forall. exact C.
Qed.

Lemma cverts_preserved : forall n rows low B Or, 2 <= n -> cubes_ok n rows -> clevel n rows low B Or -> forall v, In v (concat low) <-> In v (concat rows).
Proof.
  intros n rows low B Or Hn [_ F] L v. rewrite Forall_forall in F. rewrite !in_concat. split.
  - intros (e & He & Hv). apply In_nth with (d := []) in He as (k & Hk & <-). destruct (cl_sub _ _ _ _ _ L k Hk) as (c & a & s & z & Hc & Ha & R). exists c. split; auto. destruct (F c Hc) as [Lc _].
    apply (slice_incl n a s c Ha Lc). eapply Permutation_in; [apply Permutation_sym, (related_perm _ _ _ _ R (slice_length _ _ _ _))|exact Hv].
  - intros (c & Hc & Hv). destruct (F c Hc) as [Lc ND]. apply (in_cget n) in Hv as (bs & Lb & <-); auto. apply In_nth with (d := []) in Hc as (j & Hj & Ej).
    destruct (cl_idx _ _ _ _ _ L j 0 (nth 0 bs false) Hj ltac:(lia)) as (H1 & (z & R) & _). rewrite Ej in R. eexists. split; [apply nth_In; exact H1|]. eapply Permutation_in; [apply (related_perm _ _ _ _ R (slice_length _ _ _ _))|]. apply slice_vert; auto. lia.
Qed.

Lemma csign0 : forall v, csign 0 [v] [v] = 1%Z.
Proof. intros v. apply csign_self; [repeat constructor; auto|reflexivity]. Qed.
Lemma slice1 : forall u v s, slice 1 0 s [u; v] = [if s then v else u].
Proof. intros u v [|]; reflexivity. Qed.
Lemma edge_clevel : forall rows, cubes_ok 1 rows -> unique_nat (concat rows) = seq 0 (length (unique_nat (concat rows))) ->
  clevel 1 rows (map (fun v => [v]) (unique_nat (concat rows))) rows (map (fun _ => map parity_to_orientation [0; 1]) rows).
Proof.
  intros rows [Hne F] E. set (U := unique_nat (concat rows)) in *.
  assert (Hnth : forall k, k < length U -> nth k (map (fun v => [v]) U) [] = [k]).
  { intros k Hk. rewrite (nth_map_lt _ _ _ _ _ 0) by auto. f_equal. rewrite E. rewrite seq_nth; auto. }
  assert (HU : forall s v, In s rows -> In v s -> v < length U).
  { intros s v Hs Hv. assert (H : In v U) by (apply unique_nat_in, in_concat; eauto). rewrite E in H. apply in_seq in H. lia. }
  rewrite Forall_forall in F.
  assert (Hrow : forall s, In s rows -> exists a b, s = [a; b] /\ a <> b).
  { intros s Hs. destruct (F s Hs) as [Ls NDs]. destruct s as [|a [|b [|]]]; simpl in Ls; try lia. exists a, b. split; auto. inversion NDs; subst. intros ->. apply H1; left; auto. }
  constructor.
  - auto.
  - rewrite map_length; auto.
  - apply Forall_forall. intros s Hs. apply F; auto.
  - apply Forall_forall. intros l Hl. apply in_map_iff in Hl as (c & <- & _). reflexivity.
  - intros k Hk. rewrite map_length in Hk. rewrite Hnth by auto. assert (H : In k U) by (rewrite E; apply in_seq; lia). apply unique_nat_in, in_concat in H as (s & Hs & Hk2).
    destruct (Hrow s Hs) as (a & b & -> & _). destruct Hk2 as [->|[->|[]]].
    + exists [k; b], 0, false, 1%Z. repeat split; auto. apply related_one; auto.
    + exists [a; k], 0, true, 1%Z. repeat split; auto. apply related_one; auto.
  - intros k k' Hk Hk' P. rewrite map_length in *. rewrite !Hnth in P by auto. apply Permutation_length_1 in P. auto.
  - intros j c s Hj Hc. assert (c = 0) by lia. subst c. set (r := nth j rows []). assert (Hr : In r rows) by (apply nth_In; auto). rewrite (nth_map_lt _ _ _ _ _ []) by auto.
    destruct (Hrow r Hr) as (u & v & Es & Huv). rewrite Es. rewrite slice1.
    assert (Hu : u < length U) by (apply (HU r); auto; rewrite Es; simpl; auto). assert (Hv : v < length U) by (apply (HU r); auto; rewrite Es; simpl; auto). rewrite map_length.
    destruct s; cbn [nat_of Nat.mul Nat.add nth map]; rewrite Hnth by auto; (split; [auto|split; [exists 1%Z; apply related_one; auto|]]); rewrite csign0; reflexivity.
Qed.

Definition build_facts (n : nat) (rows : list cube) (E : list (list cube)) (B : list (list (list nat))) (Or : list (list (list Z))) : Prop :=
  length E = S n /\ length B = n /\ length Or = n /\ nth n E [] = rows /\
  nth 0 E [] = map (fun v => [v]) (unique_nat (concat rows)) /\
  (forall k, 1 <= k <= n -> cubes_ok k (nth k E [])) /\
  (forall k, 1 <= k < n -> clevel (S k) (nth (S k) E []) (nth k E []) (nth k B []) (nth k Or [])) /\
  (unique_nat (concat rows) = seq 0 (length (unique_nat (concat rows))) -> clevel 1 (nth 1 E []) (nth 0 E []) (nth 0 B []) (nth 0 Or [])).

Lemma pow_small : forall n, 1 <= n -> (2 ^ (n - 1) < 128 <-> n <= 7).
Proof.
  intros n Hn. change 128 with (2 ^ 7). split.
  - intros H. apply Nat.pow_lt_mono_r_iff in H; lia.
  - intros H. apply Nat.pow_lt_mono_r_iff; lia.
Qed.

Lemma build_cubes_cases : forall n rows, 1 <= n -> cubes_ok n rows ->
  (n <= 7 -> (forall k, 1 <= k < n -> faces_match k n rows) -> exists E B Or, build_cubes row_leb true n rows = Ok (E, B, Or) /\ build_facts n rows E B Or) /\
  (n <= 7 -> ~ (forall k, 1 <= k < n -> faces_match k n rows) -> build_cubes row_leb true n rows = Err ValueError) /\
  (8 <= n -> build_cubes row_leb true n rows = Err AssertionError).
Proof.
  induction n as [|n IH]; intros rows Hn OK; [lia|]. destruct n as [|n].
  - split; [|split; [|lia]].
    + intros _ _. exists [map (fun v => [v]) (unique_nat (concat rows)); rows], [rows], [map (fun _ => map parity_to_orientation [0; 1]) rows]. split; [reflexivity|].
      unfold build_facts. cbn [length nth]. do 5 (split; [reflexivity|]). split; [intros k Hk; replace k with 1 by lia; exact OK|]. split; [intros; lia|]. apply edge_clevel; auto.
    + intros _ H. exfalso. apply H. intros; lia.
  - set (m := S n) in *. assert (Hm : 2 <= S m) by lia. destruct (lower_cases (S m) rows Hm OK) as (L1 & L2 & L3). replace (S m - 1) with m in * by lia.
    pose proof (pow_small (S m) ltac:(lia)) as PS. replace (S m - 1) with m in PS by lia.
    assert (Step : build_cubes row_leb true (S m) rows = bind (lower row_leb true (S m) rows) (fun '(low, b, o) => bind (build_cubes row_leb true m low) (fun '(E, B, Or) => Ok (E ++ [rows], B ++ [b], Or ++ [o])))) by reflexivity.
    split; [|split].
    + intros H7 C. destruct L1 as (low & b & o & El); [apply PS; auto|apply C; lia|]. destruct (lower_level (S m) rows low b o Hm OK El) as (L & OKl & _). replace (S m - 1) with m in * by lia.
      destruct (IH low ltac:(lia) OKl) as [I1 _]. destruct I1 as (E & B & Or & Eb & LE & LB & LO & HN & H0 & Hok & Hlev & Hedge); [lia| |].
      { intros k Hk. pose proof (comp_lower k (S m) rows low b o Hm) as Q. replace (S m - 1) with m in Q by lia. apply Q; auto; [lia|]. apply C. lia. }
      assert (Eu : unique_nat (concat low) = unique_nat (concat rows)).
      { apply (sorted_perm_eq nat lt). lia. apply unique_nat_sorted. apply unique_nat_sorted. apply NoDup_Permutation; try apply unique_nat_nodup. intros v. rewrite !unique_nat_in. apply (cverts_preserved (S m) rows low b o); auto. }
      exists (E ++ [rows]), (B ++ [b]), (Or ++ [o]). split; [rewrite Step, El; cbn [bind]; rewrite Eb; reflexivity|].
      assert (A1 : forall k, k < length E -> nth k (E ++ [rows]) [] = nth k E []) by (intros; apply app_nth1; auto).
      assert (A2 : forall k, k < length B -> nth k (B ++ [b]) [] = nth k B []) by (intros; apply app_nth1; auto).
      assert (A3 : forall k, k < length Or -> nth k (Or ++ [o]) [] = nth k Or []) by (intros; apply app_nth1; auto).
      assert (AN : nth (S m) (E ++ [rows]) [] = rows) by (rewrite <- LE; apply nth_app_last).
      unfold build_facts. rewrite !app_length, LE, LB, LO. cbn [length].
      split; [lia|]. split; [lia|]. split; [lia|]. split; [exact AN|]. split; [rewrite A1 by lia; congruence|].
      split. { intros k Hk. destruct (Nat.eq_dec k (S m)) as [->|Hk2]; [rewrite AN; exact OK|]. rewrite A1 by lia. apply Hok. lia. }
      split. { intros k Hk. destruct (Nat.eq_dec k m) as [->|Hk2].
        - rewrite AN. rewrite A1 by lia. rewrite HN. replace (nth m (B ++ [b]) []) with b by (rewrite <- LB, nth_app_last; auto). replace (nth m (Or ++ [o]) []) with o by (rewrite <- LO, nth_app_last; auto). exact L.
        - rewrite !A1, A2, A3 by lia. apply Hlev. lia. }
      intros C'. rewrite !A1, A2, A3 by lia. apply Hedge. rewrite Eu. auto.
    + intros H7 NC. rewrite Step. destruct (comp_dec (S m) rows Hm OK) as [C|C]; replace (S m - 1) with m in C by lia.
      * destruct L1 as (low & b & o & El); [apply PS; auto|auto|]. destruct (lower_level (S m) rows low b o Hm OK El) as (L & OKl & _). replace (S m - 1) with m in * by lia. rewrite El. cbn [bind].
        destruct (IH low ltac:(lia) OKl) as (_ & I2 & _). rewrite I2; [reflexivity|lia|]. intros CC. apply NC. intros k Hk. destruct (Nat.eq_dec k m) as [->|Hk2]; auto.
        pose proof (comp_lower k (S m) rows low b o Hm) as Q. replace (S m - 1) with m in Q by lia. apply Q; auto; [lia|]. apply CC. lia.
      * rewrite L2; auto. apply PS; auto.
    + intros H8. rewrite Step, L3; auto. destruct (le_lt_dec 128 (2 ^ m)); auto. apply PS in l. lia.
Qed.

Record ctop (n : nat) (rows : list cube) (t : topology) : Prop := {
  ct_lenE : length (elements t) = S n;
  ct_lenB : length (boundary_idx t) = n;
  ct_lenO : length (orientation t) = n;
  ct_top : nth n (elements t) [] = rows;
  ct_verts : nth 0 (elements t) [] = map (fun v => [v]) (seq 0 (n_elements t 0));
  ct_vused : forall v, In v (concat rows) <-> v < n_elements t 0;
  ct_ok : forall k, 1 <= k <= n -> cubes_ok k (nth k (elements t) []);
  ct_level : forall k, k < n -> clevel (S k) (nth (S k) (elements t) []) (nth k (elements t) []) (nth k (boundary_idx t) []) (nth k (orientation t) [])
}.

Lemma from_cubes_cases : forall n rows, 1 <= n -> cubes_ok n rows ->
  (n <= 7 -> (forall k, 1 <= k < n -> faces_match k n rows) -> (exists m, forall v, In v (concat rows) <-> v < m) -> exists t, from_cubes row_leb true n rows = Ok t /\ ctop n rows t) /\
  (n <= 7 -> ~ ((forall k, 1 <= k < n -> faces_match k n rows) /\ (exists m, forall v, In v (concat rows) <-> v < m)) -> from_cubes row_leb true n rows = Err ValueError) /\
  (8 <= n -> from_cubes row_leb true n rows = Err AssertionError).
Proof.
  intros n rows Hn OK. destruct (build_cubes_cases n rows Hn OK) as (B1 & B2 & B3). unfold from_cubes.
  assert (MT : forall E B Or, build_facts n rows E B Or -> make_topology E B Or = if list_eqb (unique_nat (concat rows)) (seq 0 (length (unique_nat (concat rows)))) then Ok (mkTop E B Or) else Err ValueError).
  { intros E B Or (LE & LB & LO & HN & H0 & _). unfold make_topology. rewrite H0, concat_singletons, map_length. auto. }
  split; [|split].
  - intros H7 C V. destruct (B1 H7 C) as (E & B & Or & Eb & Fa). rewrite Eb. cbn [bind]. rewrite MT by auto. apply unique_nat_contiguous in V. rewrite (proj2 (list_eqb_eq _ _) V). eexists. split; [reflexivity|].
    destruct Fa as (LE & LB & LO & HN & H0 & Hok & Hlev & Hedge). constructor; cbn [elements boundary_idx orientation]; auto.
    + unfold n_elements. cbn [elements]. rewrite H0, map_length, V. rewrite seq_length. auto.
    + intros v. unfold n_elements. cbn [elements]. rewrite H0, map_length. rewrite <- unique_nat_in. rewrite V at 1. rewrite in_seq. lia.
    + intros k Hk. destruct k as [|k]; [apply Hedge; auto|]. apply Hlev. lia.
  - intros H7 NC. destruct (build_cubes row_leb true n rows) as [[[E B] Or]|e] eqn:Eb; cbn [bind].
    + assert (CC : ~ ~ (forall k, 1 <= k < n -> faces_match k n rows)) by (intros Q; specialize (B2 H7 Q); discriminate).
      assert (Fa : ~ ~ build_facts n rows E B Or) by (intros Q; apply CC; intros C; destruct (B1 H7 C) as (E' & B' & Or' & X & Fa); injection X as <- <- <-; auto).
      destruct (make_topology E B Or) as [t|e] eqn:Em.
      * exfalso. apply CC. intros C. apply Fa. intros F. rewrite MT in Em by auto. destruct (list_eqb _ _) eqn:El; [|discriminate]. apply NC. split; auto. apply unique_nat_contiguous, list_eqb_eq. auto.
      * unfold make_topology in Em. match type of Em with (if ?b then _ else _) = _ => destruct b end; [discriminate|injection Em as <-; reflexivity].
    + assert (CC : ~ (forall k, 1 <= k < n -> faces_match k n rows)) by (intros C; destruct (B1 H7 C) as (? & ? & ? & X & _); discriminate). specialize (B2 H7 CC). injection B2 as ->. reflexivity.
  - intros H8. rewrite B3 by auto. reflexivity.
Qed.

Lemma from_cubes_ctop : forall n rows t, 1 <= n -> cubes_ok n rows -> from_cubes row_leb true n rows = Ok t ->
  n <= 7 /\ (forall k, 1 <= k < n -> faces_match k n rows) /\ (exists m, forall v, In v (concat rows) <-> v < m) /\ ctop n rows t.
Proof.
  intros n rows t Hn OK H. destruct (from_cubes_cases n rows Hn OK) as (H1 & H2 & H3).
  assert (H7 : n <= 7) by (destruct (le_lt_dec n 7); auto; rewrite H3 in H by lia; discriminate).
  destruct (build_cubes_cases n rows Hn OK) as (B1 & B2 & B3).
  assert (D : (forall k, 1 <= k < n -> faces_match k n rows) /\ (exists m, forall v, In v (concat rows) <-> v < m)).
  { destruct (list_eq_dec Nat.eq_dec (unique_nat (concat rows)) (seq 0 (length (unique_nat (concat rows))))) as [V|V].
    - apply unique_nat_contiguous in V. split; auto. 
      assert (DC : (forall k, 1 <= k < n -> faces_match k n rows) \/ ~ (forall k, 1 <= k < n -> faces_match k n rows)).
      { clear H1 H2 H3 B1 B2 B3 H V. revert rows Hn OK H7. induction n as [|n IH]; intros rows Hn OK H7; [lia|]. destruct n as [|n]; [left; intros; lia|]. set (m := S n) in *. destruct (comp_dec (S m) rows ltac:(lia) OK) as [C|C]; replace (S m - 1) with m in C by lia.
        - destruct (lower_cases (S m) rows ltac:(lia) OK) as (L1 & _). replace (S m - 1) with m in * by lia. destruct L1 as (low & b & o & El); auto. { apply (pow_small (S m)) in H7; [|lia]. replace (S m - 1) with m in H7 by lia. auto. }
          destruct (lower_level (S m) rows low b o ltac:(lia) OK El) as (L & OKl & _). replace (S m - 1) with m in * by lia.
          assert (Q : forall k, k < S m -> faces_match k (S m) rows <-> faces_match k m low). { intros k Hk. pose proof (comp_lower k (S m) rows low b o ltac:(lia) Hk OK) as Q. replace (S m - 1) with m in Q by lia. auto. }
          destruct (IH low ltac:(lia) OKl ltac:(lia)) as [I|I].
          + left. intros k Hk. destruct (Nat.eq_dec k m) as [->|]; auto. apply Q; [lia|]. apply I. lia.
          + right. intros X. apply I. intros k Hk. apply Q; [lia|]. apply X. lia.
        - right. intros X. apply C. apply X. lia. }
      destruct DC as [C|C]; auto. exfalso. rewrite H2 in H; [discriminate|auto|]. intros [C' _]. auto.
    - exfalso. rewrite H2 in H; [discriminate|auto|]. intros [_ C']. apply V. apply unique_nat_contiguous. auto. }
  destruct D as [C V]. destruct (H1 H7 C V) as (t' & E & T). rewrite E in H. injection H as <-. auto.
Qed.
End Order.
