(** Incidence matrices of cubical topologies. *)
Require Import List Arith ZArith Bool Lia Permutation.
From Verif Require Import Util CombModel CombSpec CombProofs SimpModel SimpSpec ParProofs SimpProofs LevelProofs TopProofs CubeModel CubeSpec CubeBits CubeBd CubeRel CubeLevel CubeTop.
Import ListNotations.
Local Open Scope nat_scope.

Lemma sum_pairs : forall (g : nat -> Z) n, sumZ (map g (seq 0 (n * 2))) = sumZ (map (fun a => sumZ (map (fun s => g (2 * a + nat_of s)) sides)) (seq 0 n)).
Proof.
  induction n as [|n IH]; auto. rewrite seq_S, map_app, sumZ_app, <- IH. replace (S n * 2) with (n * 2 + 2) by lia. rewrite seq_app, map_app, sumZ_app. f_equal. cbn [seq map sides sumZ fold_right nat_of Nat.add].
  replace (2 * n + 0) with (n * 2) by lia. replace (2 * n + 1) with (S (n * 2)) by lia. ring.
Qed.

Definition incn (n : nat) (f c : cube) : Z := cbd n (fun x => csign (n - 1) x f) c.

Lemma incn_antisym : forall n f, cube_antisymmetric n (incn n f).
Proof. intros. apply cbd_antisym. apply csign_antisym. Qed.

Lemma clevel_entry : forall n rows low B Or, clevel n rows low B Or -> cubes_ok n rows -> forall i j, i < length low -> j < length rows ->
  col_entry (nth j B []) (nth j Or []) i = (- incn n (nth i low []) (nth j rows []))%Z.
Proof.
  intros n rows low B Or L [_ OK] i j Hi Hj. rewrite Forall_forall in OK. destruct (OK (nth j rows []) (nth_In _ _ Hj)) as [Lj NDj].
  pose proof (cl_rectB _ _ _ _ _ L) as FB. pose proof (cl_rectO _ _ _ _ _ L) as FO. rewrite Forall_forall in FB, FO.
  rewrite (col_entry_sum (n * 2)) by (try apply FB; try apply FO; apply nth_In; rewrite ?(cl_lenB _ _ _ _ _ L), ?(cl_lenO _ _ _ _ _ L); auto).
  rewrite (sum_pairs (fun c => if nth c (nth j B []) 0 =? i then nth c (nth j Or []) 0%Z else 0%Z)). unfold incn, cbd. rewrite <- sumZ_map_opp. apply sumZ_map_ext. intros a Ha. apply in_seq in Ha. rewrite <- sumZ_map_opp. apply sumZ_map_ext. intros s _.
  destruct (cl_idx _ _ _ _ _ L j a s Hj ltac:(lia)) as (H1 & (z & R) & H3). set (k := nth (2 * a + nat_of s) (nth j B []) 0) in *.
  destruct (Nat.eqb_spec k i) as [E|E]; [rewrite H3, E; reflexivity|].
  destruct (Z.eq_dec (csign (n - 1) (slice n a s (nth j rows [])) (nth i low [])) 0%Z) as [->|Q]; [ring|]. exfalso. apply E. apply (cl_uniq _ _ _ _ _ L); auto.
  apply csign_perm in Q; [|apply slice_length]. eapply perm_trans; [apply Permutation_sym, (related_perm _ _ _ _ R (slice_length _ _ _ _))|exact Q].
Qed.

Lemma clevel_transfer : forall n rows low B Or, clevel n rows low B Or -> cubes_ok n rows -> forall c, In c rows -> forall g, cube_antisymmetric (n - 1) g ->
  sumZ (map (fun k => g (nth k low []) * incn n (nth k low []) c)%Z (seq 0 (length low))) = cbd n g c.
Proof.
  intros n rows low B Or L [_ OK] c Hc g Hg. rewrite Forall_forall in OK. destruct (OK c Hc) as [Lc NDc]. unfold incn, cbd.
  rewrite (sumZ_map_ext _ _ (fun k => sumZ (map (fun a => g (nth k low []) * sumZ (map (fun s => sgn_pow (a + nat_of s) * csign (n - 1) (slice n a s c) (nth k low []))%Z sides))%Z (seq 0 n)))) by (intros k _; rewrite sumZ_map_mul; reflexivity).
  rewrite (sumZ_swap _ _ (fun k a => (g (nth k low []) * sumZ (map (fun s => sgn_pow (a + nat_of s) * csign (n - 1) (slice n a s c) (nth k low []))%Z sides))%Z)). apply sumZ_map_ext. intros a Ha. apply in_seq in Ha.
  rewrite (sumZ_map_ext _ _ (fun k => sumZ (map (fun s => g (nth k low []) * (sgn_pow (a + nat_of s) * csign (n - 1) (slice n a s c) (nth k low [])))%Z sides))) by (intros k _; rewrite sumZ_map_mul; reflexivity).
  rewrite (sumZ_swap _ _ (fun k s => (g (nth k low []) * (sgn_pow (a + nat_of s) * csign (n - 1) (slice n a s c) (nth k low [])))%Z)). apply sumZ_map_ext. intros s _.
  apply In_nth with (d := []) in Hc as (j & Hj & Ej). destruct (cl_idx _ _ _ _ _ L j a s Hj ltac:(lia)) as (H1 & (z & R) & _). rewrite Ej in R. set (k := nth (2 * a + nat_of s) (nth j B []) 0) in *.
  rewrite (sumZ_single (fun k => (g (nth k low []) * (sgn_pow (a + nat_of s) * csign (n - 1) (slice n a s c) (nth k low [])))%Z) (length low) k H1).
  - rewrite (related_csign _ _ _ _ R) by (auto using slice_length; apply slice_nodup; auto; lia). rewrite (related_antisym _ _ _ _ g R (slice_length _ _ _ _) Hg). destruct (related_sign _ _ _ _ R) as [->| ->]; ring.
  - intros k' Hk' Hne. destruct (Z.eq_dec (csign (n - 1) (slice n a s c) (nth k' low [])) 0%Z) as [->|Q]; [ring|]. exfalso. apply Hne. apply (cl_uniq _ _ _ _ _ L); auto.
    apply csign_perm in Q; [|apply slice_length]. eapply perm_trans; [apply Permutation_sym; exact Q|exact (related_perm _ _ _ _ R (slice_length _ _ _ _))].
Qed.

Section Top.
Variables (n : nat) (rows : list cube) (t : topology).
Hypothesis Hn : 1 <= n.
Hypothesis T : ctop n rows t.

Lemma c_n_elements_pos : forall k, k <= n -> 0 < n_elements t k.
Proof.
  intros k Hk. destruct k as [|k].
  - destruct (ct_ok _ _ _ T 1 ltac:(lia)) as [Hne F]. pose proof (ct_level _ _ _ T 0 ltac:(lia)) as L. destruct (nth 1 (elements t) []) as [|s r] eqn:E; [congruence|].
    destruct (cl_idx _ _ _ _ _ L 0 0 false ltac:(simpl; lia) ltac:(lia)) as (H & _). unfold n_elements. lia.
  - destruct (ct_ok _ _ _ T (S k) ltac:(lia)) as [Hne _]. unfold n_elements. destruct (nth (S k) (elements t) []); simpl; [congruence|lia].
Qed.
Lemma c_len : forall k c, k <= n -> In c (nth k (elements t) []) -> length c = 2 ^ k /\ NoDup c.
Proof.
  intros k c Hk Hc. destruct k as [|k].
  - rewrite (ct_verts _ _ _ T) in Hc. apply in_map_iff in Hc as (v & <- & _). split; auto. repeat constructor; auto.
  - destruct (ct_ok _ _ _ T (S k) ltac:(lia)) as [_ F]. rewrite Forall_forall in F. auto.
Qed.
Lemma c_Bne : forall k, k < n -> nth k (boundary_idx t) [] <> [].
Proof. intros k Hk E. pose proof (cl_lenB _ _ _ _ _ (ct_level _ _ _ T k Hk)) as X. rewrite E in X. pose proof (c_n_elements_pos (S k) ltac:(lia)) as Hp. unfold n_elements in Hp. simpl in X. lia. Qed.

Lemma c_matrix_entry : forall k i j, k < n -> i < n_elements t k ->
  entry (matrix t k) i j = if j <? n_elements t (S k) then (- incn (S k) (nth i (nth k (elements t) []) []) (nth j (nth (S k) (elements t) []) []))%Z else 0%Z.
Proof.
  intros k i j Hk Hi. pose proof (ct_level _ _ _ T k Hk) as L. unfold matrix. rewrite (topology_matrix_entry (S k * 2)).
  - rewrite (cl_lenB _ _ _ _ _ L). fold (n_elements t (S k)). destruct (j <? n_elements t (S k)) eqn:E; auto. apply Nat.ltb_lt in E. apply (clevel_entry _ _ _ _ _ L); auto. apply (ct_ok _ _ _ T). lia.
  - lia.
  - apply (cl_rectB _ _ _ _ _ L).
  - apply (cl_rectO _ _ _ _ _ L).
  - rewrite (cl_lenB _ _ _ _ _ L), (cl_lenO _ _ _ _ _ L). auto.
  - apply c_Bne; auto.
Qed.
Lemma pair_index : forall k c, c < S k * 2 -> exists a s, a < S k /\ c = 2 * a + nat_of s.
Proof.
  intros k c Hc. exists (c / 2), (Nat.odd c). pose proof (Nat.div_mod_eq c 2) as E. pose proof (mod2_odd c) as Q. pose proof (Nat.mod_upper_bound c 2 ltac:(lia)) as U. split.
  - apply Nat.div_lt_upper_bound; lia.
  - destruct (Nat.odd c); cbn [nat_of]; [apply Nat.eqb_eq in Q|apply Nat.eqb_neq in Q]; lia.
Qed.
Lemma c_matrix_shape : forall k, k < n -> nrows (matrix t k) = n_elements t k /\ ncols (matrix t k) = n_elements t (S k).
Proof.
  intros k Hk. pose proof (ct_level _ _ _ T k Hk) as L. pose proof (c_n_elements_pos (S k) ltac:(lia)) as Hp. pose proof (c_n_elements_pos k ltac:(lia)) as Hp0.
  destruct (topology_matrix_shape (S k * 2) _ (nth k (orientation t) []) ltac:(lia) (cl_rectB _ _ _ _ _ L) (c_Bne k Hk)) as (H1 & H2 & H3). unfold matrix. pose proof (cl_rectB _ _ _ _ _ L) as FB. rewrite Forall_forall in FB. split.
  - apply Nat.le_antisymm.
    + apply H3; auto. intros i l Hl Hi. apply In_nth with (d := []) in Hl as (j & Hj & <-).
      assert (Ll : length (nth j (nth k (boundary_idx t) []) []) = S k * 2) by (apply FB, nth_In; auto).
      apply In_nth with (d := 0) in Hi as (c & Hc & <-). rewrite (cl_lenB _ _ _ _ _ L) in Hj. rewrite Ll in Hc. destruct (pair_index k c Hc) as (a & s & Ha & ->). destruct (cl_idx _ _ _ _ _ L j a s Hj Ha) as [X _]. exact X.
    + destruct (n_elements t k) as [|m] eqn:Em; [lia|]. assert (Hm : m < length (nth k (elements t) [])) by (unfold n_elements in Em; lia).
      destruct (cl_sub _ _ _ _ _ L m Hm) as (c & a & s & z & Hc & Ha & R). apply In_nth with (d := []) in Hc as (j & Hj & <-). destruct (cl_idx _ _ _ _ _ L j a s Hj Ha) as (X1 & (z' & R') & _).
      assert (X3 : nth (2 * a + nat_of s) (nth j (nth k (boundary_idx t) []) []) 0 = m).
      { apply (cl_uniq _ _ _ _ _ L); auto. eapply perm_trans; [apply Permutation_sym, (related_perm _ _ _ _ R' (slice_length _ _ _ _))|exact (related_perm _ _ _ _ R (slice_length _ _ _ _))]. }
      assert (m < nrows (topology_matrix (nth k (boundary_idx t) []) (nth k (orientation t) []))).
      { apply (H2 m (nth j (nth k (boundary_idx t) []) [])).
        - apply nth_In. rewrite (cl_lenB _ _ _ _ _ L). auto.
        - rewrite <- X3. apply nth_In. rewrite FB by (apply nth_In; rewrite (cl_lenB _ _ _ _ _ L); auto). destruct s; simpl; lia. }
      lia.
  - rewrite H1. apply (cl_lenB _ _ _ _ _ L).
Qed.
Lemma c_entry_row_out : forall k i j, k < n -> n_elements t k <= i -> entry (matrix t k) i j = 0%Z.
Proof.
  intros k i j Hk Hi. pose proof (ct_level _ _ _ T k Hk) as L. unfold matrix. rewrite (topology_matrix_entry (S k * 2)); auto; try lia.
  - destruct (j <? _) eqn:E; auto. apply Nat.ltb_lt in E. rewrite (cl_lenB _ _ _ _ _ L) in E. pose proof (cl_rectB _ _ _ _ _ L) as FB. pose proof (cl_rectO _ _ _ _ _ L) as FO. rewrite Forall_forall in FB, FO. rewrite (col_entry_sum (S k * 2)).
    + apply sumZ_map_0. intros c Hc. apply in_seq in Hc. destruct (pair_index k c ltac:(lia)) as (a & s & Ha & ->). destruct (cl_idx _ _ _ _ _ L j a s E Ha) as [X _]. destruct (_ =? i) eqn:E2; auto. apply Nat.eqb_eq in E2. unfold n_elements in Hi. lia.
    + apply FB, nth_In. rewrite (cl_lenB _ _ _ _ _ L). auto.
    + apply FO, nth_In. rewrite (cl_lenO _ _ _ _ _ L). auto.
  - apply (cl_rectB _ _ _ _ _ L).
  - apply (cl_rectO _ _ _ _ _ L).
  - rewrite (cl_lenB _ _ _ _ _ L), (cl_lenO _ _ _ _ _ L). auto.
  - apply c_Bne; auto.
Qed.
Lemma c_chain_zero : forall k i j, S k < n -> product_entry (matrix t k) (matrix t (S k)) i j = 0%Z.
Proof.
  intros k i j Hk. unfold product_entry. destruct (c_matrix_shape k ltac:(lia)) as [R1 C1]. destruct (c_matrix_shape (S k) Hk) as [R2 C2]. rewrite C1, R2, Nat.max_id.
  destruct (Nat.ltb_spec i (n_elements t k)) as [Hi|Hi]. 2:{ apply sumZ_map_0. intros m Hm. rewrite c_entry_row_out by (auto; lia). lia. }
  destruct (j <? n_elements t (S (S k))) eqn:Ej. 2:{ apply sumZ_map_0. intros m Hm. apply in_seq in Hm. rewrite (c_matrix_entry (S k)) by (auto; lia). rewrite Ej. lia. }
  apply Nat.ltb_lt in Ej.
  rewrite (sumZ_map_ext _ _ (fun m => incn (S k) (nth i (nth k (elements t) []) []) (nth m (nth (S k) (elements t) []) []) * incn (S (S k)) (nth m (nth (S k) (elements t) []) []) (nth j (nth (S (S k)) (elements t) []) []))%Z).
  - unfold n_elements. rewrite (clevel_transfer _ _ _ _ _ (ct_level _ _ _ T (S k) Hk) (ct_ok _ _ _ T (S (S k)) ltac:(lia)) (nth j (nth (S (S k)) (elements t) []) []) (nth_In _ _ Ej) (incn (S k) (nth i (nth k (elements t) []) []))).
    + pose proof (cbd_cbd (S (S k)) (fun x => csign (S k - 1) x (nth i (nth k (elements t) []) [])) (nth j (nth (S (S k)) (elements t) []) [])) as Q. replace (S (S k) - 1) with (S k) in Q by lia. exact Q.
    + replace (S (S k) - 1) with (S k) by lia. apply incn_antisym.
  - intros m Hm. apply in_seq in Hm. rewrite (c_matrix_entry k), (c_matrix_entry (S k)) by (auto; lia). rewrite (proj2 (Nat.ltb_lt m (n_elements t (S k)))), (proj2 (Nat.ltb_lt j (n_elements t (S (S k))))) by lia. ring.
Qed.

(** The value of an incidence number. *)
Lemma incn_value : forall m c f a s z, a < m -> length c = 2 ^ m -> NoDup c -> related (m - 1) z (slice m a s c) f -> incn m f c = (sgn_pow (a + nat_of s) * z)%Z.
Proof.
  intros m c f a s z Ha L ND R. unfold incn, cbd.
  assert (Hz : forall a' s', a' < m -> (a', s') <> (a, s) -> csign (m - 1) (slice m a' s' c) f = 0%Z).
  { intros a' s' Ha' Hne. destruct (Z.eq_dec (csign (m - 1) (slice m a' s' c) f) 0%Z) as [E|Q]; auto. exfalso. apply Hne. apply csign_perm in Q; [|apply slice_length].
    destruct (slice_inj m a' s' a s c Ha' Ha ND L) as [-> ->]; auto. eapply perm_trans; [exact Q|]. apply Permutation_sym, (related_perm _ _ _ _ R (slice_length _ _ _ _)). }
  rewrite (sumZ_single (fun a' => sumZ (map (fun s' => (sgn_pow (a' + nat_of s') * csign (m - 1) (slice m a' s' c) f)%Z) sides)) m a Ha).
  - pose proof (related_csign _ _ _ _ R (slice_nodup m a s c Ha ND L) (slice_length _ _ _ _)) as E. unfold sides. cbn [map sumZ fold_right]. destruct s.
    + rewrite (Hz a false) by (auto; congruence). rewrite E. ring.
    + rewrite (Hz a true) by (auto; congruence). rewrite E. ring.
  - intros a' Ha' Hne. apply sumZ_map_0. intros s' _. rewrite Hz by (auto; congruence). ring.
Qed.
Lemma incn_zero : forall m c f, length c = 2 ^ m -> NoDup c -> (forall a s z, a < m -> ~ related (m - 1) z (slice m a s c) f) -> incn m f c = 0%Z.
Proof.
  intros m c f L ND H. unfold incn, cbd. apply sumZ_map_0. intros a Ha. apply in_seq in Ha. apply sumZ_map_0. intros s _. destruct (Z.eq_dec (csign (m - 1) (slice m a s c) f) 0%Z) as [->|Q]; [ring|]. exfalso.
  apply csign_related in Q; [|apply slice_nodup; auto; lia|apply slice_length]. eapply H; [|exact Q]; lia.
Qed.

(** Every face is listed, up to orientation, exactly once. *)
Lemma c_listed : forall d k, k + d = n -> 
  (forall i, i < n_elements t k -> exists c g s, In c rows /\ subcube k n c g /\ related k s g (nth i (nth k (elements t) []) [])) /\
  (forall c g, In c rows -> subcube k n c g -> exists i s, i < n_elements t k /\ related k s g (nth i (nth k (elements t) []) [])).
Proof.
  assert (OK : forall c, In c rows -> length c = 2 ^ n /\ NoDup c) by (intros c Hc; apply c_len; auto; rewrite (ct_top _ _ _ T); auto).
  induction d as [|d IH]; intros k Hk.
  - assert (k = n) by lia. subst k. unfold n_elements. rewrite (ct_top _ _ _ T). split.
    + intros i Hi. exists (nth i rows []), (nth i rows []), 1%Z. repeat split; [apply nth_In; auto|constructor|constructor].
    + intros c g Hc Hg. apply subcube_top in Hg. subst g. apply In_nth with (d := []) in Hc as (i & Hi & <-). exists i, 1%Z. split; auto. constructor.
  - destruct (IH (S k) ltac:(lia)) as [I1 I2]. pose proof (ct_level _ _ _ T k ltac:(lia)) as L. split.
    + intros i Hi. destruct (cl_sub _ _ _ _ _ L i Hi) as (e & a & s & z & He & Ha & R). apply In_nth with (d := []) in He as (j & Hj & <-). destruct (I1 j Hj) as (c & g & s' & Hc & Hg & R'). destruct (OK c Hc) as [Lc _].
      pose proof (subcube_length _ _ _ _ Hg Lc) as Lg. destruct (slice_related (S k) s' g _ a s R' Lg Ha) as (a' & b' & z' & Ha' & R2). replace (S k - 1) with k in * by lia.
      exists c, (slice (S k) a' b' g), (z' * z)%Z. repeat split; auto; [|eapply related_trans; eauto].
      clear -Hg Ha'. induction Hg; [apply (subcube_step k (S k) c (slice (S k) a' b' c) a' b' Ha'); replace (S k - 1) with k by lia; constructor|]. apply (subcube_slice k n a s c d); auto.
    + intros c g Hc Hg. destruct (OK c Hc) as [Lc NDc].
      assert (H : exists e a s, subcube (S k) n c e /\ a < S k /\ g = slice (S k) a s e).
      { assert (Hkn : S k <= n) by lia. clear -Hg Hkn Lc. induction Hg as [c|m a s c e f Ha He Hf IH]; [lia|]. destruct (Nat.eq_dec k m) as [->|Hne].
        - apply subcube_top in Hf. subst f. exists c, a, s. split; [constructor|]. split; [lia|]. apply is_slice_slice; auto. lia.
        - destruct IH as (e' & a' & s' & H1 & H2 & H3); [destruct He as [Q _]; rewrite Q; f_equal; lia|pose proof (subcube_le _ _ _ _ Hf); lia|]. exists e', a', s'. split; auto. apply (subcube_slice (S k) m a s c e); auto. }
      destruct H as (e & a & s & He & Ha & ->). destruct (I2 c e Hc He) as (j & z & Hj & R). pose proof (subcube_length _ _ _ _ He Lc) as Le.
      apply related_sym in R; auto. assert (Lj : length (nth j (nth (S k) (elements t) []) []) = 2 ^ S k) by (apply c_len; [lia|apply nth_In; auto]).
      destruct (slice_related (S k) z _ e a s R Lj Ha) as (a' & b' & z' & Ha' & R2). destruct (cl_idx _ _ _ _ _ L j a' b' Hj Ha') as (H1 & (z2 & R3) & _). replace (S k - 1) with k in * by lia.
      eexists. exists (z' * z2)%Z. split; [exact H1|]. eapply related_trans; [|exact R3]. apply related_sym; auto. rewrite slice_length. f_equal. lia.
Qed.
Lemma c_distinct : forall k i j, k <= n -> k < n -> i < n_elements t k -> j < n_elements t k -> Permutation (nth i (nth k (elements t) []) []) (nth j (nth k (elements t) []) []) -> i = j.
Proof. intros k i j _ Hk Hi Hj P. apply (cl_uniq _ _ _ _ _ (ct_level _ _ _ T k Hk)); auto. Qed.
End Top.
