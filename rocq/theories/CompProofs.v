(** Proofs about the graph of top simplices. *)
Require Import List Arith ZArith Bool Permutation Lia Sorted.
From Verif Require Import Util CombSpec SimpModel SimpSpec BdryModel BdrySpec AvgModel CompModel CompSpec SimpProofs ParProofs TopProofs OrientProofs AvgProofs AvgProps BdryProofs FundProofs.
Import ListNotations.

Lemma entry_transpose : forall M i j, entry (transpose M) i j = entry M j i.
Proof.
  intros. unfold entry, transpose. cbn [triples]. rewrite map_map. apply sumZ_map_ext.
  intros [[r c] v] _. rewrite andb_comm. auto.
Qed.

Lemma of_entries_edges : forall r c f i j, In (i, j) (edges_of (of_entries r c f)) <-> i < r /\ j < c /\ f i j <> 0%Z.
Proof.
  intros r c f i j. unfold edges_of, of_entries. cbn [triples]. rewrite in_map_iff. split.
  - intros ([[a b] v] & E & H). cbn in E. injection E as -> ->.
    apply in_flat_map in H as (i0 & Hi & H). apply in_flat_map in H as (j0 & Hj & H).
    apply in_seq in Hi, Hj. destruct (Z.eqb_spec (f i0 j0) 0); [destruct H|]. destruct H as [H|[]]. injection H as -> -> _.
    repeat split; auto; lia.
  - intros (Hi & Hj & H). exists (i, j, f i j). split; auto.
    apply in_flat_map. exists i. split; [apply in_seq; lia|]. apply in_flat_map. exists j. split; [apply in_seq; lia|].
    destruct (Z.eqb_spec (f i j) 0); [congruence|]. left; auto.
Qed.

Definition gramZ (M : coo) (a b : nat) : Z := sumZ (map (fun k => entry M k a * entry M k b)%Z (seq 0 (nrows M))).
Lemma gram_edges : forall M a b, In (a, b) (edges_of (mul8 (transpose M) M)) <->
  a < ncols M /\ b < ncols M /\ wrap8 (gramZ M a b) <> 0%Z.
Proof.
  intros. unfold mul8. rewrite of_entries_edges. cbn [transpose nrows ncols]. unfold gramZ.
  rewrite (sumZ_map_ext _ (fun k => entry (transpose M) a k * entry M k b)%Z (fun k => entry M k a * entry M k b)%Z); [tauto|].
  intros k _. f_equal. apply entry_transpose.
Qed.

Lemma path_trans : forall E i j k, path E i j -> path E j k -> path E i k.
Proof. intros E i j k H1 H2. induction H2 as [j|j m k H2 IH HE]; auto. apply path_step with m; auto. Qed.
Lemma path_sym : forall E i j, path E i j -> path E j i.
Proof.
  intros E i j H. induction H; [constructor|]. eapply path_trans; [|exact IHpath].
  eapply path_step; [constructor|]. tauto.
Qed.

Lemma list_choice : forall (P : nat -> nat -> Prop) k, (forall l, l < k -> exists i, P l i) ->
  exists reps, length reps = k /\ forall l, l < k -> P l (nth l reps 0).
Proof.
  intros P k. induction k as [|k IH]; intros H; [exists []; split; auto; lia|].
  destruct IH as (reps & L & HP); [intros; apply H; lia|]. destruct (H k ltac:(lia)) as (x & Hx).
  exists (reps ++ [x]). split; [rewrite app_length; simpl; lia|]. intros l Hl.
  destruct (Nat.eq_dec l k) as [->|D].
  - rewrite app_nth2 by lia. rewrite L, Nat.sub_diag. auto.
  - rewrite app_nth1 by lia. apply HP. lia.
Qed.

Section Top.
Variables (n : nat) (rows : list simplex) (t : topology).
Hypothesis Hn : 1 <= n.
Hypothesis T : top_ok n rows t.

Lemma row_ok : forall j, j < length rows -> length (nth j rows []) = S n /\ NoDup (nth j rows []).
Proof. intros j Hj. rewrite <- (el_top n rows t T). apply (el_len n rows t Hn T); auto. rewrite (n_top n rows t T). auto. Qed.

Notation M := (matrix t (n - 1)).
Lemma nrows_M : nrows M = n_elements t (n - 1).
Proof. destruct (matrix_shape n rows t Hn T (n - 1) ltac:(lia)). auto. Qed.
Lemma ncols_M : ncols M = length rows.
Proof. destruct (matrix_shape n rows t Hn T (n - 1) ltac:(lia)) as [_ C]. rewrite C. replace (S (n - 1)) with n by lia. apply (n_top n rows t T). Qed.

Lemma inc_zero : forall i j, i < n_elements t (n - 1) -> j < length rows -> ~ incl (el t (n - 1) i) (nth j rows []) ->
  incidence_number (el t (n - 1) i) (nth j rows []) = 0%Z.
Proof.
  intros i j Hi Hj NI. destruct (row_ok j Hj). destruct (el_len n rows t Hn T (n - 1) i ltac:(lia) Hi).
  apply incidence_values; auto. lia.
Qed.
Lemma entry_out : forall i j, i < n_elements t (n - 1) -> j < length rows -> ~ incl (el t (n - 1) i) (nth j rows []) -> entry M i j = 0%Z.
Proof.
  intros i j Hi Hj NI. rewrite (entry_top n rows t Hn T) by auto. rewrite inc_zero by auto. lia.
Qed.

Lemma gram_nz : n < 255 -> forall j1 j2, j1 < length rows -> j2 < length rows ->
  (wrap8 (gramZ M j1 j2) <> 0%Z <-> exists f, is_face (n - 1) f (nth j1 rows []) /\ is_face (n - 1) f (nth j2 rows [])).
Proof.
  intros N255 j1 j2 H1 H2. destruct (row_ok j1 H1) as [L1 N1]. destruct (row_ok j2 H2) as [L2 N2].
  unfold gramZ. rewrite nrows_M. split.
  - intros H.
    destruct (existsb (fun i => inclb (el t (n - 1) i) (nth j1 rows []) && inclb (el t (n - 1) i) (nth j2 rows [])) (seq 0 (n_elements t (n - 1)))) eqn:E.
    + apply existsb_exists in E as (i & Hi & E). apply in_seq in Hi. apply andb_true_iff in E as [E1 E2]. apply inclb_iff in E1, E2.
      exists (el t (n - 1) i). split; apply (el_face n rows t Hn T); auto; lia.
    + exfalso. apply H. rewrite sumZ_map_0; [reflexivity|]. intros i Hi. pose proof Hi as Hi'. apply in_seq in Hi.
      destruct (inclb (el t (n - 1) i) (nth j1 rows [])) eqn:E1.
      * destruct (inclb (el t (n - 1) i) (nth j2 rows [])) eqn:E2.
        { exfalso. assert (X : existsb (fun i => inclb (el t (n - 1) i) (nth j1 rows []) && inclb (el t (n - 1) i) (nth j2 rows [])) (seq 0 (n_elements t (n - 1))) = true).
          { apply existsb_exists. exists i. rewrite E1, E2. auto. } congruence. }
        rewrite (entry_out i j2); try lia. intros I. apply inclb_iff in I. congruence.
      * rewrite (entry_out i j1); try lia. intros I. apply inclb_iff in I. congruence.
  - intros (f & F1 & F2). destruct (facet_index n rows t Hn T f j1 H1 F1) as (i & Hi & P).
    assert (I1 : incl (el t (n - 1) i) (nth j1 rows [])) by (intros x Hx; apply (proj2 (proj2 F1)); eapply Permutation_in; eauto).
    assert (I2 : incl (el t (n - 1) i) (nth j2 rows [])) by (intros x Hx; apply (proj2 (proj2 F2)); eapply Permutation_in; eauto).
    destruct (same_verts (nth j1 rows []) (nth j2 rows [])) eqn:SV.
    + apply same_verts_iff in SV.
      rewrite (sumZ_map_ext _ _ (fun k => if negb (entry M k j1 =? 0)%Z then (sgn (nth j1 rows []) * sgn (nth j2 rows []))%Z else 0%Z)).
      * rewrite sumZ_indicator. rewrite (column_count n rows t Hn T (n - 1) j1) by (try lia; replace (S (n - 1)) with n by lia; rewrite (n_top n rows t T); auto).
        replace (S (S (n - 1))) with (S n) by lia.
        intros Z. assert (Z' : wrap8 (sgn (nth j1 rows []) * sgn (nth j2 rows []) * Z.of_nat (S n)) = wrap8 0) by (rewrite Z; reflexivity).
        apply cong_wrap8 in Z'. rewrite Z.sub_0_r in Z'. apply Z.mod_divide in Z'; [|lia]. destruct Z' as [q Hq].
        destruct (sgn_cases (nth j1 rows [])) as [S1|S1], (sgn_cases (nth j2 rows [])) as [S2|S2]; rewrite S1, S2 in Hq; lia.
      * intros k Hk. apply in_seq in Hk. rewrite !(entry_top n rows t Hn T) by (try lia; auto).
        rewrite (incidence_antisym_simplex (el t (n - 1) k) _ _ N1 SV).
        destruct (incl_dec' (el t (n - 1) k) (nth j1 rows [])) as [I|NI].
        { destruct (el_len n rows t Hn T (n - 1) k ltac:(lia) ltac:(lia)) as [Lk Nk].
          destruct (proj1 (incidence_values (el t (n - 1) k) (nth j1 rows []) Nk N1 ltac:(lia)) I) as [-> | ->];
          destruct (eps_cases n) as [-> | ->]; simpl Z.eqb; cbn [negb]; lia. }
        { rewrite inc_zero by (try lia; auto).
          rewrite !Z.mul_0_r. cbn. lia. }
    + apply same_verts_false in SV.
      rewrite (sumZ_single _ _ i Hi).
      * destruct (entry_pm n rows t Hn T i j1 Hi H1 I1) as [-> | ->], (entry_pm n rows t Hn T i j2 Hi H2 I2) as [-> | ->]; cbn; discriminate.
      * intros i' Hi' D.
        destruct (incl_dec' (el t (n - 1) i') (nth j1 rows [])) as [J1|J1]; [|rewrite (entry_out i' j1) by auto; lia].
        destruct (incl_dec' (el t (n - 1) i') (nth j2 rows [])) as [J2|J2]; [|rewrite (entry_out i' j2) by auto; lia].
        exfalso. apply D. apply (faces_unique n rows t T (n - 1)); try lia. fold (el t (n - 1) i') (el t (n - 1) i).
        (* a vertex of the first simplex outside the second *)
        assert (X : exists x, In x (nth j1 rows []) /\ ~ In x (nth j2 rows [])).
        { destruct (incl_dec' (nth j1 rows []) (nth j2 rows [])) as [I|NI].
          - exfalso. apply SV. apply NoDup_Permutation_bis; auto; lia.
          - destruct (Exists_dec (fun v => ~ In v (nth j2 rows [])) (nth j1 rows [])) as [Ex|Ex].
            + intros v. destruct (in_dec Nat.eq_dec v (nth j2 rows [])); [right|left]; auto.
            + apply Exists_exists in Ex. auto.
            + exfalso. apply NI. intros v Hv. destruct (in_dec Nat.eq_dec v (nth j2 rows [])); auto. exfalso. apply Ex. apply Exists_exists. eauto. }
        destruct X as (x & X1 & X2).
        assert (Q : forall k, k < n_elements t (n - 1) -> incl (el t (n - 1) k) (nth j1 rows []) -> incl (el t (n - 1) k) (nth j2 rows []) ->
          Permutation (x :: el t (n - 1) k) (nth j1 rows [])).
        { intros k Hk K1 K2. destruct (el_len n rows t Hn T (n - 1) k ltac:(lia) Hk) as [Lk Nk].
          apply NoDup_Permutation_bis; [constructor; auto|simpl; lia|]. intros y [<-|Hy]; auto. }
        apply Permutation_cons_inv with (a := x). eapply perm_trans; [apply (Q i'); auto|]. apply Permutation_sym. apply (Q i); auto.
Qed.

Lemma graph_edges : n < 255 -> forall a b, In (a, b) (edges_of (mul8 (transpose M) M)) <->
  a < length rows /\ b < length rows /\ (exists f, is_face (n - 1) f (nth a rows []) /\ is_face (n - 1) f (nth b rows [])).
Proof.
  intros N a b. rewrite gram_edges, ncols_M. split; intros (A & B & H); (split; [auto|split; auto]); apply gram_nz; auto.
Qed.

Lemma path_linked : n < 255 -> forall i j, path (edges_of (mul8 (transpose M) M)) i j <-> linked n rows i j.
Proof.
  intros N i j. split; intros H.
  - induction H as [i|i j k H IH E]; [constructor|].
    destruct (Nat.eq_dec j k) as [->|D]; auto. eapply linked_step; [exact IH|].
    destruct E as [E|E]; apply (graph_edges N) in E as (A & B & f & F1 & F2); (split; [auto|split; [auto|split; [auto|exists f; auto]]]).
  - induction H as [i|i j k H IH (A & B & D & f & F1 & F2)]; [constructor|]. eapply path_step; [exact IH|]. left.
    apply (graph_edges N). split; auto. split; auto. exists f; auto.
Qed.

Variable components : nat -> list (nat * nat) -> nat * list nat.
Hypothesis CC : components_contract components.

Lemma labels_spec : n < 255 -> let (k, labels) := label_connections components t in
  length labels = length rows /\
  (forall i, i < length rows -> nth i labels 0 < k) /\
  (forall l, l < k -> exists i, i < length rows /\ nth i labels 0 = l) /\
  (forall i j, i < length rows -> j < length rows -> (nth i labels 0 = nth j labels 0 <-> linked n rows i j)).
Proof.
  intros N. unfold label_connections. rewrite (top_n_dim n rows t T). cbn zeta.
  assert (R : nrows (mul8 (transpose M) M) = length rows) by (cbn; apply ncols_M).
  pose proof (CC (nrows (mul8 (transpose M) M)) (edges_of (mul8 (transpose M) M))) as C.
  destruct (components _ _) as [k labels]. destruct C as (C1 & C2 & C3 & C4).
  { intros i j H. rewrite R. apply (graph_edges N) in H. tauto. }
  rewrite R in *. split; auto. split; auto. split; auto. intros i j Hi Hj. rewrite C4 by auto. apply path_linked; auto.
Qed.

(** ---- the star of a vertex ---- *)
Lemma star_face : forall v j k f, in_star rows v j -> in_star rows v k ->
  is_face (n - 1) f (nth j rows []) -> is_face (n - 1) f (nth k rows []) ->
  exists g, is_face (n - 1) g (nth j rows []) /\ is_face (n - 1) g (nth k rows []) /\ In v g.
Proof.
  intros v j k f [Hj Vj] [Hk Vk] (N1 & L1 & I1) (_ & _ & I2).
  destruct (in_dec Nat.eq_dec v f) as [I|NI]; [exists f; repeat split; auto|].
  destruct (row_ok j Hj) as [Lj Nj]. destruct (row_ok k Hk) as [Lk Nk].
  (* both simplices consist of v and f: drop another vertex *)
  assert (P : Permutation (v :: f) (nth j rows [])).
  { apply NoDup_Permutation_bis; [constructor; auto|simpl; lia|]. intros y [<-|Hy]; auto. }
  destruct f as [|w f]; [simpl in L1; lia|].
  exists (v :: f). inversion N1; subst. repeat split; auto.
  - constructor; auto. intros X. apply NI. right; auto.
  - intros y [<-|Hy]; auto. apply I1. right; auto.
  - constructor; auto. intros X. apply NI. right; auto.
  - intros y [<-|Hy]; auto. apply I2. right; auto.
  - left; auto.
Qed.

Lemma columns_gram : forall cols a b, a < length cols -> b < length cols ->
  gramZ (columns M cols) a b = gramZ M (nth a cols 0) (nth b cols 0).
Proof.
  intros cols a b Ha Hb. unfold gramZ. cbn [columns of_entries nrows]. apply sumZ_map_ext. intros k Hk. apply in_seq in Hk.
  unfold columns. rewrite !of_entries_entry. rewrite (proj2 (Nat.ltb_lt k (nrows M))) by lia.
  rewrite (proj2 (Nat.ltb_lt a _) Ha), (proj2 (Nat.ltb_lt b _) Hb). reflexivity.
Qed.

Lemma path_around : n < 255 -> forall v cols, NoDup cols -> (forall j, In j cols <-> in_star rows v j) ->
  forall a b, a < length cols -> b < length cols ->
  (path (edges_of (mul8 (transpose (columns M cols)) (columns M cols))) a b <-> around n rows v (nth a cols 0) (nth b cols 0)).
Proof.
  intros N v cols ND HC.
  assert (E : forall a b, In (a, b) (edges_of (mul8 (transpose (columns M cols)) (columns M cols))) <->
     a < length cols /\ b < length cols /\ exists f, is_face (n - 1) f (nth (nth a cols 0) rows []) /\ is_face (n - 1) f (nth (nth b cols 0) rows [])).
  { intros a b. rewrite gram_edges. cbn [columns of_entries ncols]. fold (columns M cols). split; intros (A & B & H); (split; [auto|split; auto]).
    - rewrite columns_gram in H by auto. apply gram_nz in H; auto; apply HC, nth_In; auto.
    - rewrite columns_gram by auto. apply gram_nz; auto; apply HC, nth_In; auto. }
  intros a b Ha Hb. split; intros H.
  - induction H as [i|i j k H IH HE]; [constructor|].
    assert (X : j < length cols /\ k < length cols /\ exists f, is_face (n - 1) f (nth (nth j cols 0) rows []) /\ is_face (n - 1) f (nth (nth k cols 0) rows [])).
    { destruct HE as [HE|HE]; apply E in HE as (A & B & f & F1 & F2); split; auto; split; auto; exists f; auto. }
    destruct X as (A & B & f & F1 & F2).
    assert (S1 : in_star rows v (nth j cols 0)) by (apply HC, nth_In; auto).
    assert (S2 : in_star rows v (nth k cols 0)) by (apply HC, nth_In; auto).
    destruct (star_face v _ _ f S1 S2 F1 F2) as (g & G1 & G2 & G3).
    eapply around_step; [apply IH; auto| | | | |]; eauto.
  - remember (nth a cols 0) as x eqn:Ex. remember (nth b cols 0) as y eqn:Ey. revert b Hb Ey.
    induction H as [j|i j k f H IH S1 S2 F1 F2 V]; intros b Hb Ey.
    + assert (a = b). { apply (proj1 (NoDup_nth cols 0) ND); auto. congruence. } subst. constructor.
    + pose proof (proj2 (HC j) S1) as Ij. apply In_nth with (d := 0) in Ij as (c & Hc & Ec).
      eapply path_step; [apply (IH Ex c); auto|]. left. apply E. split; auto. split; auto. exists f. rewrite Ec, <- Ey. auto.
Qed.

Lemma around_sym_free : forall v i j, around n rows v i j -> i = j \/ in_star rows v j.
Proof. intros v i j H. destruct H; auto. Qed.
End Top.
