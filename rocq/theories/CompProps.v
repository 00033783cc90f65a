(** C85, C86: connected components of a mesh, and the manifold check. *)
Require Import List Arith ZArith Bool Permutation Lia Sorted.
From Verif Require Import Util CombSpec SimpModel SimpSpec BdryModel BdrySpec AvgModel CompModel CompSpec SimpProofs ParProofs LevelProofs TopProofs OrientProofs AvgProofs AvgProps BdryProofs FundProofs SelProofs SubProofs SimpProps SelProps CompWalk CompProofs DualProps CubeModel CubeSpec.
Import ListNotations.

(** ---- an implementation of connected_components that meets the contract ---- *)
Definition merge (l : list nat) (e : nat * nat) : list nat :=
  map (fun x => if x =? nth (snd e) l 0 then nth (fst e) l 0 else x) l.
Definition flood (N : nat) (E : list (nat * nat)) : nat * list nat :=
  let l := fold_left merge E (seq 0 N) in
  let roots := filter (fun i => nth i l 0 =? i) (seq 0 N) in
  (length roots, map (fun x => index_of Nat.eqb x roots) l).

Lemma path_mono : forall E E' i j, incl E E' -> path E i j -> path E' i j.
Proof. intros E E' i j I H. induction H as [i|i j k H IH HE]; [constructor|]. apply path_step with j; auto. destruct HE; auto. Qed.

Lemma flood_inv : forall N E0 E l, (forall i j, In (i, j) E -> i < N /\ j < N) ->
  length l = N -> (forall p, p < N -> nth p l 0 < N /\ nth (nth p l 0) l 0 = nth p l 0 /\ path E0 p (nth p l 0)) ->
  (forall i j, In (i, j) E0 -> i < N /\ j < N /\ nth i l 0 = nth j l 0) ->
  let l' := fold_left merge E l in
  length l' = N /\ (forall p, p < N -> nth p l' 0 < N /\ nth (nth p l' 0) l' 0 = nth p l' 0 /\ path (E0 ++ E) p (nth p l' 0)) /\
  (forall i j, In (i, j) (E0 ++ E) -> i < N /\ j < N /\ nth i l' 0 = nth j l' 0).
Proof.
  intros N E0 E. revert E0. induction E as [|[i j] E IH]; intros E0 l HE L H1 H2.
  - cbn. rewrite app_nil_r. auto.
  - cbn [fold_left]. replace (E0 ++ (i, j) :: E) with ((E0 ++ [(i, j)]) ++ E) by (rewrite <- app_assoc; reflexivity).
    destruct (HE i j (or_introl eq_refl)) as [Hi Hj].
    assert (G : forall p, p < N -> nth p (merge l (i, j)) 0 = if nth p l 0 =? nth j l 0 then nth i l 0 else nth p l 0).
    { intros p Hp. unfold merge. rewrite (nth_map_lt _ _ _ l p 0 0) by lia. reflexivity. }
    apply IH.
    + intros a b H. apply HE. right; auto.
    + unfold merge. rewrite map_length. auto.
    + intros p Hp. rewrite G by auto. destruct (H1 p Hp) as (A1 & A2 & A3). destruct (H1 i Hi) as (B1 & B2 & B3). destruct (H1 j Hj) as (C1 & C2 & C3).
      assert (I : incl E0 (E0 ++ [(i, j)])) by (apply incl_appl, incl_refl).
      destruct (Nat.eqb_spec (nth p l 0) (nth j l 0)) as [Q|Q].
      * split; auto. split.
        { rewrite G by auto. rewrite B2. destruct (Nat.eqb_spec (nth i l 0) (nth j l 0)); auto. }
        { apply path_trans with j.
          - apply (path_mono E0); auto. apply path_trans with (nth p l 0); auto. rewrite Q. apply path_sym; auto.
          - apply path_trans with i; [|apply (path_mono E0); auto].
            apply path_step with j; [constructor|]. right. apply in_app_iff. right. left; auto. }
      * split; auto. split; [|apply (path_mono E0); auto]. rewrite G by auto. rewrite A2.
        destruct (Nat.eqb_spec (nth p l 0) (nth j l 0)); congruence.
    + intros a b H. apply in_app_iff in H as [H|[H|[]]].
      * destruct (H2 a b H) as (Ha & Hb & Hab). rewrite !G by auto. rewrite Hab. auto.
      * injection H as <- <-. split; auto. split; auto. rewrite !G by auto. rewrite Nat.eqb_refl.
        destruct (Nat.eqb_spec (nth i l 0) (nth j l 0)); auto.
Qed.

Lemma flood_contract : components_contract flood.
Proof.
  intros N E HE. unfold flood.
  destruct (flood_inv N [] E (seq 0 N) HE) as (L & P & Q).
  - apply seq_length.
  - intros p Hp. rewrite !seq_nth by (rewrite ?seq_nth; auto). cbn [Nat.add]. repeat split; auto. constructor.
  - intros i j [].
  - cbn [app] in P, Q. set (l := fold_left merge E (seq 0 N)) in *. cbn zeta.
    set (roots := filter (fun i => nth i l 0 =? i) (seq 0 N)).
    assert (HR : forall p, p < N -> In (nth p l 0) roots).
    { intros p Hp. destruct (P p Hp) as (A & B & _). apply filter_In. split; [apply in_seq; lia|]. apply Nat.eqb_eq. auto. }
    assert (G : forall p, p < N -> nth p (map (fun x => index_of Nat.eqb x roots) l) 0 = index_of Nat.eqb (nth p l 0) roots).
    { intros p Hp. rewrite (nth_map_lt _ _ _ l p 0 0) by lia. reflexivity. }
    split; [rewrite map_length; auto|]. split; [|split].
    + intros p Hp. rewrite G by auto. apply index_of_lt; auto using nat_eqb_ok.
    + intros a Ha. exists (nth a roots 0). assert (I : In (nth a roots 0) roots) by (apply nth_In; auto).
      apply filter_In in I as [I1 I2]. apply in_seq in I1. apply Nat.eqb_eq in I2. split; [lia|]. rewrite G by lia. rewrite I2.
      apply index_of_nth; auto using nat_eqb_ok. apply NoDup_filter, seq_NoDup.
    + intros p q Hp Hq. rewrite !G by auto. split; intros H.
      * apply index_of_inj in H as [H|H]; auto using nat_eqb_ok; [|exfalso; auto]. destruct (P p Hp) as (_ & _ & A). destruct (P q Hq) as (_ & _ & B).
        apply path_trans with (nth p l 0); auto. rewrite H. apply path_sym; auto.
      * assert (X : nth p l 0 = nth q l 0); [|rewrite X; auto]. clear Hp Hq. induction H as [p|p r q H IH HE']; auto. transitivity (nth r l 0); [exact IH|]. destruct HE' as [HE'|HE']; apply Q in HE'; intuition congruence.
Qed.

(** ---- C85 ---- *)
(** Two top simplices carry the same label exactly if a chain of simplices joins them in which
    consecutive ones share a facet. *)
Theorem C85_labels : forall row_leb components n rows t, components_contract components ->
  simplices_ok n rows -> from_simplices row_leb n rows = Ok t -> n < 255 ->
  let (k, labels) := label_connections components t in
  length labels = length rows /\
  (forall l, l < k <-> exists i, i < length rows /\ nth i labels 0 = l) /\
  (forall i j, i < length rows -> j < length rows -> (nth i labels 0 = nth j labels 0 <-> linked n rows i j)).
Proof.
  intros row_leb components n rows t CC OK H N. destruct (from_simplices_top_ok _ _ _ _ OK H) as [Hn T].
  pose proof (labels_spec n rows t Hn T components CC N) as S. destruct (label_connections components t) as [k labels].
  destruct S as (S1 & S2 & S3 & S4). split; auto. split; auto. intros l. split; auto. intros (i & Hi & <-). auto.
Qed.
Print Assumptions C85_labels.

Theorem C85_is_connected : forall row_leb components n rows t, components_contract components ->
  simplices_ok n rows -> from_simplices row_leb n rows = Ok t -> n < 255 ->
  (is_connected components t = true <-> connected n rows).
Proof.
  intros row_leb components n rows t CC OK H N. pose proof (C85_labels row_leb components n rows t CC OK H N) as S.
  unfold is_connected. destruct (label_connections components t) as [k labels]. destruct S as (S1 & S2 & S3). cbn [fst].
  assert (R : 0 < length rows) by (destruct OK as [R _]; destruct rows; [congruence|simpl; lia]).
  rewrite Nat.eqb_eq. split.
  - intros -> j Hj. apply S3; auto.
    assert (nth 0 labels 0 < 1) by (apply S2; eauto). assert (nth j labels 0 < 1) by (apply S2; eauto). lia.
  - intros C. assert (nth 0 labels 0 < k) by (apply S2; eauto).
    destruct (Nat.eq_dec k 1) as [|D]; auto. exfalso.
    destruct (proj1 (S2 0) ltac:(lia)) as (a & Ha & A). destruct (proj1 (S2 1) ltac:(lia)) as (b & Hb & B).
    assert (X : nth 0 labels 0 = nth a labels 0) by (apply S3; auto). assert (Y : nth 0 labels 0 = nth b labels 0) by (apply S3; auto). lia.
Qed.
Print Assumptions C85_is_connected.

Lemma sorted_nodup : forall l, StronglySorted lt l -> NoDup l.
Proof. intros l S. induction S; constructor; auto. rewrite Forall_forall in H. intros I. specialize (H a I). lia. Qed.

(** A list of parts and the classes of simplices they hold. *)
Definition holds (n : nat) (rows : list simplex) (p : topology * list (list nat)) (c : list nat) : Prop :=
  n_dim (fst p) = n /\
  map (map (fun v => nth v (nth 0 (snd p) []) 0)) (nth n (elements (fst p)) []) = map (fun i => nth i rows []) c.

Section Split.
Variables (row_leb : list nat -> list nat -> bool) (n : nat) (rows : list simplex) (t : topology).
Hypothesis OK : simplices_ok n rows.
Hypothesis Ht : from_simplices row_leb n rows = Ok t.

Lemma part_spec : forall labels i, length labels = length rows -> (exists j, j < length rows /\ nth j labels 0 = i) ->
  (forall j k, j < length rows -> k < length rows -> (nth j labels 0 = nth k labels 0 <-> linked n rows j k)) ->
  exists p, select_subset row_leb t (map (Nat.eqb i) labels) = Ok p /\
    holds n rows p (filter (fun j => nth j labels 0 =? i) (seq 0 (length rows))) /\
    connected n (nth n (elements (fst p)) []).
Proof.
  intros labels i L (j0 & Hj0 & E0) LK. destruct (from_simplices_top_ok _ _ _ _ OK Ht) as [Hn T].
  set (chain := map (Nat.eqb i) labels).
  assert (G : forall j, j < length rows -> nth j chain false = (nth j labels 0 =? i)).
  { intros j Hj. unfold chain. rewrite (nth_map_lt _ _ _ labels j 0 false) by lia. apply Nat.eqb_sym. }
  assert (Lc : length chain = length rows) by (unfold chain; rewrite map_length; auto).
  assert (Ex : exists i0, i0 < length rows /\ nth i0 chain false = true).
  { exists j0. split; auto. rewrite G by auto. apply Nat.eqb_eq; auto. }
  destruct (C13_select_subset row_leb n rows t chain OK Ht Lc Ex) as (s & idx & E & Li & Ds & Srt & V & Tops & El).
  cbn zeta in *. exists (s, idx). split; auto. cbn [fst snd].
  set (c := filter (fun j => nth j labels 0 =? i) (seq 0 (length rows))).
  assert (Tc : map (map (fun v => nth v (nth 0 idx []) 0)) (nth n (elements s) []) = map (fun k => nth k rows []) c).
  { rewrite Tops. f_equal. unfold c. apply filter_ext_in. intros j Hj. apply in_seq in Hj. apply G. lia. }
  split; [split; auto|].
  (* the vertices of the part are positions of the vertex table *)
  assert (TS : exists r', top_ok n r' s).
  { unfold select_subset in E. rewrite (top_n_dim n rows t T), (to_top _ _ _ T), Lc, Nat.eqb_refl in E. cbn [negb] in E. cbn zeta in E.
    set (sel := map (fun i => nth i rows []) (flatnonzero chain)) in *.
    assert (OKs : simplices_ok n sel).
    { destruct Ex as (i1 & Hi1 & C1). split.
      - intros Z. apply map_eq_nil in Z. assert (I : In i1 (flatnonzero chain)) by (apply flatnonzero_in; rewrite Lc; auto). rewrite Z in I. destruct I.
      - apply Forall_forall. intros r Hr. apply in_map_iff in Hr as (k & <- & Hk). apply flatnonzero_in in Hk. destruct OK as [_ FO].
        rewrite Forall_forall in FO. apply FO, nth_In. rewrite <- Lc. tauto. }
    destruct (sub_built row_leb n Hn n sel ltac:(lia) OKs) as (s2 & Es & Ts). rewrite Es in E. cbn [bind] in E.
    destruct (find_correspondence t s2 _) as [i'|]; cbn [bind] in E; [|discriminate]. injection E as <- <-. eauto. }
  destruct TS as (r' & TS). pose proof (to_top _ _ _ TS) as Er. rewrite Er in *.
  destruct (El 0 ltac:(lia)) as [L0 _].
  set (p0 := nth 0 idx []) in *. pose proof (sorted_nodup p0 Srt) as ND0.
  assert (Vr : forall b v, b < length r' -> In v (nth b r' []) -> v < length p0).
  { intros b v Hb Hv. rewrite L0. apply (to_vused _ _ _ TS). apply in_concat. exists (nth b r' []). split; auto. apply nth_In; auto. }
  assert (Lr : length r' = length c) by (rewrite <- (map_length (map (fun v => nth v p0 0)) r'), Tc, map_length; auto).
  assert (Nr : forall b, b < length c -> map (fun v => nth v p0 0) (nth b r' []) = nth (nth b c 0) rows []).
  { intros b Hb. rewrite <- (nth_map_lt _ _ (map (fun v => nth v p0 0)) r' b [] []) by lia. rewrite Tc.
    apply (nth_map_lt _ _ (fun k => nth k rows []) c b 0 []). auto. }
  assert (Cin : forall j, In j c <-> j < length rows /\ nth j labels 0 = i).
  { intros j. unfold c. rewrite filter_In, in_seq, Nat.eqb_eq. intuition lia. }
  assert (Main : forall j k, linked n rows j k -> forall a, a < length c -> nth a c 0 = j ->
     exists b, b < length c /\ nth b c 0 = k /\ linked n r' a b).
  { intros j k H. induction H as [j|j k m H IH A]; intros a Ha Ea.
    - exists a. repeat split; auto. constructor.
    - destruct (IH a Ha Ea) as (b & Hb & Eb & Lb). destruct A as (Hk & Hm & D & f & F1 & F2).
      assert (Ik : In k c) by (rewrite <- Eb; apply nth_In; auto).
      assert (Im : In m c).
      { apply Cin. split; auto. apply Cin in Ik as [_ <-]. symmetry. apply LK; auto.
        apply linked_step with k; [constructor|]. split; [auto|split; [auto|split; [auto|exists f; auto]]]. }
      apply In_nth with (d := 0) in Im as (b' & Hb' & Eb'). exists b'. split; auto. split; auto.
      apply linked_step with b; auto.
      assert (Back : forall d, d < length c -> incl f (nth (nth d c 0) rows []) -> incl (map (fun x => index_of Nat.eqb x p0) f) (nth d r' [])).
      { intros d Hd I y Hy. apply in_map_iff in Hy as (x & <- & Hx). apply I in Hx. rewrite <- Nr in Hx by auto.
        apply in_map_iff in Hx as (y & <- & Hy). rewrite index_of_nth; auto using nat_eqb_ok. apply (Vr d); auto. lia. }
      assert (Fd : forall d, d < length c -> is_face (n - 1) f (nth (nth d c 0) rows []) -> is_face (n - 1) (map (fun x => index_of Nat.eqb x p0) f) (nth d r' [])).
      { intros d Hd (X1 & X2 & X3). split; [|split; [rewrite map_length; auto|apply Back; auto]].
        apply NoDup_map_inj; auto. intros x y Hx Hy Exy. 
        assert (Ip : forall x, In x f -> In x p0).
        { intros z Hz. apply X3 in Hz. rewrite <- Nr in Hz by auto. apply in_map_iff in Hz as (w & <- & Hw). apply nth_In, (Vr d); auto; lia. }
        apply index_of_inj in Exy as [Exy|Exy]; auto using nat_eqb_ok. exfalso; auto. }
      split; [lia|]. split; [lia|]. split; [intros Eq; apply D; rewrite <- Eb, <- Eb', Eq; auto|].
      exists (map (fun x => index_of Nat.eqb x p0) f). split; apply Fd; auto; [rewrite Eb|rewrite Eb']; auto. }
  intros b Hb. rewrite Lr in Hb.
  assert (I0 : In (nth 0 c 0) c) by (apply nth_In; lia). assert (Ib : In (nth b c 0) c) by (apply nth_In; auto).
  apply Cin in I0 as [I0 E1]. apply Cin in Ib as [Ib E2].
  destruct (Main (nth 0 c 0) (nth b c 0)) with (a := 0) as (b' & Hb' & Eb' & Lk); auto; try lia.
  { apply LK; auto. congruence. }
  assert (b' = b). { apply (proj1 (NoDup_nth c 0)); auto. unfold c. apply NoDup_filter, seq_NoDup. } subst. auto.
Qed.
End Split.

Lemma larger_total : forall a b, larger a b = true \/ larger b a = true.
Proof. intros a b. unfold larger. rewrite !Nat.leb_le. lia. Qed.
Lemma larger_trans : forall a b c, larger a b = true -> larger b c = true -> larger a c = true.
Proof. intros a b c. unfold larger. rewrite !Nat.leb_le. lia. Qed.

Lemma concat_classes : forall (f : nat -> nat) k N, (forall i, i < N -> f i < k) ->
  Permutation (concat (map (fun l => filter (fun j => f j =? l) (seq 0 N)) (seq 0 k))) (seq 0 N).
Proof.
  intros f k N H. apply NoDup_Permutation; [|apply seq_NoDup|].
  - assert (X : forall L, NoDup L -> NoDup (concat (map (fun l => filter (fun j => f j =? l) (seq 0 N)) L))).
    { induction L as [|l L IH]; intros ND; [constructor|]. inversion ND; subst. cbn. apply NoDup_app'; auto.
      - apply NoDup_filter, seq_NoDup.
      - intros x Hx Hx'. apply filter_In in Hx as [_ E]. apply Nat.eqb_eq in E. apply in_concat in Hx' as (c & Hc & Hx').
        apply in_map_iff in Hc as (l' & <- & Hl'). apply filter_In in Hx' as [_ E']. apply Nat.eqb_eq in E'. congruence. }
    apply X, seq_NoDup.
  - intros x. split.
    + intros Hx. apply in_concat in Hx as (c & Hc & Hx). apply in_map_iff in Hc as (l & <- & _). apply filter_In in Hx. tauto.
    + intros Hx. pose proof Hx as Hx'. apply in_seq in Hx'. apply in_concat. exists (filter (fun j => f j =? f x) (seq 0 N)). split.
      * apply in_map_iff. exists (f x). split; auto. apply in_seq. specialize (H x ltac:(lia)). lia.
      * apply filter_In. split; auto. apply Nat.eqb_refl.
Qed.

(** split_connected_components: the parts are listed by decreasing size, each one is a connected mesh, and
    they hold the classes of simplices that are joined through common facets, every simplex once, with
    its corners in the original order. *)
Theorem C85_split : forall row_leb components n rows t, components_contract components ->
  simplices_ok n rows -> from_simplices row_leb n rows = Ok t -> n < 255 ->
  exists parts classes, split_connected_components row_leb components t = Ok parts /\
    StronglySorted (fun p q => n_elements (fst q) n <= n_elements (fst p) n) parts /\
    Forall2 (holds n rows) parts classes /\
    Forall (fun p => connected n (nth n (elements (fst p)) [])) parts /\
    Permutation (concat classes) (seq 0 (length rows)) /\
    (forall c, In c classes -> c <> [] /\ StronglySorted lt c /\ forall i j, In i c -> j < length rows -> (In j c <-> linked n rows i j)).
Proof.
  intros row_leb components n rows t CC OK H N. destruct (from_simplices_top_ok _ _ _ _ OK H) as [Hn T].
  pose proof (labels_spec n rows t Hn T components CC N) as S. unfold split_connected_components.
  destruct (label_connections components t) as [k labels]. destruct S as (S1 & S2 & S3 & S4).
  set (cl := fun l => filter (fun j => nth j labels 0 =? l) (seq 0 (length rows))).
  assert (X : exists parts0, mapM (fun i => select_subset row_leb t (map (Nat.eqb i) labels)) (seq 0 k) = Ok parts0 /\
     Forall2 (fun p c => holds n rows p c /\ connected n (nth n (elements (fst p)) [])) parts0 (map cl (seq 0 k))).
  { assert (Y : forall L, (forall l, In l L -> l < k) -> exists parts0, mapM (fun i => select_subset row_leb t (map (Nat.eqb i) labels)) L = Ok parts0 /\
     Forall2 (fun p c => holds n rows p c /\ connected n (nth n (elements (fst p)) [])) parts0 (map cl L)).
    { induction L as [|l L IH]; intros HL; [exists []; split; [reflexivity|constructor]|].
      destruct IH as (ps & E & F); [intros; apply HL; right; auto|].
      destruct (part_spec row_leb n rows t OK H labels l S1 (S3 l (HL l (or_introl eq_refl))) S4) as (p & Ep & Hp & Cp).
      exists (p :: ps). cbn [mapM]. rewrite Ep, E. split; [reflexivity|]. cbn [map]. constructor; auto. }
    apply Y. intros l Hl. apply in_seq in Hl. lia. }
  destruct X as (parts0 & E & F). rewrite E. cbn [bind].
  pose proof (isort_perm _ larger parts0) as P.
  destruct (Permutation_Forall2 P F) as (classes & Pc & Fc).
  exists (isort larger parts0), classes. split; auto.
  assert (Dm : forall p, In p (isort larger parts0) -> n_dim (fst p) = n /\ connected n (nth n (elements (fst p)) [])).
  { clear -Fc. induction Fc as [|p c ps cs [[A B] C] Fc IH]; intros q Hq; [destruct Hq|]. destruct Hq as [<-|Hq]; auto. }
  split; [|split; [|split; [|split]]].
  - pose proof (isort_sorted _ larger parts0 larger_total larger_trans) as Srt. clear -Srt Dm.
    induction Srt as [|p ps Srt IH Fp]; constructor.
    + apply IH. intros q Hq. apply Dm. right; auto.
    + rewrite Forall_forall in *. intros q Hq. specialize (Fp q Hq). unfold larger in Fp.
      destruct (Dm p (or_introl eq_refl)) as [Ep _]. destruct (Dm q (or_intror Hq)) as [Eq _]. rewrite Ep, Eq in Fp. apply Nat.leb_le in Fp. auto.
  - clear -Fc. induction Fc; constructor; tauto.
  - apply Forall_forall. intros p Hp. apply Dm; auto.
  - eapply perm_trans; [|apply (concat_classes (fun j => nth j labels 0) k); auto]. fold cl.
    clear -Pc. apply Permutation_sym in Pc. induction Pc; cbn; auto.
    + apply Permutation_app_head; auto.
    + rewrite !app_assoc. apply Permutation_app_tail, Permutation_app_comm.
    + eapply perm_trans; eauto.
  - intros c Hc. apply (Permutation_in _ (Permutation_sym Pc)) in Hc. apply in_map_iff in Hc as (l & <- & Hl). apply in_seq in Hl.
    assert (Cin : forall j, In j (cl l) <-> j < length rows /\ nth j labels 0 = l).
    { intros j. unfold cl. rewrite filter_In, in_seq, Nat.eqb_eq. intuition lia. }
    split; [|split].
    + destruct (S3 l ltac:(lia)) as (i & Hi & Ei). intros Z. assert (I : In i (cl l)) by (apply Cin; auto). rewrite Z in I. destruct I.
    + unfold cl. generalize 0 at 2. generalize (length rows). induction n0 as [|m IH]; intros a; [constructor|]. cbn [seq filter].
      assert (Q : StronglySorted lt (filter (fun j => nth j labels 0 =? l) (seq (S a) m))) by apply IH.
      destruct (nth a labels 0 =? l); auto. constructor; auto. apply Forall_forall. intros x Hx. apply filter_In in Hx as [Hx _]. apply in_seq in Hx. lia.
    + intros i j Hi Hj. apply Cin in Hi as [Hi <-]. rewrite Cin, <- S4 by auto. intuition.
Qed.
Print Assumptions C85_split.

(** ---- C86 ---- *)
Lemma vertex_star : forall row_leb n rows t, simplices_ok n rows -> from_simplices row_leb n rows = Ok t ->
  forall v, v < n_elements t 0 <-> exists j, in_star rows v j.
Proof.
  intros row_leb n rows t OK H v. destruct (from_simplices_top_ok _ _ _ _ OK H) as [Hn T]. rewrite <- (to_vused _ _ _ T). rewrite in_concat. split.
  - intros (s & Hs & Hv). apply In_nth with (d := []) in Hs as (j & Hj & <-). exists j. split; auto.
  - intros (j & Hj & Hv). exists (nth j rows []). split; auto. apply nth_In; auto.
Qed.

Lemma star_of_spec : forall row_leb n rows t, simplices_ok n rows -> from_simplices row_leb n rows = Ok t -> n <= 9 ->
  exists A M, accumulated_operators_N t = Ok (M :: A) /\ forall v, v < n_elements t 0 -> NoDup (star_of M v) /\ forall j, In j (star_of M v) <-> in_star rows v j.
Proof.
  intros row_leb n rows t OK H N. destruct (from_simplices_top_ok _ _ _ _ OK H) as [Hn T].
  destruct (accumulated_N_spec n rows t 0 Hn T ltac:(lia)) as (A & M & EA & LA & EM & R & C & E).
  destruct A as [|M' A]; [discriminate|]. cbn in EM. injection EM as ->. exists A, M. split; auto. intros v Hv. split.
  - apply NoDup_filter, seq_NoDup.
  - intros j. unfold star_of. rewrite filter_In, in_seq, R. unfold in_star. split.
    + intros [Hj X]. split; [lia|]. rewrite E in X by lia. rewrite (vert_el n rows t T) in X by auto.
      destruct (inclb [v] (nth j rows [])) eqn:I; [|discriminate]. apply inclb_iff in I. apply I. left; auto.
    + intros [Hj X]. split; [lia|]. rewrite E by lia. rewrite (vert_el n rows t T) by auto.
      assert (I : inclb [v] (nth j rows []) = true) by (apply inclb_iff; intros x [<-|[]]; auto). rewrite I, Nat.sub_0_r.
      apply negb_true_iff, Z.eqb_neq. apply fact_nz. lia.
Qed.

(** The number of regions of a vertex is the number of classes of simplices at the vertex when one may
    walk from simplex to simplex through facets at the vertex; up to dimension nine. *)
Theorem C86_regions_partial : forall row_leb components n rows t, components_contract components ->
  simplices_ok n rows -> from_simplices row_leb n rows = Ok t -> n <= 9 ->
  exists r, regions_per_vertex components t = Ok r /\ length r = n_elements t 0 /\
    forall v, v < n_elements t 0 -> n_classes (in_star rows v) (around n rows v) (nth v r 0).
Proof.
  intros row_leb components n rows t CC OK H N. destruct (from_simplices_top_ok _ _ _ _ OK H) as [Hn T].
  destruct (star_of_spec row_leb n rows t OK H N) as (A & M & EA & S).
  unfold regions_per_vertex. rewrite EA. cbn [bind]. rewrite (top_n_dim n rows t T). eexists. split; [reflexivity|].
  split; [rewrite map_length, seq_length; auto|]. intros v Hv. rewrite nth_map_seq by auto.
  destruct (S v Hv) as [ND HS]. destruct (proj1 (vertex_star row_leb n rows t OK H v) Hv) as (j0 & Hj0).
  destruct (star_of M v) as [|x l] eqn:E; [exfalso; apply HS in Hj0; destruct Hj0|]. set (cols := x :: l) in *. clearbody cols. clear E.
  cbn zeta. set (sub := columns (matrix t (n - 1)) cols).
  assert (Rs : nrows (mul8 (transpose sub) sub) = length cols) by reflexivity.
  pose proof (CC (nrows (mul8 (transpose sub) sub)) (edges_of (mul8 (transpose sub) sub))) as C.
  destruct (components _ _) as [k labels]. destruct C as (C1 & C2 & C3 & C4).
  { intros i j Hij. rewrite Rs. apply gram_edges in Hij as (X & Y & _). auto. }
  rewrite Rs in *. cbn [fst]. destruct (list_choice _ k C3) as (nodes & Ln & Hnodes).
  assert (PA := path_around n rows t Hn T ltac:(lia) v cols ND HS). fold sub in PA.
  assert (G : forall a, a < k -> nth a (map (fun i => nth i cols 0) nodes) 0 = nth (nth a nodes 0) cols 0).
  { intros a Ha. rewrite (nth_map_lt _ _ _ nodes a 0 0) by lia. reflexivity. }
  exists (map (fun i => nth i cols 0) nodes). split; [rewrite map_length; auto|]. split; [|split].
  - intros r Hr. apply in_map_iff in Hr as (i & <- & Hi). apply In_nth with (d := 0) in Hi as (a & Ha & <-).
    apply HS, nth_In. apply Hnodes. lia.
  - intros a b Ha Hb Hab. rewrite !G in Hab by auto. destruct (Hnodes a Ha) as [Xa Ya]. destruct (Hnodes b Hb) as [Xb Yb].
    apply PA in Hab; auto. apply C4 in Hab; auto. congruence.
  - intros j Hj. apply HS in Hj. apply In_nth with (d := 0) in Hj as (b & Hb & <-).
    set (a := nth b labels 0). assert (Ha : a < k) by (apply C2; auto). destruct (Hnodes a Ha) as [Xa Ya].
    exists (nth (nth a nodes 0) cols 0). split; [apply in_map_iff; exists (nth a nodes 0); split; auto; apply nth_In; lia|].
    apply PA; auto. apply C4; auto.
Qed.
Print Assumptions C86_regions_partial.

(** The check succeeds exactly if the simplices at every vertex form one region. *)
Theorem C86_check_partial : forall row_leb components n rows t, components_contract components ->
  simplices_ok n rows -> from_simplices row_leb n rows = Ok t -> n <= 9 ->
  (check_manifold components t = Ok tt <-> one_region n rows) /\
  is_manifold components t = Ok (match check_manifold components t with Ok _ => true | Err _ => false end).
Proof.
  intros row_leb components n rows t CC OK H N.
  destruct (C86_regions_partial row_leb components n rows t CC OK H N) as (r & E & L & HR).
  unfold is_manifold, check_manifold. rewrite E. cbn [bind]. split; [|destruct (forallb (Nat.eqb 1) r); reflexivity].
  assert (X : forallb (Nat.eqb 1) r = true <-> one_region n rows).
  { rewrite forallb_forall. split.
    - intros F v i j Hi Hj. assert (Hv : v < n_elements t 0) by (apply (vertex_star row_leb n rows t OK H); eauto).
      specialize (HR v Hv). assert (E1 : nth v r 0 = 1) by (symmetry; apply Nat.eqb_eq, F, nth_In; lia). rewrite E1 in HR.
      destruct HR as (reps & Lr & Hp & _ & Hc). destruct reps as [|x [|]]; try discriminate.
      destruct (Hc i Hi) as (a & [<-|[]] & Ai). destruct (Hc j Hj) as (b & [<-|[]] & Aj).
      assert (Sx : in_star rows v x) by (apply Hp; left; auto).
      assert (Tr : forall a b c, around n rows v a b -> around n rows v b c -> around n rows v a c).
      { intros a b c H1 H2. induction H2 as [|b j' k f H2 IH S1 S2 F1 F2 V]; auto. apply around_step with j' f; auto. }
      apply Tr with x; auto. clear -Ai Tr. induction Ai as [a|a j k f Ai IH S1 S2 F1 F2 V]; [constructor|]. apply Tr with j; auto.
      apply around_step with k f; auto. constructor.
    - intros O y Hy. apply In_nth with (d := 0) in Hy as (v & Hv & <-). rewrite L in Hv. specialize (HR v Hv).
      destruct HR as (reps & Lr & Hp & Hd & Hc). destruct (proj1 (vertex_star row_leb n rows t OK H v) Hv) as (j0 & Hj0).
      apply Nat.eqb_eq. destruct (nth v r 0) as [|[|k]]; auto.
      + destruct (Hc j0 Hj0) as (x & Hx & _). destruct reps; [destruct Hx|discriminate].
      + exfalso. assert (0 = 1); [|lia]. apply Hd; try lia. apply O; apply Hp, nth_In; lia. }
  destruct (forallb (Nat.eqb 1) r); split; intros Y; auto; try discriminate; [apply X; auto|]. apply X in Y. discriminate.
Qed.
Print Assumptions C86_check_partial.

(** In ten or more dimensions the int8 counts vanish and every mesh is refused. *)
Lemma fact_wrap : forall m, 10 <= m -> wrap8 (Z.of_nat (fact m)) = 0%Z.
Proof.
  assert (F : forall m, wrap8 (Z.of_nat (fact (S m))) = wrap8 (wrap8 (Z.of_nat (fact m)) * Z.of_nat (S m))).
  { intros m. rewrite wrap8_wrap8_mul. f_equal. change (fact (S m)) with (S m * fact m). lia. }
  intros m Hm. assert (V : forall k, k <= 10 -> wrap8 (Z.of_nat (fact k)) = nth k [1;1;2;6;24;120;-48;-80;-128;-128;0]%Z 0%Z).
  { induction k as [|k IH]; intros Hk; [reflexivity|]. rewrite F, IH by lia. do 10 (destruct k as [|k]; [reflexivity|]). lia. }
  induction Hm as [|m Hm IH]; [apply V; lia|]. rewrite F, IH. reflexivity.
Qed.

Theorem C86_high_dimension_refuted : forall row_leb components n rows t, simplices_ok n rows ->
  from_simplices row_leb n rows = Ok t -> 10 <= n ->
  check_manifold components t = Err RuntimeError /\ regions_per_vertex components t = Ok (repeat 0 (n_elements t 0)).
Proof.
  intros row_leb components n rows t OK H N. destruct (from_simplices_top_ok _ _ _ _ OK H) as [Hn T].
  destruct (accumulated_N_spec n rows t 0 Hn T ltac:(lia)) as (A & M & EA & LA & EM & R & C & E).
  destruct A as [|M' A]; [discriminate|]. cbn in EM. injection EM as ->.
  assert (X : regions_per_vertex components t = Ok (repeat 0 (n_elements t 0))).
  { unfold regions_per_vertex. rewrite EA. cbn [bind]. f_equal.
    assert (Y : forall (f : nat -> nat) L, (forall v, In v L -> f v = 0) -> map f L = repeat 0 (length L)).
    { induction L as [|v L IH]; intros HL; auto. cbn. rewrite HL, IH; auto; [intros; apply HL; right; auto|left; auto]. }
    rewrite Y; [rewrite seq_length; auto|]. intros v Hv. apply in_seq in Hv.
    assert (Z : star_of M v = []); [|rewrite Z; auto].
    unfold star_of. rewrite R. assert (Q : forall l, (forall s, In s l -> s < length rows) -> filter (fun s => negb (entry M s v =? 0)%Z) l = []).
    { induction l as [|s l IH']; intros Hl; auto. cbn. rewrite E by (try (apply Hl; left; auto); lia).
      rewrite Nat.sub_0_r, fact_wrap by auto. destruct (inclb _ _); cbn; apply IH'; intros; apply Hl; right; auto. }
    apply Q. intros s Hs. apply in_seq in Hs. lia. }
  split; auto. unfold check_manifold. rewrite X. cbn [bind].
  pose proof (n_elements_pos n rows t Hn T 0 ltac:(lia)). destruct (n_elements t 0); [lia|]. reflexivity.
Qed.
Print Assumptions C86_high_dimension_refuted.

(** Every curve passes, also when three or more edges end in a vertex. *)
Theorem C86_curves_refuted : forall row_leb components rows t, components_contract components ->
  simplices_ok 1 rows -> from_simplices row_leb 1 rows = Ok t -> check_manifold components t = Ok tt.
Proof.
  intros row_leb components rows t CC OK H. apply (C86_check_partial row_leb components 1 rows t CC OK H ltac:(lia)).
  intros v i j Hi Hj. apply around_step with i [v]; auto; [constructor| | |left; auto];
  (split; [repeat constructor; auto|split; [auto|]]); intros x [<-|[]]; [apply Hi|apply Hj].
Qed.
Print Assumptions C86_curves_refuted.

(** ---- surfaces ---- *)
Lemma face2 : forall (s f : list nat) v, length s = 3 -> NoDup s -> In v s -> is_face 1 f s -> In v f ->
  exists a, In a s /\ a <> v /\ Permutation [v; a] f.
Proof.
  intros s f v Ls Ns Hv (Nf & Lf & If) Hvf. destruct f as [|a [|b [|]]]; try discriminate. inversion Nf as [|? ? X Y]; subst.
  destruct Hvf as [->|[->|[]]].
  - exists b. split; [apply If; right; left; auto|]. split; [intros ->; apply X; left; auto|]. auto.
  - exists a. split; [apply If; left; auto|]. split; [intros ->; apply X; left; auto|]. apply perm_swap.
Qed.

Lemma around_of_fan : forall rows v, fan rows v -> forall i j, in_star rows v i -> in_star rows v j -> around 2 rows v i j.
Proof.
  intros rows v (c & ND & HC & Hs & _) i j Hi Hj. apply HC in Hi, Hj.
  apply In_nth with (d := 0) in Hi as (a & Ha & <-). apply In_nth with (d := 0) in Hj as (b & Hb & <-).
  assert (Up : forall d a, a + d < length c -> around 2 rows v (nth a c 0) (nth (a + d) c 0)).
  { induction d as [|d IH]; intros a' H'; [rewrite Nat.add_0_r; constructor|].
    destruct (Hs (a' + d) ltac:(lia)) as (_ & S1 & S2 & f & F1 & F2 & F3).
    replace (a' + S d) with (S (a' + d)) by lia. apply around_step with (nth (a' + d) c 0) f; auto. apply IH. lia. }
  assert (Tr : forall a b c, around 2 rows v a b -> around 2 rows v b c -> around 2 rows v a c).
  { intros x y z H1 H2. induction H2 as [|y j' k f H2 IH S1 S2 F1 F2 V]; auto. apply around_step with j' f; auto. }
  assert (Down : forall d a, a + d < length c -> around 2 rows v (nth (a + d) c 0) (nth a c 0)).
  { induction d as [|d IH]; intros a' H'; [rewrite Nat.add_0_r; constructor|].
    destruct (Hs (a' + d) ltac:(lia)) as (_ & S1 & S2 & f & F1 & F2 & F3).
    replace (a' + S d) with (S (a' + d)) by lia. apply Tr with (nth (a' + d) c 0); [|apply IH; lia].
    apply around_step with (nth (S (a' + d)) c 0) f; auto. constructor. }
  destruct (le_lt_dec a b) as [D|D].
  - replace b with (a + (b - a)) by lia. apply Up. lia.
  - replace a with (b + (a - b)) by lia. apply Down. lia.
Qed.

Lemma fan_of_around : forall rows v, simplices_ok 2 rows -> at_most_two 2 rows -> (exists j, in_star rows v j) ->
  (forall i j, in_star rows v i -> in_star rows v j -> around 2 rows v i j) -> fan rows v.
Proof.
  intros rows v [_ OK] AM (j0 & Hj0) Ar. rewrite Forall_forall in OK.
  set (V := filter (fun j => if in_dec Nat.eq_dec v (nth j rows []) then true else false) (seq 0 (length rows))).
  assert (HV : forall j, In j V <-> in_star rows v j).
  { intros j. unfold V, in_star. rewrite filter_In, in_seq. destruct (in_dec Nat.eq_dec v (nth j rows [])); intuition; try lia; discriminate. }
  set (R := neighbours rows v).
  assert (Rsym : forall x y, R x y -> R y x) by (intros x y (A & B & C & f & F1 & F2 & F3); split; auto; split; auto; split; auto; exists f; auto).
  assert (RV : forall x y, R x y -> In x V /\ In y V) by (intros x y (A & B & C & _); split; apply HV; auto).
  assert (Len : forall j, in_star rows v j -> length (nth j rows []) = 3 /\ NoDup (nth j rows [])).
  { intros j [Hj _]. destruct (OK _ (nth_In rows [] Hj)). auto. }
  assert (Rdec : forall x y, In x V -> In y V -> {R x y} + {~ R x y}).
  { intros x y Hx Hy. apply HV in Hx, Hy. destruct (Nat.eq_dec x y) as [E|D]; [right; intros [A _]; auto|].
    destruct (search (fun a => a <> v /\ In a (nth y rows [])) (nth x rows [])) as [(a & Ha & Na & Ia)|NO].
    - intros a _. destruct (Nat.eq_dec a v); [right; tauto|]. destruct (in_dec Nat.eq_dec a (nth y rows [])); [left|right]; tauto.
    - left. split; auto. split; auto. split; auto. exists [v; a]. destruct Hx as [_ Hx], Hy as [_ Hy].
      split; [|split; [|left; auto]]; (split; [constructor; [intros [Q|[]]; auto|repeat constructor; auto]|split; auto]);
      intros z [<-|[<-|[]]]; auto.
    - right. intros (_ & _ & _ & f & F1 & F2 & F3). destruct (Len x Hx) as [Lx Nx].
      destruct (face2 _ f v Lx Nx (proj2 Hx) F1 F3) as (a & Ia & Na & P). apply (NO a Ia). split; auto.
      apply (proj2 (proj2 F2)). eapply Permutation_in; [exact P|right; left; auto]. }
  assert (deg : forall x a b c, R x a -> R x b -> R x c -> a = b \/ a = c \/ b = c).
  { intros x a b c (A0 & SX & SA & f & F1 & F2 & F3) (B0 & _ & SB & g & G1 & G2 & G3) (C0 & _ & SC & h & H1 & H2 & H3).
    destruct (Len x SX) as [Lx Nx].
    destruct (face2 _ f v Lx Nx (proj2 SX) F1 F3) as (p & Ip & Np & Pf).
    destruct (face2 _ g v Lx Nx (proj2 SX) G1 G3) as (q & Iq & Nq & Pg).
    destruct (face2 _ h v Lx Nx (proj2 SX) H1 H3) as (r & Ir & Nr & Ph).
    (* two of the three edges coincide *)
    assert (Eq : p = q \/ p = r \/ q = r).
    { destruct (Nat.eq_dec p q) as [|D1]; auto. destruct (Nat.eq_dec p r) as [|D2]; auto. destruct (Nat.eq_dec q r) as [|D3]; auto. exfalso.
      assert (ND4 : NoDup [v; p; q; r]) by (repeat constructor; cbn; intuition congruence).
      assert (I4 : incl [v; p; q; r] (nth x rows [])) by (intros z [<-|[<-|[<-|[<-|[]]]]]; auto; apply SX).
      pose proof (NoDup_incl_length ND4 I4) as Q. rewrite Lx in Q. simpl in Q. lia. }
    assert (Two : forall y z e e', in_star rows v y -> in_star rows v z -> x <> y -> x <> z -> is_face 1 e (nth x rows []) ->
       is_face 1 e (nth y rows []) -> is_face 1 e' (nth z rows []) -> Permutation e e' -> y = z).
    { intros y z e e' [Hy _] [Hz _] D1 D2 E1 E2 E3 P. destruct SX as [Hx _].
      assert (E4 : is_face 1 e (nth z rows [])).
      { destruct E3 as (U1 & U2 & U3). split; [eapply Permutation_NoDup; [apply Permutation_sym; exact P|auto]|].
        split; [rewrite (Permutation_length P); auto|]. intros w Hw. apply U3. eapply Permutation_in; eauto. }
      destruct (AM e x y z Hx Hy Hz E1 E2 E4) as [Q|[Q|Q]]; congruence. }
    destruct Eq as [<-|[<-|<-]]; [left; apply (Two a b f g)|right; left; apply (Two a c f h)|right; right; apply (Two b c g h)]; auto;
    eapply perm_trans; try (apply Permutation_sym; eassumption); auto. }
  destruct (extend R V Rdec Rsym (length V) [j0] ltac:(lia)) as (c & I & W & ST).
  { split; [discriminate|]. split; [repeat constructor; auto|]. split; [intros x [<-|[]]; apply HV; auto|]. intros a Ha. simpl in Ha. lia. }
  exists c. split; [apply W|]. split; [|split].
  - intros j. split; [intros Hj; apply HV; apply W; auto|]. intros Hj. specialize (Ar j0 j Hj0 Hj).
    clear Hj. induction Ar as [x|x y z f Ar IH S1 S2 F1 F2 F3]; [apply I; left; auto|].
    destruct (Nat.eq_dec y z) as [<-|D]; [apply IH; auto|]. apply (closed R V Rsym RV deg c W ST y); [apply IH; auto|].
    split; auto. split; auto. split; auto. exists f; auto.
  - apply W.
  - intros a b Hab Hb HR. apply (consecutive R V Rsym deg c W); auto.
Qed.

(** On a surface in which no edge belongs to three triangles, the check succeeds exactly if the triangles at
    every vertex form one fan: a row of triangles at a boundary vertex, a ring at an inner one. *)
Theorem C86_surfaces : forall row_leb components rows t, components_contract components ->
  simplices_ok 2 rows -> from_simplices row_leb 2 rows = Ok t -> at_most_two 2 rows ->
  (check_manifold components t = Ok tt <-> forall v, v < n_elements t 0 -> fan rows v).
Proof.
  intros row_leb components rows t CC OK H AM. rewrite (proj1 (C86_check_partial row_leb components 2 rows t CC OK H ltac:(lia))). split.
  - intros O v Hv. apply fan_of_around; auto. apply (vertex_star row_leb 2 rows t OK H); auto.
  - intros F v i j Hi Hj. apply around_of_fan; auto. apply F. apply (vertex_star row_leb 2 rows t OK H). eauto.
Qed.
Print Assumptions C86_surfaces.

(** ---- cases ---- *)
(** Two strips of triangles that touch in vertex 0 only. *)
Definition strips : list simplex := [[0;1;2]; [0;3;4]; [4;3;5]; [2;1;6]; [5;3;7]].
Lemma strips_ok : simplices_ok 2 strips.
Proof. split; [discriminate|]. repeat constructor; cbn; intuition discriminate. Qed.
Definition built (n : nat) (rows : list simplex) : topology :=
  match from_simplices lex_leb n rows with Ok t => t | Err _ => mkTop [] [] [] end.
Definition strips_t : topology := Eval vm_compute in built 2 strips.
Lemma strips_built : from_simplices lex_leb 2 strips = Ok strips_t.
Proof. vm_compute. reflexivity. Qed.
Example C85_example : from_simplices lex_leb 2 strips = Ok strips_t /\
  label_connections flood strips_t = (2, [0; 1; 1; 0; 1]) /\ is_connected flood strips_t = false /\ ~ connected 2 strips /\
  linked 2 strips 0 3 /\ ~ linked 2 strips 0 1 /\
  exists a b, split_connected_components lex_leb flood strips_t = Ok [a; b] /\
    nth 2 (elements (fst a)) [] = [[0;1;2]; [2;1;3]; [3;1;4]] /\ nth 0 (snd a) [] = [0; 3; 4; 5; 7] /\
    nth 2 (elements (fst b)) [] = [[0;1;2]; [2;1;3]] /\ nth 0 (snd b) [] = [0; 1; 2; 6].
Proof.
  split; [apply strips_built|].
  pose proof (C85_labels lex_leb flood 2 strips strips_t flood_contract strips_ok strips_built ltac:(lia)) as C.
  pose proof (C85_is_connected lex_leb flood 2 strips strips_t flood_contract strips_ok strips_built ltac:(lia)) as D.
  assert (Q : label_connections flood strips_t = (2, [0; 1; 1; 0; 1])) by (vm_compute; reflexivity).
  assert (Q2 : is_connected flood strips_t = false) by (vm_compute; reflexivity).
  rewrite Q in C. rewrite Q2 in D. destruct C as (_ & _ & C).
  split; [exact Q|]. split; [exact Q2|]. split; [|split; [|split]].
  - intros X. apply D in X. discriminate.
  - apply (C 0 3); cbn; lia.
  - intros X. assert (L0 : 0 < length strips) by (cbn; lia). assert (L1 : 1 < length strips) by (cbn; lia). discriminate (proj2 (C 0 1 L0 L1) X).
  - eexists. eexists. split; [vm_compute; reflexivity|]. repeat split; reflexivity.
Qed.

(** Four triangles around vertex 0 and a fifth one at their boundary. *)
Definition ring : list simplex := [[0;1;2]; [0;2;3]; [0;3;4]; [0;4;1]; [2;1;5]].
Definition ring_t : topology := Eval vm_compute in built 2 ring.
Lemma ring_built : from_simplices lex_leb 2 ring = Ok ring_t.
Proof. vm_compute. reflexivity. Qed.
Lemma ring_ok : simplices_ok 2 ring.
Proof. split; [discriminate|]. repeat constructor; cbn; intuition discriminate. Qed.
Definition few (n : nat) (rows : list simplex) : bool :=
  forallb (fun f => n_cofaces rows f <=? 2) (flat_map (fun s => map (fun c => omit c s) (seq 0 (S n))) rows).
Lemma few_ok : forall n rows, 1 <= n -> simplices_ok n rows -> few n rows = true -> at_most_two n rows.
Proof.
  intros n rows Hn [_ OK] H f j1 j2 j3 H1 H2 H3 F1 F2 F3. rewrite Forall_forall in OK.
  destruct (OK _ (nth_In rows [] H1)) as [L1 N1]. destruct F1 as (A1 & A2 & A3).
  destruct (incl_omit f (nth j1 rows []) A1 N1 ltac:(lia) A3) as (c & Hc & P).
  unfold few in H. rewrite forallb_forall in H. specialize (H (omit c (nth j1 rows []))).
  assert (X : In (omit c (nth j1 rows [])) (flat_map (fun s => map (fun c => omit c s) (seq 0 (S n))) rows)).
  { apply in_flat_map. exists (nth j1 rows []). split; [apply nth_In; auto|]. apply in_map_iff. exists c. split; auto. apply in_seq. lia. }
  apply H in X. apply Nat.leb_le in X.
  rewrite n_cofaces_seq in X. rename X into Y.
  assert (Z : forall j, j < length rows -> is_face (n - 1) f (nth j rows []) -> In j (filter (fun j => inclb (omit c (nth j1 rows [])) (nth j rows [])) (seq 0 (length rows)))).
  { intros j Hj (_ & _ & I). apply filter_In. split; [apply in_seq; lia|]. apply inclb_iff. intros x Hx. apply I. eapply Permutation_in; eauto. }
  destruct (Nat.eq_dec j1 j2) as [|D1]; auto. destruct (Nat.eq_dec j1 j3) as [|D2]; auto. destruct (Nat.eq_dec j2 j3) as [|D3]; auto. exfalso.
  assert (ND : NoDup [j1; j2; j3]) by (repeat constructor; cbn; intuition congruence).
  pose proof (NoDup_incl_length ND (l' := filter (fun j => inclb (omit c (nth j1 rows [])) (nth j rows [])) (seq 0 (length rows)))) as Q.
  assert (I : incl [j1; j2; j3] (filter (fun j => inclb (omit c (nth j1 rows [])) (nth j rows [])) (seq 0 (length rows)))).
  { intros x [<-|[<-|[<-|[]]]]; apply Z; auto. split; auto. }
  apply Q in I. simpl in I. simpl length in Y. lia.
Qed.

Lemma around_linked : forall n rows v i j, around n rows v i j -> linked n rows i j.
Proof.
  intros n rows v i j H. induction H as [i|i j k f H IH [Hj _] [Hk _] F1 F2 V]; [constructor|].
  destruct (Nat.eq_dec j k) as [->|D]; auto. apply linked_step with j; auto. split; auto. split; auto. split; auto. exists f; auto.
Qed.

Example C86_example : from_simplices lex_leb 2 strips = Ok strips_t /\ from_simplices lex_leb 2 ring = Ok ring_t /\
  regions_per_vertex flood strips_t = Ok [2; 1; 1; 1; 1; 1; 1; 1] /\ is_manifold flood strips_t = Ok false /\
  regions_per_vertex flood ring_t = Ok [1; 1; 1; 1; 1; 1] /\ is_manifold flood ring_t = Ok true /\
  at_most_two 2 strips /\ at_most_two 2 ring /\ ~ one_region 2 strips /\ fan ring 0 /\ ~ fan strips 0.
Proof.
  pose proof (few_ok 2 strips ltac:(lia) strips_ok eq_refl) as A1. pose proof (few_ok 2 ring ltac:(lia) ring_ok eq_refl) as A2.
  pose proof (C86_surfaces lex_leb flood ring ring_t flood_contract ring_ok ring_built A2) as B2.
  assert (NL : ~ around 2 strips 0 0 1) by (intros X; apply around_linked in X; apply C85_example; auto).
  assert (S0 : in_star strips 0 0) by (split; cbn; auto; lia). assert (S1 : in_star strips 0 1) by (split; cbn; auto; lia).
  split; [apply strips_built|]. split; [apply ring_built|].
  split; [vm_compute; reflexivity|]. split; [vm_compute; reflexivity|]. split; [vm_compute; reflexivity|]. split; [vm_compute; reflexivity|].
  split; auto. split; auto. split; [intros O; apply NL, O; auto|]. split.
  - apply B2; [vm_compute; reflexivity|]. vm_compute. lia.
  - intros X. apply NL. apply around_of_fan; auto.
Qed.

(** Three triangles at an edge pass the check. *)
Definition book : list simplex := [[0;1;2]; [0;1;3]; [0;1;4]].
Definition book_t : topology := Eval vm_compute in built 2 book.
Theorem C86_manifold_refuted : simplices_ok 2 book /\ from_simplices lex_leb 2 book = Ok book_t /\
  (forall components, components_contract components -> check_manifold components book_t = Ok tt) /\ ~ at_most_two 2 book.
Proof.
  assert (OK : simplices_ok 2 book) by (split; [discriminate|]; repeat constructor; cbn; intuition discriminate).
  assert (E : from_simplices lex_leb 2 book = Ok book_t) by (vm_compute; reflexivity). split; auto. split; auto.
  assert (I01 : forall k, k < 3 -> is_face 1 [0; 1] (nth k book [])).
  { intros k Hk. split; [repeat constructor; cbn; intuition discriminate|]. split; auto. destruct k as [|[|[|]]]; [| | |lia]; intros x [<-|[<-|[]]]; cbn; auto. }
  split.
  - intros components CC. apply (C86_check_partial lex_leb components 2 book book_t CC OK E ltac:(lia)).
    intros v i j [Hi Vi] [Hj Vj]. destruct (Nat.eq_dec i j) as [->|D]; [constructor|].
    assert (V : v = 0 \/ v = 1).
    { cbn in Hi, Hj. destruct i as [|[|[|]]]; [| | |lia]; (destruct j as [|[|[|]]]; [| | |lia]); cbn in Vi, Vj; lia. }
    apply around_step with i [0; 1]; [constructor|split; auto|split; auto|apply (I01 i); auto|apply (I01 j); auto|].
    destruct V as [-> | ->]; cbn; auto.
  - intros A. destruct (A [0; 1] 0 1 2) as [Z|[Z|Z]]; try (cbn; lia); try (apply I01; lia); discriminate.
Qed.
Print Assumptions C86_manifold_refuted.

(** The cone over a torus with seven vertices: no triangle belongs to three tetrahedra and the check
    succeeds, but the surface around the apex 7 is a torus instead of a sphere: the numbers of its
    vertices, edges and triangles have the alternating sum 0. *)
Definition torus_cone : list simplex :=
  flat_map (fun i => [[i; (i + 1) mod 7; (i + 3) mod 7; 7]; [i; (i + 2) mod 7; (i + 3) mod 7; 7]]) (seq 0 7).
Definition cone_t : topology := Eval vm_compute in built 3 torus_cone.
(** Edges, triangles and tetrahedra at a vertex. *)
Definition n_at (t : topology) (k v : nat) : nat := length (filter (fun s => existsb (Nat.eqb v) s) (nth k (elements t) [])).
Theorem C86_solids_refuted : simplices_ok 3 torus_cone /\ from_simplices lex_leb 3 torus_cone = Ok cone_t /\
  check_manifold flood cone_t = Ok tt /\ one_region 3 torus_cone /\ at_most_two 3 torus_cone /\
  n_at cone_t 1 7 = 7 /\ n_at cone_t 2 7 = 21 /\ n_at cone_t 3 7 = 14 /\ n_at cone_t 3 7 = length torus_cone.
Proof.
  assert (OK : simplices_ok 3 torus_cone) by (split; [discriminate|]; repeat constructor; cbn; intuition discriminate).
  assert (E : from_simplices lex_leb 3 torus_cone = Ok cone_t) by (vm_compute; reflexivity).
  assert (C : check_manifold flood cone_t = Ok tt) by (vm_compute; reflexivity).
  split; auto. split; auto. split; auto. split; [apply (C86_check_partial lex_leb flood 3 torus_cone cone_t flood_contract OK E ltac:(lia)); auto|].
  split; [apply few_ok; auto; vm_compute; reflexivity|]. repeat split; vm_compute; reflexivity.
Qed.
Print Assumptions C86_solids_refuted.

(** Three edges at a vertex, and one ten-dimensional simplex. *)
Definition star3 : list simplex := [[0;1]; [0;2]; [0;3]].
Definition star3_t : topology := Eval vm_compute in built 1 star3.
Example C86_refuted_example : simplices_ok 1 star3 /\ from_simplices lex_leb 1 star3 = Ok star3_t /\ check_manifold flood star3_t = Ok tt /\ ~ at_most_two 1 star3 /\
  simplices_ok 10 [seq 0 11] /\ (exists t, from_simplices lex_leb 10 [seq 0 11] = Ok t).
Proof.
  assert (OK : simplices_ok 1 star3) by (split; [discriminate|]; repeat constructor; cbn; intuition discriminate).
  assert (E : from_simplices lex_leb 1 star3 = Ok star3_t) by (vm_compute; reflexivity).
  assert (O10 : simplices_ok 10 [seq 0 11]) by (split; [discriminate|]; constructor; [split; [reflexivity|apply seq_NoDup]|constructor]).
  split; auto. split; auto. split; [vm_compute; reflexivity|]. split; [|split; auto].
  - intros A. destruct (A [0] 0 1 2) as [Z|[Z|Z]]; try (cbn; lia); try discriminate;
      (split; [repeat constructor; auto|split; auto]; intros x [<-|[]]; cbn; auto).
  - destruct (from_simplices_cases lex_leb 10 [seq 0 11] ltac:(lia) O10) as [B _].
    destruct B as (t & Et & _); [|eauto]. exists 11. intros v. cbn [concat]. rewrite app_nil_r, in_seq. lia.
Qed.

(** A Moebius band of two quadrilaterals: they have two edges in common, whose signs cancel in the
    product, so that the band is taken for two components. *)
Definition band : list (list nat) := [[0;1;2;3]; [2;3;1;0]].
Definition band_t : topology := Eval vm_compute in match from_cubes lex_leb true 2 band with Ok t => t | Err _ => mkTop [] [] [] end.
Theorem C85_cubes_refuted : cubes_ok 2 band /\ from_cubes lex_leb true 2 band = Ok band_t /\
  (exists f g, subcube 1 2 (nth 0 band []) f /\ subcube 1 2 (nth 1 band []) g /\ Permutation f g) /\
  forall components, components_contract components -> is_connected components band_t = false.
Proof.
  split; [split; [discriminate|]; repeat constructor; cbn; intuition discriminate|]. split; [vm_compute; reflexivity|]. split.
  - exists [2;3], [2;3]. split; [|split; auto].
    + apply subcube_slice with (a := 0) (s := true) (d := [2;3]); [lia| |constructor]. split; [reflexivity|]. intros [|b [|]] Hb; try discriminate. destruct b; reflexivity.
    + apply subcube_slice with (a := 0) (s := false) (d := [2;3]); [lia| |constructor]. split; [reflexivity|]. intros [|b [|]] Hb; try discriminate. destruct b; reflexivity.
  - intros components CC. unfold is_connected, label_connections.
    assert (E : edges_of (mul8 (transpose (matrix band_t (n_dim band_t - 1))) (matrix band_t (n_dim band_t - 1))) = [(0,0); (1,1)]) by (vm_compute; reflexivity).
    assert (R : nrows (mul8 (transpose (matrix band_t (n_dim band_t - 1))) (matrix band_t (n_dim band_t - 1))) = 2) by (vm_compute; reflexivity).
    cbn zeta. rewrite E, R. specialize (CC 2 [(0,0); (1,1)]). destruct (components 2 [(0,0); (1,1)]) as [k labels].
    destruct CC as (C1 & C2 & C3 & C4). { intros i j [X|[X|[]]]; injection X as <- <-; lia. }
    cbn [fst]. apply Nat.eqb_neq. intros ->.
    pose proof (C2 0 ltac:(lia)). pose proof (C2 1 ltac:(lia)). assert (P : path [(0,0); (1,1)] 0 1) by (apply C4; lia).
    assert (Q : forall i j, path [(0,0); (1,1)] i j -> i = j).
    { intros i j X. induction X as [|i j m X IH HE]; auto. destruct HE as [[Y|[Y|[]]]|[Y|[Y|[]]]]; injection Y as <- <-; auto. }
    apply Q in P. discriminate.
Qed.
Print Assumptions C85_cubes_refuted.
