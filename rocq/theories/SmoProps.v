(** Properties C70, C71 and C72: smoothing of vertices, and the subdivision operator of cubical meshes. *)
Require Import List Arith ZArith Bool Lia Permutation QArith.
From Verif Require Import Util CombModel CombSpec CombProofs SimpModel SimpSpec ParProofs SimpProofs LevelProofs TopProofs SimpProps.
From Verif Require Import CubeModel CubeSpec CubeTop CubeChain CDomModel CDomSpec CDomProofs CDomProps CAvgProofs CAvgProps.
From Verif Require Import BdryModel BdrySpec OrientProofs AvgModel AvgProofs AvgProps SmoModel SmoSpec SmoProofs.
Import ListNotations.
Local Open Scope nat_scope.

Lemma c_elements_ok : forall n rows t, 1 <= n -> ctop n rows t ->
  length (elements t) = S n /\ n_dim t = n /\ (forall k e, k <= n -> e < n_elements t k -> length (el t k e) = 2 ^ k /\ NoDup (el t k e)) /\
  (forall k, k <= n -> 0 < 2 ^ k) /\ (forall k e v, k <= n -> e < n_elements t k -> In v (el t k e) -> v < n_elements t 0).
Proof.
  intros n rows t Hn T. split; [apply (ct_lenE _ _ _ T)|]. split; [apply (ct_lenO _ _ _ T)|]. split; [intros; apply (el_ok n rows t Hn T); auto|]. split; [intros k _; clear; induction k; simpl; lia|].
  intros k e v Hk He Hv. apply (el_range n rows t k e v); auto.
Qed.
Lemma s_elements_ok : forall n rows t, 1 <= n -> top_ok n rows t ->
  length (elements t) = S n /\ n_dim t = n /\ (forall k e, k <= n -> e < n_elements t k -> length (el t k e) = S k /\ NoDup (el t k e)) /\
  (forall k, k <= n -> 0 < S k) /\ (forall k e v, k <= n -> e < n_elements t k -> In v (el t k e) -> v < n_elements t 0).
Proof.
  intros n rows t Hn T. split; [apply (to_lenE _ _ _ T)|]. split; [apply (to_lenO _ _ _ T)|]. split; [intros; apply (el_len n rows t Hn T); auto|]. split; [intros; lia|].
  intros k e v Hk He Hv. apply (to_vused _ _ _ T). apply in_concat.
  destruct (proj1 (faces_complete n rows t Hn T (n - k) k ltac:(lia) (el t k e))) as (s & Hs & (_ & _ & I)).
  { exists (el t k e). split; auto. apply nth_In; auto. }
  exists s. split; auto.
Qed.

(** C70.  Smoothing moves each vertex to the average of the given centroids [PP] of the crease elements of lowest
    dimension at that vertex, and leaves vertices without crease elements where they are. *)
Theorem C70_smooth : forall row_leb n rows t V PP chains, 1 <= n -> cubes_ok n rows -> from_cubes row_leb true n rows = Ok t ->
  chains_ok t n chains -> length PP = S n -> length V = length (nth 0 (elements t) []) ->
  exists W, smooth t V PP chains = Ok W /\ length W = length V /\ forall v, v < length V ->
    (forall k l, sources t n chains v k l -> (nth v W 0 == average (map (fun e => nth e (nth k PP []) 0) l))%Q) /\
    ((forall k e, k <= n -> crease t n chains k e -> ~ In v (element t k e)) -> nth v W 0%Q = nth v V 0%Q).
Proof.
  intros row_leb n rows t V PP cr Hn OK H HC LP LV. destruct (from_cubes_ctop _ _ _ _ Hn OK H) as (_ & _ & _ & T). destruct (c_elements_ok n rows t Hn T) as (E1 & E2 & E3 & E4 & E5).
  eapply smooth_spec; eauto.
Qed.
Print Assumptions C70_smooth.
Theorem C70_smooth_simplicial : forall row_leb n rows t V PP chains, simplices_ok n rows -> from_simplices row_leb n rows = Ok t ->
  chains_ok t n chains -> length PP = S n -> length V = length (nth 0 (elements t) []) ->
  exists W, smooth t V PP chains = Ok W /\ length W = length V /\ forall v, v < length V ->
    (forall k l, sources t n chains v k l -> (nth v W 0 == average (map (fun e => nth e (nth k PP []) 0) l))%Q) /\
    ((forall k e, k <= n -> crease t n chains k e -> ~ In v (element t k e)) -> nth v W 0%Q = nth v V 0%Q).
Proof.
  intros row_leb n rows t V PP cr OK H HC LP LV. destruct (from_simplices_top_ok _ _ _ _ OK H) as [Hn T]. destruct (s_elements_ok n rows t Hn T) as (E1 & E2 & E3 & E4 & E5).
  eapply smooth_spec; eauto.
Qed.
Print Assumptions C70_smooth_simplicial.

Definition covered (t : topology) (n : nat) (chains : list (nat * list Z)) (v : nat) : Prop :=
  exists k e, k <= n /\ crease t n chains k e /\ In v (element t k e).
Lemma covered_first : forall t n cr v, chains_ok t n cr -> (covered t n cr v <-> exists k, k <= n /\ first t n cr k v = true).
Proof.
  intros t n cr v HC. split.
  - intros (k0 & e & Hk & Hc & Hv). assert (I : In e (srcs t n cr k0 v)) by (apply srcs_in; auto).
    assert (G : forall j, (forall k', k' < j -> srcs t n cr k' v = []) \/ exists k, k < j /\ first t n cr k v = true).
    { induction j as [|j [IH|(k & Hkj & F)]]; [left; intros; lia| |right; exists k; split; auto; lia]. destruct (srcs t n cr j v) as [|x r] eqn:Es.
      - left. intros k' Hk'. destruct (Nat.eq_dec k' j) as [->|]; auto. apply IH. lia.
      - right. exists j. split; [lia|]. apply first_iff. rewrite Es. split; [discriminate|auto]. }
    destruct (G (S k0)) as [N|(k & Hk' & F)]; [rewrite (N k0) in I by lia; destruct I|]. exists k. split; [lia|auto].
  - intros (k & Hk & F). apply first_iff in F as [Ne _]. destruct (srcs t n cr k v) as [|e r] eqn:Es; [congruence|]. assert (I : In e (srcs t n cr k v)) by (rewrite Es; left; auto). apply srcs_in in I as [I1 I2]; auto. exists k, e. auto.
Qed.
Lemma uncovered_first : forall t n cr v, chains_ok t n cr -> ~ covered t n cr v -> forall k, k <= n -> first t n cr k v = false.
Proof. intros t n cr v HC U k Hk. destruct (first t n cr k v) eqn:F; auto. exfalso. apply U. apply covered_first; auto. exists k. auto. Qed.
Lemma uncovered_creases : forall t n cr v, ~ covered t n cr v -> forall k e, k <= n -> crease t n cr k e -> ~ In v (element t k e).
Proof. intros t n cr v U k e Hk Hc Hv. apply U. exists k, e. auto. Qed.
(** Where no chain of dimension n is given, every vertex has a crease. *)
Lemma default_covered : forall n rows t cr v, 1 <= n -> ctop n rows t -> ~ In n (map fst cr) -> v < n_elements t 0 -> covered t n cr v.
Proof.
  intros n rows t cr v Hn T N Hv. apply (ct_vused _ _ _ T) in Hv. apply in_concat in Hv as (c & Hc & Hv). apply In_nth with (d := []) in Hc as (e & He & Ec). exists n, e. split; auto. unfold crease, element. rewrite (ct_top _ _ _ T). rewrite Ec. auto.
Qed.

Definition wt (k : nat) : Q := let w := wrap8 (Z.of_nat (fact k)) in (1 / (inject_Z (Z.of_nat (2 ^ k)) * inject_Z (abs8 w)) * inject_Z w)%Q.
Lemma wt_nz : forall k, k <= 7 -> (~ wt k == 0)%Q.
Proof. intros k Hk. do 8 (destruct k as [|k]; [vm_compute; discriminate|]). lia. Qed.
Lemma c_weights : forall n rows t, 1 <= n -> n <= 7 -> ctop n rows t -> exists A, averaging_operators_0 t = Ok A /\ length A = S n /\
  forall k, k <= n -> exists W, nth_error A k = Some (Some W) /\ forall e v, e < n_elements t k -> v < n_elements t 0 -> (W e v == if memb v (el t k e) then wt k else 0)%Q.
Proof.
  intros n rows t Hn H7 T. destruct (c_column n rows t 0 Hn T ltac:(lia)) as (A & EA & _). exists A. split; auto. split.
  { revert EA. unfold averaging_operators_0, accumulated_operators_0. fold (acc0 t). assert (LA : length (acc0 t) = n) by (unfold acc0; rewrite accumulate_length, map_length; apply (c_matrices_len n rows t T)).
    destruct (acc0 t) as [|a0 A0] eqn:E; [simpl in LA; lia|]. cbn [bind]. intros X. injection X as <-. cbn [map length]. rewrite map_length. simpl in LA. lia. }
  intros k Hk. destruct (c_column n rows t k Hn T Hk) as (A' & EA' & X). rewrite EA in EA'. injection EA' as <-.
  destruct (X 0 (c_n_elements_pos n rows t Hn T k Hk)) as (W & EW & _). exists W. split; auto. intros e v He Hv. destruct (X e He) as (W' & EW' & X1 & _). rewrite EW in EW'. injection EW' as <-. apply X1. auto.
Qed.

Lemma primal_length : forall t V, length (primal_position t V) = length (elements t).
Proof. intros. unfold primal_position. apply map_length. Qed.
Lemma primal_nth : forall t V k e, k < length (elements t) -> e < n_elements t k -> nth e (nth k (primal_position t V) []) 0%Q = mean (map (fun v => nth v V 0%Q) (el t k e)).
Proof.
  intros t V k e Hk He. unfold primal_position. rewrite (nth_map_lt _ _ _ _ _ []) by auto. rewrite (nth_map_lt _ _ _ _ _ []) by auto. reflexivity.
Qed.

Lemma operator_all : forall row_leb n rows t V chains, 1 <= n -> cubes_ok n rows -> from_cubes row_leb true n rows = Ok t ->
  chains_ok t n chains -> length V = length (nth 0 (elements t) []) ->
  exists M W, smooth_operator t chains = Ok M /\ smooth t V (primal_position t V) chains = Ok W /\ length W = length V /\ forall v, v < length V ->
    (covered t n chains v -> (nth v (apply_operator (length V) M V) 0 == nth v W 0)%Q) /\
    (~ covered t n chains v -> (nth v (apply_operator (length V) M V) 0 == 0)%Q /\ nth v W 0%Q = nth v V 0%Q).
Proof.
  intros row_leb n rows t V cr Hn OK H HC LV. destruct (from_cubes_ctop _ _ _ _ Hn OK H) as (H7 & _ & _ & T). destruct (c_elements_ok n rows t Hn T) as (E1 & E2 & E3 & E4 & E5).
  destruct (c_weights n rows t Hn H7 T) as (A & EA & LA & NA).
  destruct (smooth_operator_apply t n (fun k => 2 ^ k) E1 E2 E3 E4 E5 cr HC A wt EA LA NA) as (M & EM & NM); [intros k Hk; apply wt_nz; lia|].
  assert (LP : length (primal_position t V) = S n) by (rewrite primal_length; auto).
  destruct (smooth_pick t n (fun k => 2 ^ k) E1 E2 E3 cr HC V (primal_position t V) LP) as (W & EW & LW & NW). exists M, W. split; auto. split; auto. split; auto.
  intros v Hv. fold (n_elements t 0) in LV. rewrite LV in Hv. destruct (NM v Hv V LV) as [F U]. rewrite LV. split.
  - intros C. apply covered_first in C as (k & Hk & Fk); auto. rewrite (F k Hk Fk). rewrite NW by lia. apply first_iff in Fk as [Ne Low]. rewrite (pick_first t n cr V (primal_position t V) k v 0) by (auto; lia).
    assert (X : map (cen (primal_position t V) k) (srcs t n cr k v) = map (fun e => mean (map (fun u => nth u V 0%Q) (el t k e))) (srcs t n cr k v)); [|rewrite X; reflexivity].
    apply map_ext_in. intros e I. apply srcs_in in I as [[I _] _]; auto. unfold cen. apply primal_nth; auto. lia.
  - intros N. split; [apply U; intros k Hk; apply uncovered_first; auto|]. rewrite NW by lia. apply pick_none. intros k Hk. apply in_seq in Hk. apply uncovered_srcs with (n := n); auto; [|lia]. apply uncovered_creases; auto.
Qed.

(** C71.  The full statement has no hypothesis on the vertex: applying the smoothing operator to the vertices is the same as
    smoothing the mesh.  It is false of vertices without creases. *)
Theorem C71_operator_partial : forall row_leb n rows t V chains, 1 <= n -> cubes_ok n rows -> from_cubes row_leb true n rows = Ok t ->
  chains_ok t n chains -> length V = length (nth 0 (elements t) []) ->
  exists M W, smooth_operator t chains = Ok M /\ smooth t V (primal_position t V) chains = Ok W /\ forall v, v < length V ->
    covered t n chains v -> (nth v (apply_operator (length V) M V) 0 == nth v W 0)%Q.
Proof.
  intros row_leb n rows t V cr Hn OK H HC LV. destruct (operator_all row_leb n rows t V cr Hn OK H HC LV) as (M & W & EM & EW & _ & N). exists M, W. split; auto. split; auto. intros v Hv. apply N; auto.
Qed.
Print Assumptions C71_operator_partial.
(** In particular they agree everywhere if no chain of n-cubes is given. *)
Theorem C71_operator_default : forall row_leb n rows t V chains, 1 <= n -> cubes_ok n rows -> from_cubes row_leb true n rows = Ok t ->
  chains_ok t n chains -> ~ In n (map fst chains) -> length V = length (nth 0 (elements t) []) ->
  exists M W, smooth_operator t chains = Ok M /\ smooth t V (primal_position t V) chains = Ok W /\ forall v, v < length V ->
    (nth v (apply_operator (length V) M V) 0 == nth v W 0)%Q.
Proof.
  intros row_leb n rows t V cr Hn OK H HC N LV. destruct (C71_operator_partial row_leb n rows t V cr Hn OK H HC LV) as (M & W & EM & EW & X). exists M, W. split; auto. split; auto. intros v Hv. apply X; auto.
  destruct (from_cubes_ctop _ _ _ _ Hn OK H) as (_ & _ & _ & T). apply (default_covered n rows); auto. unfold n_elements. lia.
Qed.
Print Assumptions C71_operator_default.
(** The operator sends vertices without creases to the origin, smoothing leaves them alone. *)
Theorem C71_operator_refuted : forall row_leb n rows t V chains, 1 <= n -> cubes_ok n rows -> from_cubes row_leb true n rows = Ok t ->
  chains_ok t n chains -> length V = length (nth 0 (elements t) []) ->
  exists M W, smooth_operator t chains = Ok M /\ smooth t V (primal_position t V) chains = Ok W /\ forall v, v < length V ->
    ~ covered t n chains v -> (nth v (apply_operator (length V) M V) 0 == 0)%Q /\ nth v W 0%Q = nth v V 0%Q.
Proof.
  intros row_leb n rows t V cr Hn OK H HC LV. destruct (operator_all row_leb n rows t V cr Hn OK H HC LV) as (M & W & EM & EW & _ & N). exists M, W. split; auto. split; auto. intros v Hv. apply N; auto.
Qed.
Print Assumptions C71_operator_refuted.
(** The rows of vertices with creases are convex combinations. *)
Theorem C71_convex : forall row_leb n rows t chains, 1 <= n -> cubes_ok n rows -> from_cubes row_leb true n rows = Ok t -> chains_ok t n chains ->
  exists M, smooth_operator t chains = Ok M /\ forall v, v < length (nth 0 (elements t) []) -> covered t n chains v ->
    (forall u, u < length (nth 0 (elements t) []) -> (0 <= M v u)%Q) /\ (sumQ (map (M v) (seq 0 (length (nth 0 (elements t) [])))) == 1)%Q.
Proof.
  intros row_leb n rows t cr Hn OK H HC. destruct (from_cubes_ctop _ _ _ _ Hn OK H) as (H7 & _ & _ & T). destruct (c_elements_ok n rows t Hn T) as (E1 & E2 & E3 & E4 & E5).
  destruct (c_weights n rows t Hn H7 T) as (A & EA & LA & NA).
  destruct (smooth_operator_spec t n (fun k => 2 ^ k) E1 E2 E3 E4 E5 cr HC A wt EA LA NA) as (M & EM & NM); [intros k Hk; apply wt_nz; lia|].
  exists M. split; auto. fold (n_elements t 0). intros v Hv C. apply covered_first in C as (k & Hk & Fk); auto. pose proof (proj1 (NM v Hv) k Hk Fk) as F. split.
  - intros u Hu. rewrite F by auto. apply Qmult_le_0_compat; [apply spread_nonneg|]. apply Qinv_le_0_compat. apply Qmult_le_0_compat; unfold Qle; simpl; lia.
  - set (c := (inject_Z (Z.of_nat (length (srcs t n cr k v))) * inject_Z (Z.of_nat (2 ^ k)))%Q) in *.
    rewrite (sumQ_ext _ _ (fun u => / c * (spread t k (srcs t n cr k v) u * 1))%Q) by (intros u Hu; apply in_seq in Hu; rewrite F by lia; unfold Qdiv; ring).
    assert (B : forall e, In e (srcs t n cr k v) -> e < n_elements t k) by (intros e I; apply srcs_in in I as [[I _] _]; auto).
    rewrite sumQ_scale, (spread_sum t n (fun k => 2 ^ k) E3 E5) by auto. rewrite (sumQ_ext _ _ (fun _ => inject_Z (Z.of_nat (2 ^ k)))).
    + rewrite sumQ_const. apply first_iff in Fk as [Ne _]. assert (N1 := Qnat_nz (length (srcs t n cr k v)) ltac:(destruct (srcs t n cr k v); [congruence|simpl; lia])). assert (N2 := Qnat_nz (2 ^ k) (E4 k Hk)). unfold c. field. split; auto.
    + intros e I. rewrite sumQ_const. destruct (E3 k e Hk (B e I)) as [Le _]. rewrite Le. ring.
Qed.
Print Assumptions C71_convex.

(** Two squares side by side whose common edge is a crease: corners 0 and 1 move to the centre of the first square, 2 and
    3 to the middle of that edge. *)
Definition edge_crease : list (nat * list Z) := [(1, [0; 0; 0; 1; 0; 0; 0]%Z)].
Example C70_example : exists t, cubes_ok 2 [[0; 1; 2; 3]; [2; 3; 4; 5]] /\ from_cubes lex_leb true 2 [[0; 1; 2; 3]; [2; 3; 4; 5]] = Ok t /\
  chains_ok t 2 edge_crease /\ ~ In 2 (map fst edge_crease) /\ covered t 2 edge_crease 2 /\
  sources t 2 edge_crease 2 1 [3] /\ sources t 2 edge_crease 0 2 [0] /\
  match smooth t [0; 0; 1; 5; 8; 10]%Q (primal_position t [0; 0; 1; 5; 8; 10]%Q) edge_crease with
  | Ok W => forallb (fun p => Qeq_bool (fst p) (snd p)) (combine W [6#4; 6#4; 3; 3; 6; 6]%Q) && (length W =? 6) | Err _ => false end = true.
Proof.
  eexists. split; [split; [discriminate|]; repeat constructor; simpl; intuition discriminate|]. split; [vm_compute; reflexivity|]. split.
  { split; [repeat constructor; simpl; intuition discriminate|]. repeat constructor. }
  split; [simpl; intuition discriminate|].
  assert (CR : forall t' k e, t' = t' -> crease t' 2 edge_crease k e <-> e < length (nth k (elements t') []) /\ ((k = 1 /\ e = 3) \/ k = 2)).
  { intros t' k e _. unfold crease, edge_crease. cbn [In map fst]. split.
    - intros [L [(c & [E|[]] & N)|[N ->]]]; split; auto. injection E as <- <-. left. split; auto. do 7 (destruct e as [|e]; [try reflexivity; exfalso; apply N; reflexivity|]). destruct e; exfalso; apply N; reflexivity.
    - intros [L [[-> ->]| ->]]; split; auto; [left; eexists; split; [left; reflexivity|discriminate]|right; split; auto; lia]. }
  split; [|split; [|split]].
  - exists 1, 3. split; [lia|]. split; [apply CR; auto; split; [vm_compute; lia|auto]|vm_compute; auto].
  - split; [lia|]. split; [repeat constructor; simpl; tauto|]. split; [discriminate|]. split.
    + intros e. rewrite CR by auto. cbn [In]. split; [intros [<-|[]]; split; [split; [vm_compute; lia|auto]|vm_compute; auto]|]. intros [[_ [[_ ->]|X]] _]; [auto|lia].
    + intros k' e Hk H. apply CR in H as [_ [[X _]|X]]; auto; lia.
  - split; [lia|]. split; [repeat constructor; simpl; tauto|]. split; [discriminate|]. split.
    + intros e. rewrite CR by auto. cbn [In]. split; [intros [<-|[]]; split; [split; [vm_compute; lia|auto]|vm_compute; auto]|]. intros [[L _] I]. cbn in L. destruct e as [|[|e]]; [auto| |lia]. exfalso. revert I. vm_compute. intuition discriminate.
    + intros k' e Hk H I. apply CR in H as [_ [[-> ->]|X]]; auto; [|lia]. revert I. vm_compute. intuition discriminate.
  - vm_compute. reflexivity.
Qed.
(** A chain of squares without entries: no vertex has a crease. *)
Example C71_uncovered_example : exists t, from_cubes lex_leb true 2 [[0; 1; 2; 3]; [2; 3; 4; 5]] = Ok t /\ chains_ok t 2 [(2, [0; 0]%Z)] /\ ~ covered t 2 [(2, [0; 0]%Z)] 3 /\
  match smooth_operator t [(2, [0; 0]%Z)], smooth t [1; 1; 1; 1; 1; 1]%Q (primal_position t [1; 1; 1; 1; 1; 1]%Q) [(2, [0; 0]%Z)] with
  | Ok M, Ok W => Qeq_bool (nth 3 (apply_operator 6 M [1; 1; 1; 1; 1; 1]%Q) 7%Q) 0%Q && Qeq_bool (nth 3 W 0%Q) 1%Q | _, _ => false end = true.
Proof.
  eexists. split; [vm_compute; reflexivity|]. split.
  { split; [repeat constructor; simpl; intuition discriminate|]. repeat constructor. }
  split; [|vm_compute; reflexivity]. intros (k & e & Hk & [L [(c & [E|[]] & N)|[N ->]]] & _).
  - injection E as <- <-. apply N. destruct e as [|[|[|e]]]; reflexivity.
  - apply N. simpl. auto.
Qed.

(** ---- C72 ---- *)
Lemma seq_S_shift : forall N, seq 0 (S N) = 0 :: map S (seq 0 N).
Proof. intros. cbn [seq]. rewrite seq_shift. auto. Qed.
Lemma nth_concat_at : forall A (d : A) (L : list (list A)) k e, k < length L -> e < length (nth k L []) ->
  nth (list_sum (map (fun m => length (nth m L [])) (seq 0 k)) + e) (concat L) d = nth e (nth k L []) d.
Proof.
  induction L as [|a L IH]; intros k e Hk He; [simpl in Hk; lia|]. cbn [concat]. destruct k as [|k]; [cbn [seq map list_sum fold_right nth] in *; apply app_nth1; auto|].
  rewrite seq_S_shift. cbn [map]. rewrite map_map. cbn [nth] in *. change (list_sum (length a :: map (fun x => length (nth x L [])) (seq 0 k))) with (length a + list_sum (map (fun x => length (nth x L [])) (seq 0 k))).
  rewrite app_nth2 by lia. rewrite <- IH by (auto; simpl in Hk; lia). f_equal. lia.
Qed.
Lemma vstack_at : forall (bs : list (nat * (nat -> nat -> Q))) d k e j, k < length bs -> e < fst (nth k bs d) ->
  vstack bs (list_sum (map (fun m => fst (nth m bs d)) (seq 0 k)) + e) j = snd (nth k bs d) e j.
Proof.
  induction bs as [|[r M] bs IH]; intros d k e j Hk He; [simpl in Hk; lia|]. cbn [vstack]. destruct k as [|k].
  - cbn [seq map list_sum fold_right nth fst snd Nat.add] in *. rewrite (proj2 (Nat.ltb_lt _ _) He). auto.
  - rewrite seq_S_shift. cbn [map]. rewrite map_map. cbn [nth fst] in *. change (list_sum (r :: map (fun x => fst (nth x bs d)) (seq 0 k))) with (r + list_sum (map (fun x => fst (nth x bs d)) (seq 0 k))).
    rewrite (proj2 (Nat.ltb_ge _ _)) by lia. rewrite <- (IH d k e j) by (auto; simpl in Hk; lia). f_equal. lia.
Qed.
Lemma sum_split : forall f N i, i < list_sum (map f (seq 0 N)) -> exists k e, k < N /\ e < f k /\ i = list_sum (map f (seq 0 k)) + e.
Proof.
  induction N as [|N IH]; intros i Hi; [simpl in Hi; lia|]. rewrite seq_S, map_app, list_sum_app in Hi. cbn [map list_sum fold_right Nat.add] in Hi.
  destruct (le_lt_dec (list_sum (map f (seq 0 N))) i) as [L|L]; [exists N, (i - list_sum (map f (seq 0 N))); lia|]. destruct (IH i L) as (k & e & Hk & He & E). exists k, e. lia.
Qed.
Lemma below_split : forall t n i, i < below t (S n) -> exists k e, k <= n /\ e < n_elements t k /\ i = below t k + e.
Proof. intros t n i Hi. apply sum_split in Hi as (k & e & Hk & He & E). exists k, e. split; [lia|auto]. Qed.

Lemma primal_row_length : forall t V k, length (nth k (primal_position t V) []) = length (nth k (elements t) []).
Proof.
  intros t V k. unfold primal_position. destruct (Nat.lt_ge_cases k (length (elements t))) as [L|L]; [rewrite (nth_map_lt _ _ _ _ _ []) by auto; apply map_length|].
  rewrite !nth_overflow; auto. rewrite map_length. auto.
Qed.
Lemma fine_vertex : forall t V k e, k < length (elements t) -> e < n_elements t k -> nth (below t k + e) (concat (primal_position t V)) 0%Q = mean (map (fun v => nth v V 0%Q) (el t k e)).
Proof.
  intros t V k e Hk He. unfold below. rewrite <- primal_nth by auto. rewrite <- nth_concat_at; [|rewrite primal_length; auto|rewrite primal_row_length; auto].
  f_equal. f_equal. f_equal. apply map_ext. intros m. symmetry. apply primal_row_length.
Qed.
Lemma fine_count : forall t V n, length (elements t) = S n -> length (concat (primal_position t V)) = below t (S n).
Proof.
  intros t V n L. unfold below. assert (G : forall (L : list (list Q)), length (concat L) = list_sum (map (fun m => length (nth m L [])) (seq 0 (length L)))).
  { clear. induction L as [|a L IH]; auto. cbn [concat length]. rewrite app_length, IH. rewrite seq_S_shift. cbn [map]. rewrite map_map. reflexivity. }
  rewrite G, primal_length, L. f_equal. apply map_ext. intros m. apply primal_row_length.
Qed.

Section Coarse.
Variables (n : nat) (rows : list cube) (t : topology).
Hypothesis Hn : 1 <= n.
Hypothesis H7 : n <= 7.
Hypothesis T : ctop n rows t.
(** Rows of the stacked averaging operators, applied to positions. *)
Lemma coarse_rows : forall V, length V = n_elements t 0 -> exists A Ws, averaging_operators_0 t = Ok A /\
  mapM (fun a : option (nat -> nat -> Q) => match a with Some f => Ok f | None => Err TypeError end) A = Ok Ws /\
  forall k e, k <= n -> e < n_elements t k ->
    (sumQ (map (fun j => vstack (combine (map (n_elements t) (seq 0 (length (elements t)))) Ws) (below t k + e) j * nth j V 0) (seq 0 (length V)))%Q ==
     wt k * sumQ (map (fun v => nth v V 0) (el t k e)))%Q.
Proof using Hn H7 T.
  intros V LV. destruct (c_elements_ok n rows t Hn T) as (E1 & E2 & E3 & E4 & E5). destruct (c_weights n rows t Hn H7 T) as (A & EA & LA & NA). destruct (get_weights t n A wt LA NA) as (Ws & EW & LW & NW). exists A, Ws. split; auto. split; auto.
  intros k e Hk He. rewrite E1. set (bs := combine (map (n_elements t) (seq 0 (S n))) Ws).
  assert (B : forall m, m <= n -> nth m bs (0, fun _ _ => 0%Q) = (n_elements t m, nth m Ws (fun _ _ => 0%Q))).
  { intros m Hm. unfold bs. rewrite combine_nth by (rewrite map_length, seq_length; lia). rewrite nth_map_seq by lia. auto. }
  assert (Off : below t k = list_sum (map (fun m => fst (nth m bs (0, fun _ _ => 0%Q))) (seq 0 k))).
  { unfold below. f_equal. apply map_ext_in. intros m Hm. apply in_seq in Hm. rewrite B by lia. reflexivity. }
  rewrite Off. rewrite (sumQ_ext _ _ (fun j => wt k * (if memb j (el t k e) then nth j V 0 else 0))%Q).
  - rewrite sumQ_scale. destruct (E3 k e Hk He) as [_ ND]. rewrite sumQ_over; [reflexivity|auto|]. intros v Hv. rewrite LV. apply (E5 k e); auto.
  - intros j Hj. apply in_seq in Hj. rewrite vstack_at.
    + rewrite B by auto. cbn [snd]. rewrite NW by lia. destruct (memb j (el t k e)); ring.
    + unfold bs. rewrite combine_length, map_length, seq_length. lia.
    + rewrite B by auto. auto.
Qed.
End Coarse.
Lemma wt_low : forall k, k <= 5 -> (wt k == / inject_Z (Z.of_nat (2 ^ k)))%Q.
Proof. intros k Hk. do 6 (destruct k as [|k]; [vm_compute; reflexivity|]). lia. Qed.
Lemma wt_6 : (wt 6 == - / inject_Z (Z.of_nat (2 ^ 6)))%Q.
Proof. vm_compute. reflexivity. Qed.

Lemma propagate_ok : forall row_leb n rows t s tr ms chains, 1 <= n -> cubes_ok n rows -> from_cubes row_leb true n rows = Ok t ->
  subdivide_cubical row_leb t = Ok (s, tr, ms) -> chains_ok t n chains ->
  exists chains', propagate ms chains = Ok chains' /\ chains_ok s n chains' /\ map fst chains' = map fst chains.
Proof.
  intros row_leb n rows t s tr ms cr Hn OK H E [ND F]. destruct (C67_matrices row_leb n rows t s tr ms Hn OK H E) as [Lm M].
  assert (G : exists cr', propagate ms cr = Ok cr' /\ map fst cr' = map fst cr /\ Forall (fun kc => fst kc <= n /\ length (snd kc) = length (nth (fst kc) (elements s) [])) cr').
  { clear ND. induction cr as [|[k c] cr IH]; [exists []; split; auto|]. inversion F as [|? ? [Hk Lc] F']; subst. cbn [fst snd] in *. destruct (IH F') as (cr' & E' & K & Fo).
    unfold propagate in *. cbn [mapM fst snd]. rewrite (nth_error_nth' ms (mkCoo 0 0 [])) by lia. destruct (M k Hk) as (M1 & M2 & _). cbv zeta in M1, M2. rewrite M2, Lc, Nat.eqb_refl. cbn [bind]. rewrite E'. cbn [bind].
    eexists. split; [reflexivity|]. cbn [map fst]. rewrite K. split; auto. constructor; auto. cbn [fst snd]. split; auto. rewrite map_length, seq_length. auto. }
  destruct G as (cr' & E' & K & Fo). exists cr'. split; auto. split; auto. split; auto. rewrite K. auto.
Qed.

(** Subdivision puts the new vertex of every element at the average of the element's corners. *)
Theorem C72_vertices : forall row_leb n rows t V chains, 1 <= n -> cubes_ok n rows -> from_cubes row_leb true n rows = Ok t ->
  chains_ok t n chains -> length V = length (nth 0 (elements t) []) ->
  exists s tr ms W, subdivide_cubical row_leb t = Ok (s, tr, ms) /\ subdivide_cubical_complex row_leb t V chains false = Ok (s, W) /\
    length W = length (nth 0 (elements s) []) /\
    forall k e, k <= n -> e < length (nth k (elements t) []) -> (nth (below t k + e) W 0 == average (map (fun v => nth v V 0) (nth e (nth k (elements t) []) [])))%Q.
Proof.
  intros row_leb n rows t V cr Hn OK H HC LV. destruct (C66_subdivide row_leb n rows t Hn OK H) as (s & tr & ms & E & _ & _ & _ & N0 & _). destruct (propagate_ok row_leb n rows t s tr ms cr Hn OK H E HC) as (cr' & EP & _ & _).
  destruct (from_cubes_ctop _ _ _ _ Hn OK H) as (_ & _ & _ & T). pose proof (ct_lenE _ _ _ T) as L.
  exists s, tr, ms, (concat (primal_position t V)). split; auto. unfold subdivide_cubical_complex. rewrite E. cbn [bind]. rewrite EP. cbn [bind]. split; auto. split; [rewrite (fine_count t V n L); auto|].
  intros k e Hk He. rewrite fine_vertex by (auto; lia). reflexivity.
Qed.
Print Assumptions C72_vertices.

(** The full statement has no bound on n, and no condition on the chains. *)
Theorem C72_operator_partial : forall row_leb n rows t V chains smoothing, 1 <= n -> cubes_ok n rows -> from_cubes row_leb true n rows = Ok t ->
  chains_ok t n chains -> length V = length (nth 0 (elements t) []) -> n <= 5 -> (smoothing = true -> ~ In n (map fst chains)) ->
  exists s W M, subdivide_cubical_complex row_leb t V chains smoothing = Ok (s, W) /\ subdivide_operator row_leb t chains smoothing = Ok M /\
    let N := length (nth 0 (elements s) []) in length W = N /\ forall i, i < N -> (nth i (apply_operator N M V) 0 == nth i W 0)%Q.
Proof.
  intros row_leb n rows t V cr b Hn OK H HC LV H5 HB. destruct (C66_subdivide row_leb n rows t Hn OK H) as (s & tr & ms & E & Fs & OKs & _ & N0 & _). destruct (propagate_ok row_leb n rows t s tr ms cr Hn OK H E HC) as (cr' & EP & HC' & K).
  destruct (from_cubes_ctop _ _ _ _ Hn OK H) as (H7 & _ & _ & T). pose proof (ct_lenE _ _ _ T) as L. set (V' := concat (primal_position t V)). assert (LV' : length V' = length (nth 0 (elements s) [])) by (unfold V'; rewrite (fine_count t V n L); auto).
  destruct (coarse_rows n rows t Hn H7 T V LV) as (A & Ws & EA & EW & R). set (ca := vstack _) in R.
  assert (CR : forall i, i < length V' -> (sumQ (map (fun j => ca i j * nth j V 0) (seq 0 (length V)))%Q == nth i V' 0)%Q).
  { intros i Hi. rewrite LV', N0 in Hi. apply below_split in Hi as (k & e & Hk & He & ->). rewrite R by auto. unfold V'. rewrite fine_vertex by (auto; lia). destruct (c_elements_ok n rows t Hn T) as (_ & _ & E3 & _ & _). destruct (E3 k e Hk He) as [Le _].
    unfold mean. rewrite map_length, Le. rewrite wt_low by lia. unfold Qdiv. ring. }
  unfold subdivide_cubical_complex, subdivide_operator. rewrite E. cbn [bind]. rewrite EP. cbn [bind]. rewrite EA. cbn [bind]. rewrite EW. cbn [bind]. fold V'. fold ca. destruct b.
  - destruct (operator_all row_leb n _ s V' cr' Hn OKs Fs HC' LV') as (O & W & EO & EWs & LW & NO). rewrite EWs, EO. cbn [bind]. exists s, W. eexists. split; [reflexivity|]. split; [reflexivity|]. cbv zeta. split; [congruence|].
    intros i Hi. rewrite <- LV' in *. destruct (NO i Hi) as [C _]. rewrite <- C.
    + unfold apply_operator. rewrite !nth_map_seq by auto.
      rewrite (sumQ_ext _ (fun j => O i j * nth j V' 0)%Q (fun k => sumQ (map (fun j => O i k * ca k j * nth j V 0)%Q (seq 0 (length V))))).
      * rewrite sumQ_swap. unfold n_elements. rewrite <- LV'. apply sumQ_ext. intros j _. rewrite Qmult_comm, <- sumQ_scale. apply sumQ_ext. intros k _. ring.
      * intros k Hk. apply in_seq in Hk. rewrite <- CR by lia. rewrite <- sumQ_scale. apply sumQ_ext. intros; ring.
    + destruct (from_cubes_ctop _ _ _ _ Hn OKs Fs) as (_ & _ & _ & Ts). eapply default_covered; eauto; [rewrite K; auto|unfold n_elements; lia].
  - exists s, V', ca. split; auto. split; auto. cbv zeta. split; auto. intros i Hi. rewrite <- LV' in *. unfold apply_operator. rewrite nth_map_seq by auto. apply CR. auto.
Qed.
Print Assumptions C72_operator_partial.

(** In dimension six and seven, the operator puts the new vertices of 6-cubes at minus the position of the subdivided mesh. *)
Theorem C72_dim6_refuted : forall row_leb n rows t V chains, 1 <= n -> cubes_ok n rows -> from_cubes row_leb true n rows = Ok t ->
  chains_ok t n chains -> length V = length (nth 0 (elements t) []) -> 6 <= n ->
  exists s W M, subdivide_cubical_complex row_leb t V chains false = Ok (s, W) /\ subdivide_operator row_leb t chains false = Ok M /\
    let N := length (nth 0 (elements s) []) in let i := below t 6 in i < N /\ (nth i (apply_operator N M V) 0 == - nth i W 0)%Q /\
    ((forall v, v < length V -> (nth v V 0 == 1)%Q) -> (nth i W 0 == 1)%Q).
Proof.
  intros row_leb n rows t V cr Hn OK H HC LV H6. destruct (C66_subdivide row_leb n rows t Hn OK H) as (s & tr & ms & E & Fs & OKs & _ & N0 & _). destruct (propagate_ok row_leb n rows t s tr ms cr Hn OK H E HC) as (cr' & EP & HC' & K).
  destruct (from_cubes_ctop _ _ _ _ Hn OK H) as (H7 & _ & _ & T). pose proof (ct_lenE _ _ _ T) as L. set (V' := concat (primal_position t V)). assert (LV' : length V' = length (nth 0 (elements s) [])) by (unfold V'; rewrite (fine_count t V n L); auto).
  destruct (coarse_rows n rows t Hn H7 T V LV) as (A & Ws & EA & EW & R). set (ca := vstack _) in R.
  unfold subdivide_cubical_complex, subdivide_operator. rewrite E. cbn [bind]. rewrite EP. cbn [bind]. rewrite EA. cbn [bind]. rewrite EW. cbn [bind]. fold V'. fold ca.
  exists s, V', ca. split; auto. split; auto. cbv zeta. pose proof (c_n_elements_pos n rows t Hn T 6 ltac:(lia)) as P6.
  assert (I : below t 6 < below t (S n)).
  { assert (G : forall j, below t (7 + j) = below t (6 + j) + n_elements t (6 + j)) by (intros j; unfold below; change (7 + j) with (S (6 + j)); rewrite seq_S, map_app, list_sum_app; cbn [map list_sum fold_right]; unfold n_elements; rewrite Nat.add_0_l; lia).
    assert (G2 : forall j, below t 6 < below t (7 + j)). { induction j as [|j IH]; [specialize (G 0); change (6 + 0) with 6 in G; lia|]. specialize (G (S j)). replace (6 + S j) with (7 + j) in G by lia. lia. }
    replace (S n) with (7 + (n - 6)) by lia. apply G2. }
  split; [lia|]. destruct (c_elements_ok n rows t Hn T) as (_ & _ & E3 & _ & E5). destruct (E3 6 0 ltac:(lia) P6) as [Le _].
  assert (FV : nth (below t 6) V' 0%Q = mean (map (fun v => nth v V 0%Q) (el t 6 0))) by (unfold V'; rewrite <- fine_vertex by (auto; lia); f_equal; lia).
  rewrite FV. split.
  - unfold apply_operator. rewrite nth_map_seq by lia. specialize (R 6 0 ltac:(lia) P6). rewrite Nat.add_0_r in R. rewrite R, wt_6. unfold mean. rewrite map_length, Le. unfold Qdiv. ring.
  - intros O. unfold mean. rewrite map_length, Le. rewrite (sumQ_ext _ _ (fun _ => 1%Q)); [rewrite sumQ_const, Le; reflexivity|]. intros v Hv. apply O. rewrite LV. apply (E5 6 0); auto; lia.
Qed.
Print Assumptions C72_dim6_refuted.
Example C72_dim6_example : forall row_leb, exists t, cubes_ok 6 (grid_cubes [1;1;1;1;1;1]) /\ from_cubes row_leb true 6 (grid_cubes [1;1;1;1;1;1]) = Ok t /\ chains_ok t 6 [].
Proof. intros row_leb. destruct (C69_dim6_example row_leb) as (t & A & B). exists t. split; auto. split; auto. split; constructor. Qed.
(** The two squares with a crease, subdivided and smoothed. *)
Example C72_example : exists t, from_cubes lex_leb true 2 [[0; 1; 2; 3]; [2; 3; 4; 5]] = Ok t /\
  chains_ok t 2 edge_crease /\ ~ In 2 (map fst edge_crease) /\
  match subdivide_cubical_complex lex_leb t [0; 0; 1; 5; 8; 10]%Q edge_crease true with
  | Ok (s, W) => forallb (fun p => Qeq_bool (fst p) (snd p)) (combine (firstn 4 W) [1#2; 1; 2; 4]%Q) && (length W =? 15) && Qeq_bool (nth 9 W 0%Q) 3%Q | Err _ => false end = true.
Proof.
  eexists. split; [vm_compute; reflexivity|]. split.
  { split; [repeat constructor; simpl; intuition discriminate|]. repeat constructor. }
  split; [simpl; intuition discriminate|]. vm_compute. reflexivity.
Qed.
