(** C95: sampling of dual 0-forms on simplicial complexes. *)
Require Import List Arith ZArith Bool Lia Permutation Factorial.
From Verif Require Import Util Arr CombModel CombSpec CombProofs SimpModel SimpSpec ParProofs SimpProofs LevelProofs TopProofs SimpProps
  BdryModel BdrySpec OrientProofs SubProofs BdryProps SubdModel SubdSpec FundProofs BaryProofs BarySub SubdProps FSampModel.
Import ListNotations.
From Verif Require BarrProps.
Local Open Scope nat_scope.

Section C95.
Variable F : cring.
Add Ring Fr : (rth F).
Local Open Scope ring_scope'.
Notation point := (list F).
Variable row_leb : list nat -> list nat -> bool.
Variable pick : topology -> list point -> point -> nat * list F.

(** [b] are coordinates of [p], a point with [dim] coordinates, with respect to n + 1 corners *)
Definition coordinates_of (dim n : nat) (corner : nat -> point) (b : list F) (p : point) : Prop :=
  length b = S n /\ rsum b = r1 /\ forall i, (i < dim)%nat -> nth i p r0 = rsum (map (fun k => nth k b r0 * nth i (corner k) r0) (seq 0 (S n))).
(** what pick_primal promises *)
Definition located (dim n : nat) (sub : topology) (V : list point) (p : point) (r : nat * list F) : Prop :=
  (fst r < n_elements sub n)%nat /\ coordinates_of dim n (fun k => nth (nth k (element sub n (fst r)) 0%nat) V []) (snd r) p.

Lemma swap_spec : forall (q : list F) b a, swap_last_two F (q ++ [b; a]) = q ++ [a; b].
Proof. intros q b a. unfold swap_last_two. rewrite rev_app_distr. cbn [rev app]. rewrite rev_involutive, <- app_assoc. reflexivity. Qed.
Lemma firstn_S_nth : forall A (l : list A) m d, (m < length l)%nat -> firstn (S m) l = firstn m l ++ [nth m l d].
Proof. induction l as [|x l IH]; intros m d Hm; [simpl in Hm; lia|]. destruct m; auto. change (x :: firstn (S m) l = x :: firstn m l ++ [nth m l d]). f_equal. apply IH. simpl in Hm. lia. Qed.
Lemma split_two : forall A (l : list A) n, length l = S (S n) -> exists q b a, l = q ++ [b; a] /\ length q = n.
Proof.
  intros A l n L. destruct (exists_last (l := l)) as (l1 & a & ->). { intros ->. simpl in L. lia. } rewrite app_length in L. simpl in L.
  destruct (exists_last (l := l1)) as (q & b & ->). { intros ->. simpl in L. lia. } rewrite app_length in L. simpl in L. exists q, b, a. rewrite <- app_assoc. split; auto. lia.
Qed.
Lemma swapped_sum : forall (g : nat -> F) (fl : list nat) (b : list F) n, length fl = S (S n) -> length b = S (S n) ->
  rsum (map (fun k => nth k b r0 * g (nth k (swap_last fl) 0%nat)) (seq 0 (S (S n)))) = rsum (map (fun k => nth k (swap_last_two F b) r0 * g (nth k fl 0%nat)) (seq 0 (S (S n)))).
Proof.
  intros g fl b n L L'. destruct (split_two _ fl n L) as (q & x & y & -> & Lq). destruct (split_two _ b n L') as (q' & x' & y' & -> & Lq').
  rewrite swap_last_spec, swap_spec. change (S (S n)) with (2 + n)%nat. rewrite (Nat.add_comm 2 n), seq_app, !map_app, !rsum_app. f_equal.
  - apply rsum_ext. intros k Hk. apply in_seq in Hk. rewrite !app_nth1 by lia. reflexivity.
  - cbn [seq map rsum Nat.add]. rewrite !app_nth2 by lia. rewrite Lq, Lq', Nat.sub_diag. replace (S n - n)%nat with 1%nat by lia. cbn [nth]. unfold rsum. cbn [fold_right]. ring.
Qed.
Lemma swap_length : forall b : list F, length (swap_last_two F b) = length b.
Proof. intros b. unfold swap_last_two. destruct (rev b) as [|x [|y q]] eqn:E; auto. rewrite rev_length. cbn [length]. rewrite <- (rev_length b), E. reflexivity. Qed.
Lemma swap_sum : forall b : list F, rsum (swap_last_two F b) = rsum b.
Proof.
  intros b. apply rsum_perm. unfold swap_last_two. destruct (rev b) as [|x [|y q]] eqn:E; auto. rewrite <- (rev_involutive b), E. apply Permutation_trans with (y :: x :: q); [symmetry; apply Permutation_rev|].
  apply Permutation_trans with (x :: y :: q); [constructor|apply Permutation_rev].
Qed.

(** The position of a labelled element in the list of all vertices. *)
Lemma concat_at : forall (t : topology) (PP : list (list point)) k e, (forall k, (k < length PP)%nat -> length (nth k PP []) = n_elements t k) -> (k < length PP)%nat -> (e < n_elements t k)%nat ->
  nth (e + offset t k) (concat PP) [] = nth e (nth k PP []) [].
Proof.
  intros t PP k e L Hk He. assert (G : forall m, (m <= length PP)%nat -> length (concat (firstn m PP)) = offset t m).
  { induction m; intros Hm; [reflexivity|]. replace (offset t (S m)) with (offset t m + n_elements t m)%nat by (unfold offset; rewrite seq_S, map_app, list_sum_app; cbn; lia). rewrite <- IHm by lia. rewrite <- (L m) by lia. rewrite (firstn_S_nth _ PP m []) by lia. rewrite concat_app, app_length. cbn. rewrite app_nil_r. reflexivity. }
  rewrite <- (firstn_skipn k PP) at 1. rewrite concat_app, app_nth2; rewrite (G k) by lia; [|lia]. replace (e + offset t k - offset t k)%nat with e by lia.
  destruct (skipn k PP) as [|x q] eqn:E. { apply (f_equal (@length _)) in E. rewrite skipn_length in E. simpl in E. lia. }
  assert (X : nth k PP [] = x). { rewrite <- (firstn_skipn k PP), E, app_nth2; rewrite firstn_length_le by lia; [|lia]. rewrite Nat.sub_diag. reflexivity. }
  rewrite X. simpl. apply app_nth1. rewrite <- X, L by lia. exact He.
Qed.

(** Each sample is the combination of the averages at the elements of a flag, with coordinates of the point with respect to their
    positions. *)
Theorem C95_sample : forall n rows t dim PP n0 averaging d0 points, simplices_ok n rows -> from_simplices row_leb n rows = Ok t ->
  length PP = S n -> (forall k, (k <= n)%nat -> length (nth k PP []) = n_elements t k) -> length averaging = S n ->
  (forall sub p, subdivide_fundamental row_leb t true = Ok sub -> In p points -> located dim n sub (concat PP) p (pick sub (concat PP) p)) ->
  exists xs, sample_dual_0 F row_leb pick t PP true n0 averaging d0 points = Ok xs /\
  Forall2 (fun p x => exists j fl b, is_flag n t j fl /\ coordinates_of dim n (fun k => nth (nth k fl 0%nat) (nth k PP []) []) b p /\
    x = rsum (map (fun k => nth k b r0 * rsum (map (fun i => nth (n - k) averaging (fun _ _ => r0) (nth k fl 0%nat) i * d0 i) (seq 0 n0))) (seq 0 (S n)))) points xs.
Proof.
  intros n rows t dim PP n0 averaging d0 points OK H LP LPk LA Lo. destruct (from_simplices_top_ok _ _ _ _ OK H) as [Hn T]. destruct (sub_ok n rows t Hn T true) as [OK' V].
  destruct (proj1 (from_simplices_cases row_leb n _ Hn OK') (ex_intro _ _ V)) as (s & E & T').
  assert (Es : subdivide_fundamental row_leb t true = Ok s). { unfold subdivide_fundamental. rewrite (fundamental_domains_ok n rows t Hn T). cbn [bind]. rewrite (top_n_dim n rows t T). exact E. }
  unfold sample_dual_0, pick_fundamental, pick_fundamental_precomp. cbn [negb]. rewrite Es. cbn [bind]. rewrite (fundamental_domains_ok n rows t Hn T). cbn [bind].
  change (flat_map (block n rows t) (seq 0 (length rows))) with (D n rows t).
  assert (Ns : n_elements s n = length (D n rows t)). { unfold n_elements. rewrite (to_top _ _ _ T'), (D_length n rows t Hn T). apply sub_length; auto. }
  assert (Rg : existsb (fun r => (length (D n rows t) <=? fst r)%nat) (map (pick s (concat PP)) points) = false).
  { apply not_true_is_false. intros X. apply existsb_exists in X as (r & Ir & X). apply in_map_iff in Ir as (p & <- & Ip). destruct (Lo s p Es Ip) as [Q _]. rewrite Ns in Q. apply Nat.leb_le in X. lia. }
  rewrite Rg. cbn [bind]. eexists. split; [reflexivity|]. rewrite !map_map. rewrite (top_n_dim n rows t T).
  induction points as [|p points IH]; [constructor|]. constructor; [|apply IH].
  2:{ intros sub p0 Hs Hp. apply Lo; auto. right; auto. }
  2:{ cbn [map existsb] in Rg. apply orb_false_iff in Rg. tauto. }
  clear IH Rg. destruct (Lo s p Es (or_introl eq_refl)) as [Li [Lb [Sb Cp]]]. set (r := pick s (concat PP) p) in *. rewrite Ns in Li. set (fl := nth (fst r) (D n rows t) []).
  destruct (D_order n rows t Hn T (fst r) Li) as (Fl & _). fold fl in Fl. destruct Fl as (Lf & Tf & Lt & Inc).
  assert (Row : element s n (fst r) = if Nat.odd (fst r) then swap_last (lab t fl) else lab t fl). { unfold element. rewrite (to_top _ _ _ T'). rewrite (sub_nth n rows t true (fst r) Li). reflexivity. }
  assert (Ll : length (lab t fl) = S n) by (rewrite lab_length; auto). destruct n as [|n]; [lia|].
  assert (PPk : forall k, (k < length PP)%nat -> length (nth k PP []) = n_elements t k) by (intros; apply LPk; lia).
  assert (Av : forall k, (k < S (S n))%nat -> nth k (rev (map (fun a => average F n0 a d0) averaging)) (fun _ => r0) (nth k fl 0%nat) = rsum (map (fun i => nth (S n - k) averaging (fun _ _ => r0) (nth k fl 0%nat) i * d0 i) (seq 0 n0))).
  { intros k Hk. rewrite rev_nth by (rewrite map_length; lia). rewrite map_length, LA. rewrite (nth_map_lt _ _ _ _ _ (fun _ _ => r0)) by lia. unfold average. replace (S (S n) - S k)%nat with (S n - k)%nat by lia. reflexivity. }
  exists (nth (S n) fl 0%nat), fl, (if Nat.odd (fst r) then swap_last_two F (snd r) else snd r). split; [|split].
  - repeat split; auto.
  - unfold coordinates_of. split; [destruct (Nat.odd (fst r)); [rewrite swap_length|]; auto|]. split; [destruct (Nat.odd (fst r)); [rewrite swap_sum|]; auto|].
    intros i Hi. rewrite (Cp i Hi). rewrite Row. transitivity (rsum (map (fun k => nth k (if Nat.odd (fst r) then swap_last_two F (snd r) else snd r) r0 * nth i (nth (nth k (lab t fl) 0%nat) (concat PP) []) r0) (seq 0 (S (S n))))).
    + destruct (Nat.odd (fst r)); [|reflexivity]. apply (swapped_sum (fun v => nth i (nth v (concat PP) []) r0)); auto.
    + apply rsum_ext. intros k Hk. apply in_seq in Hk. rewrite lab_nth by lia. rewrite (concat_at t PP k (nth k fl 0%nat) PPk) by (try apply Lt; lia). reflexivity.
  - apply rsum_ext. intros k Hk. apply in_seq in Hk. fold fl. rewrite Av by lia. ring.
Qed.

(** If the averages at the elements are the values of an affine function at their positions, the samples are its values; in
    particular constants are reproduced if the rows of the averages add up to one. *)
Theorem C95_affine : forall n rows t dim PP n0 averaging d0 points c (g : nat -> F), simplices_ok n rows -> from_simplices row_leb n rows = Ok t ->
  length PP = S n -> (forall k, (k <= n)%nat -> length (nth k PP []) = n_elements t k) -> length averaging = S n ->
  (forall sub p, subdivide_fundamental row_leb t true = Ok sub -> In p points -> located dim n sub (concat PP) p (pick sub (concat PP) p)) ->
  let f p := c + rsum (map (fun i => g i * nth i p r0) (seq 0 dim)) in
  (forall k e, (k <= n)%nat -> (e < n_elements t k)%nat -> rsum (map (fun i => nth (n - k) averaging (fun _ _ => r0) e i * d0 i) (seq 0 n0)) = f (nth e (nth k PP []) [])) ->
  sample_dual_0 F row_leb pick t PP true n0 averaging d0 points = Ok (map f points).
Proof.
  intros n rows t dim PP n0 averaging d0 points c g OK H LP LPk LA Lo f Hf. destruct (C95_sample n rows t dim PP n0 averaging d0 points OK H LP LPk LA Lo) as (xs & E & Fo). rewrite E. f_equal. clear E Lo.
  induction Fo as [|p x points xs (j & fl & b & (Lf & Tf & Lt & Inc) & (Lb & Sb & Cp) & Ex) Fo IH]; [reflexivity|]. cbn [map]. f_equal; [|exact IH]. rewrite Ex.
  assert (Sk : rsum (map (fun k => nth k b r0) (seq 0 (S n))) = r1). { rewrite <- Sb. rewrite <- Lb. rewrite map_nth_seq. reflexivity. }
  transitivity (rsum (map (fun k => nth k b r0 * f (nth (nth k fl 0%nat) (nth k PP []) [])) (seq 0 (S n)))).
  { apply rsum_ext. intros k Hk. apply in_seq in Hk. rewrite Hf; [reflexivity|lia|]. apply Lt. lia. }
  unfold f. rewrite (rsum_ext F _ _ (fun k => nth k b r0 * c + nth k b r0 * rsum (map (fun i => g i * nth i (nth (nth k fl 0%nat) (nth k PP []) []) r0) (seq 0 dim)))) by (intros; ring).
  rewrite rsum_add, rsum_mul_r, Sk. replace (r1 * c) with c by ring. f_equal.
  rewrite (rsum_ext F _ _ (fun k => rsum (map (fun i => g i * (nth k b r0 * nth i (nth (nth k fl 0%nat) (nth k PP []) []) r0)) (seq 0 dim)))).
  2:{ intros k _. rewrite <- rsum_mul. apply rsum_ext. intros. ring. }
  rewrite rsum_swap. apply rsum_ext. intros i Hi. apply in_seq in Hi. rewrite rsum_mul. rewrite (Cp i) by lia. reflexivity.
Qed.
End C95.

(** The hypotheses are met: two triangles, a point found in the second (mirrored) domain. *)
Definition ex_PP : list (list (list Z)) := [[[0;0];[6;0];[0;6];[6;6]]; [[3;0];[0;3];[3;3];[6;3];[3;6]]; [[2;2];[4;4]]]%Z.
Definition ex_pick : topology -> list (list Z) -> list Z -> nat * list Z := fun _ _ _ => (1, [2; -2; 1]%Z).
Definition rows_of (l : list (list Z)) : nat -> nat -> Z := fun i j => nth j (nth i l []) 0%Z.
Definition ex_averaging : list (nat -> nat -> Z) :=
  [rows_of [[1;0];[0;1]]; rows_of [[1;0];[1;0];[2;-1];[0;1];[0;1]]; rows_of [[1;0];[1;0];[3;-2];[0;1]]]%Z.
Lemma ex_located : forall t sub p, from_simplices lex_leb 2 two_triangles = Ok t -> subdivide_fundamental lex_leb t true = Ok sub -> In p [[-1; 11]%Z] -> located BarrProps.Zr 2 2 sub (concat ex_PP) p (ex_pick sub (concat ex_PP) p).
Proof.
  intros t sub p Ht Hs [<-|[]]. vm_compute in Ht. injection Ht as <-. vm_compute in Hs. injection Hs as <-. split; [vm_compute; lia|]. split; [reflexivity|]. split; [reflexivity|]. intros [|[|i]] Hi; [reflexivity|reflexivity|lia].
Qed.
Example C95_sample_example : exists t, simplices_ok 2 two_triangles /\ from_simplices lex_leb 2 two_triangles = Ok t /\
  (forall k, k <= 2 -> length (nth k ex_PP []) = n_elements t k) /\
  sample_dual_0 BarrProps.Zr lex_leb ex_pick t ex_PP true 2 ex_averaging (fun j => nth j [10; 20]%Z 0%Z) [[-1; 11]%Z] = Ok [(-40)%Z].
Proof.
  eexists. split; [ok_mesh|]. split; [vm_compute; reflexivity|]. split; [intros [|[|[|k]]] Hk; [reflexivity|reflexivity|reflexivity|lia]|]. vm_compute. reflexivity.
Qed.
Example C95_affine_example : exists t, from_simplices lex_leb 2 two_triangles = Ok t /\
  sample_dual_0 BarrProps.Zr lex_leb ex_pick t ex_PP true 2 ex_averaging (fun _ => 7%Z) [[-1; 11]%Z] = Ok [7%Z].
Proof.
  eexists. split; [vm_compute; reflexivity|]. assert (H := C95_affine BarrProps.Zr lex_leb ex_pick 2 two_triangles). match goal with |- sample_dual_0 _ _ _ ?t0 _ _ _ _ _ _ = _ => specialize (H t0 2 ex_PP 2 ex_averaging (fun _ => 7%Z) [[-1; 11]%Z] 7%Z (fun _ => 0%Z)) end. apply H.
  - ok_mesh.
  - vm_compute. reflexivity.
  - reflexivity.
  - intros [|[|[|k]]] Hk; [reflexivity|reflexivity|reflexivity|lia].
  - reflexivity.
  - intros sub p Hs Hp. eapply ex_located; eauto. vm_compute. reflexivity.
  - intros [|[|[|k]]] e Hk He; [| | |lia]; cbn in He; (do 5 (destruct e as [|e]; [reflexivity || lia|]); lia).
Qed.
Print Assumptions C95_sample.
Print Assumptions C95_affine.
