(** Properties C66, C67 and C68: subdivision of cubical topologies. *)
Require Import List Arith ZArith Bool Lia Permutation Sorting.Sorted.
From Verif Require Import Util CombModel CombSpec CombProofs SimpModel SimpSpec SimpProofs SimpProps BdryModel BdrySpec SubdModel OrientProofs LevelProofs LoopTransfer.
From Verif Require Import CubeModel CubeSpec CubeBits CubeBd CubeRel CubeLevel CubeTop CubeChain COrModel COrSpec COrProofs FixProofs SelProofs COrProps CBdProofs CDomModel CDomBits CDomProofs CDomTop CDomSub CDomOrient CDomSpec CDomTrans CDomPairs CDomInherit.
Import ListNotations.
Local Open Scope nat_scope.

Lemma subdivide_setup : forall row_leb n rows t, 1 <= n -> cubes_ok n rows -> from_cubes row_leb true n rows = Ok t ->
  ctop n rows t /\ (forall k, 1 <= k < n -> faces_match k n rows) /\
  exists s ms, ctop n (fines n rows t) s /\ from_cubes row_leb true n (fines n rows t) = Ok s /\ n_elements s 0 = offset t (S n) /\
    subdivide_cubical row_leb t = Ok (s, subdivide_cubical_transfers t s, ms) /\
    length ms = S n /\ forall k, k <= n -> nrows (nth k ms (mkCoo 0 0 [])) = n_elements s k /\ ncols (nth k ms (mkCoo 0 0 [])) = n_elements t k /\
    forall r i, entry (nth k ms (mkCoo 0 0 [])) r i = if existsb (Nat.eqb r) (hits t s k) && (topp t s k r =? i) then 1%Z else 0%Z.
Proof.
  intros row_leb n rows t Hn OK H. destruct (from_cubes_ctop _ _ _ _ Hn OK H) as (H7 & FM & _ & T). split; auto. split; auto.
  destruct (subdivided_ok n rows t Hn OK T) as (Ds & E1 & _ & _ & E2). destruct (fines_topology n rows t Hn OK T row_leb H7) as (s & E3 & Ts & N0).
  destruct (matrices_ok n rows t s Hn OK T Ts) as (ms & E4 & Lm & M). exists s, ms. split; auto. split; auto. split; auto. split; auto. unfold subdivide_cubical. rewrite E1. cbn [bind]. rewrite E2, (dim_t n rows t T), E3. cbn [bind]. cbv zeta. rewrite E4. reflexivity.
Qed.

(** C66.  Subdividing any cubical mesh the library accepts succeeds.  The result is again such a mesh; it has one vertex
    per element of the coarse mesh, and its cube number j 2^n + a is the small cube at corner [a] of coarse cube [j]:
    the corner of that small cube at the centre of a face of the coarse cube is the number of that face. *)
Theorem C66_subdivide : forall row_leb n rows t, 1 <= n -> cubes_ok n rows -> from_cubes row_leb true n rows = Ok t ->
  exists s transfers ms, subdivide_cubical row_leb t = Ok (s, transfers, ms) /\
    let cubes := nth n (elements s) [] in
    from_cubes row_leb true n cubes = Ok s /\ cubes_ok n cubes /\ length cubes = length rows * 2 ^ n /\
    length (nth 0 (elements s) []) = below t (S n) /\
    forall j a, j < length rows -> length a = n -> part t n j a (nth (j * 2 ^ n + position a) cubes []).
Proof.
  intros row_leb n rows t Hn OK H. destruct (subdivide_setup row_leb n rows t Hn OK H) as (T & FM & s & ms & Ts & Es & N0 & E & _). exists s, (subdivide_cubical_transfers t s), ms. split; auto. cbv zeta. rewrite (ct_top _ _ _ Ts). split; auto. split; [apply fines_ok; auto|]. split; [apply fines_length|]. split; [exact N0|].
  intros j a Hj La. rewrite <- ravel_position. change (j * 2 ^ n + ravel a) with (fnum n j a). rewrite (fnum_nth n rows t Hn) by auto. rewrite <- (psub_top n rows t T) by auto. apply (psub_part n rows t Hn OK T); auto. unfold n_elements. rewrite (ct_top _ _ _ T). auto.
Qed.
Print Assumptions C66_subdivide.

(** The table of faces behind it: entry (a, b) of cube [j] is the number of the face through corner [a] along the axes in [b]. *)
Theorem C66_domains : forall row_leb n rows t, 1 <= n -> cubes_ok n rows -> from_cubes row_leb true n rows = Ok t ->
  exists Ds, cubical_domains t = Ok Ds /\ length Ds = length rows /\
    forall j a b, j < length rows -> length a = n -> length b = n -> exists i,
      let k := count_occ Bool.bool_dec b true in
      nth j Ds (fun _ _ => None) a b = Some i /\ i < length (nth k (elements t) []) /\ (k = n -> i = j) /\
      forall v, In v (nth i (nth k (elements t) []) []) <->
        exists y, length y = n /\ corner (nth j rows []) y = v /\ forall x, x < n -> nth x b false = false -> nth x y false = nth x a false.
Proof.
  intros row_leb n rows t Hn OK H. destruct (from_cubes_ctop _ _ _ _ Hn OK H) as (_ & _ & _ & T). destruct (cubical_domains_ok n rows t Hn OK T) as (Ds & E & L & D). exists Ds. split; auto. split; auto. intros j a b Hj La Lb.
  exists (didx n rows t j a b). cbv zeta. assert (Ec : count_occ bool_dec b true = bit_sum b) by (clear; induction b as [|[] b IH]; auto; cbn [count_occ]; rewrite bit_sum_cons; simpl; rewrite IH; auto). rewrite Ec. split; auto. split; [apply (didx_lt n rows t Hn OK T); auto|].
  split; [intros Q; unfold didx; rewrite Q, Nat.eqb_refl; auto|]. intros v.
  assert (P : Permutation (el t (bit_sum b) (didx n rows t j a b)) (cell (nth j rows []) a b)).
  { unfold didx. destruct (Nat.eqb_spec (bit_sum b) n) as [Q|Q].
    - rewrite Q. unfold el. rewrite (ct_top _ _ _ T). destruct (row_ok' n rows OK j Hj) as [Lr _]. rewrite (cell_full n) by auto. apply Permutation_refl.
    - apply (eidx_ok n rows t Hn OK T); [rewrite <- Lb; apply bit_sum_le|]. apply cell_inside; auto. apply nth_In; auto. }
  fold (el t (bit_sum b) (didx n rows t j a b)). split.
  - intros I. apply (Permutation_in _ P) in I. apply (cell_in n) in I as (y & [Ly A] & Ey); auto. exists y. rewrite <- cget_corner. auto.
  - intros (y & Ly & Ey & A). apply (Permutation_in _ (Permutation_sym P)). apply (cell_in n); auto. exists y. rewrite cget_corner. split; auto. split; auto.
Qed.
Print Assumptions C66_domains.

(** The subdivided mesh is consistently oriented exactly when the coarse mesh is. *)
Theorem C66_orientation : forall row_leb n rows t s transfers ms, 1 <= n -> cubes_ok n rows -> from_cubes row_leb true n rows = Ok t ->
  subdivide_cubical row_leb t = Ok (s, transfers, ms) -> (consistent n rows <-> consistent n (nth n (elements s) [])).
Proof.
  intros row_leb n rows t s tr ms Hn OK H E. destruct (subdivide_setup row_leb n rows t Hn OK H) as (T & FM & s' & ms' & Ts & Es & N0 & E' & _). rewrite E' in E. injection E as <- <- <-. rewrite (ct_top _ _ _ Ts). apply fines_consistent; auto.
Qed.
Print Assumptions C66_orientation.
(** Faces keep belonging to at most two cubes, and connected meshes stay connected. *)
Theorem C66_at_most_two : forall row_leb n rows t s transfers ms, 1 <= n -> cubes_ok n rows -> from_cubes row_leb true n rows = Ok t ->
  subdivide_cubical row_leb t = Ok (s, transfers, ms) -> at_most_two n rows -> at_most_two n (nth n (elements s) []).
Proof.
  intros row_leb n rows t s tr ms Hn OK H E. destruct (subdivide_setup row_leb n rows t Hn OK H) as (T & FM & s' & ms' & Ts & Es & N0 & E' & _). rewrite E' in E. injection E as <- <- <-. rewrite (ct_top _ _ _ Ts). apply fines_at_most_two; auto.
Qed.
Print Assumptions C66_at_most_two.
Theorem C66_connected : forall row_leb n rows t s transfers ms, 1 <= n -> cubes_ok n rows -> from_cubes row_leb true n rows = Ok t ->
  subdivide_cubical row_leb t = Ok (s, transfers, ms) -> connected n rows -> connected n (nth n (elements s) []).
Proof.
  intros row_leb n rows t s tr ms Hn OK H E. destruct (subdivide_setup row_leb n rows t Hn OK H) as (T & FM & s' & ms' & Ts & Es & N0 & E' & _). rewrite E' in E. injection E as <- <- <-. rewrite (ct_top _ _ _ Ts). apply fines_connected; auto.
Qed.
Print Assumptions C66_connected.
(** The faces on the boundary are exactly the outer faces of small cubes on boundary faces of the coarse mesh. *)
Theorem C66_boundary : forall row_leb n rows t s transfers ms, 1 <= n -> cubes_ok n rows -> from_cubes row_leb true n rows = Ok t ->
  subdivide_cubical row_leb t = Ok (s, transfers, ms) ->
  forall j a i side f g, j < length rows -> length a = n -> i < n ->
    is_slice n i side (nth (j * 2 ^ n + position a) (nth n (elements s) []) []) f -> is_slice n i side (nth j rows []) g ->
    (boundary_face n (nth n (elements s) []) f <-> side = nth i a false /\ boundary_face n rows g).
Proof.
  intros row_leb n rows t s tr ms Hn OK H E. destruct (subdivide_setup row_leb n rows t Hn OK H) as (T & FM & s' & ms' & Ts & Es & N0 & E' & _). rewrite E' in E. injection E as <- <- <-. rewrite (ct_top _ _ _ Ts). intros j a i side f g Hj La Hi F G.
  rewrite <- ravel_position in F. change (j * 2 ^ n + ravel a) with (fnum n j a) in F. rewrite (fnum_nth n rows t Hn) in F by auto. apply is_slice_slice in F; auto. apply is_slice_slice in G; auto. subst f g. apply boundary_lift; auto.
Qed.
Print Assumptions C66_boundary.
(** So [is_oriented] accepts the subdivision of a consistently oriented connected mesh. *)
Theorem C66_is_oriented : forall row_leb sat n rows t s transfers ms, sat_contract sat -> 1 <= n -> cubes_ok n rows -> from_cubes row_leb true n rows = Ok t ->
  subdivide_cubical row_leb t = Ok (s, transfers, ms) -> at_most_two n rows -> connected n rows -> consistent n rows -> is_oriented sat s = Ok true.
Proof.
  intros row_leb sat n rows t s tr ms SC Hn OK H E AM CN CO. pose proof (C66_at_most_two _ _ _ _ _ _ _ Hn OK H E AM) as AM'. pose proof (C66_connected _ _ _ _ _ _ _ Hn OK H E CN) as CN'. pose proof (proj1 (C66_orientation _ _ _ _ _ _ _ Hn OK H E) CO) as CO'.
  destruct (C66_subdivide row_leb n rows t Hn OK H) as (s' & tr' & ms' & E' & F & OK' & _). rewrite E' in E. injection E as <- <- <-. eapply C64_is_oriented_complete; eauto.
Qed.
Print Assumptions C66_is_oriented.

(** C67.  The transfers of level [k] pair each k-element of the fine mesh that has a coarse vertex with the coarse k-element
    whose number it contains; fine elements are listed in increasing order, each once. *)
Definition level (k : nat) (transfers : list (list nat * list nat)) : list (nat * nat) := combine (fst (nth k transfers ([], []))) (snd (nth k transfers ([], []))).
Lemma level_eq : forall row_leb n rows t s transfers ms, 1 <= n -> cubes_ok n rows -> from_cubes row_leb true n rows = Ok t ->
  subdivide_cubical row_leb t = Ok (s, transfers, ms) -> ctop n rows t /\ ctop n (fines n rows t) s /\ from_cubes row_leb true n (fines n rows t) = Ok s /\ length transfers = S n /\
  forall k, k <= n -> nth k transfers ([], []) = (hits t s k, map (topp t s k) (hits t s k)).
Proof.
  intros row_leb n rows t s tr ms Hn OK H E. destruct (subdivide_setup row_leb n rows t Hn OK H) as (T & FM & s' & ms' & Ts & Es & N0 & E' & _). rewrite E' in E. injection E as <- <- <-. split; auto. split; auto. split; auto. rewrite (transfers_ok n rows t s' Hn OK T Ts). split; [rewrite map_length, seq_length; auto|].
  intros k Hk. rewrite nth_map_seq by lia. reflexivity.
Qed.
Lemma level_in : forall t s tr k r i, nth k tr ([], []) = (hits t s k, map (topp t s k) (hits t s k)) -> (In (r, i) (level k tr) <-> In r (hits t s k) /\ i = topp t s k r).
Proof. intros t s tr k r i E. unfold level. rewrite E. cbn [fst snd]. apply in_combine_map. Qed.
Theorem C67_transfers : forall row_leb n rows t s transfers ms, 1 <= n -> cubes_ok n rows -> from_cubes row_leb true n rows = Ok t ->
  subdivide_cubical row_leb t = Ok (s, transfers, ms) -> length transfers = S n /\
  forall k, k <= n -> let '(fs, cs) := nth k transfers ([], []) in StronglySorted lt fs /\ length fs = length cs /\
    forall r i, In (r, i) (combine fs cs) <->
      r < length (nth k (elements s) []) /\ i < length (nth k (elements t) []) /\
      let e := nth r (nth k (elements s) []) [] in In (below t k + i) e /\ exists v, In v e /\ v < length (nth 0 (elements t) []).
Proof.
  intros row_leb n rows t s tr ms Hn OK H E. destruct (level_eq _ _ _ _ _ _ _ Hn OK H E) as (T & Ts & _ & L & N). split; auto. intros k Hk. pose proof (level_in t s tr k) as LI. unfold level in LI. rewrite N in * by auto. cbn [fst snd] in LI. split; [apply hits_sorted|]. split; [rewrite map_length; auto|].
  intros r i. rewrite LI by auto. change below with offset. cbv zeta. fold (el s k r). fold (n_elements s k) (n_elements t k) (n_elements t 0). split.
  - intros [Hr ->]. pose proof Hr as Hr'. apply (hits_in n t s Hn) in Hr' as [Lr V]. split; auto. destruct (hit_part n rows t s Hn OK T Ts k r Hk Hr) as (Ht & _). split; auto. split; auto. apply (hit_label n rows t s Hn OK T Ts k r _ Hk Hr Ht). auto.
  - intros (Lr & Li & I & V). assert (Hr : In r (hits t s k)) by (apply (hits_in n t s Hn); auto). split; auto. apply (hit_label n rows t s Hn OK T Ts k r _ Hk Hr Li). auto.
Qed.
Print Assumptions C67_transfers.
(** Paired elements are, up to orientation, the parts of their coarse element, each part occurring once: coarse k-elements
    have 2^k fine ones, one per corner. *)
Theorem C67_parts : forall row_leb n rows t s transfers ms, 1 <= n -> cubes_ok n rows -> from_cubes row_leb true n rows = Ok t ->
  subdivide_cubical row_leb t = Ok (s, transfers, ms) ->
  forall k, k <= n -> let pairs := combine (fst (nth k transfers ([], []))) (snd (nth k transfers ([], []))) in
    (forall r i, In (r, i) pairs -> exists w g z, length w = k /\ part t k i w g /\ related k z g (nth r (nth k (elements s) []) [])) /\
    (forall i w, i < length (nth k (elements t) []) -> length w = k -> exists r g z, In (r, i) pairs /\ part t k i w g /\ related k z g (nth r (nth k (elements s) []) []) /\
       forall r' g' z', In (r', i) pairs -> part t k i w g' -> related k z' g' (nth r' (nth k (elements s) []) []) -> r' = r) /\
    (forall i, i < length (nth k (elements t) []) -> length (filter (fun p => snd p =? i) pairs) = 2 ^ k).
Proof.
  intros row_leb n rows t s tr ms Hn OK H E. destruct (level_eq _ _ _ _ _ _ _ Hn OK H E) as (T & Ts & _ & L & N). intros k Hk. cbv zeta. pose proof (level_in t s tr k) as LI. unfold level in LI. rewrite N in * by auto. cbn [fst snd] in *. specialize (fun r i => LI r i eq_refl). fold (n_elements t k). split; [|split].
  - intros r i I. apply LI in I as [Hr ->]. destruct (hit_part n rows t s Hn OK T Ts k r Hk Hr) as (Ht & w & z & Lw & R & _). exists w, (psub t k (topp t s k r) w), z. split; auto. split; auto. apply (psub_part n rows t Hn OK T); auto.
  - intros i w Hi Lw. destruct (hit_exists n rows t s Hn OK T Ts k i w Hk Hi Lw) as (r & z & Hr & Et & R). exists r, (psub t k i w), z. split; [apply LI; auto|]. split; [apply (psub_part n rows t Hn OK T); auto|]. split; auto.
    intros r' g' z' I' P' R'. apply LI in I' as [Hr' Et']. apply (part_unique n rows t Hn OK T) in P'; auto. subst g'. fold (el s k r') in R'.
    pose proof Hr as Hv. apply (hits_in n t s Hn) in Hv as [_ (v & Hv & Sv)]. apply (hit_unique n rows t s Hn OK T Ts k r' r Hk Hr' Hr); [congruence|]. exists v. split; auto. split; auto.
    apply (Permutation_in _ (related_perm _ _ _ _ R' (psub_length t k i w))). apply (Permutation_in _ (Permutation_sym (related_perm _ _ _ _ R (psub_length t k i w)))). auto.
  - intros i Hi. rewrite <- (hit_count n rows t s Hn OK T Ts k i Hk Hi). generalize (hits t s k) as l. induction l as [|x l IH]; auto. cbn [map combine filter snd]. destruct (topp t s k x =? i); cbn [length]; auto.
Qed.
Print Assumptions C67_parts.
(** The transfer matrices are the 0/1 matrices of these pairings, of shape fine by coarse. *)
Theorem C67_matrices : forall row_leb n rows t s transfers ms, 1 <= n -> cubes_ok n rows -> from_cubes row_leb true n rows = Ok t ->
  subdivide_cubical row_leb t = Ok (s, transfers, ms) -> length ms = S n /\
  forall k, k <= n -> let m := nth k ms (mkCoo 0 0 []) in let pairs := combine (fst (nth k transfers ([], []))) (snd (nth k transfers ([], []))) in
    nrows m = length (nth k (elements s) []) /\ ncols m = length (nth k (elements t) []) /\
    forall r i, (In (r, i) pairs -> entry m r i = 1%Z) /\ (~ In (r, i) pairs -> entry m r i = 0%Z).
Proof.
  intros row_leb n rows t s tr ms Hn OK H E. destruct (level_eq _ _ _ _ _ _ _ Hn OK H E) as (T & Ts & _ & L & N). destruct (subdivide_setup row_leb n rows t Hn OK H) as (_ & _ & s' & ms' & _ & _ & _ & E' & Lm & M). rewrite E' in E. injection E as <- <- <-. split; auto. intros k Hk. cbv zeta.
  pose proof (level_in t s' (subdivide_cubical_transfers t s') k) as LI. unfold level in LI. rewrite N in * by auto. cbn [fst snd] in *. specialize (fun r i => LI r i eq_refl). destruct (M k Hk) as (M1 & M2 & M3). split; auto. split; auto. intros r i. rewrite M3. rewrite LI. split.
  - intros [Hr ->]. rewrite Nat.eqb_refl. assert (X : existsb (Nat.eqb r) (hits t s' k) = true) by (apply existsb_exists; exists r; split; auto; apply Nat.eqb_refl). rewrite X. auto.
  - intros Q. destruct (existsb (Nat.eqb r) (hits t s' k)) eqn:X; auto. cbn [andb]. destruct (Nat.eqb_spec (topp t s' k r) i) as [D|]; auto. exfalso. apply Q. split; auto. apply existsb_exists in X as (x & Hx & Ex). apply Nat.eqb_eq in Ex. subst x. auto.
Qed.
Print Assumptions C67_matrices.

(** C68, the full statement: the fine element of each pair has the orientation of the coarse element it is part of. *)
Definition inherits (k : nat) (t s : topology) (transfers : list (list nat * list nat)) : Prop :=
  forall r i, In (r, i) (combine (fst (nth k transfers ([], []))) (snd (nth k transfers ([], [])))) ->
    exists w g, length w = k /\ part t k i w g /\ related k 1 g (nth r (nth k (elements s) []) []).
(** It holds of vertices, faces of highest dimension and cubes (so of all elements up to two dimensions); missing are the
    dimensions between. *)
Theorem C68_inherit_partial : forall row_leb n rows t s transfers ms, 1 <= n -> cubes_ok n rows -> from_cubes row_leb true n rows = Ok t ->
  subdivide_cubical row_leb t = Ok (s, transfers, ms) -> forall k, k = 0 \/ k = n - 1 \/ k = n -> inherits k t s transfers.
Proof.
  intros row_leb n rows t s tr ms Hn OK H E k Hk r i I. destruct (level_eq _ _ _ _ _ _ _ Hn OK H E) as (T & Ts & Es & L & N). assert (Hk' : k <= n) by lia.
  apply (level_in t s tr k r i (N k Hk')) in I as [Hr ->]. destruct (hit_part n rows t s Hn OK T Ts k r Hk' Hr) as (Ht & _).
  assert (X : exists w, length w = k /\ el s k r = psub t k (topp t s k r) w).
  { destruct (Nat.eq_dec k 0) as [->|]; [apply (inherit_vertices n rows t s Hn OK T Ts); auto|]. destruct (Nat.eq_dec k n) as [->|]; [apply (inherit_top n rows t s Hn OK T Ts); auto|]. assert (k = n - 1) by lia. subst k. apply (inherit_faces row_leb n rows t s Hn OK T Ts H Es); auto. lia. }
  destruct X as (w & Lw & Ee). exists w, (psub t k (topp t s k r) w). split; auto. split; [apply (psub_part n rows t Hn OK T); auto|]. fold (el s k r). rewrite Ee. constructor.
Qed.
Print Assumptions C68_inherit_partial.
(** It is false of the edges of three-dimensional meshes: a single cube suffices. *)
Definition twisted : list cube := [[0;1;2;7;4;5;6;3]].
Definition get {A} (d : A) (r : result A) : A := match r with Ok x => x | Err _ => d end.
Theorem C68_inherit_refuted : ~ (forall row_leb n rows t s transfers ms, 1 <= n -> cubes_ok n rows -> from_cubes row_leb true n rows = Ok t ->
  subdivide_cubical row_leb t = Ok (s, transfers, ms) -> forall k, k <= n -> inherits k t s transfers).
Proof.
  intros A. assert (OK : cubes_ok 3 twisted) by (apply okb_ok; reflexivity). assert (L3 : 1 <= 3) by lia.
  destruct (from_cubes lex_leb true 3 twisted) as [t|] eqn:Et; [|vm_compute in Et; discriminate].
  destruct (subdivide_cubical lex_leb t) as [[[s tr] ms]|] eqn:Es; [|destruct (C66_subdivide lex_leb 3 twisted t L3 OK Et) as (s & tr & ms & E & _); congruence].
  pose (run := bind (from_cubes lex_leb true 3 twisted) (fun t => bind (subdivide_cubical lex_leb t) (fun q => Ok (t, q)))).
  assert (Er : run = Ok (t, (s, tr, ms))) by (unfold run; rewrite Et; cbn [bind]; rewrite Es; reflexivity).
  pose (test := fun q : topology * (topology * list (list nat * list nat) * list coo) => let '(t, (s, tr, _)) := q in
    existsb (fun p => (fst p =? 3) && (snd p =? 0)) (combine (fst (nth 1 tr ([], []))) (snd (nth 1 tr ([], [])))) && (0 <? n_elements t 1) &&
    (csign 1 (psub t 1 0 [true]) (el s 1 3) =? -1)%Z && (csign 1 (psub t 1 0 [false]) (el s 1 3) =? 0)%Z &&
    forallb (fun w => negb (nth 0 (psub t 1 0 w) 0 =? nth 1 (psub t 1 0 w) 0)) [[true]; [false]]).
  assert (V : match run with Ok q => test q | Err _ => false end = true) by (vm_compute; reflexivity). rewrite Er in V. unfold test in V. clear Er run test.
  repeat (apply andb_prop in V as [V ?]). apply existsb_exists in V as ([r i] & V1 & V2). cbn [fst snd] in V2. apply andb_prop in V2 as [V2 V3]. apply Nat.eqb_eq in V2. apply Nat.eqb_eq in V3. subst r i.
  destruct (A lex_leb 3 twisted t s tr ms L3 OK Et Es 1 ltac:(lia) 3 0 V1) as (w & g & Lw & P & R). destruct (from_cubes_ctop lex_leb 3 twisted t L3 OK Et) as (_ & _ & _ & T).
  assert (N1 : 0 < n_elements t 1) by (apply Nat.ltb_lt; auto). apply (part_unique 3 twisted t L3 OK T 1 0 w g ltac:(lia) N1 Lw) in P. subst g.
  assert (ND : NoDup (psub t 1 0 w)).
  { pose proof (psub_length t 1 0 w) as L. destruct (psub t 1 0 w) as [|x [|y [|]]] eqn:Q; cbn [length Nat.pow] in L; try (simpl in L; lia). constructor; [|constructor; [intros []|constructor]]. intros [D|[]]. subst y.
    match goal with F : forallb _ _ = true |- _ => rewrite forallb_forall in F; specialize (F w) end. rewrite Q in *. cbn [nth] in *. rewrite Nat.eqb_refl in *. cbn [negb] in *.
    destruct w as [|[] [|]]; try discriminate Lw; match goal with F : In _ _ -> _ |- _ => discriminate F; simpl; auto end. }
  apply related_csign in R; [|exact ND|apply psub_length]. fold (el s 1 3) in R. destruct w as [|[] [|]]; try discriminate Lw; rewrite R in *; discriminate.
Qed.
Print Assumptions C68_inherit_refuted.


(** Two quadrilaterals with a common edge satisfy the hypotheses of all these theorems. *)
Definition pair2 : list cube := [[0;1;3;4]; [1;2;4;5]].
Example C66_example : sat_contract brute_sat /\ cubes_ok 2 pair2 /\ at_most_two 2 pair2 /\ connected 2 pair2 /\ consistent 2 pair2 /\
  exists t s transfers ms, from_cubes lex_leb true 2 pair2 = Ok t /\ subdivide_cubical lex_leb t = Ok (s, transfers, ms) /\
    nth 1 (elements t) [] = [[0;1]; [3;0]; [1;2]; [1;4]; [2;5]; [4;3]; [5;4]] /\
    nth 2 (elements s) [] = [[0;6;7;13]; [6;1;13;9]; [7;13;3;11]; [13;9;11;4]; [1;8;9;14]; [8;2;14;10]; [9;14;4;12]; [14;10;12;5]] /\
    n_elements s 0 = 15 /\ n_elements s 1 = 22 /\ is_oriented brute_sat s = Ok true /\
    nth 1 transfers ([], []) = (seq 0 14, [0; 1; 0; 2; 3; 2; 4; 1; 5; 3; 5; 6; 4; 6]) /\
    nth 1 ms (mkCoo 0 0 []) = mkCoo 22 7 (map (fun rc => (fst rc, snd rc, 1%Z)) (combine (seq 0 14) [0; 1; 0; 2; 3; 2; 4; 1; 5; 3; 5; 6; 4; 6])).
Proof.
  assert (OK : cubes_ok 2 pair2) by (apply okb_ok; reflexivity). split; [apply brute_sat_contract|]. split; auto.
  assert (AM : at_most_two 2 pair2) by (apply two_cubesb_ok; auto; vm_compute; reflexivity). split; auto.
  assert (CN : connected 2 pair2) by (intros [|[|j]] Hj; simpl in Hj; try lia; [constructor|]; apply linked_step with 0; [constructor|]; apply adjb_ok; simpl; auto; lia). split; auto.
  assert (CO : consistent 2 pair2) by (apply consistentb_ok; auto; vm_compute; reflexivity). split; auto.
  destruct (from_cubes lex_leb true 2 pair2) as [t|] eqn:Et; [|vm_compute in Et; discriminate]. destruct (C66_subdivide lex_leb 2 pair2 t ltac:(lia) OK Et) as (s & tr & ms & E & _). exists t, s, tr, ms. split; auto. split; auto.
  assert (L2 : 1 <= 2) by lia. assert (O : is_oriented brute_sat s = Ok true) by (exact (C66_is_oriented lex_leb brute_sat 2 pair2 t s tr ms brute_sat_contract L2 OK Et E AM CN CO)).
  assert (Er : bind (from_cubes lex_leb true 2 pair2) (fun t => bind (subdivide_cubical lex_leb t) (fun q => Ok (t, q))) = Ok (t, (s, tr, ms))) by (rewrite Et; cbn [bind]; rewrite E; reflexivity).
  vm_compute in Er. injection Er as <- <- <- <-. repeat split; auto.
Qed.
(** In three dimensions: a block of two cubes; 16 small cubes, and 40 of the small edges are halves of the 20 coarse ones. *)
Example C67_example : cubes_ok 3 blocks /\ exists t s transfers ms, from_cubes lex_leb true 3 blocks = Ok t /\ subdivide_cubical lex_leb t = Ok (s, transfers, ms) /\
  n_elements s 3 = 16 /\ n_elements t 1 = 20 /\ length (fst (nth 1 transfers ([], []))) = 40 /\ n_elements t 2 = 11 /\ length (fst (nth 2 transfers ([], []))) = 44.
Proof.
  assert (OK : cubes_ok 3 blocks) by (apply okb_ok; reflexivity). split; auto.
  destruct (from_cubes lex_leb true 3 blocks) as [t|] eqn:Et; [|vm_compute in Et; discriminate]. destruct (C66_subdivide lex_leb 3 blocks t ltac:(lia) OK Et) as (s & tr & ms & E & _). exists t, s, tr, ms. split; auto. split; auto.
  assert (Er : bind (from_cubes lex_leb true 3 blocks) (fun t => bind (subdivide_cubical lex_leb t) (fun q => let '(s, tr, _) := q in Ok (n_elements s 3, n_elements t 1, length (fst (nth 1 tr ([], []))), n_elements t 2, length (fst (nth 2 tr ([], []))))))
    = Ok (n_elements s 3, n_elements t 1, length (fst (nth 1 tr ([], []))), n_elements t 2, length (fst (nth 2 tr ([], []))))) by (rewrite Et; cbn [bind]; rewrite E; reflexivity).
  match type of Er with _ = Ok ?q => set (Q := q) in Er end. assert (W : Q = (16, 20, 40, 11, 44)).
  { clearbody Q. match type of Er with ?l = _ => assert (V : l = Ok (16, 20, 40, 11, 44)) by (vm_compute; reflexivity) end. rewrite V in Er. injection Er as <-. reflexivity. }
  unfold Q in W. injection W as -> -> -> -> ->. auto.
Qed.
