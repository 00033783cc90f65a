(** Cubical topologies: boundary of a cube, chain complexes, products, regular grids. *)
Require Import List Arith ZArith Bool Lia Permutation.
From Verif Require Import Util CombModel CombSpec CombProofs SimpModel SimpSpec ParProofs SimpProofs LevelProofs TopProofs SimpProps CubeModel CubeSpec CubeBits CubeBd CubeRel CubeLevel CubeTop CubeChain CubeProd CubeGrid.
Import ListNotations.
Local Open Scope nat_scope.

(** ---- C26: oriented cube boundary ---- *)
(** The degree 1 boundary lists the two sides of each axis; the side [s] of axis [a] is mirrored along its last
    axis exactly when a + s is odd. *)
Theorem C26_faces : forall n c, 2 <= n -> length c = 2 ^ n ->
  length (generate_cube_boundary n 1 true c) = n /\
  forall a, a < n -> exists f0 f1, nth a (generate_cube_boundary n 1 true c) [] = [f0; f1] /\
    forall (s : bool), exists g, is_slice n a s c g /\
      let f := if s then f1 else f0 in
      if Nat.odd (a + (if s then 1 else 0)) then mirrored (n - 1) (n - 2) g f else f = g.
Proof.
  intros n c Hn L. rewrite generate_1 by auto. split; [rewrite map_length, seq_length; auto|]. intros a Ha. rewrite (nth_map_seq _ (fun a => map (fun s => gface n a s c) sides)) by auto. exists (gface n a false c), (gface n a true c). split; [reflexivity|].
  intros s. exists (slice n a s c). split; [apply slice_is_slice; auto|]. assert (E : Nat.odd (a + (if s then 1 else 0)) = xorb (Nat.odd a) s) by (rewrite Nat.odd_add; destruct s; auto).
  rewrite E. cbv zeta. replace (if s then gface n a true c else gface n a false c) with (gface n a s c) by (destruct s; auto). unfold gface. destruct (xorb _ s); auto. apply flip_mirrored. lia.
Qed.
Print Assumptions C26_faces.

Lemma sum_faces : forall n f c, 2 <= n -> length c = 2 ^ n -> cube_antisymmetric (n - 1) f -> sumZ (map f (concat (generate_cube_boundary n 1 true c))) = cbd n f c.
Proof.
  intros n f c Hn L Hf. rewrite generate_1 by auto. rewrite <- flat_map_concat_map. unfold cbd.
  assert (G : forall l, sumZ (map f (flat_map (fun a => map (fun s => gface n a s c) sides) l)) = sumZ (map (fun a => sumZ (map (fun s => (sgn_pow (a + nat_of s) * f (slice n a s c))%Z) sides)) l)).
  { induction l as [|a l IH]; auto. cbn [flat_map]. rewrite map_app, sumZ_app, IH. cbn [map sumZ fold_right]. f_equal. unfold sides. cbn [map sumZ fold_right]. rewrite !gface_sign by auto. auto. }
  apply G.
Qed.
(** Summed over the faces of the faces, every quantity that changes sign with the orientation vanishes. *)
Theorem C26_boundary_of_boundary : forall n c f, 3 <= n -> length c = 2 ^ n -> cube_antisymmetric (n - 2) f ->
  sumZ (map (fun g => sumZ (map f (concat (generate_cube_boundary (n - 1) 1 true g)))) (concat (generate_cube_boundary n 1 true c))) = 0%Z.
Proof.
  intros n c f Hn L Hf. assert (Hf' : cube_antisymmetric (n - 1 - 1) f) by (replace (n - 1 - 1) with (n - 2) by lia; auto).
  transitivity (sumZ (map (cbd (n - 1) f) (concat (generate_cube_boundary n 1 true c)))).
  - apply sumZ_map_ext. intros g Hg. apply sum_faces; [lia| |auto]. rewrite generate_1 in Hg by (auto; lia). apply in_concat in Hg as (l & Hl & Hg). apply in_map_iff in Hl as (a & <- & _). apply in_map_iff in Hg as (s & <- & _). apply gface_length.
  - rewrite sum_faces; [apply cbd_cbd|lia|auto|apply cbd_antisym; auto].
Qed.
Print Assumptions C26_boundary_of_boundary.
(** The edges of a square form a cycle: summed over the edges, every difference of vertex values vanishes. *)
Theorem C26_square_boundary : forall c (f : nat -> Z), length c = 4 ->
  sumZ (map (fun e => (f (corner e [true]) - f (corner e [false]))%Z) (concat (generate_cube_boundary 2 1 true c))) = 0%Z.
Proof.
  intros c f L. destruct c as [|v0 [|v1 [|v2 [|v3 [|]]]]]; try discriminate. vm_compute generate_cube_boundary. unfold corner, position. cbn [concat app map sumZ fold_right fold_left nth Nat.mul Nat.add]. ring.
Qed.
Print Assumptions C26_square_boundary.

Definition cube8 : cube := [0; 1; 2; 3; 4; 5; 6; 7].
Example C26_faces_example : generate_cube_boundary 3 1 true cube8 =
  [[[0; 1; 2; 3]; [5; 4; 7; 6]]; [[1; 0; 5; 4]; [2; 3; 6; 7]]; [[0; 2; 4; 6]; [3; 1; 7; 5]]].
Proof. vm_compute. reflexivity. Qed.
(** For edges, the difference of the end points is such a quantity. *)
Example C26_boundary_example :
  let f := fun e => (Z.of_nat (corner e [true]) * Z.of_nat (corner e [true]) - Z.of_nat (corner e [false]) * Z.of_nat (corner e [false]))%Z in
  cube_antisymmetric 1 f /\ map (fun g => sumZ (map f (concat (generate_cube_boundary 2 1 true g)))) (concat (generate_cube_boundary 3 1 true cube8)) = [0; 0; 0; 0; 0; 0]%Z /\
  (exists g : list nat -> Z, cube_antisymmetric 1 g /\ map (fun q => sumZ (map g (concat (generate_cube_boundary 2 1 true q)))) (concat (generate_cube_boundary 3 1 true cube8)) <> [0; 0; 0; 0; 0; 0]%Z).
Proof.
  split; [|split].
  - intros a c d L. split; [|lia]. intros Ha [Ld M]. assert (a = 0) by lia. subst a. rewrite (M [true]), (M [false]) by auto. cbn [reversed firstn skipn nth app negb]. ring.
  - vm_compute. reflexivity.
  - exists (fun e => if list_eq_dec Nat.eq_dec e [0; 1] then 1%Z else if list_eq_dec Nat.eq_dec e [1; 0] then (-1)%Z else 0%Z). split; [|vm_compute; congruence].
    intros a c d L. split; [|lia]. intros Ha [Ld M]. assert (a = 0) by lia. subst a. destruct c as [|x [|y [|]]], d as [|x' [|y' [|]]]; try discriminate. pose proof (M [true] eq_refl) as M1. pose proof (M [false] eq_refl) as M2. cbn in M1, M2. subst x' y'.
    repeat match goal with |- context [list_eq_dec ?D ?a ?b] => destruct (list_eq_dec D a b) end; first [reflexivity|exfalso; congruence].
Qed.

(** ---- C27: cubical topologies ---- *)
Theorem C27_chain : forall row_leb n rows t, 1 <= n -> cubes_ok n rows -> from_cubes row_leb true n rows = Ok t ->
  forall k i j, S k < n -> product_entry (matrix t k) (matrix t (S k)) i j = 0%Z.
Proof. intros row_leb n rows t Hn OK H k i j Hk. destruct (from_cubes_ctop _ _ _ _ Hn OK H) as (_ & _ & _ & T). apply (c_chain_zero n rows t Hn T). auto. Qed.
Print Assumptions C27_chain.

(** Which arrays are accepted: dimension at most 7 (2^n corners must fit the assertion on int8 parities), all
    labels 0 .. m-1 in use, and faces with equal corners equal up to mirroring and exchanging axes. *)
Theorem C27_accepts_iff : forall row_leb n rows, 1 <= n -> cubes_ok n rows ->
  ((exists t, from_cubes row_leb true n rows = Ok t) <->
     n <= 7 /\ (forall k, 1 <= k < n -> faces_match k n rows) /\ (exists m, forall v, In v (concat rows) <-> v < m)) /\
  (forall e, from_cubes row_leb true n rows = Err e -> e = if n <=? 7 then ValueError else AssertionError).
Proof.
  intros row_leb n rows Hn OK. destruct (from_cubes_cases row_leb n rows Hn OK) as (H1 & H2 & H3). split.
  - split; [intros [t H]; destruct (from_cubes_ctop _ _ _ _ Hn OK H) as (A & B & C & _); auto|]. intros (A & B & C). destruct (H1 A B C) as (t & E & _). eauto.
  - intros e He. destruct (Nat.leb_spec n 7) as [Q|Q].
    + assert (NC : ~ ((forall k, 1 <= k < n -> faces_match k n rows) /\ (exists m, forall v, In v (concat rows) <-> v < m))). { intros [B C]. destruct (H1 Q B C) as (t & E & _). congruence. }
      rewrite H2 in He by auto. congruence.
    + rewrite H3 in He by lia. congruence.
Qed.
Print Assumptions C27_accepts_iff.

(** The elements are, up to mirroring and exchanging axes, exactly the faces of the given cubes, each once, and
    entry (i, j) of matrix k says on which side of which axis of element j of dimension k+1 element i lies, and with
    which orientation. *)
Theorem C27_elements : forall row_leb n rows t, 1 <= n -> cubes_ok n rows -> from_cubes row_leb true n rows = Ok t ->
  nth n (elements t) [] = rows /\
  (forall k, k <= n ->
    (forall i, i < n_elements t k -> exists c g z, In c rows /\ subcube k n c g /\ related k z g (nth i (nth k (elements t) []) [])) /\
    (forall c g, In c rows -> subcube k n c g -> exists i z, i < n_elements t k /\ related k z g (nth i (nth k (elements t) []) []))) /\
  (forall k i j, k < n -> i < n_elements t k -> j < n_elements t k ->
    Permutation (nth i (nth k (elements t) []) []) (nth j (nth k (elements t) []) []) -> i = j).
Proof.
  intros row_leb n rows t Hn OK H. destruct (from_cubes_ctop _ _ _ _ Hn OK H) as (_ & _ & _ & T). split; [apply T|]. split.
  - intros k Hk. apply (c_listed n rows t Hn T (n - k) k). lia.
  - intros k i j Hk. apply (c_distinct n rows t T k i j); auto. lia.
Qed.
Print Assumptions C27_elements.
Theorem C27_entries : forall row_leb n rows t, 1 <= n -> cubes_ok n rows -> from_cubes row_leb true n rows = Ok t ->
  forall k i j, k < n -> i < n_elements t k -> j < n_elements t (S k) ->
  let face := nth i (nth k (elements t) []) [] in
  let cell := nth j (nth (S k) (elements t) []) [] in
  (forall a (s : bool) g z, a <= k -> is_slice (S k) a s cell g -> related k z g face ->
     entry (matrix t k) i j = (if Nat.odd (a + (if s then 1 else 0)) then z else - z)%Z) /\
  ((forall a (s : bool) g z, a <= k -> is_slice (S k) a s cell g -> ~ related k z g face) -> entry (matrix t k) i j = 0%Z).
Proof.
  intros row_leb n rows t Hn OK H k i j Hk Hi Hj face cell. destruct (from_cubes_ctop _ _ _ _ Hn OK H) as (_ & _ & _ & T).
  assert (Hc : length cell = 2 ^ S k /\ NoDup cell) by (apply (c_len n rows t Hn T); [lia|apply nth_In; auto]). destruct Hc as [Lc NDc].
  pose proof (c_matrix_entry n rows t Hn T k i j Hk Hi) as E. rewrite (proj2 (Nat.ltb_lt j _) Hj) in E. fold face cell in E. split.
  - intros a s g z Ha Hg R. apply is_slice_slice in Hg; [|lia]. subst g. rewrite E. rewrite (incn_value (S k) cell face a s z); auto; [|lia|replace (S k - 1) with k by lia; auto]. rewrite sgn_odd. change (if s then 1 else 0) with (nat_of s). destruct (Nat.odd _); ring.
  - intros Q. rewrite E. rewrite (incn_zero n Hn (S k) cell face); auto. intros a s z Ha R. replace (S k - 1) with k in R by lia. refine (Q a s (slice (S k) a s cell) z _ _ R); [lia|]. apply slice_is_slice. auto.
Qed.
Print Assumptions C27_entries.

(** Two cubes that share a square which the second one lists rotated and mirrored. *)
Definition two_cubes : list cube := [[0; 1; 2; 3; 4; 5; 6; 7]; [4; 9; 5; 8; 6; 11; 7; 10]].
Example C27_example : cubes_ok 3 two_cubes /\ exists t, from_cubes lex_leb true 3 two_cubes = Ok t /\ map (n_elements t) [0; 1; 2; 3] = [12; 20; 11; 2] /\
  map (fun i => (entry (matrix t 2) i 0 + entry (matrix t 2) i 1)%Z) (seq 0 11) = [-1; -1; -1; -1; -1; 0; -1; -1; -1; -1; -1]%Z.
Proof. split; [split; [discriminate|repeat constructor; simpl; intuition congruence]|]. eexists. split; [vm_compute; reflexivity|]. vm_compute. auto. Qed.
Example C27_reject_example : cubes_ok 3 [[0; 1; 2; 3; 4; 5; 6; 7]; [4; 5; 7; 6; 8; 9; 10; 11]] /\ from_cubes lex_leb true 3 [[0; 1; 2; 3; 4; 5; 6; 7]; [4; 5; 7; 6; 8; 9; 10; 11]] = Err ValueError.
Proof. split; [split; [discriminate|repeat constructor; simpl; intuition congruence]|]. vm_compute. reflexivity. Qed.
(** Without mirroring the chain property is lost already for one square. *)
Example C27_unoriented : exists t, from_cubes lex_leb false 2 [[0; 1; 2; 3]] = Ok t /\ exists i, product_entry (matrix t 0) (matrix t 1) i 0 <> 0%Z.
Proof. eexists. split; [vm_compute; reflexivity|]. exists 0. vm_compute. discriminate. Qed.

(** ---- C28: products ---- *)
Theorem C28_product : forall leb1 leb2 row_leb n1 n2 rows1 rows2 t1 t2, 1 <= n1 -> 1 <= n2 -> cubes_ok n1 rows1 -> cubes_ok n2 rows2 ->
  from_cubes leb1 true n1 rows1 = Ok t1 -> from_cubes leb2 true n2 rows2 = Ok t2 ->
  let N := n_elements t1 0 in let M := n_elements t2 0 in
  let P := product_cubes n1 n2 N (nth n1 (elements t1) []) (nth n2 (elements t2) []) in
  length P = length rows1 * length rows2 /\
  (forall i j b b', i < length rows1 -> j < length rows2 -> length b = n1 -> length b' = n2 ->
     corner (nth (i * length rows2 + j) P []) (b ++ b') = corner (nth i rows1 []) b + corner (nth j rows2 []) b' * N) /\
  (forall u v u' v', u < N -> v < M -> u' < N -> v' < M -> u + v * N = u' + v' * N -> u = u' /\ v = v') /\
  (forall l, In l (concat P) <-> l < N * M) /\
  (forall t, product row_leb n1 n2 t1 t2 = Ok t -> n_elements t 0 = N * M /\ nth (n1 + n2) (elements t) [] = P).
Proof.
  intros leb1 leb2 row_leb n1 n2 rows1 rows2 t1 t2 Hn1 Hn2 OK1 OK2 H1 H2 N M P. destruct (from_cubes_ctop _ _ _ _ Hn1 OK1 H1) as (_ & _ & _ & T1). destruct (from_cubes_ctop _ _ _ _ Hn2 OK2 H2) as (_ & _ & _ & T2).
  unfold P. rewrite (ct_top _ _ _ T1), (ct_top _ _ _ T2). destruct OK1 as [NE1 F1], OK2 as [NE2 F2]. pose proof (ct_vused _ _ _ T1) as V1. pose proof (ct_vused _ _ _ T2) as V2.
  assert (PV : forall l, In l (concat (product_cubes n1 n2 N rows1 rows2)) <-> l < N * M) by (apply (prod_verts n1 n2 N M rows1 rows2); auto).
  split; [apply prod_length|]. split; [apply prod_corner|]. split; [intros u v u' v' Hu Hv Hu' Hv'; apply pair_inj; auto|]. split; [exact PV|].
  intros t H. unfold product in H. rewrite (ct_top _ _ _ T1), (ct_top _ _ _ T2) in H. fold N in H.
  assert (OK : cubes_ok (n1 + n2) (product_cubes n1 n2 N rows1 rows2)) by (apply (prod_cubes_ok n1 n2 N (n_elements t2 0) rows1 rows2); auto).
  destruct (from_cubes_ctop row_leb (n1 + n2) _ t ltac:(lia) OK H) as (_ & _ & _ & T). split; [|apply T]. pose proof (ct_vused _ _ _ T) as V.
  destruct (Nat.lt_trichotomy (n_elements t 0) (N * M)) as [Q|[Q|Q]]; auto; exfalso; [apply PV, V in Q|apply V, PV in Q]; lia.
Qed.
Print Assumptions C28_product.

(** Positions attached to the vertices of the product. *)
Theorem C28_positions : forall P (p1 p2 : list (list P)) d,
  length (product_vertices p1 p2) = length p1 * length p2 /\
  forall u v, u < length p1 -> v < length p2 -> nth (u + v * length p1) (product_vertices p1 p2) d = nth u p1 d ++ nth v p2 d.
Proof. intros. split; [apply product_vertices_length|]. intros. apply product_vertices_nth; auto. Qed.
Print Assumptions C28_positions.

(** The product is accepted when its dimension is at most 7 and no factor has two cells with the same corners that
    are different as cubes. *)
Theorem C28_accepted : forall leb1 leb2 row_leb n1 n2 rows1 rows2 t1 t2, 1 <= n1 -> 1 <= n2 -> cubes_ok n1 rows1 -> cubes_ok n2 rows2 ->
  from_cubes leb1 true n1 rows1 = Ok t1 -> from_cubes leb2 true n2 rows2 = Ok t2 ->
  faces_match n1 n1 rows1 -> faces_match n2 n2 rows2 -> n1 + n2 <= 7 ->
  exists t, product row_leb n1 n2 t1 t2 = Ok t.
Proof.
  intros leb1 leb2 row_leb n1 n2 rows1 rows2 t1 t2 Hn1 Hn2 OK1 OK2 H1 H2 C1 C2 H7. destruct (from_cubes_ctop _ _ _ _ Hn1 OK1 H1) as (_ & D1 & _ & T1). destruct (from_cubes_ctop _ _ _ _ Hn2 OK2 H2) as (_ & D2 & _ & T2).
  unfold product. rewrite (ct_top _ _ _ T1), (ct_top _ _ _ T2). set (N := n_elements t1 0). destruct OK1 as [NE1 F1], OK2 as [NE2 F2]. pose proof (ct_vused _ _ _ T1) as V1. pose proof (ct_vused _ _ _ T2) as V2.
  assert (A1 : forall k, k <= n1 -> faces_match k n1 rows1). { intros k Hk. destruct (Nat.eq_dec k 0) as [->|]; [apply comp0; auto|]. destruct (Nat.eq_dec k n1) as [->|]; auto. apply D1. lia. }
  assert (A2 : forall k, k <= n2 -> faces_match k n2 rows2). { intros k Hk. destruct (Nat.eq_dec k 0) as [->|]; [apply comp0; auto|]. destruct (Nat.eq_dec k n2) as [->|]; auto. apply D2. lia. }
  assert (PI : forall u v u' v', In u (concat rows1) -> In u' (concat rows1) -> In v (concat rows2) -> In v' (concat rows2) -> plab N u v = plab N u' v' -> u = u' /\ v = v') by (apply (plab_inj N rows1 rows2); auto).
  assert (OK : cubes_ok (n1 + n2) (product_cubes n1 n2 N rows1 rows2)) by (apply (prod_cubes_ok n1 n2 N (n_elements t2 0) rows1 rows2); auto).
  destruct (from_cubes_cases row_leb (n1 + n2) _ ltac:(lia) OK) as (Q & _). destruct Q as (t & E & _); eauto.
  - intros k Hk. apply (comp_gprod (plab N) n1 n2 rows1 rows2); auto. intros c Hc. apply (prod_in n1 n2 N rows1 rows2). auto.
  - exists (N * n_elements t2 0). apply (prod_verts n1 n2 N (n_elements t2 0) rows1 rows2); auto.
Qed.
Print Assumptions C28_accepted.

(** A path of two edges times a square. *)
Definition path2 : list cube := [[0; 1]; [2; 1]].
Definition square : list cube := [[0; 1; 2; 3]].
Example C28_example : exists t1 t2 t, cubes_ok 1 path2 /\ cubes_ok 2 square /\ from_cubes lex_leb true 1 path2 = Ok t1 /\ from_cubes lex_leb true 2 square = Ok t2 /\
  product lex_leb 1 2 t1 t2 = Ok t /\ nth 3 (elements t) [] = [[0; 3; 6; 9; 1; 4; 7; 10]; [2; 5; 8; 11; 1; 4; 7; 10]] /\ n_elements t 0 = 12 /\
  product_vertices [[10]; [11]; [12]] [[0; 0]; [0; 1]] = [[10; 0; 0]; [11; 0; 0]; [12; 0; 0]; [10; 0; 1]; [11; 0; 1]; [12; 0; 1]].
Proof.
  eexists. eexists. eexists. split; [split; [discriminate|repeat constructor; simpl; intuition congruence]|]. split; [split; [discriminate|repeat constructor; simpl; intuition congruence]|].
  split; [vm_compute; reflexivity|]. split; [vm_compute; reflexivity|]. split; [vm_compute; reflexivity|]. vm_compute. auto.
Qed.
(** Two squares over the same four corners, listed in a different cyclic order: accepted, but not their product. *)
Example C28_rejected_example : exists t1 t2, from_cubes lex_leb true 2 [[0; 1; 2; 3]; [0; 1; 3; 2]] = Ok t1 /\ from_cubes lex_leb true 1 [[0; 1]] = Ok t2 /\ product lex_leb 2 1 t1 t2 = Err ValueError.
Proof. eexists. eexists. split; [vm_compute; reflexivity|]. split; [vm_compute; reflexivity|]. vm_compute. reflexivity. Qed.

(** ---- C29: regular grids ---- *)
Theorem C29_grid : forall shape,
  length (grid_cubes shape) = size shape /\ length (grid_vertices shape) = size (map S shape) /\
  (forall x bs, within shape x -> length bs = length shape ->
     nth (corner (nth (flat shape x) (grid_cubes shape) []) bs) (grid_vertices shape) [] = moved x bs) /\
  (Forall (fun m => 1 <= m) shape -> forall v, In v (concat (grid_cubes shape)) <-> v < size (map S shape)).
Proof.
  intros shape. split; [apply grid_length|]. split; [apply multi_indices_length|]. split; [|apply grid_verts].
  intros x bs W L. rewrite grid_corner by auto. apply multi_indices_nth. apply moved_within; auto.
Qed.
Print Assumptions C29_grid.
(** Vertices and cubes are numbered without repetition, and every position occurs. *)
Theorem C29_numbering : forall shape,
  (forall x, within shape x -> flat shape x < size shape) /\
  (forall x y, within shape x -> within shape y -> flat shape x = flat shape y -> x = y) /\
  (forall i, i < size (map S shape) -> within (map S shape) (nth i (grid_vertices shape) []) /\ flat (map S shape) (nth i (grid_vertices shape) []) = i).
Proof.
  assert (I : forall shape x y, within shape x -> within shape y -> flat shape x = flat shape y -> x = y) by (intros shape x y Hx Hy E; rewrite <- (multi_indices_nth shape x Hx), <- (multi_indices_nth shape y Hy), E; auto).
  intros shape. split; [apply flat_lt|]. split; [apply I|]. intros i Hi. unfold grid_vertices. set (sh := map S shape) in *. clearbody sh. clear shape.
  assert (W : within sh (nth i (multi_indices sh) [])) by (apply multi_indices_in, nth_In; rewrite multi_indices_length; auto). split; auto.
  revert i Hi W. induction sh as [|m r IH]; intros i Hi W; [cbn in *; lia|]. cbn [size fold_right] in Hi. fold (size r) in Hi. assert (R0 : size r <> 0) by (intros E; rewrite E in Hi; lia).
  pose proof (Nat.div_mod_eq i (size r)) as D. assert (Hq : i / size r < m) by (apply Nat.div_lt_upper_bound; lia). pose proof (Nat.mod_upper_bound i (size r) R0) as Hr.
  assert (E : nth i (multi_indices (m :: r)) [] = i / size r :: nth (i mod size r) (multi_indices r) []).
  { cbn [multi_indices]. replace i with (i / size r * size r + i mod size r) at 1 by lia. rewrite (nth_flat_map_const _ _ _ _ (size r) ltac:(intros; rewrite map_length; apply multi_indices_length) _ _ 0 []) by (rewrite ?seq_length; auto). rewrite seq_nth by auto. rewrite (nth_map_lt _ _ _ _ _ []) by (rewrite multi_indices_length; auto). auto. }
  rewrite E in *. cbn [flat]. fold (size r). inversion W; subst. rewrite IH by auto. lia.
Qed.
Print Assumptions C29_numbering.
(** from_cubes accepts every grid of dimension 1 .. 7. *)
Theorem C29_accepted : forall row_leb shape, 1 <= length shape -> length shape <= 7 -> Forall (fun m => 1 <= m) shape ->
  exists t, n_cube_grid row_leb true shape = Ok t /\ n_elements t (length shape) = size shape /\ n_elements t 0 = size (map S shape).
Proof.
  intros row_leb shape L1 L7 P. destruct (grid_facts shape) as (F & _ & C). pose proof (grid_verts shape P) as V.
  assert (OK : cubes_ok (length shape) (grid_cubes shape)).
  { split; auto. intros E. apply (f_equal (@length _)) in E. rewrite grid_length in E. simpl in E. clear -E P. induction P; simpl in *; [lia|]. unfold size in *. simpl in E. nia. }
  destruct (from_cubes_cases row_leb (length shape) _ L1 OK) as (Q & _). destruct Q as (t & E & T); eauto. { intros k Hk. apply C. lia. }
  exists t. split; [exact E|]. split; [unfold n_elements; rewrite (ct_top _ _ _ T); apply grid_length|]. pose proof (ct_vused _ _ _ T) as U.
  destruct (Nat.lt_trichotomy (n_elements t 0) (size (map S shape))) as [R|[R|R]]; auto; exfalso; [apply V, U in R|apply U, V in R]; lia.
Qed.
Print Assumptions C29_accepted.
Example C29_example : within [2; 3] [1; 2] /\ flat [2; 3] [1; 2] = 5 /\ nth 5 (grid_cubes [2; 3]) [] = [6; 7; 10; 11] /\ map (fun v => nth v (grid_vertices [2; 3]) []) [6; 7; 10; 11] = [[1; 2]; [1; 3]; [2; 2]; [2; 3]] /\
  exists t, n_cube_grid lex_leb true [2; 3] = Ok t /\ map (n_elements t) [0; 1; 2] = [12; 17; 6].
Proof. split; [repeat constructor|]. split; [reflexivity|]. split; [vm_compute; reflexivity|]. split; [vm_compute; reflexivity|]. eexists. split; [vm_compute; reflexivity|]. vm_compute. auto. Qed.
