(** Properties C36 - C39. *)
Require Import List Arith ZArith Bool Lia Ring QArith Qcanon.
From Verif Require Import Util SimpProps Arr StModel GenProofs StProofs StProps OpModel OpSpec OpProofs TrProofs OpProps
  BlkModel BlkSpec BlkProofs CanProofs DiagProofs LocProofs DenseProofs.
Import ListNotations.
Local Open Scope nat_scope.

(** C36.  The product of two block operators acts as one after the other.  Full property: all operators that fit by
    shape.  Missing: what C34 excludes (diagonals that [allclose] confuses with 0 or 1, derivatives that fit only by
    shape); refuted for those below.  [J] is not empty: numpy cannot index the first column of a matrix without columns. *)
Theorem C36_block_product_partial : forall (K : cring) near0 near1 (G : signature K), sig_ok K G -> sig_closed K G ->
  near_exact K (dg_ok K G) r0 near0 -> near_exact K (dg_ok K G) r1 near1 ->
  forall A B I J L, tblock K G A I J -> tblock K G B J L -> J <> [] -> L <> [] ->
  exists C, matmul K near0 near1 A B = Ok C /\ tblock K G C I L /\
  forall x, bv K G x L -> exists y z w, vector_mul K B x = Ok y /\ vector_mul K A y = Ok z /\ vector_mul K C x = Ok w /\
    bv K G w I /\ Forall2 aeq w z.
Proof.
  intros K near0 near1 G GO GC N0 N1 A B I J L TA TB NJ NL. destruct (matmul_ok K G GO GC near0 near1 N0 N1 A B I J L TA TB NJ) as (C & E & TC & V).
  exists C. split; auto. split; auto. intros x Bx. destruct (vector_mul_ok K G GO B J L x TB NL Bx) as (y & Ey & By & Wy).
  destruct (vector_mul_ok K G GO A I J y TA NJ By) as (z & Ez & Bz & Wz). destruct (vector_mul_ok K G GO C I L x TC NL Bx) as (w & Ew & Bw & Ww).
  exists y, z, w. split; auto. split; auto. split; auto. split; auto. apply (vmul_unique K G A I y); auto. apply (V x y w); auto.
Qed.
Print Assumptions C36_block_product_partial.

(** One block on each side, with small diagonals: the product sends everything to zero. *)
Theorem C36_block_product_refuted : exists y z w, let D := [[ODiag (K := Qring) (mkArr [] (fun _ => Q2Qc (1 # 10000))) [2]]] in
  let x := [mkArr (K := Qring) [2] (fun _ => 1%Qc)] in
  vector_mul Qring D x = Ok y /\ vector_mul Qring D y = Ok z /\ (do C <- matmul Qring (allclose 0) (allclose 1) D D; vector_mul Qring C x) = Ok w /\
  map (fun a => this (aget a [0])) z = [1 # 100000000] /\ map (fun a => this (aget a [0])) w = [0 # 1].
Proof.
  eexists. eexists. eexists. cbv zeta. split; [reflexivity|]. split; [reflexivity|]. split; [vm_compute; reflexivity|]. split; vm_compute; reflexivity.
Qed.
Print Assumptions C36_block_product_refuted.

(** C37.  Full property: any number of blocks.  Proved for one and two blocks, in both directions. *)
Theorem C37_dense_round_trip_partial : forall (K : cring) (x : list (array K)), length x = 1 \/ length x = 2 ->
  exists y, from_dense K (map ashape x) (to_dense K x) = Ok y /\ Forall2 aeq y x.
Proof.
  intros K x L. destruct x as [|a [|b [|c x]]]; cbn [length] in L; try lia; unfold from_dense, to_dense; cbn [map concat fold_right removelast]; rewrite ?app_nil_r.
  - rewrite Nat.add_0_r, flatten_length, Nat.eqb_refl. cbn [np_split skipn combine mapM fst snd]. destruct (reshape_flatten K a r0) as (b & E & Eb). rewrite E. cbn [bind]. eauto.
  - rewrite app_length, !flatten_length, Nat.add_0_r, Nat.eqb_refl. cbn [np_split]. unfold slice. rewrite Nat.sub_0_r. cbn [skipn].
    rewrite <- (flatten_length K a), firstn_app, Nat.sub_diag, firstn_all, skipn_app, skipn_all, Nat.sub_diag. cbn [firstn skipn app]. rewrite app_nil_r.
    cbn [combine mapM fst snd]. destruct (reshape_flatten K a r0) as (a' & Ea & Qa). destruct (reshape_flatten K b r0) as (b' & Eb & Qb). rewrite Ea. cbn [bind]. rewrite Eb. cbn [bind]. eauto.
Qed.
Print Assumptions C37_dense_round_trip_partial.
Theorem C37_dense_inverse_partial : forall (K : cring) tmpl v y, length tmpl = 1 \/ length tmpl = 2 ->
  from_dense K tmpl v = Ok y -> map ashape y = tmpl /\ to_dense K y = v.
Proof.
  assert (RS : forall (K : cring) v s (b : array K), reshape1 K r0 v s = Ok b -> ashape b = s).
  { intros K v s b E. unfold reshape1 in E. destruct (_ =? _); [|discriminate]. injection E as <-. auto. }
  intros K tmpl v y L E. unfold from_dense in E. destruct (_ =? _); [|discriminate]. destruct tmpl as [|a [|b [|c tmpl]]]; cbn [length] in L; try lia; cbn [map removelast np_split combine mapM fst snd] in E; unfold to_dense.
  - destruct (reshape1 K r0 (skipn 0 v) a) as [a'|] eqn:Ea; [|discriminate]. cbn [bind] in E. injection E as <-. cbn [map concat]. rewrite (RS _ _ _ _ Ea).
    apply flatten_reshape in Ea. cbn [skipn] in Ea. rewrite Ea, app_nil_r. auto.
  - destruct (reshape1 K r0 (slice K v 0 (size a)) a) as [a'|] eqn:Ea; [|discriminate]. cbn [bind] in E. destruct (reshape1 K r0 (skipn (size a) v) b) as [b'|] eqn:Eb; [|discriminate].
    cbn [bind] in E. injection E as <-. cbn [map concat]. rewrite (RS _ _ _ _ Ea), (RS _ _ _ _ Eb). apply flatten_reshape in Ea. apply flatten_reshape in Eb. rewrite Ea, Eb, app_nil_r. split; auto.
    unfold slice. rewrite Nat.sub_0_r. cbn [skipn]. apply firstn_skipn.
Qed.
Print Assumptions C37_dense_inverse_partial.
(** Three or more blocks of which the first two are not empty: every input is rejected, so in particular any
    dense form of a block vector (block.py:162 passes the sizes to np.split, which expects offsets). *)
Theorem C37_three_blocks_refuted : forall (K : cring) a b c tmpl v, size a <> 0 -> size b <> 0 ->
  length v = fold_right Nat.add 0 (map size (a :: b :: c :: tmpl)) -> from_dense K (a :: b :: c :: tmpl) v = Err ValueError.
Proof.
  intros K a b c tmpl v Na Nb L. unfold from_dense. rewrite <- L, Nat.eqb_refl. cbn [map fold_right] in L.
  assert (E : exists q, removelast (map size (a :: b :: c :: tmpl)) = size a :: size b :: q) by (cbn [map removelast]; eauto). destruct E as (q & ->).
  cbn [np_split combine mapM fst snd]. unfold reshape1 at 1. unfold slice at 1. rewrite firstn_length, Nat.sub_0_r. cbn [skipn]. rewrite Nat.min_l by lia. rewrite Nat.eqb_refl. cbn [bind].
  unfold reshape1 at 1. unfold slice at 1. rewrite firstn_length, skipn_length. destruct (Nat.eqb_spec (Nat.min (size b - size a) (length v - size a)) (size b)); [lia|]. auto.
Qed.
Print Assumptions C37_three_blocks_refuted.
Example C37_example : size [1;2;2] <> 0 /\ size [2;2;2] <> 0 /\ let x := map (fun c => mkArr (K := Zring) [c;2;2] (fun i => Z.of_nat (ravel [c;2;2] i))) [1;2;1] in
  length (to_dense Zring x) = fold_right Nat.add 0 (map size (map ashape x)) /\ from_dense Zring (map ashape x) (to_dense Zring x) = Err ValueError /\
  (do y <- from_dense Zring [[1;2;2];[2;2;2]] (to_dense Zring (firstn 2 x)); Ok (map (fun a => aget a [0;1;0]) y)) = Ok [2;2]%Z.
Proof. split; [discriminate|]. split; [discriminate|]. vm_compute. auto. Qed.

(** C38.  Operators that couple a cell only to itself and to its neighbours in the same component: the checkerboard
    evaluation gives the entries on the diagonal.  Full property: all grids.  Missing: odd extents, refuted below. *)
Definition couples_neighbours {K : cring} (o : op K) (n : nat) (sp : list nat) : Prop :=
  forall c p q y, in_range (n :: sp) (c :: p) -> in_range (n :: sp) (c :: q) -> p <> q -> ~ neighbours sp p q ->
  ocall K o (aunit (n :: sp) (c :: q)) = Ok y -> aget y (c :: p) = r0.
Theorem C38_checkerboard_partial : forall (K : cring) (G : signature K), sig_ok K G -> forall o i n sp, typed K G o i i -> shp K G i = n :: sp -> 0 < n ->
  Forall (fun m => Nat.even m = true) sp -> couples_neighbours o n sp ->
  exists d, diag_block K o = Ok d /\ ashape d = n :: sp /\
  forall idx, in_range (n :: sp) idx -> exists y, ocall K o (aunit (n :: sp) idx) = Ok y /\ aget d idx = aget y idx.
Proof.
  intros K G GO o i n sp T Si Hn Ev CN. destruct (typed_good K G GO _ _ _ T) as (_ & _ & C). rewrite Si in C.
  destruct (diag_block_colour K G GO o i n sp T Si Hn) as (d & E & Sd & V).
  { intros c p q Rp Rq D Col. eapply CN; eauto. intros NB. apply (neighbours_colour sp p q); auto. { inversion Rp; auto. } { inversion Rq; auto. } }
  exists d. split; auto. split; auto. intros idx R. exists (act K o (aunit (n :: sp) idx)). split; [apply C; auto|]. apply V; auto.
Qed.
Print Assumptions C38_checkerboard_partial.

(** The normal equations of the canonical system qualify, in every dimension, on even grids. *)
Theorem C38_normal_diagonal_partial : forall (K : cring) near0 near1 (ok : K -> Prop) row_leb shape t empty (hv : nat -> K),
  (forall a b, ok a -> ok b -> ok (rmul a b)) -> near_exact K ok r0 near0 -> near_exact K ok r1 near1 ->
  stencil_topology row_leb shape true = Ok t -> Forall (fun m => Nat.even m = true) shape -> (forall n, n <= length shape -> ok (hv n)) ->
  exists A N D, canonical K near0 near1 empty hv t = Ok A /\ normal K near0 near1 A = Ok N /\ bdiagonal K N = Ok D /\ length D = S (length shape) /\
  forall i, i <= length shape -> exists row o d, nth_error N i = Some row /\ nth_error row i = Some o /\ nth_error D i = Some d /\ ashape d = st_n_elements t i /\
  forall idx, in_range (st_n_elements t i) idx -> exists y, ocall K o (aunit (st_n_elements t i) idx) = Ok y /\ aget d idx = aget y idx.
Proof.
  intros K near0 near1 ok row_leb shape t empty hv OM N0 N1 Et Ev OH. destruct (st_self _ _ _ _ Et) as (ES & EP & Ht). subst shape.
  exists (mat (S (length (st_shape t))) (cmat K t empty hv)).
  pose proof (canonical_ok K near0 near1 row_leb t EP Ht empty hv) as EA.
  destruct (normal_local K row_leb t Ht empty hv ok OM OH near0 near1 N0 N1) as (N & EN & TN & _ & LOC). exists N.
  set (G := st_sig K empty t ok) in *. assert (GO : sig_ok K G) by (eapply st_sig_ok; eauto).
  assert (LN : length N = S (length (st_shape t))) by (etransitivity; [exact (Forall2_len _ _ _ _ _ TN)|]; apply (seq_length (S (length (st_shape t))) 0)).
  assert (ENT : forall i, i <= length (st_shape t) -> exists row o, nth_error N i = Some row /\ nth_error row i = Some o /\ typed K G o i i /\ o = nth i (nth i N []) (OZero ([],[]))).
  { intros i Hi. pose proof (Forall2_nth _ _ _ N (seq 0 (S (length (st_shape t))) : list (space K G)) [] 0%nat TN i ltac:(lia)) as Ti.
    pose proof (Forall2_len _ _ _ _ _ Ti) as Li. assert (Li' : length (nth i N []) = S (length (st_shape t))) by (etransitivity; [exact Li|]; apply (seq_length (S (length (st_shape t))) 0)).
    exists (nth i N []), (nth i (nth i N []) (OZero ([],[]))). split; [apply nth_error_nth'; lia|]. split; [apply nth_error_nth'; lia|]. split; auto.
    pose proof (Forall2_nth _ _ _ _ (seq 0 (S (length (st_shape t))) : list (space K G)) (OZero ([],[])) 0%nat Ti i ltac:(lia)) as Q. cbn beta in Q.
    assert (E : nth i (seq 0 (S (length (st_shape t)))) 0 = i) by (rewrite seq_nth by lia; auto).
    change (typed K G (nth i (nth i N []) (OZero ([],[]))) (nth i (seq 0 (S (length (st_shape t)))) 0) (nth i (seq 0 (S (length (st_shape t)))) 0)) in Q. rewrite E in Q. auto. }
  destruct (mapM_seq_spec _ (fun i => match nth_error N i with
    | Some row => match nth_error row i with Some o => diag_block K o | None => Err IndexError end
    | None => Err IndexError end) (fun i d => ashape d = st_n_elements t i /\ forall idx, in_range (st_n_elements t i) idx ->
       aget d idx = aget (act K (nth i (nth i N []) (OZero ([],[]))) (aunit (st_n_elements t i) idx)) idx) 0 (S (length (st_shape t)))) as (D & ED & FD).
  { intros i Hi. destruct (ENT i ltac:(lia)) as (row & o & E1 & E2 & T & Eo). rewrite E1, E2.
    destruct (diag_block_colour K G GO o i (length (nth i (st_symbols t) [])) (st_shape t) T eq_refl) as (d & E & Sd & V).
    - pose proof (st_syms row_leb t Ht i ltac:(lia)) as [_ SY]. assert (IS : is_symbol (length (st_shape t)) i (seq 0 i)).
      { split; [|split; [apply seq_length|apply Forall_forall; intros a Ha; apply in_seq in Ha; lia]].
        generalize 0 at 1. clear. induction i as [|i IH]; intros s; constructor; auto. apply Forall_forall. intros a Ha. apply in_seq in Ha. lia. }
      apply SY in IS. destruct (nth i (st_symbols t) []); [destruct IS|simpl; lia].
    - intros c p q Rp Rq Dpq Col. rewrite Eo. apply (LOC i c p q); auto; [lia|]. split; auto. intros NB.
      apply (neighbours_colour (st_shape t) p q); auto. { inversion Rp; auto. } { inversion Rq; auto. }
    - exists d. split; auto. split; auto. intros idx R. rewrite V by auto. rewrite Eo. auto. }
  exists D. split; auto. split; auto. split; [unfold bdiagonal; rewrite LN; auto|].
  pose proof (Forall2_len _ _ _ _ _ FD) as LD. rewrite seq_length in LD. split; auto. intros i Hi. destruct (ENT i Hi) as (row & o & E1 & E2 & T & Eo).
  exists row, o, (nth i D (zeros K [])). split; auto. split; auto. split; [apply nth_error_nth'; lia|].
  pose proof (Forall2_nth _ _ _ _ _ 0 (zeros K []) FD i ltac:(rewrite seq_length; lia)) as Q. cbn beta in Q. rewrite seq_nth in Q by lia. cbn [Nat.add] in Q. destruct Q as [Sd V].
  split; auto. intros idx R. exists (act K o (aunit (st_n_elements t i) idx)). destruct (typed_good K G GO _ _ _ T) as (_ & _ & C). split; [apply C; auto|]. rewrite Eo. apply V; auto.
Qed.
Print Assumptions C38_normal_diagonal_partial.

(** The grid [3] with its Laplacian d^T d: the cells 0 and 2 are neighbours of the same colour. *)
Theorem C38_odd_refuted : forall empty : nat -> list nat -> Zring, exists t d dg y,
  stencil_topology lex_leb [3] true = Ok t /\ st_primal Zring empty t = Ok [d] /\ let L := OComp [ODual (so_transpose Zring d); ODeriv d] in couples_neighbours L 1 [3] /\ diag_block Zring L = Ok dg /\ ocall Zring L (aunit [1;3] [0;0]) = Ok y /\ aget y [0;0] = 2%Z /\ aget dg [0;0] = 1%Z.
Proof.
  intros. eexists. eexists. eexists. eexists. split; [vm_compute; reflexivity|]. split; [reflexivity|]. cbv zeta. split.
  { intros c p q y Rp Rq D NB E. exfalso. apply NB. inversion Rp as [|? ? ? ? _ R1]; subst. inversion Rq as [|? ? ? ? _ R2]; subst.
    inversion R1 as [|a ? ? ? La Z1]; subst. inversion Z1; subst. inversion R2 as [|b ? ? ? Lb Z2]; subst. inversion Z2; subst.
    exists 0. split; [simpl; lia|]. split; [intros [|k] Hk; [lia|]; destruct k; auto|].
    destruct a as [|[|[|a]]], b as [|[|[|b]]]; cbn; try lia; congruence. }
  split; [vm_compute; reflexivity|]. split; [vm_compute; reflexivity|]. split; vm_compute; reflexivity.
Qed.
Print Assumptions C38_odd_refuted.
(** On the grid [4] the hypotheses of C38 hold and the diagonal is 2 everywhere. *)
Example C38_example : exists t d dg, stencil_topology lex_leb [4] true = Ok t /\ st_primal Zring (fun _ _ => 7%Z) t = Ok [d] /\ diag_block Zring (OComp [ODual (so_transpose Zring d); ODeriv d]) = Ok dg /\ map (aget dg) (indices [1;4]) = [2;2;2;2]%Z.
Proof. eexists. eexists. eexists. split; [vm_compute; reflexivity|]. split; [reflexivity|]. split; vm_compute; reflexivity. Qed.

(** C39.  The canonical operator equals its own transpose, for every dimension, shape and scale and whatever
    [allclose] answers; hence <A x, y> = <x, A y>. *)
Theorem C39_canonical_symmetric : forall (K : cring) near0 near1 row_leb shape t empty (hv : nat -> K), stencil_topology row_leb shape true = Ok t ->
  exists A, canonical K near0 near1 empty hv t = Ok A /\ btranspose K A = Ok A /\ forall x y, Forall2 (fun a n => ashape a = st_n_elements t n) x (seq 0 (S (length shape))) -> Forall2 (fun a n => ashape a = st_n_elements t n) y (seq 0 (S (length shape))) ->
  exists ax ay, vector_mul K A x = Ok ax /\ vector_mul K A y = Ok ay /\ binner ax y = binner x ay.
Proof.
  intros K near0 near1 row_leb shape t empty hv Et. destruct (st_self _ _ _ _ Et) as (ES & EP & Ht). subst shape.
  exists (mat (S (length (st_shape t))) (cmat K t empty hv)). split; [eapply canonical_ok; eauto|]. split; [apply canonical_transpose|].
  intros x y Bx By. set (G := st_sig K empty t (fun _ => True)). assert (GO : sig_ok K G) by (eapply st_sig_ok; eauto).
  pose proof (canonical_typed K t empty hv (fun _ => True) (fun _ _ => I)) as TA. fold G in TA.
  destruct (vector_mul_ok K G GO _ _ _ x TA ltac:(discriminate) Bx) as (ax & Ex & _ & Wx). destruct (vector_mul_ok K G GO _ _ _ y TA ltac:(discriminate) By) as (ay & Ey & _ & Wy).
  exists ax, ay. split; auto. split; auto. destruct (btranspose_ok K G GO _ _ _ TA ltac:(discriminate)) as (T & ET & _ & V).
  rewrite (canonical_transpose K t empty hv) in ET. injection ET as <-. apply (V x y ax ay Bx By Wx Wy).
Qed.
Print Assumptions C39_canonical_symmetric.

(** The normal equations: <x, N x> = <A x, A x>.  Full property: all scales.  Missing: hodge products that [allclose]
    confuses with 0 or 1; refuted below. *)
Theorem C39_normal_partial : forall (K : cring) near0 near1 (ok : K -> Prop) row_leb shape t empty (hv : nat -> K),
  (forall a b, ok a -> ok b -> ok (rmul a b)) -> near_exact K ok r0 near0 -> near_exact K ok r1 near1 ->
  stencil_topology row_leb shape true = Ok t -> (forall n, n <= length shape -> ok (hv n)) ->
  exists A N, canonical K near0 near1 empty hv t = Ok A /\ normal K near0 near1 A = Ok N /\ forall x, Forall2 (fun a n => ashape a = st_n_elements t n) x (seq 0 (S (length shape))) ->
  exists ax nx, vector_mul K A x = Ok ax /\ vector_mul K N x = Ok nx /\ binner x nx = binner ax ax.
Proof.
  intros K near0 near1 ok row_leb shape t empty hv OM N0 N1 Et OH. destruct (st_self _ _ _ _ Et) as (ES & EP & Ht). subst shape.
  exists (mat (S (length (st_shape t))) (cmat K t empty hv)).
  pose proof (canonical_ok K near0 near1 row_leb t EP Ht empty hv) as EA.
  destruct (normal_local K row_leb t Ht empty hv ok OM OH near0 near1 N0 N1) as (N & EN & TN & VV & _). exists N. split; auto. split; auto.
  set (G := st_sig K empty t ok) in *. assert (GO : sig_ok K G) by (eapply st_sig_ok; eauto). intros x Bx.
  pose proof (canonical_typed K t empty hv ok OH) as TA. fold G in TA.
  destruct (vector_mul_ok K G GO _ _ _ x TA ltac:(discriminate) Bx) as (ax & Ex & Bax & Wx). destruct (vector_mul_ok K G GO _ _ _ x TN ltac:(discriminate) Bx) as (nx & En & _ & Wn).
  exists ax, nx. split; auto. split; auto. destruct (btranspose_ok K G GO _ _ _ TA ltac:(discriminate)) as (T & ET & _ & V).
  rewrite (canonical_transpose K t empty hv) in ET. injection ET as <-. symmetry. apply (V x ax ax nx Bx Bax Wx). apply (VV x nx Bx Wn ax Wx).
Qed.
Print Assumptions C39_normal_partial.

(** A 2 x 2 x 2 grid of spacing 1/100: the squared hodge of the 0-forms, 1e-12, is dropped, and the constant
    0-form x has A x <> 0 but N x = 0. *)
Definition spacing_hodge (n : nat) : Qc := nth n (map Q2Qc [1 # 1000000; 1 # 100; 100 # 1; 1000000 # 1]) 0%Qc.
Theorem C39_normal_refuted : forall empty : nat -> list nat -> Qring,
  (do t <- stencil_topology lex_leb [2;2;2] true;
   let x := map (fun n => mkArr (K := Qring) (st_n_elements t n) (fun _ => if n =? 0 then 1%Qc else 0%Qc)) [0;1;2;3] in
   do A <- canonical Qring (allclose 0) (allclose 1) empty spacing_hodge t;
   do N <- normal Qring (allclose 0) (allclose 1) A;
   do ax <- vector_mul Qring A x; do nx <- vector_mul Qring N x;
   Ok (this (@binner Qring x nx), this (@binner Qring ax ax))) = Ok (0 # 1, 1 # 125000000000).
Proof. intros. vm_compute. reflexivity. Qed.
Print Assumptions C39_normal_refuted.

(** With spacing 1 both C39 theorems apply on a 2 x 3 grid (odd extents are fine). *)
Example C39_example : near_exact Qring Qint r0 (allclose 0) /\ near_exact Qring Qint r1 (allclose 1) /\ Qint 1%Qc /\ (forall a b, Qint a -> Qint b -> Qint (@rmul Qring a b)) /\
  (do t <- stencil_topology lex_leb [2;3] true;
   let x := map (fun n => mkArr (K := Qring) (st_n_elements t n) (fun i => if n =? 1 then Q2Qc (inject_Z (Z.of_nat (fold_right Nat.add 0 i))) else 1%Qc)) [0;1;2] in
   do A <- canonical Qring (allclose 0) (allclose 1) (fun _ _ => Q2Qc (7 # 1)) (fun _ => 1%Qc) t;
   do N <- normal Qring (allclose 0) (allclose 1) A;
   do ax <- vector_mul Qring A x; do nx <- vector_mul Qring N x;
   Ok (this (@binner Qring x nx), this (@binner Qring ax ax))) = Ok (110 # 1, 110 # 1).
Proof.
  split; [apply C34_allclose_integer|]. split; [apply C34_allclose_integer|]. split; [exists 1%Z; reflexivity|]. split.
  { intros a b [x Hx] [y Hy]. exists (x * y)%Z. cbn [rmul Qring]. unfold Qcmult. cbn [this Q2Qc]. rewrite Qred_correct, Hx, Hy. rewrite inject_Z_mult. reflexivity. }
  vm_compute. reflexivity.
Qed.
(** C36 with A = B the canonical operator of that grid: typed, and the product above is the one of the theorem. *)
Example C36_example : exists t A, stencil_topology lex_leb [2;3] true = Ok t /\ canonical Qring (allclose 0) (allclose 1) (fun _ _ => Q2Qc (7 # 1)) (fun _ => 1%Qc) t = Ok A /\
  tblock Qring (st_sig Qring (fun _ _ => Q2Qc (7 # 1)) t Qint) A [0;1;2] [0;1;2].
Proof.
  destruct (stencil_topology lex_leb [2;3] true) as [t|] eqn:E; [|vm_compute in E; discriminate]. destruct (st_self _ _ _ _ E) as (ES & EP & Ht).
  exists t. eexists. split; auto. split; [apply (canonical_ok Qring (allclose 0) (allclose 1) lex_leb t EP Ht)|].
  pose proof (canonical_typed Qring t (fun _ _ => Q2Qc (7 # 1)) (fun _ => 1%Qc) Qint) as T. rewrite ES in *. apply T. intros. exists 1%Z. reflexivity.
Qed.
