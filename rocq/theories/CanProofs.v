(** Proofs about the canonical first-order system and its normal equations. *)
Require Import List Arith Bool Lia Ring.
From Verif Require Import Util Arr StModel StProofs OpModel OpSpec OpProofs TrProofs BlkModel BlkSpec BlkProofs.
Import ListNotations.

(** ---- square matrices as functions ---- *)
Section Mat.
Variable X : Type.
Definition mat (N : nat) (f : nat -> nat -> X) : list (list X) := map (fun i => map (f i) (seq 0 N)) (seq 0 N).
Lemma mat_ext : forall N f g, (forall i j, i < N -> j < N -> f i j = g i j) -> mat N f = mat N g.
Proof.
  intros N f g H. unfold mat. apply map_ext_in. intros i Hi. apply in_seq in Hi. apply map_ext_in. intros j Hj. apply in_seq in Hj. apply H; lia.
Qed.
Lemma mat_row : forall N f i, i < N -> nth_error (mat N f) i = Some (map (f i) (seq 0 N)).
Proof. intros. unfold mat. rewrite nth_error_map. rewrite (nth_error_nth' _ 0) by (rewrite seq_length; auto). rewrite seq_nth by auto. auto. Qed.
Lemma row_entry : forall N (f : nat -> X) j, j < N -> nth_error (map f (seq 0 N)) j = Some (f j).
Proof. intros. rewrite nth_error_map. rewrite (nth_error_nth' _ 0) by (rewrite seq_length; auto). rewrite seq_nth by auto. auto. Qed.
Lemma set_nth_map : forall n (v : X) (g : nat -> X) N, set_nth n v (map g (seq 0 N)) = map (fun a => if a =? n then v else g a) (seq 0 N).
Proof.
  intros. unfold set_nth. rewrite map_length, seq_length. generalize (seq 0 N). induction l; simpl; auto. rewrite IHl. auto.
Qed.
End Mat.
Arguments mat {X}.

Lemma set_nth_mat : forall X N (f : nat -> nat -> X) i j v,
  set_nth i (set_nth j v (map (f i) (seq 0 N))) (mat N f) = mat N (fun a b => if (a =? i) && (b =? j) then v else f a b).
Proof.
  intros. rewrite set_nth_map. unfold mat at 1. rewrite set_nth_map. unfold mat. apply map_ext. intros a. destruct (Nat.eqb_spec a i) as [->|D]; auto.
Qed.

Section Can.
Variable K : cring.
Add Ring Kr : (rth K).
Variables near0 near1 : array K -> bool.

Lemma bset_mat : forall N f i j v, i < N -> j < N -> oshape K (f i j) = oshape K v ->
  bset K (mat N f) i j v = Ok (mat N (fun a b => if (a =? i) && (b =? j) then v else f a b)).
Proof.
  intros N f i j v Hi Hj E. unfold bset. rewrite mat_row by auto. rewrite row_entry by auto. rewrite E. unfold shapes_eqb. rewrite !list_eqb_refl'. cbn [andb].
  rewrite set_nth_mat. auto.
Qed.

Lemma mapM_map_ok : forall A B C (g : A -> B) (f : B -> result C) (h : A -> C) l, (forall x, In x l -> f (g x) = Ok (h x)) -> mapM f (map g l) = Ok (map h l).
Proof. induction l as [|a l IH]; intros H; auto. cbn [map mapM]. rewrite (H a) by (left; auto). cbn [bind]. rewrite IH by (intros; apply H; right; auto). auto. Qed.
Lemma mapM_seq_ok : forall C (f : nat -> result C) (h : nat -> C) l, (forall x, In x l -> f x = Ok (h x)) -> mapM f l = Ok (map h l).
Proof. intros. rewrite <- (map_id l) at 1. apply mapM_map_ok. auto. Qed.

Lemma btranspose_mat : forall N f g, 0 < N -> (forall i j, i < N -> j < N -> otranspose K (f j i) = Ok (g i j)) -> btranspose K (mat N f) = Ok (mat N g).
Proof.
  intros N f g HN H. unfold btranspose. replace (match mat N f with [] => 0 | row :: _ => length row end) with N.
  2:{ destruct N; [lia|]. cbn [mat seq map length]. rewrite map_length, seq_length. auto. }
  unfold mat at 2. apply mapM_seq_ok. intros i Hi. apply in_seq in Hi. unfold mat. apply mapM_map_ok. intros j Hj. apply in_seq in Hj. rewrite row_entry by lia. apply H; lia.
Qed.

Lemma tblock_mat : forall (G : signature K) N f (J : nat -> space K G), (forall i j, i < N -> j < N -> typed K G (f i j) (J i) (J j)) ->
  tblock K G (mat N f) (map J (seq 0 N)) (map J (seq 0 N)).
Proof.
  intros G N f J H. unfold tblock, mat.
  assert (F2 : forall A B C (R : B -> C -> Prop) (g : A -> B) (h : A -> C) l, (forall x, In x l -> R (g x) (h x)) -> Forall2 R (map g l) (map h l)).
  { induction l as [|a l IH]; intros Q; constructor; [apply Q; left; auto|]. apply IH. intros. apply Q. right; auto. }
  apply F2. intros i Hi. apply in_seq in Hi. apply F2. intros j Hj. apply in_seq in Hj. apply H; lia.
Qed.

(** ---- the canonical matrix ---- *)
Variable row_leb : list nat -> list nat -> bool.
Variable t : stopo.
Hypothesis Hp : st_periodic t = true.
Hypothesis Ht : stencil_topology row_leb (st_shape t) (st_periodic t) = Ok t.
Variable empty : nat -> list nat -> K.
Variable hv : nat -> K.
Notation ndim := (length (st_shape t)).
Notation sop n := (st_sop K empty t n).
Notation H := (hodge K hv t).

Definition cmat (i j : nat) : op K :=
  if i =? j then H i else if i =? S j then OComp [H i; ODeriv (sop j)]
  else if j =? S i then OComp [ODual (so_transpose K (sop i)); H j] else OZero (st_n_elements t i, st_n_elements t j).

Lemma hodge_d : forall i, op_mul K near0 near1 (H (S i)) (ODeriv (sop i)) = Ok (OComp [H (S i); ODeriv (sop i)]).
Proof.
  intros. unfold op_mul, mk_comp. cbn [combine tl forallb fst snd oshape hodge st_sop so_shape]. rewrite list_eqb_refl'. reflexivity.
Qed.
Lemma d_hodge : forall i, op_mul K near0 near1 (ODual (so_transpose K (sop i))) (H (S i)) = Ok (OComp [ODual (so_transpose K (sop i)); H (S i)]).
Proof.
  intros. unfold op_mul, mk_comp. cbn [combine tl forallb fst snd oshape hodge st_sop so_shape so_transpose]. rewrite list_eqb_refl'. reflexivity.
Qed.

Lemma oshape_cmat : forall i j, oshape K (cmat i j) = (st_n_elements t i, st_n_elements t j).
Proof.
  intros i j. unfold cmat. destruct (Nat.eqb_spec i j) as [->|D]; auto. destruct (Nat.eqb_spec i (S j)) as [->|D1]; auto.
  destruct (Nat.eqb_spec j (S i)) as [->|D2]; auto.
Qed.

Definition part (s i j : nat) : op K :=
  if (i =? S j) && (j <? s) then OComp [H i; ODeriv (sop j)]
  else if (j =? S i) && (i <? s) then OComp [ODual (so_transpose K (sop i)); H j] else OZero (st_n_elements t i, st_n_elements t j).
Lemma oshape_part : forall s i j, oshape K (part s i j) = (st_n_elements t i, st_n_elements t j).
Proof.
  intros s i j. unfold part. destruct (Nat.eqb_spec i (S j)) as [->|D1]; [destruct (j <? s)|]; cbn [andb]; auto.
  - destruct (Nat.eqb_spec j (S (S j))); [lia|]. auto.
  - destruct (Nat.eqb_spec j (S i)) as [->|D2]; [destruct (i <? s)|]; auto.
Qed.

Lemma foldM_canonical : forall m s, s + m = ndim ->
  foldM (fun A p => match p with (i, (tp, td)) =>
            do u <- op_mul K near0 near1 (H (i + 1)) (ODeriv tp);
            do A1 <- bset K A (i + 1) i u;
            do v <- op_mul K near0 near1 (ODual td) (H (i + 1));
            bset K A1 i (i + 1) v end)
    (map (fun i => (i, (sop i, so_transpose K (sop i)))) (seq s m)) (mat (S ndim) (part s)) = Ok (mat (S ndim) (part ndim)).
Proof.
  induction m as [|m IH]; intros s E; cbn [seq map foldM].
  - replace s with ndim by lia. auto.
  - replace (s + 1) with (S s) by lia. rewrite hodge_d. cbn [bind]. rewrite bset_mat; try lia; [|rewrite oshape_part; reflexivity]. cbn [bind].
    rewrite d_hodge. cbn [bind]. rewrite bset_mat; try lia.
    2:{ destruct (Nat.eqb_spec s (S s)); [lia|]. cbn [andb]. rewrite oshape_part. reflexivity. }
    cbn [bind]. rewrite <- (IH (S s)) by lia. f_equal. apply mat_ext. intros i j Hi Hj. unfold part.
    destruct (Nat.eqb_spec i s) as [->|Di]; cbn [andb].
    + destruct (Nat.eqb_spec j (S s)) as [->|Dj].
      * destruct (Nat.eqb_spec s (S (S s))); [lia|]. cbn [andb]. destruct (Nat.ltb_spec s (S s)); [auto|lia].
      * cbn [andb]. destruct (Nat.eqb_spec s (S s)); [lia|]. cbn [andb]. destruct (Nat.eqb_spec s (S j)) as [Q|Q]; auto.
        destruct (Nat.ltb_spec j s), (Nat.ltb_spec j (S s)); try lia; auto.
    + destruct (Nat.eqb_spec i (S s)) as [->|D2]; cbn [andb].
      * destruct (Nat.eqb_spec j s) as [->|Dj]; cbn [andb].
        -- rewrite Nat.eqb_refl. destruct (Nat.ltb_spec s (S s)); [auto|lia].
        -- destruct (Nat.eqb_spec (S s) (S j)); [lia|]. cbn [andb]. destruct (Nat.ltb_spec (S s) s), (Nat.ltb_spec (S s) (S s)); try lia; auto.
      * destruct (Nat.eqb_spec i (S j)) as [Q|Q]; cbn [andb].
        -- assert (j < s <-> j < S s) by lia. destruct (Nat.ltb_spec j s), (Nat.ltb_spec j (S s)); try lia; auto.
           destruct (Nat.eqb_spec j (S i)); [lia|]. auto.
        -- destruct (Nat.ltb_spec i s), (Nat.ltb_spec i (S s)); try lia; auto.
Qed.

Lemma foldM_diag : forall m s f, s + m = S ndim -> (forall i j, oshape K (f i j) = (st_n_elements t i, st_n_elements t j)) ->
  foldM (fun A i => bset K A i i (H i)) (seq s m) (mat (S ndim) f) = Ok (mat (S ndim) (fun i j => if (i =? j) && (s <=? i) then H i else f i j)).
Proof.
  induction m as [|m IH]; intros s f E SF; cbn [seq foldM].
  - f_equal. apply mat_ext. intros i j Hi Hj. destruct (Nat.leb_spec s i); [lia|]. rewrite andb_false_r. auto.
  - rewrite bset_mat; try lia; [|rewrite SF; reflexivity]. cbn [bind]. rewrite IH; [|lia|].
    2:{ intros i j. destruct (Nat.eqb_spec i s) as [->|]; [destruct (Nat.eqb_spec j s) as [->|]|]; cbn [andb]; auto. }
    f_equal. apply mat_ext. intros i j Hi Hj. destruct (Nat.eqb_spec i j) as [->|D]; cbn [andb].
    + destruct (Nat.leb_spec (S s) j), (Nat.leb_spec s j); try lia; auto.
      * replace j with s by lia. rewrite Nat.eqb_refl. auto.
      * destruct (Nat.eqb_spec j s); [lia|]. auto.
    + destruct (Nat.eqb_spec i s) as [->|]; cbn [andb]; auto. destruct (Nat.eqb_spec j s); [congruence|auto].
Qed.

Lemma canonical_ok : canonical K near0 near1 empty hv t = Ok (mat (S ndim) cmat).
Proof.
  unfold canonical, st_dual, st_primal. rewrite Hp. cbn [bind]. rewrite (st_len row_leb t Ht). rewrite !map_length, seq_length.
  replace (combine (seq 0 ndim) _) with (map (fun i => (i, (sop i, so_transpose K (sop i)))) (seq 0 ndim)).
  2:{ generalize (seq 0 ndim). induction l; simpl; auto. rewrite IHl. auto. }
  replace (bzeros K _ _) with (mat (S ndim) (part 0)).
  2:{ unfold bzeros, mat. rewrite map_map. apply map_ext. intros i. rewrite map_map. apply map_ext. intros j. unfold part.
      destruct (Nat.ltb_spec j 0), (Nat.ltb_spec i 0); try lia. rewrite !andb_false_r. auto. }
  rewrite foldM_canonical by lia. cbn [bind]. rewrite foldM_diag; [|lia|apply oshape_part]. f_equal. apply mat_ext. intros i j Hi Hj. cbn [Nat.leb]. rewrite andb_true_r.
  unfold cmat, part. destruct (i =? j); auto. destruct (Nat.eqb_spec i (S j)) as [->|D]; cbn [andb].
  - destruct (Nat.ltb_spec j ndim); [auto|lia].
  - destruct (Nat.eqb_spec j (S i)) as [->|D2]; cbn [andb]; auto. destruct (Nat.ltb_spec i ndim); [auto|lia].
Qed.

Lemma cmat_transpose : forall i j, otranspose K (cmat j i) = Ok (cmat i j).
Proof.
  intros i j. unfold cmat. rewrite (Nat.eqb_sym j i). destruct (Nat.eqb_spec i j) as [->|D]; auto.
  destruct (Nat.eqb_spec j (S i)) as [->|D1].
  - destruct (Nat.eqb_spec i (S (S i))); [lia|]. cbn [otranspose bind rev app hodge so_transpose st_sop so_left so_right so_shape fst snd]. unfold mk_comp.
    cbn [combine tl forallb fst snd oshape so_shape]. rewrite list_eqb_refl'. reflexivity.
  - destruct (Nat.eqb_spec i (S j)) as [->|D2].
    + cbn [otranspose bind rev app hodge so_transpose st_sop so_left so_right so_shape fst snd]. unfold mk_comp.
      cbn [combine tl forallb fst snd oshape so_shape]. rewrite list_eqb_refl'. reflexivity.
    + reflexivity.
Qed.

Lemma canonical_transpose : btranspose K (mat (S ndim) cmat) = Ok (mat (S ndim) cmat).
Proof. apply btranspose_mat; [lia|]. intros. apply cmat_transpose. Qed.

Variable dg : K -> Prop.
Hypothesis dg_mul : forall a b, dg a -> dg b -> dg (rmul a b).
Hypothesis dg_hv : forall n, n <= ndim -> dg (hv n).
Notation G := (st_sig K empty t dg).

Lemma hodge_typed : forall n, n <= ndim -> typed K G (H n) n n.
Proof.
  intros n Hn. unfold hodge. apply (ty_hodge K G (mkArr [] (fun _ => hv n)) n). split; [left; auto|]. intros idx R. cbn [aget]. apply dg_hv; auto.
Qed.
Lemma cmat_typed : forall i j, i <= ndim -> j <= ndim -> typed K G (cmat i j) i j.
Proof.
  intros i j Hi Hj. unfold cmat. destruct (Nat.eqb_spec i j) as [->|D]; [apply hodge_typed; auto|].
  destruct (Nat.eqb_spec i (S j)) as [->|D1].
  - apply ty_comp. eapply tc_cons; [apply hodge_typed; auto|]. apply tc_one. apply ty_deriv. cbn [st_sig d_ok]. split; auto.
  - destruct (Nat.eqb_spec j (S i)) as [->|D2].
    + apply ty_comp. eapply tc_cons; [|apply tc_one, hodge_typed; auto]. apply ty_dual. cbn [st_sig dd_ok]. split; auto.
    + apply (ty_zero K G i j).
Qed.
Lemma canonical_typed : tblock K G (mat (S ndim) cmat) (seq 0 (S ndim)) (seq 0 (S ndim)).
Proof.
  pose proof (tblock_mat G (S ndim) cmat (fun n => n)) as Q. cbn [st_sig space] in Q. rewrite map_id in Q. apply Q. intros i j Hi Hj. apply cmat_typed; lia.
Qed.
End Can.
