(** Ordered fields (not tied to any source file); floats are idealised as elements of one. *)
Require Import List Arith Bool Field QArith Qcanon Lia.
From Verif Require Import Util Arr LinModel.

Record ofield := mkOF { ofc :> cfield; pos : ofc -> bool;
  pos_0 : pos r0 = false;
  pos_opp : forall x, x <> r0 -> pos (ropp x) = negb (pos x);
  pos_zero : forall x, pos x = false -> pos (ropp x) = false -> x = r0;
  pos_add : forall x y, pos x = true -> pos y = true -> pos (radd x y) = true;
  pos_mul : forall x y, pos x = true -> pos y = true -> pos (rmul x y) = true }.
Arguments pos {_}.

(** Absolute value and comparison. *)
Definition fabs {F : ofield} (x : F) : F := if pos x then x else ropp x.
Definition fltb {F : ofield} (x y : F) : bool := pos (rsub y x).
Definition fleb {F : ofield} (x y : F) : bool := negb (fltb y x).

(** The rationals. *)
Definition Qring : cring := mkRing Qc 0%Qc 1%Qc Qcplus Qcmult Qcminus Qcopp Qcrt.
Definition Qfield : cfield := mkField Qring Qcinv Qcdiv Qcft.
Definition qpos (x : Qfield) : bool := match (Qnum (this x) ?= 0)%Z with Gt => true | _ => false end.
Lemma qpos_lt : forall x, qpos x = true <-> (0 < x)%Qc.
Proof.
  intros [[n d] C]. unfold qpos, Qclt, Qlt. cbn. rewrite Z.mul_1_r. destruct (n ?= 0)%Z eqn:E; split; intros H; try discriminate; auto.
  - apply Z.compare_eq in E. lia.
  - rewrite Z.compare_lt_iff in E. lia.
  - rewrite Z.compare_gt_iff in E. auto.
Qed.
Definition Qofield : ofield.
Proof.
  refine (mkOF Qfield qpos _ _ _ _ _).
  - reflexivity.
  - intros x Hx. apply eq_true_iff_eq. rewrite negb_true_iff, <- not_true_iff_false, !qpos_lt. cbn in x, Hx |- *.
    destruct (Qc_dec x 0) as [[H|H]|H]; [| |contradiction].
    + assert (A : (- 0 < - x)%Qc) by (apply Qclt_minus_iff; rewrite Qcopp_involutive, Qcplus_comm; apply Qclt_minus_iff in H; exact H). split; intros _; [|exact A]. intros B. apply (Qclt_not_le _ _ H), Qclt_le_weak, B.
    + split; [intros A|contradiction]. intros _. assert (B : (- x < - 0)%Qc). { apply Qclt_minus_iff. rewrite Qcopp_involutive. apply Qclt_minus_iff in H. rewrite (Qcplus_comm (- 0) x). exact H. }
      apply (Qclt_not_le _ _ A), Qclt_le_weak, B.
  - intros x. rewrite <- !not_true_iff_false, !qpos_lt. cbn in x |- *. intros A B. destruct (Qc_dec x 0) as [[H|H]|H]; [|contradiction|exact H].
    exfalso. apply B. apply Qclt_minus_iff in H. rewrite Qcplus_0_l in H. exact H.
  - intros x y. rewrite !qpos_lt. cbn in *. intros. apply Qclt_le_trans with (0 + y)%Qc; [rewrite Qcplus_0_l; auto|]. apply Qcplus_le_compat; [apply Qclt_le_weak; auto|apply Qcle_refl].
  - intros x y. rewrite !qpos_lt. cbn in *. intros. rewrite <- (Qcmult_0_l y). apply Qcmult_lt_compat_r; auto.
Defined.

(** Order facts. *)
Section Order.
Variable F : ofield.
Add Field Fof : (fth F).
Local Open Scope ring_scope'.
Lemma pos_neq : forall x : F, pos x = true -> x <> r0.
Proof. intros x P ->. rewrite pos_0 in P. discriminate. Qed.
Lemma pos_one : pos (r1 : F) = true.
Proof.
  assert (N : r1 <> r0 :> F) by apply (F_1_neq_0 (fth F)). destruct (pos (r1 : F)) eqn:E; auto. pose proof (pos_opp F r1 N) as Q. rewrite E in Q. cbn in Q.
  pose proof (pos_mul F _ _ Q Q) as R. replace (ropp r1 * ropp r1) with (r1 : F) in R by ring. congruence.
Qed.
Lemma neg_pos : forall x : F, pos x = true -> pos (ropp x) = false.
Proof. intros x P. rewrite pos_opp by (apply pos_neq; auto). rewrite P. auto. Qed.
Lemma opp_pos : forall x : F, pos (ropp x) = true -> pos x = false.
Proof. intros x P. rewrite <- (neg_pos _ P). f_equal. ring. Qed.
Lemma pos_cases : forall x : F, {pos x = true} + {pos (ropp x) = true} + {x = r0}.
Proof. intros x. destruct (pos x) eqn:E; auto. destruct (pos (ropp x)) eqn:E'; auto. right. apply pos_zero; auto. Qed.
Lemma pos_two : pos (r1 + r1 : F) = true.
Proof. apply pos_add; apply pos_one. Qed.
Lemma pos_three : pos (r1 + r1 + r1 : F) = true.
Proof. apply pos_add; [apply pos_two|apply pos_one]. Qed.
Lemma pos_inv : forall x : F, pos x = true -> pos (finv x) = true.
Proof.
  intros x P. pose proof (pos_neq x P) as N. destruct (pos_cases (finv x)) as [[Q|Q]|Q]; auto; exfalso.
  - pose proof (pos_mul F _ _ P Q) as R. replace (x * ropp (finv x)) with (ropp r1 : F) in R by (field; auto). rewrite neg_pos in R by apply pos_one. discriminate.
  - apply (F_1_neq_0 (fth F)). transitivity (x * finv x); [field; auto|]. rewrite Q. ring.
Qed.
Lemma pos_div : forall x y : F, pos x = true -> pos y = true -> pos (fdiv x y) = true.
Proof. intros x y P Q. rewrite (F.(fth).(Fdiv_def)). apply pos_mul; auto. apply pos_inv; auto. Qed.
Lemma fabs_nonneg : forall x : F, pos (ropp (fabs x)) = false.
Proof. intros x. unfold fabs. destruct (pos x) eqn:E; [apply neg_pos; auto|]. replace (ropp (ropp x)) with x by ring. auto. Qed.
Lemma fabs_pos : forall x : F, pos (ropp x) = false -> fabs x = x.
Proof. intros x P. unfold fabs. destruct (pos x) eqn:E; auto. rewrite (pos_zero F x E P). ring. Qed.
Lemma fabs_neg : forall x : F, pos x = false -> fabs x = ropp x.
Proof. intros x P. unfold fabs. rewrite P. auto. Qed.
End Order.
