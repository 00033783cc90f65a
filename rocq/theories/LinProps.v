(** 3x3 matrices: inverse and null vector. *)
Require Import List Arith ZArith Lia Field QArith Qcanon.
From Verif Require Import Util Arr LinModel Ofield.
Import ListNotations.
Local Open Scope nat_scope.

Section Spec.
Variable F : cfield.
Local Open Scope ring_scope'.
(** Leibniz formula, product of 3x3 matrices, identity. *)
Definition det3 (A : nat -> nat -> F) : F :=
  A 0%nat 0%nat * A 1%nat 1%nat * A 2%nat 2%nat + A 0%nat 1%nat * A 1%nat 2%nat * A 2%nat 0%nat + A 0%nat 2%nat * A 1%nat 0%nat * A 2%nat 1%nat
  - A 0%nat 2%nat * A 1%nat 1%nat * A 2%nat 0%nat - A 0%nat 1%nat * A 1%nat 0%nat * A 2%nat 2%nat - A 0%nat 0%nat * A 1%nat 2%nat * A 2%nat 1%nat.
Definition mul3 (A B : nat -> nat -> F) : nat -> nat -> F := fun i j => A i 0%nat * B 0%nat j + A i 1%nat * B 1%nat j + A i 2%nat * B 2%nat j.
Definition one3 : nat -> nat -> F := fun i j => if Nat.eqb i j then r1 else r0.
Definition apply3 (A : nat -> nat -> F) (v : nat -> F) : nat -> F := fun i => A i 0%nat * v 0%nat + A i 1%nat * v 1%nat + A i 2%nat * v 2%nat.
End Spec.

Section Props.
Variable F : cfield.
Add Field Fd : (fth F).
Local Open Scope ring_scope'.
Ltac three i := destruct i as [|[|[|i]]]; [| | |exfalso; lia].
Ltac go := unfold mul3, apply3, one3, det3, inverse, inverse_transpose, mean3, dot, null, adjoint, cross, pyidx; cbn; change (Pos.to_nat 1) with 1%nat; change (Pos.to_nat 2) with 2%nat; cbn.

(** The rows of [adjoint] are cofactors: it is the transpose of what is usually called the adjoint (adjugate). *)
Theorem C43_cofactors : forall (A : nat -> nat -> F) i j, i < 3 -> j < 3 ->
  mul3 F A (fun k l => adjoint F A l k) i j = det3 F A * one3 F i j.
Proof. intros A i j Hi Hj. three i; three j; go; ring. Qed.

Theorem C43_inverse : forall A : nat -> nat -> F, r1 + r1 + r1 <> r0 :> F -> det3 F A <> r0 ->
  forall i j, i < 3 -> j < 3 -> mul3 F (inverse F A) A i j = one3 F i j /\ mul3 F A (inverse F A) i j = one3 F i j.
Proof.
  intros A H3 HD i j Hi Hj.
  assert (E : mean3 F (fun i => dot F (adjoint F A i) (A i)) = det3 F A) by (go; field; intros Q; apply H3; transitivity (r1 + (r1 + r1) : F); [ring|exact Q]).
  unfold inverse, inverse_transpose. rewrite E. unfold mul3. remember (det3 F A) as d eqn:Ed. unfold det3 in Ed. 
  assert (G : forall x y z w : F, x + y + z = w * d -> forall a b c, a = x -> b = y -> c = z -> fdiv a d + fdiv b d + fdiv c d = w) by (intros x y z w Q a b c -> -> ->; replace (fdiv x d + fdiv y d + fdiv z d) with (fdiv (x + y + z) d) by (field; auto); rewrite Q; field; auto).
  assert (P1 : forall p q, fdiv p d * q = fdiv (p * q) d) by (intros; field; auto). assert (P2 : forall p q, q * fdiv p d = fdiv (q * p) d) by (intros; field; auto).
  split; [rewrite !P1|rewrite !P2]; eapply G; try reflexivity; rewrite Ed; three i; three j; go; ring.
Qed.
Theorem C43_inverse_transpose : forall A : nat -> nat -> F, r1 + r1 + r1 <> r0 :> F -> det3 F A <> r0 ->
  forall i j, i < 3 -> j < 3 -> mul3 F (fun k l => A l k) (inverse_transpose F A) i j = one3 F i j.
Proof.
  intros A H3 HD i j Hi Hj. destruct (C43_inverse A H3 HD j i Hj Hi) as [H _]. unfold one3 in *. rewrite Nat.eqb_sym, <- H.
  unfold mul3, inverse. ring.
Qed.

Theorem C43_null : forall A : nat -> nat -> F, (forall i, i < 3 -> apply3 F A (null F A) i = det3 F A) /\
  (det3 F A = r0 -> forall i, i < 3 -> apply3 F A (null F A) i = r0).
Proof.
  intros A. assert (H : forall i, i < 3 -> apply3 F A (null F A) i = det3 F A) by (intros i Hi; three i; go; ring).
  split; auto. intros D i Hi. rewrite H; auto.
Qed.
(** What [null] computes: the cross product of two differences of rows. *)
Theorem C43_null_differences : forall (A : nat -> nat -> F) j, j < 3 ->
  null F A j = cross F (fun k => A 1%nat k - A 0%nat k) (fun k => A 2%nat k - A 0%nat k) j.
Proof. intros A j Hj. three j; go; ring. Qed.
(** Hence for a rank 2 matrix whose rows lie on one line the result is the zero vector, which spans no null space. *)
Theorem C43_null_rank2_refuted : forall (r s : nat -> F) (x : F), 
  let A := fun i => match i with 0 => r | 1 => s | _ => fun k => r k + x * (s k - r k) end in
  det3 F A = r0 /\ forall j, j < 3 -> null F A j = r0.
Proof. intros r s x A. subst A. split; [go; ring|]. intros j Hj. three j; go; ring. Qed.
End Props.
Print Assumptions C43_cofactors.
Print Assumptions C43_inverse.
Print Assumptions C43_null.
Print Assumptions C43_null_differences.
Print Assumptions C43_null_rank2_refuted.

Definition qmat (l : list (list Z)) : nat -> nat -> Qfield := fun i j => Q2Qc (inject_Z (nth j (nth i l []) 0%Z)).
Example C43_inverse_example : let A := qmat [[2; 0; 1]; [1; 3; 0]; [0; 1; 1]]%Z in det3 Qfield A = Q2Qc 7 /\ (r1 + r1 + r1)%K <> (r0 : Qfield) /\ inverse Qfield A 0 1 = Q2Qc (1 # 7).
Proof. split; [apply Qc_is_canon; reflexivity|]. split; [discriminate|]. apply Qc_is_canon; reflexivity. Qed.
Example C43_null_example : let A := qmat [[1; 0; 0]; [0; 1; 0]; [1; 1; 0]]%Z in det3 Qfield A = Q2Qc 0 /\ map (null Qfield A) [0; 1; 2] = map Q2Qc [0; 0; -1]%Q.
Proof. split; [apply Qc_is_canon; reflexivity|]. vm_compute. repeat f_equal; apply Qc_is_canon; reflexivity. Qed.
Example C43_null_zero_example : let A := qmat [[1; 0; 0]; [0; 1; 0]; [2; -1; 0]]%Z in (A 0 0 * A 1 1 - A 0 1 * A 1 0)%K = Q2Qc 1 /\ det3 Qfield A = Q2Qc 0 /\ map (null Qfield A) [0; 1; 2] = map Q2Qc [0; 0; 0]%Q.
Proof. split; [apply Qc_is_canon; reflexivity|]. split; [apply Qc_is_canon; reflexivity|]. vm_compute. repeat f_equal; apply Qc_is_canon; reflexivity. Qed.
