(** Lemmas on triangle meshes: sums over directed edges, volume. *)
Require Import List Arith ZArith Bool Lia Permutation Field.
From Verif Require Import Util Arr SimpModel SimpSpec BdryModel SubdModel LinModel Ofield TriModel TriSpec.
Import ListNotations.
Local Open Scope nat_scope.

Lemma dedge_dec : forall d e : dedge, {d = e} + {d <> e}.
Proof. decide equality; apply Nat.eq_dec. Qed.
Lemma dedge_eqb_ok : forall d e, dedge_eqb d e = true <-> d = e.
Proof. intros [a b] [c d]. unfold dedge_eqb. cbn. rewrite andb_true_iff, !Nat.eqb_eq. split; [intros [-> ->]; auto|intros Q; injection Q; auto]. Qed.
Lemma reverse_reverse : forall e, reverse (reverse e) = e.
Proof. intros [a b]. reflexivity. Qed.
Lemma occurs_count : forall e L, occurs e L = count_occ dedge_dec L e.
Proof.
  intros e L. unfold occurs. induction L as [|x L IH]; cbn; auto. destruct (dedge_dec x e) as [->|N].
  - assert (Q : dedge_eqb e e = true) by (apply dedge_eqb_ok; auto). rewrite Q. cbn. auto.
  - destruct (dedge_eqb e x) eqn:Q; auto. apply dedge_eqb_ok in Q. congruence.
Qed.
Lemma count_reverse : forall e L, count_occ dedge_dec (map reverse L) e = count_occ dedge_dec L (reverse e).
Proof.
  intros e L. induction L as [|x L IH]; cbn; auto. rewrite IH. destruct (dedge_dec (reverse x) e) as [E|N], (dedge_dec x (reverse e)) as [E'|M]; auto.
  - exfalso. apply M. rewrite <- E, reverse_reverse. auto.
  - exfalso. apply N. rewrite E', reverse_reverse. auto.
Qed.
Lemma occurs_app : forall e L L', occurs e (L ++ L') = occurs e L + occurs e L'.
Proof. intros. unfold occurs. rewrite filter_app, app_length. auto. Qed.
Lemma occurs_perm : forall e L L', Permutation L L' -> occurs e L = occurs e L'.
Proof. intros e L L' P. rewrite !occurs_count. apply Permutation_count_occ; auto. Qed.
Lemma occurs_reverse : forall e L, occurs e (map reverse L) = occurs (reverse e) L.
Proof. intros. rewrite !occurs_count. apply count_reverse. Qed.

Lemma matched_perm : forall L, (forall e, occurs e L = occurs (reverse e) L) <-> Permutation L (map reverse L).
Proof.
  intros L. rewrite (Permutation_count_occ dedge_dec). split; intros H e; specialize (H e).
  - rewrite count_reverse, <- !occurs_count. auto.
  - rewrite count_reverse in H. rewrite !occurs_count. auto.
Qed.

Section Sum.
Variable K : cfield.
Add Field Kf : (fth K).
Local Open Scope ring_scope'.

Lemma half : forall x : K, two K <> r0 -> x = ropp x -> x = r0.
Proof.
  intros x H E. assert (Q : two K * x = r0) by (unfold two; transitivity (x + x); [ring|]; rewrite E at 2; ring).
  transitivity (fdiv (two K * x) (two K)); [field; auto|]. rewrite Q. field. auto.
Qed.
Lemma antisym_sum : forall (g : nat -> nat -> K) L, two K <> r0 -> (forall a b, g b a = - g a b) -> (forall e, occurs e L = occurs (reverse e) L) ->
  rsum (map (fun e => g (fst e) (snd e)) L) = r0.
Proof.
  intros g L H2 A M. apply matched_perm in M. apply half; auto.
  rewrite (rsum_perm K _ (map (fun e => g (fst e) (snd e)) (map reverse L))) at 1 by (apply Permutation_map; auto).
  rewrite map_map. cbn [reverse fst snd]. rewrite (rsum_ext K _ _ (fun e => (ropp r1) * g (fst e) (snd e))) by (intros [a b] _; cbn; rewrite A; ring).
  rewrite rsum_mul. ring.
Qed.

(** Determinant of three points. *)
Definition det (a b c : nat -> K) : K :=
  a 0%nat * (b 1%nat * c 2%nat - b 2%nat * c 1%nat) + a 1%nat * (b 2%nat * c 0%nat - b 0%nat * c 2%nat) + a 2%nat * (b 0%nat * c 1%nat - b 1%nat * c 0%nat).
Definition inner3 (a b : nat -> K) : K := a 0%nat * b 0%nat + a 1%nat * b 1%nat + a 2%nat * b 2%nat.
Definition contribution (V : nat -> nat -> K) (s : simplex) : K := rsum (map (fun i => triangle_normal K V s i * triangle_centroid K V s i) (seq 0 3)).
Lemma contribution_det : three K <> r0 -> forall V a b c, contribution V [a; b; c] = det (V a) (V b) (V c).
Proof.
  intros H V a b c. unfold contribution, triangle_normal, triangle_centroid, mean3, cross, det. cbn. unfold three in H. field. intros Q. apply H. transitivity (r1 + (r1 + r1) : K); [ring|exact Q].
Qed.
Lemma normal_edges : forall V a b c i, i < 3 -> triangle_normal K V [a; b; c] i = rsum (map (fun e => cross K (V (fst e)) (V (snd e)) i) (dedges [a; b; c])).
Proof. intros V a b c i Hi. destruct i as [|[|[|i]]]; [| | |lia]; unfold triangle_normal, cross; cbn; ring. Qed.
Lemma cross_antisym : forall (a b : nat -> K) i, cross K b a i = - cross K a b i.
Proof. intros a b i. destruct i as [|[|[|i]]]; unfold cross; ring. Qed.

Lemma triple_split : forall s : simplex, length s = 3 -> exists a b c, s = [a; b; c].
Proof. intros [|a [|b [|c [|]]]] H; simpl in H; try lia. eauto. Qed.

Section Closed.
Variables (rows : list simplex) (V : nat -> nat -> K).
Hypothesis L3 : Forall (fun s => length s = 3) rows.
Hypothesis C : closed_surface rows.
Hypothesis H2 : two K <> r0.
Hypothesis H3 : three K <> r0.

Lemma normals_cancel : forall i, i < 3 -> rsum (map (fun s => triangle_normal K V s i) rows) = r0.
Proof.
  intros i Hi. rewrite <- (antisym_sum (fun a b => cross K (V a) (V b) i) (mesh_edges rows)); auto; [|intros; apply cross_antisym].
  unfold mesh_edges. rewrite rsum_flat_map. apply rsum_ext. intros s Hs. rewrite Forall_forall in L3. destruct (triple_split s (L3 s Hs)) as (a & b & c & ->). apply normal_edges; auto.
Qed.
Lemma contributions_translate : forall x, rsum (map (contribution (translate K V x)) rows) = rsum (map (contribution V) rows).
Proof.
  intros x. transitivity (rsum (map (fun s => contribution V s + rsum (map (fun i => x i * triangle_normal K V s i) (seq 0 3))) rows)).
  - apply rsum_ext. intros s Hs. rewrite Forall_forall in L3. destruct (triple_split s (L3 s Hs)) as (a & b & c & ->). rewrite !contribution_det by auto.
    unfold det, translate, triangle_normal, cross; cbn. ring.
  - rewrite rsum_add, rsum_swap. rewrite (rsum_0 K _ _ (seq 0 3)); [ring|]. intros i Hi. apply in_seq in Hi. rewrite rsum_mul, normals_cancel by lia. ring.
Qed.

(** Move one vertex. *)
Definition moved (v : nat) (x : nat -> K) : nat -> nat -> K := fun u i => if Nat.eqb u v then V u i + x i else V u i.
Hypothesis ND : Forall (fun s => NoDup s) rows.
Definition h (v i : nat) (x : nat -> K) (a b : nat) : K := (if Nat.eqb a v then cross K (V v) (V b) i else r0) - (if Nat.eqb b v then cross K (V v) (V a) i else r0).
Lemma contributions_moved : forall v x, rsum (map (contribution (moved v x)) rows) =
  rsum (map (contribution V) rows) + rsum (map (fun s => if existsb (Nat.eqb v) s then inner3 (triangle_normal K V s) x else r0) rows).
Proof.
  intros v x. transitivity (rsum (map (fun s => contribution V s + (if existsb (Nat.eqb v) s then inner3 (triangle_normal K V s) x else r0) - rsum (map (fun i => x i * rsum (map (fun e => h v i x (fst e) (snd e)) (dedges s))) (seq 0 3))) rows)).
  - apply rsum_ext. intros s Hs. rewrite Forall_forall in L3, ND. pose proof (ND s Hs) as N. destruct (triple_split s (L3 s Hs)) as (a & b & c & ->). rewrite !contribution_det by auto.
    inversion N as [|? ? A1 A2]; subst. inversion A2 as [|? ? A3 A4]; subst. cbn in A1, A3. cbn [existsb dedges map fst snd]. unfold moved, h. cbn [rsum map fold_right seq].
    destruct (Nat.eqb_spec a v) as [<-|Ea]; [|destruct (Nat.eqb_spec b v) as [<-|Eb]; [|destruct (Nat.eqb_spec c v) as [<-|Ec]]];
    repeat match goal with |- context [Nat.eqb ?p ?q] => destruct (Nat.eqb_spec p q); subst; try (exfalso; tauto) end; cbn [orb]; unfold inner3, det, triangle_normal, cross; cbn; ring.
  - rewrite rsum_sub, rsum_add. rewrite rsum_swap. rewrite (rsum_0 K _ _ (seq 0 3)); [ring|]. intros i Hi. rewrite rsum_mul. rewrite <- rsum_flat_map with (f := fun e => h v i x (fst e) (snd e)) (g := dedges).
    rewrite (antisym_sum (fun a b => h v i x a b)); auto; [ring|]. intros a b. unfold h. destruct (Nat.eqb a v), (Nat.eqb b v); ring.
Qed.
End Closed.
End Sum.
