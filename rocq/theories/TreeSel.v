(** The facets that selector_interior selects. *)
Require Import List Arith ZArith Bool Lia Permutation.
From Verif Require Import Util SimpModel SimpSpec BdryModel BdrySpec SimpProofs LevelProofs TopProofs OrientProofs BdryProofs SelProofs SelProps.
Import ListNotations.

Section Interior.
Variable row_leb : list nat -> list nat -> bool.
Variable sat : list (Z * Z) -> option (list Z).
Variables (n : nat) (rows : list simplex) (t : topology).
Hypothesis SC : sat_contract sat.
Hypothesis OK : simplices_ok n rows.
Hypothesis Hn2 : 2 <= n.
Hypothesis H : from_simplices row_leb n rows = Ok t.
Hypothesis AM : at_most_two n rows.
Hypothesis O : is_oriented sat t = Ok true.
Definition inner : list nat := flatnonzero (boundary_chain row_leb sat t true (n - 1)).
Lemma inner_entry : forall r e, r < length inner -> entry (selector_interior row_leb sat t (n - 1)) r e = if e =? nth r inner 0 then 1%Z else 0%Z.
Proof.
  intros r e Hr. unfold selector_interior. rewrite selection_entry. fold inner. rewrite (proj2 (Nat.ltb_lt _ _) Hr). cbn [andb]. rewrite Nat.eqb_sym. auto.
Qed.
Lemma inner_rows : nrows (selector_interior row_leb sat t (n - 1)) = length inner.
Proof. reflexivity. Qed.
Lemma inner_in : forall e, In e inner <-> e < n_elements t (n - 1) /\ ~ boundary_face n rows (el t (n - 1) e).
Proof.
  intros e. destruct (from_simplices_top_ok _ _ _ _ OK H) as [Hn T]. unfold inner. rewrite flatnonzero_in, boundary_chain_length.
  split; intros [Le X]; split; auto.
  - rewrite boundary_chain_compl in X by auto. intros B.
    destruct (proj2 (C14_selector_meaning row_leb sat n rows t (n - 1) SC OK Hn2 H AM O ltac:(lia) e Le)) as (i & Hi & E).
    { exists (el t (n - 1) e). split; auto. intros v Hv. exact Hv. }
    unfold selector_boundary in Hi, E. rewrite selection_entry in E. unfold selection_matrix in Hi. cbn [nrows] in Hi.
    rewrite (proj2 (Nat.ltb_lt _ _) Hi) in E. cbn [andb] in E.
    destruct (_ =? _) eqn:Q; [|discriminate]. apply Nat.eqb_eq in Q. destruct (flatnonzero_nth _ _ Hi) as [_ F]. rewrite Q in F. rewrite F in X. discriminate.
  - rewrite boundary_chain_compl by auto. destruct (nth e (boundary_chain row_leb sat t false (n - 1)) false) eqn:F; auto. exfalso. apply X.
    assert (I : In e (flatnonzero (boundary_chain row_leb sat t false (n - 1)))) by (apply flatnonzero_in; rewrite boundary_chain_length; auto).
    apply In_nth with (d := 0) in I as (i & Hi & Q).
    destruct (proj1 (C14_selector_meaning row_leb sat n rows t (n - 1) SC OK Hn2 H AM O ltac:(lia) e Le)) as (f & B & I).
    { exists i. split; auto. unfold selector_boundary. rewrite selection_entry. rewrite (proj2 (Nat.ltb_lt _ _) Hi), Q, Nat.eqb_refl. auto. }
    apply (boundary_face_perm n rows f); auto. destruct (el_len n rows t Hn T (n - 1) e ltac:(lia) Le) as [L ND].
    apply Permutation_sym. destruct B as (j & Hj & (Nf & Lf & _) & _). apply NoDup_Permutation_bis; auto. lia.
Qed.
End Interior.
