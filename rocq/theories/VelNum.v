(** C93: which face of a cell has which number, for the model of construct_lower. *)
Require Import List Arith ZArith Lia Bool Permutation.
From Verif Require Import Util SimpModel ParProofs SimpProofs LevelProofs SimpSpec.
Import ListNotations.

(** Face i of a simplex with at least three corners has all corners but corner i; face i of a segment is its corner i. *)
Theorem C93_numbering : forall row_leb n rows, 1 <= n -> Forall (fun s => length s = S n /\ NoDup s) rows ->
  exists low B O, construct_lower row_leb (S n) rows = Ok (low, B, O) /\ length B = length rows /\
    forall c i, c < length rows -> i <= n -> let f := nth i (nth c B []) 0 in
      (2 <= n -> f < length low /\ Permutation (nth f low []) (firstn i (nth c rows []) ++ skipn (S i) (nth c rows []))) /\ (n = 1 -> f = nth i (nth c rows []) 0).
Proof.
  intros row_leb n rows Hn F. destruct (Nat.eq_dec n 1) as [->|N1].
  - unfold construct_lower. cbn [Nat.sub Nat.eqb]. do 3 eexists. split; [reflexivity|]. split; auto. intros c i Hc Hi. cbv zeta. split; [lia|auto].
  - destruct (construct_lower_ok row_leb n rows ltac:(lia) F) as (low & idx & E & H1 & _ & _). cbv zeta in E. exists low. do 2 eexists. split; [exact E|].
    unfold full. rewrite !map_length. split; auto. intros c i Hc Hi. cbv zeta. split; [intros _|lia].
    rewrite Forall_forall in F. assert (In (nth c rows []) rows) as Hin by (apply nth_In; auto). destruct (F _ Hin) as [L ND].
    rewrite map_map. rewrite (nth_map_lt _ _ _ _ _ []) by auto. rewrite map_map. rewrite (nth_map_seq _ (fun x => idx (facet n x (nth c rows [])))) by lia.
    destruct (H1 (facet n i (nth c rows []))) as [Q P]. { apply in_full. exists (nth c rows []), i. repeat split; auto. lia. }
    split; auto. eapply perm_trans; [apply Permutation_sym; exact P|]. eapply perm_trans; [apply Permutation_sym, facet_perm; lia|]. unfold omit. auto.
Qed.

Example C93_numbering_example : exists low B O, construct_lower (fun _ _ => true) 3 [[4; 7; 2]; [7; 4; 9]] = Ok (low, B, O) /\
  Permutation (nth (nth 2 (nth 0 B []) 0) low []) [4; 7] /\ nth 2 (nth 0 B []) 0 = nth 2 (nth 1 B []) 0.
Proof. do 3 eexists. split; [vm_compute; reflexivity|]. split; [cbn; repeat constructor|reflexivity]. Qed.

Print Assumptions C93_numbering.
