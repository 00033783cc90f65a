(** Loop subdivision of triangular meshes. *)
Require Import List Arith ZArith Bool Lia Permutation.
From Verif Require Import Util CombModel CombSpec CombProofs SimpModel SimpSpec ParProofs SimpProofs LevelProofs TopProofs
  BdryModel BdrySpec OrientProofs SubProofs SubdModel SubdSpec FundProofs BaryProofs.
Import ListNotations.
Local Open Scope nat_scope.

(** Incidence of directed edges in a triangle. *)
Lemma inc_swap : forall x y s, x <> y -> incidence_number [y; x] s = (- incidence_number [x; y] s)%Z.
Proof.
  intros x y s H. rewrite (incidence_perm_face [x; y] [y; x]) by apply perm_swap. rewrite (sgn_swap x y []) by auto. pose proof (sgn_sq [x; y]) as Q.
  transitivity (- (sgn [x; y] * sgn [x; y]) * incidence_number [x; y] s)%Z; [ring|rewrite Q; ring].
Qed.
Lemma inc_ab : forall a b c, NoDup [a; b; c] -> incidence_number [a; b] [a; b; c] = 1%Z.
Proof. intros a b c ND. rewrite (incidence_omit 2) by (simpl; auto; lia). cbn [omit firstn skipn app]. change (omit 2 [a; b; c]) with [a; b]. rewrite sgn_sq. reflexivity. Qed.
Lemma inc_bc : forall a b c, NoDup [a; b; c] -> incidence_number [b; c] [a; b; c] = 1%Z.
Proof. intros a b c ND. rewrite (incidence_omit 0) by (simpl; auto; lia). change (omit 0 [a; b; c]) with [b; c]. rewrite sgn_sq. reflexivity. Qed.
Lemma inc_ca : forall a b c, NoDup [a; b; c] -> incidence_number [c; a] [a; b; c] = 1%Z.
Proof.
  intros a b c ND. rewrite inc_swap; [|intros ->; inversion ND; subst; simpl in *; tauto]. rewrite (incidence_omit 1) by (simpl; auto; lia). change (omit 1 [a; b; c]) with [a; c]. rewrite sgn_sq. reflexivity.
Qed.

(** A face of a triangle is one of its directed edges or the reverse of one. *)
Lemma face3 : forall g a b c, is_face 1 g [a; b; c] -> exists x y, x <> y /\ g = [x; y] /\ In x [a; b; c] /\ In y [a; b; c].
Proof.
  intros g a b c (ND & L & I). destruct g as [|x [|y [|]]]; simpl in L; try lia. exists x, y. split; [intros ->; inversion ND; simpl in *; tauto|]. repeat split; auto; apply I; simpl; auto.
Qed.

Section Top.
Variables (rows : list simplex) (t : topology).
Hypothesis T : top_ok 2 rows t.
Notation n0 := (n_elements t 0).
Notation n1 := (n_elements t 1).
Notation E21 := (nth 1 (boundary_idx t) []).

Record tri (j v0 v1 v2 e0 e1 e2 : nat) : Prop := {
  t_row : nth j rows [] = [v0; v1; v2];
  t_edges : nth j E21 [] = [e0; e1; e2];
  t_v : v0 < n0 /\ v1 < n0 /\ v2 < n0;
  t_vd : v0 <> v1 /\ v0 <> v2 /\ v1 <> v2;
  t_e : e0 < n1 /\ e1 < n1 /\ e2 < n1;
  t_ed : e0 <> e1 /\ e0 <> e2 /\ e1 <> e2;
  t_e0 : Permutation (el t 1 e0) [v1; v2];
  t_e1 : Permutation (el t 1 e1) [v2; v0];
  t_e2 : Permutation (el t 1 e2) [v0; v1]
}.

Lemma tri_ex : forall j, j < length rows -> exists v0 v1 v2 e0 e1 e2, tri j v0 v1 v2 e0 e1 e2.
Proof.
  intros j Hj. pose proof (rows_inside 2 rows t ltac:(lia) T) as RI. rewrite Forall_forall in RI. destruct (RI _ (nth_In rows [] Hj)) as [L [ND _]].
  assert (BV : forall v, In v (nth j rows []) -> v < n0). { intros v Hv. apply (to_vused _ _ _ T). apply in_concat. exists (nth j rows []). split; auto. apply nth_In; auto. }
  pose proof (to_level _ _ _ T 1 ltac:(lia)) as LV. rewrite (to_top _ _ _ T) in LV.
  pose proof (lv_rectB _ _ _ _ _ LV) as RB. rewrite Forall_forall in RB. assert (LE : length (nth j E21 []) = 3) by (apply RB; apply nth_In; rewrite (lv_lenB _ _ _ _ _ LV); auto).
  pose proof (lv_idx _ _ _ _ _ LV j 0 Hj ltac:(lia)) as (K0 & P0 & _). pose proof (lv_idx _ _ _ _ _ LV j 1 Hj ltac:(lia)) as (K1 & P1 & _). pose proof (lv_idx _ _ _ _ _ LV j 2 Hj ltac:(lia)) as (K2 & P2 & _).
  change (pi 2 0) with 0 in P0. change (pi 2 1) with 1 in P1. change (pi 2 2) with 2 in P2.
  destruct (nth j rows []) as [|v0 [|v1 [|v2 [|]]]] eqn:ER; simpl in L; try lia. destruct (nth j E21 []) as [|e0 [|e1 [|e2 [|]]]] eqn:EE; simpl in LE; try lia.
  cbn [nth] in *. change (omit 0 [v0; v1; v2]) with [v1; v2] in P0. change (omit 1 [v0; v1; v2]) with [v0; v2] in P1. change (omit 2 [v0; v1; v2]) with [v0; v1] in P2.
  exists v0, v1, v2, e0, e1, e2. assert (VD : v0 <> v1 /\ v0 <> v2 /\ v1 <> v2). { inversion ND as [|? ? A1 A2]; subst. inversion A2 as [|? ? A3 A4]; subst. simpl in *. repeat split; intros ->; tauto. }
  assert (NP : forall a b c d : nat, Permutation [a; b] [c; d] -> a = c /\ b = d \/ a = d /\ b = c). { intros a b c d Q. apply Permutation_length_2_inv in Q as [Q|Q]; injection Q; auto. }
  constructor; auto.
  - repeat split; apply BV; simpl; auto.
  - split; [|split]; intros ->; [rewrite <- P1 in P0|rewrite <- P2 in P0|rewrite <- P2 in P1]; apply NP in P0 || apply NP in P1; lia.
  - symmetry. exact P0.
  - unfold el. rewrite <- P1. apply perm_swap.
  - symmetry. exact P2.
Qed.

Definition kid (j k : nat) : simplex := nth k (loop_children n0 (nth j E21 []) (nth j rows [])) [].
Definition loop : list simplex := flat_map (fun j => loop_children n0 (nth j E21 []) (nth j rows [])) (seq 0 (length rows)).

Lemma kid_eq : forall j v0 v1 v2 e0 e1 e2, tri j v0 v1 v2 e0 e1 e2 ->
  loop_children n0 (nth j E21 []) (nth j rows []) = [[e0 + n0; e1 + n0; e2 + n0]; [v0; e2 + n0; e1 + n0]; [v1; e0 + n0; e2 + n0]; [v2; e1 + n0; e0 + n0]].
Proof. intros j v0 v1 v2 e0 e1 e2 H. rewrite (t_row _ _ _ _ _ _ _ H), (t_edges _ _ _ _ _ _ _ H). reflexivity. Qed.

Lemma loop_rows_ok : concat (map (fun ev => loop_children n0 (fst ev) (snd ev)) (combine E21 (nth 2 (elements t) []))) = loop.
Proof.
  pose proof (to_level _ _ _ T 1 ltac:(lia)) as LV. pose proof (lv_lenB _ _ _ _ _ LV) as LB. rewrite (to_top _ _ _ T) in *.
  unfold loop. rewrite flat_map_concat_map. f_equal. rewrite <- (map_nth_seq _ (combine E21 rows) ([], [])). rewrite map_map, combine_length, LB, Nat.min_id. apply map_ext_in. intros j Hj. apply in_seq in Hj. rewrite combine_nth by auto. auto.
Qed.

Lemma loop_length : length loop = length rows * 4.
Proof. unfold loop. rewrite flat_map_concat_map, flen_concat, map_map. rewrite (map_ext _ (fun _ => 4)) by reflexivity. rewrite list_sum_const, seq_length. lia. Qed.
Lemma loop_nth : forall p, p < length rows * 4 -> nth p loop [] = kid (p / 4) (p mod 4) /\ p / 4 < length rows /\ p mod 4 < 4.
Proof.
  intros p Hp. destruct (nth_flat_map_rect _ _ (fun j => loop_children n0 (nth j E21 []) (nth j rows [])) 4 (seq 0 (length rows)) p [] 0 ltac:(lia)) as [E Q].
  - intros. reflexivity.
  - rewrite seq_length. auto.
  - rewrite seq_length in Q. assert (M : p mod 4 < 4) by (apply Nat.mod_upper_bound; lia). split; auto. unfold loop. rewrite E. rewrite seq_nth by auto. auto.
Qed.
Lemma loop_at : forall j k, j < length rows -> k < 4 -> nth (j * 4 + k) loop [] = kid j k /\ j * 4 + k < length loop.
Proof.
  intros j k Hj Hc. assert (B : j * 4 + k < length rows * 4) by nia. split; [|rewrite loop_length; auto]. destruct (loop_nth _ B) as [E _]. rewrite E. f_equal.
  - rewrite Nat.add_comm, Nat.div_add by lia. rewrite Nat.div_small by lia. auto.
  - rewrite Nat.add_comm, Nat.mod_add by lia. apply Nat.mod_small. lia.
Qed.

Ltac tri_facts H := let A := fresh "V" in let B := fresh "VD" in let C := fresh "EB" in let D := fresh "ED" in
  pose proof (t_v _ _ _ _ _ _ _ H) as A; pose proof (t_vd _ _ _ _ _ _ _ H) as B; pose proof (t_e _ _ _ _ _ _ _ H) as C; pose proof (t_ed _ _ _ _ _ _ _ H) as D.
Ltac nodup3 := repeat constructor; simpl; lia.

Lemma kid_facts : forall j k, j < length rows -> k < 4 -> length (kid j k) = 3 /\ NoDup (kid j k) /\ forall v, In v (kid j k) -> v < n0 + n1.
Proof.
  intros j k Hj Hk. destruct (tri_ex j Hj) as (v0 & v1 & v2 & e0 & e1 & e2 & H). unfold kid. rewrite (kid_eq _ _ _ _ _ _ _ H). tri_facts H.
  destruct k as [|[|[|[|]]]]; try lia; cbn [nth]; (split; [auto|]; split; [nodup3|]; simpl; intros; lia).
Qed.

(** Every edge lies in a triangle. *)
Lemma edge_in_tri : forall e, e < n1 -> exists j, j < length rows /\ In e (nth j E21 []).
Proof.
  intros e He. pose proof (to_level _ _ _ T 1 ltac:(lia)) as LV. rewrite (to_top _ _ _ T) in LV. destruct (lv_sub _ _ _ _ _ LV e He) as (s & c & Hs & Hc & P).
  apply In_nth with (d := []) in Hs as (j & Hj & <-). exists j. split; auto. destruct (lv_idx _ _ _ _ _ LV j c Hj Hc) as (K & P' & _). assert (Ec : pi 2 c = c) by reflexivity. rewrite Ec in P'.
  pose proof (lv_rectB _ _ _ _ _ LV) as RB. rewrite Forall_forall in RB. assert (LE : length (nth j E21 []) = 3) by (apply RB; apply nth_In; rewrite (lv_lenB _ _ _ _ _ LV); auto).
  assert (E : e = nth c (nth j E21 []) 0) by (apply (lv_uniq _ _ _ _ _ LV); auto; rewrite <- P'; symmetry; auto). rewrite E. apply nth_In. lia.
Qed.

Lemma loop_ok : simplices_ok 2 loop /\ forall v, In v (concat loop) <-> v < n0 + n1.
Proof.
  split; [split|].
  - pose proof (to_ok _ _ _ T 2 ltac:(lia)) as [NE _]. rewrite (to_top _ _ _ T) in NE. intros E. pose proof loop_length as LS. rewrite E in LS. destruct rows; [congruence|]. simpl in LS. lia.
  - apply Forall_forall. intros s Hs. apply In_nth with (d := []) in Hs as (p & Hp & <-). rewrite loop_length in Hp. destruct (loop_nth p Hp) as (-> & Hj & Hc). destruct (kid_facts (p / 4) (p mod 4)) as (A & B & _); auto.
  - intros v. rewrite in_concat. split.
    + intros (s & Hs & Hv). apply In_nth with (d := []) in Hs as (p & Hp & <-). rewrite loop_length in Hp. destruct (loop_nth p Hp) as (E & Hj & Hc). rewrite E in Hv. apply kid_facts in Hv; auto.
    + intros Hv. assert (Q : forall j k, j < length rows -> k < 4 -> In v (kid j k) -> exists x, In x loop /\ In v x). { intros j k Hj Hk I. destruct (loop_at j k Hj Hk) as [E L]. exists (kid j k). split; auto. rewrite <- E. apply nth_In; auto. }
      destruct (Nat.lt_ge_cases v n0) as [H|H].
      * apply (to_vused _ _ _ T) in H. apply in_concat in H as (s & Hs & Hvs). apply In_nth with (d := []) in Hs as (j & Hj & <-). destruct (tri_ex j Hj) as (v0 & v1 & v2 & e0 & e1 & e2 & H). rewrite (t_row _ _ _ _ _ _ _ H) in Hvs.
        destruct Hvs as [<-|[<-|[<-|[]]]]; [apply (Q j 1)|apply (Q j 2)|apply (Q j 3)]; auto; try lia; unfold kid; rewrite (kid_eq _ _ _ _ _ _ _ H); left; auto.
      * destruct (edge_in_tri (v - n0) ltac:(lia)) as (j & Hj & I). destruct (tri_ex j Hj) as (v0 & v1 & v2 & e0 & e1 & e2 & H'). apply (Q j 0 Hj ltac:(lia)). unfold kid. rewrite (kid_eq _ _ _ _ _ _ _ H'). rewrite (t_edges _ _ _ _ _ _ _ H') in I. simpl in *. lia.
Qed.

(** The oriented boundary of the four children is the boundary of the parent with its edges split. *)
Lemma kids_boundary : forall f j v0 v1 v2 e0 e1 e2, tri j v0 v1 v2 e0 e1 e2 -> antisymmetric f ->
  sumZ (map (alternating f) (map (kid j) (seq 0 4))) =
  (f [v1; (Nat.add e0 n0)] + f [(Nat.add e0 n0); v2] + (f [v2; (Nat.add e1 n0)] + f [(Nat.add e1 n0); v0]) + (f [v0; (Nat.add e2 n0)] + f [(Nat.add e2 n0); v1]))%Z.
Proof.
  intros f j v0 v1 v2 e0 e1 e2 H Hf. cbn [seq map]. unfold kid. rewrite (kid_eq _ _ _ _ _ _ _ H). cbn [nth]. tri_facts H.
  assert (SW : forall x y, x <> y -> f [y; x] = (- f [x; y])%Z).
  { intros x y Hxy. rewrite (Hf [x; y] [y; x]); [|repeat constructor; simpl; lia|apply perm_swap]. rewrite (sgn_swap x y []) by auto. pose proof (sgn_sq [x; y]) as Q. transitivity (- (sgn [x; y] * sgn [x; y]) * f [x; y])%Z; [ring|rewrite Q; ring]. }
  unfold alternating, omit, sgn_pow, sumZ. cbn [length seq map firstn skipn app fold_right Nat.odd].
  change (Nat.odd 0) with false. change (Nat.odd 1) with true. change (Nat.odd 2) with false. cbv iota.
  rewrite (SW v2 (e0 + n0)), (SW v1 (e2 + n0)), (SW v0 (e1 + n0)), (SW (e0 + n0) (e1 + n0)), (SW (e1 + n0) (e2 + n0)) by lia. ring.
Qed.

(** Shape of the faces of the children. *)
Lemma kid_face : forall j k g, j < length rows -> k < 4 -> is_face 1 g (kid j k) ->
  (exists v w e, v < n0 /\ w < n0 /\ v <> w /\ e < n1 /\ Permutation (el t 1 e) [v; w] /\ Permutation g [v; e + n0] /\ 1 <= k /\ nth (k - 1) (nth j rows []) 0 = v /\
      is_face 1 [v; w] (nth j rows []) /\ incidence_number [v; e + n0] (kid j k) = incidence_number [v; w] (nth j rows [])) \/
  (exists a b, a <> b /\ In a (nth j E21 []) /\ In b (nth j E21 []) /\ g = [a + n0; b + n0]).
Proof.
  intros j k g Hj Hk F. destruct (tri_ex j Hj) as (v0 & v1 & v2 & e0 & e1 & e2 & H). tri_facts H. unfold kid in *. rewrite (kid_eq _ _ _ _ _ _ _ H) in *.
  assert (ND : NoDup [v0; v1; v2]) by nodup3. assert (ND1 : NoDup [v0; e2 + n0; e1 + n0]) by nodup3. assert (ND2 : NoDup [v1; e0 + n0; e2 + n0]) by nodup3. assert (ND3 : NoDup [v2; e1 + n0; e0 + n0]) by nodup3.
  assert (FC : forall x y, x <> y -> In x [v0; v1; v2] -> In y [v0; v1; v2] -> is_face 1 [x; y] [v0; v1; v2]).
  { intros x y Hxy I1 I2. split; [repeat constructor; simpl; lia|split; auto]. intros z [<-|[<-|[]]]; auto. }
  rewrite (t_row _ _ _ _ _ _ _ H), (t_edges _ _ _ _ _ _ _ H). pose proof (t_e0 _ _ _ _ _ _ _ H) as P0. pose proof (t_e1 _ _ _ _ _ _ _ H) as P1. pose proof (t_e2 _ _ _ _ _ _ _ H) as P2.
  assert (P0' : Permutation (el t 1 e0) [v2; v1]) by (rewrite P0; apply perm_swap). assert (P1' : Permutation (el t 1 e1) [v0; v2]) by (rewrite P1; apply perm_swap). assert (P2' : Permutation (el t 1 e2) [v1; v0]) by (rewrite P2; apply perm_swap).
  destruct k as [|[|[|[|]]]]; try lia; cbn [nth Nat.sub] in *; apply face3 in F as (x & y & Hxy & -> & Ix & Iy).
  - right. cbn [In] in Ix, Iy. destruct Ix as [<-|[<-|[<-|[]]]]; destruct Iy as [<-|[<-|[<-|[]]]]; try lia; eexists _, _; (split; [|split; [|split; [|reflexivity]]]); simpl; auto; lia.
  - destruct Ix as [<-|[<-|[<-|[]]]]; destruct Iy as [<-|[<-|[<-|[]]]]; try lia;
     try (right; eexists _, _; (split; [|split; [|split; [|reflexivity]]]); simpl; auto; lia); left.
    + exists v0, v1, e2. repeat (split; [try lia; auto; try apply FC; simpl; auto; try apply perm_swap; try lia|]). rewrite !inc_ab; auto.
    + exists v0, v2, e1. repeat (split; [try lia; auto; try apply FC; simpl; auto; try apply perm_swap; try lia|]). rewrite (inc_swap (e1 + n0) v0), (inc_swap v2 v0) by lia. rewrite !inc_ca; auto.
    + exists v0, v1, e2. repeat (split; [try lia; auto; try apply FC; simpl; auto; try apply perm_swap; try lia|]). rewrite !inc_ab; auto.
    + exists v0, v2, e1. repeat (split; [try lia; auto; try apply FC; simpl; auto; try apply perm_swap; try lia|]). rewrite (inc_swap (e1 + n0) v0), (inc_swap v2 v0) by lia. rewrite !inc_ca; auto.
  - destruct Ix as [<-|[<-|[<-|[]]]]; destruct Iy as [<-|[<-|[<-|[]]]]; try lia;
     try (right; eexists _, _; (split; [|split; [|split; [|reflexivity]]]); simpl; auto; lia); left.
    + exists v1, v2, e0. repeat (split; [try lia; auto; try apply FC; simpl; auto; try apply perm_swap; try lia|]). rewrite inc_ab, inc_bc; auto.
    + exists v1, v0, e2. repeat (split; [try lia; auto; try apply FC; simpl; auto; try apply perm_swap; try lia|]). rewrite (inc_swap (e2 + n0) v1), (inc_swap v0 v1) by lia. rewrite inc_ca, inc_ab; auto.
    + exists v1, v2, e0. repeat (split; [try lia; auto; try apply FC; simpl; auto; try apply perm_swap; try lia|]). rewrite inc_ab, inc_bc; auto.
    + exists v1, v0, e2. repeat (split; [try lia; auto; try apply FC; simpl; auto; try apply perm_swap; try lia|]). rewrite (inc_swap (e2 + n0) v1), (inc_swap v0 v1) by lia. rewrite inc_ca, inc_ab; auto.
  - destruct Ix as [<-|[<-|[<-|[]]]]; destruct Iy as [<-|[<-|[<-|[]]]]; try lia;
     try (right; eexists _, _; (split; [|split; [|split; [|reflexivity]]]); simpl; auto; lia); left.
    + exists v2, v0, e1. repeat (split; [try lia; auto; try apply FC; simpl; auto; try apply perm_swap; try lia|]). rewrite inc_ab, inc_ca; auto.
    + exists v2, v1, e0. repeat (split; [try lia; auto; try apply FC; simpl; auto; try apply perm_swap; try lia|]). rewrite (inc_swap (e0 + n0) v2), (inc_swap v1 v2) by lia. rewrite inc_ca, inc_bc; auto.
    + exists v2, v0, e1. repeat (split; [try lia; auto; try apply FC; simpl; auto; try apply perm_swap; try lia|]). rewrite inc_ab, inc_ca; auto.
    + exists v2, v1, e0. repeat (split; [try lia; auto; try apply FC; simpl; auto; try apply perm_swap; try lia|]). rewrite (inc_swap (e0 + n0) v2), (inc_swap v1 v2) by lia. rewrite inc_ca, inc_bc; auto.
Qed.

(** Children of one triangle. *)
Lemma kids_consistent : forall j k k' g, j < length rows -> k < 4 -> k' < 4 -> k <> k' -> is_face 1 g (kid j k) -> is_face 1 g (kid j k') ->
  incidence_number g (kid j k) = (- incidence_number g (kid j k'))%Z.
Proof.
  intros j k k' g Hj Hk Hk' Hne F F'. destruct (tri_ex j Hj) as (v0 & v1 & v2 & e0 & e1 & e2 & H). tri_facts H. unfold kid in *. rewrite (kid_eq _ _ _ _ _ _ _ H) in *.
  assert (ND0 : NoDup [e0 + n0; e1 + n0; e2 + n0]) by nodup3. assert (ND1 : NoDup [v0; e2 + n0; e1 + n0]) by nodup3. assert (ND2 : NoDup [v1; e0 + n0; e2 + n0]) by nodup3. assert (ND3 : NoDup [v2; e1 + n0; e0 + n0]) by nodup3.
  assert (WLOG : forall s s', is_face 1 g s -> is_face 1 g s' ->
     ((s = [e0 + n0; e1 + n0; e2 + n0] /\ (s' = [v0; e2 + n0; e1 + n0] \/ s' = [v1; e0 + n0; e2 + n0] \/ s' = [v2; e1 + n0; e0 + n0])) -> incidence_number g s = (- incidence_number g s')%Z)).
  { intros s s' Fs Fs' [-> D]. apply face3 in Fs as (x & y & Hxy & -> & Ix & Iy). destruct D as [-> |[-> | ->]]; apply face3 in Fs' as (x' & y' & _ & E & Ix' & Iy'); injection E as <- <-; cbn [In] in *;
     destruct Ix as [<-|[<-|[<-|[]]]]; destruct Iy as [<-|[<-|[<-|[]]]]; try lia;
     repeat first [rewrite inc_ab by auto | rewrite inc_bc by auto | rewrite inc_ca by auto
       | match goal with |- context [incidence_number [?p; ?q] [?a; ?b; ?c]] =>
           first [constr_eq p b; constr_eq q a | constr_eq p c; constr_eq q b | constr_eq p a; constr_eq q c]; rewrite (inc_swap q p) by lia end]; reflexivity. }
  assert (NC : forall s s' a b c d x y, s = [a; b; c] -> s' = [d; x; y] -> ~ In a s' -> ~ In d s -> (b <> x \/ c <> y) /\ (b <> y \/ c <> x) -> is_face 1 g s -> is_face 1 g s' -> False).
  { intros s s' a b c d x y -> -> N1 N2 [Q1 Q2] Fs Fs'. apply face3 in Fs as (p & q & Hpq & -> & Ip & Iq). apply face3 in Fs' as (p' & q' & _ & E & Ip' & Iq'). injection E as <- <-. clear - N1 N2 Q1 Q2 Hpq Ip Iq Ip' Iq'. cbn [In] in *.
    assert (A1 : d <> a /\ x <> a /\ y <> a) by (repeat split; intros Z0; apply N1; auto). assert (A2 : a <> d /\ b <> d /\ c <> d) by (repeat split; intros Z0; apply N2; auto). clear N1 N2.
    destruct Ip as [Ip|[Ip|[Ip|[]]]]; subst p; [lia| |]; destruct Iq as [Iq|[Iq|[Iq|[]]]]; subst q; lia. }
  destruct k as [|[|[|[|]]]]; try lia; destruct k' as [|[|[|[|]]]]; try lia; cbn [nth] in *;
    try (apply WLOG; auto; fail);
    try (match goal with |- incidence_number g ?s = (- incidence_number g ?s')%Z => pose proof (WLOG s' s F' F) as W; rewrite W by auto; ring end; fail);
    (exfalso; eapply NC; [reflexivity|reflexivity| | | |exact F|exact F']; simpl; try lia).
Qed.

Definition distinct_triangles : Prop := forall j j', j < length rows -> j' < length rows -> Permutation (nth j rows []) (nth j' rows []) -> j = j'.

Lemma two_edges : forall j j' a b, j < length rows -> j' < length rows -> a <> b -> In a (nth j E21 []) -> In b (nth j E21 []) -> In a (nth j' E21 []) -> In b (nth j' E21 []) ->
  Permutation (nth j rows []) (nth j' rows []).
Proof.
  intros j j' a b Hj Hj' Hab A1 B1 A2 B2.
  assert (Q : forall i, i < length rows -> In a (nth i E21 []) -> In b (nth i E21 []) -> NoDup (nth i rows []) /\ length (nth i rows []) = 3 /\ forall v, In v (nth i rows []) <-> In v (el t 1 a) \/ In v (el t 1 b)).
  { intros i Hi Ia Ib. destruct (tri_ex i Hi) as (v0 & v1 & v2 & e0 & e1 & e2 & H). tri_facts H. rewrite (t_row _ _ _ _ _ _ _ H). rewrite (t_edges _ _ _ _ _ _ _ H) in Ia, Ib. split; [nodup3|]. split; auto.
    pose proof (t_e0 _ _ _ _ _ _ _ H) as P0. pose proof (t_e1 _ _ _ _ _ _ _ H) as P1. pose proof (t_e2 _ _ _ _ _ _ _ H) as P2.
    assert (M : forall e x y, Permutation (el t 1 e) [x; y] -> forall v, In v (el t 1 e) <-> v = x \/ v = y). { intros e x y P v. split; intros I; [apply (Permutation_in _ P) in I; simpl in I; intuition|apply (Permutation_in _ (Permutation_sym P)); simpl; intuition]. }
    intros v. destruct Ia as [<-|[<-|[<-|[]]]]; destruct Ib as [<-|[<-|[<-|[]]]]; try lia; rewrite ?(M _ _ _ P0), ?(M _ _ _ P1), ?(M _ _ _ P2); simpl; lia. }
  destruct (Q j Hj A1 B1) as (N1 & L1 & M1). destruct (Q j' Hj' A2 B2) as (N2 & L2 & M2). apply NoDup_Permutation; auto. intros v. rewrite M1, M2. tauto.
Qed.

Lemma loop_consistent : distinct_triangles -> consistent 2 rows <-> consistent 2 loop.
Proof.
  intros DT. split.
  - intros C p p' Hp Hp' Hne g F F'. rewrite loop_length in Hp, Hp'. destruct (loop_nth p Hp) as (E & Hj & Hk). destruct (loop_nth p' Hp') as (E' & Hj' & Hk'). rewrite E in F |- *. rewrite E' in F' |- *. change (2 - 1) with 1 in *.
    assert (D1 : p = 4 * (p / 4) + p mod 4) by (apply Nat.div_mod; lia). assert (D2 : p' = 4 * (p' / 4) + p' mod 4) by (apply Nat.div_mod; lia).
    set (j := p / 4) in *. set (k := p mod 4) in *. set (j' := p' / 4) in *. set (k' := p' mod 4) in *. clearbody j k j' k'.
    destruct (Nat.eq_dec j j') as [<-|Hjj]; [apply kids_consistent; auto; lia|].
    destruct (kid_face j k g Hj Hk F) as [(v & w & e & Hv & Hw & Hvw & He & Pe & Pg & K1 & Nk & Fr & I1)|(a & b & Hab & Ia & Ib & Eg)];
    destruct (kid_face j' k' g Hj' Hk' F') as [(v' & w' & e' & Hv' & Hw' & Hvw' & He' & Pe' & Pg' & K1' & Nk' & Fr' & I1')|(a' & b' & Hab' & Ia' & Ib' & Eg')].
    + rewrite Pg in Pg'. apply Permutation_length_2_inv in Pg' as [Q|Q]; injection Q as Q1 Q2; [|lia]. assert (v = v') by lia. assert (e = e') by lia. subst v' e'. rewrite Pe in Pe'. apply Permutation_length_2_inv in Pe' as [Q|Q]; injection Q as Q3; [|lia]. subst w'.
      rewrite (incidence_perm_face [v; e + n0] g) by (symmetry; auto). rewrite (incidence_perm_face [v; e + n0] g (kid j' k')) by (symmetry; auto). rewrite I1, I1'. rewrite (C j j' Hj Hj' Hjj [v; w] Fr Fr'). ring.
    + exfalso. subst g. apply Permutation_length_2_inv in Pg as [Q|Q]; injection Q; lia.
    + exfalso. subst g. apply Permutation_length_2_inv in Pg' as [Q|Q]; injection Q; lia.
    + exfalso. apply Hjj. apply DT; auto. rewrite Eg in Eg'. injection Eg' as Q1 Q2. assert (a = a') by lia. assert (b = b') by lia. subst. apply (two_edges j j' a' b'); auto.
  - intros C j j' Hj Hj' Hjj g F F'. change (2 - 1) with 1 in *.
    (* the corner child that contains the first half of the shared edge *)
    assert (Q : forall i, i < length rows -> is_face 1 g (nth i rows []) -> exists v w e k, g = [v; w] /\ v < n0 /\ e < n1 /\ Permutation (el t 1 e) [v; w] /\ k < 4 /\ is_face 1 [v; e + n0] (kid i k) /\ incidence_number [v; e + n0] (kid i k) = incidence_number g (nth i rows [])).
    { intros i Hi Fi. destruct (tri_ex i Hi) as (v0 & v1 & v2 & e0 & e1 & e2 & H). tri_facts H. rewrite (t_row _ _ _ _ _ _ _ H) in Fi |- *. pose proof (t_e0 _ _ _ _ _ _ _ H) as P0. pose proof (t_e1 _ _ _ _ _ _ _ H) as P1. pose proof (t_e2 _ _ _ _ _ _ _ H) as P2.
      assert (P0' : Permutation (el t 1 e0) [v2; v1]) by (rewrite P0; apply perm_swap). assert (P1' : Permutation (el t 1 e1) [v0; v2]) by (rewrite P1; apply perm_swap). assert (P2' : Permutation (el t 1 e2) [v1; v0]) by (rewrite P2; apply perm_swap).
      assert (ND : NoDup [v0; v1; v2]) by nodup3. assert (ND1 : NoDup [v0; e2 + n0; e1 + n0]) by nodup3. assert (ND2 : NoDup [v1; e0 + n0; e2 + n0]) by nodup3. assert (ND3 : NoDup [v2; e1 + n0; e0 + n0]) by nodup3.
      assert (FC : forall x y a b c, x <> y -> In x [a; b; c] -> In y [a; b; c] -> is_face 1 [x; y] [a; b; c]). { intros x y a b c Hxy I1 I2. split; [repeat constructor; simpl; lia|split; auto]. intros z [<-|[<-|[]]]; auto. }
      apply face3 in Fi as (x & y & Hxy & -> & Ix & Iy). exists x, y. unfold kid. rewrite (kid_eq _ _ _ _ _ _ _ H). cbn [In] in Ix, Iy. destruct Ix as [<-|[<-|[<-|[]]]]; destruct Iy as [<-|[<-|[<-|[]]]]; try lia.
      - exists e2, 1. cbn [nth]. repeat (split; [auto; try lia; try (apply FC; simpl; auto; lia)|]). rewrite !inc_ab; auto.
      - exists e1, 1. cbn [nth]. repeat (split; [auto; try lia; try (apply FC; simpl; auto; lia)|]). rewrite (inc_swap (e1 + n0) v0), (inc_swap v2 v0) by lia. rewrite !inc_ca; auto.
      - exists e2, 2. cbn [nth]. repeat (split; [auto; try lia; try (apply FC; simpl; auto; lia)|]). rewrite (inc_swap (e2 + n0) v1), (inc_swap v0 v1) by lia. rewrite inc_ca, inc_ab; auto.
      - exists e0, 2. cbn [nth]. repeat (split; [auto; try lia; try (apply FC; simpl; auto; lia)|]). rewrite inc_ab, inc_bc; auto.
      - exists e1, 3. cbn [nth]. repeat (split; [auto; try lia; try (apply FC; simpl; auto; lia)|]). rewrite inc_ab, inc_ca; auto.
      - exists e0, 3. cbn [nth]. repeat (split; [auto; try lia; try (apply FC; simpl; auto; lia)|]). rewrite (inc_swap (e0 + n0) v2), (inc_swap v1 v2) by lia. rewrite inc_ca, inc_bc; auto. }
    destruct (Q j Hj F) as (v & w & e & k & Eg & Hv & He & Pe & Hk & Fk & I1). destruct (Q j' Hj' F') as (v' & w' & e' & k' & Eg' & Hv' & He' & Pe' & Hk' & Fk' & I1'). rewrite Eg in Eg'. injection Eg' as <- <-.
    assert (e = e') by (apply (faces_unique 2 rows t T 1); auto; change (Permutation (el t 1 e) (el t 1 e')); rewrite Pe, Pe'; auto). subst e'.
    destruct (loop_at j k Hj Hk) as [L1 L2]. destruct (loop_at j' k' Hj' Hk') as [L1' L2']. rewrite <- I1, <- I1', <- L1, <- L1'. apply C; auto; [lia|rewrite L1; auto|rewrite L1'; auto].
Qed.
End Top.
