(** Triangles cut into quads. *)
Require Import List Arith ZArith Bool Lia Permutation.
From Verif Require Import Arr Util CombModel CombSpec CombProofs SimpModel SimpSpec ParProofs SimpProofs LevelProofs TopProofs BdryModel BdrySpec.
From Verif Require Import OrientProofs SubProofs SubdModel BaryProofs LoopProofs LoopTransfer TriModel TriSpec LinModel TriProofs TriMesh.
From Verif Require Import CubeModel CubeSpec CubeBits CubeBd CubeRel CubeTop CubeChain COrSpec CubeGrid QuadModel QuadSpec QuadProofs QuadTri.
Import ListNotations.
Local Open Scope nat_scope.

Definition ne (c : nat) : nat := if c =? 2 then 0 else S c.
Definition pr (c : nat) : nat := match c with 0 => 2 | S k => k end.
Lemma ne_lt : forall c, c < 3 -> ne c < 3 /\ pr c < 3 /\ ne (pr c) = c /\ pr (ne c) = c /\ ne c <> c /\ pr c <> c /\ (forall c', c' < 3 -> c' = c \/ c' = ne c \/ c' = pr c).
Proof. intros c Hc. do 3 (destruct c as [|c]; [cbn; repeat split; try lia|]). lia. Qed.
Lemma pr_inj : forall c c', c < 3 -> c' < 3 -> pr c = pr c' -> c = c'.
Proof. intros c c' H H' E. destruct (ne_lt c H) as (_ & _ & A & _), (ne_lt c' H') as (_ & _ & A' & _). congruence. Qed.

Section Cut.
Variables (rows : list simplex) (t : topology).
Hypothesis OK : simplices_ok 2 rows.
Hypothesis T : top_ok 2 rows t.
Notation N := (length rows).
Notation n0 := (n_elements t 0).
Notation n1 := (n_elements t 1).
Notation E21 := (nth 1 (boundary_idx t) []).
Definition av (j c : nat) : nat := nth c (nth j rows []) 0.
(** The edge from corner [c] to the next one. *)
Definition ge (j c : nat) : nat := nth c (np_roll 1 (nth j E21 [])) 0.
Definition cq (j c : nat) : cube := [av j c; ge j (pr c) + n0; ge j c + n0; j + (n0 + n1)].

Lemma off1 : offset t 1 = n0.
Proof. unfold offset, n_elements. cbn. lia. Qed.
Lemma off2 : offset t 2 = n0 + n1.
Proof. unfold offset, n_elements. cbn. lia. Qed.
Lemma rows_tri : Forall triangle rows.
Proof. destruct OK as [_ F]. exact F. Qed.
Record half (j : nat) : Prop := {
  h_row : nth j rows [] = [av j 0; av j 1; av j 2];
  h_edges : nth j E21 [] = [ge j 1; ge j 2; ge j 0];
  h_td : td rows j = [(av j 0, av j 1); (av j 1, av j 2); (av j 2, av j 0)];
  h_lt : forall c, c < 3 -> av j c < n0 /\ ge j c < n1;
  h_av : forall c c', c < 3 -> c' < 3 -> av j c = av j c' -> c = c';
  h_ge : forall c c', c < 3 -> c' < 3 -> ge j c = ge j c' -> c = c';
  h_ends : forall c, c < 3 -> Permutation (el t 1 (ge j c)) [av j c; av j (ne c)]
}.
Lemma half_ex : forall j, j < N -> half j.
Proof.
  intros j Hj. destruct (tri_ex rows t T j Hj) as (v0 & v1 & v2 & e0 & e1 & e2 & H). pose proof (t_row _ _ _ _ _ _ _ _ _ H) as R. pose proof (t_edges _ _ _ _ _ _ _ _ _ H) as E.
  pose proof (t_v _ _ _ _ _ _ _ _ _ H) as V. pose proof (t_vd _ _ _ _ _ _ _ _ _ H) as VD. pose proof (t_e _ _ _ _ _ _ _ _ _ H) as HE. pose proof (t_ed _ _ _ _ _ _ _ _ _ H) as ED.
  pose proof (t_e0 _ _ _ _ _ _ _ _ _ H) as P0. pose proof (t_e1 _ _ _ _ _ _ _ _ _ H) as P1. pose proof (t_e2 _ _ _ _ _ _ _ _ _ H) as P2.
  constructor; unfold av, ge, td; rewrite ?R, ?E.
  - reflexivity.
  - reflexivity.
  - reflexivity.
  - intros c Hc. do 3 (destruct c as [|c]; [cbn; lia|]). lia.
  - intros c c' Hc Hc'. do 3 (destruct c as [|c]; [do 3 (destruct c' as [|c']; [cbn; lia|]); lia|]). lia.
  - intros c c' Hc Hc'. do 3 (destruct c as [|c]; [do 3 (destruct c' as [|c']; [cbn; lia|]); lia|]). lia.
  - intros c Hc. do 3 (destruct c as [|c]; [cbn; auto|]). lia.
Qed.
Lemma quads_eq : forall j, j < N -> triangle_quads t j = map (cq j) (seq 0 3).
Proof.
  intros j Hj. unfold triangle_quads. rewrite (to_top _ _ _ T), off1, off2. apply map_ext_in. intros c Hc. apply in_seq in Hc. unfold cq, av, ge. rewrite (h_edges j (half_ex j Hj)).
  assert (c < 3) by lia. clear Hc. do 3 (destruct c as [|c]; [reflexivity|]). lia.
Qed.
Definition Qs : list cube := concat (map (triangle_quads t) (seq 0 (length (nth 2 (elements t) [])))).
Lemma Qs_eq : Qs = flat_map (fun j => map (cq j) (seq 0 3)) (seq 0 N).
Proof. unfold Qs. rewrite (to_top _ _ _ T), flat_map_concat_map. f_equal. apply map_ext_in. intros j Hj. apply in_seq in Hj. apply quads_eq. lia. Qed.
Lemma Qs_length : length Qs = N * 3.
Proof. rewrite Qs_eq, (flat_map_const_length _ _ _ _ 3) by (intros; rewrite map_length, seq_length; auto). rewrite seq_length. lia. Qed.
Lemma Qs_nth : forall p, p < N * 3 -> nth p Qs [] = cq (p / 3) (p mod 3) /\ p / 3 < N /\ p mod 3 < 3.
Proof.
  intros p Hp. assert (Hj : p / 3 < N) by (apply Nat.div_lt_upper_bound; lia). assert (Hq : p mod 3 < 3) by (apply Nat.mod_upper_bound; lia). split; auto.
  rewrite Qs_eq. rewrite (Nat.div_mod p 3) at 1 by lia. rewrite (Nat.mul_comm 3).
  rewrite (nth_flat_map_const nat (list nat) (fun j => map (cq j) (seq 0 3)) (seq 0 N) 3 (fun x _ => eq_trans (map_length _ _) (seq_length _ _)) _ _ 0) by (auto; rewrite seq_length; auto).
  rewrite seq_nth by auto. rewrite nth_map_seq by auto. auto.
Qed.
Lemma Qs_at : forall j c, j < N -> c < 3 -> j * 3 + c < N * 3 /\ (j * 3 + c) / 3 = j /\ (j * 3 + c) mod 3 = c /\ nth (j * 3 + c) Qs [] = cq j c.
Proof.
  intros j c Hj Hc. assert (H : j * 3 + c < N * 3) by lia. assert (Ed : (j * 3 + c) / 3 = j) by (rewrite Nat.div_add_l, Nat.div_small by lia; lia). assert (Em : (j * 3 + c) mod 3 = c) by (rewrite Nat.add_comm, Nat.mod_add, Nat.mod_small by lia; lia).
  split; auto. split; auto. split; auto. destruct (Qs_nth _ H) as (E & _). rewrite Ed, Em in E. auto.
Qed.
Lemma pos3 : forall p p', p / 3 = p' / 3 -> p mod 3 = p' mod 3 -> p = p'.
Proof. intros p p' A B. rewrite (Nat.div_mod p 3), (Nat.div_mod p' 3) by lia. congruence. Qed.
Lemma Qs_quads : Forall quad Qs.
Proof.
  apply Forall_forall. intros q Hq. apply In_nth with (d := []) in Hq as (p & Hp & <-). rewrite Qs_length in Hp. destruct (Qs_nth p Hp) as (-> & Hj & Hc). pose proof (half_ex _ Hj) as H. set (j := p / 3) in *. set (c := p mod 3) in *.
  destruct (ne_lt c Hc) as (_ & P & _ & _ & _ & PN & _). destruct (h_lt j H c Hc) as [A B]. destruct (h_lt j H (pr c) P) as [A' B']. assert (D : ge j (pr c) <> ge j c) by (intros E; apply PN, (h_ge j H); auto).
  split; [reflexivity|]. unfold cq. repeat constructor; cbn [In]; lia.
Qed.
Lemma edge_half : forall e, e < n1 -> exists j c, j < N /\ c < 3 /\ ge j c = e.
Proof.
  intros e He. destruct (edge_in_tri rows t T e He) as (j & Hj & I). exists j. rewrite (h_edges j (half_ex j Hj)) in I. destruct I as [I|[I|[I|[]]]]; [exists 1|exists 2|exists 0]; (split; [auto|]; split; [lia|auto]).
Qed.
Lemma Qs_vertices : forall v, In v (concat Qs) <-> v < n0 + n1 + N.
Proof.
  intros v. rewrite in_concat. split.
  - intros (s & Hs & Hv). apply In_nth with (d := []) in Hs as (p & Hp & <-). rewrite Qs_length in Hp. destruct (Qs_nth p Hp) as (E & Hj & Hq). rewrite E in Hv. pose proof (half_ex _ Hj) as H. destruct (h_lt _ H _ Hq) as [A B].
    destruct (ne_lt _ Hq) as (_ & P & _). destruct (h_lt _ H _ P) as [A' B']. unfold cq in Hv. cbn [In] in Hv. lia.
  - intros Hv. assert (G : forall j c, j < N -> c < 3 -> In (cq j c) Qs) by (intros j c Hj Hc; destruct (Qs_at j c Hj Hc) as (Hp & _ & _ & <-); apply nth_In; rewrite Qs_length; auto).
    destruct (le_lt_dec (n0 + n1) v) as [L|L]; [|destruct (le_lt_dec n0 v) as [L'|L']].
    + exists (cq (v - (n0 + n1)) 0). split; [apply G; lia|]. unfold cq. cbn [In]. lia.
    + destruct (edge_half (v - n0) ltac:(lia)) as (j & c & Hj & Hc & E). exists (cq j c). split; auto. unfold cq. cbn [In]. lia.
    + apply (to_vused _ _ _ T) in L'. apply in_concat in L' as (r & Hr & Hv'). apply In_nth with (d := []) in Hr as (j & Hj & <-). rewrite (h_row j (half_ex j Hj)) in Hv'.
      destruct Hv' as [<-|[<-|[<-|[]]]]; [exists (cq j 0)|exists (cq j 1)|exists (cq j 2)]; (split; [apply G; auto|left; auto]).
Qed.
Lemma Qs_ok : cubes_ok 2 Qs.
Proof.
  split.
  - intros E. pose proof Qs_length as L. rewrite E in L. destruct OK as [NE _]. destruct rows; [auto|simpl in L; lia].
  - apply Qs_quads.
Qed.
Lemma Qs_faces : faces_match 1 2 Qs.
Proof.
  intros c d f g Hc Hd F G Pm. assert (L : forall c f, In c Qs -> subcube 1 2 c f -> length f = 2).
  { intros c0 f0 _ F0. inversion F0 as [|n a s c1 d1 f1 Ha S0 F1]; subst. inversion F1; subst; [destruct S0; auto|]. match goal with H : subcube 1 0 _ _ |- _ => inversion H end. }
  apply L in F; auto. apply L in G; auto. destruct f as [|x [|y [|]]]; simpl in F; try lia. destruct g as [|u [|v [|]]]; simpl in G; try lia.
  apply Permutation_length_2_inv in Pm as [E|E]; injection E as -> ->; [exists 1%Z; constructor|exists (-1)%Z; apply related1_swap].
Qed.

(** Directed edges of the quads. *)
Notation D := (qd Qs).
Lemma qd_cases : forall p x y, p < N * 3 -> let j := p / 3 in let c := p mod 3 in (In (x, y) (D p) <->
  (x = av j c /\ y = ge j (pr c) + n0) \/ (x = j + (n0 + n1) /\ y = ge j c + n0) \/ (x = ge j c + n0 /\ y = av j c) \/ (x = ge j (pr c) + n0 /\ y = j + (n0 + n1))).
Proof.
  intros p x y Hp j c. unfold qd. destruct (Qs_nth p Hp) as (-> & _). fold j. fold c. unfold cq. cbn [qedges In]. split.
  - intros [E|[E|[E|[E|[]]]]]; injection E as <- <-; auto.
  - intros [[-> ->]|[[-> ->]|[[-> ->]|[-> ->]]]]; auto.
Qed.
(** Undirected: a half of an edge at a corner, or the line from the centre to an edge. *)
Lemma qd_has : forall p x y, p < N * 3 -> x < y -> let j := p / 3 in let c := p mod 3 in (fhas D p x y <->
  exists i, (i = c \/ i = pr c) /\ ((x = av j c /\ y = ge j i + n0) \/ (x = ge j i + n0 /\ y = j + (n0 + n1)))).
Proof.
  intros p x y Hp L j c. unfold fhas. rewrite !qd_cases by auto. cbv zeta. fold j. fold c. destruct (Qs_nth p Hp) as (_ & Hj & Hc). pose proof (half_ex _ Hj) as H. destruct (h_lt _ H _ Hc) as [A B].
  destruct (ne_lt _ Hc) as (_ & P & _). destruct (h_lt _ H _ P) as [A' B']. fold j in A, B, A', B'. fold c in A, B, A', B'. split.
  - intros [[X|[X|[X|X]]]|[X|[X|[X|X]]]]; try lia; [exists (pr c)|exists (pr c)|exists c|exists c]; lia.
  - intros (i & [-> | ->] & [X|X]); lia.
Qed.
Lemma order : forall p x y, p < N * 3 -> fhas D p x y -> x <> y.
Proof. intros p x y Hp. apply qd_neq; [apply Qs_quads|rewrite Qs_length; auto]. Qed.
Lemma el_uniq : forall e e', e < n1 -> e' < n1 -> Permutation (el t 1 e) (el t 1 e') -> e = e'.
Proof. intros e e' He He' Pm. pose proof (to_level _ _ _ T 1 ltac:(lia)) as L. apply (lv_uniq _ _ _ _ _ L); auto. Qed.
Lemma td_half : forall j x y, j < N -> (In (x, y) (td rows j) <-> exists c, c < 3 /\ x = av j c /\ y = av j (ne c)).
Proof.
  intros j x y Hj. rewrite (h_td j (half_ex j Hj)). cbn [In]. split.
  - intros [E|[E|[E|[]]]]; injection E as <- <-; [exists 0|exists 1|exists 2]; (split; [lia|auto]).
  - intros (c & Hc & -> & ->). do 3 (destruct c as [|c]; [cbn; auto|]). lia.
Qed.
(** A triangle has edge [e] exactly if it has the ends of [e]. *)
Lemma has_edge : forall j e x y, j < N -> e < n1 -> Permutation (el t 1 e) [x; y] -> (fhas (td rows) j x y <-> exists c, c < 3 /\ ge j c = e).
Proof.
  intros j e x y Hj He Pm. pose proof (half_ex j Hj) as H. split.
  - intros F. assert (C : exists c, c < 3 /\ Permutation [x; y] [av j c; av j (ne c)]) by (destruct F as [I|I]; apply td_half in I as (c & Hc & -> & ->); auto; exists c; split; auto using perm_swap).
    destruct C as (c & Hc & P). exists c. split; auto. apply el_uniq; auto. apply (h_lt j H); auto. rewrite (h_ends j H c Hc), Pm, P. auto.
  - intros (c & Hc & <-). rewrite (h_ends j H c Hc) in Pm. assert (I : In (av j c, av j (ne c)) (td rows j)) by (apply td_half; eauto). apply Permutation_length_2_inv in Pm as [E|E]; injection E as -> ->; [left|right]; auto.
Qed.
Lemma edge_pair : forall e, e < n1 -> exists x y, el t 1 e = [x; y] /\ x <> y.
Proof.
  intros e He. destruct (edge_half e He) as (j & c & Hj & Hc & <-). pose proof (half_ex j Hj) as H. pose proof (h_ends j H c Hc) as Pm. symmetry in Pm. destruct (ne_lt c Hc) as (Nc & _ & _ & _ & Nn & _).
  assert (A : av j c <> av j (ne c)) by (intros E; apply Nn; symmetry; apply (h_av j H); auto). apply Permutation_length_2_inv in Pm as [E|E]; eauto.
Qed.
Lemma corner_of_half : forall j c v, j < N -> c < 3 -> In v (el t 1 (ge j c)) -> v = av j c \/ v = av j (ne c).
Proof. intros j c v Hj Hc I. apply (Permutation_in _ (h_ends j (half_ex j Hj) c Hc)) in I. cbn in I. intuition. Qed.
(** In a triangle with edge [e], exactly one quad is at end [v] of [e]. *)
Lemma at_corner : forall j e v, j < N -> (exists c, c < 3 /\ ge j c = e) -> In v (el t 1 e) -> exists c i, c < 3 /\ (i = c \/ i = pr c) /\ av j c = v /\ ge j i = e.
Proof.
  intros j e v Hj (c & Hc & <-) I. destruct (ne_lt c Hc) as (Nc & _ & _ & PN & _). destruct (corner_of_half j c v Hj Hc I) as [-> | ->]; [exists c, c; auto|]. exists (ne c), c. rewrite PN. auto.
Qed.
Lemma corner_in : forall j c i, j < N -> c < 3 -> (i = c \/ i = pr c) -> In (av j c) (el t 1 (ge j i)).
Proof.
  intros j c i Hj Hc Hi. destruct (ne_lt c Hc) as (_ & P & PN & _). assert (i < 3) by lia. pose proof (h_ends j (half_ex j Hj) i ltac:(auto)) as Pm. apply Permutation_sym in Pm. apply (Permutation_in _ Pm). destruct Hi as [-> | ->]; cbn [In]; rewrite ?PN; auto.
Qed.
Lemma cut_cons : fcons N (td rows) <-> fcons (N * 3) D.
Proof.
  split.
  - intros C p p' Hp Hp' Ne [x y] A B. destruct (Qs_nth p Hp) as (_ & Hj & Hc), (Qs_nth p' Hp') as (_ & Hj' & Hc'). rewrite qd_cases in A, B by auto. cbv zeta in A, B. apply Ne. set (j := p / 3) in *. set (c := p mod 3) in *. set (j' := p' / 3) in *. set (c' := p' mod 3) in *.
    pose proof (half_ex j Hj) as H. pose proof (half_ex j' Hj') as H'. destruct (ne_lt c Hc) as (_ & P & NP & _), (ne_lt c' Hc') as (_ & P' & NP' & _). destruct (h_lt j H c Hc) as [L1 L2], (h_lt j H (pr c) P) as [L3 L4], (h_lt j' H' c' Hc') as [L5 L6], (h_lt j' H' (pr c') P') as [L7 L8].
    assert (J : j = j' -> c = c' -> p = p') by (apply pos3).
    destruct A as [[A1 A2]|[[A1 A2]|[[A1 A2]|[A1 A2]]]], B as [[B1 B2]|[[B1 B2]|[[B1 B2]|[B1 B2]]]]; try lia.
    + (* the half before the corner *) pose proof (h_ends j H (pr c) P) as E1. pose proof (h_ends j' H' (pr c') P') as E2. rewrite NP in E1. rewrite NP' in E2. assert (G : ge j (pr c) = ge j' (pr c')) by lia. rewrite <- G, E1 in E2. assert (V : av j' c' = av j c) by lia. rewrite V in E2.
      assert (W : av j (pr c) = av j' (pr c')). { apply Permutation_length_2_inv in E2 as [X|X]; injection X; intros; congruence. }
      destruct (Nat.eq_dec j j') as [Ej|Ej]; [apply (J Ej), (h_av j H); [auto|auto|]; rewrite <- V, Ej; auto|]. exfalso. apply (C j j' Hj Hj' Ej (av j (pr c), av j c)); apply td_half; auto; [exists (pr c); rewrite NP|exists (pr c'); rewrite NP']; auto.
    + assert (Ej : j = j') by lia. apply (J Ej), (h_ge j H); auto. rewrite Ej at 2. lia.
    + pose proof (h_ends j H c Hc) as E1. pose proof (h_ends j' H' c' Hc') as E2. assert (G : ge j c = ge j' c') by lia. rewrite <- G, E1 in E2. assert (V : av j' c' = av j c) by lia. rewrite V in E2.
      assert (W : av j (ne c) = av j' (ne c')). { apply Permutation_length_2_inv in E2 as [X|X]; injection X; intros; congruence. }
      destruct (Nat.eq_dec j j') as [Ej|Ej]; [apply (J Ej), (h_av j H); [auto|auto|]; rewrite <- V, Ej; auto|]. exfalso. apply (C j j' Hj Hj' Ej (av j c, av j (ne c))); apply td_half; auto; [exists c|exists c']; auto.
    + assert (Ej : j = j') by lia. apply (J Ej), pr_inj; auto. apply (h_ge j H); auto. rewrite Ej at 2. lia.
  - intros C j j' Hj Hj' Ne [x y] A B. pose proof (half_ex j Hj) as H. pose proof (half_ex j' Hj') as H'. apply td_half in A as (c & Hc & -> & ->); auto. apply td_half in B as (c' & Hc' & B1 & B2); auto.
    assert (G : ge j c = ge j' c') by (apply el_uniq; [apply (h_lt j H); auto|apply (h_lt j' H'); auto|]; rewrite (h_ends j H c Hc), (h_ends j' H' c' Hc'), B1, B2; auto).
    destruct (Qs_at j c Hj Hc) as (P1 & D1 & M1 & _), (Qs_at j' c' Hj' Hc') as (P2 & D2 & M2 & _). apply (C _ _ P1 P2 ltac:(lia) (ge j c + n0, av j c)); apply qd_cases; auto; cbv zeta; rewrite ?D1, ?D2, ?M1, ?M2; right; right; left; auto; rewrite ?G, ?B1; auto.
Qed.
(** A half of edge [e] at corner [v] lies in the quads at [v] of the triangles with edge [e]. *)
Lemma half_has : forall e v j, e < n1 -> In v (el t 1 e) -> j < N -> ((exists c, c < 3 /\ ge j c = e) <-> exists p, p < N * 3 /\ p / 3 = j /\ fhas D p v (e + n0)).
Proof.
  intros e v j He Iv Hj. pose proof (half_ex j Hj) as H. assert (Lv : v < n0). { destruct (edge_half e He) as (j' & c & Hj' & Hc & E). subst e. destruct (corner_of_half j' c v Hj' Hc Iv) as [-> | ->]; apply (h_lt j' (half_ex j' Hj')); auto. apply ne_lt. auto. }
  split.
  - intros X. destruct (at_corner j e v Hj X Iv) as (c & i & Hc & Hi & Ev & Ee). destruct (Qs_at j c Hj Hc) as (Hp & Dp & Mp & _). exists (j * 3 + c). split; auto. split; auto. apply qd_has; [auto|lia|]. rewrite Dp, Mp. exists i. split; [auto|]. left. lia.
  - intros (p & Hp & <- & F). destruct (Qs_nth p Hp) as (_ & _ & Hc). apply qd_has in F; [|auto|lia]. destruct F as (i & Hi & [[E1 E2]|[E1 E2]]); [|lia]. exists i. split; [|lia]. destruct (ne_lt _ Hc) as (_ & P & _). lia.
Qed.
Lemma half_unique : forall e v p p', e < n1 -> v < n0 -> p < N * 3 -> p' < N * 3 -> p / 3 = p' / 3 -> fhas D p v (e + n0) -> fhas D p' v (e + n0) -> p = p'.
Proof.
  intros e v p p' He Hv Hp Hp' E F F'. destruct (Qs_nth p Hp) as (_ & Hj & Hc). destruct (Qs_nth p' Hp') as (_ & Hj' & Hc'). apply qd_has in F as (i & Hi & [[A B]|[A B]]); [|lia|auto|lia]. apply qd_has in F' as (i' & Hi' & [[A' B']|[A' B']]); [|lia|auto|lia].
  apply pos3; auto. apply (h_av _ (half_ex _ Hj)); auto. rewrite E at 2. congruence.
Qed.
(** Every edge of the quads is a half of an edge or runs from an edge to the centre of a triangle. *)
Lemma edge_kinds : forall p x y, p < N * 3 -> x < y -> fhas D p x y ->
  (exists e, e < n1 /\ y = e + n0 /\ In x (el t 1 e) /\ x < n0) \/ (exists e, e < n1 /\ x = e + n0 /\ y = p / 3 + (n0 + n1) /\ exists i, (i = p mod 3 \/ i = pr (p mod 3)) /\ ge (p / 3) i = e).
Proof.
  intros p x y Hp L F. destruct (Qs_nth p Hp) as (_ & Hj & Hc). pose proof (half_ex _ Hj) as H. apply qd_has in F as (i & Hi & [[A B]|[A B]]); auto.
  - left. exists (ge (p / 3) i). destruct (ne_lt _ Hc) as (_ & P & _). assert (i < 3) by lia. split; [apply (h_lt _ H); auto|]. split; auto. rewrite A. split; [apply corner_in; auto|]. apply (h_lt _ H). auto.
  - right. exists (ge (p / 3) i). destruct (ne_lt _ Hc) as (_ & P & _). assert (i < 3) by lia. split; [apply (h_lt _ H); auto|]. split; auto. split; auto. exists i. auto.
Qed.
Lemma spoke_has : forall p i, p < N * 3 -> (i = p mod 3 \/ i = pr (p mod 3)) -> fhas D p (ge (p / 3) i + n0) (p / 3 + (n0 + n1)).
Proof.
  intros p i Hp Hi. destruct (Qs_nth p Hp) as (_ & Hj & Hc). pose proof (half_ex _ Hj) as H. destruct (ne_lt _ Hc) as (_ & P & _). assert (i < 3) by lia. destruct (h_lt _ H i ltac:(auto)). apply qd_has; auto; [lia|]. exists i. auto.
Qed.
Lemma cut_two : ftwo N (td rows) <-> ftwo (N * 3) D.
Proof.
  split.
  - intros C. assert (G : forall x y p1 p2 p3, x < y -> p1 < N * 3 -> p2 < N * 3 -> p3 < N * 3 -> fhas D p1 x y -> fhas D p2 x y -> fhas D p3 x y -> p1 = p2 \/ p1 = p3 \/ p2 = p3).
    { intros x y p1 p2 p3 L H1 H2 H3 F1 F2 F3. destruct (Qs_nth p1 H1) as (_ & J1 & C1), (Qs_nth p2 H2) as (_ & J2 & C2), (Qs_nth p3 H3) as (_ & J3 & C3).
      destruct (edge_kinds p1 x y H1 L F1) as [(e & He & -> & Ix & Lx)|(e & He & -> & Ey & i1 & I1 & G1)].
      - destruct (edge_pair e He) as (a & b & Ee & Nab). assert (X : forall p, p < N * 3 -> fhas D p x (e + n0) -> fhas (td rows) (p / 3) a b).
        { intros p Hp F. destruct (Qs_nth p Hp) as (_ & J & _). apply (has_edge (p / 3) e a b); auto; [rewrite Ee; auto|]. apply (half_has e x); auto. eauto. }
        destruct (C a b (p1 / 3) (p2 / 3) (p3 / 3)) as [E|[E|E]]; auto; [left|right; left|right; right]; apply (half_unique e x); auto.
      - destruct (edge_kinds p2 _ y H2 L F2) as [(e2 & He2 & E2 & Ix & Lx)|(e2 & He2 & X2 & Y2 & i2 & I2 & G2)]; [lia|]. destruct (edge_kinds p3 _ y H3 L F3) as [(e3 & He3 & E3 & Ix & Lx)|(e3 & He3 & X3 & Y3 & i3 & I3 & G3)]; [lia|].
        assert (E2 : p2 / 3 = p1 / 3) by lia. assert (E3 : p3 / 3 = p1 / 3) by lia. rewrite E2 in G2. rewrite E3 in G3. pose proof (half_ex _ J1) as H. 
        destruct (ne_lt _ C1) as (_ & P1 & _), (ne_lt _ C2) as (_ & P2 & _), (ne_lt _ C3) as (_ & P3 & _).
        destruct (three (fun c => ge (p1 / 3) c) (fun c => ge (p1 / 3) (pr c)) e (p1 mod 3) (p2 mod 3) (p3 mod 3)) as [E|[E|E]].
        + intros i j Hi Hj' E. apply (h_ge _ H); auto; [destruct Hi as [<-|[<-|[<-|[]]]]|destruct Hj' as [<-|[<-|[<-|[]]]]]; auto.
        + intros i j Hi Hj' E. assert (i < 3) by (destruct Hi as [<-|[<-|[<-|[]]]]; auto). assert (j < 3) by (destruct Hj' as [<-|[<-|[<-|[]]]]; auto). apply pr_inj; auto. apply (h_ge _ H); auto; apply ne_lt; auto.
        + destruct I1 as [-> | ->]; auto.
        + destruct I2 as [-> | ->]; [left|right]; lia.
        + destruct I3 as [-> | ->]; [left|right]; lia.
        + left. apply pos3; auto.
        + right. left. apply pos3; auto.
        + right. right. apply pos3; auto. congruence. }
    intros x y p1 p2 p3 H1 H2 H3 F1 F2 F3. pose proof (order p1 x y H1 F1). destruct (le_lt_dec y x); [apply (G y x); auto using fhas_sym; lia|apply (G x y); auto].
  - intros C x y j1 j2 j3 H1 H2 H3 F1 F2 F3. assert (X : exists e, e < n1 /\ Permutation (el t 1 e) [x; y]).
    { destruct F1 as [I|I]; apply td_half in I as (c & Hc & -> & ->); auto; exists (ge j1 c); (split; [apply (h_lt _ (half_ex _ H1)); auto|]); rewrite (h_ends _ (half_ex _ H1) c Hc); auto using perm_swap. }
    destruct X as (e & He & Pm). assert (Ix : In x (el t 1 e)) by (apply Permutation_sym in Pm; apply (Permutation_in _ Pm); left; auto).
    apply (has_edge _ e x y) in F1; auto. apply (has_edge _ e x y) in F2; auto. apply (has_edge _ e x y) in F3; auto. apply (half_has e x) in F1 as (p1 & P1 & E1 & F1); auto. apply (half_has e x) in F2 as (p2 & P2 & E2 & F2); auto. apply (half_has e x) in F3 as (p3 & P3 & E3 & F3); auto.
    destruct (C x (e + n0) p1 p2 p3) as [E|[E|E]]; auto; subst; auto.
Qed.
Lemma cut_bd : forall x y, x < y -> (fbd (N * 3) D x y <-> exists e a b, e < n1 /\ y = e + n0 /\ In x (el t 1 e) /\ el t 1 e = [a; b] /\ fbd N (td rows) a b).
Proof.
  intros x y L. split.
  - intros (p & Hp & F & U). destruct (Qs_nth p Hp) as (_ & Hj & Hc). destruct (edge_kinds p x y Hp L F) as [(e & He & -> & Ix & Lx)|(e & He & -> & Ey & i & Hi & G)].
    + destruct (edge_pair e He) as (a & b & Ee & Nab). exists e, a, b. split; auto. split; auto. split; auto. split; auto. assert (Pm : Permutation (el t 1 e) [a; b]) by (rewrite Ee; auto). exists (p / 3). split; auto. split.
      * apply (has_edge _ e a b); auto. apply (half_has e x); auto. eauto.
      * intros j' Hj' F'. apply (has_edge _ e a b) in F'; auto. apply (half_has e x) in F' as (p' & Hp' & E' & F'); auto. rewrite <- E'. f_equal. auto.
    + exfalso. destruct (ne_lt _ Hc) as (Nc & P & NP & PN & N1 & N2 & _). subst e. rewrite Ey in U.
      assert (X : exists c', c' < 3 /\ c' <> p mod 3 /\ (i = c' \/ i = pr c')) by (destruct Hi as [-> | ->]; [exists (ne (p mod 3)); rewrite PN; auto|exists (pr (p mod 3)); auto]).
      destruct X as (c' & Hc' & Nc' & Hi'). destruct (Qs_at (p / 3) c' Hj Hc') as (Hp' & Dp & Mp & _). apply Nc'. rewrite <- Mp. f_equal. apply U; auto. pose proof (spoke_has _ i Hp') as X. rewrite Dp, Mp in X. auto.
  - intros (e & a & b & He & -> & Ix & Ee & j & Hj & F & U). assert (Pm : Permutation (el t 1 e) [a; b]) by (rewrite Ee; auto). apply (has_edge _ e a b) in F; auto. apply (half_has e x) in F as (p & Hp & <- & F); auto. exists p. split; auto. split; auto.
    intros p' Hp' F'. destruct (Qs_nth p' Hp') as (_ & Hj' & Hc'). apply (half_unique e x); auto.
    + destruct (edge_half e He) as (j' & c & Hj1 & Hc & E). subst e. destruct (corner_of_half j' c x Hj1 Hc Ix) as [-> | ->]; apply (h_lt j' (half_ex j' Hj1)); auto. apply ne_lt. auto.
    + apply U; auto. apply (has_edge _ e a b); auto. apply (half_has e x); auto. eauto.
Qed.
Lemma cut_connected : (forall j, j < N -> chain (fadj N (td rows)) 0 j) <-> (forall p, p < N * 3 -> chain (fadj (N * 3) D) 0 p).
Proof.
  apply connected_blocks; [lia| | |].
  - intros p1 p2 (H1 & H2 & Ne & x0 & y0 & F1 & F2). split; auto. split; auto. destruct (Nat.eq_dec (p1 / 3) (p2 / 3)) as [E|E]; auto. right.
    assert (X : exists x y, x < y /\ fhas D p1 x y /\ fhas D p2 x y) by (pose proof (order _ _ _ H1 F1); destruct (le_lt_dec y0 x0); [exists y0, x0|exists x0, y0]; repeat split; auto using fhas_sym; lia).
    destruct X as (x & y & L & G1 & G2). destruct (Qs_nth p1 H1) as (_ & J1 & _), (Qs_nth p2 H2) as (_ & J2 & _). split; auto. split; auto. split; auto.
    destruct (edge_kinds p1 x y H1 L G1) as [(e & He & -> & Ix & Lx)|(e & He & -> & Ey & i & Hi & G)].
    + destruct (edge_pair e He) as (a & b & Ee & _). assert (Pm : Permutation (el t 1 e) [a; b]) by (rewrite Ee; auto). exists a, b. split; apply (has_edge _ e a b); auto; apply (half_has e x); eauto.
    + destruct (edge_kinds p2 _ y H2 L G2) as [(e2 & He2 & E2 & Ix & Lx)|(e2 & He2 & X2 & Y2 & _)]; lia.
  - intros j1 j2 (H1 & H2 & Ne & x & y & F1 & F2). split; auto. split; auto. assert (X : exists e, e < n1 /\ Permutation (el t 1 e) [x; y]).
    { destruct F1 as [I|I]; apply td_half in I as (c & Hc & -> & ->); auto; exists (ge j1 c); (split; [apply (h_lt _ (half_ex _ H1)); auto|]); rewrite (h_ends _ (half_ex _ H1) c Hc); auto using perm_swap. }
    destruct X as (e & He & Pm). assert (Ix : In x (el t 1 e)) by (apply Permutation_sym in Pm; apply (Permutation_in _ Pm); left; auto).
    apply (has_edge _ e x y) in F1; auto. apply (has_edge _ e x y) in F2; auto. apply (half_has e x) in F1 as (p1 & P1 & E1 & F1); auto. apply (half_has e x) in F2 as (p2 & P2 & E2 & F2); auto.
    exists p1, p2. repeat (split; auto). { intros ->. congruence. } eauto.
  - intros p1 p2 H1 H2 E. destruct (Nat.eq_dec p1 p2) as [->|Np]; [constructor|]. apply (chain_step _ p1 p1); [constructor|]. destruct (Qs_nth p1 H1) as (_ & J1 & C1), (Qs_nth p2 H2) as (_ & J2 & C2).
    assert (Nc : p1 mod 3 <> p2 mod 3) by (intros X; apply Np, pos3; auto). destruct (ne_lt _ C1) as (A & B & NP & PN & _ & _ & K). split; auto. split; auto. split; auto.
    destruct (K _ C2) as [X|[X|X]]; [congruence| |].
    + exists (ge (p1 / 3) (p1 mod 3) + n0), (p1 / 3 + (n0 + n1)). split; [apply spoke_has; auto|]. rewrite E at 1 2. apply spoke_has; auto. right. rewrite X, PN. auto.
    + exists (ge (p1 / 3) (pr (p1 mod 3)) + n0), (p1 / 3 + (n0 + n1)). split; [apply spoke_has; auto|]. rewrite E at 1 2. apply spoke_has; auto.
Qed.
(** The edges of the quads: two for each edge, three in each triangle. *)
Definition halves_list : list (list nat) := flat_map (fun e => map (fun v => [v; e + n0]) (el t 1 e)) (seq 0 n1).
Definition spokes_list : list (list nat) := flat_map (fun j => map (fun e => [e + n0; j + (n0 + n1)]) (nth j E21 [])) (seq 0 N).
Lemma in_ge : forall j e, j < N -> (In e (nth j E21 []) <-> exists c, c < 3 /\ ge j c = e).
Proof.
  intros j e Hj. rewrite (h_edges j (half_ex j Hj)). split.
  - intros [I|[I|[I|[]]]]; [exists 1|exists 2|exists 0]; (split; [lia|auto]).
  - intros (c & Hc & <-). do 3 (destruct c as [|c]; [cbn; auto|]). lia.
Qed.
Lemma edge_list_edges : lists_edges (N * 3) D (halves_list ++ spokes_list).
Proof.
  assert (LV : forall e v, e < n1 -> In v (el t 1 e) -> v < n0). { intros e v He I. destruct (edge_half e He) as (j' & c & Hj1 & Hc & E). subst e. destruct (corner_of_half j' c v Hj1 Hc I) as [-> | ->]; apply (h_lt j' (half_ex j' Hj1)); auto. apply ne_lt. auto. }
  assert (HH : forall p, In p halves_list <-> exists v e, p = [v; e + n0] /\ e < n1 /\ In v (el t 1 e)).
  { intros p. unfold halves_list. rewrite in_flat_map. split.
    - intros (e & He & Hp). apply in_seq in He. apply in_map_iff in Hp as (v & <- & Hv). exists v, e. repeat split; auto; lia.
    - intros (v & e & -> & He & Hv). exists e. split; [apply in_seq; lia|]. apply in_map_iff. eauto. }
  assert (HS : forall p, In p spokes_list <-> exists j c, p = [ge j c + n0; j + (n0 + n1)] /\ j < N /\ c < 3).
  { intros p. unfold spokes_list. rewrite in_flat_map. split.
    - intros (j & Hj & Hp). apply in_seq in Hj. apply in_map_iff in Hp as (e & <- & He). apply in_ge in He as (c & Hc & <-); [|lia]. exists j, c. repeat split; auto; lia.
    - intros (j & c & -> & Hj & Hc). exists j. split; [apply in_seq; lia|]. apply in_map_iff. exists (ge j c). split; auto. apply in_ge; eauto. }
  assert (M : map (isort Nat.leb) (halves_list ++ spokes_list) = halves_list ++ spokes_list).
  { rewrite <- (map_id (halves_list ++ spokes_list)) at 2. apply map_ext_in. intros p Hp. apply in_app_iff in Hp as [Hp|Hp].
    - apply HH in Hp as (v & e & -> & He & Hv). apply sort2. pose proof (LV e v He Hv). lia.
    - apply HS in Hp as (j & c & -> & Hj & Hc). apply sort2. pose proof (h_lt j (half_ex j Hj) c Hc). lia. }
  unfold lists_edges. rewrite M. split.
  - apply NoDup_app_i.
    + apply NoDup_flat_map; [apply seq_NoDup| |].
      * intros e He. apply in_seq in He. apply FinFun.Injective_map_NoDup; [intros a b E; injection E; auto|]. destruct (edge_pair e ltac:(lia)) as (a & b & -> & Nab). repeat constructor; cbn; intuition.
      * intros e e' p He He' I I'. apply in_map_iff in I as (v & <- & _). apply in_map_iff in I' as (v' & E & _). injection E as _ E. lia.
    + apply NoDup_flat_map; [apply seq_NoDup| |].
      * intros j Hj. apply in_seq in Hj. apply FinFun.Injective_map_NoDup; [intros a b E; injection E; lia|]. pose proof (half_ex j ltac:(lia)) as H. rewrite (h_edges j H).
        repeat constructor; cbn [In]; intros X; repeat destruct X as [X|X]; auto; apply (h_ge j H) in X; lia.
      * intros j j' p Hj Hj' I I'. apply in_map_iff in I as (v & <- & _). apply in_map_iff in I' as (v' & E & _). injection E as _ E. lia.
    + intros p Hp Hp'. apply HH in Hp as (v & e & -> & He & Hv). apply HS in Hp' as (j & c & E & Hj & Hc). injection E as E1 E2. lia.
  - intros p. rewrite in_app_iff, HH, HS. split.
    + intros [(v & e & -> & He & Hv)|(j & c & -> & Hj & Hc)].
      * destruct (edge_half e He) as (j & c & Hj & Hc & Ec). assert (X : exists c, c < 3 /\ ge j c = e) by eauto. apply (half_has e v j He Hv Hj) in X as (p & Hp & _ & F). exists v, (e + n0), p. pose proof (LV e v He Hv). repeat split; auto. lia.
      * destruct (Qs_at j c Hj Hc) as (Hp & Dp & Mp & _). exists (ge j c + n0), (j + (n0 + n1)), (j * 3 + c). pose proof (h_lt j (half_ex j Hj) c Hc). repeat split; auto; [lia|]. pose proof (spoke_has _ c Hp) as X. rewrite Dp, Mp in X. auto.
    + intros (x & y & p0 & -> & L & Hp & F). destruct (Qs_nth p0 Hp) as (_ & Hj & Hc). destruct (edge_kinds p0 x y Hp L F) as [(e & He & -> & Ix & Lx)|(e & He & -> & -> & i & Hi & <-)].
      * left. exists x, e. auto.
      * right. exists (p0 / 3), i. split; auto. split; auto. destruct (ne_lt _ Hc) as (_ & P & _). lia.
Qed.
Lemma edge_list_length : length (halves_list ++ spokes_list) = 2 * n1 + 3 * N.
Proof.
  rewrite app_length. unfold halves_list, spokes_list. rewrite (flat_map_const_length _ _ _ _ 2), (flat_map_const_length _ _ _ _ 3); [rewrite !seq_length; lia| |].
  - intros j Hj. apply in_seq in Hj. rewrite map_length, (h_edges j (half_ex j ltac:(lia))). auto.
  - intros e He. apply in_seq in He. rewrite map_length. destruct (edge_pair e ltac:(lia)) as (a & b & -> & _). auto.
Qed.
End Cut.
