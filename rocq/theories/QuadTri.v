(** Quads cut into triangles. *)
Require Import List Arith ZArith Bool Lia Permutation.
From Verif Require Import Arr Util CombModel CombSpec CombProofs SimpModel SimpSpec ParProofs SimpProofs LevelProofs TopProofs BdryModel BdrySpec.
From Verif Require Import OrientProofs SubProofs SubdModel BaryProofs LoopProofs LoopTransfer TriModel TriSpec LinModel TriProofs TriMesh.
From Verif Require Import CubeModel CubeSpec CubeBits CubeBd CubeRel CubeTop CubeChain COrSpec CubeGrid QuadModel QuadSpec QuadProofs.
Import ListNotations.
Local Open Scope nat_scope.

Section Cut.
Variables (rows : list cube) (n0 : nat).
Hypothesis Q : Forall quad rows.
Hypothesis V : forall v, In v (concat rows) <-> v < n0.
Hypothesis NE : rows <> [].
Notation N := (length rows).
Notation T := (all_quad_triangles n0 rows).
Definition side (j q : nat) : dedge := nth q (qd rows j) (0, 0).
Definition piece (j q : nat) : simplex := [fst (side j q); snd (side j q); j + n0].

Lemma qd_facts : forall j, j < N -> exists a b c d, qd rows j = [(a, b); (d, c); (c, a); (b, d)] /\ nth j rows [] = [a; b; c; d] /\
  (a < n0 /\ b < n0 /\ c < n0 /\ d < n0) /\ a <> b /\ a <> c /\ a <> d /\ b <> c /\ b <> d /\ c <> d.
Proof.
  intros j Hj. destruct (quad_abcd _ (quad_nth rows Q j Hj)) as (a & b & c & d & E & H). exists a, b, c, d. unfold qd. rewrite E. split; auto. split; auto. split; auto.
  assert (G : forall v, In v [a; b; c; d] -> v < n0) by (intros v Hv; apply V, in_concat; exists (nth j rows []); split; [apply nth_In; auto|rewrite E; auto]).
  repeat split; apply G; cbn; auto.
Qed.
Lemma pieces_nth : forall j, j < N -> quad_triangles (j + n0) (nth j rows []) = map (piece j) (seq 0 4).
Proof. intros j Hj. destruct (qd_facts j Hj) as (a & b & c & d & D & E & _). unfold piece, side. rewrite D, E. reflexivity. Qed.
Lemma cut_eq : T = flat_map (fun j => map (piece j) (seq 0 4)) (seq 0 N).
Proof. unfold all_quad_triangles. rewrite flat_map_concat_map. f_equal. apply map_ext_in. intros j Hj. apply in_seq in Hj. apply pieces_nth. lia. Qed.
Lemma cut_length : length T = N * 4.
Proof. rewrite cut_eq, (flat_map_const_length _ _ _ _ 4) by (intros; rewrite map_length, seq_length; auto). rewrite seq_length. lia. Qed.
Lemma cut_nth : forall p, p < N * 4 -> nth p T [] = piece (p / 4) (p mod 4) /\ p / 4 < N /\ p mod 4 < 4.
Proof.
  intros p Hp. assert (Hj : p / 4 < N) by (apply Nat.div_lt_upper_bound; lia). assert (Hq : p mod 4 < 4) by (apply Nat.mod_upper_bound; lia). split; auto.
  rewrite cut_eq. rewrite (Nat.div_mod p 4) at 1 by lia. rewrite (Nat.mul_comm 4). 
  rewrite (nth_flat_map_const nat (list nat) (fun j => map (piece j) (seq 0 4)) (seq 0 N) 4 (fun x _ => eq_trans (map_length _ _) (seq_length _ _)) _ _ 0) by (auto; rewrite seq_length; auto).
  rewrite seq_nth by auto. rewrite nth_map_seq by auto. auto.
Qed.
Lemma side_in : forall j q, j < N -> q < 4 -> In (side j q) (qd rows j).
Proof. intros j q Hj Hq. destruct (qd_facts j Hj) as (a & b & c & d & D & _). unfold side. apply nth_In. rewrite D. simpl. lia. Qed.
Lemma in_side : forall j e, j < N -> In e (qd rows j) -> exists q, q < 4 /\ side j q = e.
Proof. intros j e Hj I. destruct (qd_facts j Hj) as (a & b & c & d & D & _). apply In_nth with (d := (0, 0)) in I as (q & Hq & E). exists q. split; auto. rewrite D in Hq. auto. Qed.
Lemma side_lt : forall j q, j < N -> q < 4 -> fst (side j q) < n0 /\ snd (side j q) < n0 /\ fst (side j q) <> snd (side j q).
Proof. intros j q Hj Hq. destruct (qd_facts j Hj) as (a & b & c & d & D & _ & L & H). unfold side. rewrite D. do 4 (destruct q as [|q]; [cbn; repeat split; try tauto; try lia|]). lia. Qed.
Lemma side_fst : forall j q q', j < N -> q < 4 -> q' < 4 -> fst (side j q) = fst (side j q') -> q = q'.
Proof. intros j q q' Hj Hq Hq'. destruct (qd_facts j Hj) as (a & b & c & d & D & _ & L & H). unfold side. rewrite D. do 4 (destruct q as [|q]; [do 4 (destruct q' as [|q']; [cbn; lia|]); lia|]). lia. Qed.
Lemma side_snd : forall j q q', j < N -> q < 4 -> q' < 4 -> snd (side j q) = snd (side j q') -> q = q'.
Proof. intros j q q' Hj Hq Hq'. destruct (qd_facts j Hj) as (a & b & c & d & D & _ & L & H). unfold side. rewrite D. do 4 (destruct q as [|q]; [do 4 (destruct q' as [|q']; [cbn; lia|]); lia|]). lia. Qed.

Lemma cut_triangles : Forall triangle T.
Proof.
  apply Forall_forall. intros s Hs. apply In_nth with (d := []) in Hs as (p & Hp & <-). rewrite cut_length in Hp. destruct (cut_nth p Hp) as (-> & Hj & Hq). destruct (side_lt _ _ Hj Hq) as (A & B & C).
  split; [reflexivity|]. apply nodup3. lia.
Qed.
Lemma cut_vertices : forall v, In v (concat T) <-> v < n0 + N.
Proof.
  intros v. rewrite in_concat. split.
  - intros (s & Hs & Hv). apply In_nth with (d := []) in Hs as (p & Hp & <-). rewrite cut_length in Hp. destruct (cut_nth p Hp) as (E & Hj & Hq). rewrite E in Hv. destruct (side_lt _ _ Hj Hq) as (A & B & C).
    unfold piece in Hv. cbn [In] in Hv. lia.
  - intros Hv. assert (G : forall j q, j < N -> q < 4 -> In (piece j q) T).
    { intros j q Hj Hq. rewrite cut_eq. apply in_flat_map. exists j. split; [apply in_seq; lia|]. apply in_map, in_seq. lia. }
    destruct (le_lt_dec n0 v) as [L|L].
    + exists (piece (v - n0) 0). split; [apply G; lia|]. unfold piece. cbn [In]. right. right. left. lia.
    + apply V in L. apply in_concat in L as (r & Hr & Hv'). apply In_nth with (d := []) in Hr as (j & Hj & <-). destruct (qd_facts j Hj) as (a & b & c & d & D & E & _). rewrite E in Hv'.
      assert (P0 := G j 0 Hj ltac:(lia)). assert (P1 := G j 1 Hj ltac:(lia)). unfold piece, side in P0, P1. rewrite D in P0, P1. cbn [nth fst snd] in P0, P1. cbn in Hv'.
      destruct Hv' as [<-|[<-|[<-|[<-|[]]]]]; [exists [a; b; j + n0]|exists [a; b; j + n0]|exists [d; c; j + n0]|exists [d; c; j + n0]]; cbn; auto.
Qed.
Lemma cut_ok : simplices_ok 2 T.
Proof.
  split.
  - intros E. assert (L := cut_length). rewrite E in L. destruct rows; [auto|simpl in L; lia].
  - pose proof cut_triangles as C. rewrite Forall_forall in *. intros s Hs. destruct (C s Hs). auto.
Qed.

(** Directed edges of the pieces. *)
Notation D := (td T).
Lemma td_eq : forall p, p < N * 4 -> let j := p / 4 in let e := side j (p mod 4) in td T p = [e; (snd e, j + n0); (j + n0, fst e)].
Proof. intros p Hp j e. unfold td. destruct (cut_nth p Hp) as (-> & _). unfold piece. fold j. fold e. cbn. rewrite <- surjective_pairing. auto. Qed.
Lemma td_at : forall j q, j < N -> q < 4 -> j * 4 + q < N * 4 /\ (j * 4 + q) / 4 = j /\ (j * 4 + q) mod 4 = q /\ td T (j * 4 + q) = [side j q; (snd (side j q), j + n0); (j + n0, fst (side j q))].
Proof.
  intros j q Hj Hq. assert (H : j * 4 + q < N * 4) by lia. assert (Ed : (j * 4 + q) / 4 = j) by (rewrite Nat.div_add_l, Nat.div_small by lia; lia). assert (Em : (j * 4 + q) mod 4 = q) by (rewrite Nat.add_comm, Nat.mod_add, Nat.mod_small by lia; lia).
  split; auto. split; auto. split; auto. pose proof (td_eq _ H) as E. cbv zeta in E. rewrite Ed, Em in E. auto.
Qed.
Lemma pos_eq : forall p p', p / 4 = p' / 4 -> p mod 4 = p' mod 4 -> p = p'.
Proof. intros p p' A B. rewrite (Nat.div_mod p 4), (Nat.div_mod p' 4) by lia. congruence. Qed.
(** A directed edge of a piece is a side of the quad, or has the centre as head or tail. *)
Lemma td_cases : forall p x y, p < N * 4 -> (In (x, y) (D p) <->
  let j := p / 4 in let e := side j (p mod 4) in (x < n0 /\ y < n0 /\ e = (x, y)) \/ (x < n0 /\ y = j + n0 /\ snd e = x) \/ (x = j + n0 /\ y < n0 /\ fst e = y)).
Proof.
  intros p x y Hp. rewrite (td_eq p Hp). cbv zeta. set (j := p / 4). set (e := side j (p mod 4)). destruct (cut_nth p Hp) as (_ & Hj & Hq). destruct (side_lt _ _ Hj Hq) as (A & B & C). fold j in A, B, C. fold e in A, B, C.
  cbn [In]. split.
  - intros [E|[E|[E|[]]]]; [rewrite E in *; cbn in *; auto| |]; injection E as <- <-; auto.
  - intros [(H1 & H2 & ->)|[(H1 & -> & <-)|(-> & H2 & <-)]]; auto.
Qed.
Lemma outer : forall x y, x < n0 -> y < n0 -> forall j, j < N -> (In (x, y) (qd rows j) <-> exists p, p < N * 4 /\ p / 4 = j /\ In (x, y) (D p)).
Proof.
  intros x y Hx Hy j Hj. split.
  - intros I. destruct (in_side j _ Hj I) as (q & Hq & E). destruct (td_at j q Hj Hq) as (Hp & Ed & Em & Et). exists (j * 4 + q). split; auto. split; auto. rewrite Et. left. auto.
  - intros (p & Hp & <- & I). rewrite td_cases in I by auto. cbv zeta in I. destruct I as [(_ & _ & E)|[I|I]]; try lia. rewrite <- E. apply side_in; auto. apply Nat.mod_upper_bound. lia.
Qed.
Lemma outer_unique : forall x y p p', x < n0 -> y < n0 -> p < N * 4 -> p' < N * 4 -> p / 4 = p' / 4 -> fhas D p x y -> fhas D p' x y -> p = p'.
Proof.
  intros x y p p' Hx Hy Hp Hp' E A B. destruct (cut_nth p Hp) as (_ & Hj & Hq). destruct (cut_nth p' Hp') as (_ & _ & Hq'). apply pos_eq; auto. unfold fhas in A, B. rewrite !td_cases in A, B by auto. cbv zeta in A, B. rewrite <- E in B.
  set (j := p / 4) in *. assert (XY : exists u v, side j (p mod 4) = (u, v) /\ (u = x /\ v = y \/ u = y /\ v = x)) by (destruct A as [[A|[A|A]]|[A|[A|A]]]; try lia; destruct A as (_ & _ & A); do 2 eexists; (split; [exact A|auto])).
  assert (XY' : exists u v, side j (p' mod 4) = (u, v) /\ (u = x /\ v = y \/ u = y /\ v = x)) by (destruct B as [[B|[B|B]]|[B|[B|B]]]; try lia; destruct B as (_ & _ & B); do 2 eexists; (split; [exact B|auto])).
  destruct XY as (u & v & S1 & C1), XY' as (u' & v' & S2 & C2). destruct C1 as [[-> ->]|[-> ->]], C2 as [[-> ->]|[-> ->]]; try (apply (side_fst j); auto; rewrite S1, S2; auto; fail).
  - exfalso. pose proof (side_in j _ Hj Hq) as I. pose proof (side_in j _ Hj Hq') as I'. rewrite S1 in I. rewrite S2 in I'. apply (quad_nodup_edge _ _ _ (quad_nth rows Q j Hj) I). auto.
  - exfalso. pose proof (side_in j _ Hj Hq) as I. pose proof (side_in j _ Hj Hq') as I'. rewrite S1 in I. rewrite S2 in I'. apply (quad_nodup_edge _ _ _ (quad_nth rows Q j Hj) I). auto.
Qed.
Lemma fhas_outer : forall x y j, x < n0 -> y < n0 -> j < N -> (fhas (qd rows) j x y <-> exists p, p < N * 4 /\ p / 4 = j /\ fhas D p x y).
Proof.
  intros x y j Hx Hy Hj. unfold fhas. rewrite !outer by auto. split.
  - intros [(p & A & B & C)|(p & A & B & C)]; exists p; auto.
  - intros (p & A & B & [C|C]); [left|right]; exists p; auto.
Qed.
Lemma qd_range : forall j x y, j < N -> fhas (qd rows) j x y -> x < n0 /\ y < n0.
Proof. intros j x y Hj [I|I]; destruct (in_side j _ Hj I) as (q & Hq & E); destruct (side_lt j q Hj Hq) as (A & B & _); rewrite E in *; auto. Qed.
(** Edges inside a quad join its centre with one of its corners, and belong to two pieces. *)
Lemma inner : forall p x y, p < N * 4 -> fhas D p x y -> (x < n0 /\ y < n0) \/
  exists z, z < n0 /\ ((x = z /\ y = p / 4 + n0) \/ (x = p / 4 + n0 /\ y = z)) /\ (fst (side (p / 4) (p mod 4)) = z \/ snd (side (p / 4) (p mod 4)) = z).
Proof.
  intros p x y Hp A. unfold fhas in A. rewrite !td_cases in A by auto. cbv zeta in A.
  destruct A as [[A|[A|A]]|[A|[A|A]]]; [left; tauto|right; exists x; tauto|right; exists y; tauto|left; tauto|right; exists y; tauto|right; exists x; tauto].
Qed.
Lemma inner_has : forall p z, p < N * 4 -> (fst (side (p / 4) (p mod 4)) = z \/ snd (side (p / 4) (p mod 4)) = z) -> fhas D p z (p / 4 + n0).
Proof.
  intros p z Hp A. destruct (cut_nth p Hp) as (_ & Hj & Hq). destruct (side_lt _ _ Hj Hq) as (B & C & _). unfold fhas. rewrite !td_cases by auto. cbv zeta. destruct A as [<-|<-]; [right|left]; auto.
Qed.

Lemma cut_cons : fcons N (qd rows) <-> fcons (N * 4) D.
Proof.
  split.
  - intros C p p' Hp Hp' Ne [x y] A B. destruct (cut_nth p Hp) as (_ & Hj & Hq). destruct (cut_nth p' Hp') as (_ & Hj' & Hq'). rewrite td_cases in A, B by auto. cbv zeta in A, B.
    destruct A as [(A1 & A2 & A3)|[(A1 & A2 & A3)|(A1 & A2 & A3)]], B as [(B1 & B2 & B3)|[(B1 & B2 & B3)|(B1 & B2 & B3)]]; try lia.
    + destruct (Nat.eq_dec (p / 4) (p' / 4)) as [E|E].
      * apply Ne. apply pos_eq; auto. apply (side_fst (p / 4)); auto. rewrite A3. rewrite E, B3. auto.
      * apply (C _ _ Hj Hj' E (x, y)); [rewrite <- A3|rewrite <- B3]; apply side_in; auto.
    + assert (E : p / 4 = p' / 4) by lia. apply Ne, pos_eq; auto. apply (side_snd (p / 4)); auto. rewrite A3, E, B3. auto.
    + assert (E : p / 4 = p' / 4) by lia. apply Ne, pos_eq; auto. apply (side_fst (p / 4)); auto. rewrite A3, E, B3. auto.
  - intros C j j' Hj Hj' Ne e A B. destruct (in_side j e Hj A) as (q & Hq & E). destruct (in_side j' e Hj' B) as (q' & Hq' & E'). destruct (td_at j q Hj Hq) as (P1 & D1 & M1 & T1), (td_at j' q' Hj' Hq') as (P2 & D2 & M2 & T2).
    apply (C _ _ P1 P2 ltac:(congruence) e); [rewrite T1|rewrite T2]; left; auto.
Qed.
Lemma three : forall (f g : nat -> nat) z a b c, (forall i j, In i [a; b; c] -> In j [a; b; c] -> f i = f j -> i = j) -> (forall i j, In i [a; b; c] -> In j [a; b; c] -> g i = g j -> i = j) ->
  f a = z \/ g a = z -> f b = z \/ g b = z -> f c = z \/ g c = z -> a = b \/ a = c \/ b = c.
Proof.
  intros f g z a b c F G [A|A] [B|B] [C|C]; try (left; apply F; cbn; auto; congruence); try (left; apply G; cbn; auto; congruence); try (right; left; apply F; cbn; auto; congruence);
    try (right; left; apply G; cbn; auto; congruence); try (right; right; apply F; cbn; auto; congruence); right; right; apply G; cbn; auto; congruence.
Qed.
Lemma cut_two : ftwo N (qd rows) <-> ftwo (N * 4) D.
Proof.
  split.
  - intros C x y p1 p2 p3 H1 H2 H3 A1 A2 A3. destruct (cut_nth p1 H1) as (_ & J1 & Q1), (cut_nth p2 H2) as (_ & J2 & Q2), (cut_nth p3 H3) as (_ & J3 & Q3).
    destruct (inner p1 x y H1 A1) as [[Hx Hy]|(z1 & Z1 & W1 & S1)].
    + destruct (C x y (p1 / 4) (p2 / 4) (p3 / 4)) as [E|[E|E]]; auto; try (apply fhas_outer; auto; eexists; eauto).
      * left. apply (outer_unique x y); auto.
      * right. left. apply (outer_unique x y); auto.
      * right. right. apply (outer_unique x y); auto.
    + destruct (inner p2 x y H2 A2) as [[? ?]|(z2 & Z2 & W2 & S2)]; [lia|]. destruct (inner p3 x y H3 A3) as [[? ?]|(z3 & Z3 & W3 & S3)]; [lia|].
      assert (E2 : p2 / 4 = p1 / 4) by lia. assert (E3 : p3 / 4 = p1 / 4) by lia. assert (z2 = z1) by lia. assert (z3 = z1) by lia. subst z2 z3. rewrite E2 in S2. rewrite E3 in S3.
      destruct (three (fun q => fst (side (p1 / 4) q)) (fun q => snd (side (p1 / 4) q)) z1 (p1 mod 4) (p2 mod 4) (p3 mod 4)) as [E|[E|E]]; auto.
      * intros i j Hi Hj' E. apply (side_fst (p1 / 4)); auto; [destruct Hi as [<-|[<-|[<-|[]]]]|destruct Hj' as [<-|[<-|[<-|[]]]]]; auto.
      * intros i j Hi Hj' E. apply (side_snd (p1 / 4)); auto; [destruct Hi as [<-|[<-|[<-|[]]]]|destruct Hj' as [<-|[<-|[<-|[]]]]]; auto.
      * left. apply pos_eq; auto.
      * right. left. apply pos_eq; auto.
      * right. right. apply pos_eq; auto. congruence.
  - intros C x y j1 j2 j3 H1 H2 H3 A1 A2 A3. destruct (qd_range j1 x y H1 A1) as [Hx Hy]. apply fhas_outer in A1 as (p1 & P1 & E1 & B1); auto. apply fhas_outer in A2 as (p2 & P2 & E2 & B2); auto. apply fhas_outer in A3 as (p3 & P3 & E3 & B3); auto.
    destruct (C x y p1 p2 p3) as [E|[E|E]]; auto; subst; auto.
Qed.
Lemma cut_bd : forall x y, fbd N (qd rows) x y <-> fbd (N * 4) D x y.
Proof.
  intros x y. split.
  - intros (j & Hj & A & U). destruct (qd_range j x y Hj A) as [Hx Hy]. apply fhas_outer in A as (p & P & E & B); auto. exists p. split; auto. split; auto. intros p' P' B'. apply (outer_unique x y); auto.
    rewrite E. apply U; [apply cut_nth; auto|]. apply fhas_outer; auto. apply cut_nth; auto. eauto.
  - intros (p & Hp & A & U). destruct (cut_nth p Hp) as (_ & J & Q1). destruct (inner p x y Hp A) as [[Hx Hy]|(z & Z & W & S0)].
    + exists (p / 4). split; auto. split; [apply fhas_outer; eauto|]. intros j' Hj' A'. apply fhas_outer in A' as (p' & P' & E' & B'); auto. rewrite <- (U p'); auto.
    + exfalso. assert (G : exists q', q' < 4 /\ q' <> p mod 4 /\ (fst (side (p / 4) q') = z \/ snd (side (p / 4) q') = z)).
      { clear - S0 J Q1 Q V. destruct (qd_facts (p / 4) J) as (a & b & c & d & D & _). unfold side in *. rewrite D in *. revert S0. generalize (p mod 4) Q1. intros q Hq.
        do 4 (destruct q as [|q]; [cbn; intros [<-|<-]; ((exists 0; cbn; lia) || (exists 1; cbn; lia) || (exists 2; cbn; lia) || (exists 3; cbn; lia))|]). lia. }
      destruct G as (q' & Hq' & Nq & S1). destruct (td_at (p / 4) q' J Hq') as (P' & E' & M' & _). apply Nq. rewrite <- M'. f_equal. apply U; auto.
      rewrite <- E', <- M' in S1. rewrite Nat.add_comm in S1. pose proof (inner_has (p / 4 * 4 + q') z P') as I. rewrite E', M' in I. rewrite M' in S1. assert (F : fhas D (p / 4 * 4 + q') z (p / 4 + n0)) by (apply I; rewrite Nat.add_comm, E' in S1; auto).
      destruct W as [[-> ->]|[-> ->]]; auto using fhas_sym.
Qed.
Lemma cut_connected : (forall j, j < N -> chain (fadj N (qd rows)) 0 j) <-> (forall p, p < N * 4 -> chain (fadj (N * 4) D) 0 p).
Proof.
  apply connected_blocks; [lia| | |].
  - intros p1 p2 (H1 & H2 & Ne & x & y & A1 & A2). split; auto. split; auto. destruct (Nat.eq_dec (p1 / 4) (p2 / 4)) as [E|E]; auto. right.
    destruct (cut_nth p1 H1) as (_ & J1 & _), (cut_nth p2 H2) as (_ & J2 & _). split; auto. split; auto. split; auto. exists x, y.
    destruct (inner p1 x y H1 A1) as [[Hx Hy]|(z1 & Z1 & W1 & S1)]; [split; apply fhas_outer; eauto|]. destruct (inner p2 x y H2 A2) as [[? ?]|(z2 & Z2 & W2 & S2)]; lia.
  - intros j1 j2 (H1 & H2 & Ne & x & y & A1 & A2). split; auto. split; auto. destruct (qd_range j1 x y H1 A1) as [Hx Hy]. apply fhas_outer in A1 as (p1 & P1 & E1 & B1); auto. apply fhas_outer in A2 as (p2 & P2 & E2 & B2); auto.
    exists p1, p2. repeat (split; auto). { intros ->. congruence. } eauto.
  - intros p1 p2 H1 H2 E. destruct (cut_nth p1 H1) as (_ & J & Q1), (cut_nth p2 H2) as (_ & _ & Q2).
    assert (G : forall q q', q < 4 -> q' < 4 -> q <> q' -> (exists z, (fst (side (p1 / 4) q) = z \/ snd (side (p1 / 4) q) = z) /\ (fst (side (p1 / 4) q') = z \/ snd (side (p1 / 4) q') = z)) -> fadj (N * 4) D (p1 / 4 * 4 + q) (p1 / 4 * 4 + q')).
    { intros q q' Hq Hq' Nq (z & S1 & S2). destruct (td_at _ q J Hq) as (P1 & D1 & M1 & _), (td_at _ q' J Hq') as (P2 & D2 & M2 & _). split; auto. split; auto. split; [lia|]. exists z, (p1 / 4 + n0).
      pose proof (inner_has _ z P1) as I1. pose proof (inner_has _ z P2) as I2. rewrite D1, M1 in I1. rewrite D2, M2 in I2. auto. }
    replace p1 with (p1 / 4 * 4 + p1 mod 4) at 1 by (rewrite (Nat.div_mod p1 4) at 3 by lia; lia). replace p2 with (p1 / 4 * 4 + p2 mod 4) by (rewrite E; rewrite (Nat.div_mod p2 4) at 3 by lia; lia).
    assert (A : forall q q', q < 4 -> q' < 4 -> chain (fadj (N * 4) D) (p1 / 4 * 4 + q) (p1 / 4 * 4 + q')); [|auto].
    assert (B : forall q q', q < 4 -> q' < 4 -> ((q = 0 \/ q = 1) /\ (q' = 2 \/ q' = 3)) \/ ((q' = 0 \/ q' = 1) /\ (q = 2 \/ q = 3)) -> fadj (N * 4) D (p1 / 4 * 4 + q) (p1 / 4 * 4 + q')).
    { intros q q' Hq Hq' X. apply G; auto; [lia|]. destruct (qd_facts (p1 / 4) J) as (a & b & c & d & Dq & _). unfold side. rewrite Dq.
      destruct X as [[[-> | ->] [-> | ->]]|[[-> | ->] [-> | ->]]]; cbn; [exists a|exists b|exists c|exists d|exists a|exists b|exists c|exists d]; auto. }
    intros q q' Hq Hq'. assert (C : (exists m, m < 4 /\ (((q = 0 \/ q = 1) /\ (m = 2 \/ m = 3)) \/ ((m = 0 \/ m = 1) /\ (q = 2 \/ q = 3))) /\ (((m = 0 \/ m = 1) /\ (q' = 2 \/ q' = 3)) \/ ((q' = 0 \/ q' = 1) /\ (m = 2 \/ m = 3)))) \/
      ((q = 0 \/ q = 1) /\ (q' = 2 \/ q' = 3)) \/ ((q' = 0 \/ q' = 1) /\ (q = 2 \/ q = 3))).
    { destruct (le_lt_dec 2 q), (le_lt_dec 2 q'); try (right; lia); left; [exists 0|exists 2]; lia. }
    destruct C as [(m & Hm & C1 & C2)|C].
    + apply (chain_step _ _ (p1 / 4 * 4 + m)); [apply (chain_step _ _ (p1 / 4 * 4 + q)); [constructor|]|]; apply B; auto.
    + apply (chain_step _ _ (p1 / 4 * 4 + q)); [constructor|]. apply B; auto.
Qed.

(** The edges of the triangles: those of the quads, and four in each quad. *)
Lemma inner_nodup : NoDup (flat_map (fun j => map (fun v => [v; j + n0]) (nth j rows [])) (seq 0 N)).
Proof.
  apply NoDup_flat_map; [apply seq_NoDup| |].
  - intros j Hj. apply in_seq in Hj. apply FinFun.Injective_map_NoDup; [intros a b E; injection E; auto|]. apply quad_nth; auto. lia.
  - intros j j' p Hj Hj' I I'. apply in_map_iff in I as (v & <- & _). apply in_map_iff in I' as (v' & E & _). injection E as _ E. lia.
Qed.
Lemma corner_side : forall j v, j < N -> (In v (nth j rows []) <-> exists q, q < 4 /\ fst (side j q) = v).
Proof.
  intros j v Hj. destruct (qd_facts j Hj) as (a & b & c & d & Dq & -> & _). unfold side. rewrite Dq. cbn [In]. split.
  - intros [<-|[<-|[<-|[<-|[]]]]]; [exists 0|exists 3|exists 2|exists 1]; cbn; auto with arith.
  - intros (q & Hq & <-). do 4 (destruct q as [|q]; [cbn; auto|]). lia.
Qed.
Lemma snd_corner : forall j q, j < N -> q < 4 -> In (snd (side j q)) (nth j rows []).
Proof. intros j q Hj Hq. destruct (qd_facts j Hj) as (a & b & c & d & Dq & -> & _). unfold side. rewrite Dq. do 4 (destruct q as [|q]; [cbn; auto|]). lia. Qed.
Lemma cut_edges : forall P, lists_edges N (qd rows) P -> lists_edges (N * 4) D (P ++ flat_map (fun j => map (fun v => [v; j + n0]) (nth j rows [])) (seq 0 N)).
Proof.
  intros P [A B]. set (I := flat_map _ _). assert (HI : forall p, In p I <-> exists v j, p = [v; j + n0] /\ j < N /\ In v (nth j rows []) /\ v < n0).
  { intros p. unfold I. rewrite in_flat_map. split.
    - intros (j & Hj & Hp). apply in_seq in Hj. apply in_map_iff in Hp as (v & <- & Hv). exists v, j. repeat split; auto; try lia. apply V, in_concat. exists (nth j rows []). split; auto. apply nth_In. lia.
    - intros (v & j & -> & Hj & Hv & _). exists j. split; [apply in_seq; lia|]. apply in_map_iff. eauto. }
  assert (MI : map (isort Nat.leb) I = I). { rewrite <- (map_id I) at 2. apply map_ext_in. intros p Hp. apply HI in Hp as (v & j & -> & _ & _ & Hv). apply sort2. lia. }
  unfold lists_edges. rewrite map_app, MI. split.
  - apply NoDup_app_i; auto; [apply inner_nodup|]. intros p H1 H2. apply B in H1 as (x & y & j & -> & L & Hj & F). apply HI in H2 as (v & j' & E & _). injection E as -> ->. apply qd_range in F; auto. lia.
  - intros p. rewrite in_app_iff, B, HI. split.
    + intros [(x & y & j & -> & L & Hj & F)|(v & j & -> & Hj & Hv & Lv)].
      * destruct (qd_range j x y Hj F) as [Hx Hy]. apply fhas_outer in F as (p & Hp & E & F); auto. exists x, y, p. auto.
      * apply corner_side in Hv as (q & Hq & E); auto. destruct (td_at j q Hj Hq) as (Hp & Ed & Em & _). exists v, (j + n0), (j * 4 + q). split; auto. split; [lia|]. split; auto. pose proof (inner_has _ v Hp) as G. rewrite Ed, Em in G. auto.
    + intros (x & y & p0 & -> & L & Hp & F). destruct (cut_nth p0 Hp) as (_ & J & Hq). destruct (inner p0 x y Hp F) as [[Hx Hy]|(z & Z & W & S0)].
      * left. exists x, y, (p0 / 4). split; auto. split; auto. split; auto. apply fhas_outer; eauto.
      * right. destruct W as [[-> ->]|[-> ->]]; [|lia]. exists z, (p0 / 4). split; auto. split; auto. split; auto. destruct S0 as [<-|<-]; [apply corner_side; eauto|apply snd_corner; auto].
Qed.
Lemma inner_length : length (flat_map (fun j => map (fun v => [v; j + n0]) (nth j rows [])) (seq 0 N)) = N * 4.
Proof. rewrite (flat_map_const_length _ _ _ _ 4); [rewrite seq_length; auto|]. intros j Hj. apply in_seq in Hj. rewrite map_length. apply quad_nth; auto. lia. Qed.
Lemma cut_fan : forall j, j < N -> fan (n0 + j) (nth j rows []) (map (fun q => nth (4 * j + q) T []) (seq 0 4)).
Proof.
  intros j Hj. assert (E : map (fun q => nth (4 * j + q) T []) (seq 0 4) = map (piece j) (seq 0 4)).
  { apply map_ext_in. intros q Hq. apply in_seq in Hq. destruct (td_at j q Hj ltac:(lia)) as (Hp & Ed & Em & _). rewrite (Nat.mul_comm 4). destruct (cut_nth _ Hp) as (-> & _). rewrite Ed, Em. auto. }
  rewrite E. split; [rewrite map_length, seq_length; auto|]. split; [|split].
  - intros s Hs. apply in_map_iff in Hs as (q & <- & Hq). apply in_seq in Hq. destruct (side_lt j q Hj ltac:(lia)) as (A & B & C). split; auto. split; [apply nodup3; lia|]. unfold piece. cbn [In]. right. right. left. lia.
  - intros I. assert (n0 + j < n0); [|lia]. apply V, in_concat. exists (nth j rows []). split; auto. apply nth_In. auto.
  - intros x y Hxy Hx Hy. rewrite quads_side by auto. split.
    + intros [I|I]; destruct (in_side j _ Hj I) as (q & Hq & Es); exists (piece j q); (split; [apply in_map, in_seq; lia|]); unfold piece; rewrite Es; cbn; auto.
    + intros (s & Hs & Ix & Iy). apply in_map_iff in Hs as (q & <- & Hq). apply in_seq in Hq. pose proof (side_in j q Hj ltac:(lia)) as S0. unfold piece in Ix, Iy. cbn [In] in Ix, Iy. unfold fhas.
      destruct Ix as [<-|[<-|[Ix|[]]]], Iy as [<-|[<-|[Iy|[]]]]; try lia; rewrite <- surjective_pairing; auto.
Qed.
End Cut.
