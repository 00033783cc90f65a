(** Vertex numbering of products and grids. *)
Require Import List Arith ZArith Bool Lia Permutation.
From Verif Require Import Util CombModel CombSpec CombProofs SimpModel SimpSpec ParProofs SimpProofs LevelProofs TopProofs CubeModel CubeSpec CubeBits CubeBd CubeRel CubeLevel CubeTop CubeChain CubeProd.
Import ListNotations.
Local Open Scope nat_scope.

(** ---- pairs ---- *)
Lemma nth_flat_map_const : forall A B (f : A -> list B) l m, (forall x, In x l -> length (f x) = m) -> forall i j da d, i < length l -> j < m -> nth (i * m + j) (flat_map f l) d = nth j (f (nth i l da)) d.
Proof.
  induction l as [|a l IH]; intros m H i j da d Hi Hj; [simpl in Hi; lia|]. cbn [flat_map]. destruct i as [|i].
  - cbn [nth Nat.mul Nat.add]. apply app_nth1. rewrite H by (left; auto). auto.
  - rewrite app_nth2 by (rewrite H by (left; auto); lia). rewrite H by (left; auto). replace (S i * m + j - m) with (i * m + j) by lia. cbn [nth]. apply IH; [intros; apply H; right; auto|simpl in Hi; lia|auto].
Qed.
Lemma flat_map_const_length : forall A B (f : A -> list B) l m, (forall x, In x l -> length (f x) = m) -> length (flat_map f l) = length l * m.
Proof. induction l as [|a l IH]; intros m H; auto. cbn [flat_map length]. rewrite app_length, H by (left; auto). rewrite (IH m) by (intros; apply H; right; auto). lia. Qed.
Lemma pair_inj : forall N u v u' v', u < N -> u' < N -> u + v * N = u' + v' * N -> u = u' /\ v = v'.
Proof.
  intros N u v u' v' H H' E. assert (Ev : v = v').
  { assert (Q : forall a b, a < N -> (a + b * N) / N = b) by (intros a b Ha; rewrite Nat.div_add by lia; rewrite Nat.div_small by auto; auto). rewrite <- (Q u v H), <- (Q u' v' H'). congruence. }
  subst v'. split; auto. lia.
Qed.
Lemma pair_lt : forall N M u v, u < N -> v < M -> u + v * N < N * M.
Proof. intros N M u v Hu Hv. assert (v * N + N <= M * N) by nia. nia. Qed.
Lemma pair_split : forall N M l, l < N * M -> exists u v, u < N /\ v < M /\ l = u + v * N.
Proof.
  intros N M l H. assert (N <> 0) by (intros ->; simpl in H; lia). exists (l mod N), (l / N). split; [apply Nat.mod_upper_bound; auto|]. split; [apply Nat.div_lt_upper_bound; auto|]. rewrite (Nat.div_mod_eq l N) at 1. lia.
Qed.

Definition plab (N u v : nat) : nat := u + v * N.
Lemma product_cubes_gcube : forall n1 n2 N c1 c2, product_cubes n1 n2 N c1 c2 = flat_map (fun s => map (gcube (plab N) n1 n2 s) c2) c1.
Proof. reflexivity. Qed.

Section Product.
Variables (n1 n2 N M : nat) (R1 R2 : list cube).
Hypothesis OK1 : Forall (fun c => length c = 2 ^ n1 /\ NoDup c) R1.
Hypothesis OK2 : Forall (fun c => length c = 2 ^ n2 /\ NoDup c) R2.
Hypothesis V1 : forall v, In v (concat R1) <-> v < N.
Hypothesis V2 : forall v, In v (concat R2) <-> v < M.

Lemma prod_length : length (product_cubes n1 n2 N R1 R2) = length R1 * length R2.
Proof. rewrite product_cubes_gcube. apply flat_map_const_length. intros. apply map_length. Qed.
Lemma prod_corner : forall i j b b', i < length R1 -> j < length R2 -> length b = n1 -> length b' = n2 ->
  corner (nth (i * length R2 + j) (product_cubes n1 n2 N R1 R2) []) (b ++ b') = corner (nth i R1 []) b + corner (nth j R2 []) b' * N.
Proof.
  intros i j b b' Hi Hj Lb Lb'. rewrite product_cubes_gcube. rewrite (nth_flat_map_const _ _ _ _ (length R2) ltac:(intros; apply map_length) i j [] []) by auto. rewrite (nth_map_lt _ _ _ _ _ []) by auto. rewrite <- !cget_corner. rewrite cget_gcube by auto. reflexivity.
Qed.
Lemma prod_in : forall c, In c (product_cubes n1 n2 N R1 R2) <-> exists s o, In s R1 /\ In o R2 /\ c = gcube (plab N) n1 n2 s o.
Proof.
  intros c. rewrite product_cubes_gcube, in_flat_map. split.
  - intros (s & Hs & H). apply in_map_iff in H as (o & <- & Ho). eauto.
  - intros (s & o & Hs & Ho & ->). exists s. split; auto. apply in_map. auto.
Qed.
Lemma prod_verts : forall l, In l (concat (product_cubes n1 n2 N R1 R2)) <-> l < N * M.
Proof.
  intros l. rewrite Forall_forall in OK1, OK2. rewrite in_concat. split.
  - intros (c & Hc & Hl). apply prod_in in Hc as (s & o & Hs & Ho & ->). destruct (OK1 s Hs) as [Ls _], (OK2 o Ho) as [Lo _]. apply gcube_in in Hl as (u & w & Hu & Hw & ->); auto. apply pair_lt; [apply V1|apply V2]; apply in_concat; eauto.
  - intros Hl. apply pair_split in Hl as (u & v & Hu & Hv & ->). apply V1 in Hu. apply V2 in Hv. apply in_concat in Hu as (s & Hs & Hu). apply in_concat in Hv as (o & Ho & Hv). exists (gcube (plab N) n1 n2 s o). split; [apply prod_in; eauto|]. destruct (OK1 s Hs) as [Ls _], (OK2 o Ho) as [Lo _]. apply gcube_in; auto. exists u, v. auto.
Qed.
Lemma plab_inj : forall u v u' v', In u (concat R1) -> In u' (concat R1) -> In v (concat R2) -> In v' (concat R2) -> plab N u v = plab N u' v' -> u = u' /\ v = v'.
Proof. intros u v u' v' Hu Hu' _ _ E. apply pair_inj in E; auto; apply V1; auto. Qed.
Lemma prod_cubes_ok : R1 <> [] -> R2 <> [] -> cubes_ok (n1 + n2) (product_cubes n1 n2 N R1 R2).
Proof.
  intros H1 H2. split.
  - intros E. apply (f_equal (@length _)) in E. rewrite prod_length in E. destruct R1, R2; simpl in *; try congruence; lia.
  - apply Forall_forall. intros c Hc. apply prod_in in Hc as (s & o & Hs & Ho & ->). split; [apply gcube_length|]. apply (gcube_nodup (plab N) n1 n2 R1 R2); auto. apply plab_inj.
Qed.
End Product.

Lemma product_vertices_nth : forall P (p1 p2 : list (list P)) u v d, u < length p1 -> v < length p2 -> nth (u + v * length p1) (product_vertices p1 p2) d = nth u p1 d ++ nth v p2 d.
Proof.
  intros P p1 p2 u v d Hu Hv. unfold product_vertices. rewrite Nat.add_comm. rewrite (nth_flat_map_const _ _ _ _ (length p1) ltac:(intros; apply map_length) v u d d) by auto. rewrite (nth_map_lt _ _ _ _ _ d) by auto. auto.
Qed.
Lemma product_vertices_length : forall P (p1 p2 : list (list P)), length (product_vertices p1 p2) = length p1 * length p2.
Proof. intros. unfold product_vertices. rewrite (flat_map_const_length _ _ _ _ (length p1)) by (intros; apply map_length). lia. Qed.

(** ---- grids ---- *)
Lemma multi_indices_length : forall shape, length (multi_indices shape) = size shape.
Proof. induction shape as [|m r IH]; auto. cbn [multi_indices]. rewrite (flat_map_const_length _ _ _ _ (size r)) by (intros; rewrite map_length; auto). rewrite seq_length. reflexivity. Qed.
Lemma flat_lt : forall shape x, within shape x -> flat shape x < size shape.
Proof.
  induction shape as [|m r IH]; intros x H; inversion H; subst; [simpl; lia|]. cbn [flat size fold_right]. specialize (IH l H4). unfold size in IH. change (fold_right Nat.mul 1 (m :: r)) with (m * fold_right Nat.mul 1 r). assert (x0 * fold_right Nat.mul 1 r + fold_right Nat.mul 1 r <= m * fold_right Nat.mul 1 r) by nia. lia.
Qed.
Lemma multi_indices_nth : forall shape x, within shape x -> nth (flat shape x) (multi_indices shape) [] = x.
Proof.
  induction shape as [|m r IH]; intros x H; inversion H; subst; [reflexivity|]. cbn [flat multi_indices]. pose proof (flat_lt r l H4) as F. fold (size r).
  rewrite (nth_flat_map_const _ _ _ _ (size r) ltac:(intros; rewrite map_length; apply multi_indices_length) x0 (flat r l) 0 []) by (rewrite ?seq_length; auto). rewrite (nth_map_lt _ _ _ _ _ []) by (rewrite multi_indices_length; auto). rewrite seq_nth by auto. rewrite IH by auto. auto.
Qed.
Lemma multi_indices_in : forall shape x, In x (multi_indices shape) <-> within shape x.
Proof.
  induction shape as [|m r IH]; intros x; cbn [multi_indices].
  - split; [intros [<-|[]]; constructor|]. intros H. inversion H. left. auto.
  - rewrite in_flat_map. split.
    + intros (i & Hi & H). apply in_map_iff in H as (y & <- & Hy). apply in_seq in Hi. constructor; [lia|apply IH; auto].
    + intros H. inversion H; subst. exists x0. split; [apply in_seq; lia|]. apply in_map. apply IH. auto.
Qed.
Lemma item_flat : forall shape x, length x = length shape -> item (strides shape) x = flat shape x.
Proof. induction shape as [|m r IH]; destruct x as [|i x]; intros L; try discriminate; auto. cbn [strides flat]. unfold item in *. cbn [combine map list_sum fold_right fst snd]. rewrite <- IH by (simpl in L; lia). rewrite Nat.mul_comm. reflexivity. Qed.
Lemma flat_moved : forall shape x bs, length x = length shape -> length bs = length shape -> flat shape x + flat shape (map nat_of bs) = flat shape (moved x bs).
Proof.
  induction shape as [|m r IH]; destruct x as [|i x], bs as [|b bs]; intros L L'; try discriminate; auto. unfold moved in *. cbn [flat map combine fst snd]. rewrite <- IH by (simpl in *; lia). unfold nat_of. destruct b; lia.
Qed.
Lemma moved_within : forall shape x bs, within shape x -> length bs = length shape -> within (map S shape) (moved x bs).
Proof.
  induction shape as [|m r IH]; intros x bs H L; inversion H; subst; destruct bs as [|b bs]; try discriminate; [constructor|]. unfold moved. cbn [combine map fst snd]. constructor; [destruct b; lia|]. apply IH; auto.
Qed.
Lemma within_length : forall shape x, within shape x -> length x = length shape.
Proof. intros shape x H. apply Forall2_len in H. auto. Qed.

Lemma grid_entry : forall shape x bs, within shape x -> length bs = length shape ->
  nth (item (strides (map S shape)) x + item (strides (map S shape)) (map nat_of bs)) (seq 0 (fold_right Nat.mul 1 (map S shape))) 0 = flat (map S shape) (moved x bs).
Proof.
  intros shape x bs W L. pose proof (within_length _ _ W) as Lx. rewrite !item_flat by (rewrite ?map_length; auto). rewrite flat_moved by (rewrite ?map_length; auto). rewrite seq_nth; auto. apply flat_lt, moved_within; auto.
Qed.
Lemma grid_length : forall shape, length (grid_cubes shape) = size shape.
Proof. intros. unfold grid_cubes. rewrite map_length. apply multi_indices_length. Qed.
Lemma grid_corner : forall shape x bs, within shape x -> length bs = length shape -> corner (nth (flat shape x) (grid_cubes shape) []) bs = flat (map S shape) (moved x bs).
Proof.
  intros shape x bs W L. unfold grid_cubes. rewrite (nth_map_lt _ _ _ _ _ []) by (rewrite multi_indices_length; apply flat_lt; auto). rewrite multi_indices_nth by auto. rewrite <- cget_corner, cget_build by auto. apply grid_entry; auto.
Qed.

Definition glab (N i v : nat) : nat := i * N + v.
Definition intervals (m : nat) : list cube := map (fun i => [i; S i]) (seq 0 m).
Lemma grid_cons : forall m r c, In c (grid_cubes (m :: r)) -> exists s o, In s (intervals m) /\ In o (grid_cubes r) /\ c = gcube (glab (size (map S r))) 1 (length r) s o.
Proof.
  intros m r c H. unfold grid_cubes in H. apply in_map_iff in H as (x & <- & Hx). apply multi_indices_in in Hx. inversion Hx as [|i m' y r' Hi Hy]; subst.
  exists [i; S i]. eexists. split; [unfold intervals; apply (in_map (fun i => [i; S i])); apply in_seq; lia|]. split; [unfold grid_cubes; apply in_map; apply multi_indices_in; exact Hy|].
  apply (gcube_ext _ _ _ (S (length r))); [reflexivity|apply cbuild_length|]. intros b b' Lb Lb'. destruct b as [|b0 [|]]; try discriminate. cbn [app length]. rewrite !cget_build by (simpl; auto).
  change (b0 :: b') with ([b0] ++ b'). rewrite (grid_entry (m :: r) (i :: y)) by (simpl; auto). rewrite grid_entry by auto. unfold moved, glab. cbn [map app combine flat fst snd]. fold (size (map S r)). destruct b0; cbn; lia.
Qed.
Lemma intervals_ok : forall m, Forall (fun c => length c = 2 ^ 1 /\ NoDup c) (intervals m).
Proof. intros. apply Forall_forall. intros c Hc. apply in_map_iff in Hc as (i & <- & _). split; auto. repeat constructor; auto. intros [H|[]]. lia. Qed.
Lemma comp0 : forall n rows, Forall (fun c => length c = 2 ^ n /\ NoDup c) rows -> faces_match 0 n rows.
Proof.
  intros n rows OK c d f g Hc Hd Hf Hg P. exists 1%Z. rewrite Forall_forall in OK. destruct (OK c Hc) as [Lc _], (OK d Hd) as [Ld _]. pose proof (subcube_length _ _ _ _ Hf Lc) as Lf. pose proof (subcube_length _ _ _ _ Hg Ld) as Lg.
  destruct f as [|x [|]], g as [|y [|]]; simpl in Lf, Lg; try lia. apply Permutation_length_1 in P. subst. constructor.
Qed.
Lemma intervals_comp : forall m k, k <= 1 -> faces_match k 1 (intervals m).
Proof.
  intros m k Hk. destruct k as [|k]; [apply comp0, intervals_ok|]. assert (k = 0) by lia. subst k. intros c d f g Hc Hd Hf Hg P. apply subcube_top in Hf, Hg. subst f g.
  apply in_map_iff in Hc as (i & <- & _). apply in_map_iff in Hd as (j & <- & _). assert (H1 : In i [j; S j]) by (apply (Permutation_in _ P); left; auto). assert (H2 : In (S i) [j; S j]) by (apply (Permutation_in _ P); right; left; auto).
  assert (i = j) by (destruct H1 as [H1|[H1|[]]], H2 as [H2|[H2|[]]]; lia). subst. exists 1%Z. constructor.
Qed.
Lemma grid_facts : forall shape, Forall (fun c => length c = 2 ^ length shape /\ NoDup c) (grid_cubes shape) /\ (forall v, In v (concat (grid_cubes shape)) -> v < size (map S shape)) /\ (forall k, k <= length shape -> faces_match k (length shape) (grid_cubes shape)).
Proof.
  induction shape as [|m r (I1 & I2 & I3)].
  - split; [|split].
    + constructor; [|constructor]. split; auto. repeat constructor; auto.
    + cbn. intros v [<-|[]]. lia.
    + intros k Hk. assert (k = 0) by (simpl in Hk; lia); subst k. apply comp0. constructor; [|constructor]. split; auto. repeat constructor; simpl; tauto.
  - pose proof (intervals_ok m) as IO. set (N := size (map S r)) in *.
    assert (Inj : forall u v u' v', In u (concat (intervals m)) -> In u' (concat (intervals m)) -> In v (concat (grid_cubes r)) -> In v' (concat (grid_cubes r)) -> glab N u v = glab N u' v' -> u = u' /\ v = v').
    { intros u v u' v' _ _ Hv Hv' E. unfold glab in E. apply I2 in Hv, Hv'. destruct (pair_inj N v u v' u' Hv Hv') as [-> ->]; auto. lia. }
    split; [|split].
    + apply Forall_forall. intros c Hc. apply grid_cons in Hc as (s & o & Hs & Ho & ->). split; [apply gcube_length|]. apply (gcube_nodup _ 1 (length r) (intervals m) (grid_cubes r)); auto.
    + intros v Hv. apply in_concat in Hv as (c & Hc & Hv). apply grid_cons in Hc as (s & o & Hs & Ho & ->). rewrite Forall_forall in IO, I1. destruct (IO s Hs) as [Ls _], (I1 o Ho) as [Lo _].
      apply gcube_in in Hv as (u & w & Hu & Hw & ->); auto. assert (w < N) by (apply I2, in_concat; eauto). apply in_map_iff in Hs as (i & <- & Hi). apply in_seq in Hi. assert (u <= m) by (destruct Hu as [<-|[<-|[]]]; lia). cbn [map size fold_right]. unfold glab. fold (size (map S r)). fold N. nia.
    + intros k Hk. cbn [length]. change (S (length r)) with (1 + length r). apply (comp_gprod (glab N) 1 (length r) (intervals m) (grid_cubes r)); auto; [apply intervals_comp|apply grid_cons].
Qed.
Lemma grid_verts : forall shape, Forall (fun m => 1 <= m) shape -> forall v, In v (concat (grid_cubes shape)) <-> v < size (map S shape).
Proof.
  intros shape P v. split; [apply grid_facts|]. intros Hv.
  assert (G : forall sh w, Forall (fun m => 1 <= m) sh -> w < size (map S sh) -> exists x bs, within sh x /\ length bs = length sh /\ flat (map S sh) (moved x bs) = w).
  { clear. induction sh as [|m r IH]; intros w P Hw; [exists [], []; repeat split; auto; [constructor|simpl in *; lia]|]. inversion P; subst. cbn [map size fold_right] in Hw. fold (size (map S r)) in Hw. set (N := size (map S r)) in *.
    assert (N0 : N <> 0) by (intros E; rewrite E in Hw; lia). destruct (IH (w mod N) H2 (Nat.mod_upper_bound _ _ N0)) as (x & bs & W & L & E).
    assert (Hq : w / N < S m) by (apply Nat.div_lt_upper_bound; lia). exists ((if w / N <? m then w / N else m - 1) :: x), ((if w / N <? m then false else true) :: bs).
    split; [constructor; auto; destruct (Nat.ltb_spec (w / N) m); lia|]. split; [simpl; auto|]. unfold moved in *. cbn [combine map flat fst snd]. rewrite E. fold (size (map S r)). fold N. pose proof (Nat.div_mod_eq w N) as D. destruct (Nat.ltb_spec (w / N) m); nia. }
  destruct (G shape v P Hv) as (x & bs & W & L & <-). apply in_concat. exists (nth (flat shape x) (grid_cubes shape) []). split; [apply nth_In; rewrite grid_length; apply flat_lt; auto|].
  rewrite <- grid_corner by auto. rewrite <- cget_corner. apply (cget_in (length shape)); auto. destruct (grid_facts shape) as (F & _). rewrite Forall_forall in F. apply F. apply nth_In. rewrite grid_length. apply flat_lt. auto.
Qed.
