(** Block arrays: splitting undoes merging, and block products agree with products of the merged matrices. *)
Require Import List Arith ZArith Lia Bool Ring.
From Verif Require Import Util Arr BarrModel BarrSpec BarrProofs.
Import ListNotations.
Local Open Scope nat_scope.

Section Props.
Variable K : cring.
Notation vec := (list K).

(** ---- C42 ---- *)
(** Full claim: for every non-empty list of vectors, splitting the merged vector of DenseBlockArray(l) gives back the
    blocks.  It holds when the attribute [block] is an array of vectors, which is so for lists with vectors of
    different length (second part); missing: lists of vectors of equal length, see below. *)
Theorem C42_split_merge_partial : forall l : list vec, l <> [] ->
  merge K (D1 l) = Ok (M1 (concat l)) /\ split K (D1 l) (concat l) = Ok (D1 l) /\
  ((exists v w, In v l /\ In w l /\ length v <> length w) -> from_list K l = D1 l).
Proof.
  intros l NE. split; [destruct l; [congruence|auto]|]. split.
  - unfold split. cbn [dshape bind hd]. do 2 f_equal. transitivity (map (fun i => nth i l []) (seq 0 (length l))); [|apply (map_nth_seq _ l [])]. apply map_ext_in. intros c Hc. apply in_seq in Hc.
    rewrite !cumsum_nth by (rewrite map_length; lia). rewrite Nat.add_1_r. rewrite offset_S by (rewrite map_length; lia). unfold pyslice. replace (_ - _) with (length (nth c l [])); [apply pieces; lia|]. change 0 with (length (@nil K)) at 2. rewrite map_nth. lia.
  - intros (v & w & Hv & Hw & Q). destruct l as [|a l]; [congruence|]. cbn [from_list]. destruct (forallb _ l) eqn:E; auto. exfalso. apply Q. rewrite forallb_forall in E.
    assert (H : forall u, In u (a :: l) -> length u = length a) by (intros u [<-|Hu]; auto; apply Nat.eqb_eq, E; auto). rewrite (H v Hv), (H w Hw). auto.
Qed.
(** Every vector of the right length is cut into blocks of the right sizes, and merging gives it back. *)
Theorem C42_merge_split_partial : forall (l : list vec) (x : vec), l <> [] -> length x = list_sum (map (@length K) l) ->
  exists b, split K (D1 l) x = Ok (D1 b) /\ map (@length K) b = map (@length K) l /\ merge K (D1 b) = Ok (M1 x).
Proof.
  intros l x NE H. unfold split. cbn [dshape bind hd]. eexists. split; [reflexivity|]. set (sz := map (@length K) l) in *. assert (Ls : length sz = length l) by apply map_length.
  assert (E : map (fun c => pyslice K x (nth c (0 :: cumsum 0 sz) 0) (nth (c + 1) (0 :: cumsum 0 sz) 0)) (seq 0 (length l)) = map (fun i => firstn (nth i sz 0) (skipn (offset sz i) x)) (seq 0 (length sz))).
  { rewrite Ls. apply map_ext_in. intros c Hc. apply in_seq in Hc. rewrite !cumsum_nth by lia. rewrite Nat.add_1_r. rewrite offset_S by lia. unfold pyslice. f_equal. lia. }
  rewrite E. split.
  - rewrite map_map. transitivity (map (fun i => nth i sz 0) (seq 0 (length sz))); [|apply (map_nth_seq _ sz 0)]. apply map_ext_in. intros i Hi. apply in_seq in Hi. rewrite firstn_length, skipn_length. pose proof (offset_S sz i ltac:(lia)). pose proof (offset_le sz (S i) (length sz) ltac:(lia)). rewrite offset_all in *. lia.
  - pose proof (cut_concat K sz x H) as C. destruct (map _ (seq 0 (length sz))) as [|v b] eqn:Em; [apply map_eq_nil in Em; destruct l; [congruence|]; rewrite Ls in Em; discriminate|]. cbn [merge]. rewrite C. auto.
Qed.
(** For vectors of equal non-zero length the constructor builds a two-dimensional array of numbers: merging gives a
    two-dimensional array instead of the concatenation, and splitting raises. *)
Theorem C42_equal_blocks_refuted : forall (l : list vec) m, l <> [] -> 0 < m -> (forall v, In v l -> length v = m) ->
  merge K (from_list K l) = Ok (M2 l) /\ forall x, split K (from_list K l) x = Err IndexError.
Proof.
  intros l m NE Hm H. destruct l as [|v l]; [congruence|]. assert (E : from_list K (v :: l) = D2 (v :: l)).
  { cbn [from_list]. rewrite (proj2 (forallb_forall _ _)); auto. intros w Hw. rewrite (H w), (H v) by (simpl; auto). apply Nat.eqb_refl. }
  rewrite E. split.
  - cbn [merge]. destruct (existsb _ _) eqn:Ex; auto. apply existsb_exists in Ex as (w & Hw & Q). apply Nat.eqb_eq in Q. rewrite (H w Hw) in Q. lia.
  - intros x. unfold split. cbn [dshape hd]. rewrite (H v) by (left; auto). rewrite (proj2 (Nat.eqb_neq m 0)) by lia. auto.
Qed.

(** Block products; [sized R C A] says that the blocks of [A] fit together. *)
Theorem C42_matrix_product : forall R M C (A B : list (list (mat K))), sized R M A -> sized M C B -> R <> [] -> M <> [] -> C <> [] ->
  exists P AM BM PM, smul K A B = Ok P /\ bmat K A = Ok AM /\ bmat K B = Ok BM /\ bmat K P = Ok PM /\
    is_merged R M A AM /\ is_merged M C B BM /\ is_merged R C P PM /\
    forall r c, r < list_sum R -> c < list_sum C -> mg PM r c = rsum (map (fun m => rmul (mg AM r m) (mg BM m c)) (seq 0 (list_sum M))).
Proof. intros R M C A B SA SB NR NM NC. apply smul_merged; auto. Qed.
Theorem C42_matrix_vector : forall R M (A : list (list (mat K))) (x : list vec), sized R M A -> map (@length K) x = M -> R <> [] -> M <> [] ->
  exists y AM, smul_vec K A x = Ok y /\ bmat K A = Ok AM /\ is_merged R M A AM /\ map (@length K) y = R /\
    forall r, r < list_sum R -> nth r (concat y) r0 = rsum (map (fun m => rmul (mg AM r m) (nth m (concat x) r0)) (seq 0 (list_sum M))).
Proof.
  intros R M A x SA SX NR NM. destruct (smul_vec_merged K R M A x SA SX NR NM) as (y & AM & E & EA & HA & _ & H). destruct (smul_vec_ok K R M A x SA SX NR NM) as (y' & E' & Sy & _). rewrite E in E'. injection E' as <-. exists y, AM. auto.
Qed.
End Props.
Print Assumptions C42_split_merge_partial.
Print Assumptions C42_merge_split_partial.
Print Assumptions C42_equal_blocks_refuted.
Print Assumptions C42_matrix_product.
Print Assumptions C42_matrix_vector.

Definition Zr : cring := mkRing Z 0%Z 1%Z Z.add Z.mul Z.sub Z.opp Zth.
Example C42_split_example : exists b, from_list Zr [[1; 2; 3]; [4]; [5; 6]]%Z = b /\ merge Zr b = Ok (@M1 Zr [1; 2; 3; 4; 5; 6]%Z) /\ split Zr b [7; 8; 9; 10; 11; 12]%Z = Ok (@D1 Zr [[7; 8; 9]; [10]; [11; 12]]%Z).
Proof. eexists. split; [reflexivity|]. split; reflexivity. Qed.
Example C42_equal_example : merge Zr (from_list Zr [[1; 2]; [3; 4]]%Z) = Ok (@M2 Zr [[1; 2]; [3; 4]]%Z) /\ split Zr (from_list Zr [[1; 2]; [3; 4]]%Z) [1; 2; 3; 4]%Z = Err IndexError.
Proof. split; reflexivity. Qed.
Definition grid (f : Z -> Z -> Z) (r c : nat) : mat Zr := @mkMat Zr r c (fun i j => f (Z.of_nat i) (Z.of_nat j)).
Definition exA : list (list (mat Zr)) := [[grid Z.add 2 1; grid Z.mul 2 3]; [grid Z.sub 1 1; grid (fun i j => 2 + i - j)%Z 1 3]].
Example C42_sized_example : sized [2; 1] [1; 3] exA.
Proof. repeat constructor. Qed.
Example C42_vector_example : smul_vec Zr exA [[5]; [1; 2; 3]]%Z = Ok [[0; 13]; [4]]%Z.
Proof. reflexivity. Qed.
