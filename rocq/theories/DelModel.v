(** Model of pycomplex/complex/base.py 220-258 [primal_metric, dual_metric, positive_dual_metric, is_well_centered,
    is_pairwise_delaunay] and complex/simplicial/base.py 43-66 [dual_edge_excess], 214-232 [remap_boundary_N].
    Coordinates are elements of an ordered field with square roots in place of floats. *)
From mathcomp Require Import all_ssreflect all_algebra.
From Verif Require Import MetModel.
From Verif Require Util SimpModel BdryModel.
Import GRing.Theory Num.Theory.
Local Open Scope ring_scope.

Section Del.
Variable K : rcfType.
Variable t : SimpModel.topology.
Variable d : nat.
(** complex/simplicial/euclidian.py:129-139 [primal_position] and 116-127 [primal_barycentric] of k-element e (at corner c);
    parameters, see CircModel and MetModel *)
Variable PP : nat -> nat -> 'rV[K]_d.
Variable bary : nat -> nat -> nat -> K.

(** self.topology._boundary[-1] and self.topology._orientation[-1] *)
Definition last_boundary : seq (seq nat) := List.nth (BdryModel.n_dim t - 1) (SimpModel.boundary_idx t) [::].
Definition last_orientation : seq (seq BinNums.Z) := List.nth (BdryModel.n_dim t - 1) (SimpModel.orientation t) [::].
(** a sign of the int8 matrix as a number *)
Definition z_to_K (z : BinNums.Z) : K := match z with BinNums.Z0 => 0 | BinNums.Zpos p => (BinPos.Pos.to_nat p)%:R | BinNums.Zneg p => - (BinPos.Pos.to_nat p)%:R end.

(** simplicial/base.py:43-66: squared distances of the centres of a simplex and its facets *)
Definition dual_edge_excess (signed : bool) : seq (seq K) :=
  let n := BdryModel.n_dim t in
  [seq [seq let delta := PP n j - PP (n - 1)%N (nth 0%N (nth [::] last_boundary j) c) in
            (\sum_q delta 0 q * delta 0 q) * (if signed then Num.sg (bary n j c) else 1) | c <- iota 0 n.+1] | j <- iota 0 (SimpModel.n_elements t n)].
(** simplicial/base.py:214-232 *)
Definition remap_boundary_N (field : seq (seq K)) (oriented : bool) : seq K :=
  let field' := if oriented then [seq [seq q.1 * z_to_K q.2 | q <- zip p.1 p.2] | p <- zip field last_orientation] else field in
  group_sum K (flatten last_boundary) (flatten field').
(** complex/base.py:256-258 *)
Definition is_pairwise_delaunay : bool := all (fun x => 0 < x) (remap_boundary_N (dual_edge_excess true) false).
(** complex/base.py:251-253; the corners of k-element e are k+1 *)
Definition is_well_centered : bool :=
  all (fun k => all (fun e => all (fun c => 0 < bary k e c) (iota 0 k.+1)) (iota 0 (SimpModel.n_elements t k))) (iota 0 (BdryModel.n_dim t).+1).
(** complex/base.py:246-248 *)
Definition positive_dual_metric (DM : seq (seq K)) : bool := all (all (fun x => 0 < x)) DM.
End Del.
