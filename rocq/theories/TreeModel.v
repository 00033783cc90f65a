(** Model of pycomplex/complex/simplicial/base.py 252-267 [weights_to_offsets], 269-282 [homogenize], 284-299 [augment],
    309-326 [pick_precompute], 328-368 [pick_primal_precomp], 378-426 [pick_primal], 428-446 [pick_dual], 531-548 [sample_primal_0]
    and complex/simplicial/euclidian.py 24-35 [homogenize].
    Coordinates are elements of an ordered field with square roots in place of floats.  The functions act on each of an array of
    points separately; the model takes one point.  The trees and bases are cached, which does not show in the results. *)
From mathcomp Require Import all_ssreflect all_algebra.
From Verif Require Import DelModel.
From Verif Require Util SimpModel BdryModel.
Import Order.TTheory GRing.Theory Num.Theory.
Local Open Scope ring_scope.

Section Tree.
Variable K : rcfType.
(** the SAT solver and the ordering of rows, see BdryModel *)
Variable sat : list (BinNums.Z * BinNums.Z) -> option (list BinNums.Z).
Variable row_leb : SimpModel.simplex -> SimpModel.simplex -> bool.
(** scipy.spatial.cKDTree(points).query(p)[1] *)
Variable nearest : forall k, seq 'rV[K]_k -> 'rV[K]_k -> nat.
(** scipy.sparse.linalg.minres(A, b)[0] *)
Variable minres : forall N, 'M[K]_N -> 'cV[K]_N -> 'cV[K]_N.
Variable t : SimpModel.topology.
Variable d : nat.
(** self.vertices and self.weights *)
Variable vertices : nat -> 'rV[K]_d.
Variable weights : option (seq K).
(** primal_position and primal_barycentric, parameters as in DelModel *)
Variable PP : nat -> nat -> 'rV[K]_d.
Variable bary : nat -> nat -> nat -> K.

(** one more coordinate *)
Definition extend (p : 'rV[K]_d) (x : K) : 'rV[K]_(d + 1) := row_mx p (const_mx x).
(** base.py:252-267 *)
Definition largest (w : seq K) : K := if w is x :: r then foldr Num.max x r else 0.
Definition weights_to_offsets (w : seq K) : seq K := [seq Num.sqrt (- x + largest w) | x <- w].
(** base.py:284-299 *)
Definition augment (points : seq 'rV[K]_d) (w : option (seq K)) : seq 'rV[K]_(d + 1) :=
  [seq extend q.1 q.2 | q <- zip points (if w is Some w then weights_to_offsets w else nseq (size points) 0)].
(** euclidian.py:24-35 *)
Definition homogenize (p : 'rV[K]_d) : 'rV[K]_(d + 1) := extend p 1.

(** base.py:323-325 and 366-367: the inverses of the homogeneous corners.  The LinAlgError raised when these matrices are not
    square or not invertible is represented by ValueError. *)
Definition simplex_corners (j : nat) : 'M[K]_(d + 1) :=
  \matrix_(c, q) homogenize (vertices (nth 0%N (List.nth j (List.nth (BdryModel.n_dim t) (SimpModel.elements t) [::]) [::]) c)) 0 q.
Definition bases : Util.result (nat -> 'M[K]_(d + 1)) :=
  if (BdryModel.n_dim t == d) && all (fun j => simplex_corners j \in unitmx) (iota 0 (SimpModel.n_elements t (BdryModel.n_dim t)))
  then Util.Ok (fun j => invmx (simplex_corners j)) else Util.Err Util.ValueError.

(** base.py:350-362: the system for the weights of the dual vertices, in numbers without rounding.  (The entries of L are
    computed in int8; they are at most the number of corners of a simplex.) *)
Section Weights.
Let n := BdryModel.n_dim t.
Let S := BdryModel.selector_interior row_leb sat t (n - 1).
Let F := SimpModel.n_elements t (n - 1).
Let N := SimpModel.n_elements t n.
Definition selector_mx : 'M[K]_(SimpModel.nrows S, F) := \matrix_(r, e) z_to_K K (SimpModel.entry S r e).
Definition incidence_mx : 'M[K]_(F, N) := \matrix_(e, j) z_to_K K (SimpModel.entry (SimpModel.matrix t (n - 1)) e j).
Definition excess_col : 'cV[K]_F := \col_e nth 0 (remap_boundary_N K t (dual_edge_excess K t d PP bary false) true) e.
Definition dual_weights : seq K :=
  let q := selector_mx *m excess_col in
  let T := selector_mx *m incidence_mx in
  let L := T^T *m T in
  let rhs := T^T *m q in
  let w := minres N L (rhs - const_mx ((\sum_j rhs j 0) / N%:R)) in
  [seq w j 0 | j <- enum 'I_N].
End Weights.

(** base.py:345-346 *)
Definition dual_vertices : seq 'rV[K]_d := let n := BdryModel.n_dim t in [seq PP n j | j <- iota 0 (SimpModel.n_elements t n)].
(** base.py:328-368, 399-411: the simplex found with the tree over the dual vertices *)
Definition query_index (weighted : bool) (p : 'rV[K]_d) : nat :=
  if weighted then nearest (d + 1)%N (augment dual_vertices (Some dual_weights)) (extend p 0) else nearest d dual_vertices p.
(** base.py:378-426.  An index [guess] out of range raises IndexError. *)
Definition pick_primal (p : 'rV[K]_d) (guess : option nat) (weighted : bool) : Util.result (nat * 'rV[K]_(d + 1)) :=
  if ~~ is_pairwise_delaunay K t d PP bary then Util.Err Util.AssertionError else
  Util.bind bases (fun basis =>
  let coordinates j := homogenize p *m basis j in
  let query := let j := query_index weighted p in (j, coordinates j) in
  let finish (r : nat * 'rV[K]_(d + 1)) := Util.Ok (r.1, (\sum_c r.2 0 c)^-1 *: r.2) in
  match guess with
  | None => finish query
  | Some g => if (SimpModel.n_elements t (BdryModel.n_dim t) <= g)%N then Util.Err Util.IndexError else
              finish (if [exists c, coordinates g 0 c < 0] then query else (g, coordinates g))
  end).
(** base.py:309-326, 428-446 *)
Definition pick_dual (p : 'rV[K]_d) : Util.result nat :=
  let points := [seq PP 0%N v | v <- iota 0 (SimpModel.n_elements t 0%N)] in
  Util.bind bases (fun _ =>
  Util.Ok (if weights is Some w then nearest (d + 1)%N (augment points (Some w)) (extend p 0) else nearest d points p)).
(** base.py:531-548 *)
Definition sample_primal_0 (p0 : nat -> K) (p : 'rV[K]_d) : Util.result K :=
  Util.bind (pick_primal p None true) (fun r =>
  Util.Ok (\sum_(c < d + 1) p0 (nth 0%N (List.nth r.1 (List.nth (BdryModel.n_dim t) (SimpModel.elements t) [::]) [::]) c) * r.2 0 c)).
End Tree.
