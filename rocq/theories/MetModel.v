(** Model of pycomplex/complex/simplicial/euclidian.py 141-196 [metric], 208-271 [compute_triangle_angles,
    compute_vertex_areas, compute_triangle_areas, compute_edge_ratio] and geometry/euclidian.py 308-330 [triangle_angles].
    Coordinates are elements of an ordered field with square roots in place of floats. *)
From mathcomp Require Import all_ssreflect all_algebra.
From Verif Require Import GeoModel.
From Verif Require Util SimpModel BdryModel SubdModel.
Import GRing.Theory Num.Theory.
Local Open Scope ring_scope.

Section Met.
Variable K : rcfType.
(** the SAT solver used by relative_parity, see BdryModel *)
Variable sat : list (BinNums.Z * BinNums.Z) -> option (list BinNums.Z).
Variable t : SimpModel.topology.
(** vertices live in d-space *)
Variable d : nat.
Variable vertices : nat -> 'rV[K]_d.
(** euclidian.py:129-139 [primal_position]: the position of k-element e.  A parameter: the circumcentres are those of
    CircModel, and the weights may move them. *)
Variable PP : nat -> nat -> 'rV[K]_d.
(** euclidian.py:161-164: circumcenter_barycentric of the (centred) corners of top simplex j, at corner c; a parameter. *)
Variable bary : nat -> nat -> K.

(** npi.group_by(keys).sum(values)[1] and .mean: one entry for every distinct key, in increasing order of keys *)
Definition group_sum (keys : seq nat) (values : seq K) : seq K :=
  [seq \sum_(p <- zip keys values | p.1 == k) p.2 | k <- sort leq (undup keys)].
Definition group_mean (keys : seq nat) (values : seq K) : seq K :=
  [seq (\sum_(p <- zip keys values | p.1 == k) p.2) / (count_mem k keys)%:R | k <- sort leq (undup keys)].

(** rows lo, lo+1, .., lo+k of the corners of one fundamental domain *)
Definition corners_of (lo k : nat) (row : seq nat) : 'M[K]_(k.+1, d) := \matrix_(i, j) PP (lo + i) (nth 0%N row (lo + i)) 0 j.
(** euclidian.unsigned_volume where it is defined *)
Definition measure (k : nat) (pts : 'M[K]_(k.+1, d)) : K := if unsigned_volume K k d pts is Util.Ok v then v else 0.

(** euclidian.py:165-166: np.sign, repeated over the trailing axes of the array of domains *)
Definition sign_of (n p : nat) : K := Num.sg (bary (p %/ (n.+1)`!) (p %% (n.+1)`! %/ n`!)).

(** euclidian.py:141-196.  unsigned_volume raises when the space has too few dimensions. *)
Definition metric : Util.result (seq (seq K) * seq (seq K)) :=
  Util.bind (BdryModel.is_oriented sat t) (fun o =>
  if ~~ o then Util.Err Util.AssertionError else
  Util.bind (SubdModel.fundamental_domains t) (fun domains =>
  let n := BdryModel.n_dim t in
  if (d < n)%N then Util.Err Util.ValueError else
  let signs := [seq sign_of n p | p <- iota 0 (size domains)] in
  let column k := [seq nth 0%N row k | row <- domains] in
  let unsigned lo k := [seq measure k (corners_of lo k row) | row <- domains] in
  let signed lo k := [seq p.1 * p.2 | p <- zip (unsigned lo k) signs] in
  let V := signed 0%N n in
  Util.Ok (nseq (SimpModel.n_elements t 0) 1 ::
           [seq [seq x * (i.+1)`!%:R | x <- group_mean (column i) (unsigned 0%N i)] | i <- iota 1 (n - 1)] ++ [:: group_sum (column n) V],
           nseq (SimpModel.n_elements t n) 1 ::
           [seq [seq x / (n - i).+1`!%:R | x <- group_sum (column (n - i)%N) (signed (n - i)%N i)] | i <- iota 1 (n - 1)] ++ [:: group_sum (column 0%N) V]))).

(** geometry/euclidian.py:308-330 [triangle_angles], before the arccos: the cosines.  linalg.normalized with ignore_zeros
    (math/linalg.py 25-64) leaves zero vectors alone. *)
Definition unit_or_zero (v : 'rV[K]_d) : 'rV[K]_d := let l := Num.sqrt (\sum_j v 0 j ^+ 2) in (if l == 0 then 1 else l)^-1 *: v.
Definition triangle_cosine (v : nat -> 'rV[K]_d) (i : nat) : K :=
  let edge k := unit_or_zero (v ((k + 1) %% 3)%N - v ((k + 2) %% 3)%N) in
  - (\sum_j edge ((i + 1) %% 3)%N 0 j * edge ((i + 2) %% 3)%N 0 j).
(** 1 / tan (arccos c) is c / sqrt (1 - c^2); None where that is infinite *)
Definition cotangent (c : K) : option K := if c ^+ 2 == 1 then None else Some (c / Num.sqrt (1 - c ^+ 2)).
Definition all_some (l : seq (option K)) : option (seq K) :=
  foldr (fun x r => if x is Some a then if r is Some q then Some (a :: q) else None else None) (Some [::]) l.
(** complex/simplicial/euclidian.py:250-271 [compute_edge_ratio], for a mesh without weights.  None when a triangle is
    degenerate, so that some entries are not finite. *)
Definition compute_edge_ratio : option (seq K) :=
  let triangles := List.nth 2 (SimpModel.elements t) [::] in
  let B21 := List.nth 1 (SimpModel.boundary_idx t) [::] in
  if all_some (flatten [seq [seq cotangent (triangle_cosine (fun k => vertices (nth 0%N s k)) i) | i <- iota 0 3] | s <- triangles]) is Some cotan
  then Some [seq x / 2%:R | x <- group_sum (flatten B21) cotan] else None.
End Met.
