(** Model of pycomplex/complex/base.py 344-446 (dual_flux_to_dual_velocity): a velocity at each dual vertex from fluxes along
    dual edges.  Coordinates are elements of an ordered field with square roots in place of floats.  numpy.linalg.svd is a
    parameter, as in NormModel.  None stands for values that are not numbers, or infinite; the code has them only for the cells
    concerned, the model for all.  Sparse matrices are lists of triples; the product of the three is applied one after the
    other.  A single flux is modelled; the code treats each of several independently. *)
From mathcomp Require Import all_ssreflect all_algebra.
From Verif Require Import NormModel.
From Verif Require Util.
Import GRing.Theory Num.Theory.
Local Open Scope ring_scope.

Section Vel.
Variable K : rcfType.
Variable svd : forall p n, 'M[K]_(p, n) -> 'M[K]_(p, n) * 'rV[K]_n * 'M[K]_n.

(** base.py:391-395: s[:, n_dim:] = inf; s = 1 / s, for one cell.  (Fewer faces than coordinates is not modelled.) *)
Definition in_plane_inverse (d p n : nat) (A : 'M[K]_(p, n)) : option 'M[K]_(n, p) :=
  let '(u, s, v) := svd p n A in
  if [exists j : 'I_n, (j < d)%N && (s 0 j == 0)] then None
  else Some (\matrix_(k, i) \sum_j u i j * (if (j < d)%N then (s 0 j)^-1 else 0) * v j k).

(** row, column, value *)
Definition coo := seq (nat * nat * K).
(** product of a sparse matrix of the given number of rows and a vector; repeated entries add up *)
Definition mulv (rows : nat) (M : coo) (x : seq K) : seq K := mkseq (fun i => \sum_(e <- M | e.1.1 == i) e.2 * nth 0 x e.1.2) rows.

(** base.py:405-422 [block_diag] *)
Definition block_diag (r c : nat) (blocks : seq 'M[K]_(r, c)) : coo :=
  flatten [seq allpairs (fun (i : 'I_r) (j : 'I_c) => ((i + b * r)%N, (j + b * c)%N, nth 0 blocks b i j)) (enum 'I_r) (enum 'I_c) | b <- iota 0 (size blocks)].
(** base.py:424-427 [signed_selector] of the flattened arrays *)
Definition signed_selector (B : seq nat) (O : seq int) : coo := [seq (r, nth 0%N B r, (nth 0 O r)%:~R) | r <- iota 0 (size B)].
(** scipy.sparse.diags, base.py:431 *)
Definition diags (x : seq K) : coo := [seq (i, i, nth 0 x i) | i <- iota 0 (size x)].
(** scipy.sparse.eye, as in topology/dual.py:118-131 [selector_interior]: the interior elements come first *)
Definition eye (a b : nat) : coo := [seq (i, i, 1) | i <- iota 0 (minn a b)].
Definition transposed (M : coo) : coo := [seq (e.1.2, e.1.1, e.2) | e <- M].

(** base.py:391-446 after the gradients are known, for cells with p faces in n-space: B and O are the faces of each cell and
    their orientation, hodge is hodge_PD[-2], total the number of dual vertices, flux has an entry for each dual edge *)
Definition flux_to_velocity (d p n : nat) (gradients : seq 'M[K]_(p, n)) (B : seq (seq nat)) (O : seq (seq int)) (hodge : seq K) (total : nat) (flux : seq K)
  : option (seq (seq K)) :=
  let pinvs := [seq in_plane_inverse d p n g | g <- gradients] in
  if all isSome pinvs then
    let cells := size gradients in
    let S := eye (size hodge) (size flux) in
    let P := transposed (eye cells total) in
    let x := mulv (size hodge) (diags hodge) (mulv (size hodge) S flux) in
    let y := mulv (cells * n) (block_diag n p (pmap id pinvs)) (mulv (cells * p) (signed_selector (flatten B) (flatten O)) x) in
    let rows := mkseq (fun c => mkseq (fun k => nth 0 y (c * n + k)) n) cells in
    Some (mkseq (fun c => mkseq (fun k => nth 0 (mulv total P [seq nth 0 row k | row <- rows]) c) n) total)
  else None.

(** base.py:234-238 [hodge_PD], of the faces: primal over dual metric *)
Definition hodge_PD (PM DM : seq K) : seq K := [seq x.1 / x.2 | x <- zip PM DM].

(** base.py:368-379 and the rest, for simplices with m+2 corners in (n+1)-space; delaunay stands for is_pairwise_delaunay *)
Definition simplicial_velocity (r : K) (m n : nat) (delaunay : bool) (corners : seq 'M[K]_(m.+2, n.+1)) (B : seq (seq nat)) (O : seq (seq int)) (PM DM : seq K) (total : nat) (flux : seq K)
  : Util.result (option (seq (seq K))) :=
  if ~~ delaunay then Util.Err Util.AssertionError
  else Util.bind (Util.mapM (simplex_gradients K svd r m n) corners) (fun gs =>
    Util.Ok (if all isSome gs then flux_to_velocity m.+1 m.+2 n.+1 (pmap id gs) B O (hodge_PD PM DM) total flux else None)).

(** base.py:381-388: steps from the centre of a cell to those of its faces, normalized, times the measure of the face *)
Definition regular_gradients (p n : nat) (PM : seq K) (centre : 'rV[K]_n) (faces : 'M[K]_(p, n)) (B : seq nat) : option 'M[K]_(p, n) :=
  match normalized_rows K p n (\matrix_(i, j) (faces i j - centre 0 j)) with
  | Some g => Some (\matrix_(i, j) (g i j * nth 0 PM (nth 0%N B i)))
  | None => None end.

(** base.py:368-373, 381-388 and the rest, for a regular complex in n-space whose cells have p faces; fpos are the positions
    of the faces, pp[-2], cpos those of the cells, pp[-1] *)
Definition regular_velocity (p n : nat) (delaunay : bool) (fpos cpos : seq 'rV[K]_n) (B : seq (seq nat)) (O : seq (seq int)) (PM DM : seq K) (total : nat) (flux : seq K)
  : Util.result (option (seq (seq K))) :=
  if ~~ delaunay then Util.Err Util.AssertionError
  else let gs := [seq regular_gradients p n PM x.1 (\matrix_(i, j) nth 0 fpos (nth 0%N x.2 i) 0 j) x.2 | x <- zip cpos B] in
    Util.Ok (if all isSome gs then flux_to_velocity n p n (pmap id gs) B O (hodge_PD PM DM) total flux else None).
End Vel.
