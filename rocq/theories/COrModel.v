(** Model of orientation, subsets and boundaries of cubical topologies: pycomplex/topology/cubical.py:475-493 and the
    methods of pycomplex/topology/primal.py:138-224 as inherited by TopologyCubical (boundary_type and from_elements,
    cubical.py:146-161, both lead to from_cubes with mirror=True).  relative_parity, is_oriented, boundary_positions,
    relabel and find_correspondence are those of BdryModel (topology/base.py, primal.py), which do not depend on the
    kind of element: corners are flat lists here as in [PrimalTopology.corners]. *)
Require Import List Arith ZArith Bool.
From Verif Require Import Util SimpModel BdryModel CubeModel.
Import ListNotations.
Local Open Scope nat_scope.

Section WithOracles.
Variable row_leb : list nat -> list nat -> bool.
Variable sat : list (Z * Z) -> option (list Z).

(** cubical.py:475-493 [fix_orientation] for n_dim >= 1; E[:, ::-1] reverses the first axis of every cube and
    np.where broadcasts the parity over the corners. *)
Definition fix_orientation (t : topology) : result topology :=
  do parity <- relative_parity sat t;
  let n := n_dim t in
  let E := nth n (elements t) [] in
  do p <- broadcast parity (length E);
  from_cubes row_leb true n (map (fun be => if fst be : bool then snd be else flip n 0 (snd be)) (combine p E)).

(** primal.py:190-224 [boundary] of a cubical topology. *)
Definition boundary (t : topology) : result (option (topology * list (list nat))) :=
  do o <- is_oriented sat t;
  if negb o then Err ValueError
  else
    let b_idx := boundary_positions t in
    if length b_idx =? 0 then Ok None
    else
      let b_elements := map (fun i => nth i (nth (n_dim t - 1) (elements t) []) []) b_idx in
      let mapping := unique_nat (concat b_elements) in
      do b <- from_cubes row_leb true (n_dim t - 1) (relabel mapping b_elements);
      do parent_idx <- find_correspondence t b mapping;
      Ok (Some (b, parent_idx)).

(** primal.py:162-188 [select_subset] of a cubical topology. *)
Definition select_subset (t : topology) (chain : list bool) : result (topology * list (list nat)) :=
  let E := nth (n_dim t) (elements t) [] in
  if negb (length chain =? length E) then Err ValueError
  else
    let sel := map (fun i => nth i E []) (flatnonzero chain) in
    let mapping := unique_nat (concat sel) in
    do s <- from_cubes row_leb true (n_dim t) (relabel mapping sel);
    do parent_idx <- find_correspondence t s mapping;
    Ok (s, parent_idx).
End WithOracles.
