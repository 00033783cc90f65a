(** Model of connected components and the manifold check: pycomplex/topology/base.py 22-45 and 95-133,
    pycomplex/topology/primal.py 231-242. *)
Require Import List Arith ZArith Bool.
From Verif Require Import Util SimpModel BdryModel AvgModel.
Import ListNotations.

(** The positions of the stored entries of a sparse matrix, read as the edges of a graph. *)
Definition edges_of (M : coo) : list (nat * nat) := map fst (triples M).

Section WithOracles.
Variable row_leb : list nat -> list nat -> bool.
(** scipy.sparse.csgraph.connected_components on the number of nodes and the stored entries: the number
    of components and the label of every node. *)
Variable components : nat -> list (nat * nat) -> nat * list nat.

(** base.py:95-107 [label_connections]; the product is taken in int8 and zero sums are not stored. *)
Definition label_connections (t : topology) : nat * list nat :=
  let TnN := matrix t (n_dim t - 1) in
  let graph := mul8 (transpose TnN) TnN in
  components (nrows graph) (edges_of graph).

(** base.py:109-119 [is_connected] *)
Definition is_connected (t : topology) : bool := fst (label_connections t) =? 1.

(** primal.py:231-242 [split_connected_components]: Python's sort is stable; [n_elements[-1]] is the
    number of top elements. *)
Definition larger (p q : topology * list (list nat)) : bool :=
  n_elements (fst q) (n_dim (fst q)) <=? n_elements (fst p) (n_dim (fst p)).
Definition split_connected_components (t : topology) : result (list (topology * list (list nat))) :=
  let (n_components, labels) := label_connections t in
  do parts <- mapM (fun i => select_subset row_leb t (map (Nat.eqb i) labels)) (seq 0 n_components);
  Ok (isort larger parts).

(** Columns [cols] of a sparse matrix. *)
Definition columns (M : coo) (cols : list nat) : coo :=
  of_entries (nrows M) (length cols) (fun i a => entry M i (nth a cols 0)).

(** base.py:22-45 [regions_per_vertex]: the vertices are grouped by the stored entries of the last
    accumulated operator; the elements of a group are taken in increasing order (scipy leaves it open);
    a vertex without stored entries keeps the fill value 0. *)
Definition star_of (A : coo) (v : nat) : list nat :=
  filter (fun s => negb (entry A s v =? 0)%Z) (seq 0 (nrows A)).
Definition regions_per_vertex (t : topology) : result (list nat) :=
  let TnN := matrix t (n_dim t - 1) in
  do A <- accumulated_operators_N t;
  match A with
  | [] => Err IndexError
  | T0N :: _ =>
      Ok (map (fun v =>
            match star_of T0N v with
            | [] => 0
            | iN => let subset := columns TnN iN in
                    let g := mul8 (transpose subset) subset in
                    fst (components (nrows g) (edges_of g))
            end) (seq 0 (n_elements t 0)))
  end.

(** base.py:121-124 [check_manifold]; ManifoldException is represented by RuntimeError. *)
Definition check_manifold (t : topology) : result unit :=
  do r <- regions_per_vertex t;
  if forallb (Nat.eqb 1) r then Ok tt else Err RuntimeError.

(** base.py:126-133 [is_manifold]: only the ManifoldException is caught. *)
Definition is_manifold (t : topology) : result bool :=
  match check_manifold t with
  | Ok _ => Ok true
  | Err RuntimeError => Ok false
  | Err e => Err e
  end.
End WithOracles.
