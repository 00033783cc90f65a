(** Model of the subdivisions of simplicial topologies: pycomplex/topology/simplicial.py:206-537,
    pycomplex/topology/util.py:102-124 and 193-216. *)
Require Import List Arith ZArith Bool Factorial.
From Verif Require Import Util SimpModel BdryModel.
Import ListNotations.

(** util.py:193-216 [element_indices]: rows are compared after sorting; KeyError when absent. *)
Definition element_indices (this that : list simplex) : result (list nat) :=
  npi_indices (map (isort Nat.leb) this) (map (isort Nat.leb) that).

(** Broadcasting of [domains[..., -i] = x.reshape(s)] over the trailing axes (simplicial.py:226-227):
    in C order every value is repeated once per trailing position. *)
Definition each (r : nat) (l : list nat) : list nat := flat_map (fun x => repeat x r) l.
(** Writing the next column of the last axis; the flat list of rows is in C order. *)
Definition append_column (rows : list (list nat)) (col : list nat) : list (list nat) :=
  map (fun rc => fst rc ++ [snd rc]) (combine rows col).

(** simplicial.py:224-230: the loop, for a batch [IN0] of simplices with [m + 1] corners; the rows so far hold
    the indices of dimensions 0 .. m-1. *)
Fixpoint domain_rows (t : topology) (m : nat) (IN0 : list simplex) : result (list (list nat)) :=
  match m with
  | 0 => Err IndexError
  | S k =>
    if k =? 0 then Ok (map (fun v => [v]) (concat IN0))
    else
      do fb <- generate_simplex_boundary (S m) IN0;
      let B := concat fb in
      do idx <- element_indices (nth k (elements t) []) B;
      do low <- domain_rows t k B;
      Ok (append_column low (each (fact m) idx))
  end.

(** simplicial.py:206-232 [fundamental_domains], reshaped to rows of length n_dim + 1 (as done in line 253). *)
Definition fundamental_domains (t : topology) : result (list (list nat)) :=
  let n := n_dim t in
  let E := nth n (elements t) [] in
  do low <- domain_rows t n E;
  Ok (append_column low (each (fact (S n)) (seq 0 (length E)))).

(** simplicial.py:247: np.cumsum([0] + n_elements)[:-1] *)
Definition offset (t : topology) (k : nat) : nat := list_sum (map (n_elements t) (seq 0 k)).
Definition add_offset (t : topology) (row : list nat) : list nat :=
  map (fun k => nth k row 0 + offset t k) (seq 0 (length row)).
(** [x[..., [-2, -1]] = x[..., [-1, -2]]] *)
Definition swap_last (r : list nat) : list nat :=
  match rev r with a :: b :: q => rev (b :: a :: q) | _ => r end.

(** simplicial.py:234-255 [subdivide_fundamental]; the flat position of index 1 on the second last axis (of size
    two) is odd. *)
Definition fundamental_simplices (t : topology) (oriented : bool) (domains : list (list nat)) : list simplex :=
  let simplices := map (add_offset t) domains in
  if oriented
  then map (fun p => if Nat.odd p then swap_last (nth p simplices []) else nth p simplices []) (seq 0 (length simplices))
  else simplices.

(** simplicial.py:345-347 *)
Definition insertion_simplices (n0 n : nat) (E : list simplex) (boundary : list (list simplex)) : list simplex :=
  concat (map (fun j => map (fun b => b ++ [j + n0]) (nth j boundary [])) (seq 0 (length E))).

(** numpy.roll of one row by +1 and by -1. *)
Definition roll {A} (c : nat) (l : list A) : list A := skipn c l ++ firstn c l.
Definition rollp {A} (l : list A) : list A := roll (length l - 1) l.
Definition rollm {A} (l : list A) : list A := roll 1 l.

(** simplicial.py:374-379: the four children of the triangle with edges [e] and corners [v]. *)
Definition loop_children (n0 : nat) (e v : list nat) : list simplex :=
  let c := map (fun x => x + n0) e in
  c :: map (fun k => [nth k v 0; nth k (rollp c) 0; nth k (rollm c) 0]) (seq 0 3).

(** util.py:102-124 [transfer_matrix]; scipy raises ValueError for indices outside the shape or different lengths. *)
Definition transfer_matrix (r c : list nat) (nr nc : nat) : result coo :=
  if (length r =? length c) && forallb (fun x => x <? nr) r && forallb (fun x => x <? nc) c
  then Ok (mkCoo nr nc (combine (combine r c) (map (fun _ => 1%Z) r)))
  else Err ValueError.

(** simplicial.py:388-420 [subdivide_loop_transfer] *)
Definition subdivide_loop_transfer (coarse fine : topology) : result (list coo) :=
  let I10f := map (isort Nat.leb) (nth 1 (elements fine) []) in
  let fine_idx := filter (fun i => nth 0 (nth i I10f []) 0 <? n_elements coarse 0) (seq 0 (length I10f)) in
  let coarse_idx := map (fun i => last (nth i I10f []) 0 - n_elements coarse 0) fine_idx in
  do m0 <- transfer_matrix (seq 0 (n_elements coarse 0)) (seq 0 (n_elements coarse 0)) (n_elements fine 0) (n_elements coarse 0);
  do m1 <- transfer_matrix fine_idx coarse_idx (n_elements fine 1) (n_elements coarse 1);
  do m2 <- transfer_matrix (seq 0 (n_elements fine 2)) (each 4 (seq 0 (n_elements coarse 2))) (n_elements fine 2) (n_elements coarse 2);
  Ok [m0; m1; m2].

(** simplicial.py:449-462: the two halves of an edge with vertices [e] and signs [o]; [v] is the new vertex. *)
Definition split_edge (v : nat) (e : list nat) : list (list nat) := [[nth 0 e 0; v]; [v; nth 1 e 0]].
Definition split_edge_signs (o : list Z) : list (list Z) :=
  [[nth 0 o 0; - nth 0 o 0]; [- nth 1 o 0; nth 1 o 0]]%Z.
(** simplicial.py:465-471: the three new edges of a triangle with edges [e]. *)
Definition inner_edges (n0 : nat) (e : list nat) : list (list nat) :=
  map (fun k => [nth k (rollm e) 0 + n0; nth k (rollp e) 0 + n0]) (seq 0 3).
Definition inner_edge_signs : list (list Z) := map (fun _ => [-1; 1]%Z) (seq 0 3).
(** simplicial.py:473-497: edges of the four children of triangle [j]; [plus] is E10[E21, 1]. *)
Definition direct_children (n1 j : nat) (e v plus : list nat) : list (list nat) :=
  let mid := map (fun k => j * 3 + k + n1 * 2) (seq 0 3) in
  mid :: map (fun k => [nth k mid 0;
                        nth k (rollm e) 0 * 2 + (if nth k (rollm plus) 0 =? nth k v 0 then 1 else 0);
                        nth k (rollp e) 0 * 2 + (if nth k (rollp plus) 0 =? nth k v 0 then 1 else 0)]) (seq 0 3).
Definition direct_child_signs (o : list Z) : list (list Z) :=
  [1; 1; 1]%Z :: map (fun k => [-1; nth k (rollm o) 0; nth k (rollp o) 0]%Z) (seq 0 3).
(** simplicial.py:500-504: corners of the children.  [E21[0]], [E21p[0]] and [E21m[0]] are the rows of the FIRST
    triangle, broadcast over all triangles; [e0] is that row. *)
Definition direct_corners (n0 : nat) (e0 v : list nat) : list (list nat) :=
  map (fun x => x + n0) e0 ::
  map (fun k => [nth k v 0; nth k (rollp e0) 0 + n0; nth k (rollm e0) 0 + n0]) (seq 0 3).

(** simplicial.py:422-521 [subdivide_loop_direct] up to the constructor; int8 negation does not overflow on signs. *)
Definition subdivide_loop_direct_topology (t : topology) : result topology :=
  let E21 := nth 1 (boundary_idx t) [] in
  let E20 := nth 2 (elements t) [] in
  let E10 := nth 0 (boundary_idx t) [] in
  let O21 := nth 1 (orientation t) [] in
  let O10 := nth 0 (orientation t) [] in
  let n0 := n_elements t 0 in
  let n1 := n_elements t 1 in
  let n2 := n_elements t 2 in
  let sE10 := concat (map (fun i => split_edge (i + n0) (nth i E10 [])) (seq 0 n1)) ++ concat (map (inner_edges n0) E21) in
  let sO10 := concat (map split_edge_signs O10) ++ concat (map (fun _ => inner_edge_signs) E21) in
  let plus := fun j => map (fun e => nth 1 (nth e E10 []) 0) (nth j E21 []) in
  let sE21 := concat (map (fun j => direct_children n1 j (nth j E21 []) (nth j E20 []) (plus j)) (seq 0 n2)) in
  let sO21 := concat (map direct_child_signs O21) in
  let sE20 := concat (map (fun j => direct_corners n0 (nth 0 E21 []) (nth j E20 [])) (seq 0 n2)) in
  make_topology [map (fun v => [v]) (seq 0 (n0 + n1)); sE10; sE20] [sE10; sE21] [sO10; sO21].

(** simplicial.py:527-537 [subdivide_loop_direct_transfer] *)
Definition subdivide_loop_direct_transfer (coarse fine : topology) : result (list coo) :=
  do m0 <- transfer_matrix (firstn (n_elements coarse 0) (seq 0 (n_elements fine 0))) (seq 0 (n_elements coarse 0)) (n_elements fine 0) (n_elements coarse 0);
  do m1 <- transfer_matrix (firstn (n_elements coarse 1 * 2) (seq 0 (n_elements fine 1))) (each 2 (seq 0 (n_elements coarse 1))) (n_elements fine 1) (n_elements coarse 1);
  do m2 <- transfer_matrix (seq 0 (n_elements fine 2)) (each 4 (seq 0 (n_elements coarse 2))) (n_elements fine 2) (n_elements coarse 2);
  Ok [m0; m1; m2].
Definition subdivide_loop_direct (t : topology) : result (topology * list coo) :=
  do fine <- subdivide_loop_direct_topology t;
  do m <- subdivide_loop_direct_transfer t fine;
  Ok (fine, m).

Section WithRowOrder.
Variable row_leb : list nat -> list nat -> bool.

(** simplicial.py:234-255 *)
Definition subdivide_fundamental (t : topology) (oriented : bool) : result topology :=
  do d <- fundamental_domains t;
  from_simplices row_leb (n_dim t) (fundamental_simplices t oriented d).

(** simplicial.py:335-348 [subdivide_simplicial] *)
Definition subdivide_simplicial (t : topology) : result topology :=
  let n := n_dim t in
  let E := nth n (elements t) [] in
  do boundary <- generate_simplex_boundary (S n) E;
  from_simplices row_leb n (insertion_simplices (n_elements t 0) n E boundary).

(** simplicial.py:354-386 [subdivide_loop], with the transfer matrices. *)
Definition subdivide_loop (t : topology) : result (topology * list coo) :=
  let rows := concat (map (fun ev => loop_children (n_elements t 0) (fst ev) (snd ev))
                          (combine (nth 1 (boundary_idx t) []) (nth 2 (elements t) []))) in
  do fine <- from_simplices row_leb 2 rows;
  do m <- subdivide_loop_transfer t fine;
  Ok (fine, m).
End WithRowOrder.
