(** Model of the conversions between triangles and quads: pycomplex/topology/cubical.py:501-547,
    pycomplex/topology/simplicial.py:257-333, pycomplex/complex/cubical.py:314-324. *)
Require Import List Arith ZArith Bool QArith.
From Verif Require Import Util SimpModel BdryModel AvgModel CubeModel SubdModel SmoModel.
Import ListNotations.
Local Open Scope nat_scope.

(** cubical.py:514-520: the triangles of one quad, [m] being the vertex inserted in it. *)
Definition quad_triangles (m : nat) (q : cube) : list simplex :=
  match q with
  | [a; b; c; d] => [[a; b; m]; [d; c; m]; [c; a; m]; [b; d; m]]
  | _ => []
  end.
Definition all_quad_triangles (n0 : nat) (Q20 : list cube) : list simplex :=
  concat (map (fun j => quad_triangles (j + n0) (nth j Q20 [])) (seq 0 (length Q20))).

Section WithRowOrder.
Variable row_leb : list nat -> list nat -> bool.

(** cubical.py:501-547 [subdivide_simplicial], with the first and the last transfer operator of
    [subdivide_simplicial_transfer]; the middle one is None. *)
Definition subdivide_simplicial (t : topology) : result (topology * (nat -> nat -> Q) * coo) :=
  do s <- from_simplices row_leb 2 (all_quad_triangles (n_elements t 0) (nth 2 (elements t) []));
  do A <- averaging_operators_0 t;
  do A <- mapM (fun a => match a with Some f => Ok f | None => Err TypeError end) [nth 0 A None; nth 2 A None];
  do m2 <- transfer_matrix (seq 0 (n_elements s 2)) (map (fun i => i / 4) (seq 0 (n_elements s 2))) (n_elements s 2) (n_elements t 2);
  Ok (s, vstack (combine [n_elements t 0; n_elements t 2] A), m2).
(** complex/cubical.py:322: np.concatenate(self.primal_position[::2]) *)
Definition triangle_vertices (t : topology) (V : list Q) : list Q :=
  let P := primal_position t V in nth 0 P [] ++ nth 2 P [].

(** numpy.roll by +k of a row *)
Definition np_roll (k : nat) (l : list nat) : list nat := roll (length l - k) l.
(** simplicial.py:277-286 and 325-328, dimension two: the quads at the three corners of triangle [j] with corners [v] and
    edges [e]; the array entries are listed in the order 00, 01, 10, 11. *)
Definition triangle_quads (t : topology) (j : nat) : list cube :=
  let v := nth j (nth 2 (elements t) []) [] in
  let e := nth j (nth 1 (boundary_idx t) []) [] in
  map (fun c => [nth c v 0; nth c (np_roll 2 e) 0 + offset t 1; nth c (np_roll 1 e) 0 + offset t 1; j + offset t 2]) (seq 0 3).

(** simplicial.py:301-308 [edge_containing_faces] *)
Fixpoint repeated (q : list nat) : list nat :=
  match q with
  | a :: ((b :: _) as r) => if a =? b then a :: repeated r else repeated r
  | _ => []
  end.
Fixpoint in_pairs (l : list nat) : result (list (list nat)) :=
  match l with
  | [] => Ok []
  | [_] => Err ValueError
  | a :: b :: r => do p <- in_pairs r; Ok ([a; b] :: p)
  end.
Definition edge_containing_faces (t : topology) (l r : list nat) : result (list nat) :=
  let F := nth 2 (elements t) [] in
  do e <- in_pairs (concat (map (fun lr => repeated (isort Nat.leb (nth (fst lr) F [] ++ nth (snd lr) F []))) (combine l r)));
  element_indices (nth 1 (elements t) []) e.
(** simplicial.py:287-323, dimension three: the cubes at corner [c] of all simplices, entries in the order 000 ... 111. *)
Definition corner_cubes (t : topology) (c : nat) : result (list cube) :=
  let E := nth 3 (elements t) [] in
  let I32 := nth 2 (boundary_idx t) [] in
  let faces := fun k => map (fun f => nth c (np_roll k f) 0) I32 in
  do e100 <- edge_containing_faces t (faces 2) (faces 3);
  do e010 <- edge_containing_faces t (faces 1) (faces 3);
  do e001 <- edge_containing_faces t (faces 2) (faces 1);
  Ok (map (fun j => [nth c (nth j E []) 0; nth j e001 0 + offset t 1; nth j e010 0 + offset t 1; nth j (faces 1) 0 + offset t 2;
                     nth j e100 0 + offset t 1; nth j (faces 2) 0 + offset t 2; nth j (faces 3) 0 + offset t 2; j + offset t 3]) (seq 0 (length E))).
(** simplicial.py:257-333 [subdivide_cubical]; NotImplementedError is a RuntimeError. *)
Definition subdivide_cubical (t : topology) : result topology :=
  if n_dim t =? 2 then from_cubes row_leb true 2 (concat (map (triangle_quads t) (seq 0 (length (nth 2 (elements t) [])))))
  else if n_dim t =? 3 then
    do C <- mapM (corner_cubes t) (seq 0 4);
    from_cubes row_leb true 3 (concat (map (fun j => map (fun c => nth j (nth c C []) []) (seq 0 4)) (seq 0 (length (nth 3 (elements t) [])))))
  else Err RuntimeError.
End WithRowOrder.
