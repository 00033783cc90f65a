(** Model of orientation, boundary, subset, selector and dual logic:
    pycomplex/topology/base.py, primal.py, dual.py, simplicial.py (fix_orientation), util.py. *)
Require Import List Arith ZArith Bool.
From Verif Require Import Util SimpModel.
Import ListNotations.

(** Two's complement wrap-around of numpy's int8 ([sign_dtype], topology/__init__.py:10). *)
Definition wrap8 (z : Z) : Z := ((z + 128) mod 256 - 128)%Z.

(** primal.py:48 *)
Definition n_dim (t : topology) : nat := length (orientation t).

(** scipy csr form of a coordinate matrix: per row the (column, value) pairs in increasing column
    order, duplicates summed, explicitly stored zeros kept. *)
Definition csr_row (M : coo) (i : nat) : list (nat * Z) :=
  map (fun j => (j, entry M i j))
      (filter (fun j => existsb (fun t => match t with (r, c, _) => (r =? i) && (c =? j) end) (triples M))
              (seq 0 (ncols M))).

Definition transpose (M : coo) : coo :=
  mkCoo (ncols M) (nrows M) (map (fun t => match t with (r, c, v) => (c, r, v) end) (triples M)).

(** primal.py:63-72 *)
Definition matrices (t : topology) : list coo := map (matrix t) (seq 0 (n_dim t)).

(** util.py:173-190 [selection_matrix] for a 0/1 chain. *)
Definition flatnonzero (d : list bool) : list nat :=
  filter (fun i => nth i d false) (seq 0 (length d)).
Definition selection_matrix (d : list bool) : coo :=
  let cols := flatnonzero d in
  mkCoo (length cols) (length d) (combine (combine (seq 0 (length cols)) cols) (map (fun _ => 1%Z) cols)).

(** numpy advanced-index assignment [d[idx] = v]; out of range indices raise before any write. *)
Definition put (d : list bool) (idx : list nat) (v : bool) : result (list bool) :=
  if forallb (fun i => i <? length d) idx
  then Ok (map (fun i => if existsb (Nat.eqb i) idx then v else nth i d false) (seq 0 (length d)))
  else Err IndexError.

(** npi.indices(this, that) for arrays of rows: position of each row, KeyError when absent. *)
Definition npi_indices (this that : list (list nat)) : result (list nat) :=
  mapM (fun r => let k := index_of list_eqb r this in
                 if k <? length this then Ok k else Err KeyError) that.

(** primal.py:138-160 [find_correspondence]; [zip] stops at the shorter list of corner arrays. *)
Definition find_correspondence (self other : topology) (mapping : list nat) : result (list (list nat)) :=
  mapM (fun Cc => npi_indices (map (isort Nat.leb) (fst Cc))
                    (map (fun r => isort Nat.leb (map (fun v => nth v mapping 0) r)) (snd Cc)))
       (combine (elements self) (elements other)).

Section WithOracles.
Variable row_leb : list nat -> list nat -> bool.
(** pycosat.solve on two-literal clauses; [None] is the answer 'UNSAT'. *)
Variable sat : list (Z * Z) -> option (list Z).

(** base.py:171-180: one two-literal clause per (n-1)-element with exactly two stored entries. *)
Definition orientation_clauses (t : topology) : list (Z * Z) :=
  let inc := matrix t (n_dim t - 1) in
  flat_map (fun i =>
    match csr_row inc i with
    | [(j1, v1); (j2, v2)] => [((Z.of_nat j1 + 1) * v1, (Z.of_nat j2 + 1) * v2)%Z]
    | _ => []
    end) (seq 0 (nrows inc)).

(** base.py:155-191 [relative_parity]; orientation_to_parity (util.py:33) is [x < 0].
    The int8 zero chain returned without clauses is a list of [false]. *)
Definition relative_parity (t : topology) : result (list bool) :=
  let zero := map (fun _ => false) (nth (n_dim t) (elements t) []) in
  if n_dim t =? 0 then Ok zero
  else
    let clauses := orientation_clauses t in
    if length clauses =? 0 then Ok zero
    else match sat (clauses ++ map (fun c => (- fst c, - snd c)%Z) clauses) with
         | None => Err ValueError
         | Some o => Ok (map (fun x => (x <? 0)%Z) o)
         end.

(** npi.all_equal *)
Definition all_equal (l : list bool) : bool :=
  match l with [] => true | x :: r => forallb (Bool.eqb x) r end.

(** base.py:193-196 *)
Definition is_oriented (t : topology) : result bool :=
  do p <- relative_parity t; Ok (all_equal p).

(** numpy broadcasting of a column of length [n] against [m] rows. *)
Definition broadcast (p : list bool) (m : nat) : result (list bool) :=
  if length p =? m then Ok p
  else match p with [b] => Ok (repeat b m) | _ => Err ValueError end.

(** simplicial.py:182-199 [fix_orientation] *)
Definition fix_orientation (t : topology) : result topology :=
  do parity <- relative_parity t;
  let E := nth (n_dim t) (elements t) [] in
  do F <- mapM swap01 E;
  do p <- broadcast parity (length E);
  from_simplices row_leb (n_dim t)
    (map (fun pef => match pef with (b, (e, f)) => if b : bool then e else f end) (combine p (combine E F))).

(** np.unique(..., return_inverse=True) followed by reshape: relabelling of rows. *)
Definition relabel (mapping : list nat) (rows : list simplex) : list simplex :=
  map (map (fun v => index_of Nat.eqb v mapping)) rows.

(** primal.py:207-209: positions where the (int8) sum of signed cofaces is nonzero. *)
Definition boundary_positions (t : topology) : list nat :=
  let M := matrix t (n_dim t - 1) in
  filter (fun i => negb (wrap8 (sumZ (map (fun j => entry M i j) (seq 0 (ncols M)))) =? 0)%Z)
         (seq 0 (nrows M)).

(** primal.py:190-224 [boundary]: [None] for a closed topology, otherwise the boundary topology with
    its [parent_idx]. *)
Definition boundary (t : topology) : result (option (topology * list (list nat))) :=
  do o <- is_oriented t;
  if negb o then Err ValueError
  else
    let b_idx := boundary_positions t in
    if length b_idx =? 0 then Ok None
    else
      let b_elements := map (fun i => nth i (nth (n_dim t - 1) (elements t) []) []) b_idx in
      let mapping := unique_nat (concat b_elements) in
      do b <- from_simplices row_leb (n_dim t - 1) (relabel mapping b_elements);
      do parent_idx <- find_correspondence t b mapping;
      Ok (Some (b, parent_idx)).

(** primal.py:162-188 [select_subset]; the chain is given by its nonzero pattern. *)
Definition select_subset (t : topology) (chain : list bool) : result (topology * list (list nat)) :=
  let E := nth (n_dim t) (elements t) [] in
  if negb (length chain =? length E) then Err ValueError
  else
    let sel := map (fun i => nth i E []) (flatnonzero chain) in
    let mapping := unique_nat (concat sel) in
    do s <- from_simplices row_leb (n_dim t) (relabel mapping sel);
    do parent_idx <- find_correspondence t s mapping;
    Ok (s, parent_idx).

(** primal.py:254-260 and 274-280: [fill] then overwrite the boundary elements; every exception
    (not oriented, no boundary, no entry for this dimension) is swallowed. *)
Definition boundary_chain (t : topology) (fill : bool) (k : nat) : list bool :=
  let d := repeat fill (n_elements t k) in
  match boundary t with
  | Ok (Some (_, parent_idx)) =>
      match nth_error parent_idx k with
      | Some idx => match put d idx (negb fill) with Ok d' => d' | Err _ => d end
      | None => d
      end
  | _ => d
  end.
Definition selector_interior (t : topology) (k : nat) : coo := selection_matrix (boundary_chain t true k).
Definition selector_boundary (t : topology) (k : nat) : coo := selection_matrix (boundary_chain t false k).

(** dual.py:29-30 [ClosedDual.matrices] *)
Definition closed_dual_matrices (t : topology) : list coo := map transpose (rev (matrices t)).

(** sparse.py:48-60 [sparse_zeros] *)
Definition sparse_zeros (r c : nat) : coo := mkCoo r c [].

(** dual.py:170-173: [bmat([[t, s.T], [None, -b]])]; scipy raises ValueError on inconsistent shapes. *)
Definition glue (t b s : coo) : result coo :=
  if (nrows t =? ncols s) && (nrows s =? ncols b) then
    Ok (mkCoo (nrows t + nrows b) (ncols t + nrows s)
         (triples t
          ++ map (fun x => match x with (r, c, v) => (c, ncols t + r, v) end) (triples s)
          ++ map (fun x => match x with (r, c, v) => (nrows t + r, ncols t + c, (- v)%Z) end) (triples b)))
  else Err ValueError.

(** dual.py:149-173 [Dual.matrices] *)
Definition dual_matrices (t b : topology) : result (list coo) :=
  let B := sparse_zeros 0 (n_elements b 0) :: matrices b in
  let T := matrices t in
  let S := map (selector_boundary t) (seq 0 (S (n_dim t))) in
  do l <- mapM (fun x => match x with (ta, (bb, ss)) => do g <- glue ta bb ss; Ok (transpose g) end)
               (combine T (combine B S));
  Ok (rev l).

(** primal.py:125-136 [dual] followed by its [matrices]. *)
Definition dual (t : topology) : result (list coo) :=
  do o <- is_oriented t;
  if negb o then Err ValueError
  else
    do b <- boundary t;
    match b with
    | None => Ok (closed_dual_matrices t)
    | Some (b, _) =>
        do ob <- is_oriented b;
        if negb ob then Err ValueError else dual_matrices t b
    end.

End WithOracles.
