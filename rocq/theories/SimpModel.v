(** Model of the construction of simplicial topologies:
    pycomplex/topology/simplicial.py, pycomplex/topology/util.py, pycomplex/topology/primal.py.

    Arrays of simplices are lists of rows of vertex labels ([nat]; the code uses int32, overflow is
    not modelled).  In-range numpy indexing is [nth] with an arbitrary default. *)
Require Import List Arith ZArith Bool.
From Verif Require Import Util CombModel.
Import ListNotations.

Notation simplex := (list nat).

(** numpy.roll(row, -c) for 0 <= c < len(row), as used in simplicial.py:36. *)
Definition roll_left (c : nat) (s : simplex) : simplex := skipn c s ++ firstn c s.

(** simplicial.py:38 [b[:, c, [0, 1]] = b[:, c, [1, 0]]]; rows with fewer than two entries raise. *)
Definition swap01 (l : simplex) : result simplex :=
  match l with
  | a :: b :: t => Ok (b :: a :: t)
  | _ => Err IndexError
  end.

(** simplicial.py:35-38, body of the loop for one simplex and one corner [c]; [n_dim = len(s) - 1]. *)
Definition face (n_dim c : nat) (s : simplex) : result simplex :=
  let b := tl (roll_left c s) in
  if Nat.odd c && Nat.odd n_dim then swap01 b else Ok b.

(** simplicial.py:30-39 [generate_simplex_boundary] for an array with rows of length [n_corners]. *)
Definition generate_simplex_boundary (n_corners : nat) (simplices : list simplex)
  : result (list (list simplex)) :=
  let n_dim := n_corners - 1 in
  if n_dim =? 0 then Err AssertionError
  else mapM (fun s => mapM (fun c => face n_dim c s) (seq 0 n_corners)) simplices.

(** util.py:76 np.argsort of one row (ties, which only occur in degenerate simplices, are kept in
    original order), and util.py:79 the sorted row. *)
Definition argsort (r : list nat) : list nat :=
  isort (fun i j => nth i r 0 <=? nth j r 0) (seq 0 (length r)).
Definition take (r : list nat) (idx : list nat) : list nat := map (fun i => nth i r 0) idx.
Definition sort_row (r : list nat) : list nat := take r (argsort r).

(** util.py:82-99 [relative_permutations] for one row: relative[other[j]] = self[j]. *)
Definition relative_permutation (self other : list nat) : list nat :=
  map (fun k => nth (index_of Nat.eqb k other) self 0) (seq 0 (length self)).

(** util.py:19 [parity_to_orientation] *)
Definition parity_to_orientation (p : nat) : Z := (Z.of_nat p * 2 - 1)%Z.

(** simplicial.py:42-63 [permutation_map] and 66-89 [relative_simplex_parity] for one row;
    npi.indices raises KeyError if the row is not a permutation of 0..n_corners-1. *)
Definition relative_simplex_parity (n_corners : nat) (row : list nat) : result nat :=
  let pm := permutations (seq 0 n_corners) in
  let k := index_of list_eqb row (map snd pm) in
  match nth_error pm k with
  | Some (p, _) => Ok p
  | None => Err KeyError
  end.

Section WithRowOrder.
(** Order by which numpy_indexed sorts rows; it views rows as raw bytes, so this is not the
    numerical lexicographic order.  No property of it is assumed anywhere. *)
Variable row_leb : list nat -> list nat -> bool.

(** npi.as_index(rows): the sorted unique rows. *)
Definition unique_rows (rows : list (list nat)) : list (list nat) :=
  isort row_leb (nodup (list_eq_dec Nat.eq_dec) rows).
(** [index.inverse]: for each row its position among the sorted unique rows. *)
Definition index_inverse (rows : list (list nat)) : list nat :=
  map (fun r => index_of list_eqb r (unique_rows rows)) rows.
(** [index.index]: for each unique row the position of its first occurrence (stable sort). *)
Definition index_index (rows : list (list nat)) : list nat :=
  map (fun u => index_of list_eqb u rows) (unique_rows rows).

(** numpy reshape of a flat list into rows of length [m]. *)
Fixpoint chunks {A} (fuel m : nat) (l : list A) : list (list A) :=
  match fuel with
  | 0 => []
  | S f => firstn m l :: chunks f m (skipn m l)
  end.

(** np.unique of a flattened array. *)
Definition unique_nat (l : list nat) : list nat := isort Nat.leb (nodup Nat.eq_dec l).

(** simplicial.py:117-156 [construct_lower]; result (En0, ENn, orientation). *)
Definition construct_lower (n_corners : nat) (EN0 : list simplex)
  : result (list simplex * list (list nat) * list (list Z)) :=
  let n_simplices := length EN0 in
  let n_dim := n_corners - 1 in
  if n_dim =? 1 then
    (* simplicial.py:122-130 *)
    Ok (map (fun v => [v]) (unique_nat (concat EN0)),
        EN0,
        map (fun _ => map parity_to_orientation [0; 1]) EN0)
  else
    do full_boundary <- generate_simplex_boundary n_corners EN0;
    let boundary_corners := concat full_boundary in
    let permutation := map argsort boundary_corners in
    let sorted := map sort_row boundary_corners in
    let inverse := index_inverse sorted in
    let index := index_index sorted in
    let ENn := chunks n_simplices n_corners inverse in
    let En0 := map (fun k => nth k boundary_corners []) index in
    let canonical := map (fun k => nth k permutation []) index in
    let canonical_b := map (fun k => nth k canonical []) inverse in
    let relative := map (fun pq => relative_permutation (fst pq) (snd pq))
                        (combine permutation canonical_b) in
    do parity <- mapM (relative_simplex_parity (n_corners - 1)) relative;
    Ok (En0, ENn, chunks n_simplices n_corners (map parity_to_orientation parity)).

(** A primal topology: primal.py:44-48. *)
Record topology := mkTop {
  elements : list (list simplex);          (* n-th entry: n-elements as vertex rows *)
  boundary_idx : list (list (list nat));   (* n-th entry: (n+1)-elements as n-element indices *)
  orientation : list (list (list Z))
}.

(** simplicial.py:168-178: the loop, unrolled as recursion over the dimension. *)
Fixpoint build (n : nat) (EN0 : list simplex)
  : result (list (list simplex) * list (list (list nat)) * list (list (list Z))) :=
  match n with
  | 0 => Ok ([EN0], [], [])
  | S m =>
    do '(low, b, o) <- construct_lower (S (S m)) EN0;
    do '(E, B, Or) <- build m low;
    Ok (E ++ [EN0], B ++ [b], Or ++ [o])
  end.

(** primal.py:41-48 constructor; dtype and shape assertions hold by construction. *)
Definition make_topology (E : list (list simplex)) B Or : result topology :=
  if list_eqb (concat (nth 0 E [])) (seq 0 (length (nth 0 E [])))
  then Ok (mkTop E B Or) else Err ValueError.

(** simplicial.py:102-180 [from_simplices] for rows with [n_dim + 1] corners.
    0-simplices hit the assertion in simplicial.py:32. *)
Definition from_simplices (n_dim : nat) (simplices : list simplex) : result topology :=
  if n_dim =? 0 then Err AssertionError
  else do '(E, B, Or) <- build n_dim simplices; make_topology E B Or.

End WithRowOrder.

(** Sparse matrix in coordinate form; scipy sums duplicate coordinates. *)
Record coo := mkCoo { nrows : nat; ncols : nat; triples : list (nat * nat * Z) }.

Definition entry (M : coo) (i j : nat) : Z :=
  sumZ (map (fun t => match t with (r, c, v) => if (r =? i) && (c =? j) then v else 0%Z end)
            (triples M)).

(** util.py:127-144 [topology_matrix]; the shape is inferred by scipy as 1 + largest index. *)
Definition topology_matrix (elts : list (list nat)) (ori : list (list Z)) : coo :=
  let size := length (concat elts) in
  let n_bounds := size / length elts in
  let idx := map (fun k => k / n_bounds) (seq 0 size) in
  let rows := concat elts in
  mkCoo (1 + list_max rows) (1 + list_max idx)
        (combine (combine rows idx) (concat ori)).

(** primal.py:63-72 [matrices], 100-123 [matrix] with m = n + 1. *)
Definition matrix (t : topology) (n : nat) : coo :=
  topology_matrix (nth n (boundary_idx t) []) (nth n (orientation t) []).

(** primal.py:85-88 *)
Definition n_elements (t : topology) (n : nat) : nat := length (nth n (elements t) []).
