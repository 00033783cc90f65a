(** Model of cubical topologies: pycomplex/topology/cubical.py:13-251 and 450-473, the grid generator
    pycomplex/synthetic.py:86-124 and the product of complexes pycomplex/complex/cubical.py:200-227.

    An n-cube is an array of shape (2,) * n of vertex labels, stored flat in C order (first axis slowest). *)
Require Import List Arith ZArith Bool.
From Verif Require Import Util CombModel SimpModel.
Import ListNotations.

Notation cube := (list nat).
Notation bits := (list bool).

(** Multi-indices of an array of shape (2,) * n in C order; [false] is index 0. *)
Fixpoint corners (n : nat) : list bits :=
  match n with
  | 0 => [[]]
  | S m => map (cons false) (corners m) ++ map (cons true) (corners m)
  end.
Fixpoint ravel (bs : bits) : nat :=
  match bs with
  | [] => 0
  | b :: r => (if b then 2 ^ length r else 0) + ravel r
  end.
Definition cget (c : cube) (bs : bits) : nat := nth (ravel bs) c 0.
Definition cbuild (n : nat) (f : bits -> nat) : cube := map f (corners n).

(** Inserting, removing and inverting one index. *)
Fixpoint insert_at (a : nat) (b : bool) (bs : bits) : bits :=
  match a, bs with
  | S a', x :: r => x :: insert_at a' b r
  | _, _ => b :: bs
  end.
Definition remove_at (a : nat) (bs : bits) : bits := firstn a bs ++ skipn (S a) bs.
Fixpoint flip_bit (a : nat) (bs : bits) : bits :=
  match bs with
  | [] => []
  | x :: r => match a with 0 => negb x :: r | S a' => x :: flip_bit a' r end
  end.

(** np.moveaxis(c, src, dst): axis [dst] of the result is axis [src] of the argument, the others keep their order. *)
Definition moveaxis (n src dst : nat) (c : cube) : cube :=
  cbuild n (fun bs => cget c (insert_at src (nth dst bs false) (remove_at dst bs))).
(** np.flip(c, axis=a) *)
Definition flip (n a : nat) (c : cube) : cube := cbuild n (fun bs => cget c (flip_bit a bs)).
(** np.flip(c, axis=-1) of the trailing [n] axes; with none left the flipped axis has length one
    (cubical.py:57 for 1-cubes). *)
Definition flip_last (n : nat) (c : cube) : cube := if n =? 0 then c else flip n (n - 1) c.
(** np.transpose(c, p): axis [k] of the result is axis [p[k]] of the argument. *)
Definition scatter (p : list nat) (bs : bits) : bits :=
  map (fun j => nth (index_of Nat.eqb j p) bs false) (seq 0 (length p)).
Definition transpose_cube (n : nat) (p : list nat) (c : cube) : cube := cbuild n (fun bs => cget c (scatter p bs)).
(** c[side] for a multi-index of the leading axes. *)
Definition front (n : nat) (side : bits) (c : cube) : cube :=
  cbuild (n - length side) (fun bs => cget c (side ++ bs)).

(** cubical.py:13-62 [generate_cube_boundary] for one cube and 1 <= degree <= n: for each combination of axes the
    list of faces over the leading (2,) * degree axes, in C order. *)
Definition generate_cube_boundary (n degree : nat) (mirror : bool) (c : cube) : list (list cube) :=
  map (fun pa : nat * list nat =>
    let s_view := fold_left (fun v ja => moveaxis n (snd ja) (fst ja) v) (combine (seq 0 degree) (snd pa)) c in
    let s_view := if (fst pa =? 1) && mirror then flip_last n s_view else s_view in
    map (fun side => let f := front n side s_view in
                     if (degree =? 1) && mirror && forallb id side then flip_last (n - degree) f else f)
        (corners degree))
  (combinations degree (seq 0 n)).

(** cubical.py:96-99: flips along all axes marked in [axes]. *)
Definition flips (n : nat) (axes : bits) (c : cube) : cube :=
  fold_left (fun v i => if nth i axes false then flip n i v else v) (seq 0 (length axes)) c.
Definition bit_sum (bs : bits) : nat := list_sum (map (fun b : bool => if b then 1 else 0) bs).

(** cubical.py:65-114 [permutation_map] with rotations=True. *)
Definition permutation_map (n : nat) : list (nat * list nat) :=
  let canonical := seq 0 (2 ^ n) in
  flat_map (fun pp => map (fun c => ((fst pp + bit_sum c) mod 2, flips n c (transpose_cube n (snd pp) canonical))) (corners n))
           (permutations (seq 0 n)).

(** cubical.py:117-140 [relative_cube_parity] for one row; the assertion is in permutation_map (line 83). *)
Definition relative_cube_parity (n : nat) (row : list nat) : result nat :=
  if 128 <=? 2 ^ n then Err AssertionError
  else
    let pm := permutation_map n in
    match nth_error pm (index_of list_eqb row (map snd pm)) with
    | Some (p, _) => Ok p
    | None => Err ValueError
    end.

Section WithRowOrder.
(** Order of rows in numpy_indexed, arbitrary as in SimpModel. *)
Variable row_leb : list nat -> list nat -> bool.

(** cubical.py:177-221 [lower] for n-cubes, n >= 1; result (En0, EnN, orientation), the last two with the trailing
    axes (n, 2) flattened. *)
Definition lower (mirror : bool) (n : nat) (EN0 : list cube) : result (list cube * list (list nat) * list (list Z)) :=
  let n_elements := length EN0 in
  if n =? 1 then
    Ok (map (fun v => [v]) (unique_nat (concat EN0)), EN0, map (fun _ => map parity_to_orientation [0; 1]) EN0)
  else
    let En0_all := concat (map (fun c => concat (generate_cube_boundary n 1 mirror c)) EN0) in
    let permutation := map argsort En0_all in
    let sorted := map sort_row En0_all in
    let inverse := index_inverse row_leb sorted in
    let index := index_index row_leb sorted in
    let EnN := chunks n_elements (n * 2) inverse in
    let En0 := map (fun k => nth k En0_all []) index in
    let canonical := map (fun k => nth k permutation []) index in
    let canonical_b := map (fun k => nth k canonical []) inverse in
    let relative := map (fun pq => relative_permutation (fst pq) (snd pq)) (combine permutation canonical_b) in
    do parity <- mapM (relative_cube_parity (n - 1)) relative;
    Ok (En0, EnN, chunks n_elements (n * 2) (map parity_to_orientation parity)).

(** cubical.py:236-249: the loop, as recursion over the dimension. *)
Fixpoint build_cubes (mirror : bool) (n : nat) (EN0 : list cube)
  : result (list (list cube) * list (list (list nat)) * list (list (list Z))) :=
  match n with
  | 0 => Ok ([EN0], [], [])
  | S m =>
    do '(low, b, o) <- lower mirror n EN0;
    do '(E, B, Or) <- build_cubes mirror m low;
    Ok (E ++ [EN0], B ++ [b], Or ++ [o])
  end.

(** cubical.py:163-251 [from_cubes] for an array of shape (len, (2,) * n). *)
Definition from_cubes (mirror : bool) (n : nat) (cubes : list cube) : result topology :=
  do '(E, B, Or) <- build_cubes mirror n cubes; make_topology E B Or.

(** cubical.py:464-471: all pairs of cubes; label u + v * n_vertices(self). *)
Definition product_cubes (n1 n2 n_self : nat) (c1 c2 : list cube) : list cube :=
  flat_map (fun s => map (fun o => cbuild (n1 + n2) (fun bs => cget s (firstn n1 bs) + cget o (skipn n1 bs) * n_self)) c2) c1.
(** cubical.py:450-473 [product] *)
Definition product (n1 n2 : nat) (self other : topology) : result topology :=
  from_cubes true (n1 + n2) (product_cubes n1 n2 (n_elements self 0) (nth n1 (elements self) []) (nth n2 (elements other) [])).
End WithRowOrder.

(** complex/cubical.py:217-225: j, i = np.indices((len(other), len(self))); rows of positions are concatenated. *)
Definition product_vertices {P} (self other : list (list P)) : list (list P) :=
  flat_map (fun o => map (fun s => s ++ o) self) other.

(** numpy strides, in items, of a C-contiguous array of the given shape. *)
Fixpoint strides (shape : list nat) : list nat :=
  match shape with
  | [] => []
  | _ :: r => fold_right Nat.mul 1 r :: strides r
  end.
(** All multi-indices of an array of the given shape, in C order (np.indices(shape).reshape(n, -1).T). *)
Fixpoint multi_indices (shape : list nat) : list (list nat) :=
  match shape with
  | [] => [[]]
  | m :: r => flat_map (fun i => map (cons i) (multi_indices r)) (seq 0 m)
  end.
Definition item (st pos : list nat) : nat := list_sum (map (fun sp => fst sp * snd sp) (combine st pos)).
Definition nat_of (b : bool) : nat := if b then 1 else 0.
(** synthetic.py:104-115: [idx] and the strided view; the vertex grid has one more point per axis.  Reading item
    [m] of the buffer of [idx] gives [m]. *)
Definition grid_cubes (shape : list nat) : list cube :=
  let st := strides (map S shape) in
  let idx := seq 0 (fold_right Nat.mul 1 (map S shape)) in
  map (fun x => cbuild (length shape) (fun bs => nth (item st x + item st (map nat_of bs)) idx 0)) (multi_indices shape).
(** synthetic.py:106-108: vertex positions before centering. *)
Definition grid_vertices (shape : list nat) : list (list nat) := multi_indices (map S shape).
(** synthetic.py:116-124 *)
Definition n_cube_grid (row_leb : list nat -> list nat -> bool) (mirror : bool) (shape : list nat) : result topology :=
  from_cubes row_leb mirror (length shape) (grid_cubes shape).
