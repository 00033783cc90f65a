(** Model of pycomplex/complex/simplicial/euclidian.py: volume, vertex normals, clip and extrude of triangle meshes, and the
    shape of subdivide_loop_operator.  Vertex positions are given by a function of vertex number and coordinate with
    values in an ordered field. *)
Require Import List Arith ZArith Bool.
From Verif Require Import Util Arr SimpModel BdryModel SubdModel AvgModel LinModel Ofield.
Import ListNotations.

Section Geometry.
Variable F : cfield.
Local Open Scope ring_scope'.
Notation positions := (nat -> nat -> F).
Definition three : F := r1 + r1 + r1.
Definition two : F := r1 + r1.

(** euclidian.py:520-530, row of one triangle; np.diff gives the two consecutive differences. *)
Definition triangle_normal (V : positions) (s : simplex) : nat -> F :=
  cross F (fun i => V (nth 1 s 0%nat) i - V (nth 0 s 0%nat) i) (fun i => V (nth 2 s 0%nat) i - V (nth 1 s 0%nat) i).
(** euclidian.py:532-533 *)
Definition triangle_centroid (V : positions) (s : simplex) : nat -> F := fun i => mean3 F (fun k => V (nth k s 0%nat) i).
(** euclidian.py:570-588 for three coordinates *)
Definition volume (V : positions) (t : topology) : F :=
  let T := nth 2 (elements t) [] in
  fdiv (fdiv (rsum (map (fun s => rsum (map (fun i => triangle_normal V s i * triangle_centroid V s i) (seq 0 3))) T)) three) two.
(** euclidian.py:535-550: np.repeat pairs each corner of the flattened triangle array with the normal of its triangle,
    group_by sums per vertex; the groups are all vertices of the topology in order. *)
Definition vertex_normal (V : positions) (t : topology) (v : nat) : nat -> F := fun i =>
  rsum (map (fun cn => if Nat.eqb (fst cn) v then snd cn else r0)
            (flat_map (fun s => map (fun c => (c, triangle_normal V s i)) s) (nth 2 (elements t) []))).
(** complex/base.py:106-107 *)
Definition translate (V : positions) (x : nat -> F) : positions := fun v i => V v i + x i.
End Geometry.

Section Clip.
Variable F : ofield.
Variable row_leb : list nat -> list nat -> bool.
Local Open Scope ring_scope'.
Variable dim : nat.
Notation positions := (nat -> nat -> F).
Notation point := (nat -> F).

Definition dotn (a b : point) : F := rsum (map (fun i => a i * b i) (seq 0 dim)).
(** euclidian.py:393 for one vertex; also the numbers of euclidian.py:401 *)
Definition height (support direction : point) (p : point) : F := dotn (fun i => p i - support i) direction.
Definition vert_side (support direction : point) (V : positions) (v : nat) : bool := pos (height support direction (V v)).

Section Sides.
Variable side : nat -> bool.
Definition count_side (s : list nat) : nat := length (filter side s).
(** euclidian.py:394, 396, 397 *)
Definition edge_cut (e : list nat) : bool := Nat.ltb 0 (count_side e mod 2).
Definition tri_cut (s : list nat) : bool := Nat.ltb 0 (count_side s mod 3).
Definition tri_keep (s : list nat) : bool := Nat.eqb (count_side s) 0.
(** np.argmax / np.argmin of a row of booleans: first position holding [b], 0 if there is none. *)
Definition first_at (b : bool) (s : list nat) : nat :=
  let k := index_of Bool.eqb b (map side s) in if Nat.ltb k (length s) then k else 0%nat.
(** euclidian.py:408-410 *)
Definition tip (s : list nat) : nat := if Nat.eqb (count_side s) 1 then first_at true s else first_at false s.
(** euclidian.py:412 np.cumsum(edge_cut) - 1; entries are only used at cut edges, where the sum is at least 1. *)
Definition lookup (EV : list simplex) (e : nat) : nat := (length (filter edge_cut (firstn (S e) EV)) - 1)%nat.
(** euclidian.py:413-430, the three rows for one triangle with corners v and edges e. *)
Definition cut_triangles (n0 : nat) (EV : list simplex) (v e : list nat) : list simplex :=
  let p := tip v in
  let vl o := nth ((o + p) mod 3)%nat v 0%nat in
  let el o := (lookup EV (nth ((o + p) mod 3)%nat e 0%nat) + n0)%nat in
  [[vl 0%nat; el 2%nat; el 1%nat]; [vl 1%nat; el 1%nat; el 2%nat]; [vl 2%nat; el 1%nat; vl 1%nat]].
(** euclidian.py:432-435: uncut triangles followed by the new ones. *)
Definition clip_rows (t : topology) : list simplex :=
  let TV := nth 2 (elements t) [] in
  let TE := nth 1 (boundary_idx t) [] in
  let EV := nth 1 (elements t) [] in
  filter (fun s => negb (tri_cut s)) TV ++
  concat (map (fun ve => cut_triangles (n_elements t 0) EV (fst ve) (snd ve)) (filter (fun ve => tri_cut (fst ve)) (combine TV TE))).
Definition clip_cut (t : topology) : result topology := from_simplices row_leb 2 (clip_rows t).
(** euclidian.py:440-442: selection for clip=True; the side of a new triangle is that of its first corner. *)
Definition clip_chain (t : topology) : list bool :=
  let TV := nth 2 (elements t) [] in
  let n_uncut := length (filter (fun s => negb (tri_cut s)) TV) in
  map tri_keep (filter (fun s => negb (tri_cut s)) TV) ++ map (fun s => negb (side (nth 0 s 0%nat))) (skipn n_uncut (clip_rows t)).
Definition clip_selected (t : topology) : result (topology * list (list nat)) :=
  do cut <- clip_cut t; select_subset row_leb cut (clip_chain t).
End Sides.

(** euclidian.py:400-405: position of the vertex inserted on an edge.  Division by zero only occurs for edges parallel to
    the plane, which are not cut. *)
Definition inserted (support direction : point) (V : positions) (e : simplex) : point :=
  let a := V (nth 0 e 0%nat) in let b := V (nth 1 e 0%nat) in
  let len := dotn (fun i => b i - a i) direction in
  let w0 := fabs (fdiv (height support direction b) len) in
  let w1 := fabs (fdiv (height support direction a) len) in
  fun i => a i * w0 + b i * w1.
(** euclidian.py:406, 433: vertices of the result. *)
Definition clip_positions (support direction : point) (V : positions) (t : topology) : positions :=
  let cut := filter (edge_cut (vert_side support direction V)) (nth 1 (elements t) []) in
  fun v => if Nat.ltb v (n_elements t 0) then V v else inserted support direction V (nth (v - n_elements t 0)%nat cut []).
End Clip.

Section Extrude.
Variable row_leb : list nat -> list nat -> bool.
Variable sat : list (Z * Z) -> option (list Z).

(** euclidian.py:787-798: triangles of the solid for boundary edges [be]. *)
Definition strip (n : nat) (be : list simplex) : list simplex :=
  map (fun e => rev e ++ [nth 0 e 0 + n]) be ++ map (fun e => map (fun v => v + n) e ++ [nth 1 e 0]) be.
Definition solid_rows (n : nat) (tris be : list simplex) : list simplex :=
  tris ++ map (fun s => map (fun v => v + n) (rev s)) tris ++ strip n be.
(** euclidian.py:771-802 for two meshes sharing one topology; [n] is the number of vertices. *)
Definition extrude (n : nat) (t : topology) : result topology :=
  do o <- is_oriented sat t;
  if negb o then Err AssertionError else
  do b <- boundary row_leb sat t;
  match b with
  | None => Err AssertionError
  | Some (_, parent_idx) =>
    let be := map (fun i => nth i (nth 1 (elements t) []) []) (nth 1 parent_idx []) in
    do solid <- from_simplices row_leb 2 (solid_rows n (nth 2 (elements t) []) be);
    do o' <- is_oriented sat solid;
    if negb o' then Err AssertionError else Ok solid
  end.
End Extrude.

(** euclidian.py:304-338 subdivide_loop_operator, shapes only: scipy stacks the transposed averaging operators, and refuses
    a product of matrices whose shapes do not fit.  smooth_operator is square in the vertices (complex/base.py:180). *)
Definition subdivide_loop_operator_shape (row_leb : list nat -> list nat -> bool) (t : topology) (smooth : bool) : result (nat * nat) :=
  do A <- accumulated_operators_0 t;
  let rows := list_sum (map ncols A) in
  let cols := nrows (nth 0 A (mkCoo 0 0 [])) in
  if smooth then
    do '(fine, _) <- subdivide_loop row_leb t;
    if n_elements fine 0 =? rows then Ok (n_elements fine 0, cols) else Err ValueError
  else Ok (rows, cols).
