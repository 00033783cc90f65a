(** Model of pycomplex/complex/simplicial/spherical.py:255-383 [ComplexSpherical2.multigrid_transfer_dual].
    Real numbers in place of floats, nan is [None].  The two meshes are given by the attributes that the function reads. *)
Require Import Reals List Arith Bool.
From Verif Require Import Util SphModel.
Import ListNotations.
Local Open Scope R_scope.

Section Transfer.
(** coarse.radius, fine.radius, coarse.is_well_centered, fine.is_well_centered *)
Variables radius_coarse radius_fine : R.
Variables centered_coarse centered_fine : bool.
(** coarse.topology.n_elements[2]; the fine mesh has four times as many triangles, else the reshape in line 294 fails *)
Variable N : nat.
(** coarse.topology.incidence[2, 0] *)
Variable I20 : nat -> list nat.
(** fine.topology.incidence[2, 0] and fine.topology.incidence[2, 1] *)
Variables i20 i21 : nat -> list nat.
(** fine.topology.fundamental_domains(): the rows of one triangle *)
Variable domains : nat -> list (list nat).
(** fine.primal_position *)
Variables position0 position1 position2 : nat -> vec.
(** coarse.primal_position[2] *)
Variable P2 : nat -> vec.
(** coarse.pick_dual(fine.primal_position[1]) and coarse.pick_dual(p2), by fine edge and by coarse triangle *)
Variables pick_edge pick_center : nat -> nat.

Notation A := triangle_area_from_corners.
(** an entry of a coo_matrix: row, column, value *)
Definition entry := (nat * nat * R)%type.

(** spherical.py:294-311: contributions of the three corner triangles of every coarse triangle *)
Definition corner_tris : list nat := flat_map (fun c => map (fun i => (4 * c + i)%nat) [1; 2; 3]%nat) (seq 0 N).
Definition corner_transfer : list entry :=
  map (fun row => (pick_edge (nth 1 row 0%nat), nth 0 row 0%nat, A (position0 (nth 0 row 0%nat)) (position1 (nth 1 row 0%nat)) (position2 (nth 2 row 0%nat))))
    (flat_map domains corner_tris).

(** spherical.py:325-329: the columns of I20 that hold the picked vertex, as pairs (a, m) *)
Definition matches : list (nat * nat) :=
  flat_map (fun c => map (pair c) (filter (fun m => Nat.eqb (nth m (I20 c) 0%nat) (pick_center c)) (seq 0 3))) (seq 0 N).

(** spherical.py:320-372 for one triangle: the assignments to areas[a], in order.  The indices m - 1 and m - 2 are
    negative for small m and then count from the end. *)
Definition assignments (c m : nat) : option (list (nat * nat * R)) :=
  let p0 k := position0 (nth k (i20 (4 * c)) 0%nat) in
  let p1 k := position1 (nth k (i21 (4 * c)) 0%nat) in
  let p2 := position2 (4 * c)%nat in
  let P := P2 c in
  let l := ((m + 2) mod 3)%nat in let R := l in
  let r := ((m + 1) mod 3)%nat in let L := r in
  match intersect_edges (p0 l) P (p1 L) p2, intersect_edges (p0 r) P (p1 R) p2 with
  | Some pl, Some pr' =>
    let pr := vscale (-1) pr' in
    let wedge_l := A P (p1 L) pl in
    let wedge_r := A P (p1 R) pr in
    let diamond_l := A P pl p2 in
    let diamond_r := A P pr p2 in
    let sliver_l := A (p0 l) pl p2 in
    let sliver_r := A (p0 r) pr p2 in
    Some [(R, l, 0); (L, r, 0);
          (L, l, A (p0 l) (p1 L) pl); (R, r, A (p0 r) (p1 R) pr);
          (L, m, A (p0 m) (p1 L) P + wedge_l); (R, m, A (p0 m) (p1 R) P + wedge_r);
          (m, l, A (p0 l) (p1 m) p2 + sliver_l); (m, r, A (p0 r) (p1 m) p2 + sliver_r);
          (m, m, diamond_l + diamond_r)]
  | _, _ => None
  end.
(** the array after these assignments; np.empty before *)
Definition read (l : list (nat * nat * R)) (i j : nat) : R :=
  fold_left (fun x t => if Nat.eqb (fst (fst t)) i && Nat.eqb (snd (fst t)) j then snd t else x) l 0.

(** spherical.py:377-381 for one triangle *)
Definition center_entries (c : nat) (l : list (nat * nat * R)) : list entry :=
  flat_map (fun i => map (fun j => (nth i (I20 c) 0%nat, nth j (i20 (4 * c)) 0%nat, read l i j)) (seq 0 3)) (seq 0 3).

(** spherical.py:282-284, 328-329, 374-383.  Triangles without a match make the shapes differ: a ValueError, except for a mesh
    of a single triangle, which is not modelled.  Comparisons with nan are false. *)
Definition multigrid_transfer_dual : result (list entry) :=
  if negb (if Req_EM_T radius_fine radius_coarse then true else false) then Err AssertionError else
  if negb centered_fine then Err AssertionError else
  if negb centered_coarse then Err AssertionError else
  if negb (list_eqb (map fst matches) (seq 0 (length matches))) then Err AssertionError else
  if negb (Nat.eqb (length matches) N) then Err ValueError else
  do center <- mapM (fun am =>
    match assignments (fst am) (snd am) with
    | None => Err AssertionError
    | Some l =>
      if forallb (fun i => forallb (fun j => if Rlt_dec (- (1 / 10 ^ 13)) (read l i j) then true else false) (seq 0 3)) (seq 0 3)
      then Ok (center_entries (fst am) l) else Err AssertionError
    end) matches;
  Ok (concat center ++ corner_transfer).
End Transfer.
