(** Model of the subdivision of cubical topologies into smaller cubes: pycomplex/topology/cubical.py:253-350 and 416-448. *)
Require Import List Arith ZArith Bool.
From Verif Require Import Util CombModel SimpModel BdryModel SubdModel CubeModel.
Import ListNotations.
Local Open Scope nat_scope.

(** cubical.py:43-47: corner[axis] = 1 for the axes moved to the front. *)
Definition axes_corner (n : nat) (axes : list nat) : bits := map (fun k => existsb (Nat.eqb k) axes) (seq 0 n).
(** Reading idx.reshape((-1,) + tuple(1 + c)) at the multi-index [a], broadcast along the axes with c = 0. *)
Fixpoint restrict (c a : bits) : bits :=
  match c, a with
  | true :: c', x :: a' => x :: restrict c' a'
  | false :: c', _ :: a' => restrict c' a'
  | _, _ => []
  end.
Fixpoint bits_eqb (a b : bits) : bool :=
  match a, b with
  | [], [] => true
  | x :: a', y :: b' => Bool.eqb x y && bits_eqb a' b'
  | _, _ => false
  end.

(** One cube's block of the array [domains], of shape cube_shape + cube_shape; [None] is the initial -1. *)
Definition domain := bits -> bits -> option nat.
(** domains[(Ellipsis,) + c] = v *)
Definition write (c : bits) (v : bits -> nat) (D : domain) : domain := fun a b => if bits_eqb b c then Some (v a) else D a b.

(** cubical.py:430-448 for cube number [j], n >= 1; lookups of all cubes at once raise the same KeyError. *)
Definition cube_domains (t : topology) (n j : nat) : result domain :=
  let E := nth j (nth n (elements t) []) [] in
  let D := write (repeat false n) (cget E) (write (repeat true n) (fun _ => j) (fun _ _ => None)) in
  let jobs := flat_map (fun d => map (fun cf => (d, fst cf, snd cf))
                (combine (map (fun pa => axes_corner n (snd pa)) (combinations d (seq 0 n))) (generate_cube_boundary n d true E)))
                (seq 1 (n - 1)) in
  do writes <- mapM (fun job => do idx <- element_indices (nth (n - fst (fst job)) (elements t) []) (snd job); Ok (snd (fst job), idx)) jobs;
  Ok (fold_left (fun D w => write (map negb (fst w)) (fun a => nth (ravel (restrict (fst w) a)) (snd w) 0) D) writes D).
(** cubical.py:416-448 [cubical_domains] *)
Definition cubical_domains (t : topology) : result (list domain) :=
  mapM (cube_domains t (n_dim t)) (seq 0 (n_elements t (n_dim t))).

(** cubical.py:278-280: new_cubes[..., c] += offset[c.sum()]; no entry is still -1 here (C66_domains). *)
Definition domain_label (t : topology) (D : domain) (a b : bits) : nat :=
  match D a b with Some i => i + offset t (bit_sum b) | None => offset t (bit_sum b) - 1 end.
(** cubical.py:282-288: mirrors according to the corner, cubes in C order of the corner. *)
Definition subdivided_cubes (t : topology) (Ds : list domain) : list cube :=
  let n := n_dim t in
  flat_map (fun D => map (fun a => flips n a (cbuild n (domain_label t D a))) (corners n)) Ds.

(** cubical.py:299-323 [subdivide_cubical_relations] for one vertex of the fine mesh; uint8 does not overflow for
    n <= 7, the largest dimension from_cubes accepts. *)
Definition vertex_order (coarse : topology) (v : nat) : nat :=
  length (filter (fun k => offset coarse k <=? v) (seq 1 (S (n_dim coarse)))).
Definition vertex_parent (coarse : topology) (v : nat) : nat := v - offset coarse (vertex_order coarse v).
Definition subdivide_cubical_relations (coarse fine : topology) : list (list (list nat)) * list (list (list nat)) :=
  (map (map (map (vertex_order coarse))) (elements fine), map (map (map (vertex_parent coarse))) (elements fine)).

(** cubical.py:325-350 [subdivide_cubical_transfers]; np.nonzero lists positions in C order, so [f] holds the number
    of every row once per entry 0, and [c] the parents of the entries equal to the level in these rows. *)
Definition level_transfer (n : nat) (o p : list (list nat)) : list nat * list nat :=
  let f := flat_map (fun r => repeat r (length (filter (Nat.eqb 0) (nth r o [])))) (seq 0 (length o)) in
  (f, flat_map (fun r => map snd (filter (fun op => fst op =? n) (combine (nth r o []) (nth r p [])))) f).
Definition subdivide_cubical_transfers (coarse fine : topology) : list (list nat * list nat) :=
  let '(order, parent) := subdivide_cubical_relations coarse fine in
  map (fun nop => level_transfer (fst nop) (fst (snd nop)) (snd (snd nop))) (combine (seq 0 (length order)) (combine order parent)).

(** cubical.py:253-297 [subdivide_cubical] *)
Definition subdivide_cubical (row_leb : list nat -> list nat -> bool) (t : topology) : result (topology * list (list nat * list nat) * list coo) :=
  do Ds <- cubical_domains t;
  do sub <- from_cubes row_leb true (n_dim t) (subdivided_cubes t Ds);
  let transfers := subdivide_cubical_transfers t sub in
  do ms <- mapM (fun nt => transfer_matrix (fst (snd nt)) (snd (snd nt)) (n_elements sub (fst nt)) (n_elements t (fst nt)))
                (combine (seq 0 (length transfers)) transfers);
  Ok (sub, transfers, ms).
