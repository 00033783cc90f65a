(** Model of the metric of regular complexes: pycomplex/geometry/regular.py:11-32 and
    pycomplex/complex/regular.py:279-350. *)
Require Import List Arith ZArith QArith Qabs Bool.
From Verif Require Import Util CombModel SimpModel BdryModel SubdModel AvgModel CubeModel CDomModel SmoModel.
Import ListNotations.
Local Open Scope nat_scope.

(** geometry/regular.py:11-32 [hypervolume] with n given, n >= 1, for one cube; floats are exact rationals. *)
Definition hypervolume (a b : list Q) (n : nat) : Q :=
  let d := map (fun xy => Qminus (fst xy) (snd xy)) (combine a b) in
  let d := isort Qle_bool (map Qabs d) in
  let d := skipn (length d - n) d in
  Qabs (fold_right Qmult 1%Q d).

(** complex/cubical.py:36-44 [primal_position] of one element; [V] gives the coordinates of a vertex, n_dim of them. *)
Definition element_position (D : nat) (V : nat -> list Q) (c : cube) : list Q :=
  map (fun x => mean (map (fun v => nth x (V v) 0%Q) c)) (seq 0 D).

(** complex/regular.py:309-313 [domains] and [cubes]: reshaped to one row per cube and corner; no entry is still -1
    (C66_domains). *)
Definition domain_rows (t : topology) (Ds : list domain) : list (bits -> nat) :=
  flat_map (fun D => map (fun a b => match D a b with Some i => i | None => 0 end) (corners (n_dim t))) Ds.
(** complex/regular.py:279-288 [fundamental_domain_postions] for one row *)
Definition domain_position (t : topology) (V : nat -> list Q) (row : bits -> nat) (c : bits) : list Q :=
  element_position (n_dim t) V (nth (row c) (nth (bit_sum c) (elements t) []) []).

(** npi.group_by(keys).sum(values) *)
Definition group_sum (keys : list nat) (values : list Q) : list (nat * Q) :=
  map (fun k => (k, sumQ (map snd (filter (fun kv => fst kv =? k) (combine keys values))))) (unique_nat keys).
(** array[g] += sums, the entries of g are distinct *)
Definition add_to (gs : list (nat * Q)) (arr : list Q) : list Q :=
  map (fun i => match find (fun kv => fst kv =? i) gs with Some kv => Qplus (nth i arr 0%Q) (snd kv) | None => nth i arr 0%Q end)
    (seq 0 (length arr)).
(** list(enumerate(corners))[1:-1] *)
Definition inner_corners (n : nat) : list bits := removelast (tl (corners n)).
Definition first_corner (n : nat) : bits := repeat false n.
Definition last_corner (n : nat) : bits := repeat true n.

(** complex/regular.py:333-335: division by the int8 degree; [None] is inf or nan. *)
Definition over_degree (x : Q) (d : Z) : option Q := if (d =? 0)%Z then None else Some (Qdiv x (inject_Z d)).

(** complex/regular.py:290-350 [metric] where the vertices have as many coordinates as the topology has dimensions;
    other numbers of coordinates are not modelled.  PM[-1] replaces the whole array, here level n, n >= 1. *)
Definition metric (sat : list (Z * Z) -> option (list Z)) (t : topology) (V : nat -> list Q) : result (list (list (option Q)) * list (list Q)) :=
  let n := n_dim t in
  do oriented <- is_oriented sat t;
  if negb oriented then Err AssertionError else
  do Ds <- cubical_domains t;
  do deg <- degree t;
  let rows := domain_rows t Ds in
  let pos := domain_position t V in
  let keys c := map (fun row => row c) rows in
  let PN := map (n_elements t) (seq 0 (S n)) in
  let PM := map (fun k => repeat 0%Q k) PN in
  let PM := update 0 (repeat 1%Q (nth 0 PN 0)) PM in
  let DM := map (fun k => repeat 0%Q k) (rev PN) in
  let DM := update 0 (repeat 1%Q (nth 0 (rev PN) 0)) DM in
  let PM := fold_left (fun PM c =>
      let k := bit_sum c in
      let hv := map (fun row => hypervolume (pos row (first_corner n)) (pos row c) k) rows in
      update k (add_to (group_sum (keys c) hv) (nth k PM [])) PM) (inner_corners n) PM in
  let PM := map (fun k => if (1 <=? k) && (k <? n)
      then map (fun xd => over_degree (fst xd) (snd xd)) (combine (nth k PM []) (nth k deg []))
      else map Some (nth k PM [])) (seq 0 (S n)) in
  let DM := fold_left (fun DM c =>
      let k := n - bit_sum c in
      let hv := map (fun row => hypervolume (pos row c) (pos row (last_corner n)) k) rows in
      update k (add_to (map (fun gs => (fst gs, Qdiv (snd gs) (inject_Z (2 ^ Z.of_nat (bit_sum c))))) (group_sum (keys c) hv)) (nth k DM [])) DM)
      (inner_corners n) DM in
  let hv := map (fun row => hypervolume (pos row (first_corner n)) (pos row (last_corner n)) n) rows in
  let PM := update n (map (fun gs => Some (snd gs)) (group_sum (keys (last_corner n)) hv)) PM in
  let DM := update n (map snd (group_sum (keys (first_corner n)) hv)) DM in
  Ok (PM, DM).
