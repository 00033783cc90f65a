(** Model of pycomplex/complex/simplicial/spherical.py:115-195 (primal_position, metric) and
    pycomplex/complex/base.py:250-253 [is_well_centered].
    Real numbers in place of floats, nan is [None]. *)
Require Import Reals List Arith ZArith Factorial.
From Verif Require Import Util SimpModel BdryModel SubdModel SphModel.
Require Import Bool.
Import ListNotations.
Local Open Scope R_scope.

Section Met.
(** the SAT solver used by relative_parity, see BdryModel *)
Variable sat : list (Z * Z) -> option (list Z).
Variable t : topology.
(** dimension of the embedding space *)
Variable d : nat.
Variable vertices : nat -> vec.
(** spherical.py:115-132 [primal_barycentric]: the coordinates of the circumcenter of k-element e with respect to its
    corners; a parameter, those of the code are in CircModel *)
Variable bary : nat -> nat -> list R.
Variable radius : R.

Definition all_some {A : Type} (l : list (option A)) : option (list A) :=
  fold_right (fun x r => match x, r with Some a, Some q => Some (a :: q) | _, _ => None end) (Some []) l.

(** np.einsum('...cn,...c->...n', vertices[corners], b) for one element *)
Definition weighted (corners : list nat) (b : list R) : vec :=
  fold_right (fun cb acc => vadd (vscale (snd cb) (vertices (fst cb))) acc) (repeat 0 d) (combine corners b).
(** spherical.py:134-143 [primal_position] *)
Definition position (k e : nat) : option vec :=
  normalized (weighted (nth e (nth k (elements t) []) []) (bary k e)).

(** base.py:250-253 *)
Definition is_well_centered : bool :=
  forallb (fun k => forallb (fun e => forallb (fun b => if Rlt_dec 0 b then true else false) (bary k e)) (seq 0 (n_elements t k)))
    (seq 0 (S (n_dim t))).

(** spherical.unsigned_volume of rows lo .. lo+k of the corners of a domain; the check of the dimension comes first,
    and coordinates that are nan give nan *)
Definition volume (lo k : nat) (row : list nat) : result (option R) :=
  if Nat.eqb k 2 && negb (Nat.eqb d 3) then Err ValueError else
  match all_some (map (fun i => position i (nth i row 0%nat)) (seq lo (S k))) with
  | Some pts => unsigned_volume pts
  | None => Ok None
  end.

(** sums of floats that may be nan *)
Definition osum (l : list (option R)) : option R :=
  match all_some l with Some q => Some (fold_right Rplus 0 q) | None => None end.
(** npi.group_by(keys).sum(values)[1] and .mean(values)[1]: one entry for every distinct key, in increasing order *)
Definition members (key : nat) (keys : list nat) (values : list (option R)) : list (option R) :=
  map snd (filter (fun kv => Nat.eqb (fst kv) key) (combine keys values)).
Definition group_sum (keys : list nat) (values : list (option R)) : list (option R) :=
  map (fun key => osum (members key keys values)) (unique_nat keys).
Definition group_mean (keys : list nat) (values : list (option R)) : list (option R) :=
  map (fun key => option_map (fun s => s / INR (length (members key keys values))) (osum (members key keys values))) (unique_nat keys).
Definition scaled (k : R) (l : list (option R)) : list (option R) := map (option_map (fun x => x * k)) l.

(** spherical.py:145-195 [metric]; the loop over 1 <= i < n_dim, then the volumes of full dimension *)
Definition metric : result (list (list (option R)) * list (list (option R))) :=
  do o <- is_oriented sat t;
  if negb o then Err AssertionError else
  if negb is_well_centered then Err AssertionError else
  let n := n_dim t in
  if Nat.ltb 2 n then Err AssertionError else
  do domains <- fundamental_domains t;
  let column k := map (fun row => nth k row 0%nat) domains in
  do inner <- mapM (fun i =>
      let j := (n - i)%nat in
      do p <- mapM (volume 0 i) domains;
      do q <- mapM (volume j (n - j)) domains;
      Ok (scaled (INR (fact (S i))) (group_mean (column i) p), scaled (/ INR (fact (S j))) (group_sum (column j) q))) (seq 1 (n - 1));
  do V <- mapM (volume 0 n) domains;
  let PM := repeat (Some 1) (n_elements t 0) :: map fst inner ++ [group_sum (column n) V] in
  let DM := repeat (Some 1) (n_elements t n) :: map snd inner ++ [group_sum (column 0%nat) V] in
  let powers l := map (fun im => scaled (radius ^ fst im) (snd im)) (combine (seq 0 (length l)) l) in
  Ok (powers PM, powers DM).
End Met.
