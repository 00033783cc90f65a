(** Subdivided cubes, independently of the code. *)
Require Import List Arith ZArith Bool.
From Verif Require Import Util SimpModel CubeSpec.
Import ListNotations.
Local Open Scope nat_scope.

(** Number of elements of dimension less than [k]: the elements of all dimensions are numbered one after another. *)
Definition below (t : topology) (k : nat) : nat := list_sum (map (fun m => length (nth m (elements t) [])) (seq 0 k)).
(** Corner [b] of the small cube at corner [a] of a cube of size two, as a point of the grid {0, 1, 2}^k. *)
Definition grid (a b : list bool) : list nat :=
  map (fun ab : bool * bool => (if fst ab then 1 else 0) + (if snd ab then 1 else 0)) (combine a b).
(** Dimension of the face of the big cube whose centre is the grid point [x]. *)
Definition halves (x : list nat) : nat := count_occ Nat.eq_dec x 1.
(** [e] has the corners of the face of the k-cube [c] with centre [x]: free where x is 1, else on side x / 2. *)
Definition centred (k : nat) (c : list nat) (x : list nat) (e : list nat) : Prop :=
  forall v, In v e <-> exists y, length y = k /\ corner c y = v /\
    forall i, i < k -> nth i x 0 = 1 \/ nth i x 0 = 2 * (if nth i y false then 1 else 0).
(** [g] is the small cube at corner [w] of element [i] of dimension [k]: each of its corners is the number of the
    element with that centre. *)
Definition part (t : topology) (k i : nat) (w : list bool) (g : list nat) : Prop :=
  length g = 2 ^ k /\ forall b, length b = k -> exists e,
    let d := halves (grid w b) in
    e < length (nth d (elements t) []) /\ corner g b = below t d + e /\ (d = k -> e = i) /\
    centred k (nth i (nth k (elements t) []) []) (grid w b) (nth e (nth d (elements t) []) []).
