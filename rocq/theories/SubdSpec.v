(** Specification of subdivisions, independent of the code. *)
Require Import List Arith ZArith Bool Permutation.
From Verif Require Import Util SimpModel SimpSpec.
Import ListNotations.

(** Element [i] of dimension [k]. *)
Definition element (t : topology) (k i : nat) : simplex := nth i (nth k (elements t) []) [].

(** A flag with top element [j]: one element index per dimension 0 .. n, each element contained in the next. *)
Definition is_flag (n : nat) (t : topology) (j : nat) (fl : list nat) : Prop :=
  length fl = S n /\ nth n fl 0 = j /\
  (forall k, k <= n -> nth k fl 0 < n_elements t k) /\
  (forall k, k < n -> incl (element t k (nth k fl 0)) (element t (S k) (nth (S k) fl 0))).

(** A triangulated surface given by its boundary arrays.  Edge [e] runs from its first to its second vertex when
    its stored signs are [-1; 1], backwards when they are [1; -1].  [directed t kappa e o p q]: with sign [o],
    edge [e] contributes [kappa] times the direction from [p] to [q]. *)
Definition directed (t : topology) (kappa : Z) (e : nat) (o : Z) (p q : nat) : Prop :=
  e < n_elements t 1 /\
  exists s, nth e (nth 0 (orientation t) []) [] = [- s; s]%Z /\
    ((nth e (nth 0 (boundary_idx t) []) [] = [p; q] /\ (o * s = kappa)%Z) \/
     (nth e (nth 0 (boundary_idx t) []) [] = [q; p] /\ (o * s = - kappa)%Z)).

(** Every triangle lists three corners and the three edges opposite to them, and its boundary is [kappa] times
    the cycle through its corners.  [kappa = 1] is the usual sign convention, [from_simplices] stores [-1]. *)
Record surface (t : topology) (kappa : Z) : Prop := {
  sf_pos : 0 < n_elements t 2;
  sf_edges : length (nth 0 (boundary_idx t) []) = n_elements t 1 /\ length (nth 0 (orientation t) []) = n_elements t 1;
  sf_edge : forall e, e < n_elements t 1 -> exists a b s, nth e (nth 0 (boundary_idx t) []) [] = [a; b] /\
      a < n_elements t 0 /\ b < n_elements t 0 /\ nth e (nth 0 (orientation t) []) [] = [- s; s]%Z;
  sf_faces : length (nth 1 (boundary_idx t) []) = n_elements t 2 /\ length (nth 1 (orientation t) []) = n_elements t 2;
  sf_face : forall j, j < n_elements t 2 -> exists v0 v1 v2 e0 e1 e2 o0 o1 o2,
      element t 2 j = [v0; v1; v2] /\ v0 <> v1 /\ v0 <> v2 /\ v1 <> v2 /\
      nth j (nth 1 (boundary_idx t) []) [] = [e0; e1; e2] /\ nth j (nth 1 (orientation t) []) [] = [o0; o1; o2] /\
      directed t kappa e0 o0 v1 v2 /\ directed t kappa e1 o1 v2 v0 /\ directed t kappa e2 o2 v0 v1
}.

(** The corners listed for triangle [p] are the end points of its boundary edges. *)
Definition corners_match (t : topology) (p : nat) : Prop :=
  forall v, In v (element t 2 p) <->
    exists e, In e (nth p (nth 1 (boundary_idx t) []) []) /\ In v (nth e (nth 0 (boundary_idx t) []) []).

(** [m] is the new vertex on the edge between [a] and [b] when new vertices are numbered after the old ones. *)
Definition edge_vertex (t : topology) (a b m : nat) : Prop :=
  exists e, e < n_elements t 1 /\ Permutation (element t 1 e) [a; b] /\ m = n_elements t 0 + e.
