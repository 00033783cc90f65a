(** Specification of connected components and of the neighbourhood of a vertex, independent of the code. *)
Require Import List Arith Bool Relations.
From Verif Require Import Util SimpModel SimpSpec BdrySpec.
Import ListNotations.

(** Two nodes are joined by a path of edges taken in either direction. *)
Inductive path (E : list (nat * nat)) : nat -> nat -> Prop :=
| path_refl : forall i, path E i i
| path_step : forall i j k, path E i j -> In (j, k) E \/ In (k, j) E -> path E i k.

(** Contract of scipy's connected_components for an undirected reading of the graph. *)
Definition components_contract (components : nat -> list (nat * nat) -> nat * list nat) : Prop :=
  forall N E, (forall i j, In (i, j) E -> i < N /\ j < N) ->
  let (k, labels) := components N E in
  length labels = N /\
  (forall i, i < N -> nth i labels 0 < k) /\
  (forall l, l < k -> exists i, i < N /\ nth i labels 0 = l) /\
  (forall i j, i < N -> j < N -> (nth i labels 0 = nth j labels 0 <-> path E i j)).

(** Positions of the simplices at a vertex. *)
Definition in_star (rows : list simplex) (v j : nat) : Prop := j < length rows /\ In v (nth j rows []).

(** Walking around a vertex from simplex to simplex through common facets that contain the vertex. *)
Inductive around (n : nat) (rows : list simplex) (v : nat) : nat -> nat -> Prop :=
| around_refl : forall j, around n rows v j j
| around_step : forall i j k f, around n rows v i j -> in_star rows v j -> in_star rows v k ->
    is_face (n - 1) f (nth j rows []) -> is_face (n - 1) f (nth k rows []) -> In v f -> around n rows v i k.

(** The relation [R] has exactly [k] classes among the positions with [P]. *)
Definition n_classes (P : nat -> Prop) (R : nat -> nat -> Prop) (k : nat) : Prop :=
  exists reps, length reps = k /\ (forall r, In r reps -> P r) /\
    (forall a b, a < k -> b < k -> R (nth a reps 0) (nth b reps 0) -> a = b) /\
    (forall j, P j -> exists r, In r reps /\ R r j).

(** The simplices at every vertex form one region around it. *)
Definition one_region (n : nat) (rows : list simplex) : Prop :=
  forall v i j, in_star rows v i -> in_star rows v j -> around n rows v i j.

(** Two different triangles at a vertex that have an edge at the vertex in common. *)
Definition neighbours (rows : list simplex) (v j k : nat) : Prop :=
  j <> k /\ in_star rows v j /\ in_star rows v k /\
  exists f, is_face 1 f (nth j rows []) /\ is_face 1 f (nth k rows []) /\ In v f.

(** The triangles at a vertex of a surface with or without boundary: they can be listed in a row or in a
    ring in which exactly the consecutive ones are neighbours. *)
Definition fan (rows : list simplex) (v : nat) : Prop :=
  exists c, NoDup c /\ (forall j, In j c <-> in_star rows v j) /\
    (forall a, S a < length c -> neighbours rows v (nth a c 0) (nth (S a) c 0)) /\
    (forall a b, a < b -> b < length c -> neighbours rows v (nth a c 0) (nth b c 0) -> b = S a \/ (a = 0 /\ S b = length c)).
