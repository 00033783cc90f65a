(** Directed edges of triangle meshes, independently of the code. *)
Require Import List Arith ZArith Bool.
From Verif Require Import Util SimpModel.
Import ListNotations.

Definition dedge := (nat * nat)%type.
Definition reverse (e : dedge) : dedge := (snd e, fst e).
Definition dedge_eqb (d e : dedge) : bool := Nat.eqb (fst d) (fst e) && Nat.eqb (snd d) (snd e).
(** The three directed edges of a triangle, and of all triangles of a mesh. *)
Definition dedges (s : simplex) : list dedge := match s with [a; b; c] => [(a, b); (b, c); (c, a)] | _ => [] end.
Definition mesh_edges (rows : list simplex) : list dedge := flat_map dedges rows.
(** How often a directed edge occurs. *)
Definition occurs (e : dedge) (L : list dedge) : nat := length (filter (dedge_eqb e) L).
(** Every directed edge is matched by its reverse. *)
Definition closed_surface (rows : list simplex) : Prop := forall e, occurs e (mesh_edges rows) = occurs (reverse e) (mesh_edges rows).
