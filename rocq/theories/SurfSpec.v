(** Closed surfaces and lines, solids bounded by surfaces; nothing here mentions the model. *)
From mathcomp Require Import all_ssreflect all_algebra.
Import GRing.Theory Num.Theory.
Local Open Scope ring_scope.

(** the directed sides of triangles *)
Definition sides (tris : seq (nat * nat * nat)) : seq (nat * nat) :=
  flatten [seq [:: (t.1.1, t.1.2); (t.1.2, t.2); (t.2, t.1.1)] | t <- tris].
Definition turned (e : nat * nat) : nat * nat := (e.2, e.1).
(** every directed side occurs as often as the opposite one: closed and consistently oriented *)
Definition balanced (edges : seq (nat * nat)) : Prop := forall e, count_mem e edges = count_mem (turned e) edges.
(** every vertex is the end of as many edges as it is the start of *)
Definition closed_line (edges : seq (nat * nat)) : Prop := forall v, count (fun e => e.1 == v) edges = count (fun e => e.2 == v) edges.

Section Chains.
Variable K : numFieldType.
(** functions of oriented triangles: the same on rotated ones, opposite on turned ones *)
Definition alternating (f : nat -> nat -> nat -> K) : Prop := forall a b c, f b c a = f a b c /\ f b a c = - f a b c.
Fixpoint total (l : seq K) : K := if l is x :: r then x + total r else 0.
(** the sides of a tetrahedron, oriented outwards if the tetrahedron is positive *)
Definition around (f : nat -> nat -> nat -> K) (t : nat * nat * nat * nat) : K :=
  let '(a, b, c, d) := t in f b c d + f a d c + f a b d + f a c b.
(** the triangles are the boundary of the tetrahedra: interior sides cancel *)
Definition encloses (tris : seq (nat * nat * nat)) (tets : seq (nat * nat * nat * nat)) : Prop :=
  forall f, alternating f -> total [seq f t.1.1 t.1.2 t.2 | t <- tris] = total [seq around f t | t <- tets].
(** positions of points of 3-space as the rows of a matrix *)
Definition coords (p : K * K * K) : seq K := [:: p.1.1; p.1.2; p.2].
Definition points (m : nat) (l : seq (K * K * K)) : 'M[K]_(m, 3) := \matrix_(i, j) nth 0 (coords (nth (0, 0, 0) l i)) j.
(** the same in the plane *)
Definition points2 (m : nat) (l : seq (K * K)) : 'M[K]_(m, 2) := \matrix_(i, j) nth 0 (let p := nth (0, 0) l i in [:: p.1; p.2]) j.
End Chains.
