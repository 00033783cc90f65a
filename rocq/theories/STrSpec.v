(** A triangle mesh on the sphere and its loop subdivision, independent of the code. *)
Require Import Reals List Arith.
From Verif Require Import SphModel SphSpec.
Import ListNotations.
Local Open Scope R_scope.

Notation area := triangle_area_from_corners.
(** two arcs cross *)
Definition crosses (s0 e0 s1 e1 : list R) : Prop := exists x, between s0 x e0 /\ between s1 x e1.
(** A triangle a b c with a point between the ends of every side (m0 opposite to a, ..) and an inner point p. *)
Definition cut_triangle (a b c m0 m1 m2 p : list R) : Prop :=
  length a = 3%nat /\ length b = 3%nat /\ length c = 3%nat /\ independent a b c /\
  between b m0 c /\ between c m1 a /\ between a m2 b /\ inside a b c p.
Definition next (k : nat) : nat := ((k + 1) mod 3)%nat.
Definition prev (k : nat) : nat := ((k + 2) mod 3)%nat.

(** [p0 k] are the corners of the central one of the four triangles, with [p0 k] on the side of the coarse triangle that
    is opposite to its corner [k]; [p2] and [P] are the centres of the central triangle and of the coarse triangle.  The
    centre [p2] is in the dual cell of corner [m], and the arcs from the centres to the sides cross. *)
Definition central_position (p0 p1 : nat -> list R) (p2 P : list R) (m : nat) : Prop :=
  cut_triangle (p0 0%nat) (p0 1%nat) (p0 2%nat) (p1 0%nat) (p1 1%nat) (p1 2%nat) p2 /\
  inside (p0 0%nat) (p0 1%nat) (p0 2%nat) P /\ inside (p0 (prev m)) (p0 (next m)) P p2 /\
  crosses (p0 (prev m)) P (p1 (next m)) p2 /\ crosses (p0 (next m)) P (p1 (prev m)) p2.
(** the corners run counterclockwise as seen from outside *)
Definition counterclockwise (p0 : nat -> list R) : Prop := 0 < det3 (p0 0%nat) (p0 1%nat) (p0 2%nat).

(** the parts of the dual cell of corner [k] that are in the triangle with centre [p] *)
Definition cell_part (p0 p1 : nat -> list R) (p : list R) (k : nat) : R := area (p0 k) (p1 (next k)) p + area (p0 k) (p1 (prev k)) p.

(** The overlaps [w i j] in the central triangle of the coarse dual cell [i] and the fine dual cell [j]: the arcs that bound the
    cells cross in x and y and cut the triangle into pieces. *)
Definition pieces (p0 p1 : nat -> list R) (p2 P : list R) (m : nat) (w : nat -> nat -> R) : Prop :=
  let l := prev m in let r := next m in
  exists x y, between (p0 l) x P /\ between (p1 r) x p2 /\ between (p0 r) y P /\ between (p1 l) y p2 /\
    w l l = 0 /\ w r r = 0 /\ w r l = area (p0 l) (p1 r) x /\ w l r = area (p0 r) (p1 l) y /\
    w r m = area (p0 m) (p1 r) P + area P (p1 r) x /\ w l m = area (p0 m) (p1 l) P + area P (p1 l) y /\
    w m l = area (p0 l) (p1 m) p2 + area (p0 l) x p2 /\ w m r = area (p0 r) (p1 m) p2 + area (p0 r) y p2 /\
    w m m = area P x p2 + area P y p2.

(** sums over rows and columns of a sparse matrix *)
Definition row_sum (M : list (nat * nat * R)) (i : nat) : R := fold_right (fun e s => (if Nat.eqb (fst (fst e)) i then snd e else 0) + s) 0 M.
Definition col_sum (M : list (nat * nat * R)) (j : nat) : R := fold_right (fun e s => (if Nat.eqb (snd (fst e)) j then snd e else 0) + s) 0 M.
(** sum over a list *)
Definition total {A : Type} (f : A -> R) (l : list A) : R := fold_right (fun x s => f x + s) 0 l.

Section Subdivision.
(** Coarse triangles 0 .. N-1 with their corners; fine triangles with their corners and edges; their positions, the centres
    of the coarse triangles, and the coarse dual cells that hold the fine edge points and the fine centres. *)
Variable N : nat.
Variables corners : nat -> list nat.
Variables fcorners fedges : nat -> list nat.
Variables pos0 pos1 pos2 pos2c : nat -> list R.
Variables cell_of_edge cell_of_center : nat -> nat.
Definition fp0 (f k : nat) : list R := pos0 (nth k (fcorners f) 0%nat).
Definition fp1 (f k : nat) : list R := pos1 (nth k (fedges f) 0%nat).
Definition cp0 (c k : nat) : list R := pos0 (nth k (corners c) 0%nat).

(** Triangle c is cut into the central triangle 4c and the triangles 4c+1, 4c+2, 4c+3 at its corners. *)
Definition subdivision : Prop := forall c, (c < N)%nat ->
  length (corners c) = 3%nat /\ NoDup (corners c) /\
  (exists m, (m < 3)%nat /\ cell_of_center c = nth m (corners c) 0%nat /\ central_position (fp0 (4 * c)) (fp1 (4 * c)) (pos2 (4 * c)%nat) (pos2c c) m) /\
  forall r, (r < 3)%nat -> let f := (4 * c + 1 + r)%nat in
    fcorners f = [nth r (corners c) 0%nat; nth (prev r) (fcorners (4 * c)%nat) 0%nat; nth (next r) (fcorners (4 * c)%nat) 0%nat] /\
    cut_triangle (fp0 f 0%nat) (fp0 f 1%nat) (fp0 f 2%nat) (fp1 f 0%nat) (fp1 f 1%nat) (fp1 f 2%nat) (pos2 f) /\
    crosses (cp0 c r) (pos2c c) (fp0 (4 * c) (next r)) (fp0 (4 * c) (prev r)) /\
    forall k, (k < 3)%nat -> cell_of_edge (nth k (fedges f) 0%nat) = nth r (corners c) 0%nat.
(** the rows vertex, edge, triangle of the fundamental domains of a fine triangle, in any order *)
Definition domain_rows (f : nat) : list (list nat) := flat_map (fun k => [
  [nth k (fcorners f) 0; nth (next k) (fedges f) 0; f]; [nth k (fcorners f) 0; nth (prev k) (fedges f) 0; f]])%nat (seq 0 3).

(** the areas of the dual cells of a vertex of the fine and of the coarse mesh; the edge points of a coarse triangle are the
    corners of its central triangle *)
Definition fine_cell (v : nat) : R := total (fun f => total (fun k => if Nat.eqb (nth k (fcorners f) 0%nat) v then cell_part (fp0 f) (fp1 f) (pos2 f) k else 0) (seq 0 3)) (seq 0 (4 * N)).
Definition coarse_cell (v : nat) : R := total (fun c => total (fun k => if Nat.eqb (nth k (corners c) 0%nat) v then cell_part (cp0 c) (fp0 (4 * c)) (pos2c c) k else 0) (seq 0 3)) (seq 0 N).
End Subdivision.
