(** Geometry of the unit sphere, independent of the code. *)
Require Import Reals List.
Import ListNotations.
Local Open Scope R_scope.

(** inner product of two vectors, as the sum over the coordinates 0 .. n-1 *)
Fixpoint sum_to (n : nat) (f : nat -> R) : R := match n with O => 0 | S k => sum_to k f + f k end.
Definition inner (a b : list R) : R := sum_to (length a) (fun i => nth i a 0 * nth i b 0).
(** a point of the unit sphere in n-space *)
Definition on_sphere (n : nat) (a : list R) : Prop := length a = n /\ inner a a = 1.
(** the opposite point *)
Definition opposite (a : list R) : list R := map Ropp a.
(** [p] is x times [a] plus y times [b] *)
Definition combination (x : R) (a : list R) (y : R) (b : list R) (p : list R) : Prop :=
  length p = length a /\ length b = length a /\ forall i, nth i p 0 = x * nth i a 0 + y * nth i b 0.
(** [p] is strictly between [a] and [b] on the arc of a great circle that joins them *)
Definition between (a p b : list R) : Prop := exists x y, 0 < x /\ 0 < y /\ combination x a y b p.
(** [p] is inside of the spherical triangle a b c *)
Definition inside (a b c p : list R) : Prop := exists x y z, 0 < x /\ 0 < y /\ 0 < z /\
  length p = length a /\ forall i, nth i p 0 = x * nth i a 0 + y * nth i b 0 + z * nth i c 0.
(** the vectors to the three points are linearly independent: the points are not on one great circle *)
Definition independent (a b c : list R) : Prop :=
  forall x y z, (forall i, x * nth i a 0 + y * nth i b 0 + z * nth i c 0 = 0) -> x = 0 /\ y = 0 /\ z = 0.
(** [theta] is the angle between two vectors that are not zero *)
Definition is_angle (u v : list R) (theta : R) : Prop :=
  0 <= theta <= PI /\ inner u v = sqrt (inner u u) * sqrt (inner v v) * cos theta.
(** [u] is the tangent at the point [a] of the sphere in the direction of [b] *)
Definition tangent (a b u : list R) : Prop := combination 1 b (- inner a b) a u.
(** [theta] is the angle at corner [a] of the spherical triangle a b c: the angle between the tangents to its sides *)
Definition corner_angle (a b c : list R) (theta : R) : Prop :=
  exists u v, tangent a b u /\ tangent a c v /\ is_angle u v theta.
(** squared distance of two points *)
Definition distance2 (a b : list R) : R := sum_to (length a) (fun i => (nth i a 0 - nth i b 0) * (nth i a 0 - nth i b 0)).
(** [q] is as far from one of the points as from the others *)
Definition equidistant (q : list R) (pts : list (list R)) : Prop :=
  forall p p', In p pts -> In p' pts -> distance2 q p = distance2 q p'.
(** determinant of three vectors of 3-space; positive when a, b, c run counterclockwise as seen from outside *)
Definition det3 (a b c : list R) : R :=
  let a0 := nth 0 a 0 in let a1 := nth 1 a 0 in let a2 := nth 2 a 0 in
  let b0 := nth 0 b 0 in let b1 := nth 1 b 0 in let b2 := nth 2 b 0 in
  let c0 := nth 0 c 0 in let c1 := nth 1 c 0 in let c2 := nth 2 c 0 in
  a0 * (b1 * c2 - b2 * c1) - a1 * (b0 * c2 - b2 * c0) + a2 * (b0 * c1 - b1 * c0).
