(** Model of pycomplex/complex/simplicial/euclidian.py 515-604: triangles in 3-space (normals, volume, area, centre of mass),
    and of pycomplex/complex/cubical.py 348-367: closed lines in the plane.  Coordinates are elements of an ordered field
    with square roots in place of floats.  A mesh is its list of triangles, [topology.elements[2]], and the function from
    vertex numbers to positions; incidence[2, 0] and corners[2] are that same list (topology/primal.py 79-98). *)
From mathcomp Require Import all_ssreflect all_algebra.
From Verif Require Import GeoModel.
From Verif Require Util.
Import GRing.Theory Num.Theory.
Local Open Scope ring_scope.

Section Surf.
Variable K : rcfType.
Definition vec : Type := (K * K * K)%type.
Definition vadd (a b : vec) : vec := (a.1.1 + b.1.1, a.1.2 + b.1.2, a.2 + b.2).
Definition vsub (a b : vec) : vec := (a.1.1 - b.1.1, a.1.2 - b.1.2, a.2 - b.2).
Definition vscale (c : K) (a : vec) : vec := (c * a.1.1, c * a.1.2, c * a.2).
Definition vdot (a b : vec) : K := a.1.1 * b.1.1 + a.1.2 * b.1.2 + a.2 * b.2.
Definition vzero : vec := (0, 0, 0).
Definition vsum (l : seq vec) : vec := foldr vadd vzero l.
Definition sum (l : seq K) : K := foldr +%R 0 l.
(** np.cross *)
Definition cross (a b : vec) : vec := (a.1.2 * b.2 - a.2 * b.1.2, a.2 * b.1.1 - a.1.1 * b.2, a.1.1 * b.1.2 - a.1.2 * b.1.1).
Definition norm (a : vec) : K := Num.sqrt (vdot a a).

Definition tri : Type := (nat * nat * nat)%type.
Section Mesh.
Variable tris : seq tri.
Variable pos : nat -> vec.

(** euclidian.py:518-528 [triangle_normals]: the differences of successive corners *)
Definition triangle_normal (t : tri) : vec := cross (vsub (pos t.1.2) (pos t.1.1)) (vsub (pos t.2) (pos t.1.2)).
Definition triangle_normals : seq vec := [seq triangle_normal t | t <- tris].
(** euclidian.py:530-531 [triangle_centroids] *)
Definition triangle_centroid (t : tri) : vec := vscale (3%:R^-1) (vadd (vadd (pos t.1.1) (pos t.1.2)) (pos t.2)).

(** euclidian.py:570-586 [volume]; the check that the surface is closed is commented out there; n_dim is 3 *)
Definition volume : K := sum [seq vdot (triangle_normal t) (triangle_centroid t) | t <- tris] / 3%:R / 2%:R.

(** euclidian.py:602-605 [area] *)
Definition area : K := sum [seq norm (triangle_normal t) | t <- tris] / 2%:R.

(** npi.group_by(I20.flatten()): the distinct vertices in increasing order; sums of the values repeated three times *)
Definition corners_of (t : tri) : seq nat := [:: t.1.1; t.1.2; t.2].
Definition used : seq nat := sort leq (undup (flatten [seq corners_of t | t <- tris])).
(** euclidian.py:533-548 [vertex_normals] *)
Definition vertex_normals : seq vec :=
  [seq vsum (flatten [seq [seq triangle_normal t | c <- corners_of t & c == v] | t <- tris]) | v <- used].
(** euclidian.py:550-557 [vertex_areas] *)
Definition vertex_areas : seq K :=
  [seq sum (flatten [seq [seq norm (triangle_normal t) | c <- corners_of t & c == v] | t <- tris]) / 3%:R | v <- used].

(** euclidian.py:593-598: the corners of a triangle and the origin *)
Definition tet (t : tri) : 'M[K]_(4, 3) :=
  \matrix_(i, j) let p := nth vzero [:: pos t.1.1; pos t.1.2; pos t.2; vzero] i in nth 0 [:: p.1.1; p.1.2; p.2] j.
Definition tet_volume (t : tri) : K := match unsigned_volume K 3 3 (tet t) with Util.Ok v => v | Util.Err _ => 0 end.
Definition tet_centroid (t : tri) : vec := vscale (4%:R^-1) (vadd (vadd (vadd (pos t.1.1) (pos t.1.2)) (pos t.2)) vzero).
(** euclidian.py:588-600 [center_of_mass]; None when the volumes add up to zero, so that the result is not a number *)
Definition center_of_mass : option vec :=
  let v := sum [seq tet_volume t | t <- tris] in
  if v == 0 then None else Some (vscale (v^-1) (vsum [seq vscale (tet_volume t) (tet_centroid t) | t <- tris])).
End Mesh.

(** cubical.py:348-367 [ComplexCubical1Euclidian2.volume]: a list of edges and positions in the plane; n_dim is 2.  The check
    that the line is closed is the parameter [closed]. *)
Definition edge_corners (pos : nat -> K * K) (e : nat * nat) : 'M[K]_2 :=
  \matrix_(i, j) let p := nth (0, 0) [:: pos e.1; pos e.2] i in nth 0 [:: p.1; p.2] j.
Definition curve_volume (closed : bool) (edges : seq (nat * nat)) (pos : nat -> K * K) : Util.result K :=
  if ~~ closed then Util.Err Util.ValueError
  else Util.Ok (sum [seq \sum_j segment_normals K 1 (edge_corners pos e) 0 j * (((edge_corners pos e) ord0 j + (edge_corners pos e) (lift ord0 ord0) j) / 2%:R) | e <- edges] / 2%:R).
End Surf.
