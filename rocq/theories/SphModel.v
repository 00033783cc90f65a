(** Model of pycomplex/geometry/spherical.py and of linalg.normalized (pycomplex/math/linalg.py:25-64).
    Coordinates are real numbers in place of floats, nan is [None]; one element instead of a batch of them. *)
Require Import Reals List Lra.
From Verif Require Import Util.
Import ListNotations.
Local Open Scope R_scope.

Definition vec := list R.

(** linalg.py:7-23 [dot]; vectors of different length are not modelled *)
Fixpoint dot (a b : vec) : R :=
  match a, b with
  | x :: a', y :: b' => x * y + dot a' b'
  | _, _ => 0
  end.
(** np.linalg.norm *)
Definition norm (v : vec) : R := sqrt (dot v v).
Definition vscale (k : R) (v : vec) : vec := map (fun x => k * x) v.
Fixpoint vadd (a b : vec) : vec :=
  match a, b with
  | x :: a', y :: b' => (x + y) :: vadd a' b'
  | _, _ => []
  end.
Definition vsub (a b : vec) : vec := vadd a (vscale (-1) b).
(** np.cross of vectors with three coordinates *)
Definition cross (a b : vec) : vec :=
  match a, b with
  | [a0; a1; a2], [b0; b1; b2] => [a1 * b2 - a2 * b1; a2 * b0 - a0 * b2; a0 * b1 - a1 * b0]
  | _, _ => []
  end.

(** linalg.py:25-64 with ignore_zeros=False: 0 / 0 is nan *)
Definition normalized (v : vec) : option vec :=
  if Req_EM_T (norm v) 0 then None else Some (map (fun x => x / norm v) v).
(** linalg.py:25-64 with ignore_zeros=True *)
Definition normalized_ignore_zeros (v : vec) : vec :=
  map (fun x => x / (if Req_EM_T (norm v) 0 then 1 else norm v)) v.

(** np.arccos: nan outside of [-1, 1] *)
Definition arccos (x : R) : option R :=
  if Rle_dec (-1) x then if Rle_dec x 1 then Some (acos x) else None else None.
(** np.clip(x, -1, 1) *)
Definition clip (x : R) : R := Rmin (Rmax x (-1)) 1.

(** spherical.py:8-21 [edge_length] *)
Definition edge_length (a b : vec) : option R := arccos (dot a b).

(** spherical.py:24-39 [triangle_area_from_normals]; edge_planes[p - 2] and edge_planes[p - 1] with python's negative
    indices.  After the clip the arccos is never nan. *)
Definition triangle_area_from_normals (e0 e1 e2 : vec) : R :=
  let n0 := normalized_ignore_zeros e0 in
  let n1 := normalized_ignore_zeros e1 in
  let n2 := normalized_ignore_zeros e2 in
  acos (- clip (dot n1 n2)) + acos (- clip (dot n2 n0)) + acos (- clip (dot n0 n1)) - PI.
(** spherical.py:42-55 [triangle_area_from_corners] *)
Definition triangle_area_from_corners (a b c : vec) : R :=
  triangle_area_from_normals (cross b c) (cross c a) (cross a b).

(** spherical.py:79-111 [unsigned_volume]; for other numbers of points the function returns None, on which the callers
    raise a TypeError. *)
Definition unsigned_volume (pts : list vec) : result (option R) :=
  match pts with
  | [a; b; c] => if Nat.eqb (length a) 3 then Ok (Some (Rabs (triangle_area_from_corners a b c))) else Err ValueError
  | [a; b] => Ok (edge_length a b)
  | [a] => Ok (Some 1)
  | _ => Err TypeError
  end.

(** spherical.py:114-118 [edge_circumcenter] *)
Definition edge_circumcenter (a b : vec) : option vec := normalized (vadd a b).
(** spherical.py:121-133 [triangle_circumcenter] for three corners in 3-space *)
Definition triangle_circumcenter (p0 p1 p2 : vec) : option vec :=
  normalized (cross (vsub p1 p2) (vsub p0 p1)).
(** spherical.py:136-159 [circumcenter]; the circumcenter of geometry/euclidian.py, see CircModel, is a parameter *)
Definition circumcenter (euclidian : list vec -> vec) (pts : list vec) : option vec :=
  match pts with
  | [a; b] => edge_circumcenter a b
  | [a] => Some a
  | _ => normalized (euclidian pts)
  end.
(** spherical.py:162-184 [intersect_edges] *)
Definition intersect_edges (s0 e0 s1 e1 : vec) : option vec :=
  normalized (cross (cross s0 e0) (cross s1 e1)).
