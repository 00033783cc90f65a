(** Axis-aligned boxes, nearest points and affine functions, written without the model's formulas. *)
Require Import List Arith ZArith Bool.
From Verif Require Import Util Arr LinModel Ofield SimpModel CubeModel.
Import ListNotations.

Section Spec.
Variable F : ofield.
Local Open Scope ring_scope'.
Definition at_most (x y : F) : Prop := fltb y x = false.
(** Corners at these positions span the box between [lo] and [hi]: along axis i they lie at lo[i] or at hi[i]
    according to the i-th index of the corner.  Axes may run in either direction. *)
Definition spans_box (n : nat) (pos : bits -> list F) (lo hi : list F) : Prop :=
  length lo = n /\ length hi = n /\ (forall i, i < n -> nth i lo r0 <> nth i hi r0) /\
  forall bs, length bs = n -> length (pos bs) = n /\ forall i, i < n -> nth i (pos bs) r0 = if nth i bs false then nth i hi r0 else nth i lo r0.
(** q is the nearest point to p in the box. *)
Definition nearest1 (a b x y : F) : Prop :=
  (at_most a b /\ ((at_most x a /\ y = a) \/ (at_most a x /\ at_most x b /\ y = x) \/ (at_most b x /\ y = b))) \/
  (at_most b a /\ ((at_most x b /\ y = b) \/ (at_most b x /\ at_most x a /\ y = x) \/ (at_most a x /\ y = a))).
Definition nearest (n : nat) (lo hi p q : list F) : Prop :=
  length q = n /\ forall i, i < n -> nearest1 (nth i lo r0) (nth i hi r0) (nth i p r0) (nth i q r0).
Definition inside (n : nat) (lo hi p : list F) : Prop := length p = n /\ nearest n lo hi p p.
Definition affine (n : nat) (k : F) (a : nat -> F) (p : list F) : F := k + rsum (map (fun i => a i * nth i p r0) (seq 0 n)).
Definition dist2 (n : nat) (p q : list F) : F := rsum (map (fun i => (nth i p r0 - nth i q r0) * (nth i p r0 - nth i q r0)) (seq 0 n)).
(** [query] finds one of the closest of the [centers]. *)
Definition closest (n : nat) (centers : list (list F)) (query : list F -> nat) : Prop :=
  forall p, query p < length centers /\ forall j, j < length centers -> at_most (dist2 n p (nth (query p) centers [])) (dist2 n p (nth j centers [])).
(** Boxes of one size, each pair in the same slab or in slabs without common inner points, along every axis. *)
Definition grid_boxes (n : nat) (boxes : list (list F * list F)) : Prop :=
  forall b, In b boxes -> forall i, i < n -> pos (nth i (snd b) r0 - nth i (fst b) r0) = true /\
    forall b', In b' boxes -> nth i (snd b) r0 - nth i (fst b) r0 = nth i (snd b') r0 - nth i (fst b') r0 /\
      (nth i (fst b) r0 = nth i (fst b') r0 \/ at_most (nth i (snd b) r0) (nth i (fst b') r0) \/ at_most (nth i (snd b') r0) (nth i (fst b) r0)).
(** x is an interpolation at p of the values at the corners of a box: constants are reproduced, no value outside the range of the
    corner values occurs, at a corner it is the value of the corner, and affine functions are evaluated at the nearest point of the box. *)
Record interpolates (n : nat) (pos : bits -> list F) (value : bits -> F) (lo hi p : list F) (x : F) : Prop := {
  ip_const : forall k, (forall bs, length bs = n -> value bs = k) -> x = k;
  ip_range : forall l h, (forall bs, length bs = n -> at_most l (value bs) /\ at_most (value bs) h) -> at_most l x /\ at_most x h;
  ip_corner : forall bs, length bs = n -> p = pos bs -> x = value bs;
  ip_affine : forall q k a, nearest n lo hi p q -> (forall bs, length bs = n -> value bs = affine n k a (pos bs)) -> x = affine n k a q }.
End Spec.
Arguments at_most {_}. Arguments spans_box {_}. Arguments nearest1 {_}. Arguments nearest {_}. Arguments inside {_}. Arguments affine {_}. Arguments interpolates {_}. Arguments dist2 {_}. Arguments closest {_}. Arguments grid_boxes {_}.
