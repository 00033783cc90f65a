(** Consistently oriented cubes, independently of the code. *)
Require Import List Arith ZArith Bool Permutation.
From Verif Require Import Util CubeSpec.
Import ListNotations.
Local Open Scope nat_scope.

(** Orientation that an n-cube induces on its face on side [s] of axis [a]. *)
Definition side_sign (a : nat) (s : bool) : Z := if Nat.odd (a + (if s then 1 else 0)) then (-1)%Z else 1%Z.

(** [f] is, up to mirroring and exchanging axes, a face of dimension n-1 of [c]. *)
Definition has_side (n : nat) (c f : list nat) : Prop :=
  exists a s g z, a < n /\ is_slice n a s c g /\ related (n - 1) z g f.

(** [c1] and [c2] induce opposite orientations on every common face. *)
Definition consistent_pair (n : nat) (c1 c2 : list nat) : Prop :=
  forall a1 s1 g1 a2 s2 g2 z, a1 < n -> a2 < n -> is_slice n a1 s1 c1 g1 -> is_slice n a2 s2 c2 g2 -> related (n - 1) z g1 g2 ->
    (side_sign a1 s1 * z = - side_sign a2 s2)%Z.
Definition consistent (n : nat) (rows : list (list nat)) : Prop :=
  forall j1 j2, j1 < length rows -> j2 < length rows -> j1 <> j2 -> consistent_pair n (nth j1 rows []) (nth j2 rows []).

(** No face belongs to three cubes. *)
Definition at_most_two (n : nat) (rows : list (list nat)) : Prop :=
  forall f j1 j2 j3, j1 < length rows -> j2 < length rows -> j3 < length rows ->
    has_side n (nth j1 rows []) f -> has_side n (nth j2 rows []) f -> has_side n (nth j3 rows []) f -> j1 = j2 \/ j1 = j3 \/ j2 = j3.

(** Two cubes share a face; chains of such cubes. *)
Definition adjacent (n : nat) (rows : list (list nat)) (j1 j2 : nat) : Prop :=
  j1 < length rows /\ j2 < length rows /\ j1 <> j2 /\ exists f, has_side n (nth j1 rows []) f /\ has_side n (nth j2 rows []) f.
Inductive linked (n : nat) (rows : list (list nat)) : nat -> nat -> Prop :=
| linked_refl : forall j, linked n rows j j
| linked_step : forall j1 j2 j3, linked n rows j1 j2 -> adjacent n rows j2 j3 -> linked n rows j1 j3.
Definition connected (n : nat) (rows : list (list nat)) : Prop := forall j, j < length rows -> linked n rows 0 j.

(** The same cube, or its mirror image along the first axis. *)
Definition same_or_mirrored (n : nat) (c d : list nat) : Prop := d = c \/ mirrored n 0 c d.

(** A face of exactly one of the cubes. *)
Definition boundary_face (n : nat) (rows : list (list nat)) (f : list nat) : Prop :=
  exists j, j < length rows /\ has_side n (nth j rows []) f /\
    forall j', j' < length rows -> has_side n (nth j' rows []) f -> j' = j.
