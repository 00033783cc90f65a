(** Faces of cubes for the averaging operators, independently of the code. *)
Require Import List ZArith.
From Verif Require Import CubeSpec.
Import ListNotations.

(** [e] is, up to mirroring and exchanging axes, a k-dimensional face of the n-cube [c]. *)
Definition face_of_cube (k n : nat) (c e : list nat) : Prop := exists g s, subcube k n c g /\ related k s g e.
