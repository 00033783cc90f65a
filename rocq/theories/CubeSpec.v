(** Oriented cubes, independently of the code. *)
Require Import List Arith ZArith Bool Permutation.
From Verif Require Import Util.
Import ListNotations.

(** Position in C order of the multi-index [bs] of an array of shape (2,) * n, and the entry there. *)
Definition position (bs : list bool) : nat := fold_left (fun k (b : bool) => 2 * k + (if b then 1 else 0)) bs 0.
Definition corner (c : list nat) (bs : list bool) : nat := nth (position bs) c 0.

(** The index with entry [s] added as index number [a]; with index [a] reversed; with [a] and [a+1] exchanged. *)
Definition with_bit (a : nat) (s : bool) (bs : list bool) : list bool := firstn a bs ++ s :: skipn a bs.
Definition reversed (a : nat) (bs : list bool) : list bool := firstn a bs ++ negb (nth a bs false) :: skipn (S a) bs.
Definition exchanged (a : nat) (bs : list bool) : list bool :=
  firstn a bs ++ nth (S a) bs false :: nth a bs false :: skipn (S (S a)) bs.

(** [d] is the face of the n-cube [c] on side [s] of axis [a]. *)
Definition is_slice (n a : nat) (s : bool) (c d : list nat) : Prop :=
  length d = 2 ^ (n - 1) /\ forall bs, length bs = n - 1 -> corner d bs = corner c (with_bit a s bs).
(** [d] is [c] mirrored along axis [a]; [d] is [c] with axes [a] and [a+1] exchanged. *)
Definition mirrored (n a : nat) (c d : list nat) : Prop :=
  length d = 2 ^ n /\ forall bs, length bs = n -> corner d bs = corner c (reversed a bs).
Definition axes_swapped (n a : nat) (c d : list nat) : Prop :=
  length d = 2 ^ n /\ forall bs, length bs = n -> corner d bs = corner c (exchanged a bs).

(** [d] arises from [c] by mirroring and exchanging axes; [s] is the resulting change of orientation. *)
Inductive related (n : nat) : Z -> list nat -> list nat -> Prop :=
| related_refl c : related n 1 c c
| related_mirror a s c d e : related n s c d -> a < n -> mirrored n a d e -> related n (- s) c e
| related_swap a s c d e : related n s c d -> S a < n -> axes_swapped n a d e -> related n (- s) c e.

(** A quantity on n-cubes that changes sign with the orientation. *)
Definition cube_antisymmetric (n : nat) (f : list nat -> Z) : Prop :=
  forall a c d, length c = 2 ^ n ->
    (a < n -> mirrored n a c d -> f d = (- f c)%Z) /\ (S a < n -> axes_swapped n a c d -> f d = (- f c)%Z).

(** A non-empty array of n-cubes with distinct corners. *)
Definition cubes_ok (n : nat) (rows : list (list nat)) : Prop :=
  rows <> [] /\ Forall (fun c => length c = 2 ^ n /\ NoDup c) rows.

(** [f] is a k-dimensional face of the n-cube [c], n >= k, taken by slicing axes. *)
Inductive subcube (k : nat) : nat -> list nat -> list nat -> Prop :=
| subcube_refl c : subcube k k c c
| subcube_slice n a s c d f : a <= n -> is_slice (S n) a s c d -> subcube k n d f -> subcube k (S n) c f.

(** Any two k-dimensional faces with the same corners differ only by mirroring and exchanging axes. *)
Definition faces_match (k n : nat) (rows : list (list nat)) : Prop :=
  forall c d f g, In c rows -> In d rows -> subcube k n c f -> subcube k n d g -> Permutation f g -> exists s, related k s f g.

(** Number of the multi-index [x] in an array of the given shape, C order; the shape's size; adding a corner. *)
Fixpoint flat (shape x : list nat) : nat :=
  match shape, x with
  | _ :: r, i :: y => i * fold_right Nat.mul 1 r + flat r y
  | _, _ => 0
  end.
Definition size (shape : list nat) : nat := fold_right Nat.mul 1 shape.
Definition within (shape x : list nat) : Prop := Forall2 (fun i m => i < m) x shape.
Definition moved (x : list nat) (bs : list bool) : list nat := map (fun xb : nat * bool => fst xb + (if snd xb then 1 else 0)) (combine x bs).
