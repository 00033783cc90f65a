(** Model of sampling dual 0-forms on simplicial complexes: pycomplex/complex/simplicial/base.py:19-23 [subdivide_fundamental],
    448-494 [pick_fundamental_precomp, pick_fundamental], 496-529 [sample_dual_0].  Numbers are elements of an arbitrary
    commutative ring in place of floats; forms have one value per element. *)
Require Import List Arith ZArith Bool.
From Verif Require Import Util Arr SimpModel BdryModel SubdModel.
Import ListNotations.

Section FSamp.
Variable F : cring.
Local Open Scope ring_scope'.
Notation point := (list F).
Variable row_leb : list nat -> list nat -> bool.
(** pick_primal of the subdivided complex with topology [sub] and vertices [V], which finds a simplex and barycentric coordinates
    (TreeModel, C83); its weights, which only steer the search, are not modelled *)
Variable pick : topology -> list point -> point -> nat * list F.

(** simplicial/base.py:19-23, 467-470: the topology and the vertices of the subdivided complex, and the domains *)
Definition pick_fundamental_precomp (t : topology) (PP : list (list point)) : result (topology * list point * list (list nat)) :=
  do sub <- subdivide_fundamental row_leb t true;
  do domains <- fundamental_domains t;
  Ok (sub, concat PP, domains).
(** simplicial/base.py:472-494 without a guess; for each point the index of the domain, its coordinates and the domain *)
Definition pick_fundamental (t : topology) (PP : list (list point)) (delaunay : bool) (points : list point) : result (list (nat * list F * list nat)) :=
  if negb delaunay then Err AssertionError else
  do pre <- pick_fundamental_precomp t PP;
  let '(sub, V, domains) := pre in
  let picked := map (pick sub V) points in
  if existsb (fun r => length domains <=? fst r)%nat picked then Err IndexError
  else Ok (map (fun r => (fst r, snd r, nth (fst r) domains [])) picked).
(** simplicial/base.py:519-522, of one row: the last two coordinates change places *)
Definition swap_last_two (bary : list F) : list F :=
  match rev bary with a :: b :: q => rev (b :: a :: q) | _ => bary end.
(** simplicial/base.py:513: a * d0; the averaging operators are given by their entries, [n0] is the length of d0 *)
Definition average (n0 : nat) (a : nat -> nat -> F) (d0 : nat -> F) : nat -> F := fun i => rsum (map (fun j => a i j * d0 j) (seq 0 n0)).
(** simplicial/base.py:496-529 *)
Definition sample_dual_0 (t : topology) (PP : list (list point)) (delaunay : bool) (n0 : nat) (averaging : list (nat -> nat -> F))
  (d0 : nat -> F) (points : list point) : result (list F) :=
  let dual_forms := rev (map (fun a => average n0 a d0) averaging) in
  do picked <- pick_fundamental t PP delaunay points;
  Ok (map (fun r => let '(domain_idx, b, domain) := r in
    let bary := if Nat.odd domain_idx then swap_last_two b else b in
    rsum (map (fun i => nth i dual_forms (fun _ => r0) (nth i domain 0%nat) * nth i bary r0) (seq 0 (S (n_dim t))))) picked).
End FSamp.
