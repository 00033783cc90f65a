(** Model of picking and sampling on regular (axis-aligned) cubical complexes: pycomplex/complex/regular.py:36-277,
    with exact arithmetic in an ordered field.  Arrays over points are lists; forms have one value per element. *)
Require Import List Arith ZArith Bool.
From Verif Require Import Util Arr LinModel Ofield SimpModel CubeModel.
Import ListNotations.

Section Samp.
Variable F : ofield.
Local Open Scope ring_scope'.
Notation point := (list F).

(** regular.py:55-57 and 133-135: first corner and diagonal to the last corner. *)
Definition map2 {A B C} (f : A -> B -> C) (l : list A) (m : list B) : list C := map (fun p => f (fst p) (snd p)) (combine l m).
Definition box_of (corners : list point) : point * point :=
  (nth 0 corners [], map2 rsub (last corners []) (nth 0 corners [])).
(** regular.py:59 and 137: corners.mean(axis=1), the points of the search tree. *)
Definition mean (l : list F) : F := fdiv (rsum l) (rsum (map (fun _ => r1) l)).
Definition centroid (n : nat) (corners : list point) : point := map (fun i => mean (map (fun c => nth i c r0) corners)) (seq 0 n).
(** regular.py:83-85 and 162-164; where a diagonal entry is zero numpy gives inf or nan. *)
Definition compute_baries (b : point * point) (p : point) : list F := map2 fdiv (map2 rsub p (fst b)) (snd b).

(** regular.py:62-104 pick_primal.  [query] is tree.query: the index of the closest centroid, which the code computes with
    scipy's cKDTree.  An index array out of range raises IndexError; negative guesses are not modelled. *)
Definition pick_primal (boxes : list (point * point)) (query : point -> nat) (points : list point) (cube : option (list nat))
  : result (list (nat * list F)) :=
  let at_ c p := compute_baries (nth c boxes ([], [])) p in
  let ask p := let c := query p in (c, at_ c p) in
  match cube with
  | None => Ok (map ask points)
  | Some cube =>
    if existsb (fun c => length boxes <=? c)%nat cube then Err IndexError else
    Ok (map2 (fun c p => let b := at_ c p in if existsb (fun x => fltb x r0) b then ask p else (c, b)) cube points)
  end.
(** regular.py:141-183 pick_fundamental; the name `domain` is only bound inside `if np.any(update)`. *)
Definition pick_fundamental (domains : list cube) (boxes : list (point * point)) (query : point -> nat) (points : list point)
  (domain_idx : option (list nat)) : result (list (cube * list F)) :=
  let at_ c p := compute_baries (nth c boxes ([], [])) p in
  let ask p := let c := query p in (nth c domains [], at_ c p) in
  match domain_idx with
  | None => Ok (map ask points)
  | Some idx =>
    if existsb (fun c => length boxes <=? c)%nat idx then Err IndexError else
    let outside c p := existsb (fun x => fltb x r0) (at_ c p) in
    if existsb id (map2 outside idx points)
    then Ok (map2 (fun c p => if outside c p then ask p else (nth c domains [], at_ c p)) idx points)
    else Err UnboundLocalError
  end.

(** np.clip(bary, 0, 1): regular.py:240, 267 *)
Definition clip01 (x : F) : F := if fltb x r0 then r0 else if fltb r1 x then r1 else x.
(** regular.py:245-246 and 274-275 *)
Definition bit (c : bool) : F := if c then r1 else r0.
Definition weight (bary : list F) (c : bits) : F :=
  fold_left rmul (map2 (fun b c => b * bit c + (r1 - b) * (r1 - bit c)) bary c) r1.
(** regular.py:242-247 and 271-276: [value c] is the value of the form at corner c. *)
Definition interpolate (n : nat) (bary : list F) (value : bits -> F) : F :=
  fold_left (fun total c => total + value c * weight bary c) (corners n) r0.

(** regular.py:250-277 sample_primal_0; incidence[-1, 0] is elements[-1] (topology/primal.py:91-98). *)
Definition primal_boxes (V : nat -> point) (cubes : list cube) : list (point * point) := map (fun c => box_of (map V c)) cubes.
Definition sample_primal_0 (n : nat) (V : nat -> point) (cubes : list cube) (query : point -> nat) (p0 : nat -> F) (points : list point) : result (list F) :=
  do picked <- pick_primal (primal_boxes V cubes) query points None;
  Ok (map (fun eb => interpolate n (map clip01 (snd eb)) (fun c => p0 (cget (nth (fst eb) cubes []) c))) picked).

(** regular.py:123-135: boxes of the fundamental domains; [PP k i] is the position of the i-th element of degree k. *)
Definition fundamental_boxes (n : nat) (PP : nat -> nat -> point) (domains : list cube) : list (point * point) :=
  map (fun d => box_of (map (fun c => PP (bit_sum c) (cget d c)) (corners n))) domains.
(** regular.py:202-217 average_dual: a * d0 for each averaging operator, given by its entries. *)
Definition average_dual (n0 : nat) (ops : list (nat -> nat -> F)) (d0 : nat -> F) : list (nat -> F) :=
  map (fun a i => rsum (map (fun j => a i j * d0 j) (seq 0 n0))) ops.
(** regular.py:219-248 sample_dual_0 *)
Definition sample_dual_0 (n n0 : nat) (ops : list (nat -> nat -> F)) (PP : nat -> nat -> point) (domains : list cube) (query : point -> nat)
  (d0 : nat -> F) (points : list point) : result (list F) :=
  let dual_forms := rev (average_dual n0 ops d0) in
  do picked <- pick_fundamental domains (fundamental_boxes n PP domains) query points None;
  Ok (map (fun db => interpolate n (map clip01 (snd db)) (fun c => nth (bit_sum c) dual_forms (fun _ => r0) (cget (fst db) c))) picked).
End Samp.
