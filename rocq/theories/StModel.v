(** Model of pycomplex/stencil/util.py and pycomplex/stencil/topology.py. *)
Require Import List Arith ZArith Bool.
From Verif Require Import Util CombModel SimpModel Arr.
Import ListNotations.

(** util.py:8-12 [pascal]; [depth] is the recursion limit, None the RecursionError. *)
Fixpoint pascal (depth : nat) (n k : Z) : option Z :=
  match depth with
  | 0 => None
  | S d => if (k =? 0)%Z || (k =? n)%Z then Some 1%Z
           else match pascal d (n - 1) (k - 1), pascal d (n - 1) k with
                | Some a, Some b => Some (a + b)%Z
                | _, _ => None
                end
  end.

(** util.py:100-106 [adjecent_pairs]; [truthy] is Python's [bool(j)]; the generator as a list. *)
Fixpoint pairs_from {A} (truthy : A -> bool) (j : option A) (l : list A) : list (A * A) :=
  match l with
  | [] => []
  | i :: r => match j with
              | Some x => if truthy x then [(x, i)] else []
              | None => []
              end ++ pairs_from truthy (Some i) r
  end.
Definition adjecent_pairs {A} (truthy : A -> bool) (l : list A) : list (A * A) := pairs_from truthy None l.

(** util.py:92-93 [checkerboard] at one index. *)
Definition checkerboard (idx : list nat) : nat := fold_right Nat.add 0 idx mod 2.

(** ---- util.py:23-76 [generate] ---- *)
Section WithRowOrder.
Variable row_leb : list nat -> list nat -> bool.

(** util.py:58 *)
Definition new_terms (ndim : nat) (syms : list (list nat)) : list (list nat) :=
  flat_map (fun d => flat_map (fun s => if existsb (Nat.eqb d) s then [] else [s ++ [d]]) syms) (seq 0 ndim).

(** npi.group_by(idx).split(values): the groups in the order of the sorted unique keys; the sort is
    stable.  Indexing the result with [..., :-1] needs groups of equal size. *)
Definition split {V} (keys : list (list nat)) (values : list V) : result (list (list V)) :=
  let g := map (fun u => map snd (filter (fun kv => list_eqb (fst kv) u) (combine keys values)))
               (unique_rows row_leb keys) in
  match g with
  | [] => Ok []
  | x :: r => if forallb (fun y => length y =? length x) r then Ok g else Err TypeError
  end.

(** tuple.index *)
Definition tuple_index (syms : list (list nat)) (s : list nat) : result nat :=
  let k := index_of list_eqb s syms in if k <? length syms then Ok k else Err ValueError.

Record level := mkLevel {
  lv_symbols : list (list nat); lv_terms : list (list nat); lv_axes : list (list nat); lv_parities : list (list nat)
}.
(** util.py:56-74, body of the loop. *)
Definition gen_level (ndim n : nat) (syms : list (list nat)) : result level :=
  let t := new_terms ndim syms in
  do parity <- mapM (fun r => relative_simplex_parity (S n) (argsort r)) t;
  let keys := map sort_row t in
  do gp <- split keys parity;
  do gt <- split keys t;
  do gi <- mapM (mapM (fun r => tuple_index syms (removelast r))) gt;
  Ok (mkLevel (unique_rows row_leb keys) gi (map (map (fun r => last r 0)) gt) gp).

Fixpoint gen_loop (ndim n : nat) (fuel : nat) (syms : list (list nat)) : result (list level) :=
  match fuel with
  | 0 => Ok []
  | S m => do l <- gen_level ndim n syms; do r <- gen_loop ndim (S n) m (lv_symbols l); Ok (l :: r)
  end.

(** util.py:52 and 76; symbols = 0-form symbol followed by those of each level. *)
Definition generate (ndim : nat) : result (list level) := gen_loop ndim 0 ndim [[]].
Definition gen_symbols (g : list level) : list (list (list nat)) := [[]] :: map lv_symbols g.

(** topology.py:12-18 *)
Record stopo := mkSt { st_shape : list nat; st_periodic : bool; st_levels : list level }.
Definition stencil_topology (shape : list nat) (periodic : bool) : result stopo :=
  do g <- generate (length shape); Ok (mkSt shape periodic g).
Definition st_symbols (t : stopo) := gen_symbols (st_levels t).

(** topology.py:41-50 *)
Definition st_n_elements (t : stopo) (n : nat) : list nat := length (nth n (st_symbols t) []) :: st_shape t.

(** topology.py:19-21, 23-31, 33-39 *)
Definition is_even (t : stopo) : bool := forallb Nat.even (st_shape t).
Definition coarse (t : stopo) : result stopo :=
  if is_even t then stencil_topology (map (fun s => s / 2) (st_shape t)) (st_periodic t) else Err AssertionError.
Definition fine (t : stopo) : result stopo := stencil_topology (map (fun s => s * 2) (st_shape t)) (st_periodic t).

End WithRowOrder.

(** ---- derivative operators ---- *)
Section Ring.
Variable K : cring.
Local Open Scope ring_scope'.

Notation field := (list nat -> K).

Fixpoint set_at (a v : nat) (idx : list nat) : list nat :=
  match idx, a with
  | [], _ => []
  | _ :: r, 0 => v :: r
  | x :: r, S b => x :: set_at b v r
  end.

(** scipy.ndimage.convolve1d / correlate1d with two weights and mode='wrap' (topology.py:81-84):
    convolve1d uses the entry itself and the next one, correlate1d the previous one and the entry. *)
Definition next_idx (shape : list nat) (a : nat) (idx : list nat) : list nat :=
  set_at a ((nth a idx 0 + 1) mod nth a shape 0) idx.
Definition prev_idx (shape : list nat) (a : nat) (idx : list nat) : list nat :=
  set_at a ((nth a idx 0 + (nth a shape 0 - 1)) mod nth a shape 0) idx.
Definition convolve1d (shape : list nat) (a : nat) (w : K * K) (f : field) : field :=
  fun idx => snd w * f idx + fst w * f (next_idx shape a idx).
Definition correlate1d (shape : list nat) (a : nat) (w : K * K) (f : field) : field :=
  fun idx => fst w * f (prev_idx shape a idx) + snd w * f idx.

(** topology.py:97, 113 *)
Definition weights (p : nat) : K * K := if p =? 0 then (r1, - r1) else (- r1, r1).

(** The loop over components with the [initialized] flags, topology.py:88-101 and 104-117: the first
    contribution to a component overwrites the uninitialised memory [empty], later ones are added. *)
Definition loop_step (st : (nat -> field) * (nat -> bool)) (cx : nat * field) : (nat -> field) * (nat -> bool) :=
  let (d, ini) := st in
  let (c, x) := cx in
  (fun k => if k =? c then (if ini c then fun idx => d c idx + x idx else x) else d k,
   fun k => if k =? c then true else ini k).
Definition run_loop (empty : nat -> field) (steps : list (nat * field)) : nat -> field :=
  fst (fold_left loop_step steps (empty, fun _ => false)).

(** zip(terms, axes, parities) with the component number, and the inner zip: (c, t, a, p). *)
Definition zip3 {A B C} (a : list A) (b : list B) (c : list C) : list (A * B * C) := combine (combine a b) c.
Definition term_list (l : level) : list (nat * nat * nat * nat) :=
  flat_map (fun cx => match cx with (c, (T, A, P)) => map (fun tap => match tap with (t, a, p) => (c, t, a, p) end) (zip3 T A P) end)
    (combine (seq 0 (length (lv_terms l))) (zip3 (lv_terms l) (lv_axes l) (lv_parities l))).

Definition component (f : array K) (c : nat) : field := fun idx => aget f (c :: idx).
Definition of_components (shape : list nat) (d : nat -> field) : array K :=
  mkArr shape (fun idx => match idx with c :: r => d c r | [] => r0 end).

(** topology.py:86-101 *)
Definition primal_inner (empty : nat -> field) (t : stopo) (n : nat) (f : array K) : array K :=
  let l := nth n (st_levels t) (mkLevel [] [] [] []) in
  of_components (st_n_elements t (S n)) (run_loop empty
    (map (fun q => match q with (c, tm, a, p) => (c, convolve1d (st_shape t) a (weights p) (component f tm)) end) (term_list l))).
(** topology.py:102-117 *)
Definition dual_inner (empty : nat -> field) (t : stopo) (n : nat) (f : array K) : array K :=
  let l := nth n (st_levels t) (mkLevel [] [] [] []) in
  of_components (st_n_elements t n) (run_loop empty
    (map (fun q => match q with (c, tm, a, p) => (tm, correlate1d (st_shape t) a (weights p) (component f c)) end) (term_list l))).

(** operator.py:8-80: a transposable operator with its two callables, and its call with the two
    shape assertions (operator.py:38-42). *)
Record sop := mkSop { so_left : array K -> array K; so_right : array K -> array K; so_shape : list nat * list nat }.
Definition shape_eqb := list_eqb.
Definition so_call (o : sop) (x : array K) : result (array K) :=
  if shape_eqb (ashape x) (snd (so_shape o)) then
    let r := so_right o x in
    if shape_eqb (ashape r) (fst (so_shape o)) then Ok r else Err AssertionError
  else Err AssertionError.
(** operator.py:23-28 *)
Definition so_transpose (o : sop) : sop := mkSop (so_right o) (so_left o) (snd (so_shape o), fst (so_shape o)).

(** topology.py:71-131 and 133-147; [zip(self.terms, ...)] has one entry per dimension. *)
Definition st_primal (empty : nat -> field) (t : stopo) : result (list sop) :=
  if st_periodic t then
    Ok (map (fun n => mkSop (dual_inner empty t n) (primal_inner empty t n) (st_n_elements t (S n), st_n_elements t n))
            (seq 0 (length (st_levels t))))
  else Err AssertionError.
Definition st_dual (empty : nat -> field) (t : stopo) : result (list sop) :=
  do p <- st_primal empty t; Ok (map so_transpose p).

(** ---- transfers ---- *)

(** C-order position of a multi-index, and its inverse. *)
Fixpoint ravel (shape idx : list nat) : nat :=
  match shape, idx with
  | n :: s, i :: r => i * fold_right Nat.mul 1 s + ravel s r
  | _, _ => 0
  end.
Fixpoint unravel (shape : list nat) (k : nat) : list nat :=
  match shape with
  | [] => []
  | n :: s => let m := fold_right Nat.mul 1 s in (k / m) :: unravel s (k mod m)
  end.
(** numpy reshape of a C-ordered array; the number of entries must agree. *)
Definition size (shape : list nat) : nat := fold_right Nat.mul 1 shape.
Definition reshape (a : array K) (shape : list nat) : result (array K) :=
  if size (ashape a) =? size shape
  then Ok (mkArr shape (fun idx => aget a (unravel (ashape a) (ravel shape idx))))
  else Err ValueError.

(** [c for a, b in zip(..) for c in (.., ..)] *)
Fixpoint interleave (a b : list nat) : list nat :=
  match a, b with x :: a', y :: b' => x :: y :: interleave a' b' | _, _ => [] end.

(** util.py:79-82 [binning]: reshape and take the mean over the odd axes.  [inv m] is 1/m. *)
Variable inv : nat -> K.
Definition binning (arr : array K) (steps : list nat) : result (array K) :=
  let big := map (fun ab => fst ab / snd ab) (combine (ashape arr) steps) in
  do r <- reshape arr (interleave big steps);
  Ok (mkArr big (fun idx => inv (size steps) * rsum (map (fun j => aget r (interleave idx j)) (indices steps)))).

(** f[skips] with slice(None, None, step) on each axis. *)
Definition skip_shape (shape steps : list nat) : list nat := map (fun ns => (fst ns + snd ns - 1) / snd ns) (combine shape steps).
Definition skip_idx (steps idx : list nat) : list nat := map (fun si => (fst si * snd si)%nat) (combine steps idx).
Definition skip (a : array K) (steps : list nat) : array K :=
  mkArr (skip_shape (ashape a) steps) (fun idx => aget a (skip_idx steps idx)).
(** a[skips] = b for a [b] of exactly that shape; numpy would also broadcast. *)
Definition assign_skip (a : array K) (steps : list nat) (b : array K) : result (array K) :=
  if list_eqb (ashape b) (skip_shape (ashape a) steps) then
    Ok (mkArr (ashape a) (fun idx =>
      if forallb (fun si => (snd si mod fst si =? 0)) (combine steps idx)
      then aget b (map (fun si => snd si / fst si) (combine steps idx)) else aget a idx))
  else Err ValueError.

Definition memb_axis (i : nat) (s : list nat) : bool := existsb (Nat.eqb i) s.
Definition bins (t : stopo) (s : list nat) : list nat := map (fun i => if memb_axis i s then 2 else 1) (seq 0 (length (st_shape t))).
Definition skips (t : stopo) (s : list nat) : list nat := map (fun i => if memb_axis i s then 1 else 2) (seq 0 (length (st_shape t))).

(** One component of topology.py:162-172 and of 174-191.  The strided view (topology.py:181-186) repeats
    entries along the inserted axes of stride 0; the buffer is the C-ordered component. *)
Definition bin_component (t : stopo) (s : list nat) (f : array K) : result (array K) :=
  binning (skip f (skips t s)) (bins t s).
Fixpoint evens (l : list nat) : list nat := match l with a :: _ :: r => a :: evens r | [a] => [a] | [] => [] end.
Definition tile_component (t : stopo) (s : list nat) (c : array K) : result (array K) :=
  let repeats := bins t s in
  let view := mkArr (interleave (ashape c) repeats) (fun idx => aget c (evens idx)) in
  do v <- reshape view (map (fun sr => (fst sr * snd sr)%nat) (combine (ashape c) repeats));
  assign_skip (mkArr (st_shape t) (fun _ => r0)) (skips t s) v.

(** The loops over components; writing [coarse[c] = ...] needs the shape of a coarse component. *)
Definition comp_arr (f : array K) (c : nat) : array K := mkArr (tl (ashape f)) (component f c).
Definition stack (n_comp : nat) (shape : list nat) (l : list (array K)) : result (array K) :=
  if forallb (fun a => list_eqb (ashape a) shape) l
  then Ok (mkArr (n_comp :: shape) (fun idx => match idx with c :: r => aget (nth c l (mkArr [] (fun _ => r0))) r | [] => r0 end))
  else Err ValueError.
Definition bin (t co : stopo) (n : nat) (f : array K) : result (array K) :=
  let syms := nth n (st_symbols t) [] in
  do l <- mapM (fun cs => bin_component t (snd cs) (comp_arr f (fst cs))) (combine (seq 0 (length syms)) syms);
  stack (length syms) (st_shape co) l.
Definition tile (t : stopo) (n : nat) (f : array K) : result (array K) :=
  let syms := nth n (st_symbols t) [] in
  do l <- mapM (fun cs => tile_component t (snd cs) (comp_arr f (fst cs))) (combine (seq 0 (length syms)) syms);
  stack (length syms) (st_shape t) l.

End Ring.
