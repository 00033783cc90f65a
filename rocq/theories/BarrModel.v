(** Model of pycomplex/block.py: DenseBlockArray (split, merge), SparseBlockMatrix (__mul__, merge) and the part of
    BlockArray they use.  Entries live in an arbitrary commutative ring in place of floats.  Dense blocks are vectors
    (a one-dimensional array of blocks of one-dimensional arrays); nested blocks are not modelled. *)
Require Import List Arith Bool.
From Verif Require Import Util Arr.
Import ListNotations.

Section Barr.
Variable K : cring.
Notation vec := (list K).

(** The attribute [block] of a DenseBlockArray: a one-dimensional object array of vectors, or a two-dimensional
    object array of numbers, given by its rows. *)
Inductive dblock := D1 (l : list vec) | D2 (rows : list vec).
(** block.py:30-32, np.asarray(block, dtype=object) of a list of vectors: vectors of equal length are merged into a
    two-dimensional array.  An object array is kept as it is. *)
Definition from_list (l : list vec) : dblock :=
  match l with
  | [] => D1 []
  | v :: r => if forallb (fun w => length w =? length v) r then D2 l else D1 l
  end.

(** block.py:45-54 [shape]; taking index i of axis 1 gives a one-dimensional array, which has no shape[1]. *)
Definition dshape (b : dblock) : result (list (list nat)) :=
  match b with
  | D1 l => Ok [map (@length K) l]
  | D2 rows =>
      let m := length (hd [] rows) in
      if m =? 0 then Ok [map (fun _ => m) rows; []] else Err IndexError
  end.
Fixpoint cumsum (acc : nat) (l : list nat) : list nat :=
  match l with [] => [] | n :: r => (acc + n) :: cumsum (acc + n) r end.
(** x[a:b] *)
Definition pyslice (x : vec) (a b : nat) : vec := firstn (b - a) (skipn a x).
(** block.py:291-307 [split] of a vector; the blocks are stored as they are (lines 301-303). *)
Definition split (b : dblock) (x : vec) : result dblock :=
  do sh <- dshape b;
  match b with
  | D1 l =>
      let s := 0 :: cumsum 0 (hd [] sh) in
      Ok (D1 (map (fun c => pyslice x (nth c s 0) (nth (c + 1) s 0)) (seq 0 (length l))))
  | D2 rows => Ok (D2 (map (fun _ => []) rows))
  end.

(** np.block: vectors are concatenated; a nested list of numbers becomes a two-dimensional array; empty lists are
    rejected.  block.py:310-315 [merge]. *)
Inductive merged := M1 (v : vec) | M2 (rows : list vec).
Definition merge (b : dblock) : result merged :=
  match b with
  | D1 [] => Err ValueError
  | D1 l => Ok (M1 (concat l))
  | D2 rows => if existsb (fun r => length r =? 0) rows then Err ValueError else Ok (M2 rows)
  end.

(** A scipy.sparse matrix: its shape and its entries. *)
Record mat := mkMat { mr : nat; mc : nat; mg : nat -> nat -> K }.
Definition mat_mul (a b : mat) : result mat :=
  if mc a =? mr b then Ok (mkMat (mr a) (mc b) (fun i k => rsum (map (fun j => rmul (mg a i j) (mg b j k)) (seq 0 (mc a)))))
  else Err ValueError.
Definition mat_add (a b : mat) : result mat :=
  if (mr a =? mr b) && (mc a =? mc b) then Ok (mkMat (mr a) (mc a) (fun i j => radd (mg a i j) (mg b i j))) else Err ValueError.
Definition mat_vec (a : mat) (v : vec) : result vec :=
  if mc a =? length v then Ok (map (fun i => rsum (map (fun j => rmul (mg a i j) (nth j v r0)) (seq 0 (mc a)))) (seq 0 (mr a)))
  else Err ValueError.
(** Sum of two vectors with numpy's broadcasting. *)
Definition vec_add (a b : vec) : result vec :=
  if length a =? length b then Ok (map (fun p => radd (fst p) (snd p)) (combine a b))
  else if length a =? 1 then Ok (map (radd (hd r0 a)) b)
  else if length b =? 1 then Ok (map (fun u => radd u (hd r0 b)) a)
  else Err ValueError.

(** block.py:255-259: output[i, k] starts as the number 0, and 0 + first is [first].  Without terms the block of the
    result is that number; this is not modelled. *)
Fixpoint accumulate {T} (add : T -> T -> result T) (acc : T) (l : list (result T)) : result T :=
  match l with
  | [] => Ok acc
  | t :: r => do v <- t; do s <- add acc v; accumulate add s r
  end.
Definition contract {T} (add : T -> T -> result T) (l : list (result T)) : result T :=
  match l with [] => Err RuntimeError | t :: r => do v <- t; accumulate add v r end.

(** Blocks of a SparseBlockMatrix: a rectangular list of rows. *)
Definition cols (A : list (list mat)) : result nat :=
  match A with
  | [] => Err IndexError
  | row :: r => if forallb (fun w => length w =? length row) r then Ok (length row) else Err IndexError
  end.
Definition none : mat := mkMat 0 0 (fun _ _ => r0).
(** block.py:240-261 [__mul__] with a SparseBlockMatrix. *)
Definition smul (A B : list (list mat)) : result (list (list mat)) :=
  do q <- cols A; do s <- cols B;
  if q =? length B then
    mapM (fun row => mapM (fun k => contract mat_add (map (fun j => mat_mul (nth j row none) (nth k (nth j B []) none)) (seq 0 q))) (seq 0 s)) A
  else Err AssertionError.
(** block.py:240-261 [__mul__] with a DenseBlockArray whose block is an array of vectors. *)
Definition smul_vec (A : list (list mat)) (x : list vec) : result (list vec) :=
  do q <- cols A;
  if q =? length x then mapM (fun row => contract vec_add (map (fun j => mat_vec (nth j row none) (nth j x [])) (seq 0 q))) A
  else Err AssertionError.

(** scipy.sparse.bmat (block.py:268-271): the length of each block row is the first nonzero one, later blocks must
    agree; the entries of all blocks are collected. *)
Fixpoint blen (acc : nat) (l : list nat) : result nat :=
  match l with
  | [] => Ok acc
  | n :: r => if acc =? 0 then blen n r else if n =? acc then blen acc r else Err ValueError
  end.
Definition within_block (off len i : nat) : bool := (off <=? i) && (i <? off + len).
Definition bmat (A : list (list mat)) : result mat :=
  do q <- cols A;
  do rl <- mapM (fun row => blen 0 (map mr row)) A;
  do cl <- mapM (fun j => blen 0 (map (fun row => mc (nth j row none)) A)) (seq 0 q);
  let off l i := list_sum (firstn i l) in
  Ok (mkMat (list_sum rl) (list_sum cl) (fun r c =>
    rsum (map (fun i => rsum (map (fun j =>
      let a := nth j (nth i A []) none in
      if within_block (off rl i) (mr a) r && within_block (off cl j) (mc a) c then mg a (r - off rl i) (c - off cl j) else r0)
      (seq 0 q))) (seq 0 (length A))))).
End Barr.
Arguments D1 {K}. Arguments D2 {K}. Arguments M1 {K}. Arguments M2 {K}. Arguments mkMat {K}. Arguments mr {K}. Arguments mc {K}. Arguments mg {K}.
