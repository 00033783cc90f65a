(** Model of pycomplex/stencil/block.py and of System.canonical / System.normal in
    pycomplex/stencil/linear_system.py.  A block operator is a list of rows of operators, a block vector a list
    of arrays; numpy's object-array container (block.py:12-29) is not modelled. *)
Require Import List Arith Bool.
From Verif Require Import Util Arr StModel OpModel.
Import ListNotations.

Section Blk.
Variable K : cring.
Variables near0 near1 : array K -> bool.
Notation bop := (list (list (op K))).
Notation bvec := (list (array K)).

(** [self.block[i, 0].shape[0]] for each row (block.py:267, 280) and [other.block[0, i].shape[1]] (block.py:268). *)
Definition row_shape (row : list (op K)) : result (list nat) :=
  match row with [] => Err IndexError | o :: _ => Ok (fst (oshape K o)) end.
Definition col_shapes (B : bop) : result (list (list nat)) :=
  match B with [] => Err IndexError | row :: _ => Ok (map (fun o => snd (oshape K o)) row) end.

(** block.py:279-288 [vector_mul], one row. *)
Fixpoint row_mul (acc : array K) (row : list (op K)) (x : bvec) : result (array K) :=
  match row with
  | [] => Ok acc
  | o :: r =>
      if isZero K o then row_mul acc r (tl x)
      else match x with
           | [] => Err IndexError
           | v :: _ => do y <- ocall K o v; do s <- badd K acc y; row_mul s r (tl x)
           end
  end.
Definition vector_mul (A : bop) (x : bvec) : result bvec :=
  do L <- mapM row_shape A;
  mapM (fun p => row_mul (zeros K (snd p)) (fst p) x) (combine A L).

(** block.py:272-277, all columns [k] for one [i] and [j]; [acc] is [output[i, :]]. *)
Fixpoint add_products (o : op K) (acc brow : list (op K)) : result (list (op K)) :=
  match acc, brow with
  | a :: acc', b :: brow' =>
      do p <- op_mul K near0 near1 o b; do s <- op_add K near0 near1 a p; do r <- add_products o acc' brow'; Ok (s :: r)
  | _, _ => Ok []
  end.
Fixpoint row_matmul (acc : list (op K)) (row : list (op K)) (B : bop) : result (list (op K)) :=
  match row, B with
  | o :: r, brow :: B' =>
      do acc' <- (if isZero K o then Ok acc else add_products o acc brow);
      row_matmul acc' r B'
  | _, _ => Ok acc
  end.
(** block.py:247-277 [__mul__] of two block operators; the blocks are rectangular. *)
Definition matmul (A B : bop) : result bop :=
  if forallb (fun row => length row =? length B) A then
    do L <- mapM row_shape A; do R <- col_shapes B;
    mapM (fun p => row_matmul (map (fun r => OZero (snd p, r)) R) (fst p) B) (combine A L)
  else Err AssertionError.

(** block.py:57-67 [transpose] of a rectangular block operator with [n] columns. *)
Definition btranspose (A : bop) : result bop :=
  mapM (fun k => mapM (fun row => match nth_error row k with Some o => otranspose K o | None => Err IndexError end) A)
    (seq 0 (match A with [] => 0 | row :: _ => length row end)).

(** block.py:106-107 *)
Definition bsimplify (A : bop) : result bop := mapM (mapM (osimplify K near0 near1)) A.

(** block.py:180-188 [zeros]; 190-195 [identity]. *)
Definition bzeros (L R : list (list nat)) : bop := map (fun l => map (fun r => OZero (l, r)) R) L.
Definition set_nth {A} (n : nat) (v : A) (l : list A) : list A :=
  map (fun p => if fst p =? n then v else snd p) (combine (seq 0 (length l)) l).
(** block.py:119-151 [__setitem__] with an operator value, and with the value 1. *)
Definition bset (A : bop) (i j : nat) (v : op K) : result bop :=
  match nth_error A i with
  | None => Err IndexError
  | Some row => match nth_error row j with
    | None => Err IndexError
    | Some old => if shapes_eqb (oshape K old) (oshape K v) then Ok (set_nth i (set_nth j v row) A) else Err RuntimeError
    end
  end.
Definition bset_one (A : bop) (i j : nat) : result bop :=
  match nth_error A i with
  | None => Err IndexError
  | Some row => match nth_error row j with
    | None => Err IndexError
    | Some old => if list_eqb (fst (oshape K old)) (snd (oshape K old))
                  then Ok (set_nth i (set_nth j (OId (fst (oshape K old))) row) A) else Err RuntimeError
    end
  end.
Fixpoint foldM {A B} (f : A -> B -> result A) (l : list B) (a : A) : result A :=
  match l with [] => Ok a | x :: r => do b <- f a x; foldM f r b end.
Definition bidentity (L : list (list nat)) : result bop :=
  foldM (fun A i => bset_one A i i) (seq 0 (length L)) (bzeros L L).

(** linear_system.py:44-129 [canonical]: the operator A.  [hv n] is the hodge value scale ** (ndim - 2 n)
    (complex.py:85-88); topology.py:71-147 for the derivatives. *)
Definition hodge (hv : nat -> K) (t : stopo) (n : nat) : op K := OHodge (mkArr [] (fun _ => hv n)) (st_n_elements t n).
Definition canonical (empty : nat -> list nat -> K) (hv : nat -> K) (t : stopo) : result bop :=
  do Tp <- st_primal K empty t; do Td <- st_dual K empty t;
  let N := S (length (st_shape t)) in
  let NE := map (st_n_elements t) (seq 0 N) in
  do A <- foldM (fun A p => match p with (i, (tp, td)) =>
            do u <- op_mul K near0 near1 (hodge hv t (i + 1)) (ODeriv tp);
            do A1 <- bset A (i + 1) i u;
            do v <- op_mul K near0 near1 (ODual td) (hodge hv t (i + 1));
            bset A1 i (i + 1) v end)
          (combine (seq 0 (length Tp)) (combine Tp Td)) (bzeros NE NE);
  foldM (fun A i => bset A i i (hodge hv t i)) (seq 0 N) A.

(** linear_system.py:154-168 [normal]: the operator A. *)
Definition normal (A : bop) : result bop := do AT <- btranspose A; do P <- matmul AT A; bsimplify P.

(** ---- dense conversion ---- *)
Definition flatten (a : array K) : list K := map (aget a) (indices (ashape a)).
(** block.py:153-155 [to_dense] of a vector of at least one block. *)
Definition to_dense (x : bvec) : list K := concat (map flatten x).
(** np.split(x, indices): consecutive python slices. *)
Definition slice (x : list K) (a b : nat) : list K := firstn (b - a) (skipn a x).
Fixpoint np_split (x : list K) (start : nat) (idx : list nat) : list (list K) :=
  match idx with [] => [skipn start x] | i :: r => slice x start i :: np_split x i r end.
(** s.reshape(shape) of a vector. *)
Definition reshape1 (dflt : K) (s : list K) (shape : list nat) : result (array K) :=
  if length s =? size shape then Ok (mkArr shape (fun i => nth (ravel shape i) s dflt)) else Err ValueError.
(** block.py:157-164 [from_dense]; the template is given by its block shapes. *)
Definition from_dense (tmpl : list (list nat)) (x : list K) : result bvec :=
  let splits := map size tmpl in
  if fold_right Nat.add 0 splits =? length x then
    mapM (fun p => reshape1 r0 (fst p) (snd p)) (combine (np_split x 0 (removelast splits)) tmpl)
  else Err AssertionError.

(** ---- block.py:208-245 [diagonal] of one diagonal block ---- *)
Definition pattern (shape : list nat) (c : nat) (sign : bool) : array K :=
  mkArr shape (fun i => match i with
    | c' :: r => if c' =? c then (if Bool.eqb sign (checkerboard r =? 1) then r1 else r0) else r0
    | [] => r0 end).
Definition diag_do (db : op K) (shape : list nat) (c : nat) : result (array K) :=
  let p := pattern shape c false in let a := pattern shape c true in
  do dp <- ocall K db p; do u <- bmul K dp p; do da <- ocall K db a; do v <- bmul K da a; badd K u v.
Definition diag_block (db : op K) : result (array K) :=
  let shape := snd (oshape K db) in
  do l <- mapM (diag_do db shape) (seq 0 (hd 0 shape));
  match l with [] => Err TypeError | a :: r => asum K a r end.
Definition bdiagonal (A : bop) : result bvec :=
  mapM (fun i => match nth_error A i with
    | Some row => match nth_error row i with Some o => diag_block o | None => Err IndexError end
    | None => Err IndexError end) (seq 0 (length A)).
End Blk.
