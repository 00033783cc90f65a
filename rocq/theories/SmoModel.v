(** Model of vertex smoothing and of the subdivision operator: pycomplex/complex/base.py, pycomplex/complex/cubical.py.
    Vertex positions are one coordinate, a list of exact rationals; the code treats the columns of the vertex array
    independently. *)
Require Import List Arith ZArith Bool QArith Qabs.
From Verif Require Import Util SimpModel BdryModel AvgModel CubeModel CDomModel.
Import ListNotations.
Local Open Scope nat_scope.

(** numpy mean *)
Definition mean (l : list Q) : Q := (sumQ l / inject_Z (Z.of_nat (length l)))%Q.

(** complex/cubical.py:36-44 [primal_position] *)
Definition primal_position (t : topology) (V : list Q) : list (list Q) :=
  map (map (fun c => mean (map (fun v => nth v V 0%Q) c))) (elements t).

(** The creases argument: items of the dict, chains as arrays.  None and {} are [].  Keys are not negative, and the
    other indices that smooth accepts in place of an array are not modelled. *)
Definition creases := list (nat * list Z).
(** np.flatnonzero *)
Definition flatnonzero (c : list Z) : list nat := filter (fun i => negb (nth i c 0%Z =? 0)%Z) (seq 0 (length c)).
Definition update {A} (k : nat) (x : A) (l : list A) : list A := firstn k l ++ x :: skipn (S k) l.

(** base.py:162-166: the crease elements per level; Ellipsis selects all rows. *)
Definition crease_index (t : topology) (cr : creases) : result (list (option (list nat))) :=
  fold_left (fun acc kc => do C <- acc; if fst kc <? length C then Ok (update (fst kc) (Some (flatnonzero (snd kc))) C) else Err IndexError)
    cr (Ok (repeat None (n_dim t) ++ [Some (seq 0 (n_elements t (n_dim t)))])).
(** base.py:171-176, one level: npi.group_by(corners).mean(centroids) and the assignment to the vertices found.
    An empty selection assigns nothing. *)
Definition smooth_level (lv : list (list nat) * option (list nat) * list Q) (acc : result (list Q)) : result (list Q) :=
  let '(corners, cr, centroids) := lv in
  do V <- acc;
  match cr with
  | None => Ok V
  | Some idx =>
      if existsb (fun i => length corners <=? i) idx then Err IndexError
      else
        let n_pts := length (hd [] corners) in
        let keys := concat (map (fun i => nth i corners []) idx) in
        let values := concat (map (fun i => repeat (nth i centroids 0%Q) n_pts) idx) in
        Ok (map (fun v =>
              match filter (fun kv : nat * Q => fst kv =? v) (combine keys values) with
              | [] => nth v V 0%Q
              | g => mean (map snd g)
              end) (seq 0 (length V)))
  end.
(** base.py:144-178 [smooth]; [PP] is self.primal_position. *)
Definition smooth (t : topology) (V : list Q) (PP : list (list Q)) (cr : creases) : result (list Q) :=
  do C <- crease_index t cr;
  fold_left (fun acc lv => smooth_level lv acc) (rev (combine (combine (elements t) C) PP)) (Ok V).

(** base.py:202-207: one 0/1 chain per level; assignment to C[n][:] broadcasts an array of length one. *)
Definition crease_flags (t : topology) (cr : creases) : result (list (list Z)) :=
  fold_left (fun acc kc => do C <- acc;
      if fst kc <? length C then
        let old := nth (fst kc) C [] in
        let new := map (fun z => if (z =? 0)%Z then 0%Z else 1%Z) (snd kc) in
        if length new =? length old then Ok (update (fst kc) new C)
        else if length new =? 1 then Ok (update (fst kc) (repeat (nth 0 new 0%Z) (length old)) C)
        else Err ValueError
      else Err IndexError)
    cr (Ok (map (fun k => repeat (if k =? n_dim t then 1%Z else 0%Z) (n_elements t k)) (seq 0 (length (elements t))))).
(** base.py:209-213: vertices influenced by the crease elements of one level. *)
Definition influence (n0 : nat) (corners : list (list nat)) (c : list Z) : list Z :=
  map (fun v => if existsb (fun e => negb (nth e c 0%Z =? 0)%Z && existsb (Nat.eqb v) (nth e corners [])) (seq 0 (length corners)) then 1%Z else 0%Z) (seq 0 n0).
(** base.py:214-217: every row masks all later rows. *)
Definition mask (a b : list Z) : list Z := map (fun v => if (nth v a 0 =? 0)%Z then nth v b 0%Z else 0%Z) (seq 0 (length b)).
Fixpoint override (k : nat) (S0 : list (list Z)) : list (list Z) :=
  match k with
  | 0 => S0
  | S k' => match S0 with [] => [] | a :: r => a :: override k' (map (mask a) r) end
  end.
Definition combined (t : topology) (A : list (nat -> nat -> Q)) (Sv : list (list Z)) (C : list (list Z)) (v u : nat) : Q :=
  sumQ (map (fun k => inject_Z (nth v (nth k Sv []) 0%Z) *
      sumQ (map (fun e => nth k A (fun _ _ => 0) e v * (inject_Z (nth e (nth k C []) 0%Z) * nth k A (fun _ _ => 0) e u)) (seq 0 (n_elements t k))))
    (seq 0 (length Sv)))%Q.
(** base.py:180-221 [smooth_operator]; rows without entries stay without entries. *)
Definition smooth_operator (t : topology) (cr : creases) : result (nat -> nat -> Q) :=
  do C <- crease_flags t cr;
  let n0 := n_elements t 0 in
  let Sv := override (length (elements t) - 1) (map (fun ec => influence n0 (fst ec) (snd ec)) (combine (elements t) C)) in
  do A <- averaging_operators_0 t;
  do A <- mapM (fun a => match a with Some f => Ok f | None => Err TypeError end) A;
  match normalize_l1 Qabs n0 n0 1 (combined t A Sv C) with
  | Some M => Ok M
  | None => Err TypeError
  end.
(** A matrix of [r] rows applied to positions. *)
Definition apply_operator (r : nat) (M : nat -> nat -> Q) (V : list Q) : list Q :=
  map (fun i => sumQ (map (fun j => M i j * nth j V 0)%Q (seq 0 (length V)))) (seq 0 r).

(** cubical.py:63-66 and 101-104: creases of the fine mesh. *)
Definition propagate (ms : list coo) (cr : creases) : result creases :=
  mapM (fun kc =>
    match nth_error ms (fst kc) with
    | None => Err IndexError
    | Some m => if ncols m =? length (snd kc)
        then Ok (fst kc, map (fun r => sumZ (map (fun i => entry m r i * nth i (snd kc) 0)%Z (seq 0 (ncols m)))) (seq 0 (nrows m)))
        else Err ValueError
    end) cr.
(** cubical.py:46-74 [subdivide_cubical]: topology and vertices of the fine mesh. *)
Definition subdivide_cubical_complex (row_leb : list nat -> list nat -> bool) (t : topology) (V : list Q) (cr : creases) (smoothing : bool) : result (topology * list Q) :=
  do r <- subdivide_cubical row_leb t;
  let '(s, _, ms) := r in
  let V' := concat (primal_position t V) in
  do cr' <- propagate ms cr;
  if smoothing then do W <- smooth s V' (primal_position s V') cr'; Ok (s, W) else Ok (s, V').

(** scipy.sparse.vstack of operators with the given numbers of rows. *)
Fixpoint vstack (blocks : list (nat * (nat -> nat -> Q))) (i j : nat) : Q :=
  match blocks with
  | [] => 0%Q
  | (r, M) :: rest => if i <? r then M i j else vstack rest (i - r) j
  end.
(** cubical.py:76-111 [subdivide_operator] *)
Definition subdivide_operator (row_leb : list nat -> list nat -> bool) (t : topology) (cr : creases) (smoothing : bool) : result (nat -> nat -> Q) :=
  do A <- averaging_operators_0 t;
  do A <- mapM (fun a => match a with Some f => Ok f | None => Err TypeError end) A;
  let coarse_averaging := vstack (combine (map (n_elements t) (seq 0 (length (elements t)))) A) in
  if smoothing then
    do r <- subdivide_cubical row_leb t;
    let '(s, _, ms) := r in
    do cr' <- propagate ms cr;
    do O <- smooth_operator s cr';
    Ok (fun i j => sumQ (map (fun k => O i k * coarse_averaging k j)%Q (seq 0 (n_elements s 0))))
  else Ok coarse_averaging.
