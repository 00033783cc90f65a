(** Model of pycomplex/stencil/multigrid.py, and of what it runs on: pycomplex/stencil/complex.py (coarse complex,
    hodge, smoothers, coarsen, refine), equation.py (residual, jacobi, overrelax, smooth) and diffusion.py. *)
Require Import List Arith Bool.
From Verif Require Import Util Arr StModel OpModel BlkModel.
Import ListNotations.

(** ---- multigrid.py, over any kind of equation [E] and vector [V] ---- *)
Section Cycle.
Variables E V : Type.
Variables residual smooth : E -> V -> V -> result V.
Variable solve : E -> V -> option V -> result V.
Variables restrict interpolate : E -> V -> result V.
Variable vsub : V -> V -> result V.
Variable vzero : V -> V.   (** [y * 0] *)
Variable coarse : E -> result E.

(** multigrid.py:40-82; here the finest equation comes first. *)
Fixpoint cycle (h : list E) (y : V) (x : option V) : result V :=
  match h with
  | [] => Err IndexError
  | fine :: h' =>
      let x := match x with Some x => x | None => vzero y end in
      match h' with
      | [] => solve fine y (Some x)
      | _ =>
          do x1 <- smooth fine x y;
          do fine_res <- residual fine x1 y;
          do coarse_res <- restrict fine fine_res;
          do coarse_error <- cycle h' coarse_res None;
          do fine_error <- interpolate fine coarse_error;
          do x2 <- vsub x1 fine_error;
          smooth fine x2 y
      end
  end.
Definition v_cycle (hierarchy : list E) (y : V) (x : option V) : result V := cycle (rev hierarchy) y x.

(** multigrid.py:85-104; without iterations the initial guess is returned as it is, also when it is None. *)
Fixpoint solve_v_cycle (hierarchy : list E) (y : V) (x : option V) (iterations : nat) : result (option V) :=
  match iterations with
  | 0 => Ok x
  | S n => do x' <- v_cycle hierarchy y x; solve_v_cycle hierarchy y (Some x') n
  end.

(** multigrid.py:107-145; the finest equation comes first. *)
Fixpoint full_cycle (h : list E) (y : V) (iterations : nat) : result (option V) :=
  match h with
  | [] => Err IndexError
  | fine :: h' =>
      match h' with
      | [] => do x <- solve fine y None; Ok (Some x)
      | _ =>
          do cy <- restrict fine y;
          do c <- full_cycle h' cy iterations;
          match c with
          | None => Err TypeError
          | Some c => do x <- interpolate fine c; solve_v_cycle (rev h) y (Some x) iterations
          end
      end
  end.
Definition solve_full_cycle (hierarchy : list E) (y : V) (iterations : nat) := full_cycle (rev hierarchy) y iterations.

(** multigrid.py:21-36 *)
Fixpoint grow (levels : nat) (h : list E) : result (list E) :=
  match levels with
  | 0 => Ok h
  | S n => match rev h with
    | [] => Err IndexError
    | e :: _ => do c <- coarse e; grow n (h ++ [c])
    end
  end.
Definition hierarchy (self : E) (levels : nat) : result (list E) := do h <- grow levels [self]; Ok (rev h).
End Cycle.

(** ---- complex.py, equation.py, diffusion.py ---- *)
Section Diffusion.
Variable K : cring.
Variables near0 near1 : array K -> bool.
Variable row_leb : list nat -> list nat -> bool.
Variable inv : nat -> K.       (** 1 / m *)
Variable kinv : K -> K.        (** 1 / v; at 0 an arbitrary value, where floats have an infinity *)
Variable empty : nat -> list nat -> K.
Local Open Scope ring_scope'.
Notation bop := (list (list (op K))).
Notation bvec := (list (array K)).

(** complex.py:26-32 and 44-51 *)
Record cplx := mkCx { cx_topo : stopo; cx_scale : K }.
Definition cx_coarse (c : cplx) : result cplx :=
  do t <- coarse row_leb (cx_topo c); Ok (mkCx t (cx_scale c + cx_scale c)).

(** scale ** (n_dim - n * 2), complex.py:86 *)
Fixpoint kpow (v : K) (n : nat) : K := match n with 0 => r1 | S m => v * kpow v m end.
Definition hodge_value (c : cplx) (n : nat) : K :=
  let d := length (st_shape (cx_topo c)) in
  if 2 * n <=? d then kpow (cx_scale c) (d - 2 * n) else kpow (kinv (cx_scale c)) (2 * n - d).
Definition cx_hodge (c : cplx) (n : nat) : op K := hodge K (hodge_value c) (cx_topo c) n.
(** operator.py:152-156 for a hodge. *)
Definition cx_hodge_inv (c : cplx) (n : nat) : op K := hodge K (fun n => kinv (hodge_value c n)) (cx_topo c) n.

(** ndimage.convolve1d with three symmetric weights and mode='wrap': [w] in the middle, [v] on both sides. *)
Definition convolve3 (shape : list nat) (a : nat) (v w : K) (f : list nat -> K) : list nat -> K :=
  fun idx => v * f (prev_idx shape a idx) + w * f idx + v * f (next_idx shape a idx).
(** complex.py:106-111 with util.py:85-89: [1, 2, 1] / 4 divided by its sum, or by its maximum. *)
Definition smooth_weights (scale : bool) : K * K := if scale then (inv 4, inv 2) else (inv 2, r1).
(** complex.py:113-125, the loop over directions for one component with symbol [s]. *)
Definition smooth_component (t : stopo) (scale : bool) (s : list nat) (f : list nat -> K) : list nat -> K :=
  fold_left (fun g i => if memb_axis i s then g else convolve3 (st_shape t) i (fst (smooth_weights scale)) (snd (smooth_weights scale)) g)
    (seq 0 (length (st_shape t))) f.
Definition smoother (t : stopo) (scale : bool) (n : nat) (f : array K) : array K :=
  mkArr (ashape f) (fun idx => match idx with
    | c :: r => smooth_component t scale (nth c (nth n (st_symbols t) []) []) (component K f c) r
    | [] => r0 end).

(** complex.py:137-153 and 155-171: [T * S] and its transpose [S * T.transpose()], called on an array (operator.py:40-44,
    245-250). *)
Definition coarsen (t co : stopo) (n : nat) (f : array K) : result (array K) :=
  checked K (st_n_elements co n, st_n_elements t n) f (fun f =>
    do s <- checked K (st_n_elements t n, st_n_elements t n) f (fun f => Ok (smoother t true n f));
    checked K (st_n_elements co n, st_n_elements t n) s (bin K inv t co n)).
Definition refine (t co : stopo) (n : nat) (f : array K) : result (array K) :=
  checked K (st_n_elements t n, st_n_elements co n) f (fun f =>
    do s <- checked K (st_n_elements t n, st_n_elements co n) f (tile K t n);
    checked K (st_n_elements t n, st_n_elements t n) s (fun s => Ok (smoother t false n s))).

(** Blockwise arithmetic of vectors with the same blocks (block.py:69-93); broadcasting is not modelled. *)
Definition asub (a b : array K) : result (array K) :=
  if list_eqb (ashape a) (ashape b) then Ok (mkArr (ashape a) (fun i => aget a i - aget b i)) else Err ValueError.
Definition zip_blocks (f : array K -> array K -> result (array K)) (x y : bvec) : result bvec :=
  if length x =? length y then mapM (fun p => f (fst p) (snd p)) (combine x y) else Err ValueError.
Definition bsub := zip_blocks asub.
Definition bmulv := zip_blocks (bmul K).
Definition bscale (k : K) (x : bvec) : bvec := map (fun a => mkArr (ashape a) (fun i => aget a i * k)) x.

(** linear_system.py:10-31 for the systems used here: the operators A and B and the degrees of rows and columns. *)
Record system := mkSys { sys_cx : cplx; sys_A : bop; sys_B : bop; sys_L : list nat; sys_R : list nat }.

(** equation.py:15-16 *)
Definition residual (s : system) (x y : bvec) : result bvec :=
  do ax <- vector_mul K (sys_A s) x; do b <- vector_mul K (sys_B s) y; bsub ax b.
(** linear_system.py:154-168 [normal]: both operators. *)
Definition normal_system (s : system) : result (bop * bop) :=
  do AT <- btranspose K (sys_A s);
  do P <- matmul K near0 near1 AT (sys_A s); do NA <- bsimplify K near0 near1 P;
  do Q <- matmul K near0 near1 AT (sys_B s); do NB <- bsimplify K near0 near1 Q;
  Ok (NA, NB).
(** equation.py:67-76 with block.py:98-99. *)
Definition inverse_normal_diagonal (s : system) : result bvec :=
  do N <- normal_system s; do D <- bdiagonal K (fst N);
  Ok (map (fun a => mkArr (ashape a) (fun i => kinv (aget a i))) D).
(** equation.py:106-114 *)
Definition jacobi (s : system) (x y : bvec) (relaxation : K) : result bvec :=
  do r <- residual s x y; do AT <- btranspose K (sys_A s); do ar <- vector_mul K AT r;
  do D <- inverse_normal_diagonal s; do q <- bmulv D ar;
  bsub x (bscale (relaxation * inv 2) q).
(** equation.py:147-160 *)
Definition overrelax (s : system) (x y : bvec) (knots : list K) : result bvec := foldM (fun x k => jacobi s x y k) knots x.
(** equation.py:162-172; np.linspace(1, 4, 3) is [1, 5/2, 4]. *)
Definition knots (base : K) : list K := map (fun k => k * base) [r1; (r1 + r1 + r1 + r1 + r1) * inv 2; r1 + r1 + r1 + r1].
Definition smooth (s : system) (x y : bvec) : result bvec := overrelax s x y (knots (inv 2)).

(** diffusion.py:32-69 *)
Record fields := mkFields { constraint : array K; conductance : array K; resistance : array K; foo : array K }.
Definition entry (A : bop) (i j : nat) : result (op K) :=
  match nth_error A i with
  | Some row => match nth_error row j with Some o => Ok o | None => Err IndexError end
  | None => Err IndexError
  end.
Definition slice2 (A : bop) : bop := map (firstn 2) (firstn 2 A).
Definition DO (d : array K) : op K := ODiag d (ashape d).
Definition aneg (a : array K) : array K := mkArr (ashape a) (fun i => - aget a i).
Definition formulate (c : cplx) (f : fields) : result system :=
  let t := cx_topo c in
  let N := S (length (st_shape t)) in
  do A <- canonical K near0 near1 empty (hodge_value c) t;
  do B <- bidentity K (map (st_n_elements t) (seq 0 N));
  let A := slice2 A in
  do a00 <- entry A 0 0; do v <- op_mul K near0 near1 a00 (DO (aneg (constraint f))); do A <- bset K A 0 0 v;
  do a01 <- entry A 0 1; do v <- op_mul K near0 near1 a01 (DO (conductance f)); do A <- bset K A 0 1 v;
  do a11 <- entry A 1 1; do v <- op_mul K near0 near1 a11 (DO (resistance f)); do A <- bset K A 1 1 v;
  do a10 <- entry A 1 0; do v <- op_mul K near0 near1 (DO (foo f)) a10; do A <- bset K A 1 0 v;
  Ok (mkSys c A (slice2 B) (firstn 2 (seq 0 N)) (firstn 2 (seq 0 N))).
Record diffusion := mkDiff { df_sys : system; df_fields : fields }.
Definition diffusion_formulate (c : cplx) (f : fields) : result diffusion := do s <- formulate c f; Ok (mkDiff s f).

(** diffusion.py:120-132 *)
Definition df_coarse (d : diffusion) : result diffusion :=
  let c := sys_cx (df_sys d) in let f := df_fields d in
  do co <- cx_coarse c;
  do f0 <- coarsen (cx_topo c) (cx_topo co) 0 (constraint f);
  do f1 <- coarsen (cx_topo c) (cx_topo co) 1 (conductance f);
  do f2 <- coarsen (cx_topo c) (cx_topo co) 1 (resistance f);
  do f3 <- coarsen (cx_topo c) (cx_topo co) 1 (foo f);
  diffusion_formulate co (mkFields f0 f1 f2 f3).

(** diffusion.py:142-146, 151-152 and 153-154. *)
Definition df_restrict (d : diffusion) (y : bvec) : result bvec :=
  let c := sys_cx (df_sys d) in
  do co <- cx_coarse c;
  mapM (fun p => do u <- ocall K (cx_hodge_inv c (fst p)) (snd p); do v <- coarsen (cx_topo c) (cx_topo co) (fst p) u;
                 ocall K (cx_hodge co (fst p)) v)
    (combine (sys_L (df_sys d)) y).
Definition df_interpolate (d : diffusion) (x : bvec) : result bvec :=
  let c := sys_cx (df_sys d) in
  do co <- cx_coarse c;
  mapM (fun p => refine (cx_topo c) (cx_topo co) (fst p) (snd p)) (combine (sys_R (df_sys d)) x).
Definition df_residual (d : diffusion) := residual (df_sys d).
Definition df_smooth (d : diffusion) := smooth (df_sys d).

(** multigrid.py on diffusion equations; [solve] is scipy's iterative solver on the coarsest level. *)
Variable solve : diffusion -> bvec -> option bvec -> result bvec.
Definition df_hierarchy := hierarchy diffusion df_coarse.
Definition df_v_cycle := v_cycle diffusion bvec df_residual df_smooth solve df_restrict df_interpolate bsub (bscale r0).
Definition df_solve_v_cycle := solve_v_cycle diffusion bvec df_residual df_smooth solve df_restrict df_interpolate bsub (bscale r0).
End Diffusion.
