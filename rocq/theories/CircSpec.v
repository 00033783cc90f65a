(** What a circumcentre is; nothing here mentions the model. *)
From mathcomp Require Import all_ssreflect all_algebra.
Import GRing.Theory Num.Theory.
Local Open Scope ring_scope.

Section Circ.
Variable K : rcfType.

(** the squared distance of a point to corner i, less the weight of that corner *)
Definition power (p n : nat) (pts : 'M[K]_(p, n)) (w : 'rV[K]_p) (c : 'I_n -> K) (i : 'I_p) : K := \sum_j (c j - pts i j) ^+ 2 - w 0 i.
(** the point with coordinates x with respect to the corners *)
Definition point (p n : nat) (pts : 'M[K]_(p, n)) (x : 'rV[K]_p) : 'I_n -> K := fun j => \sum_i x 0 i * pts i j.
(** coordinates that add up to one, of a point with the same power with respect to each corner *)
Definition centre (p n : nat) (pts : 'M[K]_(p, n)) (w : 'rV[K]_p) (x : 'rV[K]_p) : Prop :=
  \sum_i x 0 i = 1 /\ exists r, forall i, power p n pts w (point p n pts x) i = r.

(** lambda is an eigenvalue of A *)
Definition eigen (N : nat) (A : 'M[K]_N) (lambda : K) : Prop := exists2 u : 'cV[K]_N, u != 0 & A *m u = lambda *: u.
(** what numpy.linalg.eigh promises of a symmetric matrix: A = W diag(v) W^T with W orthogonal *)
Definition decomposes (N : nat) (A : 'M[K]_N) (vw : 'rV[K]_N * 'M[K]_N) : Prop := A = vw.2 *m diag_mx vw.1 *m vw.2^T /\ vw.2 *m vw.2^T = 1%:M.
End Circ.
