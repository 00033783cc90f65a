(** rotation_from_plane: orthogonality, determinant, action on the plane and its complement. *)
From mathcomp Require Import all_ssreflect all_algebra.
From Verif Require Import RotModel.
Import GRing.Theory.
Local Open Scope ring_scope.

Section Rot.
Variables (K : comRingType).

(** det (1 + A B) = det (1 + B A) *)
Lemma sylvester : forall n m (A : 'M[K]_(n, m)) (B : 'M[K]_(m, n)), \det (1%:M + A *m B) = \det (1%:M + B *m A).
Proof.
  move=> n m A B. pose X := block_mx (1%:M : 'M_n) (- A) B (1%:M : 'M_m).
  have H1 : \det X = \det (1%:M + B *m A).
  { have -> : X = block_mx 1%:M 0 B 1%:M *m block_mx 1%:M (- A) 0 (1%:M + B *m A).
    { rewrite mulmx_block !mul1mx !mul0mx !mulmx1 mulmxN !addr0. congr block_mx. by rewrite addrCA addNr addr0. }
    by rewrite det_mulmx det_lblock det_ublock !det1 !mul1r. }
  have H2 : \det X = \det (1%:M + A *m B).
  { have -> : X = block_mx 1%:M (- A) 0 1%:M *m block_mx (1%:M + A *m B) 0 B 1%:M.
    { rewrite mulmx_block !mul1mx !mul0mx !mulmx1 mulNmx !add0r. congr block_mx. by rewrite addrK. }
    by rewrite det_mulmx det_lblock det_ublock !det1 !mul1r mulr1. }
  by rewrite -H1 -H2.
Qed.

Variable n : nat.
Implicit Types u v w : 'rV[K]_n.

(** Inner product of two vectors, and orthonormal pairs. *)
Definition inner u v : K := \sum_(i < n) u 0 i * v 0 i.
Definition orthonormal u v : Prop := [/\ inner u u = 1, inner v v = 1 & inner u v = 0].

Lemma inner_sym : forall u v, inner u v = inner v u.
Proof. move=> u v. apply: eq_bigr => i _. exact: mulrC. Qed.

Lemma outer_sum : forall u v, outer K n u u + outer K n v v = (plane K n u v)^T *m plane K n u v.
Proof. move=> u v. apply/matrixP => i j. rewrite !mxE big_ord_recl big_ord1 !mxE //=. Qed.

Lemma rot_form : forall u v, rotation_from_plane K n u v = 1%:M + (plane K n u v)^T *m ((quarter K - 1%:M) *m plane K n u v).
Proof. move=> u v. rewrite /rotation_from_plane mulmxBl mul1mx mulmxBr -outer_sum. rewrite -!addrA; congr (_ + _). rewrite addrA -opprD addrC //. Qed.

Lemma plane_ortho : forall u v, orthonormal u v -> plane K n u v *m (plane K n u v)^T = 1%:M.
Proof.
  move=> u v [H1 H2 H3]. have H4 := inner_sym v u. rewrite H3 in H4. apply/matrixP => i j. rewrite !mxE.
  transitivity (inner (if i == 0 then u else v) (if j == 0 then u else v)).
  { apply: eq_bigr => k _. rewrite !mxE. by case: (i == 0); case: (j == 0). }
  case: (fintype.unliftP 0 i) => [i'|] ->; case: (fintype.unliftP 0 j) => [j'|] ->; rewrite /= ?(ord1 i') ?(ord1 j') //.
Qed.
Lemma quarter_ortho : quarter K *m (quarter K)^T = 1%:M.
Proof.
  apply/matrixP => i j. rewrite !mxE big_ord_recl big_ord1 !mxE /=.
  case: (fintype.unliftP 0 i) => [i'|] ->; case: (fintype.unliftP 0 j) => [j'|] ->; rewrite /= ?(ord1 i') ?(ord1 j') /=;
  by rewrite ?mulr0 ?mul0r ?mulr1 ?mul1r ?mulrNN ?mulr1 ?addr0 ?add0r.
Qed.
Lemma quarter_det : \det (quarter K) = 1.
Proof. rewrite (expand_det_row _ 0) big_ord_recl big_ord1 !mxE /= mul0r add0r mul1r /cofactor det_mx11 !mxE /= mulrN1 expr1 opprK //. Qed.

Theorem C44_orthogonal : forall u v, orthonormal u v ->
  rotation_from_plane K n u v *m (rotation_from_plane K n u v)^T = 1%:M /\
  (rotation_from_plane K n u v)^T *m rotation_from_plane K n u v = 1%:M.
Proof.
  move=> u v H. have HP := plane_ortho u v H.
  suff E : rotation_from_plane K n u v *m (rotation_from_plane K n u v)^T = 1%:M by split; last apply: mulmx1C.
  rewrite rot_form. move: (plane K n u v) HP => P HP. set D := quarter K - 1%:M.
  have HD : D + D^T + D *m D^T = 0.
  { rewrite /D linearB /= trmx1 mulmxBl mulmxBr quarter_ortho mulmx1 mul1mx.
    rewrite addrACA subrr addr0 addrA subrK subrr //. }
  have -> : (1%:M + P^T *m (D *m P))^T = 1%:M + P^T *m (D^T *m P).
  { by rewrite linearD /= trmx1 !trmx_mul trmxK -mulmxA. }
  rewrite mulmxDl mulmxDr !mul1mx mulmxDr mulmx1.
  have -> : P^T *m (D *m P) *m (P^T *m (D^T *m P)) = P^T *m ((D *m D^T) *m P).
  { rewrite !mulmxA. rewrite -[P^T *m D *m P *m P^T]mulmxA HP mulmx1 //. }
  rewrite -addrA -!mulmxDr -!mulmxDl addrA [D^T + D]addrC HD mul0mx mulmx0 addr0 //.
Qed.

Theorem C44_determinant : forall u v, orthonormal u v -> \det (rotation_from_plane K n u v) = 1.
Proof.
  move=> u v H. rewrite rot_form sylvester -mulmxA plane_ortho // mulmx1 addrC subrK. exact: quarter_det.
Qed.

Lemma plane_apply : forall u v w i, (plane K n u v *m w^T) i 0 = if i == 0 then inner u w else inner v w.
Proof. move=> u v w i. rewrite !mxE. case E: (i == 0); apply: eq_bigr => k _; rewrite !mxE E //. Qed.
Lemma plane_T : forall u v i, (plane K n u v)^T i 0 = u 0 i /\ (plane K n u v)^T i (lift 0 (0 : 'I_1)) = v 0 i.
Proof. by move=> u v i; rewrite !mxE. Qed.
Lemma rot_apply : forall u v w, rotation_from_plane K n u v *m w^T =
  w^T + (inner v w - inner u w) *: u^T - (inner u w + inner v w) *: v^T.
Proof.
  move=> u v w. rewrite rot_form mulmxDl mul1mx -!mulmxA -addrA. congr (_ + _). apply/matrixP => i j. rewrite (ord1 j) {j}.
  move: (plane_apply u v w 0) (plane_apply u v w 1) => /=. move: (plane K n u v *m w^T) => c c0 c1. move: (plane K n u v) (plane_T u v i) => P [P0 P1].
  rewrite mxE big_ord_recl big_ord1 P0 P1 !mxE !big_ord_recl !big_ord0 !mxE /= !addr0.
  have -> : lift 0 (0 : 'I_1) = 1 :> 'I_2 by apply: val_inj. rewrite c0 c1.
  rewrite !subr0 !sub0r !mulNr !mul1r [- inner u w + _]addrC -opprD mulrN [v 0 i * _]mulrC [u 0 i * _]mulrC => //.
Qed.

(** u is mapped to -v, v to u: a quarter turn, mapping u to a unit vector orthogonal to u. *)
Theorem C44_quarter_turn : forall u v, orthonormal u v ->
  [/\ rotation_from_plane K n u v *m u^T = - v^T, rotation_from_plane K n u v *m v^T = u^T, inner (- v) (- v) = 1 & inner (- v) u = 0].
Proof.
  move=> u v [H1 H2 H3]. have H4 := inner_sym v u. rewrite H3 in H4. split.
  - by rewrite rot_apply H1 H4 sub0r addr0 scaleN1r scale1r addrN sub0r.
  - by rewrite rot_apply H2 H3 subr0 add0r !scale1r addrAC addrN add0r.
  - rewrite -H2. apply: eq_bigr => k _. by rewrite !mxE mulrNN.
  - rewrite -[0]oppr0 -H4 /inner -sumrN. apply: eq_bigr => k _. by rewrite !mxE mulNr.
Qed.

Theorem C44_fixes_complement : forall u v w, inner u w = 0 -> inner v w = 0 -> rotation_from_plane K n u v *m w^T = w^T.
Proof. move=> u v w H1 H2. by rewrite rot_apply H1 H2 subr0 addr0 !scale0r subr0 addr0. Qed.

(** angle_from_rotation takes the arccos of 0 for these matrices. *)
Theorem C44_angle : forall u v half, half * 2%:R = 1 -> orthonormal u v -> cos_from_rotation K n half (rotation_from_plane K n u v) = 0.
Proof.
  move=> u v half Hh H. rewrite /cos_from_rotation rot_form linearD /= mxtrace1 mxtrace_mulC -mulmxA plane_ortho // mulmx1.
  rewrite linearB /= mxtrace1 /mxtrace big_ord_recl big_ord1 !mxE /= addr0 sub0r opprD addrA subrr add0r opprK mulrC Hh subrr //.
Qed.
End Rot.
Print Assumptions C44_orthogonal.
Print Assumptions C44_determinant.
Print Assumptions C44_quarter_turn.
Print Assumptions C44_fixes_complement.
Print Assumptions C44_angle.

(** u = (3/5, 0, 4/5, 0), v = (4/5, 0, -3/5, 0), w = (0, 1, 0, 2) in 4 dimensions over the rationals. *)
Definition vec4 (l : seq rat) : 'rV[rat]_4 := \row_i nth 0 l i.
Definition a35 : rat := 3%:R / 5%:R.
Definition a45 : rat := 4%:R / 5%:R.
Lemma a_square : a35 * a35 + a45 * a45 = 1.
Proof. rewrite /a35 /a45 !mulf_div -!mulrDl -!natrM -natrD divff //. Qed.
Example C44_example : let u := vec4 [:: a35; 0; a45; 0] in let v := vec4 [:: a45; 0; - a35; 0] in let w := vec4 [:: 0; 1; 0; 2%:R] in
  [/\ orthonormal _ _ u v, inner _ _ u w = 0, inner _ _ v w = 0 & w != 0].
Proof.
  move=> u v w. have A := a_square. have B : a45 * a45 + a35 * a35 = 1 by rewrite addrC.
  split; [split| | |]; rewrite /inner ?big_ord_recl ?big_ord0 ?mxE /= ?mulr0 ?mul0r ?mulrNN ?addr0 ?add0r //.
  apply/eqP => /matrixP /(_ 0 1). by rewrite !mxE.
Qed.
