(** Meshes with integer corners and rational centres, for witnesses and examples. *)
From mathcomp Require Import all_ssreflect all_algebra.
From Verif Require Import MetSpec MetSum.
From Verif Require SimpModel SubdSpec.
Import Order.TTheory GRing.Theory Num.Theory.
Local Open Scope nat_scope.
Local Open Scope ring_scope.

Section Wit.
Variable t : SimpModel.topology.
(** V corners in d-space and the coordinates of the centres, times a common denominator *)
Variables (n V d : nat) (zs : seq (seq int)) (nums : seq (seq (seq int))) (dens : seq (seq nat)).
Definition zpos (v j : nat) : int := nth 0 (nth [::] zs v) j.
Definition num (k e v : nat) : int := nth 0 (nth [::] (nth [::] nums k) e) v.
Definition den (k e : nat) : nat := nth 1%N (nth [::] dens k) e.
Definition addz (l : seq int) : int := foldr +%R 0 l.
Definition zc (k e j : nat) : int := addz [seq num k e v * zpos v j | v <- iota 0 V].
Definition gap (k e v : nat) : int := addz [seq (zc k e j - (den k e)%:Z * zpos v j) ^+ 2 | j <- iota 0 d].
Definition check (k e : nat) : bool :=
  let s := SubdSpec.element t k e in
  [&& uniq s, all (fun v => v < V)%N s, all (fun v => (v \in s) || (num k e v == 0)) (iota 0 V) && (size (nth [::] (nth [::] nums k) e) <= V)%N, addz [seq num k e v | v <- iota 0 V] == (den k e)%:Z,
      (0 < den k e)%N & all (fun v => gap k e v == gap k e (head 0%N s)) s].
Definition check_all : bool := all (fun k => all (check k) (iota 0 (SimpModel.n_elements t k))) (iota 0 n.+1).
Hypothesis Ok : check_all.
Lemma checks : forall k e, (k <= n)%N -> (e < SimpModel.n_elements t k)%N -> check k e.
Proof. move=> k e Lk Le. move/allP: Ok => H. have M : k \in iota 0 n.+1 by rewrite mem_iota. move/allP: (H k M) => H2. apply: H2. by rewrite mem_iota. Qed.
Variable K : rcfType.
Definition wit_pos (v : nat) : 'rV[K]_d := \row_j (zpos v j)%:~R.
Definition wit_coef (k e v : nat) : K := (num k e v)%:~R / (den k e)%:R.
Definition wit_PP (k e : nat) : 'rV[K]_d := \row_j ((zc k e j)%:~R / (den k e)%:R).
Lemma addz_big : forall l, addz l = \sum_(x <- l) x. Proof. move=> l. by rewrite /addz unlock. Qed.
Lemma wit_sum : forall (W : zmodType) (F : nat -> W) k e, check k e -> (forall v, v \notin SubdSpec.element t k e -> F v = 0) -> \sum_(v <- SubdSpec.element t k e) F v = \sum_(v <- iota 0 V) F v.
Proof. move=> W F k e /and5P [U /allP L _ _ _] Z. symmetry. apply: sum_sub => //; [exact: iota_uniq|]. move=> v V'. rewrite mem_iota. exact: L. Qed.
Lemma wit_off : forall k e v, check k e -> v \notin SubdSpec.element t k e -> wit_coef k e v = 0.
Proof.
  move=> k e v /and5P [_ _ /andP [/allP Z Sz] _ _] N. rewrite /wit_coef. suff -> : num k e v = 0 by rewrite mul0r. case: (ltnP v V) => L.
  - have : v \in iota 0 V by rewrite mem_iota. move/Z. by rewrite (negbTE N) => /eqP.
  - rewrite /num nth_default //. exact: leq_trans Sz L.
Qed.
Lemma wit_centres : centres K t d n wit_pos wit_PP wit_coef.
Proof.
  move=> k e Lk Le. have Ch := checks k e Lk Le. have Off := fun v => wit_off k e v Ch. split=> //. have /and5P [U L Z /eqP S /andP [D _]] := Ch. have Nd : (den k e)%:R != 0 :> K by rewrite pnatr_eq0 -lt0n. split.
  - rewrite wit_sum // /wit_coef -mulr_suml. rewrite addz_big big_map in S. have -> : \sum_(v <- iota 0 V) (num k e v)%:~R = (den k e)%:R :> K by rewrite -(rmorph_sum [rmorphism of intmul (1 : K)]) /= S. exact: divff.
  - rewrite (wit_sum _ (fun v => wit_coef k e v *: wit_pos v)) //; [|by move=> v V'; rewrite Off // scale0r]. apply/rowP => j. rewrite !mxE /zc addz_big big_map (rmorph_sum [rmorphism of intmul (1 : K)]) mulr_suml summxE. apply: eq_bigr => v _. rewrite !mxE /wit_coef rmorphM /=. by rewrite mulrAC.
Qed.
Lemma wit_gap : forall k e v, (0 < den k e)%N -> distance K d (wit_PP k e) (wit_pos v) = Num.sqrt ((gap k e v)%:~R / (den k e)%:R ^+ 2).
Proof.
  move=> k e v D. have Nd : (den k e)%:R != 0 :> K by rewrite pnatr_eq0 -lt0n. rewrite /distance. congr Num.sqrt. rewrite /gap addz_big big_map (rmorph_sum [rmorphism of intmul (1 : K)]) mulr_suml (_ : iota 0 d = index_iota 0 d); [|by rewrite /index_iota subn0]. rewrite big_mkord.
  apply: eq_bigr => j _. rewrite !mxE rmorphX /= rmorphB rmorphM /= -expr_div_n mulrBl. congr ((_ - _) ^+ 2). by rewrite mulrAC divff // mul1r.
Qed.
Lemma wit_circumcentred : circumcentred K t d n wit_pos wit_PP.
Proof. move=> k e v w Lk Le V' W. have /and5P [_ _ _ _ /andP [D /allP G]] := checks k e Lk Le. rewrite !wit_gap //. by rewrite (eqP (G v V')) (eqP (G w W)). Qed.
End Wit.
