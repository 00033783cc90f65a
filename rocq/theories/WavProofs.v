(** Proofs about the model of weighted averages. *)
From mathcomp Require Import all_ssreflect all_fingroup all_algebra.
From Verif Require Import GeoModel GeoSpec GeoProofs GeoProps WavModel.
From Verif Require Util.
Import Order.TTheory GRing.Theory Num.Theory.
Local Open Scope ring_scope.

Section Wav.
Variable K : rcfType.

(** some of the corners of a simplex that is not degenerate *)
Lemma unsigned_sub : forall N n m (pts : 'M[K]_(N, n)) (f : 'I_m.+1 -> 'I_N), injective f -> (m <= n)%N -> ~ dependent K N n pts -> 0 < unsigned K n m (\matrix_(k, j) pts (f k) j).
Proof.
  move=> N n m pts f If L ND. rewrite /unsigned. set Q := \matrix_(k, j) _. case: (posnP m) => [Z|M0]. { subst m. exact: ltr01. }
  case: (C75_defined K m n Q) => /(_ L) [v [V0 E]] _. rewrite E lt_neqAle V0 andbT. apply/negP => /eqP Z. rewrite -Z in E.
  have D : dependent K m.+1 n Q by apply/C75_degenerate => //; rewrite M0 L. apply: ND. case: D => c [[i Ni] [S0 H]].
  exists (fun k => \sum_(a | f a == k) c a). split; [|split].
  - exists (f i). rewrite (bigD1 i) //= big1 ?addr0 // => a /andP [/eqP Ea Na]. by rewrite (If _ _ Ea) eqxx in Na.
  - rewrite -[RHS]S0 [RHS](partition_big f xpredT) //=.
  - move=> j. rewrite -[RHS](H j) [RHS](partition_big f xpredT) //=. apply: eq_bigr => k _. rewrite mulr_suml. apply: eq_bigr => a /eqP Ea. by rewrite mxE Ea.
Qed.

(** the length of a segment *)
Lemma unsigned_edge : forall n (pts : 'M[K]_(2, n)), (0 < n)%N -> unsigned K n 1 pts = len K n (fun j => pts (lift ord0 ord0) j - pts ord0 j).
Proof.
  move=> n pts L. rewrite /unsigned /unsigned_volume ltnNge L /= divr1. set A := edges_from_first K 1 n pts.
  have -> : \det (A *m A^T) = dotp K n (fun j => pts (lift ord0 ord0) j - pts ord0 j) (fun j => pts (lift ord0 ord0) j - pts ord0 j).
  { rewrite det_mx11 mxE. apply: eq_bigr => j _. rewrite !mxE. by []. }
  rewrite /len ger0_norm // /dotp. apply: sumr_ge0 => j _. by rewrite -expr2 sqr_ge0.
Qed.

Section Mesh.
Variables (nd n : nat) (PP : seq (seq 'rV[K]_n)) (domains : seq (seq nat)).
Hypothesis Hn : (nd <= n)%N.
Definition position (d : seq nat) : 'M[K]_(nd.+1, n) := \matrix_(k, j) nth 0 (nth [::] PP k) (nth 0%N d k) 0 j.
Hypothesis Hd : forall d, d \in domains -> ~ dependent K nd.+1 n (position d).

Lemma weight_pos : forall d i, d \in domains -> (i < nd)%N -> 0 < weight K nd n PP d i.
Proof.
  move=> d i Dd Li. have ND := Hd d Dd. rewrite /weight. have Ci : (nd - (nd - i.+1).+1 = i)%N by rewrite -subSn // subSS subKn // ltnW.
  have Cn : (nd - i.+1 < nd)%N by rewrite ltn_subrL /= (leq_ltn_trans (leq0n i) Li). move: (nd - i.+1)%N Ci Cn => c Ci Cn. apply: divr_gt0.
  - rewrite /perimeter. have Lk : forall k : 'I_(nd - c.+1).+1, (c.+1 + k < nd.+1)%N. { move=> k. by rewrite ltnS -leq_subRL // -ltnS ltn_ord. }
    pose f k := Ordinal (Lk k). have E : \matrix_(k, j) corner K n PP d (c.+1 + k) 0 j = \matrix_(k, j) position d (f k) j :> 'M[K]_((nd - c.+1).+1, n). { apply/matrixP => k j. by rewrite !mxE. }
    rewrite E. apply: unsigned_sub => //. + move=> a b /(congr1 val) /= /eqP. rewrite eqn_add2l => /eqP. exact: val_inj. + apply: leq_trans Hn. exact: leq_subr.
  - rewrite /edge_length_prod big_seq_cond. apply: prodr_gt0 => m /andP []. rewrite mem_index_iota => /andP [L1 L2] _. rewrite /edge_length.
    have La : (c < nd.+1)%N by apply: ltnW. have Lb : (m.+1 < nd.+1)%N by []. pose f (k : 'I_2) := if k == 0 then Ordinal La else Ordinal Lb.
    have E : \matrix_(k, j) corner K n PP d (if k == 0 then c else m.+1) 0 j = \matrix_(k, j) position d (f k) j :> 'M[K]_(2, n). { apply/matrixP => k j. rewrite !mxE /f. by case: ifP. }
    rewrite E. apply: unsigned_sub => //. + move=> a b. rewrite /f. case: (eqVneq a 0) => [->|Na]; case: (eqVneq b 0) => [->|Nb] // /(congr1 val) /= Q; [by move: L1; rewrite Q ltnn|by move: L1; rewrite -Q ltnn|].
      apply: val_inj. case: a Na {Q} => [[|[|a]] Ha] // _. by case: b Nb => [[|[|b]] Hb]. + apply: leq_trans Hn. exact: leq_ltn_trans (leq0n c) Cn.
Qed.
End Mesh.
End Wav.
