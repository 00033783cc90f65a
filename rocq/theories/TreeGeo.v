(** The weights that pick_primal gives to the dual vertices. *)
From Coq Require Import Permutation Factorial ZArith.
From mathcomp Require Import all_ssreflect all_algebra.
From Verif Require Import GeoRing GeoModel MetModel MetSpec MetAff MetSum MetProofs MetVol MetCot DelModel DelSpec DelProofs DelFree DelGeo TreeModel TreeSpec TreeProofs TreeTop.
From Verif Require Util SimpModel SimpSpec SimpProofs BdryModel BdrySpec BdryProofs BdryProps SubdModel SubdSpec ParProofs LevelProofs TopProofs OrientProofs FundProofs TreeSel.
Import Order.TTheory GRing.Theory Num.Theory.
Local Open Scope nat_scope.
Local Open Scope ring_scope.

Section Geo.
Variable K : rcfType.
Add Field Kf : (K_field K).
Ltac kring := kprep K; ring.
Variable sat : list (BinNums.Z * BinNums.Z) -> option (list BinNums.Z).
Variable row_leb : SimpModel.simplex -> SimpModel.simplex -> bool.
Variable minres : forall N, 'M[K]_N -> 'cV[K]_N -> 'cV[K]_N.
Variables (m : nat) (rows : list SimpModel.simplex) (t : SimpModel.topology).
Variable d : nat.
Variable pos : nat -> 'rV[K]_d.
Variable wt : nat -> K.
Variable PP : nat -> nat -> 'rV[K]_d.
Variable coef : nat -> nat -> nat -> K.
Variable bary : nat -> nat -> nat -> K.
Hypothesis SC : BdrySpec.sat_contract sat.
Hypothesis Mc : minres_contract K minres.
Hypothesis OK : SimpSpec.simplices_ok m.+2 rows.
Hypothesis HT : SimpModel.from_simplices row_leb m.+2 rows = Util.Ok t.
Hypothesis AM : BdrySpec.at_most_two m.+2 rows.
Hypothesis Or : BdryModel.is_oriented sat t = Util.Ok true.
Hypothesis C : centres K t d m.+2 pos PP coef.
Hypothesis Pc : power_centred K t m.+2 d pos wt PP.
Let Hn : Peano.le 1 m.+2. Proof. exact/ssrnat.leP. Qed.
Let Hn2 : Peano.le 2 m.+2. Proof. exact/ssrnat.leP. Qed.
Let T : TopProofs.top_ok m.+2 rows t. Proof. exact: (proj2 (TopProofs.from_simplices_top_ok row_leb m.+2 rows t OK HT)). Qed.
Let CO : BdrySpec.consistent m.+2 rows. Proof. exact: (BdryProps.C55_is_oriented_sound row_leb sat m.+2 rows t SC OK HT AM Or). Qed.
Notation el := (OrientProofs.el t).
Notation N := (size rows).
Notation top_row := (top_row rows).
Notation nE := (SimpModel.n_elements t m.+1).
Notation around := (around m.+1 rows t).
Notation sign e j := (SimpModel.entry (SimpModel.matrix t m.+1) e j).
Notation gap := (gap K m.+1 d PP).
Notation dot := (dot K d).
Notation power := (power K d pos wt).
Notation inner := (TreeSel.inner row_leb sat m.+2 t).

Lemma powerE : forall p v, power p v = dot (p - pos v) (p - pos v) - wt v.
Proof. move=> p v. by rewrite /TreeSpec.power distance_sqr. Qed.
Lemma power_gap : forall e p f, (e < nE)%N -> p \in around e -> f \in el m.+1 e -> power (PP m.+2 p.1) f = gap p.1 e ^+ 2 + power (PP m.+1 e) f.
Proof.
  move=> e p f He P F. have Jn : (p.1 < SimpModel.n_elements t m.+2)%N by rewrite (n_top m.+2 rows t T); have := P; rewrite around_in => /and3P [J _ _]. have Sub := around_sub m.+1 rows t T e p P. have El := el_top m.+2 rows t T.
  set o := PP m.+2 p.1. set c := PP m.+1 e. have Ort : forall v w, v \in el m.+1 e -> w \in el m.+1 e -> dot (o - c) (pos v - pos w) = 0.
  { move=> v w V W. have := bisect K d o c (pos w) (pos v). have A : power o w = power o v by apply: (Pc m.+2 p.1 w v (leqnn _) Jn); rewrite -[SubdSpec.element t m.+2 p.1]/(el m.+2 p.1) El; exact: Sub. have B : power c w = power c v by exact: (Pc m.+1 e w v (leqnSn _) He W V).
    rewrite !powerE in A B. have A' : dot (o - pos w) (o - pos w) - dot (o - pos v) (o - pos v) = wt w - wt v by rewrite -(subrK (wt w) (dot (o - pos w) (o - pos w))) A; move: (dot _ _) (wt w) (wt v) => x y z; kring. have B' : dot (c - pos w) (c - pos w) - dot (c - pos v) (c - pos v) = wt w - wt v by rewrite -(subrK (wt w) (dot (c - pos w) (c - pos w))) B; move: (dot _ _) (wt w) (wt v) => x y z; kring.
    rewrite A' B' subrr => /esym /eqP. by rewrite mulf_eq0 pnatr_eq0 /= => /eqP. }
  have Fl : dot (o - c) (c - pos f) = 0 := facet_flat K m.+1 t d pos PP coef C e (o - c) f He Ort F. rewrite !powerE /DelProofs.gap distance_sqr -/o -/c. have -> : o - pos f = (o - c) + (c - pos f) by rewrite addrA subrK. move: (o - c) (c - pos f) Fl => a b Fl. rewrite dotDl !dotDr (dotC K d b a) Fl addr0 add0r addrA. by [].
Qed.
(** the power of a centre with respect to the corners *)
Definition rad (j : nat) : K := power (PP m.+2 j) (nth 0%N (top_row j) 0).
Lemma rad_corner : forall j v, (j < N)%N -> v \in top_row j -> power (PP m.+2 j) v = rad j.
Proof.
  move=> j v J V. have El : SubdSpec.element t m.+2 j = top_row j by exact: (el_top m.+2 rows t T). apply: (Pc m.+2 j _ _ (leqnn _)); [by rewrite (n_top m.+2 rows t T)|by rewrite El|]. rewrite El. apply: mem_nth. by case: (top_row j) V.
Qed.
Lemma inner_pair : forall e, e \in inner -> (e < nE)%N /\ exists p q, p.1 <> q.1 /\ perm_eq (around e) [:: p; q].
Proof.
  move=> e /InE /(TreeSel.inner_in row_leb sat m.+2 rows t SC OK Hn2 HT AM Or) [Le NB]. rewrite (n_minus m.+1) in Le NB. have He : (e < nE)%N by exact/ssrnat.ltP. split=> //. have Cs := BdryProofs.coface_cases m.+2 rows t Hn T AM e. rewrite (n_minus m.+1) in Cs.
  case: (Cs Le) => [One|[j1 [j2 [_ [[L1 L2] X]]]]]; [case: NB; have := proj2 (BdryProofs.one_coface_iff m.+2 rows t Hn T e _); rewrite (n_minus m.+1); by apply|]. rewrite (n_minus m.+1) in X.
  have Sb : forall j, (j < N)%N -> (j = j1 \/ j = j2) -> exists c, (j, c) \in around e. { move=> j J Q. apply: (coface_slot m.+1 rows t T) => // v V. apply/InE. apply: (proj2 (X j (elimT ssrnat.ltP J)) Q). exact/InE. }
  have J2 : (j2 < N)%N by exact/ssrnat.ltP. have J1 : (j1 < N)%N by apply: ltn_trans J2; exact/ssrnat.ltP. have [c1 P1] := Sb j1 J1 (or_introl erefl). have [c2 P2] := Sb j2 J2 (or_intror erefl). have Nj : j1 <> j2 by move=> E; move: L1; rewrite E; exact: Nat.lt_irrefl.
  exists (j1, c1), (j2, c2). split=> //. have Npq : (j1, c1) != (j2, c2) by apply/eqP => [[E _]]. have U := around_uniq m.+1 rows t e. rewrite perm_sym. apply: uniq_perm; [by rewrite /= inE Npq|exact: U|].
  apply: (uniq_min_size _ _ _).2; [by rewrite /= inE Npq| |exact: (around_two m.+1 rows t T AM e He)]. move=> x. rewrite !inE => /orP [/eqP ->|/eqP ->]; by [].
Qed.
Lemma adjacent_inner : forall j1 j2, BdrySpec.adjacent m.+2 rows j1 j2 -> exists e p q, [/\ e \in inner, perm_eq (around e) [:: p; q], p.1 = j1, q.1 = j2 & j1 <> j2].
Proof.
  move=> j1 j2 [L1 [L2 [Nj [f [F1 F2]]]]]. rewrite (n_minus m.+1) in F1 F2. have J1 : (j1 < N)%N by exact/ssrnat.ltP. have J2 : (j2 < N)%N by exact/ssrnat.ltP.
  have [s [Is Ps]] := proj2 (TopProofs.faces_complete m.+2 rows t Hn T 1 m.+1 (Nat.add_1_r _) f) (ex_intro _ _ (conj (List.nth_In rows [::] L1) F1)). have [e [Le Es]] := List.In_nth _ _ [::] Is. have He : (e < nE)%N by exact/ssrnat.ltP. have Ee : el m.+1 e = s by exact: Es.
  have Sb : forall j, (j < N)%N -> SimpSpec.is_face m.+1 f (top_row j) -> exists c, (j, c) \in around e. { move=> j J [_ [_ I]]. apply: (coface_slot m.+1 rows t T) => // v. rewrite Ee => /InE V. apply/InE. apply: I. exact: (Permutation_in _ Ps V). }
  have [c1 P1] := Sb j1 J1 F1. have [c2 P2] := Sb j2 J2 F2. have In : e \in inner.
  { apply/InE. apply/(TreeSel.inner_in row_leb sat m.+2 rows t SC OK Hn2 HT AM Or). rewrite (n_minus m.+1). split=> // B. have {}B := BdryProofs.boundary_face_perm m.+2 rows _ f (eq_ind_r (fun x => Permutation x f) Ps Ee) B. case: B => [j [_ [_ U]]]. rewrite (n_minus m.+1) in U. case: Nj. by rewrite (U j1 L1 F1) (U j2 L2 F2). }
  exists e, (j1, c1), (j2, c2). split=> //. have Npq : (j1, c1) != (j2, c2) by apply/eqP => [[E _]]. have U := around_uniq m.+1 rows t e. rewrite perm_sym. apply: uniq_perm; [by rewrite /= inE Npq|exact: U|].
  apply: (uniq_min_size _ _ _).2; [by rewrite /= inE Npq| |exact: (around_two m.+1 rows t T AM e He)]. move=> x. rewrite !inE => /orP [/eqP ->|/eqP ->]; by [].
Qed.
Lemma inner_signs : forall e, e \in inner -> \sum_(p <- around e) z_to_K K (sign e p.1) = 0.
Proof.
  move=> e I. have [He [p [q [Npq Pm]]]] := inner_pair e I. rewrite (perm_big _ Pm) /= !big_cons big_nil addr0. rewrite (sign_opp K m.+1 rows t T CO e p q He _ _ Npq) ?addNr // (perm_mem Pm) !inE eqxx ?orbT //.
Qed.
(** ** The system *)
Let nd : BdryModel.n_dim t = m.+2. Proof. exact: (OrientProofs.top_n_dim m.+2 rows t T). Qed.
Let nd1 : (BdryModel.n_dim t - 1)%N = m.+1. Proof. by rewrite nd subn1. Qed.
Notation Fn := (SimpModel.n_elements t (BdryModel.n_dim t - 1)).
Notation Nn := (SimpModel.n_elements t (BdryModel.n_dim t)).
Notation Sm := (selector_mx K sat row_leb t).
Notation Im := (incidence_mx K t).
Let Nn_N : Nn = N. Proof. by rewrite nd; exact: (n_top m.+2 rows t T). Qed.
Lemma sel_entry : forall r e, (r < size inner)%N -> SimpModel.entry (BdryModel.selector_interior row_leb sat t (BdryModel.n_dim t - 1)) r e = if e == nth 0%N inner r then Zpos xH else Z0.
Proof.
  move=> r e Lr. rewrite nd1. have := TreeSel.inner_entry row_leb sat m.+2 t r e (elimT ssrnat.ltP Lr). rewrite (n_minus m.+1) nthE => ->. case: eqP => [->|Ne]; [by rewrite Nat.eqb_refl|]. by case Q : (Nat.eqb _ _) => //; case: Ne; apply/Nat.eqb_eq.
Qed.
Lemma sel_rows : SimpModel.nrows (BdryModel.selector_interior row_leb sat t (BdryModel.n_dim t - 1)) = size inner.
Proof. rewrite nd1 -(n_minus m.+1). by []. Qed.
Lemma sel_mul : forall k (A : 'M[K]_(Fn, k)) (r : 'I_(SimpModel.nrows (BdryModel.selector_interior row_leb sat t (BdryModel.n_dim t - 1)))) c, exists e : 'I_Fn, (e : nat) \in inner /\ (e : nat) = nth 0%N inner r /\ (Sm *m A) r c = A e c.
Proof.
  move=> k A r c. have Lr : (r < size inner)%N by rewrite -sel_rows. have In : nth 0%N inner r \in inner by exact: mem_nth. have [He _] := inner_pair _ In. have Lf : (nth 0%N inner r < Fn)%N by move: He; move: (nth 0%N inner r) => x; rewrite nd1. exists (Ordinal Lf). split=> //. split=> //. rewrite mxE (bigD1 (Ordinal Lf)) //= big1 ?addr0.
  - by rewrite mxE sel_entry // eqxx /= mul1r.
  - move=> e Ne. rewrite mxE sel_entry //. case: eqP => [E|_]; [by case/eqP: Ne; apply: val_inj|]. by rewrite mul0r.
Qed.
Lemma all_cofaces : forall (e : 'I_Fn) (v : nat -> K), \sum_(j < Nn) z_to_K K (SimpModel.entry (SimpModel.matrix t (BdryModel.n_dim t - 1)) e j) * v j = \sum_(p <- around e) z_to_K K (sign e p.1) * v p.1.
Proof.
  move=> e v. have He : (e < nE)%N by have := ltn_ord e; rewrite {2}nd1. rewrite -(coface_sum K m.+1 rows t T e v He) -(big_mkord xpredT (fun j => z_to_K K (SimpModel.entry (SimpModel.matrix t (BdryModel.n_dim t - 1)) e j) * v j)) -(big_mkord xpredT (fun j => z_to_K K (sign e j) * v j)) Nn_N. by move: (nat_of_ord e) => x; rewrite nd1.
Qed.
Lemma row_sum : forall (v : nat -> K) (r : 'I_(SimpModel.nrows (BdryModel.selector_interior row_leb sat t (BdryModel.n_dim t - 1)))) c, exists e, e \in inner /\ e = nth 0%N inner r /\ (Sm *m Im *m (\col_j v j)) r c = \sum_(p <- around e) z_to_K K (sign e p.1) * v p.1.
Proof.
  move=> v r c. rewrite -mulmxA. have [e [In [E Q]]] := sel_mul 1 (Im *m \col_j v j) r c. exists (nat_of_ord e). split=> //. split=> //. rewrite Q mxE -all_cofaces. apply: eq_bigr => j _. by rewrite !mxE.
Qed.
Lemma ones : Sm *m Im *m const_mx 1 = 0 :> 'cV[K]_(SimpModel.nrows (BdryModel.selector_interior row_leb sat t (BdryModel.n_dim t - 1))).
Proof.
  apply/matrixP => r c. have -> : const_mx 1 = \col_j (fun=> 1 : K) j :> 'cV[K]_Nn by apply/matrixP => i j; rewrite !mxE. have [e [In [_ ->]]] := row_sum (fun=> 1) r c. rewrite mxE (eq_bigr (fun p => z_to_K K (sign e p.1))); [|by move=> p _; rewrite mulr1]. exact: inner_signs.
Qed.
Lemma rads : Sm *m Im *m (\col_j rad j) = Sm *m excess_col K t d PP bary.
Proof.
  apply/matrixP => r c. have [e [In [E ->]]] := row_sum rad r c. have [e' [_ [E' ->]]] := sel_mul 1 (excess_col K t d PP bary) r c. have [He _] := inner_pair e In. rewrite mxE E' -E (oriented_sum K m.+1 rows t T d PP bary isT) (nth_map 0%N) ?size_iota // nth_iota // add0n.
  have [L _] := OrientProofs.el_len m.+2 rows t Hn T m.+1 e (le_S _ _ (le_n _)) (elimT ssrnat.ltP He). have F : nth 0%N (el m.+1 e) 0 \in el m.+1 e by apply: mem_nth; rewrite -sizeE L.
  transitivity (\sum_(p <- around e) (gap p.1 e ^+ 2 * z_to_K K (sign e p.1) + z_to_K K (sign e p.1) * power (PP m.+1 e) (nth 0%N (el m.+1 e) 0))).
  - rewrite big_seq [RHS]big_seq. apply: eq_bigr => p P. have J : (p.1 < N)%N by have := P; rewrite around_in => /and3P [J _ _]. rewrite -(rad_corner p.1 (nth 0%N (el m.+1 e) 0) J); [|exact: (around_sub m.+1 rows t T e p P)]. rewrite (power_gap e p _ He P F) mulrDr. by rewrite [in LHS](mulrC _ (gap p.1 e ^+ 2)).
  - by rewrite big_split /= -mulr_suml inner_signs // mul0r addr0.
Qed.
Notation W := (dual_weights K sat row_leb minres t d PP bary).
Lemma W_size : size W = N. Proof. by rewrite size_map size_enum_ord Nn_N. Qed.
Lemma W_adjacent : forall j1 j2, BdrySpec.adjacent m.+2 rows j1 j2 -> nth 0 W j1 - rad j1 = nth 0 W j2 - rad j2.
Proof.
  move=> j1 j2 Ad. have [e [p [q [In Pm E1 E2 Nj]]]] := adjacent_inner j1 j2 Ad. have [He _] := inner_pair e In. have := solved K minres _ _ (Sm *m Im) (Sm *m excess_col K t d PP bary) (\col_j rad j) Mc rads ones. rewrite /=. set w := minres _ _ _ => Z.
  have Ew : w - \col_j rad j = \col_j (fun i => nth 0 W i - rad i) j. { apply/matrixP => i j. rewrite !mxE (nth_map i) ?size_enum_ord // nth_ord_enum -/w. congr (w _ _ - _). exact: ord1. } rewrite Ew in Z.
  have Lr : (index e inner < SimpModel.nrows (BdryModel.selector_interior row_leb sat t (BdryModel.n_dim t - 1)))%N by rewrite sel_rows index_mem. have [e' [_ [E' Q]]] := row_sum (fun i => nth 0 W i - rad i) (Ordinal Lr) 0. rewrite Z /= nth_index // in E' Q. rewrite mxE E' (perm_big _ Pm) /= !big_cons big_nil addr0 E1 E2 in Q.
  have Pp : p \in around e by rewrite (perm_mem Pm) mem_head. have Qq : q \in around e by rewrite (perm_mem Pm) !inE eqxx orbT. have Npq : p.1 <> q.1 by rewrite E1 E2. have So := sign_opp K m.+1 rows t T CO e p q He Pp Qq Npq. rewrite E1 E2 in So. rewrite So mulNr addrC -mulrBr in Q. have := sign_pm m.+1 rows t T e q He Qq. rewrite E2 => Pm1.
  have Nz : z_to_K K (sign e j2) != 0 by case: Pm1 => ->; rewrite /= ?oppr_eq0 oner_eq0. move/esym/eqP: Q. rewrite mulf_eq0 (negbTE Nz) /= subr_eq0 => /eqP ->. by [].
Qed.
Hypothesis Co : BdrySpec.connected m.+2 rows.
Lemma W_const : forall j, (j < N)%N -> nth 0 W j = rad j + (nth 0 W 0 - rad 0).
Proof.
  move=> j J. have Q : forall j1 j2, BdrySpec.linked m.+2 rows j1 j2 -> nth 0 W j1 - rad j1 = nth 0 W j2 - rad j2 by move=> j1 j2; elim=> // a b c _ -> /W_adjacent ->. rewrite (Q _ _ (Co j (elimT ssrnat.ltP J))). by rewrite addrC subrK.
Qed.
End Geo.
