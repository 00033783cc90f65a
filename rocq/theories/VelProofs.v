(** Proofs about the model of velocities: the sparse products, and the inverse of the gradients of a cell. *)
From mathcomp Require Import all_ssreflect all_fingroup all_algebra.
From Verif Require Import GeoModel GeoSpec NormModel NormSpec NormProofs VelModel VelSpec.
From Verif Require Util.
Import Order.TTheory GRing.Theory Num.Theory.
Local Open Scope ring_scope.

Section Sparse.
Variable K : rcfType.

Lemma mulv_nth : forall rows (M : coo K) x i, (i < rows)%N -> nth 0 (mulv K rows M x) i = \sum_(e <- M | e.1.1 == i) e.2 * nth 0 x e.1.2.
Proof. move=> rows M x i L. by rewrite nth_mkseq. Qed.
Lemma mulv_size : forall rows (M : coo K) x, size (mulv K rows M x) = rows.
Proof. move=> *. by rewrite size_mkseq. Qed.

Lemma sum_one : forall n (f : nat -> K) i, (i < n)%N -> \sum_(r <- iota 0 n | r == i) f r = f i.
Proof.
  move=> n f i L. rewrite -big_filter. have -> : [seq r <- iota 0 n | r == i] = [:: i]; [|by rewrite big_seq1].
  have U := iota_uniq 0 n. have M : i \in iota 0 n by rewrite mem_iota add0n.
  elim: (iota 0 n) U M => // a l IH /= /andP [Na U]. rewrite in_cons. case: eqP => [E _|/eqP N /= M].
  - rewrite -E eqxx. congr cons. apply/eqP. rewrite -[_ == _]negbK -has_filter. apply/negP => /hasP [r R /eqP Er]. by rewrite -E -Er R in Na.
  - rewrite eq_sym (negbTE N). exact: IH.
Qed.

Lemma diags_nth : forall (h x : seq K) i, (i < size h)%N -> nth 0 (mulv K (size h) (diags K h) x) i = nth 0 h i * nth 0 x i.
Proof. move=> h x i L. rewrite mulv_nth // /diags big_map /=. by rewrite (sum_one _ (fun r => nth 0 h r * nth 0 x r)). Qed.
Lemma eye_nth : forall rows a b (x : seq K) i, (i < rows)%N -> (i < minn a b)%N -> nth 0 (mulv K rows (eye K a b) x) i = nth 0 x i.
Proof. move=> rows a b x i L L'. rewrite mulv_nth // /eye big_map /=. by rewrite (sum_one _ (fun r => 1 * nth 0 x r)) // mul1r. Qed.
Lemma eyeT : forall a b, transposed K (eye K a b) = eye K a b.
Proof. move=> a b. rewrite /transposed /eye -map_comp. by []. Qed.
Lemma eye_past : forall rows a b (x : seq K) i, (i < rows)%N -> (minn a b <= i)%N -> nth 0 (mulv K rows (eye K a b) x) i = 0.
Proof.
  move=> rows a b x i L L'. rewrite mulv_nth // /eye big_map /= big_seq_cond big1 // => r /andP [R /eqP E]. move: R. by rewrite mem_iota add0n E /= ltnNge L'.
Qed.
Lemma selector_nth : forall rows B O (x : seq K) i, (i < rows)%N -> (i < size B)%N -> nth 0 (mulv K rows (signed_selector K B O) x) i = (nth 0 O i)%:~R * nth 0 x (nth 0%N B i).
Proof. move=> rows B O x i L L'. rewrite mulv_nth // /signed_selector big_map /=. by rewrite (sum_one _ (fun r => (nth 0 O r)%:~R * nth 0 x (nth 0%N B r))). Qed.
Lemma block_nth : forall rows r c (bs : seq 'M[K]_(r, c)) x b (k : 'I_r), (b < size bs)%N -> (b * r + k < rows)%N ->
  nth 0 (mulv K rows (block_diag K r c bs) x) (b * r + k) = \sum_(j < c) nth 0 bs b k j * nth 0 x (b * c + j).
Proof.
  move=> rows r c bs x b k Lb L. rewrite mulv_nth // /block_diag big_flatten big_map /=.
  rewrite (bigID (fun q => q == b)) /= [X in _ + X]big1 ?addr0.
  - rewrite (sum_one _ (fun q => \sum_(e <- allpairs (fun (i : 'I_r) (j : 'I_c) => ((i + q * r)%N, (j + q * c)%N, nth 0 bs q i j)) (enum 'I_r) (enum 'I_c) | e.1.1 == (b * r + k)%N) e.2 * nth 0 x e.1.2)) //.
    rewrite big_mkcond big_allpairs_dep /= big_enum /= (bigD1 k) //= [X in _ + X]big1 ?addr0.
    + rewrite big_enum. apply: eq_bigr => j _. by rewrite addnC eqxx [(j + _)%N]addnC.
    + move=> i N. rewrite big1 // => j _. rewrite addnC eqn_add2l. case: eqP => // E. case/eqP: N. exact: val_inj.
  - move=> q N. rewrite big_mkcond big_allpairs_dep big1 // => i _. rewrite big1 // => j _. case: eqP => //= E. case/eqP: N.
    have R : (0 < r)%N by exact: leq_ltn_trans (leq0n _) (ltn_ord k). move/(congr1 (divn^~ r)): E. rewrite addnC !divnMDl // !divn_small ?addn0 //.
Qed.
Lemma flatten_nth : forall (T : Type) (x0 : T) p (l : seq (seq T)) b i, all (fun r => size r == p) l -> (i < p)%N -> (b < size l)%N -> nth x0 (flatten l) (b * p + i) = nth x0 (nth [::] l b) i.
Proof.
  move=> T x0 p l b i. elim: l b => [|r l IH] b /= A Li; [by rewrite ltn0|]. case/andP: A => /eqP Er A. rewrite nth_cat. case: b => [|b] Lb /=.
  - by rewrite mul0n add0n Er Li.
  - rewrite mulSn -addnA Er ltnNge leq_addr /= addKn. exact: IH.
Qed.
Lemma flatten_size : forall (T : Type) p (l : seq (seq T)), all (fun r => size r == p) l -> size (flatten l) = (size l * p)%N.
Proof. move=> T p. elim => [|r l IH] //= /andP [/eqP Er A]. by rewrite size_cat Er IH // mulSn. Qed.

(** the velocity at cell c is the inverse of its gradients, applied to the scaled fluxes of its faces; zero at the other dual
    vertices *)
Lemma velocity_nth : forall svd d p n gs (B : seq (seq nat)) (O : seq (seq int)) hodge total flux (Ps : nat -> 'M[K]_(n, p)),
  size B = size gs -> size O = size gs -> all (fun r => size r == p) B -> all (fun r => size r == p) O -> (forall c i, (c < size gs)%N -> (i < p)%N -> (nth 0%N (nth [::] B c) i < size hodge)%N) ->
  (size hodge <= size flux)%N -> (size gs <= total)%N -> (forall c, (c < size gs)%N -> in_plane_inverse K svd d p n (nth 0 gs c) = Some (Ps c)) ->
  exists V, flux_to_velocity K svd d p n gs B O hodge total flux = Some V /\ size V = total /\
    (forall c, (c < total)%N -> size (nth [::] V c) = n) /\
    (forall c (k : 'I_n), (c < size gs)%N -> nth 0 (nth [::] V c) k = \sum_(i < p) Ps c k i * ((nth 0 (nth [::] O c) i)%:~R * (nth 0 hodge (nth 0%N (nth [::] B c) i) * nth 0 flux (nth 0%N (nth [::] B c) i)))) /\
    (forall c (k : 'I_n), (size gs <= c < total)%N -> nth 0 (nth [::] V c) k = 0).
Proof.
  move=> svd d p n gs B O hodge total flux Ps SB SO AB AO In Lf Lt Inv. rewrite /flux_to_velocity.
  have Al : [seq in_plane_inverse K svd d p n g | g <- gs] = [seq Some (Ps c) | c <- iota 0 (size gs)].
  { apply: (eq_from_nth (x0 := None)). - by rewrite !size_map size_iota. - rewrite size_map => c L. rewrite (nth_map 0) // Inv // (nth_map 0%N) ?size_iota // nth_iota //. }
  rewrite Al. have -> : all isSome [seq Some (Ps c) | c <- iota 0 (size gs)] by rewrite all_map; apply/allP.
  have Pm : pmap id [seq Some (Ps c) | c <- iota 0 (size gs)] = [seq Ps c | c <- iota 0 (size gs)] by elim: (iota 0 (size gs)) => //= a l ->.
  rewrite Pm. eexists. split; [reflexivity|]. rewrite size_mkseq. split => //.
  split; [|split].
  - move=> c L. by rewrite nth_mkseq // size_mkseq.
  - move=> c k L. have Lc := leq_trans L Lt. rewrite nth_mkseq // nth_mkseq // eyeT eye_nth // ?leq_min ?L //.
    rewrite (nth_map [::]) ?size_mkseq // nth_mkseq // nth_mkseq //.
    have Lk : (c * n + k < size gs * n)%N. { apply: (@leq_trans (c.+1 * n)); [|exact: leq_mul]. by rewrite mulSn addnC ltn_add2r. }
    rewrite block_nth ?size_map ?size_iota //. apply: eq_bigr => i _. rewrite (nth_map 0%N) ?size_iota // nth_iota // add0n. congr (_ * _).
    have Li : (c * p + i < size gs * p)%N. { apply: (@leq_trans (c.+1 * p)); [|exact: leq_mul]. by rewrite mulSn addnC ltn_add2r. }
    rewrite selector_nth // ?(flatten_size _ p) ?SB // !(flatten_nth _ _ p) ?SB ?SO //. congr (_ * _).
    have Lh := In c i L (ltn_ord i). rewrite diags_nth // eye_nth // leq_min Lh. exact: leq_trans Lh Lf.
  - move=> c k /andP [L Lt']. rewrite nth_mkseq // nth_mkseq // eyeT eye_past //. by rewrite (leq_trans _ L) // geq_minl.
Qed.
End Sparse.

Section Inverse.
Variable K : rcfType.
Variable svd : forall p n, 'M[K]_(p, n) -> 'M[K]_(p, n) * 'rV[K]_n * 'M[K]_n.

Lemma pid_diag : forall n k (a b : 'rV[K]_n), (forall j : 'I_n, a 0 j * b 0 j = (j < k)%:R) -> diag_mx a *m diag_mx b = pid_mx k.
Proof. move=> n k a b H. rewrite mulmx_diag. apply/matrixP => i j. rewrite !mxE H. case: (eqVneq i j) => [->|N] /=; [|by rewrite -val_eqE in N; rewrite (negbTE N)]. by rewrite eqxx. Qed.
Lemma rank_le : forall p n k (A : 'M[K]_(p, n)) u s v, A = u *m diag_mx s *m v -> (forall j : 'I_n, (k <= j)%N -> s 0 j = 0) -> (\rank A <= k)%N.
Proof.
  move=> p n k A u s v E Z. have D : diag_mx s = diag_mx s *m pid_mx k :> 'M_n.
  { have -> : pid_mx k = diag_mx (\row_j (j < k)%:R) :> 'M[K]_n.
    { apply/matrixP => i j. rewrite !mxE -val_eqE. by case: eqP => [->|] //=; rewrite ?mulr1n. }
    rewrite mulmx_diag. congr diag_mx. apply/rowP => j. rewrite !mxE. case: ltnP => [_|L]; [by rewrite mulr1|]. by rewrite Z // mul0r. }
  rewrite E D. apply: leq_trans (mxrankM_maxl _ _) _. apply: leq_trans (mxrankM_maxr _ _) _. apply: leq_trans (mxrankM_maxr _ _) _. case: (leqP k n) => L; [by rewrite rank_pid_mx|]. exact: leq_trans (rank_leq_row _) (ltnW L).
Qed.
Lemma rank_ge : forall p n k (A : 'M[K]_(p, n)) u s v, A = u *m diag_mx s *m v -> u^T *m u = 1%:M -> v *m v^T = 1%:M -> (k <= n)%N -> (forall j : 'I_n, (j < k)%N -> s 0 j != 0) -> (k <= \rank A)%N.
Proof.
  move=> p n k A u s v E Eu Ev L N. have D : diag_mx (\row_j (if (j < k)%N then (s 0 j)^-1 else 0)) *m diag_mx s = pid_mx k :> 'M_n.
  { apply: pid_diag => j. rewrite !mxE. case: ltnP => Lj; [by rewrite mulVf // N|by rewrite mul0r]. }
  have R : diag_mx (\row_j (if (j < k)%N then (s 0 j)^-1 else 0)) *m u^T *m A *m v^T = pid_mx k.
  { rewrite E !mulmxA -(mulmxA _ u^T u) Eu mulmx1 D -mulmxA Ev mulmx1. by []. }
  rewrite -[k in (k <= _)%N](rank_pid_mx K L L) -R. apply: leq_trans (mxrankM_maxl _ _) _. exact: mxrankM_maxr.
Qed.

(** of a matrix of rank d the inverse undoes the matrix within the space of its rows *)
Lemma inverse_spec : forall p n d (A : 'M[K]_(p, n)), svd_of K p n A (svd p n A) -> \rank A = d ->
  exists P, in_plane_inverse K svd d p n A = Some P /\ (exists Z, P *m A = A^T *m Z) /\ A *m (P *m A) = A.
Proof.
  move=> p n d A. rewrite /in_plane_inverse. case E : (svd p n A) => [[u s] v] [EA [Eu [Ev [Pos Mon]]]] R.
  have Nz : forall j : 'I_n, (j < d)%N -> s 0 j != 0.
  { move=> j L. apply/negP => /eqP Z. have := rank_le p n j A u s v EA. rewrite R leqNgt L. move=> H. suff : false by []. apply: H => k Lk. apply/eqP. by rewrite eq_le Pos andbT -Z Mon. }
  have Zr : forall j : 'I_n, (d <= j)%N -> s 0 j = 0.
  { move=> j L. apply/eqP. apply/negPn. apply/negP => N. have := rank_ge p n j.+1 A u s v EA Eu Ev (ltn_ord j). rewrite R ltnNge L /=. move=> H. suff : false by []. apply: H => k Lk.
    apply/negP => /eqP Z. case/negP: N. rewrite eq_le Pos andbT -Z. exact: Mon. }
  case: ifP => [/existsP [j /andP [L Z]]|_]; [by rewrite (negbTE (Nz j L)) in Z|]. set P := \matrix_(k, i) _. exists P. split => //.
  pose dd := \row_j (if (j < d)%N then (s 0 j)^-1 else 0) : 'rV[K]_n.
  have EP : P = v^T *m diag_mx dd *m u^T.
  { apply/matrixP => k i. rewrite [LHS]mxE [RHS]mxE. apply: eq_bigr => j _. rewrite mul_mx_diag !mxE mulrC [u i j * _]mulrC mulrA. by []. }
  have PA : P *m A = v^T *m (diag_mx dd *m diag_mx s) *m v. { rewrite EP EA !mulmxA. by rewrite -(mulmxA _ u^T u) Eu mulmx1. }
  split.
  - exists (u *m (diag_mx dd *m diag_mx dd *m diag_mx s) *m v). rewrite PA EA !trmx_mul tr_diag_mx !mulmxA -(mulmxA _ u^T u) Eu mulmx1. congr (_ *m _). rewrite -!mulmxA. congr (_ *m _). rewrite !mulmx_diag. congr diag_mx.
    apply/rowP => j. rewrite !mxE. case: ltnP => L; [|by rewrite !mul0r mulr0]. by rewrite mulVf ?mulr1 ?mulfV ?Nz.
  - rewrite PA [in LHS]EA !mulmxA -(mulmxA _ v v^T) Ev mulmx1 [in RHS]EA. congr (_ *m _). rewrite -!mulmxA. congr (_ *m _). rewrite !mulmx_diag. congr diag_mx.
    apply/rowP => j. rewrite !mxE. case: ltnP => L; [by rewrite mulrA mulfV ?mul1r ?Nz|]. by rewrite (Zr j L) !mul0r.
Qed.
End Inverse.
