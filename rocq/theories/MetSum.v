(** Sums over the fundamental domains of one simplex. *)
From Coq Require Import Permutation Factorial.
From mathcomp Require Import all_ssreflect all_fingroup all_algebra.
From Verif Require Import GeoModel GeoSpec GeoProofs GeoProps MetModel MetSpec MetAff.
From Verif Require Util SimpModel SimpSpec SubdModel SubdSpec ParProofs TopProofs OrientProofs FundProofs.
Import Order.TTheory GRing.Theory Num.Theory.
Local Open Scope nat_scope.
Local Open Scope ring_scope.

(** ** Lists of Coq and of mathcomp *)
Lemma nthE : forall (T : Type) (x : T) l k, List.nth k l x = nth x l k.
Proof. move=> T x. elim=> [|y l IH] [|k] //=. Qed.
Lemma sizeE : forall (T : Type) (l : seq T), List.length l = size l. Proof. by []. Qed.
Lemma InE : forall (E : eqType) (l : seq E) x, List.In x l <-> x \in l.
Proof. move=> E. elim=> [|y l IH] x //=. rewrite inE IH. split=> [[->|->]|/orP [/eqP ->|H]]; rewrite ?eqxx ?orbT //; auto. Qed.
Lemma NoDupE : forall l : seq nat, List.NoDup l <-> uniq l.
Proof. elim=> [|y l IH] /=; [split => // _; constructor|]. split=> [H|/andP [N U]]. { inversion H; subst. apply/andP. split; [by apply/negP => /InE|by apply/IH]. } constructor; [by move/InE; apply/negP|by apply/IH]. Qed.
Lemma PermE : forall l l' : seq nat, Permutation l l' -> perm_eq l l'.
Proof. move=> l l'. elim=> //= [x a b _ H|x y a|a b c _ H1 _ H2]; [by rewrite perm_cons| |exact: perm_trans H1 H2]. apply/seq.permP => p /=. by rewrite addnCA. Qed.
Lemma PermP : forall l l' : seq nat, perm_eq l l' -> Permutation l l'.
Proof.
  elim=> [|x l IH] l' P. { have := perm_size P. by case: l' {P}. }
  have X : x \in l' by rewrite -(perm_mem P) inE eqxx. have Q := perm_to_rem X. have P2 : perm_eq l (rem x l') by rewrite -(perm_cons x); exact: perm_trans P Q.
  apply: Permutation_trans (perm_skip x (IH _ P2)) _. elim: l' X {P Q P2 IH} => // y l' IH. rewrite inE /=. case: (y =P x) => [-> //|N] /orP [/eqP E|H]; [by case: N|]. apply: Permutation_trans (perm_swap y x _) _. constructor. exact: IH.
Qed.
Lemma flatE : forall (A B : Type) (f : A -> seq B) l, List.flat_map f l = flatten [seq f x | x <- l].
Proof. move=> A B f. by elim=> //= x l ->. Qed.
Lemma mapE : forall (A B : Type) (f : A -> B) l, List.map f l = [seq f x | x <- l]. Proof. by []. Qed.
Lemma seqE : forall a b, List.seq a b = iota a b. Proof. move=> a b. elim: b a => [|b IH] a //=. Qed.
Lemma factE : forall n, fact n = n`!. Proof. elim=> [|n IH]; [reflexivity|]. rewrite factS -IH mulSn -multE -plusE. reflexivity. Qed.
Lemma omitE : forall c s, SimpSpec.omit c s = take c s ++ drop c.+1 s.
Proof. move=> c s. rewrite /SimpSpec.omit. congr (_ ++ _); [elim: s c => [|x s IH] [|c] //=; by rewrite IH|]. elim: s c => [|x s IH] [|c] //=; [by rewrite drop0|]. by rewrite -IH. Qed.
Lemma ltE : forall a b, (a < b)%coq_nat <-> (a < b)%N. Proof. move=> a b. by split=> /ssrnat.ltP. Qed.

Section Sum.
Variable K : rcfType.
(** sums over a list with distinct entries *)
Lemma sum_sub : forall (V : zmodType) (F : nat -> V) (s e : seq nat), uniq s -> uniq e -> {subset e <= s} -> (forall v, v \notin e -> F v = 0) -> \sum_(v <- s) F v = \sum_(v <- e) F v.
Proof.
  move=> V F s e Us Ue Sb Z. rewrite (bigID (mem e)) /= [X in _ + X]big1 ?addr0 // -big_filter. apply: perm_big. apply: uniq_perm; [exact: filter_uniq|by []|].
  move=> v. rewrite mem_filter. case E : (v \in e) => //=. by rewrite Sb.
Qed.
Lemma sum_nth : forall (V : zmodType) (F : nat -> V) (s : seq nat) m, size s = m -> \sum_(v <- s) F v = \sum_(i < m) F (nth 0%N s i).
Proof. move=> V F s m <-. by rewrite (big_nth 0%N) big_mkord. Qed.

Variables (n : nat) (rows : list SimpModel.simplex) (t : SimpModel.topology).
Hypothesis Hn : (1 <= n)%coq_nat.
Hypothesis T : TopProofs.top_ok n rows t.
Variable d : nat.
Variable pos : nat -> 'rV[K]_d.
Variable PP : nat -> nat -> 'rV[K]_d.
Variable coef : nat -> nat -> nat -> K.
Hypothesis C : centres K t d n pos PP coef.
Notation el := (OrientProofs.el t).
Notation tails := (FundProofs.tails t).
Notation idx := (FundProofs.idx t).
Notation facet := ParProofs.facet.

Definition inside (m : nat) (s : seq nat) : Prop := size s = m.+1 /\ FundProofs.inside rows s.
Lemma inside_uniq : forall m s, inside m s -> uniq s.
Proof. move=> m s [_ [/NoDupE]]. by []. Qed.
Lemma facet_omit : forall m c s, (c < size s)%N -> perm_eq (take c s ++ drop c.+1 s) (facet m c s).
Proof. move=> m c s /ssrnat.ltP L. rewrite -omitE. apply: PermE. exact: ParProofs.facet_perm. Qed.
Lemma facet_in : forall m c s, (c < m.+2)%N -> inside m.+1 s -> inside m (facet m.+1 c s).
Proof.
  move=> m c s L [Sz I]. have L' : (c < List.length s)%coq_nat by apply/ssrnat.ltP; rewrite sizeE Sz. split; [|exact: FundProofs.facet_inside].
  rewrite -sizeE ParProofs.facet_length // sizeE Sz minusE subn1. by [].
Qed.
Lemma not_in_facet : forall m c s, (c < m.+2)%N -> inside m.+1 s -> nth 0%N s c \notin facet m.+1 c s.
Proof.
  move=> m c s L I. have [Sz _] := I. have U := inside_uniq _ _ I. have L' : (c < size s)%N by rewrite Sz. rewrite -(perm_mem (facet_omit m.+1 c s L')).
  have := U. rewrite -{1}(cat_take_drop c s) (drop_nth 0%N L') -cat1s uniq_catCA cat1s cons_uniq => /andP []. by [].
Qed.
Lemma facet_sub : forall m c s, (c < m.+2)%N -> inside m.+1 s -> {subset facet m.+1 c s <= s}.
Proof. move=> m c s L [Sz _] v. have L' : (c < size s)%N by rewrite Sz. rewrite -(perm_mem (facet_omit m.+1 c s L')) mem_cat => /orP [/mem_take|/mem_drop]; by []. Qed.

(** the rows of a simplex consist of elements inside it *)
Lemma tails_in : forall m s r, (1 <= m <= n)%N -> inside m s -> List.In r (tails m s) -> size r = m /\ forall k, (k < m)%N -> (nth 0%N r k < SimpModel.n_elements t k)%N /\ {subset el k (nth 0%N r k) <= s}.
Proof.
  move=> m s r /andP [M1 Mn] [Sz I] H. have M : Peano.le 1 m /\ Peano.le m n by split; apply/ssrnat.leP. have [L [E [Ch Top]]] := proj1 (FundProofs.tails_spec n rows t Hn T m s M Sz I r) H. split; [exact: L|].
  have Step : forall q k, (k + q = m.-1)%N -> {subset el k (nth 0%N r k) <= s}.
  { elim=> [|q IH] k Q v V.
    - rewrite addn0 in Q. apply/InE. apply: (Top v). apply/InE. have Ek : Nat.sub m 1 = k by rewrite minusE subn1 -Q. by rewrite Ek nthE.
    - apply: (IH k.+1); [by rewrite addSnnS|]. have Lk : (k.+1 < m)%N by rewrite -(prednK M1) ltnS -Q -addSnnS leq_addr. apply/InE. rewrite -[nth _ _ _]nthE. apply: (Ch k); [exact/ssrnat.ltP|]. rewrite nthE. exact/InE. }
  move=> k Lk. split; [apply/ssrnat.ltP; rewrite -nthE; apply: E; exact/ssrnat.ltP|]. apply: (Step (m.-1 - k)%N). apply: subnKC. by rewrite -ltnS prednK.
Qed.
Lemma idx_ok : forall k s, (k < n)%N -> inside k s -> (idx k s < SimpModel.n_elements t k)%N /\ perm_eq (el k (idx k s)) s.
Proof. move=> k s L [Sz I]. have [H1 H2] := FundProofs.idx_ok n rows t Hn T k s (elimT ssrnat.ltP L) Sz I. split; [exact/ssrnat.ltP|exact: PermE]. Qed.
Lemma el_uniq : forall k e, (k <= n)%N -> (e < SimpModel.n_elements t k)%N -> uniq (el k e).
Proof. move=> k e L E. apply/NoDupE. exact: (proj2 (OrientProofs.el_len n rows t Hn T k e (elimT ssrnat.leP L) (elimT ssrnat.ltP E))). Qed.
Lemma coef_sum : forall k e s, (k <= n)%N -> (e < SimpModel.n_elements t k)%N -> uniq s -> {subset el k e <= s} -> \sum_(v <- s) coef k e v = 1.
Proof. move=> k e s L E U Sb. have [Z [S1 _]] := C k e L E. rewrite (sum_sub _ _ s (el k e)) //. exact: el_uniq. Qed.
Lemma coef_pos : forall k e s, (k <= n)%N -> (e < SimpModel.n_elements t k)%N -> uniq s -> {subset el k e <= s} -> PP k e = \sum_(v <- s) coef k e v *: pos v.
Proof. move=> k e s L E U Sb. have [Z [_ ->]] := C k e L E. rewrite -(sum_sub _ (fun v => coef k e v *: pos v) s (el k e)) //; [exact: el_uniq|]. move=> v V. by rewrite Z // scale0r. Qed.

(** ** The shares of the domains of one simplex *)
Definition stack (m : nat) (r : seq nat) (beta : nat -> K) (i v : nat) : K := if (i < m)%N then coef i (nth 0%N r i) v else beta v.
Definition share (m : nat) (s : seq nat) (beta : nat -> K) : K := \sum_(r <- tails m s) `|\det (table K m.+1 (stack m r beta) s)|.
Lemma vert_coef : forall v w, (v < SimpModel.n_elements t 0%N)%N -> coef 0%N v w = (w == v)%:R.
Proof.
  move=> v w V. have [Z [S1 _]] := C 0%N v (leq0n n) V. have E : SubdSpec.element t 0%N v = [:: v] by exact: (FundProofs.vert_el n rows t T v (elimT ssrnat.ltP V)). rewrite E in Z S1.
  case: eqP => [->|N]; [by rewrite -S1 big_seq1|]. apply: Z. rewrite inE. exact/eqP.
Qed.
Lemma inside_vert : forall m s v, inside m s -> v \in s -> (v < SimpModel.n_elements t 0%N)%N.
Proof. move=> m s v [_ I] V. apply/ssrnat.ltP. apply: (FundProofs.inside_vert n rows t T s v I). exact/InE. Qed.
Lemma share1 : forall s beta, inside 1%N s -> share 1%N s beta = \sum_(c < 2) `|beta (nth 0%N s c)|.
Proof.
  move=> s beta I. have [Sz _] := I. have U := inside_uniq _ _ I. have V := fun v => inside_vert _ _ v I. case: s Sz I U V => [|a [|b [|? ?]]] // _ I U V.
  have Nab : (a == b) = false by move: U => /= /andP [/negP H _]; apply/negbTE/negP => E; apply: H; rewrite inE.
  have Va : (a < SimpModel.n_elements t 0%N)%N by apply: V; rewrite !inE eqxx. have Vb : (b < SimpModel.n_elements t 0%N)%N by apply: V; rewrite !inE eqxx orbT.
  rewrite /share /= !big_cons big_nil addr0 big_ord_recl big_ord1 /= addrC. congr (_ + _).
  - have Zc : forall i, (i < 1)%N -> stack 1%N [:: b] beta i (nth 0%N [:: a; b] 0%N) = 0. { case=> // _. by rewrite /stack /= vert_coef // Nab. }
    rewrite (table_last K 1%N _ [:: a; b] 0%N isT erefl Zc) /=. have -> : table K 1%N (stack 1%N [:: b] beta) [:: b] = 1%:M. { apply/matrixP => i j. rewrite !ord1 !mxE /= /stack /= vert_coef // !eqxx. by []. } by rewrite det1 normr1 mulr1 /stack.
  - have Zc : forall i, (i < 1)%N -> stack 1%N [:: a] beta i (nth 0%N [:: a; b] 1%N) = 0. { case=> // _. by rewrite /stack /= vert_coef // eq_sym Nab. }
    rewrite (table_last K 1%N _ [:: a; b] 1%N isT erefl Zc) /=. have -> : table K 1%N (stack 1%N [:: a] beta) [:: a] = 1%:M. { apply/matrixP => i j. rewrite !ord1 !mxE /= /stack /= vert_coef // !eqxx. by []. } by rewrite det1 normr1 mulr1 /stack.
Qed.
Lemma tails_step : forall m s, tails m.+2 s = flatten [seq [seq rcons r (idx m.+1 (facet m.+2 c s)) | r <- tails m.+1 (facet m.+2 c s)] | c <- iota 0 m.+3].
Proof. move=> m s. rewrite -seqE. change (tails m.+2 s) with (List.flat_map (fun f => List.map (fun r => r ++ [:: idx m.+1 f]) (tails m.+1 f)) (List.map (fun c => facet m.+2 c s) (List.seq 0 m.+3))). rewrite flatE mapE -map_comp. congr flatten. apply: eq_map => c /=. apply: eq_map => r. by rewrite cats1. Qed.
Lemma split_share : forall m s c r beta, (m.+2 <= n)%N -> inside m.+2 s -> (c < m.+3)%N -> r \in tails m.+1 (facet m.+2 c s) ->
  `|\det (table K m.+3 (stack m.+2 (rcons r (idx m.+1 (facet m.+2 c s))) beta) s)| = `|beta (nth 0%N s c)| * `|\det (table K m.+2 (stack m.+1 r (coef m.+1 (idx m.+1 (facet m.+2 c s)))) (facet m.+2 c s))|.
Proof.
  move=> m s c r beta Mn I Lc R. have [Sz _] := I. set f := facet m.+2 c s. have If : inside m.+1 f := facet_in m.+1 c s Lc I. have [Szf _] := If. have NI := not_in_facet m.+1 c s Lc I.
  have Mn' : (1 <= m.+1 <= n)%N by rewrite /= ltnW. have [Lr Er] := tails_in m.+1 f r Mn' If (proj2 (InE _ _ _) R). have [Ei Pi] := idx_ok m.+1 f Mn If.
  have Co : forall k e v, (k <= n)%N -> (e < SimpModel.n_elements t k)%N -> v \notin el k e -> coef k e v = 0 by move=> k e v Hk He; exact: (proj1 (C k e Hk He)).
  have Zc : forall i, (i < m.+2)%N -> stack m.+2 (rcons r (idx m.+1 f)) beta i (nth 0%N s c) = 0.
  { move=> i Li. rewrite /stack Li nth_rcons Lr. move: (Li). rewrite ltnS leq_eqVlt => /orP [/eqP E|L].
    - rewrite E ltnn eqxx. apply: Co => //. by rewrite (perm_mem Pi).
    - rewrite L. have [E1 E2] := Er i L. apply: Co => //; [apply: leq_trans (ltnW Mn); exact: ltnW|]. apply/negP => /E2. by apply/negP. }
  rewrite (table_last K m.+2 _ s c Lc Sz Zc). congr (_ * _); [by rewrite /stack ltnn|].
  have Sz' : size (take c s ++ drop c.+1 s) = m.+2 by rewrite (perm_size (facet_omit m.+2 c s _)) ?Sz.
  rewrite (table_perm K m.+2 _ _ f Sz'); [|by apply: facet_omit; rewrite Sz]. congr (`|\det _|). apply/matrixP => i j. rewrite !mxE /stack ltn_ord nth_rcons Lr.
  have := ltn_ord i. rewrite ltnS leq_eqVlt => /orP [/eqP E|L]; [|by rewrite L]. by rewrite E ltnn eqxx.
Qed.
Lemma shareS : forall m s beta, (m.+2 <= n)%N -> inside m.+2 s ->
  share m.+2 s beta = \sum_(c < m.+3) `|beta (nth 0%N s c)| * share m.+1 (facet m.+2 c s) (coef m.+1 (idx m.+1 (facet m.+2 c s))).
Proof.
  move=> m s beta Mn I. rewrite /share tails_step big_flatten big_map -[iota 0 m.+3]/(index_iota 0 m.+3) big_mkord. apply: eq_bigr => c _. rewrite big_map mulr_sumr big_seq [RHS]big_seq. apply: eq_bigr => r R.
  by apply: split_share.
Qed.
Lemma share_one : forall m s beta, (1 <= m <= n)%N -> inside m s -> (forall k e v, (1 <= k < m)%N -> (e < SimpModel.n_elements t k)%N -> {subset el k e <= s} -> 0 <= coef k e v) ->
  share m s beta = \sum_(v <- s) `|beta v|.
Proof.
  elim=> [|m IH] // s beta /andP [_ Mn] I N. have [Sz _] := I. rewrite (sum_nth _ _ s m.+2 Sz). case: m IH Mn I N Sz => [|m] IH Mn I N Sz; [exact: share1|].
  rewrite shareS //. apply: eq_bigr => c _. have Lc := ltn_ord c. set f := facet _ _ _. have If : inside m.+1 f := facet_in m.+1 c s Lc I. have [Ei Pi] := idx_ok m.+1 f Mn If.
  have Sb : {subset f <= s} := facet_sub m.+1 c s Lc I. rewrite IH //; [|by rewrite /= ltnW|].
  - rewrite (eq_bigr (coef m.+1 (idx m.+1 f))). 2:{ move=> v _. apply: ger0_norm. apply: N => //; [by rewrite /= ltnSn|]. move=> w. rewrite (perm_mem Pi). exact: Sb. }
    rewrite coef_sum ?mulr1 //; [exact: ltnW|exact: inside_uniq If|]. move=> w. by rewrite (perm_mem Pi).
  - move=> k e v /andP [K1 K2] E S. apply: N => //; [by rewrite K1 ltnW|]. move=> w /S. exact: Sb.
Qed.
(** every element below a simplex is in one of its rows *)
Lemma tails_hit : forall m s k e, (1 <= m <= n)%N -> inside m s -> (k < m)%N -> (e < SimpModel.n_elements t k)%N -> {subset el k e <= s} -> exists2 r, r \in tails m s & nth 0%N r k = e.
Proof.
  elim=> [|m IH] // s k e /andP [_ Mn] I L E S. have [Sz _] := I. case: m IH Mn I L Sz => [|m] IH Mn I L Sz.
  - case: k L E S => // _ E S. exists [:: e] => //. have : e \in s. { apply: S. have -> : el 0%N e = [:: e] by exact: (FundProofs.vert_el n rows t T e (elimT ssrnat.ltP E)). exact: mem_head. } move: s {S I Sz} => s H. rewrite /= mapE. exact: map_f.
  - have Kn : (k <= n)%N by apply: leq_trans Mn; exact: ltnW. have [Lel _] := OrientProofs.el_len n rows t Hn T k e (elimT ssrnat.leP Kn) (elimT ssrnat.ltP E).
    have [v [Vs Ve]] : exists v, List.In v s /\ ~ List.In v (el k e). { apply: TopProofs.exists_outside; [apply/NoDupE; exact: inside_uniq I|]. apply/ssrnat.ltP. rewrite Lel sizeE Sz. exact: L. }
    move/InE in Vs. pose c := index v s. have Lc : (c < m.+3)%N by rewrite -Sz index_mem. have Lc' : (c < size s)%N by rewrite Sz.
    pose f := facet m.+2 c s. have If : inside m.+1 f := facet_in m.+1 c s Lc I. have Mn1 : (1 <= m.+1 <= n)%N by rewrite /= ltnW.
    have Sf : {subset el k e <= f}. { move=> w W. rewrite -(perm_mem (facet_omit m.+2 c s Lc')). have Ws := S w W. have Es : s = take c s ++ v :: drop c.+1 s by rewrite -{1}(cat_take_drop c s) (drop_nth 0%N Lc') nth_index. rewrite Es mem_cat inE in Ws. rewrite mem_cat. move: Ws.
      case: (w =P v) => [X|_ //]. case: Ve. apply/InE. by rewrite -X. }
    have In_step : forall r, r \in tails m.+1 f -> rcons r (idx m.+1 f) \in tails m.+2 s. { move=> r R. rewrite tails_step. apply/flatten_mapP. exists c; [by rewrite mem_iota|]. exact: map_f. }
    move: L. rewrite ltnS leq_eqVlt => /orP [/eqP X|L].
    + subst k. have [Ei Pi] := idx_ok m.+1 f Mn If. have : (0 < size (tails m.+1 f))%N. { have [Szf _] := If. have := FundProofs.tails_length n t Hn m.+1 f (elimT ssrnat.leP (ltn0Sn m)) Szf. rewrite sizeE factE => ->. exact: fact_gt0. }
      case Et : (tails m.+1 f) => [|r l] // _. have R : r \in tails m.+1 f by rewrite Et inE eqxx. exists (rcons r (idx m.+1 f)); [exact: In_step|]. have [Lr _] := tails_in m.+1 f r Mn1 If (proj2 (InE _ _ _) R). rewrite nth_rcons Lr ltnn eqxx.
      refine (TopProofs.faces_unique n rows t T m.+1 _ _ (elimT ssrnat.ltP Mn) (elimT ssrnat.ltP Ei) (elimT ssrnat.ltP E) _).
      have PP2 : perm_eq (el m.+1 e) f. { have Uf := inside_uniq _ _ If. apply: uniq_perm => //; [exact: el_uniq|]. have [] := uniq_min_size (el_uniq m.+1 e Kn E) Sf; [|by []]. have [Szf _] := If. rewrite Szf. rewrite -[size _]sizeE Lel. by []. }
      apply: PermP. apply: perm_trans Pi _. by rewrite perm_sym.
    + have [r R Er] := IH f k e Mn1 If L E Sf. exists (rcons r (idx m.+1 f)); [exact: In_step|]. have [Lr _] := tails_in m.+1 f r Mn1 If (proj2 (InE _ _ _) R). by rewrite nth_rcons Lr L.
Qed.
End Sum.
