(** Sums over closed surfaces. *)
From mathcomp Require Import all_ssreflect all_algebra.
From Coq Require Import Ring Field.
From Verif Require Import GeoModel GeoSpec GeoProofs GeoProps GeoRing SurfModel SurfSpec.
From Verif Require Util.
Import Order.TTheory GRing.Theory Num.Theory.
Local Open Scope ring_scope.

Section Surf.
Variable K : rcfType.
Add Field Kf : (K_field K).
Ltac kring := kprep K; ring.
Ltac kfield := kprep K; field.
Lemma N2 : (1 + 1 : K) <> 0. Proof. apply/eqP. by rewrite -(natrD _ 1 1) pnatr_eq0. Qed.
Lemma N3 : (1 + (1 + 1) : K) <> 0. Proof. apply/eqP. by rewrite -(natrD _ 1 1) -(natrD _ 1 2) pnatr_eq0. Qed.
Notation vec := (vec K).

Lemma sum_big : forall (T : Type) (F : T -> K) l, sum K [seq F t | t <- l] = \sum_(t <- l) F t.
Proof. move=> T F. elim=> [|t l IH]; [by rewrite big_nil|]. by rewrite big_cons /= IH. Qed.
Lemma total_big : forall (T : Type) (F : T -> K) l, total K [seq F t | t <- l] = \sum_(t <- l) F t.
Proof. move=> T F. elim=> [|t l IH]; [by rewrite big_nil|]. by rewrite big_cons /= IH. Qed.

Lemma balanced_zero : forall edges (f : nat * nat -> K), balanced edges -> (forall e, f (turned e) = - f e) -> \sum_(e <- edges) f e = 0.
Proof.
  move=> edges f B A. have TT : forall e, turned (turned e) = e by case.
  have P : perm_eq edges [seq turned e | e <- edges].
  { rewrite /perm_eq. apply/allP => e _ /=. rewrite count_map B. apply/eqP. apply: eq_count => x /=. apply/eqP/eqP => [->|<-]; by rewrite TT. }
  have E : \sum_(e <- edges) f e = - \sum_(e <- edges) f e.
  { rewrite {1}(perm_big _ P) /= big_map -sumrN. apply: eq_bigr => e _. exact: A. }
  apply/eqP. move/eqP: E. rewrite -addr_eq0 -mulr2n mulrn_eq0 /=. by [].
Qed.
Lemma sides_sum : forall tris (g : nat * nat -> K), \sum_(e <- sides tris) g e = \sum_(t <- tris) (g (t.1.1, t.1.2) + g (t.1.2, t.2) + g (t.2, t.1.1)).
Proof. move=> tris g. rewrite /sides big_flatten big_map /=. apply: eq_bigr => t _. by rewrite !big_cons big_nil addr0 !addrA. Qed.

Definition det3 (a b c : vec) : K := vdot K a (cross K b c).
Lemma det3_normal : forall (pos : nat -> vec) t, vdot K (triangle_normal K pos t) (triangle_centroid K pos t) = det3 (pos t.1.1) (pos t.1.2) (pos t.2).
Proof.
  move=> pos [[a b] c]. rewrite /triangle_normal /triangle_centroid /det3 /vdot /cross /vsub /vadd /vscale /=. case: (pos a) => [[a1 a2] a3]. case: (pos b) => [[b1 b2] b3]. case: (pos c) => [[c1 c2] c3] /=.
  kfield. exact: N3.
Qed.
Lemma volume_det : forall tris pos, volume K tris pos = (\sum_(t <- tris) det3 (pos t.1.1) (pos t.1.2) (pos t.2)) / 6%:R.
Proof.
  move=> tris pos. rewrite /volume (sum_big _ (fun t => vdot K (triangle_normal K pos t) (triangle_centroid K pos t))) (eq_bigr _ (fun t _ => det3_normal pos t)).
  rewrite -mulrA -invfM -natrM. by [].
Qed.

(** ** Determinants of small matrices *)
Lemma det22 : forall A : 'M[K]_2, \det A = A ord0 ord0 * A (lift ord0 ord0) (lift ord0 ord0) - A ord0 (lift ord0 ord0) * A (lift ord0 ord0) ord0.
Proof.
  move=> A. rewrite (expand_det_row _ ord0) !big_ord_recl big_ord0 /cofactor !det_mx11 !mxE /=.
  have -> : lift (lift ord0 ord0) 0 = ord0 :> 'I_2 by apply: val_inj. have -> : lift ord0 0 = lift ord0 ord0 :> 'I_2 by apply: val_inj. kring.
Qed.
Notation i0 := (ord0 : 'I_3).
Notation i1 := (lift ord0 ord0 : 'I_3).
Notation i2 := (lift ord0 (lift ord0 ord0) : 'I_3).
Lemma det33 : forall A : 'M[K]_3, \det A = A i0 i0 * (A i1 i1 * A i2 i2 - A i1 i2 * A i2 i1) - A i0 i1 * (A i1 i0 * A i2 i2 - A i1 i2 * A i2 i0) + A i0 i2 * (A i1 i0 * A i2 i1 - A i1 i1 * A i2 i0).
Proof.
  move=> A. rewrite (expand_det_row _ ord0) !big_ord_recl big_ord0 /cofactor !det22 !mxE /=.
  have E0 : lift i1 ord0 = i0 by apply: val_inj. have E1 : lift i1 (lift ord0 ord0) = i2 by apply: val_inj. have E2 : lift i2 ord0 = i0 by apply: val_inj. have E3 : lift i2 (lift ord0 ord0) = i1 by apply: val_inj.
  rewrite !E0 !E1 !E2 !E3 /bump /=. kring.
Qed.

Lemma signed_points : forall a b c d : vec, signed_volume K 3 3 (points K 4 [:: a; b; c; d]) = Util.Ok (det3 (vsub K b a) (vsub K c a) (vsub K d a) / 6%:R).
Proof.
  move=> [[a1 a2] a3] [[b1 b2] b3] [[c1 c2] c3] [[d1 d2] d3]. rewrite signed_square. congr (Util.Ok (_ / _)). rewrite det33 !mxE /= /det3 /vdot /cross /vsub /=. kring.
Qed.
Lemma det_tet : forall a b c d : vec, det3 b c d + det3 a d c + det3 a b d + det3 a c b = det3 (vsub K b a) (vsub K c a) (vsub K d a).
Proof. move=> [[a1 a2] a3] [[b1 b2] b3] [[c1 c2] c3] [[d1 d2] d3]. rewrite /det3 /vdot /cross /vsub /=. kring. Qed.
Lemma det_alt : forall pos : nat -> vec, alternating K (fun a b c => det3 (pos a) (pos b) (pos c)).
Proof. move=> pos a b c. case: (pos a) (pos b) (pos c) => [[a1 a2] a3] [[b1 b2] b3] [[c1 c2] c3]. rewrite /det3 /vdot /cross /=. split; kring. Qed.
Lemma det_shift : forall a b c d : vec, det3 (vadd K a d) (vadd K b d) (vadd K c d) = det3 a b c + (det3 d a b + det3 d b c + det3 d c a).
Proof. move=> [[a1 a2] a3] [[b1 b2] b3] [[c1 c2] c3] [[d1 d2] d3]. rewrite /det3 /vdot /cross /vadd /=. kring. Qed.
Lemma det_anti : forall d a b : vec, det3 d b a = - det3 d a b.
Proof. move=> [[d1 d2] d3] [[a1 a2] a3] [[b1 b2] b3]. rewrite /det3 /vdot /cross /=. kring. Qed.

(** ** Volumes *)
Lemma volume_fills : forall tris pos tets, encloses K tris tets ->
  volume K tris pos = \sum_(t <- tets) (det3 (vsub K (pos t.1.1.2) (pos t.1.1.1)) (vsub K (pos t.1.2) (pos t.1.1.1)) (vsub K (pos t.2) (pos t.1.1.1)) / 6%:R).
Proof.
  move=> tris pos tets E. rewrite volume_det -mulr_suml. congr (_ / _). have := E _ (det_alt pos).
  rewrite (total_big _ (fun t => det3 (pos t.1.1) (pos t.1.2) (pos t.2))) (total_big _ (around K (fun a b c => det3 (pos a) (pos b) (pos c)))) => ->.
  apply: eq_bigr => [[[[a b] c] d]] _ /=. exact: det_tet.
Qed.
Lemma cone_encloses : forall tris o, balanced (sides tris) -> encloses K tris [seq (o, t.1.1, t.1.2, t.2) | t <- tris].
Proof.
  move=> tris o B f A. rewrite -map_comp (total_big _ (fun t => f t.1.1 t.1.2 t.2)) (total_big _ (around K f \o (fun t => (o, t.1.1, t.1.2, t.2)))).
  have Z := balanced_zero (sides tris) (fun e => f o e.1 e.2) B. rewrite sides_sum in Z.
  have T : forall a b c, f a c b = - f a b c. { move=> a b c. case: (A a c b) => R1 _. case: (A b c a) => R2 R3. case: (A a b c) => R4 _. case: (A c b a) => R5 R6. rewrite -R1. case: (A c b a) => _ R. case: (A b c a) => _ R'. rewrite R' R4. by []. }
  apply/eqP. rewrite -subr_eq0 -sumrB. apply/eqP. transitivity (\sum_(t <- tris) (f o t.1.1 t.1.2 + f o t.1.2 t.2 + f o t.2 t.1.1)); [|by apply: Z => [[a b]] /=; exact: T].
  apply: eq_bigr => [[[a b] c]] _ /=. rewrite (T o b c) (T o c a) (T o a b). kring.
Qed.

(** ** Moving one vertex *)
Definition occ (v : nat) (t : nat * nat * nat) : nat := count_mem v [:: t.1.1; t.1.2; t.2].
Lemma vdot_vsum : forall (l : seq vec) d, vdot K (vsum K l) d = \sum_(x <- l) vdot K x d.
Proof. move=> l d. elim: l => [|x l IH]; [by rewrite big_nil /vdot /= !mul0r !addr0|]. rewrite big_cons -IH /vdot /=. kring. Qed.
Lemma flat_sum : forall (T : Type) (F : T -> K) (G : nat * nat * nat -> T) v tris, \sum_(x <- flatten [seq [seq G t | c <- corners_of t & c == v] | t <- tris]) F x = \sum_(t <- tris) (occ v t)%:R * F (G t).
Proof.
  move=> T F G v tris. rewrite big_flatten big_map. apply: eq_bigr => t _. rewrite big_map /occ /corners_of big_filter big_const_seq iter_addr addr0 mulr_natl. by [].
Qed.
Definition moved (pos : nat -> vec) (v : nat) (d : vec) (w : nat) : vec := if w == v then vadd K (pos w) d else pos w.
Definition touch (v : nat) (e : nat * nat) : bool := (e.1 == v) || (e.2 == v).
Lemma det_moved : forall pos v d t, uniq [:: t.1.1; t.1.2; t.2] ->
  let h e := if touch v e then det3 d (pos e.1) (pos e.2) else 0 in
  det3 (moved pos v d t.1.1) (moved pos v d t.1.2) (moved pos v d t.2) =
  det3 (pos t.1.1) (pos t.1.2) (pos t.2) + (occ v t)%:R * vdot K (triangle_normal K pos t) d - (h (t.1.1, t.1.2) + h (t.1.2, t.2) + h (t.2, t.1.1)).
Proof.
  move=> pos v d [[a b] c] /=. rewrite !inE negb_or andbT => /andP [/andP [Nab Nac] Nbc]. rewrite /touch /moved /occ /triangle_normal /=.
  have X : forall x y : nat, x != y -> x == v -> (y == v) = false by move=> x y N /eqP E; apply/negbTE; rewrite -E eq_sym.
  case Ea : (a == v); [rewrite (X a b Nab Ea) (X a c Nac Ea)|case Eb : (b == v); [rewrite (X b c Nbc Eb)|case Ec : (c == v)]] => /=;
    case: (pos a) (pos b) (pos c) d => [[a1 a2] a3] [[b1 b2] b3] [[c1 c2] c3] [[d1 d2] d3]; rewrite /det3 /vdot /cross /vsub /vadd /=; kring.
Qed.
Lemma volume_moved : forall tris pos v d, balanced (sides tris) -> (forall t, t \in tris -> uniq [:: t.1.1; t.1.2; t.2]) ->
  volume K tris (moved pos v d) = volume K tris pos + (\sum_(t <- tris) (occ v t)%:R * vdot K (triangle_normal K pos t) d) / 6%:R.
Proof.
  move=> tris pos v d B U. rewrite !volume_det -mulrDl. congr (_ / _).
  have Z := balanced_zero (sides tris) (fun e => if touch v e then det3 d (pos e.1) (pos e.2) else 0) B. rewrite sides_sum in Z.
  rewrite -big_split /=. apply/eqP. rewrite -subr_eq0 -sumrB. apply/eqP. rewrite big_seq_cond.
  rewrite (eq_bigr (fun t => - ((fun e => if touch v e then det3 d (pos e.1) (pos e.2) else 0) (t.1.1, t.1.2) + (fun e => if touch v e then det3 d (pos e.1) (pos e.2) else 0) (t.1.2, t.2) + (fun e => if touch v e then det3 d (pos e.1) (pos e.2) else 0) (t.2, t.1.1)))).
  2:{ move=> t /andP [/U Ut _]. rewrite (det_moved pos v d t Ut) /=. kring. }
  rewrite -big_seq_cond sumrN Z ?oppr0 // => [[x y]]. rewrite /touch /turned /= orbC. case: ifP => _; [exact: det_anti|by rewrite oppr0].
Qed.

(** ** Areas *)
Lemma norm_unsigned : forall pos t, unsigned_volume K 2 3 (points K 3 [:: pos t.1.1; pos t.1.2; pos t.2]) = Util.Ok (norm K (triangle_normal K pos t) / 2%:R).
Proof.
  move=> pos [[a b] c]. rewrite /unsigned_volume /=. congr (Util.Ok (Num.sqrt _ / _)).
  have Q : forall x : K, 0 <= x -> x = `|x| by move=> x X; rewrite ger0_norm. rewrite [RHS]Q; [|by rewrite /vdot !addr_ge0 // -expr2 sqr_ge0]. congr (`|_|).
  rewrite det22 !mxE /=. rewrite !big_ord_recl !big_ord0 !mxE /=. rewrite /triangle_normal /=. case: (pos a) (pos b) (pos c) => [[a1 a2] a3] [[b1 b2] b3] [[c1 c2] c3]. rewrite /vdot /cross /vsub /=. kring.
Qed.
Lemma sum_counts : forall u l : seq nat, uniq u -> {subset l <= u} -> (\sum_(v <- u) count_mem v l)%N = size l.
Proof.
  move=> u l U. elim: l => [|x l IH] Sb; [by rewrite /= big1|]. rewrite /= big_split /= IH; [|by move=> y H; apply: Sb; rewrite inE H orbT].
  rewrite -[(size l).+1]add1n. congr (_ + _)%N. have X : x \in u by apply: Sb; rewrite inE eqxx. transitivity (\sum_(v <- u | x == v) 1)%N; [by rewrite [RHS]big_mkcond; apply: eq_bigr => v _; case: (x == v)|].
  rewrite sum1_count -(eq_count (a1 := pred1 x)); [|by move=> y /=; exact: eq_sym]. by rewrite count_uniq_mem // X.
Qed.
Lemma used_uniq : forall tris, uniq (used tris).
Proof. move=> tris. by rewrite /used sort_uniq undup_uniq. Qed.
Lemma used_mem : forall tris v, (v \in used tris) = has (fun t => v \in [:: t.1.1; t.1.2; t.2]) tris.
Proof. move=> tris v. rewrite /used mem_sort mem_undup. apply/flatten_mapP/hasP => [[t T V]|[t T V]]; by exists t. Qed.
Lemma areas_total : forall tris pos, sum K (vertex_areas K tris pos) = \sum_(t <- tris) norm K (triangle_normal K pos t).
Proof.
  move=> tris pos. rewrite /vertex_areas sum_big -mulr_suml.
  rewrite (eq_bigr (fun v => \sum_(t <- tris) (occ v t)%:R * norm K (triangle_normal K pos t))). 2:{ move=> v _. rewrite -(flat_sum _ (fun x => x) (fun t => norm K (triangle_normal K pos t))). by rewrite -(sum_big _ (fun x => x)) map_id. }
  rewrite exchange_big /= mulr_suml big_seq_cond [RHS]big_seq_cond. apply: eq_bigr => t /andP [T _]. rewrite -mulr_suml -natr_sum (sum_counts _ _ (used_uniq tris)). 
  2:{ move=> v V. rewrite used_mem. apply/hasP. by exists t. }
  rewrite mulrAC mulfV ?mul1r // pnatr_eq0. by [].
Qed.
(** ** Centres of mass *)
Lemma tet_points : forall pos t, tet K pos t = points K 4 [:: pos t.1.1; pos t.1.2; pos t.2; (0, 0, 0)].
Proof. move=> pos t. by apply/matrixP => i j; rewrite !mxE. Qed.
Lemma tet_volume_det : forall pos t, tet_volume K pos t = `|det3 (pos t.1.1) (pos t.1.2) (pos t.2)| / 6%:R.
Proof.
  move=> pos [[a b] c]. rewrite /tet_volume tet_points (C75_signed_unsigned K 3 _ _ (signed_points _ _ _ _)) /= normrM [`|_^-1|]ger0_norm ?invr_ge0 ?ler0n //. congr (_ / _). rewrite -normrN. congr (`|_|).
  case: (pos a) (pos b) (pos c) => [[a1 a2] a3] [[b1 b2] b3] [[c1 c2] c3]. rewrite /det3 /vdot /cross /vsub /=. kring.
Qed.
(** one coordinate of a sum of vectors *)
Definition coord (k : nat) (p : vec) : K := nth 0 (coords K p) k.
Lemma coord_vsum : forall k l, coord k (vsum K l) = \sum_(x <- l) coord k x.
Proof. move=> k l. rewrite /coord /coords. elim: l => [|x l IH]; [by rewrite big_nil; case: k => [|[|[|[|k]]]]|]. rewrite big_cons -IH. case: k IH => [|[|[|[|k]]]] IH //=; by rewrite addr0. Qed.
Lemma coord_scale : forall k c p, coord k (vscale K c p) = c * coord k p.
Proof. move=> k c p. rewrite /coord /coords. case: k => [|[|[|[|k]]]] //=; by rewrite mulr0. Qed.
Lemma coord_add : forall k p q, coord k (vadd K p q) = coord k p + coord k q.
Proof. move=> k p q. rewrite /coord /coords. case: k => [|[|[|[|k]]]] //=; by rewrite addr0. Qed.
Lemma coord_zero : forall k, coord k (vzero K) = 0.
Proof. by case=> [|[|[|[|k]]]]. Qed.
Lemma coord_eq : forall p q : vec, (forall k, coord k p = coord k q) -> p = q.
Proof. move=> [[a b] c] [[a' b'] c'] H. have -> : a = a' := H 0%N. have -> : b = b' := H 1%N. by have -> : c = c' := H 2%N. Qed.
Lemma moment_alt : forall (pos : nat -> vec) k, alternating K (fun a b c => det3 (pos a) (pos b) (pos c) * (coord k (pos a) + coord k (pos b) + coord k (pos c))).
Proof. move=> pos k a b c. case: (det_alt pos a b c) => -> ->. split; kring. Qed.
Lemma moment_tet : forall k (a b c d : vec), 
  det3 b c d * (coord k b + coord k c + coord k d) + det3 a d c * (coord k a + coord k d + coord k c) + det3 a b d * (coord k a + coord k b + coord k d) + det3 a c b * (coord k a + coord k c + coord k b) =
  det3 (vsub K b a) (vsub K c a) (vsub K d a) * (coord k a + coord k b + coord k c + coord k d).
Proof. move=> k [[a1 a2] a3] [[b1 b2] b3] [[c1 c2] c3] [[d1 d2] d3]. case: k => [|[|[|k]]]; rewrite /coord /coords /det3 /vdot /cross /vsub /= ?nth_nil; kring. Qed.
End Surf.
