(** Lemmas on cutting a triangle mesh. *)
Require Import List Arith ZArith Bool Lia Permutation.
From Verif Require Import Util CombProofs SimpModel SimpSpec ParProofs SimpProofs LevelProofs TopProofs BdryModel BdrySpec
  OrientProofs SubProofs BaryProofs LoopProofs AvgProofs TriModel TriSpec ClipSpec LinModel TriProofs TriMesh TriExtrude.
Import ListNotations.
Local Open Scope nat_scope.

Lemma before_firstn : forall A (p : A -> bool) d l k, k < length l -> p (nth k l d) = true -> (forall i, i < k -> p (nth i l d) = false) -> before p l = firstn k l.
Proof.
  induction l as [|x l IH]; intros k H P Q; [cbn in H; lia|]. destruct k as [|k]; cbn in *.
  - rewrite P. auto.
  - rewrite (Q 0) by lia. f_equal. apply IH; auto; [lia|]. intros i Hi. apply (Q (S i)). lia.
Qed.
Lemma before_ext : forall A (p q : A -> bool) l, (forall x, p x = q x) -> before p l = before q l.
Proof. induction l; cbn; intros H; auto. rewrite H. destruct (q a); auto. rewrite IHl; auto. Qed.
Lemma same_edge_perm : forall x y e, length e = 2 -> same_edge x y e = true <-> Permutation e [x; y].
Proof.
  intros x y [|a [|b [|]]] L; cbn in L; try lia. cbn. rewrite orb_true_iff, !andb_true_iff, !Nat.eqb_eq. split.
  - intros [[-> ->]|[-> ->]]; [auto|apply perm_swap].
  - intros P. apply Permutation_length_2_inv in P as [Q|Q]; injection Q; auto.
Qed.
Section Side.
Variable side : nat -> bool.
Lemma edge_cut_mixed : forall e, length e = 2 -> edge_cut side e = mixed side e.
Proof. intros [|x [|y [|]]] L; cbn in L; try lia. unfold edge_cut, mixed, count_side. cbn. destruct (side x), (side y); reflexivity. Qed.
Lemma tri_cut_mixed : forall s, length s = 3 -> tri_cut side s = mixed side s.
Proof. intros [|x [|y [|z [|]]]] L; cbn in L; try lia. unfold tri_cut, mixed, count_side. cbn. destruct (side x), (side y), (side z); reflexivity. Qed.

Lemma filter_combine : forall A B C (p : A -> bool) (P : A -> C -> Prop) (f : A * B -> C) da db l l', length l = length l' ->
  (forall j, j < length l -> p (nth j l da) = true -> P (nth j l da) (f (nth j l da, nth j l' db))) ->
  Forall2 P (filter p l) (map f (filter (fun ve => p (fst ve)) (combine l l'))).
Proof.
  induction l as [|x l IH]; intros [|y l'] L H; cbn in L; try lia; cbn; auto. 
  assert (IH' : Forall2 P (filter p l) (map f (filter (fun ve => p (fst ve)) (combine l l')))). { apply IH; [lia|]. intros j Hj. apply (H (S j)). cbn. lia. }
  destruct (p x) eqn:E; auto. cbn. constructor; auto. apply (H 0); cbn; auto. lia.
Qed.

Section Top.
Variables (rows : list simplex) (t : topology).
Hypothesis T : top_ok 2 rows t.
Notation n0 := (n_elements t 0).
Notation n1 := (n_elements t 1).
Notation EV := (nth 1 (elements t) []).
Notation TE := (nth 1 (boundary_idx t) []).
Notation cv := (cut_vertex side EV n0).
Notation ncut := (length (filter (mixed side) EV)).

Lemma ev_len : forall e, e < n1 -> length (nth e EV []) = 2.
Proof. intros e He. pose proof (to_ok _ _ _ T 1 ltac:(lia)) as [_ F]. rewrite Forall_forall in F. apply F, nth_In. exact He. Qed.
Lemma ev_uniq : forall e e', e < n1 -> e' < n1 -> Permutation (nth e EV []) (nth e' EV []) -> e = e'.
Proof. intros e e' H H' P. apply (lv_uniq _ _ _ _ _ (to_level _ _ _ T 1 ltac:(lia)) e e' H H' P). Qed.
Lemma te_len : length TE = length rows.
Proof. pose proof (to_level _ _ _ T 1 ltac:(lia)) as LV. rewrite (to_top _ _ _ T) in LV. apply (lv_lenB _ _ _ _ _ LV). Qed.
Lemma filter_ext_in' : forall A (p q : A -> bool) l, (forall x, In x l -> p x = q x) -> filter p l = filter q l.
Proof. induction l; cbn; intros H; auto. rewrite H by auto. rewrite IHl by auto. auto. Qed.

Lemma cv_at : forall e x y, e < n1 -> Permutation (nth e EV []) [x; y] -> cv x y = n0 + length (filter (mixed side) (firstn e EV)).
Proof.
  intros e x y He P. unfold cut_vertex. rewrite (before_firstn _ _ [] EV e); auto.
  - apply same_edge_perm; auto. apply ev_len; auto.
  - intros i Hi. destruct (same_edge x y (nth i EV [])) eqn:E; auto. exfalso. assert (Hi' : i < n1) by lia. apply same_edge_perm in E; [|apply ev_len; auto]. assert (i = e) by (apply ev_uniq; auto; rewrite E, P; auto). lia.
Qed.
Lemma lookup_ok : forall e x y, e < n1 -> Permutation (nth e EV []) [x; y] -> side x <> side y -> lookup side EV e + n0 = cv x y.
Proof.
  intros e x y He P S. rewrite (cv_at e x y He P). unfold lookup.
  assert (Q : firstn (Datatypes.S e) EV = firstn e EV ++ [nth e EV []]). { clear - He. unfold n_elements in He. revert e He. induction EV as [|z l IH]; intros e He; [cbn in He; lia|]. destruct e; [reflexivity|]. cbn in He |- *. f_equal. apply IH. lia. }
  rewrite Q, filter_app, app_length. cbn [filter]. assert (M : edge_cut side (nth e EV []) = true).
  { rewrite edge_cut_mixed by (apply ev_len; auto). unfold mixed. apply Permutation_sym, Permutation_length_2_inv in P as [-> | ->]; cbn; destruct (side x), (side y); auto; congruence. }
  rewrite M. cbn [length]. rewrite (filter_ext_in' _ (edge_cut side) (mixed side)); [lia|]. intros f Hf. apply edge_cut_mixed.
  assert (I : In f EV) by (clear - Hf; revert Hf; generalize EV; intros l; revert e; induction l as [|z l IH]; intros [|e]; cbn; try tauto; intros [->|Hf]; eauto).
  apply In_nth with (d := []) in I as (i & Hi & <-). apply ev_len. exact Hi.
Qed.
Lemma children_ok : forall j, j < length rows -> mixed side (nth j rows []) = true -> three_children side EV n0 (nth j rows []) (cut_triangles side n0 EV (nth j rows []) (nth j TE [])).
Proof.
  intros j Hj M. destruct (tri_ex rows t T j Hj) as (v0 & v1 & v2 & e0 & e1 & e2 & H). rewrite (t_row _ _ _ _ _ _ _ _ _ H) in *. rewrite (t_edges _ _ _ _ _ _ _ _ _ H).
  destruct (t_e _ _ _ _ _ _ _ _ _ H) as (K0 & K1 & K2). pose proof (t_e0 _ _ _ _ _ _ _ _ _ H) as P0. pose proof (t_e1 _ _ _ _ _ _ _ _ _ H) as P1. pose proof (t_e2 _ _ _ _ _ _ _ _ _ H) as P2. unfold el in *.
  unfold three_children, cut_triangles, tip, first_at, count_side. unfold mixed in M. cbn [existsb forallb filter map length] in *.
  destruct (side v0) eqn:S0, (side v1) eqn:S1, (side v2) eqn:S2; try discriminate; cbn -[lookup cut_vertex];
  [exists v2, v0, v1|exists v1, v2, v0|exists v0, v1, v2|exists v0, v1, v2|exists v1, v2, v0|exists v2, v0, v1];
  (split; [auto|]; split; [congruence|]; split; [congruence|]);
  first [rewrite !(lookup_ok e2 v0 v1), !(lookup_ok e1 v2 v0) by (auto; congruence); reflexivity
        |rewrite !(lookup_ok e0 v1 v2), !(lookup_ok e2 v0 v1) by (auto; congruence); reflexivity
        |rewrite !(lookup_ok e1 v2 v0), !(lookup_ok e0 v1 v2) by (auto; congruence); reflexivity].
Qed.
Lemma rows_len : forall s, In s rows -> length s = 3.
Proof. intros s Hs. pose proof (top_triangles rows t T) as F. rewrite Forall_forall in F. apply F; auto. Qed.

(** Shape of the triangle list of the result. *)
Lemma clip_rows_ok : exists kids, Forall2 (three_children side EV n0) (filter (mixed side) rows) kids /\
  clip_rows side t = filter (fun s => negb (mixed side s)) rows ++ concat kids.
Proof.
  exists (map (fun ve => cut_triangles side n0 EV (fst ve) (snd ve)) (filter (fun ve => mixed side (fst ve)) (combine rows TE))). split.
  - apply filter_combine with (da := []) (db := []); [symmetry; apply te_len|]. intros j Hj M. cbn [fst snd]. apply children_ok; auto.
  - unfold clip_rows. rewrite (to_top _ _ _ T). f_equal.
    + apply filter_ext_in'. intros s Hs. rewrite tri_cut_mixed; auto. apply rows_len; auto.
    + f_equal. f_equal. apply filter_ext_in'. intros [s e] I. apply in_combine_l in I. cbn [fst]. apply tri_cut_mixed, rows_len. auto.
Qed.

Lemma cv_sym : forall x y, cv x y = cv y x.
Proof. intros x y. unfold cut_vertex. rewrite (before_ext _ (same_edge x y) (same_edge y x)); auto. intros [|a [|b [|]]]; cbn; auto. rewrite orb_comm. auto. Qed.
Lemma triangle_edges : forall a b c e, In e (dedges [a; b; c]) -> In e (dedges [c; a; b]) /\ In e (dedges [b; c; a]).
Proof. intros a b c e I. cbn in *. tauto. Qed.
Notation split := (split_edge side EV n0).
Notation L := (mesh_edges rows).

(** One triangle. *)
Lemma three_edges : forall s cs, three_children side EV n0 s cs -> exists I, Permutation (mesh_edges cs) (flat_map split (dedges s) ++ I ++ map reverse I).
Proof.
  intros s cs (a & b & c & Is & Sab & Sbc & ->). exists [(cv a b, cv c a); (b, cv c a)].
  assert (P : Permutation (flat_map split (dedges s)) (flat_map split (dedges [a; b; c]))).
  { apply Permutation_flat_map. destruct Is as [<-|[<-|[<-|[]]]]; auto; cbn.
    - apply (Permutation_cons_append [(a, b); (b, c)] (c, a)).
    - symmetry. apply (Permutation_cons_append [(b, c); (c, a)] (a, b)). }
  rewrite P. cbn [dedges flat_map split_edge app]. assert (E1 : Bool.eqb (side a) (side b) = false) by (apply eqb_false_iff; auto). assert (E2 : Bool.eqb (side b) (side c) = true) by (apply eqb_true_iff; auto). assert (E3 : Bool.eqb (side c) (side a) = false) by (apply eqb_false_iff; congruence).
  rewrite E1, E2, E3. cbn. apply (Permutation_count_occ dedge_dec). intros e. cbn [count_occ app map reverse fst snd]. repeat destruct (dedge_dec _ e); lia.
Qed.
Lemma uncut_edges : forall s, length s = 3 -> mixed side s = false -> flat_map split (dedges s) = dedges s.
Proof.
  intros [|a [|b [|c [|]]]] Ls M; cbn in Ls; try lia. unfold mixed in M. cbn in M. cbn. destruct (side a), (side b), (side c); cbn in *; auto; discriminate.
Qed.
Lemma clip_edges : exists I, Permutation (mesh_edges (clip_rows side t)) (flat_map split L ++ I ++ map reverse I).
Proof.
  destruct clip_rows_ok as (kids & F & ->). rewrite mesh_edges_app.
  assert (Q : exists I, Permutation (mesh_edges (concat kids)) (flat_map split (mesh_edges (filter (mixed side) rows)) ++ I ++ map reverse I)).
  { clear - F. induction F as [|s cs l kids H F (I & IH)]; [exists []; auto|]. destruct (three_edges s cs H) as (J & PJ). exists (J ++ I). cbn [concat]. rewrite mesh_edges_app, PJ, IH. unfold mesh_edges. cbn [flat_map]. rewrite flat_map_app, map_app.
    apply (Permutation_count_occ dedge_dec). intros e. rewrite !count_occ_app. lia. }
  destruct Q as (I & PI). exists I. rewrite PI, app_assoc. apply Permutation_app_tail.
  assert (U : mesh_edges (filter (fun s => negb (mixed side s)) rows) = flat_map split (mesh_edges (filter (fun s => negb (mixed side s)) rows))).
  { assert (RL : forall s, In s rows -> length s = 3) by apply rows_len. clear - RL. induction rows as [|s l IH]; auto. cbn [filter]. destruct (mixed side s) eqn:M; cbn [negb]; [apply IH; intros; apply RL; cbn; auto|]. unfold mesh_edges in *. cbn [flat_map]. rewrite flat_map_app, <- IH by (intros; apply RL; cbn; auto). rewrite uncut_edges; auto. apply RL; cbn; auto. }
  rewrite U, <- flat_map_app. apply Permutation_flat_map. rewrite <- mesh_edges_app. apply Permutation_flat_map. rewrite Permutation_app_comm. symmetry. apply filter_split.
Qed.
Lemma split_reverse : forall e, Permutation (split (reverse e)) (map reverse (split e)).
Proof.
  intros [x y]. unfold reverse at 1. cbn [fst snd split_edge]. rewrite (cv_sym y x). destruct (side x), (side y); cbn; auto; apply perm_swap.
Qed.
Lemma flat_map_perm_ext : forall A B (f g : A -> list B) l, (forall x, In x l -> Permutation (f x) (g x)) -> Permutation (flat_map f l) (flat_map g l).
Proof. induction l; cbn; intros H; auto. apply Permutation_app; auto. Qed.
Lemma clip_closed : closed_surface rows -> closed_surface (clip_rows side t).
Proof.
  intros C. apply matched_perm in C. destruct clip_edges as (I & P). unfold closed_surface. apply (proj2 (matched_perm _)). rewrite P. rewrite !map_app, map_map. rewrite (map_ext (fun e => reverse (reverse e)) (fun e => e)), map_id by apply reverse_reverse.
  apply Permutation_app; [|apply Permutation_app_comm]. rewrite C at 1. rewrite flat_map_concat_map, map_map, <- flat_map_concat_map.
  rewrite (flat_map_perm_ext _ _ _ (fun e => map reverse (split e))) by (intros; apply split_reverse). rewrite !flat_map_concat_map, concat_map, map_map. auto.
Qed.

(** Labels. *)
Lemma cut_count : forall e, e < n1 -> mixed side (nth e EV []) = true -> length (filter (mixed side) (firstn e EV)) < ncut.
Proof.
  intros e He M. unfold n_elements in He. revert e He M. generalize EV. induction l as [|z l IH]; intros e He M; [cbn in He; lia|]. destruct e as [|e].
  - cbn in M |- *. rewrite M. cbn. lia.
  - cbn in He, M |- *. specialize (IH e ltac:(lia) M). destruct (mixed side z); cbn; lia.
Qed.
Lemma count_cut : forall k, k < ncut -> exists e, e < n1 /\ mixed side (nth e EV []) = true /\ length (filter (mixed side) (firstn e EV)) = k /\ nth k (filter (mixed side) EV) [] = nth e EV [].
Proof.
  unfold n_elements. generalize EV. induction l as [|z l IH]; intros k Hk; [cbn in Hk; lia|]. cbn [filter] in *. destruct (mixed side z) eqn:M.
  - destruct k as [|k]; [exists 0; cbn; rewrite M; repeat split; lia|]. cbn in Hk. destruct (IH k ltac:(lia)) as (e & He & Me & E1 & E2). exists (S e). cbn. rewrite M. cbn. repeat split; auto; lia.
  - destruct (IH k Hk) as (e & He & Me & E1 & E2). exists (S e). cbn. rewrite M. repeat split; auto; lia.
Qed.
Lemma edge_ends : forall e, e < n1 -> exists x y, nth e EV [] = [x; y] /\ In (x, y) L.
Proof. intros e He. apply (stored_edge rows t T e He). Qed.
Lemma mesh_edge_cut : forall x y, In (x, y) L -> side x <> side y -> exists e, e < n1 /\ Permutation (nth e EV []) [x; y] /\ mixed side (nth e EV []) = true /\ cv x y = n0 + length (filter (mixed side) (firstn e EV)).
Proof.
  intros x y I S. destruct (edge_index rows t T x y I) as (e & He & P). unfold el in P. exists e. split; auto. split; auto. split; [|apply cv_at; auto].
  unfold mixed. apply Permutation_sym, Permutation_length_2_inv in P as [-> | ->]; cbn; destruct (side x), (side y); auto; congruence.
Qed.
Lemma cv_range : forall x y, In (x, y) L -> side x <> side y -> n0 <= cv x y < n0 + ncut.
Proof. intros x y I S. destruct (mesh_edge_cut x y I S) as (e & He & P & M & ->). pose proof (cut_count e He M). lia. Qed.
Lemma firstn_count_mono : forall (l : list simplex) e e', e < e' -> e' <= length l -> mixed side (nth e l []) = true -> length (filter (mixed side) (firstn e l)) < length (filter (mixed side) (firstn e' l)).
Proof.
  induction l as [|z l IH]; intros e e' H H' M; [cbn in H'; lia|]. destruct e' as [|e']; [lia|]. destruct e as [|e]; cbn in *.
  - rewrite M. cbn. lia.
  - specialize (IH e e' ltac:(lia) ltac:(lia) M). destruct (mixed side z); cbn; lia.
Qed.
Lemma cv_inj : forall x y x' y', In (x, y) L -> side x <> side y -> In (x', y') L -> side x' <> side y' -> cv x y = cv x' y' -> Permutation [x; y] [x'; y'].
Proof.
  intros x y x' y' I S I' S' E. destruct (mesh_edge_cut x y I S) as (e & He & P & M & Q). destruct (mesh_edge_cut x' y' I' S') as (e' & He' & P' & M' & Q'). assert (EQ : length (filter (mixed side) (firstn e EV)) = length (filter (mixed side) (firstn e' EV))) by lia. clear Q Q' E.
  assert (e = e'); [|subst; rewrite <- P; auto]. unfold n_elements in *. destruct (Nat.lt_trichotomy e e') as [H|[H|H]]; auto; exfalso.
  - pose proof (firstn_count_mono EV e e' H ltac:(lia) M). lia.
  - pose proof (firstn_count_mono EV e' e H ltac:(lia) M'). lia.
Qed.
Lemma three_facts : forall s cs, In s rows -> three_children side EV n0 s cs -> forall r, In r cs -> triangle r /\ forall v, In v r -> v < n0 + ncut.
Proof.
  intros s cs Is (a & b & c & R & Sab & Sbc & ->) r Hr. 
  assert (IE : In (a, b) L /\ In (b, c) L /\ In (c, a) L). { repeat split; apply in_flat_map; exists s; (split; [auto|]); destruct R as [<-|[<-|[<-|[]]]]; cbn; auto. }
  destruct IE as (I1 & I2 & I3). pose proof (cv_range a b I1 Sab) as K1. pose proof (cv_range c a I3 ltac:(congruence)) as K3.
  assert (V : forall v, In v s -> v < n0). { intros v Hv. apply (to_vused _ _ _ T), in_concat. eauto. }
  assert (Va : a < n0 /\ b < n0 /\ c < n0). { repeat split; apply V; destruct R as [<-|[<-|[<-|[]]]]; cbn; auto. }
  assert (Tr : triangle s). { pose proof (top_triangles rows t T) as F. rewrite Forall_forall in F. auto. }
  assert (D : a <> b /\ a <> c /\ b <> c). { destruct Tr as [_ N]. destruct R as [<-|[<-|[<-|[]]]]; apply nodup3 in N; lia. }
  assert (NE : cv a b <> cv c a). { intros E. pose proof (cv_inj _ _ _ _ I1 Sab I3 ltac:(congruence) E) as P. apply Permutation_length_2_inv in P as [Q|Q]; injection Q; intros; subst; tauto. }
  destruct Hr as [<-|[<-|[<-|[]]]]; (split; [split; [reflexivity|apply nodup3; lia]|]); cbn; intros v Hv; lia.
Qed.
Lemma in_kids : forall kids, Forall2 (three_children side EV n0) (filter (mixed side) rows) kids -> forall r, In r (concat kids) -> exists s cs, In s rows /\ three_children side EV n0 s cs /\ In r cs.
Proof.
  intros kids F r Hr. assert (G : forall l, Forall2 (three_children side EV n0) l kids -> incl l rows -> exists s cs, In s rows /\ three_children side EV n0 s cs /\ In r cs).
  { clear F. intros l F. induction F as [|s cs l kids H F IH]; intros Inc; [destruct Hr|]. cbn in Hr. apply in_app_or in Hr as [Hr|Hr].
    - exists s, cs. repeat split; auto. apply Inc. cbn. auto.
    - apply IH; auto. intros z Hz. apply Inc. cbn. auto. }
  apply (G _ F). intros z Hz. apply filter_In in Hz. tauto.
Qed.
Lemma clip_triangles : Forall triangle (clip_rows side t).
Proof.
  destruct clip_rows_ok as (kids & F & ->). apply Forall_app. split.
  - apply Forall_forall. intros s Hs. apply filter_In in Hs as [Hs _]. pose proof (top_triangles rows t T) as G. rewrite Forall_forall in G. auto.
  - apply Forall_forall. intros r Hr. destruct (in_kids kids F r Hr) as (s & cs & Is & H & Ir). apply (three_facts s cs Is H r Ir).
Qed.
Lemma kids_of : forall kids, Forall2 (three_children side EV n0) (filter (mixed side) rows) kids -> forall s, In s rows -> mixed side s = true -> exists cs, three_children side EV n0 s cs /\ incl cs (concat kids).
Proof.
  intros kids F s Is M. assert (I : In s (filter (mixed side) rows)) by (apply filter_In; auto). clear Is M. induction F as [|s' cs l kids H F IH]; [destruct I|]. destruct I as [->|I].
  - exists cs. split; auto. cbn. apply incl_appl, incl_refl.
  - destruct (IH I) as (cs' & H' & Inc). exists cs'. split; auto. cbn. apply incl_appr; auto.
Qed.
Lemma clip_labels : forall v, In v (concat (clip_rows side t)) <-> v < n0 + ncut.
Proof.
  intros v. destruct clip_rows_ok as (kids & F & ->). rewrite in_concat. split.
  - intros (r & Hr & Hv). apply in_app_or in Hr as [Hr|Hr].
    + apply filter_In in Hr as [Hr _]. assert (v < n0); [|lia]. apply (to_vused _ _ _ T), in_concat. eauto.
    + destruct (in_kids kids F r Hr) as (s & cs & Is & H & Ir). apply (proj2 (three_facts s cs Is H r Ir) v Hv).
  - intros Hv. destruct (Nat.lt_ge_cases v n0) as [H|H].
    + apply (to_vused _ _ _ T), in_concat in H as (s & Is & Iv). destruct (mixed side s) eqn:M.
      * destruct (kids_of kids F s Is M) as (cs & (a & b & c & R & _ & _ & ->) & Inc). assert (Q : v = a \/ v = b \/ v = c) by (destruct R as [<-|[<-|[<-|[]]]]; cbn in Iv; intuition).
        destruct Q as [-> |[-> | ->]]; eexists; (split; [apply in_or_app; right; apply Inc|]).
        -- left. reflexivity.
        -- left. reflexivity.
        -- right. left. reflexivity.
        -- left. reflexivity.
        -- right. right. left. reflexivity.
        -- left. reflexivity.
      * exists s. split; auto. apply in_or_app. left. apply filter_In. rewrite M. auto.
    + destruct (count_cut (v - n0) ltac:(lia)) as (e & He & M & E & _). destruct (edge_ends e He) as (x & y & Ee & I). rewrite Ee in M.
      assert (S : side x <> side y) by (unfold mixed in M; cbn in M; destruct (side x), (side y); cbn in M; congruence).
      assert (EV' : cv x y = v) by (rewrite (cv_at e x y He) by (rewrite Ee; auto); lia). pose proof I as I'. apply in_mesh in I' as (j & Hj & I'). set (s := nth j rows []) in *. assert (Is : In s rows) by (apply nth_In; auto).
      assert (Mx : mixed side s = true). { pose proof (rows_len s Is) as Ls. destruct s as [|p [|q [|r [|]]]]; cbn in Ls; try lia. apply in_dedges in I'. unfold mixed. cbn. destruct I' as [[-> ->]|[[-> ->]|[-> ->]]]; destruct (side p), (side q), (side r); cbn; auto; congruence. }
      destruct (kids_of kids F s Is Mx) as (cs & (a & b & c & R & Sab & Sbc & ->) & Inc).
      assert (I2 : In (x, y) (dedges [a; b; c])). { destruct R as [<-|[<-|[<-|[]]]]; auto; cbn in *; tauto. }
      exists [a; cv a b; cv c a]. split; [apply in_or_app; right; apply Inc; left; auto|]. apply in_dedges in I2 as [[-> ->]|[[-> ->]|[-> ->]]]; cbn; auto.
Qed.
Lemma clip_ok : simplices_ok 2 (clip_rows side t).
Proof.
  split; [|apply clip_triangles]. intros E. pose proof (to_ok _ _ _ T 2 ltac:(lia)) as [NE G]. rewrite (to_top _ _ _ T) in NE, G.
  assert (P : 0 < n0). { destruct rows as [|s l]; [congruence|]. inversion G; subst. destruct s as [|a s]; [cbn in *; lia|]. assert (a < n0); [|lia]. apply (to_vused _ _ _ T). cbn. auto. }
  pose proof (proj2 (clip_labels 0) ltac:(lia)) as I. rewrite E in I. destruct I.
Qed.

(** Orientation. *)
Definition distinct : Prop := forall j j', j < length rows -> j' < length rows -> Permutation (nth j rows []) (nth j' rows []) -> j = j'.
End Top.
End Side.
