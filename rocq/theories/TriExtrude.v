(** Extrusion of a triangle mesh with boundary. *)
Require Import List Arith ZArith Bool Lia Permutation.
From Verif Require Import Util CombProofs SimpModel SimpSpec ParProofs SimpProofs LevelProofs TopProofs BdryModel BdrySpec
  OrientProofs SubProofs BaryProofs LoopProofs TriModel TriSpec LinModel TriProofs TriMesh.
Import ListNotations.
Local Open Scope nat_scope.

Lemma mesh_edges_app : forall a b, mesh_edges (a ++ b) = mesh_edges a ++ mesh_edges b.
Proof. intros. apply flat_map_app. Qed.
Lemma mesh_edges_map_perm : forall A (f : A -> simplex) (g : A -> list dedge) l, (forall x, In x l -> Permutation (dedges (f x)) (g x)) -> Permutation (mesh_edges (map f l)) (flat_map g l).
Proof. induction l as [|x l IH]; cbn; intros H; auto. apply Permutation_app; [apply H; auto|apply IH; auto]. Qed.
Lemma flat_map_two : forall A B (f g : A -> list B) l, Permutation (flat_map (fun x => f x ++ g x) l) (flat_map f l ++ flat_map g l).
Proof.
  induction l as [|x l IH]; cbn; auto. rewrite IH. rewrite <- !app_assoc. apply Permutation_app_head. rewrite !app_assoc. apply Permutation_app_tail. apply Permutation_app_comm.
Qed.
Lemma flat_map_one : forall A B (f : A -> B) l, flat_map (fun x => [f x]) l = map f l.
Proof. induction l; cbn; congruence. Qed.
Definition shift (n : nat) (e : dedge) : dedge := (fst e + n, snd e + n).

Section Solid.
Variables (rows : list simplex) (n : nat) (B : list dedge).
Hypothesis TR : Forall triangle rows.
Hypothesis CO : consistent 2 rows.
Hypothesis HB : Permutation (unpaired rows) B.
Definition be := map (fun e : dedge => [fst e; snd e]) B.
Notation L := (mesh_edges rows).

Lemma other_edges : Permutation (mesh_edges (map (fun s => map (fun v => v + n) (rev s)) rows)) (map reverse (map (shift n) L)).
Proof.
  unfold mesh_edges at 2. rewrite flat_map_concat_map, !concat_map, !map_map. rewrite <- flat_map_concat_map. apply mesh_edges_map_perm. intros s Hs. rewrite Forall_forall in TR. destruct (triangle_abc s (TR s Hs)) as (a & b & c & -> & _). cbn.
  apply perm_swap.
Qed.
Lemma strip_edges : Permutation (mesh_edges (strip n be)) (map reverse B ++ map (shift n) B ++
  (map (fun e => (fst e, fst e + n)) B ++ map (fun e => (snd e + n, snd e)) B) ++ (map (fun e => (fst e + n, snd e)) B ++ map (fun e => (snd e, fst e + n)) B)).
Proof.
  unfold strip, be. rewrite mesh_edges_app, !map_map.
  assert (P1 : Permutation (mesh_edges (map (fun x : dedge => rev [fst x; snd x] ++ [nth 0 [fst x; snd x] 0 + n]) B)) (map reverse B ++ map (fun e => (fst e, fst e + n)) B ++ map (fun e => (fst e + n, snd e)) B)).
  { rewrite (mesh_edges_map_perm _ _ (fun e : dedge => [reverse e] ++ ([(fst e, fst e + n)] ++ [(fst e + n, snd e)]))) by (intros [x y] _; cbn; auto). rewrite flat_map_two, flat_map_two, !flat_map_one. auto. }
  assert (P2 : Permutation (mesh_edges (map (fun x : dedge => map (fun v => v + n) [fst x; snd x] ++ [nth 1 [fst x; snd x] 0]) B)) (map (shift n) B ++ map (fun e => (snd e + n, snd e)) B ++ map (fun e => (snd e, fst e + n)) B)).
  { rewrite (mesh_edges_map_perm _ _ (fun e : dedge => [shift n e] ++ ([(snd e + n, snd e)] ++ [(snd e, fst e + n)]))) by (intros [x y] _; cbn; auto). rewrite flat_map_two, flat_map_two, !flat_map_one. auto. }
  rewrite P1, P2. clear. generalize (map reverse B) (map (shift n) B) (map (fun e : dedge => (fst e, fst e + n)) B) (map (fun e : dedge => (snd e + n, snd e)) B) (map (fun e : dedge => (fst e + n, snd e)) B) (map (fun e : dedge => (snd e, fst e + n)) B). intros a b c d e f.
  apply (Permutation_count_occ dedge_dec). intros x. rewrite !count_occ_app. lia.
Qed.
Lemma ends_balanced : Permutation (map fst B) (map snd B).
Proof.
  assert (P : Permutation (map fst L) (map snd L)).
  { unfold mesh_edges. clear - TR. induction TR as [|s l H F IH]; cbn; auto. rewrite !map_app. apply Permutation_app; [|auto]. destruct (triangle_abc s H) as (a & b & c & -> & _). cbn. apply (Permutation_cons_append [b; c] a). }
  rewrite (mesh_split rows) in P. rewrite !map_app in P. rewrite HB in P.
  rewrite (Permutation_map fst (paired_matched rows TR CO)) in P at 1. rewrite map_map in P. cbn in P. apply Permutation_app_inv_l in P. exact P.
Qed.
Lemma solid_closed : closed_surface (solid_rows n rows be).
Proof.
  intros e. unfold solid_rows. rewrite !mesh_edges_app, !occurs_app. rewrite !(occurs_perm _ _ _ other_edges), !(occurs_perm _ _ _ strip_edges). rewrite !occurs_app, !occurs_reverse.
  pose proof (mesh_split rows) as M. rewrite HB in M. rewrite !(occurs_perm _ _ _ M), !occurs_app.
  assert (Q1 : forall x, occurs x (map (shift n) L) = occurs x (map (shift n) (paired rows)) + occurs x (map (shift n) B)). { intros x. rewrite <- occurs_app, <- map_app. apply occurs_perm, Permutation_map, M. }
  rewrite !Q1. pose proof (paired_matched rows TR CO) as PM. pose proof (proj2 (matched_perm _) PM) as P1.
  assert (P2 : forall x, occurs x (map (shift n) (paired rows)) = occurs (reverse x) (map (shift n) (paired rows))).
  { apply matched_perm. rewrite map_map. rewrite PM at 1. rewrite map_map. erewrite map_ext; [reflexivity|]. intros [x y]. reflexivity. }
  assert (P3 : forall x, occurs x (map (fun e => (fst e, fst e + n)) B) = occurs (reverse x) (map (fun e => (snd e + n, snd e)) B)).
  { intros x. rewrite <- occurs_reverse, map_map. apply occurs_perm. unfold reverse. cbn. rewrite <- (map_map fst (fun v => (v, v + n))), <- (map_map snd (fun v => (v, v + n))). apply Permutation_map, ends_balanced. }
  assert (P4 : forall x, occurs x (map (fun e => (fst e + n, snd e)) B) = occurs (reverse x) (map (fun e => (snd e, fst e + n)) B)).
  { intros x. rewrite <- occurs_reverse, map_map. apply occurs_perm. unfold reverse. cbn. auto. }
  pose proof (P1 e). pose proof (P2 e). pose proof (P3 e). pose proof (P3 (reverse e)) as P3'. pose proof (P4 e). pose proof (P4 (reverse e)) as P4'. rewrite !reverse_reverse in *. lia.
Qed.
End Solid.
