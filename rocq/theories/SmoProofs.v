(** Lemmas for C70 - C72. *)
Require Import List Arith ZArith Bool Lia Permutation QArith Qabs Lqa.
From Verif Require Import Util CombModel CombSpec CombProofs SimpModel SimpSpec SimpProofs LevelProofs.
From Verif Require Import BdryModel BdrySpec OrientProofs AvgModel AvgProofs AvgProps SmoModel SmoSpec.
Import ListNotations.
Local Open Scope nat_scope.

(** ---- lists ---- *)
Lemma update_length : forall A k (x : A) l, k < length l -> length (update k x l) = length l.
Proof. intros. unfold update. rewrite app_length, firstn_length. cbn [length]. rewrite skipn_length. lia. Qed.
Lemma nth_update : forall A k (x d : A) l k', k < length l -> nth k' (update k x l) d = if k' =? k then x else nth k' l d.
Proof.
  unfold update. induction k as [|k IH]; intros x d [|y l] k' Hk; simpl in Hk; try lia.
  - destruct k'; reflexivity.
  - destruct k' as [|k']; [reflexivity|]. cbn [firstn skipn app nth Nat.eqb]. apply IH. lia.
Qed.
Lemma find_key : forall A (cr : list (nat * A)) k, ~ In k (map fst cr) -> find (fun kc => fst kc =? k) cr = None.
Proof.
  induction cr as [|[k' c] cr IH]; intros k H; auto. cbn [find fst]. cbn [map fst In] in H. destruct (Nat.eqb_spec k' k); [tauto|]. apply IH. tauto.
Qed.
Lemma find_in : forall A (cr : list (nat * A)) k c, NoDup (map fst cr) -> (find (fun kc => fst kc =? k) cr = Some (k, c) <-> In (k, c) cr).
Proof.
  induction cr as [|[k' c'] cr IH]; intros k c ND; [split; [discriminate|intros []]|]. cbn [map fst] in ND. inversion ND; subst. cbn [find fst In]. destruct (Nat.eqb_spec k' k) as [->|Hne].
  - split; [intros E; injection E as ->; auto|]. intros [E|E]; [rewrite E; auto|]. exfalso. apply H1. apply in_map_iff. exists (k, c). auto.
  - rewrite IH by auto. split; auto. intros [E|E]; auto. congruence.
Qed.
Lemma find_some_key : forall A (cr : list (nat * A)) k kc, find (fun kc => fst kc =? k) cr = Some kc -> fst kc = k.
Proof. intros A cr k kc H. apply find_some in H as [_ H]. apply Nat.eqb_eq in H. auto. Qed.

(** ---- rational sums ---- *)
Lemma sumQ_perm : forall l l', Permutation l l' -> (sumQ l == sumQ l')%Q.
Proof. induction 1; simpl; [reflexivity|rewrite IHPermutation; reflexivity|ring|rewrite IHPermutation1; auto]. Qed.
Lemma sumQ_zero : forall A (f : A -> Q) l, (forall x, In x l -> f x == 0)%Q -> (sumQ (map f l) == 0)%Q.
Proof. induction l; intros H; simpl; [reflexivity|]. rewrite (H a (or_introl eq_refl)), IHl; [reflexivity|]. intros; apply H; right; auto. Qed.
Lemma sumQ_single : forall (f : nat -> Q) k l, NoDup l -> In k l -> (forall x, In x l -> x <> k -> f x == 0)%Q -> (sumQ (map f l) == f k)%Q.
Proof.
  induction l as [|a l IH]; intros ND Hk H; [destruct Hk|]. inversion ND; subst. cbn [map sumQ fold_right]. change (fold_right Qplus 0%Q (map f l)) with (sumQ (map f l)). destruct Hk as [->|Hk].
  - rewrite sumQ_zero; [ring|]. intros x Hx. apply H; [right; auto|]. congruence.
  - rewrite IH; auto; [|intros; apply H; auto; right; auto]. rewrite (H a); [ring|left; auto|congruence].
Qed.
Lemma sumQ_plus : forall A (f g : A -> Q) l, (sumQ (map (fun x => f x + g x) l) == sumQ (map f l) + sumQ (map g l))%Q.
Proof. induction l; simpl; [ring|]. rewrite IHl. ring. Qed.
Lemma sumQ_swap : forall A B (f : A -> B -> Q) l m, (sumQ (map (fun x => sumQ (map (f x) m)) l) == sumQ (map (fun y => sumQ (map (fun x => f x y) l)) m))%Q.
Proof.
  induction l as [|a l IH]; intros m; simpl; [induction m; simpl; [reflexivity|rewrite <- IHm; ring]|].
  rewrite IH. rewrite <- sumQ_plus. reflexivity.
Qed.
Lemma sumQ_filter : forall A (P : A -> bool) (f : A -> Q) l, (sumQ (map (fun x => if P x then f x else 0) l) == sumQ (map f (filter P l)))%Q.
Proof. induction l as [|a l IH]; simpl; [reflexivity|]. rewrite IH. destruct (P a); simpl; [reflexivity|ring]. Qed.
Lemma sumQ_over : forall s N (f : nat -> Q), NoDup s -> (forall v, In v s -> v < N) -> (sumQ (map (fun u => if memb u s then f u else 0) (seq 0 N)) == sumQ (map f s))%Q.
Proof.
  intros s N f ND H. rewrite sumQ_filter. apply sumQ_perm, Permutation_map. apply NoDup_Permutation; auto; [apply NoDup_filter, seq_NoDup|].
  intros v. rewrite filter_In, in_seq, memb_iff. split; [tauto|]. intros Hv. split; auto. specialize (H v Hv). lia.
Qed.

Section M.
Variables (t : topology) (n : nat) (m : nat -> nat).
Hypothesis HE : length (elements t) = S n.
Hypothesis HD : n_dim t = n.
Hypothesis HR : forall k e, k <= n -> e < n_elements t k -> length (el t k e) = m k /\ NoDup (el t k e).
Hypothesis HM : forall k, k <= n -> 0 < m k.
Hypothesis HV : forall k e v, k <= n -> e < n_elements t k -> In v (el t k e) -> v < n_elements t 0.
Variable cr : creases.
Hypothesis HC : chains_ok t n cr.

Definition crb (k e : nat) : bool := match find (fun kc => fst kc =? k) cr with Some kc => negb (nth e (snd kc) 0%Z =? 0)%Z | None => k =? n end.
Definition srcs (k v : nat) : list nat := filter (fun e => crb k e && memb v (el t k e)) (seq 0 (n_elements t k)).

Lemma crb_crease : forall k e, crease t n cr k e <-> e < n_elements t k /\ crb k e = true.
Proof. clear - HC.
  intros k e. unfold crease, crb. destruct HC as [ND _]. fold (n_elements t k). apply and_iff_compat_l. destruct (find _ cr) as [[k' c]|] eqn:F.
  - pose proof (find_some_key _ _ _ _ F) as K. cbn [fst] in K. subst k'. apply find_in in F; auto. cbn [snd]. rewrite negb_true_iff, Z.eqb_neq. split.
    + intros [(c' & I & N)|[I _]]; [|exfalso; apply I; apply in_map_iff; exists (k, c); auto]. apply (find_in _ cr) in I; auto. apply (find_in _ cr) in F; auto. rewrite I in F. injection F as ->. auto.
    + intros N. left. exists c. auto.
  - rewrite Nat.eqb_eq. split; [|intros ->; right; split; auto].
    + intros [(c & I & _)|[_ E]]; auto. apply (find_in _ cr) in I; auto. congruence.
    + intros I. apply in_map_iff in I as ([k c] & E & I). cbn [fst] in E. subst k. apply (find_in _ cr) in I; auto. congruence.
Qed.

Lemma crease_index_ok : exists C, crease_index t cr = Ok C /\ length C = S n /\
  forall k, k <= n -> match nth k C None with None => forall e, crb k e = false | Some idx => idx = filter (crb k) (seq 0 (n_elements t k)) end.
Proof. clear - HE HD HC.
  assert (G : forall (crs : creases) C, NoDup (map fst crs) -> (forall k c, In (k, c) crs -> k <= n) -> length C = S n ->
    exists C', fold_left (fun acc kc => do C <- acc; if fst kc <? length C then Ok (update (fst kc) (Some (flatnonzero (snd kc))) C) else Err IndexError) crs (Ok C) = Ok C' /\ length C' = S n /\
      forall k, nth k C' None = match find (fun kc => fst kc =? k) crs with Some kc => Some (flatnonzero (snd kc)) | None => nth k C None end).
  { clear. induction crs as [|[k c] crs IH]; intros C ND Hk L; [exists C; auto|]. cbn [map fst] in ND. inversion ND; subst. cbn [fold_left bind fst snd].
    assert (Hlt : k < length C) by (specialize (Hk k c (or_introl eq_refl)); lia). rewrite (proj2 (Nat.ltb_lt _ _) Hlt).
    destruct (IH (update k (Some (flatnonzero c)) C)) as (C' & E & L' & N); auto; [intros k' c' I; apply (Hk k' c'); right; auto|rewrite update_length; auto|].
    exists C'. split; auto. split; auto. intros k'. rewrite N. rewrite nth_update by auto. cbn [find fst]. rewrite (Nat.eqb_sym k k'). destruct (Nat.eqb_spec k' k) as [->|]; auto. rewrite find_key by auto. auto. }
  destruct HC as [ND F]. rewrite Forall_forall in F. unfold crease_index. rewrite HD.
  destruct (G cr (repeat None n ++ [Some (seq 0 (n_elements t n))]) ND) as (C & E & L & N).
  { intros k c I. apply (F (k, c) I). }
  { rewrite app_length, repeat_length. simpl. lia. }
  exists C. split; auto. split; auto. intros k Hk. rewrite N. unfold crb. destruct (find _ cr) as [[k' c]|] eqn:Q.
  - pose proof (find_some_key _ _ _ _ Q) as K. cbn [fst] in K. subst k'. apply find_in in Q; auto. destruct (F _ Q) as [_ Lc]. cbn [fst snd] in *. unfold flatnonzero. rewrite Lc. reflexivity.
  - destruct (Nat.eq_dec k n) as [->|Hne].
    + rewrite app_nth2, repeat_length, Nat.sub_diag by (rewrite repeat_length; lia). cbn [nth]. rewrite Nat.eqb_refl. symmetry. apply filter_id. intros; auto.
    + rewrite app_nth1 by (rewrite repeat_length; lia). rewrite nth_repeat. intros _. apply Nat.eqb_neq. auto.
Qed.

Lemma crease_flags_ok : exists C, crease_flags t cr = Ok C /\ length C = S n /\
  forall k, k <= n -> forall e, e < n_elements t k -> nth e (nth k C []) 0%Z = if crb k e then 1%Z else 0%Z.
Proof. clear - HE HD HC.
  assert (G : forall (crs : creases) C, NoDup (map fst crs) -> (forall k c, In (k, c) crs -> k <= n /\ length c = n_elements t k) -> length C = S n -> (forall k, k <= n -> length (nth k C []) = n_elements t k) ->
    exists C', fold_left (fun acc kc => do C <- acc;
      if fst kc <? length C then
        let old := nth (fst kc) C [] in
        let new := map (fun z => if (z =? 0)%Z then 0%Z else 1%Z) (snd kc) in
        if length new =? length old then Ok (update (fst kc) new C)
        else if length new =? 1 then Ok (update (fst kc) (repeat (nth 0 new 0%Z) (length old)) C)
        else Err ValueError
      else Err IndexError) crs (Ok C) = Ok C' /\ length C' = S n /\
      forall k, nth k C' [] = match find (fun kc => fst kc =? k) crs with Some kc => map (fun z => if (z =? 0)%Z then 0%Z else 1%Z) (snd kc) | None => nth k C [] end).
  { clear. induction crs as [|[k c] crs IH]; intros C ND Hk L LC; [exists C; auto|]. cbn [map fst] in ND. inversion ND; subst. cbn [fold_left bind fst snd]. cbv zeta.
    destruct (Hk k c (or_introl eq_refl)) as [Kn Lc]. assert (Hlt : k < length C) by lia. rewrite (proj2 (Nat.ltb_lt _ _) Hlt). rewrite map_length, LC, Lc, Nat.eqb_refl by auto.
    destruct (IH (update k (map (fun z => if (z =? 0)%Z then 0%Z else 1%Z) c) C)) as (C' & E & L' & N); auto; [intros k' c' I; apply (Hk k' c'); right; auto|rewrite update_length; auto| |].
    { intros k' Hk'. rewrite nth_update by auto. destruct (Nat.eqb_spec k' k) as [->|]; auto. rewrite map_length. auto. }
    exists C'. split; auto. split; auto. intros k'. rewrite N. rewrite nth_update by auto. cbn [find fst]. rewrite (Nat.eqb_sym k k'). destruct (Nat.eqb_spec k' k) as [->|]; auto. rewrite find_key by auto. auto. }
  destruct HC as [ND F]. rewrite Forall_forall in F. unfold crease_flags. rewrite HD, HE.
  destruct (G cr (map (fun k => repeat (if k =? n then 1%Z else 0%Z) (n_elements t k)) (seq 0 (S n))) ND) as (C & E & L & N).
  { intros k c I. apply (F (k, c) I). }
  { rewrite map_length, seq_length. auto. }
  { intros k Hk. rewrite nth_map_seq by lia. rewrite repeat_length. auto. }
  exists C. split; auto. split; auto. intros k Hk e He. rewrite N. unfold crb. destruct (find _ cr) as [[k' c]|] eqn:Q.
  - pose proof (find_some_key _ _ _ _ Q) as K. cbn [fst] in K. subst k'. apply find_in in Q; auto. destruct (F _ Q) as [_ Lc]. cbn [fst snd] in *. fold (n_elements t k) in Lc.
    rewrite (nth_map_lt _ _ _ _ _ 0%Z) by lia. destruct (nth e c 0 =? 0)%Z; reflexivity.
  - rewrite nth_map_seq by lia. rewrite nth_indep with (d' := (if k =? n then 1%Z else 0%Z)) by (rewrite repeat_length; auto). rewrite nth_repeat. auto.
Qed.

(** ---- sources ---- *)
Lemma srcs_in : forall k v e, In e (srcs k v) <-> crease t n cr k e /\ In v (element t k e).
Proof. clear - HC.
  intros k v e. unfold srcs. rewrite filter_In, in_seq, andb_true_iff, memb_iff, crb_crease. unfold element, el. intuition lia.
Qed.
Lemma srcs_nodup : forall k v, NoDup (srcs k v).
Proof. clear. intros. apply NoDup_filter, seq_NoDup. Qed.
Lemma sources_srcs : forall v k l, sources t n cr v k l -> k <= n /\ Permutation (srcs k v) l /\ srcs k v <> [] /\ forall k', k' < k -> srcs k' v = [].
Proof. clear - HC.
  intros v k l (Hk & ND & Ne & I & Low). assert (P : Permutation (srcs k v) l) by (apply NoDup_Permutation; auto; [apply srcs_nodup|]; intros e; rewrite srcs_in, I; tauto).
  split; auto. split; auto. split.
  - intros E. rewrite E in P. apply Permutation_nil in P. auto.
  - intros k' Hk'. destruct (srcs k' v) as [|e r] eqn:E; auto. exfalso. assert (H : In e (srcs k' v)) by (rewrite E; left; auto). apply srcs_in in H as [H1 H2]. apply (Low k' e); auto.
Qed.
Lemma uncovered_srcs : forall v, (forall k e, k <= n -> crease t n cr k e -> ~ In v (element t k e)) -> forall k, k <= n -> srcs k v = [].
Proof. clear - HC. intros v H k Hk. destruct (srcs k v) as [|e r] eqn:E; auto. exfalso. assert (I : In e (srcs k v)) by (rewrite E; left; auto). apply srcs_in in I as [I1 I2]. apply (H k e); auto. Qed.
Lemma average_perm : forall l l', Permutation l l' -> (average l == average l')%Q.
Proof. clear. intros l l' P. unfold average. rewrite (Permutation_length P). change (fold_right Qplus 0%Q) with sumQ. rewrite (sumQ_perm _ _ P). reflexivity. Qed.

(** ---- smooth ---- *)
Variables (V : list Q) (PP : list (list Q)).
Hypothesis HPP : length PP = S n.
Hypothesis LV : length V = n_elements t 0.
Definition cen (k e : nat) : Q := nth e (nth k PP []) 0%Q.
Fixpoint pick (ks : list nat) (v : nat) : Q :=
  match ks with
  | [] => nth v V 0%Q
  | k :: r => match srcs k v with [] => pick r v | l => mean (map (cen k) l) end
  end.
Lemma filter_combine : forall (row : nat -> list nat) (c : nat -> Q) p v idx, (forall i, In i idx -> length (row i) = p /\ NoDup (row i)) ->
  filter (fun kv : nat * Q => fst kv =? v) (combine (concat (map row idx)) (concat (map (fun i => repeat (c i) p) idx))) = map (fun i => (v, c i)) (filter (fun i => memb v (row i)) idx).
Proof. clear.
  intros row c p v. induction idx as [|i idx IH]; intros H; auto. cbn [map concat]. destruct (H i (or_introl eq_refl)) as [L ND].
  assert (A : forall a (b : list nat) c0 (d : list Q), length a = length c0 -> combine (a ++ b) (c0 ++ d) = combine a c0 ++ combine b d).
  { clear. induction a as [|x a IH]; intros b [|y c] d L; simpl in L; try lia; auto. cbn [app combine]. f_equal. apply IH. lia. }
  rewrite A by (rewrite repeat_length; auto). rewrite filter_app, IH by (intros; apply H; right; auto). cbn [filter].
  assert (B : forall r, NoDup r -> filter (fun kv : nat * Q => fst kv =? v) (combine r (repeat (c i) (length r))) = if memb v r then [(v, c i)] else []).
  { induction r as [|x r IHr]; intros N; auto. inversion N; subst. cbn [length repeat combine filter fst]. rewrite IHr by auto. change (memb v (x :: r)) with ((v =? x) || memb v r). rewrite (Nat.eqb_sym v x). destruct (Nat.eqb_spec x v) as [->|]; auto.
    cbn [orb]. destruct (memb v r) eqn:M; auto. apply memb_iff in M. tauto. }
  rewrite <- L at 1. rewrite B by auto. destruct (memb v (row i)); reflexivity.
Qed.
Lemma smooth_levels : forall C ks, (forall k, In k ks -> k <= n) ->
  (forall k, k <= n -> match nth k C None with None => forall e, crb k e = false | Some idx => idx = filter (crb k) (seq 0 (n_elements t k)) end) ->
  exists W, fold_right smooth_level (Ok V) (map (fun k => (nth k (elements t) [], nth k C None, nth k PP [])) ks) = Ok W /\ length W = length V /\ forall v, v < length V -> nth v W 0%Q = pick ks v.
Proof. clear - HR.
  intros C. induction ks as [|k ks IH]; intros Hks HCk; [exists V; auto|]. destruct IH as (W & E & L & N); [intros; apply Hks; right; auto|auto|].
  cbn [map fold_right]. rewrite E. unfold smooth_level. cbn [bind]. assert (Hk : k <= n) by (apply Hks; left; auto). specialize (HCk k Hk). destruct (nth k C None) as [idx|].
  - subst idx. set (idx := filter (crb k) (seq 0 (n_elements t k))).
    assert (Hi : forall i, In i idx -> i < n_elements t k) by (intros i Hi; unfold idx in Hi; apply filter_In in Hi as [Hi _]; apply in_seq in Hi; lia).
    replace (existsb _ idx) with false.
    2:{ symmetry. destruct (existsb _ idx) eqn:X; auto. apply existsb_exists in X as (i & I & Q). apply Hi in I. apply Nat.leb_le in Q. unfold n_elements in I. lia. }
    eexists. split; [reflexivity|]. split; [rewrite map_length, seq_length; auto|]. intros v Hv. rewrite nth_map_seq by lia.
    assert (FC := filter_combine (fun i => nth i (nth k (elements t) []) []) (cen k) (m k) v idx (fun i I => HR k i Hk (Hi i I))).
    assert (EQ : concat (map (fun i => repeat (nth i (nth k PP []) 0%Q) (length (hd [] (nth k (elements t) [])))) idx) = concat (map (fun i => repeat (cen k i) (m k)) idx)).
    { f_equal. apply map_ext_in. intros i I. unfold cen. f_equal. apply Hi in I. assert (H0 : 0 < n_elements t k) by lia. destruct (HR k 0 Hk H0) as [Q _]. unfold el in Q. rewrite <- Q. destruct (nth k (elements t) []); reflexivity. }
    rewrite EQ, FC. cbn [pick]. assert (SQ : filter (fun i => memb v (nth i (nth k (elements t) []) [])) idx = srcs k v).
    { unfold idx, srcs. clear. induction (seq 0 (n_elements t k)) as [|x l IHl]; auto. cbn [filter]. destruct (crb k x); cbn [filter andb]; [fold (el t k x); destruct (memb v (el t k x)); [f_equal|]|]; auto. }
    rewrite SQ. destruct (srcs k v) as [|e r]; cbn [map]; [apply N; lia|]. rewrite map_map. cbn [snd]. reflexivity.
  - exists W. split; auto. split; auto. intros v Hv. cbn [pick]. rewrite N by lia. replace (srcs k v) with (@nil nat); auto. symmetry. unfold srcs.
    induction (seq 0 (n_elements t k)) as [|x l IHl]; auto. cbn [filter]. rewrite HCk. auto.
Qed.
Lemma combine_seq : forall A B (a : list A) (b : list B) da db N, length a = N -> length b = N -> combine a b = map (fun k => (nth k a da, nth k b db)) (seq 0 N).
Proof. clear.
  intros A B a b da db N La Lb. apply (nth_ext _ _ (da, db) (da, db)).
  - rewrite combine_length, map_length, seq_length. lia.
  - intros i Hi. rewrite combine_length in Hi. rewrite combine_nth by lia. rewrite nth_map_seq by lia. auto.
Qed.
Lemma smooth_pick : exists W, smooth t V PP cr = Ok W /\ length W = length V /\ forall v, v < length V -> nth v W 0%Q = pick (seq 0 (S n)) v.
Proof. clear - HE HD HR HC HPP.
  destruct crease_index_ok as (C & EC & LC & NC). unfold smooth. rewrite EC. cbn [bind].
  rewrite (combine_seq _ _ (elements t) C [] None (S n) HE LC).
  rewrite (combine_seq _ _ _ PP ([], None) [] (S n)) by (rewrite ?map_length, ?seq_length; auto).
  rewrite <- fold_left_rev_right, rev_involutive.
  destruct (smooth_levels C (seq 0 (S n))) as (W & E & L & N); [intros k Hk; apply in_seq in Hk; lia|auto|].
  exists W. split; [|auto]. rewrite <- E. f_equal. apply map_ext_in. intros k Hk. apply in_seq in Hk. f_equal.
  apply (nth_map_seq _ (fun k => (nth k (elements t) [], nth k C None))). lia.
Qed.
Lemma pick_first : forall k v j, j <= k -> (forall k', k' < k -> srcs k' v = []) -> srcs k v <> [] -> forall len, k < j + len -> pick (seq j len) v = mean (map (cen k) (srcs k v)).
Proof. clear.
  intros k v j Hj Low Ne. remember (k - j) as d eqn:Ed. revert j Hj Ed. induction d as [|d IH]; intros j Hj Ed len Hl.
  - assert (j = k) by lia. subst j. destruct len; [lia|]. cbn [seq pick]. destruct (srcs k v); [congruence|]. auto.
  - destruct len; [lia|]. cbn [seq pick]. rewrite Low by lia. apply IH; lia.
Qed.
Lemma pick_none : forall v ks, (forall k, In k ks -> srcs k v = []) -> pick ks v = nth v V 0%Q.
Proof. clear. induction ks as [|k ks IH]; intros H; auto. cbn [pick]. rewrite (H k) by (left; auto). apply IH. intros; apply H; right; auto. Qed.

Lemma smooth_spec : exists W, smooth t V PP cr = Ok W /\ length W = length V /\ forall v, v < length V ->
  (forall k l, sources t n cr v k l -> (nth v W 0 == average (map (fun e => nth e (nth k PP []) 0) l))%Q) /\
  ((forall k e, k <= n -> crease t n cr k e -> ~ In v (element t k e)) -> nth v W 0%Q = nth v V 0%Q).
Proof. clear - HE HD HR HC HPP.
  destruct smooth_pick as (W & E & L & N). exists W. split; auto. split; auto. intros v Hv. split.
  - intros k l Hs. apply sources_srcs in Hs as (Hk & P & Ne & Low). rewrite N by auto. rewrite (pick_first k v 0) by (auto; lia).
    apply average_perm. apply Permutation_map. exact P.
  - intros U. rewrite N by auto. apply pick_none. intros k Hk. apply in_seq in Hk. apply uncovered_srcs; auto. lia.
Qed.

(** ---- smooth_operator ---- *)
Lemma override_nth : forall j rows k v, k < length rows -> Forall (fun r => v < length r) rows ->
  nth v (nth k (override j rows) []) 0%Z = if existsb (fun i => negb (nth v (nth i rows []) 0 =? 0)%Z) (seq 0 (Nat.min j k)) then 0%Z else nth v (nth k rows []) 0%Z.
Proof. clear.
  induction j as [|j IH]; intros rows k v Hk F; auto. destruct rows as [|a r]; [simpl in Hk; lia|]. cbn [override]. destruct k as [|k]; [reflexivity|]. cbn [nth length Nat.min] in *.
  inversion F as [|? ? Fa Fr]; subst. rewrite IH.
  - assert (Mk : forall i, i < length r -> nth v (nth i (map (mask a) r) []) 0%Z = if (nth v a 0 =? 0)%Z then nth v (nth i r []) 0%Z else 0%Z).
    { intros i Hi. rewrite (nth_map_lt _ _ _ _ _ []) by auto. unfold mask. rewrite nth_map_seq; auto. rewrite Forall_forall in Fr. apply Fr, nth_In. auto. }
    rewrite Mk by lia. cbn [seq existsb nth]. rewrite <- seq_shift.
    assert (X : existsb (fun i => negb (nth v (nth i (map (mask a) r) []) 0 =? 0)%Z) (seq 0 (Nat.min j k)) =
      if (nth v a 0 =? 0)%Z then existsb (fun i => negb (nth v (nth i (a :: r) []) 0 =? 0)%Z) (map S (seq 0 (Nat.min j k))) else false).
    { assert (B : forall i, In i (seq 0 (Nat.min j k)) -> i < length r) by (intros i Hi; apply in_seq in Hi; lia). revert B.
      generalize (seq 0 (Nat.min j k)) as l. induction l as [|i l IHl]; intros B; cbn [existsb map]; [destruct (_ =? _)%Z; auto|]. rewrite IHl by (intros; apply B; right; auto). rewrite Mk by (apply B; left; auto). cbn [nth]. destruct (nth v a 0 =? 0)%Z; reflexivity. }
    rewrite X. destruct (nth v a 0 =? 0)%Z; reflexivity.
  - rewrite map_length. lia.
  - rewrite Forall_forall in *. intros x Hx. apply in_map_iff in Hx as (y & <- & Hy). unfold mask. rewrite map_length, seq_length. auto.
Qed.
Definition first (k v : nat) : bool := negb (match srcs k v with [] => true | _ => false end) && forallb (fun k' => match srcs k' v with [] => true | _ => false end) (seq 0 k).
Lemma influence_srcs : forall C k v, k <= n -> v < n_elements t 0 -> (forall e, e < n_elements t k -> nth e C 0%Z = if crb k e then 1%Z else 0%Z) ->
  nth v (influence (n_elements t 0) (nth k (elements t) []) C) 0%Z = match srcs k v with [] => 0%Z | _ => 1%Z end.
Proof. clear.
  intros C k v Hk Hv HCk. unfold influence. rewrite nth_map_seq by auto. destruct (existsb _ _) eqn:X.
  - apply existsb_exists in X as (e & Ie & Q). apply andb_true_iff in Q as [Q1 Q2]. apply in_seq in Ie. rewrite HCk in Q1 by (unfold n_elements; lia). destruct (crb k e) eqn:Ce; [|discriminate].
    assert (I : In e (srcs k v)). { unfold srcs. apply filter_In. split; [apply in_seq; unfold n_elements; lia|]. rewrite Ce. exact Q2. } destruct (srcs k v); [destruct I|auto].
  - destruct (srcs k v) as [|e r] eqn:Es; auto. exfalso. assert (I : In e (srcs k v)) by (rewrite Es; left; auto). unfold srcs in I. apply filter_In in I as [Ie Q]. apply andb_true_iff in Q as [Q1 Q2].
    assert (Y : existsb (fun e => negb (nth e C 0 =? 0)%Z && existsb (Nat.eqb v) (nth e (nth k (elements t) []) [])) (seq 0 (length (nth k (elements t) []))) = true); [|congruence].
    apply existsb_exists. exists e. split; auto. apply in_seq in Ie. rewrite HCk, Q1 by lia. cbn [Z.eqb negb andb]. exact Q2.
Qed.
Lemma override_first : forall C, length C = S n -> (forall k, k <= n -> forall e, e < n_elements t k -> nth e (nth k C []) 0%Z = if crb k e then 1%Z else 0%Z) ->
  let Sv := override (length (elements t) - 1) (map (fun ec => influence (n_elements t 0) (fst ec) (snd ec)) (combine (elements t) C)) in
  length Sv = S n /\ forall k v, k <= n -> v < n_elements t 0 -> nth v (nth k Sv []) 0%Z = if first k v then 1%Z else 0%Z.
Proof. clear - HE.
  intros C LC HCk. cbv zeta. rewrite HE. replace (S n - 1) with n by lia.
  rewrite (combine_seq _ _ (elements t) C [] [] (S n) HE LC). rewrite map_map. cbn [fst snd].
  set (rows := map (fun k => influence (n_elements t 0) (nth k (elements t) []) (nth k C [])) (seq 0 (S n))).
  assert (LO : forall j r, length (override j r) = length r). { clear. induction j as [|j IH]; intros [|a r]; cbn [override length]; auto. rewrite IH, map_length. auto. }
  split; [rewrite LO; unfold rows; rewrite map_length, seq_length; auto|]. intros k v Hk Hv.
  rewrite override_nth.
  - assert (Rk : forall i, i <= n -> nth v (nth i rows []) 0%Z = match srcs i v with [] => 0%Z | _ => 1%Z end).
    { intros i Hi. unfold rows. rewrite nth_map_seq by lia. apply influence_srcs; auto. }
    rewrite Rk by auto. replace (Nat.min n k) with k by lia. unfold first.
    assert (X : existsb (fun i => negb (nth v (nth i rows []) 0 =? 0)%Z) (seq 0 k) = negb (forallb (fun k' => match srcs k' v with [] => true | _ => false end) (seq 0 k))).
    { assert (B : forall i, In i (seq 0 k) -> i <= n) by (intros i Hi; apply in_seq in Hi; lia). revert B. generalize (seq 0 k) as l. induction l as [|i l IHl]; intros B; auto. cbn [existsb forallb]. rewrite Rk, IHl by (try (apply B; left; auto); intros; apply B; right; auto). destruct (srcs i v); reflexivity. }
    rewrite X. destruct (forallb _ _); cbn [negb]; destruct (srcs k v); reflexivity.
  - unfold rows. rewrite map_length, seq_length. lia.
  - unfold rows. apply Forall_forall. intros r Hr. apply in_map_iff in Hr as (i & <- & _). unfold influence. rewrite map_length, seq_length. auto.
Qed.
Lemma first_iff : forall k v, first k v = true <-> srcs k v <> [] /\ forall k', k' < k -> srcs k' v = [].
Proof. clear.
  intros k v. unfold first. rewrite andb_true_iff, forallb_forall. split.
  - intros [A B]. split; [destruct (srcs k v); [discriminate|discriminate]|]. intros k' Hk'. assert (I : In k' (seq 0 k)) by (apply in_seq; lia). specialize (B k' I). cbv beta in B. destruct (srcs k' v); [auto|discriminate].
  - intros [A B]. split; [destruct (srcs k v); [congruence|auto]|]. intros k' I. apply in_seq in I. rewrite B by lia. auto.
Qed.

Variables (A : list (option (nat -> nat -> Q))) (q : nat -> Q).
Hypothesis HA : averaging_operators_0 t = Ok A.
Hypothesis HL : length A = S n.
Hypothesis HW : forall k, k <= n -> exists W, nth_error A k = Some (Some W) /\ forall e v, e < n_elements t k -> v < n_elements t 0 -> (W e v == if memb v (el t k e) then q k else 0)%Q.
Hypothesis Hq : forall k, k <= n -> (~ q k == 0)%Q.

Lemma get_weights : exists Ws, mapM (fun a : option (nat -> nat -> Q) => match a with Some f => Ok f | None => Err TypeError end) A = Ok Ws /\ length Ws = S n /\
  forall k, k <= n -> forall e v, e < n_elements t k -> v < n_elements t 0 -> (nth k Ws (fun _ _ => 0) e v == if memb v (el t k e) then q k else 0)%Q.
Proof. clear - HL HW.
  assert (G : forall (B : list (option (nat -> nat -> Q))), (forall k, k < length B -> exists W, nth_error B k = Some (Some W)) ->
     exists Ws, mapM (fun a : option (nat -> nat -> Q) => match a with Some f => Ok f | None => Err TypeError end) B = Ok Ws /\ length Ws = length B /\ forall k W, nth_error B k = Some (Some W) -> nth k Ws (fun _ _ => 0%Q) = W).
  { clear. induction B as [|b B IH]; intros H; [exists []; split; auto; split; auto; intros [|k] W; discriminate|].
    destruct (H 0) as (W & E); [simpl; lia|]. cbn [nth_error] in E. injection E as ->. destruct IH as (Ws & E & L & N); [intros k Hk; apply (H (S k)); simpl; lia|].
    exists (W :: Ws). cbn [mapM bind]. rewrite E. cbn [bind]. split; auto. split; [simpl; auto|]. intros [|k] W' X; cbn [nth_error nth] in *; [injection X as ->; auto|auto]. }
  destruct (G A) as (Ws & E & L & N).
  { intros k Hk. destruct (HW k ltac:(lia)) as (W & X & _). exists W. auto. }
  exists Ws. split; auto. split; [lia|]. intros k Hk e v He Hv. destruct (HW k Hk) as (W & X & Y). rewrite (N k W X). apply Y; auto.
Qed.

Definition spread (k : nat) (l : list nat) (u : nat) : Q := sumQ (map (fun e => if memb u (el t k e) then 1 else 0)%Q l).
Lemma combined_first : forall Ws Sv C, length Sv = S n ->
  (forall k, k <= n -> forall e v, e < n_elements t k -> v < n_elements t 0 -> (nth k Ws (fun _ _ => 0) e v == if memb v (el t k e) then q k else 0)%Q) ->
  (forall k v, k <= n -> v < n_elements t 0 -> nth v (nth k Sv []) 0%Z = if first k v then 1%Z else 0%Z) ->
  (forall k, k <= n -> forall e, e < n_elements t k -> nth e (nth k C []) 0%Z = if crb k e then 1%Z else 0%Z) ->
  forall v, v < n_elements t 0 ->
  (forall k, k <= n -> first k v = true -> forall u, u < n_elements t 0 -> (combined t Ws Sv C v u == q k * q k * spread k (srcs k v) u)%Q) /\
  ((forall k, k <= n -> first k v = false) -> forall u, u < n_elements t 0 -> (combined t Ws Sv C v u == 0)%Q).
Proof. clear.
  intros Ws Sv C LS HWs HSv HCk v Hv. split.
  - intros k Hk Fk u Hu. unfold combined. rewrite LS. rewrite (sumQ_single _ k).
    + rewrite HSv, Fk by auto. change (inject_Z 1) with 1%Q. rewrite Qmult_1_l. unfold spread. rewrite <- sumQ_scale. unfold srcs.
      rewrite (sumQ_ext _ _ (fun e => if crb k e && memb v (el t k e) then q k * q k * (if memb u (el t k e) then 1 else 0) else 0)%Q).
      * apply sumQ_filter.
      * intros e He. apply in_seq in He. rewrite HCk by lia. rewrite !HWs by lia. destruct (crb k e), (memb v (el t k e)), (memb u (el t k e)); cbn [andb]; try change (inject_Z 1) with 1%Q; try change (inject_Z 0) with 0%Q; ring.
    + apply seq_NoDup.
    + apply in_seq. lia.
    + intros k' Hk' Ne. apply in_seq in Hk'. rewrite HSv by lia. replace (first k' v) with false; [change (inject_Z 0) with 0%Q; ring|]. symmetry. destruct (first k' v) eqn:F'; auto. exfalso. apply first_iff in F' as [P1 P2]. apply first_iff in Fk as [Q1 Q2].
      destruct (Nat.lt_trichotomy k k') as [X|[X|X]]; [apply Q1, P2; auto|congruence|apply P1, Q2; auto].
  - intros N u Hu. unfold combined. apply sumQ_zero. intros k Hk. apply in_seq in Hk. rewrite HSv by lia. rewrite N by lia. change (inject_Z 0) with 0%Q. ring.
Qed.
Lemma spread_nonneg : forall k l u, (0 <= spread k l u)%Q.
Proof. clear. intros. unfold spread. apply sumQ_nonneg. intros e _. destruct (memb u (el t k e)); discriminate. Qed.
Lemma spread_sum : forall k l, k <= n -> (forall e, In e l -> e < n_elements t k) -> forall f : nat -> Q,
  (sumQ (map (fun u => spread k l u * f u) (seq 0 (n_elements t 0))) == sumQ (map (fun e => sumQ (map f (el t k e))) l))%Q.
Proof. clear - HR HV.
  intros k l Hk Hl f. unfold spread.
  rewrite (sumQ_ext _ _ (fun u => sumQ (map (fun e => if memb u (el t k e) then f u else 0)%Q l))).
  - rewrite sumQ_swap. apply sumQ_ext. intros e He. destruct (HR k e Hk (Hl e He)) as [_ ND]. apply sumQ_over; auto. intros v Hv. apply (HV k e); auto.
  - intros u _. rewrite Qmult_comm, <- sumQ_scale. apply sumQ_ext. intros e _. destruct (memb u (el t k e)); ring.
Qed.
Lemma sumQ_const : forall A0 (l : list A0) c, (sumQ (map (fun _ => c) l) == inject_Z (Z.of_nat (length l)) * c)%Q.
Proof. clear. induction l as [|a l IH]; intros c; cbn [map sumQ fold_right length]; [ring|]. change (fold_right Qplus 0%Q (map (fun _ => c) l)) with (sumQ (map (fun _ : A0 => c) l)). rewrite IH. rewrite Nat2Z.inj_succ, <- Z.add_1_l, inject_Z_plus. ring. Qed.
Lemma Qnat_nz : forall k, 0 < k -> (~ inject_Z (Z.of_nat k) == 0)%Q.
Proof. clear. intros k H Z0. unfold Qeq in Z0. simpl in Z0. lia. Qed.
Lemma smooth_operator_spec : exists M, smooth_operator t cr = Ok M /\ forall v, v < n_elements t 0 ->
  (forall k, k <= n -> first k v = true -> forall u, u < n_elements t 0 -> (M v u == spread k (srcs k v) u / (inject_Z (Z.of_nat (length (srcs k v))) * inject_Z (Z.of_nat (m k))))%Q) /\
  ((forall k, k <= n -> first k v = false) -> forall u, u < n_elements t 0 -> (M v u == 0)%Q).
Proof. clear - HE HD HR HM HV HC HA HL HW Hq.
  destruct crease_flags_ok as (C & EC & LC & NC). destruct get_weights as (Ws & EW & LW & NW). destruct (override_first C LC NC) as [LS NS].
  unfold smooth_operator. rewrite EC. cbn [bind]. rewrite HA. cbn [bind]. rewrite EW. cbn [bind]. set (Sv := override _ _) in *.
  unfold normalize_l1. cbn [Nat.eqb]. eexists. split; [reflexivity|]. intros v Hv. cbv beta.
  destruct (combined_first Ws Sv C LS NW NS NC v Hv) as [F U]. split.
  - intros k Hk Fk u Hu. specialize (F k Hk Fk). rewrite (sumQ_ext _ _ (fun u => q k * q k * spread k (srcs k v) u)%Q).
    + rewrite sumQ_scale. rewrite F by auto. rewrite (sumQ_ext _ (spread k (srcs k v)) (fun u => spread k (srcs k v) u * 1)%Q) by (intros; ring).
      assert (B : forall e, In e (srcs k v) -> e < n_elements t k) by (intros e I; apply srcs_in in I as [[I _] _]; auto).
      rewrite spread_sum by auto. rewrite (sumQ_ext _ _ (fun _ => inject_Z (Z.of_nat (m k)))).
      * rewrite sumQ_const. apply first_iff in Fk as [Ne _]. assert (N1 := Qnat_nz (length (srcs k v)) ltac:(destruct (srcs k v); [congruence|simpl; lia])). assert (N2 := Qnat_nz (m k) (HM k Hk)). field. split; auto.
      * intros e I. rewrite sumQ_const. destruct (HR k e Hk (B e I)) as [Le _]. rewrite Le. ring.
    + intros u' Hu'. apply in_seq in Hu'. rewrite F by lia. apply Qabs_pos. apply Qmult_le_0_compat; [|apply spread_nonneg]. clear. destruct (q k) as [a b]. unfold Qle. simpl. nia.
  - intros N u Hu. rewrite (U N u Hu). ring.
Qed.
Lemma smooth_operator_apply : exists M, smooth_operator t cr = Ok M /\ forall v, v < n_elements t 0 -> forall V0, length V0 = n_elements t 0 ->
  (forall k, k <= n -> first k v = true -> (nth v (apply_operator (n_elements t 0) M V0) 0 == mean (map (fun e => mean (map (fun u => nth u V0 0) (el t k e))) (srcs k v)))%Q) /\
  ((forall k, k <= n -> first k v = false) -> (nth v (apply_operator (n_elements t 0) M V0) 0 == 0)%Q).
Proof. clear - HE HD HR HM HV HC HA HL HW Hq.
  destruct smooth_operator_spec as (M & E & N). exists M. split; auto. intros v Hv V0 L0. destruct (N v Hv) as [F U]. unfold apply_operator. rewrite nth_map_seq by auto. rewrite L0. split.
  - intros k Hk Fk. specialize (F k Hk Fk). set (c := (inject_Z (Z.of_nat (length (srcs k v))) * inject_Z (Z.of_nat (m k)))%Q) in *.
    rewrite (sumQ_ext _ _ (fun u => / c * (spread k (srcs k v) u * nth u V0 0))%Q) by (intros u Hu; apply in_seq in Hu; rewrite F by lia; unfold Qdiv; ring).
    assert (B : forall e, In e (srcs k v) -> e < n_elements t k) by (intros e I; apply srcs_in in I as [[I _] _]; auto).
    rewrite sumQ_scale, spread_sum by auto. unfold mean at 1. rewrite map_length.
    rewrite (sumQ_ext _ (fun e => mean (map (fun u => nth u V0 0%Q) (el t k e))) (fun e => / inject_Z (Z.of_nat (m k)) * sumQ (map (fun u => nth u V0 0) (el t k e)))%Q).
    + rewrite sumQ_scale. apply first_iff in Fk as [Ne _]. assert (N1 := Qnat_nz (length (srcs k v)) ltac:(destruct (srcs k v); [congruence|simpl; lia])). assert (N2 := Qnat_nz (m k) (HM k Hk)). unfold c. field. split; auto.
    + intros e I. destruct (HR k e Hk (B e I)) as [Le _]. unfold mean. rewrite map_length, Le. unfold Qdiv. ring.
  - intros Z0. apply sumQ_zero. intros u Hu. apply in_seq in Hu. rewrite (U Z0) by lia. ring.
Qed.
End M.
