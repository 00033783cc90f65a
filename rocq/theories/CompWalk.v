(** Connected graphs in which every node has at most two neighbours are paths or rings. *)
Require Import List Arith Bool Lia.
Import ListNotations.

Section Walk.
Variable R : nat -> nat -> Prop.
Variable V : list nat.
Hypothesis Rdec : forall x y, In x V -> In y V -> {R x y} + {~ R x y}.
Hypothesis Rsym : forall x y, R x y -> R y x.
Hypothesis Rirr : forall x, ~ R x x.
Hypothesis RV : forall x y, R x y -> In x V /\ In y V.
Hypothesis deg : forall x a b c, R x a -> R x b -> R x c -> a = b \/ a = c \/ b = c.

Definition chain (c : list nat) : Prop := forall a, S a < length c -> R (nth a c 0) (nth (S a) c 0).
Definition walk (c : list nat) : Prop := c <> [] /\ NoDup c /\ incl c V /\ chain c.
Definition stuck (c : list nat) : Prop := forall x, In x V -> ~ In x c -> ~ R x (nth 0 c 0) /\ ~ R x (nth (length c - 1) c 0).

Lemma chain_rev : forall c, chain c -> chain (rev c).
Proof.
  intros c H a Ha. rewrite rev_length in Ha. rewrite !rev_nth by lia. apply Rsym.
  replace (length c - S a) with (S (length c - S (S a))) by lia. apply H. lia.
Qed.
Lemma walk_rev : forall c, walk c -> walk (rev c).
Proof.
  intros c (A & B & C & D). split; [|split; [|split]].
  - intros E. apply A. rewrite <- (rev_involutive c), E. reflexivity.
  - apply NoDup_rev; auto.
  - intros x Hx. apply C. apply in_rev; auto.
  - apply chain_rev; auto.
Qed.
Lemma walk_cons : forall c x, walk c -> In x V -> ~ In x c -> R x (nth 0 c 0) -> walk (x :: c).
Proof.
  intros c x (A & B & C & D) Hx NI HR. split; [discriminate|]. split; [constructor; auto|]. split; [intros y [<-|Hy]; auto|].
  intros [|a] Ha; [exact HR|]. cbn. apply D. simpl in Ha. lia.
Qed.

Lemma search : forall (P : nat -> Prop) l, (forall x, In x l -> {P x} + {~ P x}) -> {x | In x l /\ P x} + {forall x, In x l -> ~ P x}.
Proof.
  intros P l. induction l as [|y l IH]; intros D; [right; intros x []|].
  destruct (D y (or_introl eq_refl)) as [H|H]; [left; exists y; split; [left|]; auto|].
  destruct IH as [(x & Hx & Px)|N]; [intros; apply D; right; auto|left; exists x; split; [right|]; auto|].
  right. intros x [<-|Hx]; auto.
Qed.

Lemma extend : forall m c, length V - length c <= m -> walk c -> exists c', incl c c' /\ walk c' /\ stuck c'.
Proof.
  induction m as [|m IH]; intros c Hm W.
  - exists c. split; [apply incl_refl|]. split; auto. destruct W as (A & B & C & D). intros x Hx NI. exfalso. apply NI.
    apply (NoDup_length_incl (l := c) (l' := V)); auto. lia.
  - assert (Step : forall d, walk d -> length d = length c ->
       {x | In x V /\ (~ In x d /\ R x (nth 0 d 0))} + {forall x, In x V -> ~ (~ In x d /\ R x (nth 0 d 0))}).
    { intros d (A & B & C & D) L. apply search. intros x Hx. destruct (in_dec Nat.eq_dec x d) as [I|NI]; [right; tauto|].
      destruct (Rdec x (nth 0 d 0) Hx) as [r|r]; [apply C, nth_In; destruct d; [congruence|simpl; lia]|left|right]; tauto. }
    assert (Grow : forall d, walk d -> length d = length c -> incl c d -> (exists x, In x V /\ (~ In x d /\ R x (nth 0 d 0))) -> exists c', incl c c' /\ walk c' /\ stuck c').
    { intros d Wd Ld Id (x & Hx & NI & HR). destruct (IH (x :: d)) as (c' & I & W' & S').
      - assert (length d < length V). { destruct Wd as (A & B & C & D). apply (NoDup_incl_length (l := x :: d)); [constructor; auto|]. intros y [<-|Hy]; auto. }
        simpl. lia.
      - apply walk_cons; auto.
      - exists c'. split; auto. intros y Hy. apply I. right. auto. }
    destruct (Step c W eq_refl) as [(x & Hx)|N1]; [apply (Grow c); eauto using incl_refl|].
    destruct (Step (rev c) (walk_rev c W) (rev_length c)) as [(x & Hx)|N2].
    + apply (Grow (rev c)); eauto using walk_rev, rev_length. intros y Hy. apply in_rev in Hy. auto.
    + exists c. split; [apply incl_refl|]. split; auto. intros x Hx NI. split; intros HR; [apply (N1 x Hx); auto|].
      apply (N2 x Hx). split; [rewrite <- in_rev; auto|].
      assert (0 < length c) by (destruct W as (A & _); destruct c; [congruence|simpl; lia]).
      rewrite rev_nth by auto. exact HR.
Qed.

Section Stuck.
Variable c : list nat.
Hypothesis W : walk c.
Hypothesis ST : stuck c.
Lemma c_pos : 0 < length c.
Proof. destruct W as (A & _). destruct c; [congruence|simpl; lia]. Qed.
Lemma c_inj : forall a b, a < length c -> b < length c -> nth a c 0 = nth b c 0 -> a = b.
Proof. destruct W as (_ & B & _). apply (NoDup_nth c 0); auto. Qed.

Lemma interior : forall a y, 0 < a -> S a < length c -> R (nth a c 0) y -> y = nth (a - 1) c 0 \/ y = nth (S a) c 0.
Proof.
  intros a y H0 H1 HR. destruct W as (_ & _ & _ & D).
  assert (R1 : R (nth a c 0) (nth (a - 1) c 0)).
  { apply Rsym. specialize (D (a - 1)). replace (S (a - 1)) with a in D by lia. apply D. lia. }
  destruct (deg _ _ _ _ R1 (D a H1) HR) as [E|[E|E]]; auto. apply c_inj in E; lia.
Qed.

Lemma closed : forall x y, In x c -> R x y -> In y c.
Proof.
  intros x y Hx HR. destruct (in_dec Nat.eq_dec y c) as [|NI]; auto. exfalso.
  apply In_nth with (d := 0) in Hx as (a & Ha & <-).
  destruct (ST y (proj2 (RV _ _ HR)) NI) as [S1 S2]. apply Rsym in HR.
  destruct (Nat.eq_dec a 0) as [->|D1]; [auto|]. destruct (Nat.eq_dec a (length c - 1)) as [->|D2]; [auto|].
  apply Rsym in HR. destruct (interior a y ltac:(lia) ltac:(lia) HR) as [-> | ->]; apply NI, nth_In; lia.
Qed.

Lemma consecutive : forall a b, a < b -> b < length c -> R (nth a c 0) (nth b c 0) -> b = S a \/ (a = 0 /\ S b = length c).
Proof.
  intros a b Hab Hb HR. destruct (Nat.eq_dec a 0) as [->|D1].
  - destruct (Nat.eq_dec (S b) (length c)) as [E|D2]; auto. left. apply Rsym in HR.
    destruct (interior b _ ltac:(lia) ltac:(lia) HR) as [E|E]; apply c_inj in E; lia.
  - left. destruct (interior a _ ltac:(lia) ltac:(lia) HR) as [E|E]; apply c_inj in E; lia.
Qed.
End Stuck.
End Walk.
