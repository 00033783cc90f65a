(** Coq's [ring] and [field] for the fields of mathcomp: the operations are first rewritten to copies whose type is the
    field itself, as the tactics look the type up by its syntax. *)
From mathcomp Require Import all_ssreflect all_algebra.
From Coq Require Import Ring Field.
Import GRing.Theory Num.Theory.
Local Open Scope ring_scope.

Section T.
Variable K : rcfType.
Definition kadd (x y : K) : K := x + y.
Definition kmul (x y : K) : K := x * y.
Definition kopp (x : K) : K := - x.
Definition kinv (x : K) : K := x^-1.
Definition k0 : K := 0.
Definition k1 : K := 1.
Lemma kaddE : forall x y : K, x + y = kadd x y. Proof. by []. Qed.
Lemma kmulE : forall x y : K, x * y = kmul x y. Proof. by []. Qed.
Lemma koppE : forall x : K, - x = kopp x. Proof. by []. Qed.
Lemma kinvE : forall x : K, x^-1 = kinv x. Proof. by []. Qed.
Lemma k0E : (0 : K) = k0. Proof. by []. Qed.
Lemma k1E : (1 : K) = k1. Proof. by []. Qed.
Lemma kstart : forall a b : K, kadd k0 a = kadd k0 b -> a = b. Proof. move=> a b. by rewrite /kadd /k0 !add0r. Qed.
Lemma K_ring : ring_theory k0 k1 kadd kmul (fun x y => kadd x (kopp y)) kopp (@eq (Num.RealClosedField.sort K)).
Proof. rewrite /kadd /kmul /kopp /k0 /k1. split; try (move=> *; by rewrite ?add0r ?mul1r ?addrA ?mulrA ?mulrDl ?subrr). exact: addrC. exact: mulrC. Qed.
Lemma K_field : field_theory k0 k1 kadd kmul (fun x y => kadd x (kopp y)) kopp (fun x y => kmul x (kinv y)) kinv (@eq (Num.RealClosedField.sort K)).
Proof. split. exact: K_ring. apply/eqP. exact: oner_neq0. by []. move=> p /eqP N. rewrite /kmul /kinv. by rewrite mulVf. Qed.
End T.

Ltac kprep K := rewrite ?exprS ?expr0 ?mulrSr ?mulr0n ?(kinvE K) ?(koppE K) ?(kaddE K) ?(kmulE K) ?(k0E K) ?(k1E K);
  apply: (kstart K).
