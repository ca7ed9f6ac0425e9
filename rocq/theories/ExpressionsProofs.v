(** Lemmas about weighted sums. *)
From Coq Require Import ZArith List Lia.
From Verif Require Import Expressions ExpressionsSpec.
Import ListNotations.
Local Open Scope Z_scope.

Section Over.
Context {V : Type} (value : V -> Z).

Lemma worth_app (s s' : sum_of V) : sum_worth value (s ++ s') = sum_worth value s + sum_worth value s'.
Proof. induction s as [|t r IH]; simpl; [reflexivity|]. rewrite IH. lia. Qed.

Lemma worth_plus (s : sum_of V) t : sum_worth value (sum_plus s t) = sum_worth value s + term_worth value t.
Proof. unfold sum_plus. rewrite worth_app. simpl. lia. Qed.

Lemma worth_negate (s : sum_of V) : sum_worth value (negate_terms s) = - sum_worth value s.
Proof. induction s as [|[c v] r IH]; simpl; [reflexivity|]. rewrite IH. unfold term_worth. simpl. lia. Qed.

Lemma at_most_true (s : sum_of V) c : le_true value (at_most s c) <-> sum_worth value s <= c.
Proof. reflexivity. Qed.

Lemma at_most_term_true (s : sum_of V) t : le_true value (at_most_term s t) <-> sum_worth value s <= term_worth value t.
Proof. unfold le_true, at_most_term. cbn [le_lhs le_rhs]. rewrite worth_plus. unfold term_worth, times. simpl. lia. Qed.

Lemma at_least_true (s : sum_of V) c : le_true value (at_least s c) <-> sum_worth value s >= c.
Proof. unfold le_true, at_least. cbn [le_lhs le_rhs]. rewrite worth_negate. lia. Qed.

Lemma at_least_term_true (s : sum_of V) t : le_true value (at_least_term s t) <-> sum_worth value s >= term_worth value t.
Proof. unfold le_true, at_least_term. cbn [le_lhs le_rhs]. rewrite worth_plus, worth_negate. unfold term_worth, times. simpl. lia. Qed.

Lemma negate_true (i : sum_le V) : le_true value (negate_inequality i) <-> ~ le_true value i.
Proof. unfold le_true, negate_inequality. cbn [le_lhs le_rhs]. rewrite worth_negate. lia. Qed.

Lemma equals_term_true (s : sum_of V) t : equals_true value (equals_term s t) <-> sum_worth value s = term_worth value t.
Proof. unfold equals_true, equals_term. cbn [eq_lhs eq_rhs]. rewrite worth_plus. unfold term_worth, times. simpl. lia. Qed.

(** Sums built by adding terms one at a time. *)
Lemma worth_built (ts : list (weighted V)) : forall s, sum_worth value (fold_left sum_plus ts s) = sum_worth value s + fold_right Z.add 0 (map (term_worth value) ts).
Proof. induction ts as [|t r IH]; intro s; simpl; [lia|]. rewrite IH, worth_plus. lia. Qed.

End Over.
