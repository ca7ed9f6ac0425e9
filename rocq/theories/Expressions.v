(** Weighted sums and the inequalities written with them.

    Models gcs/expression.hh. *)
From Coq Require Import ZArith List.
Import ListNotations.
Local Open Scope Z_scope.

Section Over.
Context {V : Type}.

(** gcs/expression.hh:24-66 (Weighted, SumOf): the terms, in order. *)
Definition weighted : Type := (Z * V)%type.
Definition sum_of : Type := list weighted.

(** gcs/expression.hh:112-117 and 203-208. *)
Record sum_le : Type := mk_le { le_lhs : sum_of; le_rhs : Z }.
Record sum_equals : Type := mk_equals { eq_lhs : sum_of; eq_rhs : Z }.

(** gcs/expression.hh:38-42 (operator* ). *)
Definition times (i : Z) (v : V) : weighted := (i, v).

(** gcs/expression.hh:73-92 (operator+ and operator+=). *)
Definition sum_plus (a : sum_of) (b : weighted) : sum_of := a ++ [b].

(** The loops at gcs/expression.hh:154-155, 170-171 and 189-190. *)
Definition negate_terms (s : sum_of) : sum_of := map (fun '(c, v) => (- c, v)) s.

(** gcs/expression.hh:124-128 (operator<= with an Integer). *)
Definition at_most (lhs : sum_of) (rhs : Z) : sum_le := mk_le lhs rhs.

(** gcs/expression.hh:135-142 (operator<= with a term). *)
Definition at_most_term (lhs : sum_of) (rhs : weighted) : sum_le := mk_le (sum_plus lhs (times (- fst rhs) (snd rhs))) 0.

(** gcs/expression.hh:150-157 (operator>= with an Integer). *)
Definition at_least (lhs : sum_of) (rhs : Z) : sum_le := mk_le (negate_terms lhs) (- rhs).

(** gcs/expression.hh:165-174 (operator>= with a term). *)
Definition at_least_term (lhs : sum_of) (rhs : weighted) : sum_le := mk_le (sum_plus (negate_terms lhs) (times (fst rhs) (snd rhs))) 0.

(** gcs/expression.hh:186-193. *)
Definition negate_inequality (ineq : sum_le) : sum_le := mk_le (negate_terms (le_lhs ineq)) (- le_rhs ineq - 1).

(** gcs/expression.hh:215-219 (operator== with an Integer). *)
Definition equals (lhs : sum_of) (rhs : Z) : sum_equals := mk_equals lhs rhs.

(** gcs/expression.hh:226-233 (operator== with a term). *)
Definition equals_term (lhs : sum_of) (rhs : weighted) : sum_equals := mk_equals (sum_plus lhs (times (- fst rhs) (snd rhs))) 0.

End Over.
Arguments sum_of : clear implicits. Arguments weighted : clear implicits. Arguments sum_le : clear implicits. Arguments sum_equals : clear implicits.
