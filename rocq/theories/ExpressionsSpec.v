(** What weighted sums are worth. *)
From Coq Require Import ZArith List.
From Verif Require Import Expressions.
Import ListNotations.
Local Open Scope Z_scope.

Section Over.
Context {V : Type} (value : V -> Z).

Definition term_worth (t : weighted V) : Z := fst t * value (snd t).

(** The sum of coefficient times value. *)
Fixpoint sum_worth (s : sum_of V) : Z :=
  match s with
  | [] => 0
  | t :: r => term_worth t + sum_worth r
  end.

Definition le_true (i : sum_le V) : Prop := sum_worth (le_lhs i) <= le_rhs i.
Definition equals_true (e : sum_equals V) : Prop := sum_worth (eq_lhs e) = eq_rhs e.

End Over.
