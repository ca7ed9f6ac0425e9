(** What linear constraints mean. *)
From Coq Require Import ZArith List.
From Verif Require Import Vars VarsSpec State StateSpec Epochs Expressions ExpressionsSpec ConsistencySpec.
Import ListNotations.
Local Open Scope Z_scope.

(** The value of the sum under an assignment. *)
Definition weighted_sum (s : sum_of var_id) (a : assignment) : Z := sum_worth (var_value a) s.

(** The sum does not have the same value under every assignment. *)
Definition varies (s : sum_of var_id) : Prop := exists a b, weighted_sum s a <> weighted_sum s b.

(** The sum does not have the same value under every assignment, or is always at
    least [value]. *)
Definition workable (s : sum_of var_id) (value : Z) : Prop := varies s \/ forall a, value <= weighted_sum s a.

(** Each value of each handle can be extended to an assignment within the domains
    that makes the sum at most [value], and to one that makes it at least [value].
    Between the two there is a solution in rational numbers, so in particular the
    bounds are consistent over the rationals. *)
Definition sum_consistent (d : domains) (s : sum_of var_id) (value : Z) : Prop :=
  domain_consistent d (map snd s) (fun a => weighted_sum s a <= value) /\
  domain_consistent d (map snd s) (fun a => value <= weighted_sum s a).
