(** The meaning of a reified constraint. *)
From Coq Require Import ZArith List.
From Verif Require Import Vars VarsSpec StateSpec Reify.
Import ListNotations.

(** [base] is the relation being reified. *)
Definition reif_sat (r : reif) (base : assignment -> Prop) (a : assignment) : Prop :=
  match r with
  | RMustHold => base a
  | RMustNotHold => ~ base a
  | RIf c => cond_holds a c -> base a
  | RNotIf c => cond_holds a c -> ~ base a
  | RIff c => cond_holds a c <-> base a
  end.

Definition reif_cond (r : reif) : option cond :=
  match r with RMustHold | RMustNotHold => None | RIf c | RNotIf c | RIff c => Some c end.

Definition reif_scope (r : reif) : list var_id :=
  match reif_cond r with Some c => [c_var c] | None => [] end.

(** The condition is one the public factories build. *)
Definition reif_sane (r : reif) : Prop :=
  match reif_cond r with Some c => cond_sane c | None => True end.
