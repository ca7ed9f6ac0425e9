(** Levels of consistency. *)
From Coq Require Import ZArith List.
From Verif Require Import Vars VarsSpec State StateSpec Epochs Engine EngineSpec.
Import ListNotations.
Local Open Scope Z_scope.

(** The value lies between the bounds of the handle. *)
Definition between_bounds (d : domains) (v : var_id) (x : Z) : Prop := lower_bound d v <= x <= upper_bound d v.

(** Each bound of each handle belongs to values for all the handles, between
    their bounds, that satisfy the relation. *)
Definition bounds_consistent (d : domains) (vs : list var_id) (rel : list Z -> Prop) : Prop :=
  forall k v x, nth_error vs k = Some v -> x = lower_bound d v \/ x = upper_bound d v ->
    exists xs, Forall2 (between_bounds d) vs xs /\ nth_error xs k = Some x /\ rel xs.

(** Each value of each handle belongs to an assignment within the domains that
    satisfies the relation. *)
Definition domain_consistent (d : domains) (vs : list var_id) (sat : assignment -> Prop) : Prop :=
  forall v x, In v vs -> (exists a, within a d /\ var_value a v = x) -> exists a, within a d /\ var_value a v = x /\ sat a.

(** The domains after a run of the propagator that finds no contradiction. *)
Definition outcome (nv : nat) (Inv : domains -> list cstate -> Prop) (p : propagator) (d : domains) : Prop :=
  exists i evs, usable nv Inv i /\ apply_lits (i_domains i) (o_infer (p_run p i)) = (d, evs, false).

(** Running the propagator again on [d] infers nothing new. *)
Definition rerun_is_quiet (p : propagator) (d : domains) : Prop :=
  forall i, i_domains i = d -> apply_lits d (o_infer (p_run p i)) = (d, [], false).
