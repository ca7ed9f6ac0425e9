(** Inference inside one run of a propagation function.

    Models the part of gcs/innards/inference_tracker.hh a propagation function
    uses: every inference is applied to the state at once, so later reads see it,
    and a contradiction ends the run. *)
From Coq Require Import ZArith List Bool.
From Verif Require Import IntervalSet Vars State Epochs Engine.
Import ListNotations.
Local Open Scope Z_scope.

(** The domains as they are now, what has been inferred so far (newest first),
    and whether a contradiction has been reached. *)
Record tracker : Type := mk_tracker { t_domains : domains; t_lits : list literal; t_failed : bool }.

Definition track (d : domains) : tracker := mk_tracker d [] false.

Definition is_contradiction (i : inference) : bool := match i with Contradiction => true | _ => false end.

(** infer, gcs/innards/inference_tracker.hh:238-243. After a contradiction the
    exception (or the early return on a false [_or_stop]) means that nothing
    more is inferred. *)
Definition tell (l : literal) (t : tracker) : tracker :=
  if t_failed t then t
  else let '(i, d) := infer (t_domains t) l in mk_tracker d (l :: t_lits t) (is_contradiction i).

(** The typed helpers, gcs/innards/inference_tracker.hh:255-590. *)
Definition tell_eq (v : var_id) (x : Z) : tracker -> tracker := tell (LCond (cond_eq v x)).
Definition tell_ne (v : var_id) (x : Z) : tracker -> tracker := tell (LCond (cond_ne v x)).
Definition tell_lt (v : var_id) (x : Z) : tracker -> tracker := tell (LCond (cond_lt v x)).
Definition tell_ge (v : var_id) (x : Z) : tracker -> tracker := tell (LCond (cond_ge v x)).

(** infer_not_in_range ignores an empty range, gcs/innards/inference_tracker.hh:521. *)
Definition tell_not_in_range (v : var_id) (lo hi : Z) (t : tracker) : tracker :=
  if hi <? lo then t else tell (LCond (mk_cond v OpNotInRange lo hi)) t.

(** contradiction, gcs/innards/inference_tracker.hh. *)
Definition tell_false : tracker -> tracker := tell LFalse.

(** infer_all, and loops that infer. *)
Definition tell_all (ls : list literal) (t : tracker) : tracker := fold_left (fun t l => tell l t) ls t.

Definition for_each {X : Type} (xs : list X) (f : X -> tracker -> tracker) (t : tracker) : tracker :=
  fold_left (fun t x => f x t) xs t.

(** A propagation function that keeps no state and edits no watches. *)
Definition body : Type := domains -> tracker * prop_state.

Definition body_run (f : body) (i : prop_in) : prop_out :=
  let '(t, r) := f (i_domains i) in mk_out (rev (t_lits t)) r (i_cstates i) (i_memo i) [].

Definition body_propagator (f : body) (on_change on_bounds on_instantiated : list var_id) : propagator :=
  mk_propagator (body_run f) on_change on_bounds on_instantiated [] [].

(** An initialiser (install_initialiser, gcs/innards/propagators.cc:544-547): it
    is run once, before the search. *)
Definition initialiser : Type := domains -> list cstate -> tracker * list cstate.

Definition body_initialiser (f : domains -> tracker) : initialiser := fun d cs => (f d, cs).

(** What a constraint installs, given the domains at the time it is installed
    (Constraint::install, gcs/constraint.cc: prepare, then install_propagators).
    Simplification: a constraint that allocates variables of its own is not
    covered. *)
Definition constraint : Type := domains -> list propagator * list initialiser.
