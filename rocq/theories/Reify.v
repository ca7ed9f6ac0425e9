(** Reification.

    Models gcs/reification.hh, gcs/constraints/innards/reified_state.{hh,cc},
    gcs/constraints/innards/reified_dispatcher.hh and
    gcs/constraints/innards/triggers.cc. Justifications, reasons and hints are
    left out, and so is the condition literal passed to the enforcing passes,
    which they only use in reasons. *)
From Coq Require Import ZArith List Bool.
From Verif Require Import IntervalSet Vars State Epochs Engine Tracker.
Import ListNotations.
Local Open Scope Z_scope.

(** gcs/reification.hh: ReificationCondition. *)
Inductive reif : Type :=
| RMustHold | RMustNotHold | RIf (c : cond) | RNotIf (c : cond) | RIff (c : cond).

(** gcs/constraints/innards/reified_state.hh: EvaluatedReificationCondition. *)
Inductive evaluated : Type :=
| EMustHold | EMustNotHold | EDeactivated
| EUndecided (c : cond) (set_cond_if_must_hold set_not_cond_if_must_not_hold set_not_cond_if_must_hold : bool).

(** gcs/constraints/innards/reified_state.cc:10-41 (test_reification_condition). *)
Definition test_reif (d : domains) (r : reif) : evaluated :=
  match r with
  | RMustHold => EMustHold
  | RMustNotHold => EMustNotHold
  | RIf c =>
      match test_literal d (LCond c) with
      | DefinitelyTrue => EMustHold
      | DefinitelyFalse => EDeactivated
      | Undecided => EUndecided c false true false
      end
  | RNotIf c =>
      match test_literal d (LCond c) with
      | DefinitelyTrue => EMustNotHold
      | DefinitelyFalse => EDeactivated
      | Undecided => EUndecided c false false true
      end
  | RIff c =>
      match test_literal d (LCond c) with
      | DefinitelyTrue => EMustHold
      | DefinitelyFalse => EMustNotHold
      | Undecided => EUndecided c true true false
      end
  end.

(** gcs/constraints/innards/reified_state.hh: Undecided's
    cond_to_infer_if_constraint_must_hold and
    cond_to_infer_if_constraint_must_not_hold. *)
Definition cond_if_must_hold (c : cond) (set_cond_if_must_hold set_not_cond_if_must_hold : bool) : option cond :=
  if set_cond_if_must_hold then Some c
  else if set_not_cond_if_must_hold then Some (cond_not c)
  else None.

Definition cond_if_must_not_hold (c : cond) (set_not_cond_if_must_not_hold : bool) : option cond :=
  if set_not_cond_if_must_not_hold then Some (cond_not c) else None.

(** gcs/constraints/innards/reified_dispatcher.hh:67-69 (ReificationVerdict). *)
Inductive verdict : Type := VStillUndecided | VMustHold | VMustNotHold.

(** gcs/constraints/innards/triggers.cc:8-26 (add_trigger_for): the variables
    added to on_change and to on_bounds. *)
Definition trigger_for (c : cond) : list var_id * list var_id :=
  match c_op c with
  | OpEqual | OpNotEqual | OpInRange | OpNotInRange => ([c_var c], [])
  | OpLess | OpGreaterEqual => ([], [c_var c])
  end.

(** gcs/constraints/innards/reified_dispatcher.hh:170-172. *)
Definition without_claim (s : prop_state) : prop_state :=
  match s with EnableButIdempotent => Enable | _ => s end.

Definition tell_option (o : option cond) (t : tracker) : tracker :=
  match o with Some c => tell (LCond c) t | None => t end.

Section Dispatch.
Variable must_hold must_not_hold : body.
Variable when_undecided : domains -> verdict.

(** gcs/constraints/innards/reified_dispatcher.hh:155-207: the branching
    propagator. *)
Definition dispatch (r : reif) : body := fun d =>
  match test_reif d r with
  | EMustHold => let '(t, s) := must_hold d in (t, without_claim s)
  | EMustNotHold => let '(t, s) := must_not_hold d in (t, without_claim s)
  | EUndecided c h n nh =>
      match when_undecided d with
      | VStillUndecided => (track d, Enable)
      | VMustHold => (tell_option (cond_if_must_hold c h nh) (track d), DisableUntilBacktrack)
      | VMustNotHold => (tell_option (cond_if_must_not_hold c n) (track d), DisableUntilBacktrack)
      end
  | EDeactivated => (track d, DisableUntilBacktrack)
  end.

(** gcs/constraints/innards/reified_dispatcher.hh:113-210
    (install_reified_dispatcher), [e] being the condition as evaluated on the
    initial state. *)
Definition install_dispatcher (e : evaluated) (r : reif) (on_change on_bounds on_instantiated : list var_id) : list propagator :=
  match e with
  | EDeactivated => []
  | EMustHold => [body_propagator must_hold on_change on_bounds on_instantiated]
  | EMustNotHold => [body_propagator must_not_hold on_change on_bounds on_instantiated]
  | EUndecided c _ _ _ =>
      let '(ch, bo) := trigger_for c in
      [body_propagator (dispatch r) (on_change ++ ch) (on_bounds ++ bo) on_instantiated]
  end.
End Dispatch.
