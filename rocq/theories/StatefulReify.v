(** Reification of constraints that keep a constraint state.

    Models gcs/constraints/innards/reified_dispatcher.hh for enforcing passes that
    read and write a constraint state. [Reify] is the case where they do not. *)
From Coq Require Import ZArith List Bool.
From Verif Require Import IntervalSet Vars State Epochs Engine Tracker Reify Solve Stateful.
Import ListNotations.

Section Dispatch.
Variable must_hold must_not_hold : state_body.
Variable when_undecided : domains -> verdict.

(** gcs/constraints/innards/reified_dispatcher.hh:155-207: the branching
    propagator. Nothing but the enforcing passes touches the state. *)
Definition state_dispatch (r : reif) : state_body := fun d s m =>
  match test_reif d r with
  | EMustHold => let e := must_hold d s m in mk_effect (e_tracker e) (e_state e) (e_memo e) (without_claim (e_result e))
  | EMustNotHold => let e := must_not_hold d s m in mk_effect (e_tracker e) (e_state e) (e_memo e) (without_claim (e_result e))
  | EUndecided c h n nh =>
      match when_undecided d with
      | VStillUndecided => mk_effect (track d) s m Enable
      | VMustHold => mk_effect (tell_option (cond_if_must_hold c h nh) (track d)) s m DisableUntilBacktrack
      | VMustNotHold => mk_effect (tell_option (cond_if_must_not_hold c n) (track d)) s m DisableUntilBacktrack
      end
  | EDeactivated => mk_effect (track d) s m DisableUntilBacktrack
  end.

(** gcs/constraints/innards/reified_dispatcher.hh:113-210
    (install_reified_dispatcher), [e] being the condition as evaluated on the
    initial state and [h] the handle of the constraint state. *)
Definition install_state_dispatcher (h : nat) (e : evaluated) (r : reif) (on_change on_bounds on_instantiated : list var_id) : list propagator :=
  match e with
  | EDeactivated => []
  | EMustHold => [state_propagator h must_hold on_change on_bounds on_instantiated]
  | EMustNotHold => [state_propagator h must_not_hold on_change on_bounds on_instantiated]
  | EUndecided c _ _ _ =>
      let '(ch, bo) := trigger_for c in
      [state_propagator h (state_dispatch r) (on_change ++ ch) (on_bounds ++ bo) on_instantiated]
  end.
End Dispatch.
