(** Comparison of two variables.

    Models gcs/constraints/comparison/comparison.{hh,cc}. *)
From Coq Require Import ZArith List Bool.
From Verif Require Import IntervalSet Vars State Epochs Engine Tracker Reify Equals.
Import ListNotations.
Local Open Scope Z_scope.

(** or_equal ? 1_i : 0_i. *)
Definition one_if (b : bool) : Z := if b then 1 else 0.

(** gcs/constraints/comparison/comparison.cc:184-194 (enforce_constraint_must_hold).
    enforce_constraint_must_not_hold, lines 196-206, is the same code with the
    variables swapped and [or_equal] negated. *)
Definition enforce_less (v1 v2 : var_id) (or_equal : bool) : body := fun d =>
  let '(l1, u1) := bounds d v1 in
  let '(l2, u2) := bounds d v2 in
  let t1 := tell_lt v1 (u2 + one_if or_equal) (track d) in
  if t_failed t1 then (t1, Enable)
  else
    let t2 := tell_ge v2 (l1 + one_if (negb or_equal)) t1 in
    if t_failed t2 then (t2, Enable)
    else (t2, if u1 <? l2 + one_if or_equal then DisableUntilBacktrack else Enable).

(** gcs/constraints/comparison/comparison.cc:208-245. *)
Definition less_verdict (v1 v2 : var_id) (or_equal : bool) (d : domains) : verdict :=
  if var_eqb v1 v2 && negb (is_constant v1) then (if or_equal then VMustHold else VMustNotHold)
  else
    let '(l1, u1) := bounds d v1 in
    let '(l2, u2) := bounds d v2 in
    if (if or_equal then u1 <=? l2 else u1 <? l2) then VMustHold
    else if (if or_equal then u2 <? l1 else u2 <=? l1) then VMustNotHold
    else VStillUndecided.

(** The evaluated condition's literal, as passed to the initialiser that infers
    its negation, gcs/constraints/innards/reified_state.cc:10-41. *)
Definition evaluated_literal (d : domains) (r : reif) : literal :=
  match r with
  | RMustHold | RMustNotHold => LTrue
  | RIf c | RNotIf c => LCond c
  | RIff c => match test_literal d (LCond c) with DefinitelyFalse => LCond (cond_not c) | _ => LCond c end
  end.

(** ReifiedCompareLessThanOrMaybeEqual: prepare,
    gcs/constraints/comparison/comparison.cc:71-77, and install_propagators,
    lines 137-252. *)
Definition reified_less (v1 v2 : var_id) (r : reif) (or_equal : bool) : constraint := fun d0 =>
  match optional_single_value d0 v1, optional_single_value d0 v2 with
  | Some x1, Some x2 =>
      let holds := if or_equal then x1 <=? x2 else x1 <? x2 in
      let infer_it l := [body_initialiser (fun d => tell l (track d))] in
      ([], match test_reif d0 r with
           | EMustHold => if holds then [] else infer_it (lit_not (evaluated_literal d0 r))
           | EMustNotHold => if holds then infer_it (lit_not (evaluated_literal d0 r)) else []
           | EUndecided c h n nh =>
               match (if holds then cond_if_must_hold c h nh else cond_if_must_not_hold c n) with
               | Some l => infer_it (LCond l)
               | None => []
               end
           | EDeactivated => []
           end)
  | _, _ =>
      (install_dispatcher (enforce_less v1 v2 or_equal) (enforce_less v2 v1 (negb or_equal)) (less_verdict v1 v2 or_equal)
         (test_reif d0 r) r [] [v1; v2] [], [])
  end.

(** The constructors, gcs/constraints/comparison/comparison.cc:51-65 and
    comparison.hh:149-290. [None] is the exception. *)
Definition same_variable (v1 v2 : var_id) : bool := var_eqb v1 v2 && negb (is_constant v1).
Definition less_than (v1 v2 : var_id) := if same_variable v1 v2 then None else Some (reified_less v1 v2 RMustHold false).
Definition less_than_equal (v1 v2 : var_id) := Some (reified_less v1 v2 RMustHold true).
Definition greater_than (v1 v2 : var_id) := if same_variable v1 v2 then None else Some (reified_less v2 v1 RMustHold false).
Definition greater_than_equal (v1 v2 : var_id) := Some (reified_less v2 v1 RMustHold true).
Definition less_than_if (v1 v2 : var_id) (c : cond) := Some (reified_less v1 v2 (RIf c) false).
Definition less_than_iff (v1 v2 : var_id) (c : cond) := Some (reified_less v1 v2 (RIff c) false).
Definition less_than_equal_if (v1 v2 : var_id) (c : cond) := Some (reified_less v1 v2 (RIf c) true).
Definition less_than_equal_iff (v1 v2 : var_id) (c : cond) := Some (reified_less v1 v2 (RIff c) true).
Definition greater_than_if (v1 v2 : var_id) (c : cond) := Some (reified_less v2 v1 (RIf c) false).
Definition greater_than_iff (v1 v2 : var_id) (c : cond) := Some (reified_less v2 v1 (RIff c) false).
Definition greater_than_equal_if (v1 v2 : var_id) (c : cond) := Some (reified_less v2 v1 (RIf c) true).
Definition greater_than_equal_iff (v1 v2 : var_id) (c : cond) := Some (reified_less v2 v1 (RIff c) true).
