(** Equality and disequality.

    Models gcs/constraints/equals/equals.cc. *)
From Coq Require Import ZArith List Bool.
From Verif Require Import IntervalSet Vars State Epochs Engine Tracker Reify.
Import ListNotations.
Local Open Scope Z_scope.

(** operator== on IntegerVariableID. *)
Definition var_eqb (v w : var_id) : bool :=
  match v, w with
  | VSimple n, VSimple m => Nat.eqb n m
  | VView n neg add, VView m neg' add' => Nat.eqb n m && Bool.eqb neg neg' && (add =? add')
  | VConst c, VConst c' => c =? c'
  | _, _ => false
  end.

(** gcs/variable_id.hh: is_constant_variable. *)
Definition is_constant (v : var_id) : bool := match v with VConst _ => true | _ => false end.

Definition is_simple (v : var_id) : bool := match v with VSimple _ => true | _ => false end.

(** The prune lambda, gcs/constraints/equals/equals.cc:111-138. *)
Definition prune_minus (both_simple : bool) (pruned : var_id) (pruned_set other_set : iset) (t : tracker) : tracker :=
  for_each (each_interval_minus pruned_set other_set)
    (fun '(lo, hi) t =>
       if both_simple then tell_not_in_range pruned lo hi t
       else for_each (zrange lo hi) (tell_ne pruned) t) t.

(** gcs/constraints/equals/equals.cc:57-177 (enforce_equality). *)
Definition enforce_equality (v1 v2 : var_id) : body := fun d =>
  match optional_single_value d v1 with
  | Some val1 => (tell_eq v2 val1 (track d), DisableUntilBacktrack)
  | None =>
      match optional_single_value d v2 with
      | Some val2 => (tell_eq v1 val2 (track d), DisableUntilBacktrack)
      | None =>
          if domain_has_holes d v1 || domain_has_holes d v2 then
            let s1 := copy_of_values d v1 in
            let s2 := copy_of_values d v2 in
            let both_simple := is_simple v1 && is_simple v2 in
            (prune_minus both_simple v2 s2 s1 (prune_minus both_simple v1 s1 s2 (track d)), Enable)
          else
            let '(l1, u1) := bounds d v1 in
            let '(l2, u2) := bounds d v2 in
            if (l1 =? l2) && (u1 =? u2) then (track d, Enable)
            else (tell_lt v1 (u2 + 1) (tell_lt v2 (u1 + 1) (tell_ge v1 l2 (tell_ge v2 l1 (track d)))), Enable)
      end
  end.

(** gcs/constraints/equals/equals.cc:277-302. *)
Definition enforce_disequality (v1 v2 : var_id) : body := fun d =>
  match optional_single_value d v1 with
  | Some val1 => let t := tell_ne v2 val1 (track d) in (t, if t_failed t then Enable else DisableUntilBacktrack)
  | None =>
      match optional_single_value d v2 with
      | Some val2 => let t := tell_ne v1 val2 (track d) in (t, if t_failed t then Enable else DisableUntilBacktrack)
      | None => (track d, Enable)
      end
  end.

(** gcs/constraints/equals/equals.cc:304-359. *)
Definition equals_verdict (v1 v2 : var_id) (d : domains) : verdict :=
  if var_eqb v1 v2 && negb (is_constant v1) then VMustHold
  else
    match optional_single_value d v1, optional_single_value d v2 with
    | Some x1, Some x2 => if x1 =? x2 then VMustHold else VMustNotHold
    | Some x1, None => if in_domain d v2 x1 then VStillUndecided else VMustNotHold
    | None, Some x2 => if in_domain d v1 x2 then VStillUndecided else VMustNotHold
    | None, None => if domains_intersect d v1 v2 then VStillUndecided else VMustNotHold
    end.

(** ReifiedEquals: prepare evaluates the condition on the initial domains,
    gcs/constraints/equals/equals.cc:213-217, and install_propagators is
    gcs/constraints/equals/equals.cc:269-365. *)
Definition reified_equals (v1 v2 : var_id) (r : reif) : constraint := fun d0 =>
  (install_dispatcher (enforce_equality v1 v2) (enforce_disequality v1 v2) (equals_verdict v1 v2)
     (test_reif d0 r) r [v1; v2] [] [], []).

(** The constructors, gcs/constraints/equals/equals.cc:367-399. [None] is the
    exception. *)
Definition equals (v1 v2 : var_id) := Some (reified_equals v1 v2 RMustHold).
Definition equals_if (v1 v2 : var_id) (c : cond) := Some (reified_equals v1 v2 (RIf c)).
Definition equals_iff (v1 v2 : var_id) (c : cond) := Some (reified_equals v1 v2 (RIff c)).
Definition not_equals (v1 v2 : var_id) :=
  if var_eqb v1 v2 && negb (is_constant v1) then None else Some (reified_equals v1 v2 RMustNotHold).
Definition not_equals_if (v1 v2 : var_id) (c : cond) := Some (reified_equals v1 v2 (RNotIf c)).
Definition not_equals_iff (v1 v2 : var_id) (c : cond) := Some (reified_equals v1 v2 (RIff (cond_not c))).
