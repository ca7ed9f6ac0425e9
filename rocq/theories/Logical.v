(** Conjunction and disjunction of conditions.

    Models gcs/constraints/logical/logical.cc and
    gcs/constraints/innards/triggers.cc. *)
From Coq Require Import ZArith List Bool.
From Verif Require Import IntervalSet Vars State Epochs Engine Tracker.
Import ListNotations.
Local Open Scope Z_scope.

(** gcs/constraints/logical/logical.cc:45-52. *)
Definition to_lits (vars : list var_id) : list literal := map (fun v => LCond (cond_ne v 0)) vars.

(** gcs/constraints/innards/triggers.cc:8-26 (add_trigger_for): what a literal adds to
    on_change and to on_bounds. *)
Definition change_trigger (l : literal) : list var_id :=
  match l with
  | LCond c => match c_op c with OpLess | OpGreaterEqual => [] | _ => [c_var c] end
  | LTrue | LFalse => []
  end.

Definition bounds_trigger (l : literal) : list var_id :=
  match l with
  | LCond c => match c_op c with OpLess | OpGreaterEqual => [c_var c] | _ => [] end
  | LTrue | LFalse => []
  end.

(** The loop of gcs/constraints/logical/logical.cc:107-118: [None] is the early
    return at the second undecided literal. *)
Fixpoint look_for_undecided (d : domains) (lits : list literal) (any_false : bool) (undecided : option literal) : option (bool * option literal) :=
  match lits with
  | [] => Some (any_false, undecided)
  | l :: r =>
      match test_literal d l with
      | DefinitelyTrue => look_for_undecided d r any_false undecided
      | DefinitelyFalse => look_for_undecided d r true undecided
      | Undecided => match undecided with Some _ => None | None => look_for_undecided d r any_false (Some l) end
      end
  end.

Definition is_definitely (want got : literal_is) : bool :=
  match want, got with
  | DefinitelyTrue, DefinitelyTrue | DefinitelyFalse, DefinitelyFalse | Undecided, Undecided => true
  | _, _ => false
  end.

(** gcs/constraints/logical/logical.cc:92-172. *)
Definition conjunction_body (lits : list literal) (full_reif : literal) : body := fun d =>
  let t := track d in
  match test_literal d full_reif with
  | DefinitelyTrue => (tell_all lits t, DisableUntilBacktrack)
  | DefinitelyFalse =>
      match look_for_undecided d lits false None with
      | None => (t, Enable)
      | Some (true, _) => (t, DisableUntilBacktrack)
      | Some (false, None) => (tell_false t, Enable)
      | Some (false, Some l) => (tell (lit_not l) t, DisableUntilBacktrack)
      end
  | Undecided =>
      if existsb (fun l => is_definitely DefinitelyFalse (test_literal d l)) lits then (tell (lit_not full_reif) t, DisableUntilBacktrack)
      else if forallb (fun l => is_definitely DefinitelyTrue (test_literal d l)) lits then (tell full_reif t, DisableUntilBacktrack)
      else (t, Enable)
  end.

Definition is_false_literal (l : literal) : bool := match l with LFalse => true | _ => false end.

(** gcs/constraints/logical/logical.cc:54-176 (install_propagators_logical); the
    state of the reification literal is that of prepare, lines 229-233 and
    276-280. *)
Definition conjunction (lits : list literal) (full_reif : literal) : constraint := fun d0 =>
  if is_definitely DefinitelyTrue (test_literal d0 full_reif) then ([], [body_initialiser (fun d => tell_all lits (track d))])
  else if existsb is_false_literal lits then ([], [body_initialiser (fun d => tell (lit_not full_reif) (track d))])
  else ([body_propagator (conjunction_body lits full_reif)
           (flat_map change_trigger lits ++ change_trigger full_reif) (flat_map bounds_trigger lits ++ bounds_trigger full_reif) []], []).

(** And and Or, gcs/constraints/logical/logical.cc:216-227, 240-243, 263-274 and
    287-294. *)
Definition and_lits (lits : list literal) (full_reif : literal) : constraint := conjunction lits full_reif.
Definition or_lits (lits : list literal) (full_reif : literal) : constraint := conjunction (map lit_not lits) (lit_not full_reif).
Definition and_vars (vars : list var_id) : constraint := and_lits (to_lits vars) LTrue.
Definition and_vars_iff (vars : list var_id) (full_reif : var_id) : constraint := and_lits (to_lits vars) (LCond (cond_ne full_reif 0)).
Definition or_vars (vars : list var_id) : constraint := or_lits (to_lits vars) LTrue.
Definition or_vars_iff (vars : list var_id) (full_reif : var_id) : constraint := or_lits (to_lits vars) (LCond (cond_ne full_reif 0)).
