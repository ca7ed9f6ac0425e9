(** The In constraint: a variable takes one of some values, or the value of one
    of some other variables.

    Models gcs/constraints/in/in.cc. *)
From Coq Require Import ZArith List Bool.
From Verif Require Import IntervalSet Vars State Epochs Engine Tracker Equals.
Import ListNotations.
Local Open Scope Z_scope.

(** binary_search on the sorted values. Simplification: neither the sorting nor
    the removal of duplicates, gcs/constraints/in/in.cc:99-100, is modelled,
    since only membership is ever asked for. *)
Definition listed (vals : list Z) (x : Z) : bool := existsb (Z.eqb x) vals.

(** prepare moves constants to the values, gcs/constraints/in/in.cc:74-101. *)
Definition constants_of (vars : list var_id) : list Z :=
  flat_map (fun v => match v with VConst c => [c] | _ => [] end) vars.

Definition non_constants (vars : list var_id) : list var_id := filter (fun v => negb (is_constant v)) vars.

(** Contiguous runs of values that are not listed, the latest run first:
    gcs/constraints/in/in.cc:169-177. *)
Definition add_to_runs (vals : list Z) (runs : list (Z * Z)) (v : Z) : list (Z * Z) :=
  if listed vals v then runs
  else match runs with
       | (lo, hi) :: r => if hi + 1 =? v then (lo, v) :: r else (v, v) :: runs
       | [] => [(v, v)]
       end.

(** gcs/constraints/in/in.cc:160-216, step 1. *)
Definition in_filter (var : var_id) (var_vals : list var_id) (vals : list Z) (t : tracker) : tracker :=
  match var_vals with
  | [] =>
      for_each (rev (fold_left (add_to_runs vals) (each_value (t_domains t) var) []))
        (fun '(lo, hi) t => tell_not_in_range var lo hi t) t
  | _ =>
      for_each (each_value (t_domains t) var) (fun v t =>
        if listed vals v then t
        else if existsb (fun V => in_domain (t_domains t) V v) var_vals then t
        else tell_ne var v t) t
  end.

(** gcs/constraints/in/in.cc:218-231, step 2. Simplification: all the supports are
    collected, where the code stops at the second. *)
Definition in_supports (var : var_id) (var_vals : list var_id) (d : domains) : list var_id :=
  filter (fun V => existsb (in_domain d var) (each_value d V)) var_vals.

(** gcs/constraints/in/in.cc:236-283, step 3. *)
Definition in_only_support (var : var_id) (var_vals : list var_id) (vals : list Z) (t : tracker) : tracker :=
  let const_supports := existsb (in_domain (t_domains t) var) vals in
  match const_supports, in_supports var var_vals (t_domains t) with
  | false, [V] =>
      for_each (each_value (t_domains t) V) (fun val t =>
        if in_domain (t_domains t) var val then t else tell_ne V val t) t
  | _, _ => t
  end.

(** gcs/constraints/in/in.cc:157-292. *)
Definition in_body (var : var_id) (var_vals : list var_id) (vals : list Z) : body := fun d =>
  let t := in_only_support var var_vals vals (in_filter var var_vals vals (track d)) in
  (t, match optional_single_value (t_domains t) var with
      | Some x => if listed vals x then DisableUntilBacktrack else Enable
      | None => Enable
      end).

(** In::prepare and In::install_propagators, gcs/constraints/in/in.cc:74-111 and
    143-294. With no values at all, install_initial_contradiction,
    gcs/innards/propagators.hh:570-582. *)
Definition in_constraint (var : var_id) (vars : list var_id) (values : list Z) : constraint := fun _ =>
  let var_vals := non_constants vars in
  let vals := values ++ constants_of vars in
  match var_vals, vals with
  | [], [] => ([], [body_initialiser (fun d => tell_false (track d))])
  | _, _ => ([body_propagator (in_body var var_vals vals) (var :: var_vals) [] []], [])
  end.
