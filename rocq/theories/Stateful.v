(** Propagation functions that keep a constraint state.

    A constraint state (State::add_constraint_state, gcs/innards/state.cc:791-795)
    is restored on backtracking; what a propagation function captures by shared
    pointer is not, and is called its private data here. *)
From Coq Require Import ZArith List.
From Verif Require Import IntervalSet Vars State Epochs Engine Tracker Solve.
Import ListNotations.

(** What one run does: what it infers, the constraint state and the private data it
    leaves, and its result. *)
Record effect : Type := mk_effect
  { e_tracker : tracker;
    e_state : cstate;
    e_memo : list Z;
    e_result : prop_state }.

Definition state_body : Type := domains -> cstate -> list Z -> effect.

(** The constraint state is the one with handle [h]
    (State::get_constraint_state, gcs/innards/state.cc:797-800). *)
Definition state_run (h : nat) (f : state_body) (i : prop_in) : prop_out :=
  let e := f (i_domains i) (nth h (i_cstates i) []) (i_memo i) in
  mk_out (rev (t_lits (e_tracker e))) (e_result e) (set_nth (i_cstates i) h (e_state e)) (e_memo e) [].

Definition state_propagator (h : nat) (f : state_body) (on_change on_bounds on_instantiated : list var_id) : propagator :=
  mk_propagator (state_run h f) on_change on_bounds on_instantiated [] [].

(** A propagation function with private data only. *)
Definition memo_body : Type := domains -> list Z -> tracker * list Z * prop_state.

Definition memo_run (f : memo_body) (i : prop_in) : prop_out :=
  let '(t, m, r) := f (i_domains i) (i_memo i) in mk_out (rev (t_lits t)) r (i_cstates i) m [].

Definition memo_propagator (f : memo_body) (on_change on_bounds on_instantiated : list var_id) : propagator :=
  mk_propagator (memo_run f) on_change on_bounds on_instantiated [] [].
