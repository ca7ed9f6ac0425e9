(** Solving a problem.

    Models Problem (gcs/problem.cc) as far as solving is concerned,
    Propagators::initialise (gcs/innards/propagators.cc:544-591), the restart
    schedule (gcs/restarts.cc) and solve_with (gcs/solve.cc:281-475). Presolvers,
    proof logging and statistics are left out. *)
From Coq Require Import ZArith NArith List Bool Arith.
From Verif Require Import IntervalSet Vars State Epochs Engine Session Tracker Search NegativeTable Nogoods.
Import ListNotations.

(** ** Installing *)

(** What a constraint installs: variables and constraint states of its own
    (State::allocate_integer_variable_with_state and add_constraint_state,
    gcs/innards/state.cc:129-135 and 791-795), propagators, and initialisers with
    their priorities, 0 for SimpleDefinition, 1 for Cheap, 2 for Expensive
    (gcs/innards/propagators.hh:331-338). It can see the variables and states there
    already are. *)
Record installation : Type := mk_installation
  { in_vars : domains;
    in_states : list cstate;
    in_props : list propagator;
    in_inits : list (nat * initialiser) }.

Definition installer : Type := domains -> list cstate -> installation.

(** A constraint without variables or states of its own, whose initialisers all
    have the same priority. *)
Definition simple_at (priority : nat) (k : constraint) : installer := fun d _ =>
  mk_installation [] [] (fst (k d)) (map (fun i => (priority, i)) (snd (k d))).

Definition simple : constraint -> installer := simple_at 0.

(** What has been installed so far. *)
Record setup : Type := mk_setup
  { su_domains : domains;
    su_states : list cstate;
    su_props : list propagator;
    su_inits : list (nat * initialiser) }.

Definition install (s : setup) (k : installer) : setup :=
  let i := k (su_domains s) (su_states s) in
  mk_setup (su_domains s ++ in_vars i) (su_states s ++ in_states i) (su_props s ++ in_props i) (su_inits s ++ in_inits i).

(** A problem: the domains of its variables, in order of creation
    (create_integer_variable, gcs/problem.cc:100-125), the constraints posted
    (post, gcs/problem.cc:148-180), in order, and the variable to minimise (minimise
    and maximise, gcs/problem.cc:236-244; maximising is minimising the negated
    variable). *)
Record problem : Type := mk_problem
  { pb_domains : domains;
    pb_constraints : list installer;
    pb_minimise : option var_id }.

(** create_state_for_new_search and create_propagators, gcs/problem.cc. *)
Definition set_up (pb : problem) : setup :=
  fold_left install (pb_constraints pb) (mk_setup (pb_domains pb) [] [] []).

(** ** Initialising *)

(** Each initialiser in turn; [None] if one found a contradiction. *)
Fixpoint run_initialisers (is : list initialiser) (d : domains) (cs : list cstate) : option (domains * list cstate) :=
  match is with
  | [] => Some (d, cs)
  | i :: r =>
      let '(t, cs') := i d cs in
      if t_failed t then None else run_initialisers r (t_domains t) cs'
  end.

(** The buckets, in order of priority. Simplification: an initialiser does not
    install further initialisers. *)
Definition in_order (is : list (nat * initialiser)) : list initialiser :=
  flat_map (fun priority => map snd (filter (fun i => Nat.eqb (fst i) priority) is)) (seq 0 3).

Definition initialise (s : setup) : option (domains * list cstate) :=
  run_initialisers (in_order (su_inits s)) (su_domains s) (su_states s).

(** ** Restart schedules *)

(** luby_term, gcs/restarts.cc:9-22, with [fuel] for the loop. *)
Fixpoint luby_loop (fuel : nat) (i : N) (k : N) : option N :=
  match fuel with
  | O => None
  | S fuel' =>
      let block := (2 ^ k - 1)%N in
      if N.eqb i block then Some (2 ^ (k - 1))%N
      else if N.ltb i block then luby_loop fuel' (i - (2 ^ (k - 1) - 1))%N 1%N
      else luby_loop fuel' i (k + 1)%N
  end.

(** Enough fuel: the number of steps is at most quadratic in the size of [i]. *)
Definition luby_term (i : N) : option N := luby_loop (N.to_nat (3 * N.succ (N.log2 i) * N.succ (N.log2 i) + 3)) i 1%N.

(** RestartSchedule::luby and current_cutoff after [n - 1] calls of advance,
    gcs/restarts.cc:25-42. Simplification: products do not wrap around. *)
Definition luby_cutoff (scale : nat) (n : nat) : nat :=
  match luby_term (N.of_nat n) with Some t => N.to_nat t * scale | None => 0 end.

(** ** Solving *)

(** SolveCallbacks (gcs/solve.hh), with the schedule as the cutoff of each pass,
    and whether learned nogoods use condition watches (gcs/solve.cc:330). The
    number given to the branching heuristic and the trace callback is that of the
    node, counting from one. *)
Record callbacks : Type := mk_callbacks
  { cb_branch : nat -> domains -> list cond;
    cb_solution : list domains -> bool;
    cb_trace : nat -> domains -> bool;
    cb_restarts : option (nat -> nat);
    cb_refined : bool }.

(** What a run of solve_with did: what it reported and was answered, newest first;
    whether it called the completed callback; whether it threw. *)
Record outcome : Type := mk_outcome
  { oc_log : list event;
    oc_completed : bool;
    oc_threw : bool }.

(** The propagators while the nogood store holds [store], gcs/solve.cc:321-334. *)
Definition solving_props (cb : callbacks) (pb : problem) (store : list nogood) : list propagator :=
  su_props (set_up pb) ++
  match cb_restarts cb with
  | Some _ => [learned_nogoods (cb_refined cb) (map VSimple (seq 0 (length (pb_domains pb)))) store]
  | None => []
  end.

(** solve_with, gcs/solve.cc:281-475. [fuel] bounds the number of times propagators
    are run in one call of propagate, [depth] the depth of the search, and
    [tries] the number of restarts; [None] means one of them was too small. *)
Definition solve (abort : nat -> bool) (fuel depth tries : nat) (cb : callbacks) (pb : problem) : option outcome :=
  match initialise (set_up pb) with
  | None => Some (mk_outcome [] true false)
  | Some (d, cs) =>
      match search (solving_props cb pb) (fun _ => false) abort fuel depth (pb_minimise pb) (cb_branch cb) (cb_solution cb) (cb_trace cb)
                   (cb_restarts cb) tries (mk_state [d] [cs] [[]] []) with
      | None => None
      | Some (v, g) =>
          Some (mk_outcome (g_log g)
                           (match v with Complete => true | _ => false end)
                           (match v with Threw => true | _ => false end))
      end
  end.
