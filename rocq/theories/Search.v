(** Search.

    Models solve_with_state and the restart loop of solve_with
    (gcs/solve.cc:69-278 and 391-417), on top of the moves of Session.v.

    A branching heuristic is a function from the number of nodes entered so far
    and the current domains to the list of guesses its generator yields: since
    each node entered has a different number, this allows a heuristic to be
    random or to learn. Callbacks are functions of what has been reported so far.
    Proof logging and statistics other than the ones used here are left out. *)
From Coq Require Import ZArith List Bool Arith.
From Verif Require Import IntervalSet Vars State Epochs Engine Session.
Import ListNotations.

(** gcs/constraints/nogoods/nogoods.hh: Nogood. *)
Definition nogood : Type := list cond.

(** gcs/solve.cc:49-54, and [Threw] for an exception. *)
Inductive verdict : Type := Complete | Stop | CutoffHit | Threw.

(** What can be seen from outside: the solution callback being called and what it
    answered, likewise the trace callback, and the abort flag being found set. *)
Inductive event : Type := Reported (d : domains) (go_on : bool) | Traced (d : domains) (go_on : bool) | SawAbort.

(** The variables threaded through the recursion, and what has happened so far,
    newest first. [g_learned] is the nogood store, oldest first. *)
Record progress : Type := mk_progress
  { g_config : config;
    g_entered : nat;
    g_log : list event;
    g_best : option Z;
    g_conflicts : nat;
    g_learned : list nogood }.

Fixpoint reported (log : list event) : list domains :=
  match log with
  | [] => []
  | Reported d _ :: r => d :: reported r
  | _ :: r => reported r
  end.

Definition g_reports (g : progress) : list domains := reported (g_log g).

Definition at_config (g : progress) (c : config) : progress :=
  mk_progress c (g_entered g) (g_log g) (g_best g) (g_conflicts g) (g_learned g).

(** stats.recursions, gcs/solve.cc:76. *)
Definition enter (g : progress) : progress :=
  mk_progress (g_config g) (S (g_entered g)) (g_log g) (g_best g) (g_conflicts g) (g_learned g).

Definition set_conflicts (g : progress) (k : nat) : progress :=
  mk_progress (g_config g) (g_entered g) (g_log g) (g_best g) k (g_learned g).

Definition note (e : event) (g : progress) : progress :=
  mk_progress (g_config g) (g_entered g) (e :: g_log g) (g_best g) (g_conflicts g) (g_learned g).

(** operator== on conditions (defaulted, gcs/variable_condition.hh). *)
Definition op_eqb (o o' : cond_op) : bool :=
  match o, o' with
  | OpEqual, OpEqual | OpNotEqual, OpNotEqual | OpGreaterEqual, OpGreaterEqual
  | OpLess, OpLess | OpInRange, OpInRange | OpNotInRange, OpNotInRange => true
  | _, _ => false
  end.

Definition var_eqb (v v' : var_id) : bool :=
  match v, v' with
  | VSimple n, VSimple n' => Nat.eqb n n'
  | VView n neg add, VView n' neg' add' => Nat.eqb n n' && eqb neg neg' && Z.eqb add add'
  | VConst c, VConst c' => Z.eqb c c'
  | _, _ => false
  end.

Definition cond_eqb (c c' : cond) : bool :=
  var_eqb (c_var c) (c_var c') && op_eqb (c_op c) (c_op c') && Z.eqb (c_value c) (c_value c') && Z.eqb (c_upper c) (c_upper c').

Section Search.
Variable props : list propagator.
Variable disabled : nat -> bool.
Variable abort : nat -> bool.
Variable fuel : nat.
Variable objective : option var_id.
Variable branch : nat -> domains -> list cond.
Variable on_solution : list domains -> bool.
Variable on_trace : nat -> domains -> bool.
(** Whether there is a nogood store, and the cutoff of this pass, if any. *)
Variable learning : bool.
Variable cutoff : option nat.

(** Reading the abort flag. *)
Definition poll (g : progress) : bool * progress :=
  let c := g_config g in
  let e := c_engine c in
  let g := at_config g (mk_config (mk_engine (e_pq e) (e_watch e) (S (e_loads e))) (c_state c) (c_open c) (c_path c) (c_status c)) in
  if abort (e_loads e) then (true, note SawAbort g) else (false, g).

(** gcs/solve.cc:88. *)
Definition spent (g : progress) : bool := match cutoff with Some k => Nat.leb k (g_conflicts g) | None => false end.

(** gcs/solve.cc:100-101. *)
Definition objective_bound (g : progress) : list literal :=
  match objective, g_best g with
  | Some v, Some b => [LCond (cond_lt v b)]
  | _, _ => []
  end.

(** gcs/solve.cc:137-144. *)
Definition report (g : progress) : verdict * progress :=
  let c := g_config g in
  let d := current (c_state c) in
  let go_on := on_solution (d :: g_reports g) in
  match objective with
  | None => (if go_on then Complete else Stop, note (Reported d go_on) g)
  | Some v =>
      match optional_single_value d v with
      | None => (Threw, g)
      | Some x =>
          (if go_on then Complete else Stop,
           mk_progress c (g_entered g) (Reported d go_on :: g_log g) (Some x) (g_conflicts g) (g_learned g))
      end
  end.

(** gcs/solve.cc:232-251. *)
Definition learn (prefix : list cond) (refuted : list cond) (g : progress) : progress :=
  if learning then
    mk_progress (g_config g) (g_entered g) (g_log g) (g_best g) (g_conflicts g)
      (g_learned g ++ map (fun s => prefix ++ [s]) refuted)
  else g.

(** Opening an epoch, guessing, and backtracking again at once, when the child
    returns straight away: gcs/solve.cc:163-165, 88-93 and 175. [None] is the
    exception thrown by a guess that contradicts. *)
Definition abandon (l : cond) (c : config) : option config :=
  let '(t, st1) := new_epoch (c_state c) in
  let '(fine, st2) := guess st1 (LCond l) in
  if fine then
    let '(st3, undos) := backtrack t st2 in
    Some (mk_config (fold_left run_undo undos (c_engine c)) st3 (c_open c) (c_path c) (c_status c))
  else None.

Section Siblings.
Variable rec : list cond -> progress -> option (verdict * progress).

(** The lambda recurse, gcs/solve.cc:159-177, with the start of the call it
    makes, lines 75-93. *)
Definition recurse (l : cond) (child_prefix : list cond) (g : progress) : option (verdict * progress) :=
  let '(stop, g) := poll g in
  if stop then Some (Stop, g)
  else
    match abandon l (g_config g) with
    | None => Some (Threw, g)
    | Some c0 =>
        let g := enter g in
        if spent g then Some (CutoffHit, at_config g c0)
        else
          match run_move props disabled abort fuel (Down (LCond l) (objective_bound g)) (g_config g) with
          | None => None
          | Some c =>
              match rec child_prefix (at_config g c) with
              | Some (Threw, g') => Some (Threw, g')
              | Some (v, g') =>
                  match run_move props disabled abort fuel Up (g_config g') with
                  | Some c' => Some (v, at_config g' c')
                  | None => None
                  end
              | None => None
              end
          end
    end.

(** The loop over siblings, gcs/solve.cc:187-214, and the learning after it. *)
Fixpoint siblings (ls : list cond) (index : nat) (first : option cond) (prefix refuted : list cond) (g : progress)
  : option (verdict * progress) :=
  match ls with
  | [] => Some (Complete, g)
  | l :: r =>
      let flip := Nat.eqb index 1 && match first with Some f => cond_eqb l (cond_not f) | None => false end in
      let child_prefix := if learning then (if flip then prefix else prefix ++ [l]) else prefix in
      match recurse l child_prefix g with
      | Some (Complete, g') => siblings r (S index) (if Nat.eqb index 0 then Some l else first) prefix (refuted ++ [l]) g'
      | Some (CutoffHit, g') => Some (CutoffHit, learn prefix refuted g')
      | other => other
      end
  end.

End Siblings.

(** The rest of solve_with_state, once propagate has been called,
    gcs/solve.cc:114-221. *)
Fixpoint explore (depth : nat) (prefix : list cond) (g : progress) : option (verdict * progress) :=
  match depth with
  | O => None
  | S depth' =>
      let c := g_config g in
      match c_status c with
      | Aborted => Some (Stop, note SawAbort g)
      | Failed => Some (Complete, set_conflicts g (S (g_conflicts g)))
      | Live =>
          let d := current (c_state c) in
          match branch (g_entered g) d with
          | [] => Some (report g)
          | ls =>
              let go_on := on_trace (g_entered g) d in
              let g := note (Traced d go_on) g in
              if go_on then
                let '(stop, g) := poll g in
                if stop then Some (Stop, g) else siblings (explore depth') ls 0 None prefix [] g
              else Some (Stop, g)
          end
      end
  end.

(** One call at the root: gcs/solve.cc:403-406. *)
Definition run_pass (depth : nat) (g : progress) : option (verdict * progress) :=
  let g := enter (set_conflicts g 0) in
  if spent g then Some (CutoffHit, g)
  else
    match run_move props disabled abort fuel (Again (objective_bound g)) (g_config g) with
    | None => None
    | Some c => explore depth [] (at_config g c)
    end.

End Search.

(** Before the first propagation. *)
Definition unopened (props : list propagator) (st : estate) : progress :=
  mk_progress (mk_config (installed_engine props) st [] [[]] Live) 0 [] None 0 [].

(** The restart loop, gcs/solve.cc:391-417. [props s] are the installed
    propagators while the nogood store holds [s]: the store is read by reference.
    [schedule] gives the cutoff of each pass; without one there are no cutoffs
    and no store. *)
Section Passes.
Variable props : list nogood -> list propagator.
Variable disabled : nat -> bool.
Variable abort : nat -> bool.
Variable fuel depth : nat.
Variable objective : option var_id.
Variable branch : nat -> domains -> list cond.
Variable on_solution : list domains -> bool.
Variable on_trace : nat -> domains -> bool.
Variable schedule : option (nat -> nat).

Fixpoint passes (tries : nat) (index : nat) (g : progress) : option (verdict * progress) :=
  match tries with
  | O => None
  | S tries' =>
      let cutoff := match schedule with Some s => Some (s index) | None => None end in
      let learning := match schedule with Some _ => true | None => false end in
      match run_pass (props (g_learned g)) disabled abort fuel objective branch on_solution on_trace learning cutoff depth g with
      | Some (CutoffHit, g') => passes tries' (S index) g'
      | other => other
      end
  end.

Definition search (tries : nat) (st : estate) : option (verdict * progress) :=
  passes tries 1 (unopened (props []) st).

End Passes.
