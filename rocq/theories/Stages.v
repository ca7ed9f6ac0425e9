(** Linear inequalities as parts of a propagator.

    Models gcs/constraints/innards/linear_stages.{hh,cc}, without the proof log. *)
From Coq Require Import ZArith List Bool Arith.
From Verif Require Import IntervalSet Vars State Expressions Epochs Engine Tracker Passes Linear.
Import ListNotations.
Local Open Scope Z_scope.

(** LinearStage, gcs/constraints/innards/linear_stages.hh:39-46. Simplification: only
    inequalities. *)
Record stage : Type := mk_stage { st_terms : tidied; st_value : Z; st_gate : option cond }.

(** A stage for a sum that need not be tidy: make_stages,
    gcs/constraints/innards/linear_stages.cc:63-72. *)
Definition le_stage (s : sum_of var_id) (value : Z) (gate : option cond) : stage :=
  let '(t, modifier) := tidy_up_linear s in mk_stage t (value + modifier) gate.

(** stage_gate_holds, gcs/constraints/innards/linear_stages.cc:26-35. [false] stands
    for the exception. *)
Definition gate_holds (d : domains) (c : cond) : bool :=
  match c_op c with
  | OpGreaterEqual => c_value c <=? lower_bound d (c_var c)
  | OpLess => upper_bound d (c_var c) <? c_value c
  | OpEqual => (lower_bound d (c_var c) =? c_value c) && (upper_bound d (c_var c) =? c_value c)
  | _ => false
  end.

(** The forward sweep of propagate_linear, gcs/constraints/linear/propagate.cc:275-292,
    as a sequence of inferences. *)
Fixpoint sweep (u : bool) (value sum : Z) (ts : list (Z * nat)) (bs : list (Z * Z)) (rest : prog) : prog :=
  match ts, bs with
  | (c, n) :: ts', b :: bs' =>
      let rest' := sweep u value sum ts' bs' rest in
      match step_for u c (value - (sum - contribution c b)) b with
      | StepNone => rest'
      | StepBelow x => Infer (LCond (cond_lt (VSimple n) x)) rest'
      | StepAtLeast x => Infer (LCond (cond_ge (VSimple n) x)) rest'
      end
  | _, _ => rest
  end.

(** propagate_linear for an inequality, gcs/constraints/linear/propagate.cc:203-298. *)
Definition inequality (s : tidied) (value : Z) (rest : prog) : prog :=
  match terms s with
  | [] => infer_when (value <? 0) LFalse rest
  | _ => Look (fun d => let bs := map (bounds d) (term_vars s) in sweep (units s) value (lower_sum 1 (terms s) bs) (terms s) bs rest)
  end.

(** The body of the loop of propagate_stages,
    gcs/constraints/innards/linear_stages.hh:113-162. *)
Definition run_stage (s : stage) (rest : prog) : prog :=
  match st_gate s with
  | None => inequality (st_terms s) (st_value s) rest
  | Some c => Look (fun d =>
      if gate_holds d c then inequality (st_terms s) (st_value s) rest
      else infer_when (st_value s <? lower_sum 1 (terms (st_terms s)) (map (bounds d) (term_vars (st_terms s)))) (LCond (cond_not c)) rest)
  end.

(** propagate_stages. Once a contradiction has been found, further inferences make no
    difference. *)
Definition run_stages (ss : list stage) (rest : prog) : prog := fold_right run_stage rest ss.
