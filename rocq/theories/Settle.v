(** Propagation functions that repeat until nothing changes. *)
From Coq Require Import ZArith List Bool Arith.
From Verif Require Import IntervalSet Vars State Epochs Engine Tracker Quiet.
Import ListNotations.

(** [do { pass } while (made_progress_since_last_check())], with
    made_progress_since_last_check as in gcs/innards/inference_tracker.hh:734-737. A
    pass may use data of its own. A contradiction leaves the loop; [None] is running
    out of fuel. *)
Fixpoint settle {M : Type} (pass : tracker * M -> tracker * M) (d : domains) (fuel : nat) (s : tracker * M) : option (tracker * M) :=
  match fuel with
  | O => None
  | S k =>
      let s' := pass s in
      if t_failed (fst s') then Some s'
      else if Nat.eqb (count_inferences d (fst s')) (count_inferences d (fst s)) then Some s'
      else settle pass d k s'
  end.
