(** Propagation functions that repeat a pass until it infers nothing new. *)
From Coq Require Import ZArith List Bool Arith.
From Verif Require Import IntervalSet Vars State Epochs Engine Tracker.
Import ListNotations.

(** count_inferences, gcs/innards/inference_tracker.hh: how many changes have been
    recorded by the run that started on the domains [d]. *)
Definition count_inferences (d : domains) (t : tracker) : nat :=
  length (snd (fst (apply_lits d (rev (t_lits t))))).

(** The loop [while (true) { before = count; pass; if (count == before) break; }]
    of gcs/constraints/plus_minus/plus.cc:80-113 and minus.cc:85-123, where a pass
    is a list of inferences computed from the bounds at its start, and an
    inference that contradicts leaves the loop. [None] is running out of fuel. *)
Fixpoint until_quiet (pass : domains -> list literal) (d : domains) (fuel : nat) (t : tracker) : option tracker :=
  match fuel with
  | O => None
  | S k =>
      let t' := tell_all (pass (t_domains t)) t in
      if t_failed t' then Some t'
      else if Nat.eqb (count_inferences d t') (count_inferences d t) then Some t'
      else until_quiet pass d k t'
  end.

(** More passes than there are values to remove. *)
Definition enough_fuel (d : domains) : nat := S (list_sum (map (fun s => length (each s)) d)).

(** The loop as a propagation function that claims to be idempotent. *)
Definition quiet_body (pass : domains -> list literal) : body := fun d =>
  match until_quiet pass d (enough_fuel d) (track d) with
  | Some t => (t, EnableButIdempotent)
  | None => (track d, Enable)
  end.
