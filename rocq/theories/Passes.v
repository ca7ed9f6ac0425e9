(** Propagation functions as sequences of reads and inferences. *)
From Coq Require Import ZArith List Bool Arith.
From Verif Require Import IntervalSet Vars State Epochs Engine Tracker Quiet Settle.
Import ListNotations.

(** What a propagation function does: look at the domains as they are then, infer
    something, and so on. *)
Inductive prog : Type :=
| Stop
| Infer (l : literal) (rest : prog)
| Look (f : domains -> prog).

Fixpoint exec (p : prog) (t : tracker) : tracker :=
  match p with
  | Stop => t
  | Infer l rest => exec rest (tell l t)
  | Look f => exec (f (t_domains t)) t
  end.

(** An inference made under a condition. *)
Definition infer_when (b : bool) (l : literal) (rest : prog) : prog := if b then Infer l rest else rest.

(** [do { p } while (inference.made_progress_since_last_check())], and then
    EnableButIdempotent, as in gcs/constraints/multiply/multiply.cc:194-203. *)
Definition settling (p : prog) : body := fun d =>
  match settle (fun s => (exec p (fst s), snd s)) d (enough_fuel d) (track d, tt) with
  | Some (t, _) => (t, EnableButIdempotent)
  | None => (track d, Enable)
  end.

(** A run of the function, and then Enable. *)
Definition once (p : prog) : body := fun d => (exec p (track d), Enable).

(** A loop. *)
Definition sequence {X : Type} (xs : list X) (f : X -> prog -> prog) (rest : prog) : prog := fold_right f rest xs.
