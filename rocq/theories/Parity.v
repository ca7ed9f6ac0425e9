(** An odd number of conditions holding.

    Models gcs/constraints/parity/parity.cc. *)
From Coq Require Import ZArith List Bool Arith.
From Verif Require Import IntervalSet Vars State Epochs Engine Tracker Logical.
Import ListNotations.
Local Open Scope Z_scope.

(** The loop of gcs/constraints/parity/parity.cc:106-126: how many are definitely true,
    and an undecided one. [None] is the early return at the second undecided one. *)
Fixpoint count_true (d : domains) (lits : list literal) (trues : nat) (unknown : option literal) : option (nat * option literal) :=
  match lits with
  | [] => Some (trues, unknown)
  | l :: r =>
      match test_literal d l with
      | DefinitelyTrue => count_true d r (S trues) unknown
      | DefinitelyFalse => count_true d r trues unknown
      | Undecided => match unknown with Some _ => None | None => count_true d r trues (Some l) end
      end
  end.

(** gcs/constraints/parity/parity.cc:102-146. *)
Definition parity_body (lits : list literal) : body := fun d =>
  match count_true d lits 0 None with
  | None => (track d, Enable)
  | Some (trues, None) => if Nat.odd trues then (track d, DisableUntilBacktrack) else (tell_false (track d), Enable)
  | Some (trues, Some l) => (tell (if Nat.odd trues then lit_not l else l) (track d), DisableUntilBacktrack)
  end.

(** install_propagators, gcs/constraints/parity/parity.cc:94-148. *)
Definition parity_odd (lits : list literal) : constraint := fun _ =>
  ([body_propagator (parity_body lits) (flat_map change_trigger lits) (flat_map bounds_trigger lits) []], []).

(** gcs/constraints/parity/parity.cc:46-59. *)
Definition parity_odd_vars (vars : list var_id) : constraint := parity_odd (to_lits vars).
