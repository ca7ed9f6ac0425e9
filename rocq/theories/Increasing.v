(** Variables in order.

    Models gcs/constraints/increasing/increasing.cc. *)
From Coq Require Import ZArith List Bool.
From Verif Require Import IntervalSet Vars State Epochs Engine Tracker.
Import ListNotations.
Local Open Scope Z_scope.

(** The forward sweep, gcs/constraints/increasing/increasing.cc:82-97. *)
Fixpoint raise_bounds (step prev : Z) (vars : list var_id) (t : tracker) : tracker :=
  match vars with
  | [] => t
  | v :: r =>
      let needed := prev + step in
      let current := lower_bound (t_domains t) v in
      if current <? needed then raise_bounds step needed r (tell_ge v needed t) else raise_bounds step current r t
  end.

(** The backward sweep, gcs/constraints/increasing/increasing.cc:99-114, for the variables
    from last to first. *)
Fixpoint drop_bounds (step prev : Z) (vars : list var_id) (t : tracker) : tracker :=
  match vars with
  | [] => t
  | v :: r =>
      let needed := prev - step in
      let current := upper_bound (t_domains t) v in
      if needed <? current then drop_bounds step needed r (tell_lt v (needed + 1) t) else drop_bounds step current r t
  end.

(** gcs/constraints/increasing/increasing.cc:116-123. *)
Fixpoint separated (d : domains) (step : Z) (vars : list var_id) : bool :=
  match vars with
  | v :: (w :: _) as r => if lower_bound d w <? upper_bound d v + step then false else separated d step r
  | _ => true
  end.

(** gcs/constraints/increasing/increasing.cc:76-125. *)
Definition increasing_body (step : Z) (vars : list var_id) : body := fun d =>
  let t1 := match vars with [] => track d | v :: r => raise_bounds step (lower_bound d v) r (track d) end in
  let t2 := match rev vars with [] => t1 | v :: r => drop_bounds step (upper_bound (t_domains t1) v) r t1 end in
  (t2, if separated (t_domains t2) step vars then DisableUntilBacktrack else Enable).

(** IncreasingChain: prepare, gcs/constraints/increasing/increasing.cc:49-57, and
    install_propagators, lines 66-127. *)
Definition increasing_chain (vars : list var_id) (strict descending : bool) : constraint := fun _ =>
  let ordered := if descending then rev vars else vars in
  if Nat.leb (length ordered) 1 then ([], [])
  else ([body_propagator (increasing_body (if strict then 1 else 0) ordered) [] ordered []], []).

(** gcs/constraints/increasing/increasing.hh:52-94. *)
Definition increasing (vars : list var_id) : constraint := increasing_chain vars false false.
Definition strictly_increasing (vars : list var_id) : constraint := increasing_chain vars true false.
Definition decreasing (vars : list var_id) : constraint := increasing_chain vars false true.
Definition strictly_decreasing (vars : list var_id) : constraint := increasing_chain vars true true.
