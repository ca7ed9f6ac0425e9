(** Sum and difference of two variables.

    Models gcs/constraints/plus_minus/plus.cc and minus.cc, with bounds
    consistency. *)
From Coq Require Import ZArith List Bool.
From Verif Require Import IntervalSet Vars State Epochs Engine Tracker Quiet.
Import ListNotations.
Local Open Scope Z_scope.

(** One round of propagate_plus, gcs/constraints/plus_minus/plus.cc:83-109. *)
Definition plus_pass (a b r : var_id) (d : domains) : list literal :=
  let '(al, au) := bounds d a in
  let '(bl, bu) := bounds d b in
  let '(rl, ru) := bounds d r in
  [LCond (cond_ge r (al + bl)); LCond (cond_le r (au + bu));
   LCond (cond_ge a (rl - bu)); LCond (cond_le a (ru - bl));
   LCond (cond_ge b (rl - au)); LCond (cond_le b (ru - al))].

(** One round of propagate_minus, gcs/constraints/plus_minus/minus.cc:88-119. *)
Definition minus_pass (a b r : var_id) (d : domains) : list literal :=
  let '(al, au) := bounds d a in
  let '(bl, bu) := bounds d b in
  let '(rl, ru) := bounds d r in
  [LCond (cond_ge r (al - bu)); LCond (cond_le r (au - bl));
   LCond (cond_ge a (rl + bl)); LCond (cond_le a (ru + bu));
   LCond (cond_ge b (al - ru)); LCond (cond_le b (au - rl))].

(** propagate_plus and propagate_minus. *)
Definition propagate_plus (a b r : var_id) : body := quiet_body (plus_pass a b r).
Definition propagate_minus (a b r : var_id) : body := quiet_body (minus_pass a b r).

(** install_propagators, gcs/constraints/plus_minus/plus.cc:200-210 and the same
    in minus.cc, at the level consistency::BC. *)
Definition plus_bc (a b r : var_id) : constraint := fun _ =>
  ([body_propagator (propagate_plus a b r) [] [a; b; r] []], []).

Definition minus_bc (a b r : var_id) : constraint := fun _ =>
  ([body_propagator (propagate_minus a b r) [] [a; b; r] []], []).
