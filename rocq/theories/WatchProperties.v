(** Properties of condition watches. *)
From Coq Require Import ZArith List.
From Verif Require Import IntervalSet Vars VarsSpec State StateSpec Epochs Engine EngineSpec Session SessionSpec Tracker ContractSpec ContractProofs
  Plus NegativeTable TableSpec NegativeTableProofs WatchSpec WatchSessionProofs NegativeTableWatchProofs WatchExample.
Import ListNotations.
Local Open Scope Z_scope.

(** C13 is false. A watch that is still armed at the end of a propagation that
    succeeded has not fired in it, so if every watch whose condition becomes true
    fires then no armed watch has a condition that is certain ([alert]). Here every
    propagator only arms watches on conditions that are not yet certain, and after
    a single guess a watch is armed whose condition is certain. *)
Theorem C13_watch_lost_refuted : exists nv Inv props disabled abort fuel st l c0 c,
  stable nv Inv /\ startable nv Inv st /\
  (forall p, In p props -> well_behaved nv Inv p /\ arms_unmet nv Inv p) /\
  open_root props disabled abort fuel st = Some c0 /\
  run_moves props disabled abort fuel [Down l []] c0 = Some c /\ c_status c = Live /\ ~ alert c.
Proof. exact watch_lost. Qed.
Print Assumptions C13_watch_lost_refuted.

(** The problem is u + 0 = x, u + 0 = y and NegativeTable forbidding x = y = 1, all
    over 0..1. Everything is as the constraints install it, and all the
    propagators are sound; the node u = 1 has no solution, yet propagation accepts
    it with u = x = y = 1. *)
Theorem C13_forbidden_tuple_accepted_refuted : exists c,
  run_moves gap_props gap_none gap_never 100 [Down gap_guess []] gap_root = Some c /\ c_status c = Live /\
  (exists a, within a (current (c_state c))) /\
  (forall a, within a (current (c_state c)) -> agrees a gap_vars [Some 1; Some 1]).
Proof. exact forbidden_accepted. Qed.
Print Assumptions C13_forbidden_tuple_accepted_refuted.

Example C13_example :
  gap_props = fst (plus_bc (VSimple 0) (VConst 0) (VSimple 1) gap_domains) ++ fst (plus_bc (VSimple 0) (VConst 0) (VSimple 2) gap_domains) ++
    match negative_table gap_vars gap_tuples with Some k => fst (k gap_domains) | None => [] end /\
  open_root gap_props gap_none gap_never 100 gap_state = Some gap_root /\ (forall p, In p gap_props -> sound_for 3 gap_inv gap_sol p).
Proof. split; [reflexivity|]. split; [exact gap_opened|exact gap_sound]. Qed.

(** C13 holds if no propagator claims that a run was idempotent, which is what is
    needed for watches to be lost: at every node reached by any sequence of guesses,
    returns and repeated propagations, no armed watch has a condition that is certain.
    Missing is the case of some propagator that does, for which C13 is false. *)
Theorem C13_watches_fire_partial : forall props disabled abort fuel nv Inv,
  stable nv Inv -> stays_set abort ->
  (forall p, In p props -> well_behaved nv Inv p /\ arms_unmet nv Inv p /\ claims_nothing nv Inv p) ->
  forall st ms c0 c, startable nv Inv st -> Forall (move_below nv) ms ->
  open_root props disabled abort fuel st = Some c0 -> run_moves props disabled abort fuel ms c0 = Some c ->
  c_status c = Live -> alert c.
Proof. exact watches_fire. Qed.
Print Assumptions C13_watches_fire_partial.

(** And a propagator that relies on its watches, in the sense of [keeps_watch], is then
    kept informed: what it maintains about its watches, its stored values and its data
    is true at every such node, with nothing waiting to be delivered. *)
Theorem C13_watches_maintained_partial : forall props disabled abort fuel nv Inv,
  stable nv Inv -> stays_set abort ->
  (forall p, In p props -> well_behaved nv Inv p /\ arms_unmet nv Inv p /\ claims_nothing nv Inv p) ->
  forall st ms c0 c, startable nv Inv st -> Forall (move_below nv) ms ->
  open_root props disabled abort fuel st = Some c0 -> run_moves props disabled abort fuel ms c0 = Some c ->
  c_status c = Live ->
  forall p K M, nth_error props p <> None -> disabled p = false -> keeps_watch nv Inv (the_prop props p) K M ->
  watchful p K M (current (c_state c)) (e_watch (c_engine c)).
Proof. exact watches_maintained. Qed.
Print Assumptions C13_watches_maintained_partial.

(** x < y with x = 1, z = 2 and x = 2 forbidden: watches on x = 1, x = 2 and z = 2 are
    armed at the root, and z = 2 makes x = 0 follow. *)
Example C13_fire_example : stable 3 calm_inv /\ stays_set gap_never /\
  (forall p, In p calm_props -> well_behaved 3 calm_inv p /\ arms_unmet 3 calm_inv p /\ claims_nothing 3 calm_inv p) /\
  startable 3 calm_inv calm_state /\ open_root calm_props gap_none gap_never 100 calm_state = Some calm_root /\
  map w_lit (watches_on (e_watch (c_engine calm_root)) 0) = [LCond (cond_eq (VSimple 0) 1); LCond (cond_eq (VSimple 0) 2)] /\
  run_moves calm_props gap_none gap_never 100 [Down calm_guess []] calm_root = Some calm_node /\ c_status calm_node = Live /\
  current (c_state calm_node) = [[(0, 0)]; [(1, 3)]; [(2, 2)]] /\
  keeps_watch 3 calm_inv (the_prop calm_props 1) (watches_kept calm_vars calm_tuples) (all_seen calm_tuples).
Proof.
  split; [apply stable_inside|]. split; [discriminate|]. split; [exact calm_all|]. split; [exact calm_startable|].
  destruct calm_run as (A & _ & _ & B & _ & C & D & E). repeat (apply conj; [assumption|]). apply (table_watcher 3 calm_vars calm_known calm_tuples calm_sized).
  discriminate.
Qed.
