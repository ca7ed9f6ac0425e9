(** Properties of the propagation engine over whole sessions: any sequence of
    opening nodes, propagating, backtracking and propagating again at the root. *)
From Coq Require Import ZArith List Lia Permutation.
From Verif Require Import IntervalSet IntervalSetSpec Vars VarsSpec State StateSpec Epochs Engine EngineSpec Session SessionSpec
  SessionResults SessionSkipProofs Tracker ContractSpec ExampleProblem.
Import ListNotations.

(** C10: at a node where propagation succeeded, exactly the assignments within
    the original domains that satisfy what was guessed on the way remain, save
    that some which are not solutions may be missing; where it failed, there is no
    such solution. [sol] is any set of assignments that no propagator removes. *)
Theorem C10_no_solution_lost : forall props disabled abort fuel nv Inv,
  (forall p, In p props -> well_behaved nv Inv p) -> stable nv Inv -> stays_set abort ->
  forall st ms c0 c, startable nv Inv st -> Forall (move_below nv) ms ->
  open_root props disabled abort fuel st = Some c0 -> run_moves props disabled abort fuel ms c0 = Some c ->
  match c_status c with
  | Live =>
      domains_ok (current (c_state c)) /\ length (current (c_state c)) = nv /\
      (forall a, within a (current (c_state c)) -> within a (current st) /\ path_holds a c) /\
      (forall sol a, (forall p, In p props -> sound_for nv Inv sol p) ->
         within a (current st) -> path_holds a c -> sol a -> within a (current (c_state c)))
  | Failed =>
      forall sol a, (forall p, In p props -> sound_for nv Inv sol p) -> within a (current st) -> path_holds a c -> ~ sol a
  | Aborted => True
  end.
Proof. exact session_sound. Qed.
Print Assumptions C10_no_solution_lost.

(** x < y, y <> z over 0..3: after x = 2 is guessed only y = 3 is left and z may
    not be 3; after x = 3 is guessed there is a contradiction. *)
Example C10_example :
  (forall p, In p ex_props -> well_behaved 3 ex_inv p) /\ stable 3 ex_inv /\ stays_set ex_never /\ startable 3 ex_inv ex_state /\
  (forall p, In p ex_props -> sound_for 3 ex_inv ex_sol p) /\
  match open_root ex_props (fun _ => false) ex_never 60 ex_state with
  | Some c0 =>
      option_map (fun c => (c_status c, current (c_state c))) (run_moves ex_props (fun _ => false) ex_never 60 [Down ex_guess []] c0) =
        Some (Live, [[(2, 2)]; [(3, 3)]; [(0, 2)]]%Z) /\
      option_map c_status (run_moves ex_props (fun _ => false) ex_never 60 [Down ex_guess []; Up; Down (LCond (cond_ge (VSimple 0) 3)) []] c0) =
        Some Failed
  | None => False
  end.
Proof.
  split; [exact ex_behaved|]. split; [exact ex_stable|]. split; [exact ex_never_set|]. split; [exact ex_startable|].
  split; [exact ex_sound|]. vm_compute. split; reflexivity.
Qed.

(** C11: with fuel for (values + 1) * (propagators + 1) iterations, propagation
    never runs out: at the root, and at every node of every session. Each
    iteration runs at most one propagator. *)
Theorem C11_root_terminates : forall props disabled abort fuel nv Inv,
  (forall p, In p props -> well_behaved nv Inv p) ->
  forall st, startable nv Inv st -> (S (total_size (current st)) * S (length props) <= fuel)%nat ->
  exists c, open_root props disabled abort fuel st = Some c.
Proof. exact root_terminates. Qed.
Print Assumptions C11_root_terminates.

Theorem C11_every_move_terminates : forall props disabled abort fuel nv Inv,
  (forall p, In p props -> well_behaved nv Inv p) -> stable nv Inv -> stays_set abort ->
  forall st ms c0 c m, startable nv Inv st -> Forall (move_below nv) ms -> move_below nv m ->
  (S (total_size (current st)) * S (length props) <= fuel)%nat ->
  open_root props disabled abort fuel st = Some c0 -> run_moves props disabled abort fuel ms c0 = Some c ->
  permitted m c -> exists c', run_move props disabled abort fuel m c = Some c'.
Proof. exact move_terminates. Qed.
Print Assumptions C11_every_move_terminates.

Example C11_example : (S (total_size (current ex_state)) * S (length ex_props) = 39)%nat /\ move_below 3 (Down ex_guess []).
Proof. split; [reflexivity|]. repeat constructor. Qed.

(** C12: [ok d] says that a propagator has nothing to do on [d], and [dead d] that
    it will have nothing to do whatever happens below. If the propagator keeps its
    side of the bargain ([wakeable]) then whenever propagation has succeeded it
    has nothing to do. *)
Theorem C12_no_lost_wakeups : forall props disabled abort fuel nv Inv,
  (forall p, In p props -> well_behaved nv Inv p) -> stable nv Inv -> stays_set abort ->
  forall st ms c0 c p ok dead, startable nv Inv st -> Forall (move_below nv) ms ->
  open_root props disabled abort fuel st = Some c0 -> run_moves props disabled abort fuel ms c0 = Some c ->
  c_status c = Live -> p < length props -> disabled p = false -> wakeable nv Inv (nth p props nil_propagator) ok dead ->
  (may_run (c_engine c) p -> ok (current (c_state c))) /\ (~ may_run (c_engine c) p -> dead (current (c_state c))).
Proof. exact session_settled. Qed.
Print Assumptions C12_no_lost_wakeups.

(** The real propagators keep their side of the bargain. *)
Example C12_example : wakeable 3 ex_inv (nth 0 ex_props nil_propagator) ex_wake ex_done.
Proof. exact ex_wakeable. Qed.

(** C14: what is disabled at a node is not run below it: in the whole subtree,
    whatever moves are made, everything happens just as it would if the
    propagation function were replaced by any other. *)
Theorem C14_disabled_below : forall props p f disabled abort fuel nv Inv,
  (forall q, In q props -> well_behaved nv Inv q) -> stable nv Inv -> stays_set abort ->
  forall st ms c0 c ds, startable nv Inv st -> Forall (move_below nv) ms -> Forall (move_below nv) ds ->
  open_root props disabled abort fuel st = Some c0 -> run_moves props disabled abort fuel ms c0 = Some c ->
  descent ds -> p < length props -> ~ may_run (c_engine c) p ->
  run_moves (running p f props) disabled abort fuel ds c = run_moves props disabled abort fuel ds c.
Proof. exact session_asleep. Qed.
Print Assumptions C14_disabled_below.

(** C14: one retired for good is never run at all. *)
Theorem C14_retired_root : forall props p f disabled abort fuel st, disabled p = true ->
  open_root (running p f props) disabled abort fuel st = open_root props disabled abort fuel st.
Proof. exact retired_root. Qed.
Print Assumptions C14_retired_root.

Theorem C14_retired : forall props p f disabled abort fuel ms, disabled p = true ->
  forall c, run_moves (running p f props) disabled abort fuel ms c = run_moves props disabled abort fuel ms c.
Proof. exact retired_moves. Qed.
Print Assumptions C14_retired.

(** C14: after any excursion below a node the same propagators are eligible to run
    as before it. By C12 their wake-ups work as before. *)
Theorem C14_eligible_again : forall props disabled abort fuel nv Inv,
  (forall p, In p props -> well_behaved nv Inv p) -> stable nv Inv -> stays_set abort ->
  forall st ms c0 c ex c', startable nv Inv st -> Forall (move_below nv) ms -> Forall (move_below nv) ex ->
  open_root props disabled abort fuel st = Some c0 -> run_moves props disabled abort fuel ms c0 = Some c ->
  excursion ex -> run_moves props disabled abort fuel ex c = Some c' ->
  forall p, p < length props -> (may_run (c_engine c') p <-> may_run (c_engine c) p).
Proof. exact session_eligible. Qed.
Print Assumptions C14_eligible_again.

(** C37: coming back to a node after any excursion below it finds everything as it
    was: the domains, the constraint states, the guesses, the callbacks still to
    be made, the armed watches, the scratch values, and nothing waiting to be
    delivered. *)
Theorem C37_restored : forall props disabled abort fuel nv Inv,
  (forall p, In p props -> well_behaved nv Inv p) -> stable nv Inv -> stays_set abort ->
  forall st ms c0 c ex c', startable nv Inv st -> Forall (move_below nv) ms -> Forall (move_below nv) ex ->
  open_root props disabled abort fuel st = Some c0 -> run_moves props disabled abort fuel ms c0 = Some c ->
  excursion ex -> run_moves props disabled abort fuel ex c = Some c' ->
  c_state c' = c_state c /\ c_status c' = c_status c /\ c_open c' = c_open c /\ c_path c' = c_path c /\
  (forall p, p < length props -> (may_run (c_engine c') p <-> may_run (c_engine c) p)) /\
  same_watches (c_engine c') (c_engine c) /\ same_scratch (c_engine c') (c_engine c) /\
  (forall p, nth p (wp_inbox (e_watch (c_engine c'))) [] = []).
Proof. exact session_restored. Qed.
Print Assumptions C37_restored.

(** After x = 2 the propagator for x < y is disabled; after backtracking it is
    not. *)
Example C14_example :
  excursion [Down ex_guess []; Up] /\ descent [Down (LCond (cond_eq (VSimple 2) 1)) []] /\
  match open_root ex_props (fun _ => false) ex_never 60 ex_state with
  | Some c0 =>
      firstn (q_idle (e_pq (c_engine c0))) (q_queue (e_pq (c_engine c0))) = [0; 1] /\
      option_map (fun c => firstn (q_idle (e_pq (c_engine c))) (q_queue (e_pq (c_engine c))))
        (run_moves ex_props (fun _ => false) ex_never 60 [Down ex_guess []] c0) = Some [] /\
      option_map (fun c => firstn (q_idle (e_pq (c_engine c))) (q_queue (e_pq (c_engine c))))
        (run_moves ex_props (fun _ => false) ex_never 60 [Down ex_guess []; Up] c0) = Some [1; 0]
  | None => False
  end.
Proof.
  split; [exact (ex_node ex_guess [] [] [] ex_nil ex_nil)|]. split; [exact (de_down _ [] [] de_nil)|].
  vm_compute. repeat split.
Qed.
