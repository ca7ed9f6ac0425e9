(** C66: difference logic. Property theorems and examples only. *)
From Coq Require Import ZArith List Bool Lia.
From Verif Require Import Difference DifferenceSpec DifferencePotentialProofs DifferenceBoundsProofs.
Import ListNotations.
Local Open Scope Z_scope.

(** The first potential is one, and if there is none then nothing satisfies the differences. *)
Theorem C66_initial_potential : forall n arcs active, nodes_below n arcs ->
  match initial_potential n arcs active with
  | Some p => potential arcs active p /\ solves arcs active (fun v => - p v)
  | None => ~ exists x, solves arcs active x
  end.
Proof. exact initial_potential_correct. Qed.
Print Assumptions C66_initial_potential.

(** The audit finds an arc exactly if what it is given is not a potential. *)
Theorem C66_audit_exact : forall arcs active p,
  (invalid_arc arcs active p = None <-> potential arcs active p) /\
  forall e, invalid_arc arcs active p = Some e -> exists a, active_arc arcs active e a /\ p (a_from a) + a_d a - p (a_to a) < 0.
Proof. exact (fun arcs active p => conj (invalid_arc_none arcs active p) (invalid_arc_some arcs active p)). Qed.
Print Assumptions C66_audit_exact.

(** A potential for all arcs but a new one is repaired into one for all, or left as it is if
    nothing satisfies the differences. The workspace is left clean. *)
Theorem C66_repair : forall arcs active (p : nat -> Z) added a w, active_arc arcs active added a ->
  (forall e b, active_arc arcs active e b -> e <> added -> 0 <= p (a_from b) + a_d b - p (a_to b)) -> clean_repair w ->
  exists ok p' w', repair_potential arcs active p added w = Some (ok, p', w') /\ clean_repair w' /\
    (ok = true -> potential arcs active p') /\ (ok = false -> p' = p /\ ~ exists x, solves arcs active x).
Proof. exact repair_correct. Qed.
Print Assumptions C66_repair.

(** The bounds that a pass infers are the least that no arc raises; each follows from an arc
    and the bounds before it; and the gate is ready for the next pass. *)
Theorem C66_bounds : forall (n : nat) (by_tail : bool) arcs active (p start gate : nat -> Z) (forced : nat -> bool) w, nodes_below n arcs ->
  potential arcs active (if by_tail then p else fun v => - p v) ->
  (forall v, (v < n)%nat -> gate v <= start v) ->
  (forall e a, active_arc arcs active e a -> forced (if by_tail then a_from a else a_to a) = false ->
    if by_tail then gate (a_from a) - a_d a <= gate (a_to a) else gate (a_to a) - a_d a <= gate (a_from a)) ->
  clean_bounds w ->
  exists w', incremental_bounds n by_tail arcs active p start gate forced w = Finished w' /\ clean_bounds w' /\
    justified by_tail arcs active start (inferred w' start) /\
    tightest n by_tail arcs active start (after start (inferred w' start)) /\
    (forall v, (v < n)%nat -> next_gate w' gate v <= after start (inferred w' start) v) /\
    (forall v, gate v <= next_gate w' gate v) /\
    closed by_tail arcs active (next_gate w' gate).
Proof. exact bounds_correct. Qed.
Print Assumptions C66_bounds.

(** Bounds that no arc raises are what the differences imply: lower bounds for solutions, and
    negated upper bounds likewise. *)
Theorem C66_solutions_closed : forall arcs active x, solves arcs active x ->
  closed true arcs active x /\ closed false arcs active (fun v => - x v).
Proof. exact solutions_closed. Qed.
Print Assumptions C66_solutions_closed.

(** ** Examples *)

Definition example_arcs : list arc := [mk_arc 0 1 (-2); mk_arc 1 2 3; mk_arc 2 0 (-1); mk_arc 1 3 (-4); mk_arc 3 0 7].
Definition example_repair : repair_work := mk_repair (fun _ => 0) (fun _ => 0) (fun _ => false) [] [].
Definition example_bounds : bounds_work := mk_bounds (fun _ => 5) (fun _ => false) (fun _ => false) (fun _ => true) (fun _ => 9%nat) (fun _ => 7) [3%nat] [].

Example example_nodes : nodes_below 4 example_arcs.
Proof. intros a H. repeat (destruct H as [<-|H]; [cbn; lia|]). destruct H. Qed.

Example example_potential : option_map (fun p => map p [0; 1; 2; 3]%nat) (initial_potential 4 example_arcs []) = Some [-1; -3; 0; -7].
Proof. vm_compute. reflexivity. Qed.

Example example_unsatisfiable : match initial_potential 2 [mk_arc 0 1 (-2); mk_arc 1 0 1] [] with None => True | Some _ => False end.
Proof. vm_compute. exact I. Qed.

(** Without the third arc the potential is another, and the third arc changes it. *)
Example example_repaired : match initial_potential 4 example_arcs [true; true; false; true; true] with
  | Some p => match repair_potential example_arcs [true; true; true; true; true] p 2 example_repair with
    | Some (ok, p', w) => (map p [0; 1; 2; 3]%nat, ok, map p' [0; 1; 2; 3]%nat, map (r_gamma w) [0; 1; 2; 3]%nat, r_touched w)
    | None => ([], false, [], [], []) end
  | None => ([], false, [], [], []) end = ([0; -2; 0; -6], true, [-1; -3; 0; -7], [0; 0; 0; 0], [0; 1; 3]%nat).
Proof. vm_compute. reflexivity. Qed.

(** It cannot be added to an arc back that is too short. *)
Example example_refused : match repair_potential [mk_arc 0 1 (-2); mk_arc 1 2 1; mk_arc 2 0 0] [] (fun v => match v with O => 0 | 1%nat => -2 | _ => -1 end) 2 example_repair with
  | Some (ok, p', _) => (ok, map p' [0; 1; 2]%nat) | None => (true, []) end = (false, [0; -2; -1]).
Proof. vm_compute. reflexivity. Qed.

(** Every node is forced, then one bound is raised. *)
Definition example_first := match initial_potential 4 example_arcs [] with
  | Some p => incremental_bounds 4 true example_arcs [] p (fun _ => 0) (fun _ => 0) (fun _ => true) example_bounds
  | None => NoFuel end.

Example example_first_pass : match example_first with
  | Finished w => (inferred w (fun _ => 0), map (next_gate w (fun _ => 0)) [0; 1; 2; 3]%nat) | _ => ([], []) end =
  ([(0%nat, 1); (1%nat, 3); (3%nat, 7)], [1; 3; 0; 7]).
Proof. vm_compute. reflexivity. Qed.

Definition example_gate (v : nat) : Z := match v with O => 1 | 1%nat => 3 | 2%nat => 0 | _ => 7 end.
Definition example_start (v : nat) : Z := match v with O => 1 | 1%nat => 3 | 2%nat => 5 | _ => 9 end.

Example example_second_pass : match initial_potential 4 example_arcs [] with
  | Some p => match incremental_bounds 4 true example_arcs [] p example_start example_gate (fun _ => false) example_bounds with
    | Finished w => (inferred w example_start, b_settle_order w, map (next_gate w example_gate) [0; 1; 2; 3]%nat) | _ => ([], [], []) end
  | None => ([], [], []) end = ([(0%nat, 6); (1%nat, 8); (3%nat, 12)], [2; 0; 1; 3]%nat, [6; 8; 5; 12]).
Proof. vm_compute. reflexivity. Qed.

Example example_gate_closed : closed true example_arcs [] example_gate /\ forall v, (v < 4)%nat -> example_gate v <= example_start v.
Proof.
  split; [|intros v Hv; do 4 (destruct v as [|v]; [cbn; lia|]); lia].
  intros e a [A _]. do 5 (destruct e as [|e]; [injection A as <-; cbn; lia|]). destruct e; discriminate.
Qed.
