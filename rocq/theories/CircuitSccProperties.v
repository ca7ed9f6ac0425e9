(** Properties of Circuit with strongly connected components. *)
From Coq Require Import ZArith List Bool Lia Permutation.
From Verif Require Import IntervalSet IntervalSetSpec IntervalSetProofs Vars VarsSpec State StateSpec Epochs Engine EngineSpec
  Tracker SessionSpec ContractSpec Search Solve SolveSpec Stateful StatefulSpec AllDifferentSpec CircuitSpec Circuit CircuitScc CircuitSccProofs
  Catalogue CatalogueSpec ExampleProblem SolveExample ConstraintExample.
Import ListNotations.
Local Open Scope Z_scope.

(** C57: Circuit, with strongly connected components and any of the options for pruning,
    has exactly the solutions it should, whatever variables the handles share. A run that
    does not return counts as one that infers nothing. *)
Theorem C57_components_correct : forall d0 o succ k, succ <> [] -> Forall (var_known d0) succ -> circuit_scc o succ = Some k -> means d0 k succ (circuit succ).
Proof. exact circuit_scc_means. Qed.
Print Assumptions C57_components_correct.

(** C57: the constructor only throws for what has no solution. *)
Theorem C57_refused_unsatisfiable : forall o succ a, circuit_scc o succ = None -> ~ circuit succ a.
Proof. exact circuit_scc_refused. Qed.
Print Assumptions C57_refused_unsatisfiable.

(** C57: a run that returns, and does not end in a contradiction, has been given domains
    in which there is a way from every node to every other, and leaves no way to close a
    cycle short of all nodes that just one successor would complete, except where that
    successor has been fixed by the run. *)
Theorem C57_connected : forall d0 cs o succ k, domains_ok d0 -> Forall (var_known d0) succ -> succ <> [] -> circuit_scc o succ = Some k ->
  exists ps p s0, in_props (k d0 cs) = ps ++ [p] /\ in_states (k d0 cs) = [s0] /\
  forall i s D evs u t, lives p (length cs) d0 s0 (i_domains i) s -> nth_error (i_cstates i) (length cs) = Some s ->
    scc_run (S (length succ)) o succ (i_domains i) (map Z.to_nat s) = Some (u, t) ->
    apply_lits (i_domains i) (o_infer (p_run p i)) = (D, evs, false) ->
    (forall i1 j, (i1 < length succ)%nat -> (j < length succ)%nat -> leads_to (i_domains i) succ i1 j) /\
    forall a, within a D -> all_nodes succ a -> no_cycle_closing (i_domains i) D succ a.
Proof. exact circuit_connected. Qed.
Print Assumptions C57_connected.

(** C57: a run returns if the options that prune are off, or if all successors are fixed. *)
Theorem C57_returns_partial : forall d0 cs o succ k, domains_ok d0 -> Forall (var_known d0) succ -> succ <> [] -> circuit_scc o succ = Some k ->
  exists ps p s0, in_props (k d0 cs) = ps ++ [p] /\ in_states (k d0 cs) = [s0] /\
  forall D s, lives p (length cs) d0 s0 D s -> no_pruning o \/ Forall (fixed D) succ -> scc_run (S (length succ)) o succ D (map Z.to_nat s) <> None.
Proof. exact circuit_returns. Qed.
Print Assumptions C57_returns_partial.

(** C57: with the options as they are by default, the first run may not return, however
    long it is given. *)
Theorem C57_returns_refuted : exists d0 succ k, domains_ok d0 /\ Forall (var_known d0) succ /\ succ <> [] /\ circuit_scc default_options succ = Some k /\
  in_states (k d0 []) = [map Z.of_nat (seq 0 (length succ))] /\
  forall fuel, scc_run fuel default_options succ d0 (seq 0 (length succ)) = None.
Proof. exact default_does_not_return. Qed.
Print Assumptions C57_returns_refuted.

(** Four nodes, one with a view for its successor, and one with a constant: all circuits
    are found. *)
Example C57_solutions_example : let p := CircuitComponents (mk_scc_options false false false) [VSimple 0; VView 1 true 3; VConst 1; VSimple 2] in let d0 := [[(-5, 9)]; [(0, 3)]; [(0, 5)]] in
  well_posed d0 p /\ exists pb, problem_of d0 [p] None = Some pb /\
  summary (solve ex_never 100 100 1 (plain_callbacks [VSimple 0; VSimple 1; VSimple 2]) pb) = Some ([[3; 3; 2]; [2; 0; 0]], true).
Proof.
  cbv zeta. split; [split; [repeat constructor|split; [constructor|split; [repeat split|discriminate]]]|]. eexists. split; [reflexivity|]. vm_compute. reflexivity.
Qed.

(** Nodes 3, 4 and 5 can only be come to from 0 and left from 5, and with the options on
    both edges are required. *)
Example C57_required_example : let d0 := [[(1, 3)]; [(0, 0); (2, 2)]; [(0, 1)]; [(4, 5)]; [(3, 3); (5, 5)]; [(2, 4)]] in let succ := map VSimple (seq 0 6) in
  domains_ok d0 /\ Forall (var_known d0) succ /\ exists k, circuit_scc default_options succ = Some k /\
  exists ps p s0, in_props (k d0 []) = ps ++ [p] /\ in_states (k d0 []) = [s0] /\
  let i := mk_in d0 [s0] [] [] [] (fun _ => false) in
  lives p 0 d0 s0 d0 s0 /\ (exists u t, scc_run 7 default_options succ d0 (map Z.to_nat s0) = Some (u, t)) /\
  let '(D, evs, contradiction) := apply_lits d0 (o_infer (p_run p i)) in
  contradiction = false /\ D = [[(3, 3)]; [(0, 0); (2, 2)]; [(0, 1)]; [(4, 5)]; [(3, 3); (5, 5)]; [(2, 2)]].
Proof.
  cbv zeta. split; [|split; [repeat constructor; simpl; lia|]].
  { intros [|[|[|[|[|[|k]]]]]] Hk; simpl in *; try lia; (split; [lia|]); [exists 1|exists 0|exists 0|exists 4|exists 3|exists 2]; apply member_cons; lia. }
  eexists. split; [reflexivity|]. eexists _, _, _. split; [reflexivity|]. split; [reflexivity|]. split; [apply lives_start|]. split.
  - eexists _, _. vm_compute. reflexivity.
  - vm_compute. split; reflexivity.
Qed.

(** Nodes 4 and 5 are only come to from 0, after 1, 2 and 3 have been visited from 1: the
    edges from 0 to those, and the edge from 5 back to 0, are pruned. *)
Example C57_pruned_example : let d0 := [[(1, 5)]; [(2, 3)]; [(1, 1); (3, 3)]; [(0, 0); (2, 2)]; [(2, 3); (5, 5)]; [(0, 0); (3, 4)]] in let succ := map VSimple (seq 0 6) in
  option_map (fun '(u, t) => (u, t_domains t, t_failed t)) (scc_run 7 default_options succ d0 (seq 0 6)) =
  Some ([0; 1; 2; 5; 4]%nat, [[(4, 5)]; [(2, 3)]; [(1, 1); (3, 3)]; [(0, 0)]; [(2, 3); (5, 5)]; [(3, 4)]], false) /\
  option_map (fun '(u, t) => (t_domains t, t_failed t)) (scc_run 7 (mk_scc_options false false false) succ d0 (seq 0 6)) = Some (d0, false).
Proof. vm_compute. split; reflexivity. Qed.
