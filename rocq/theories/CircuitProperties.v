(** Properties of Circuit. *)
From Coq Require Import ZArith List Bool Lia Permutation.
From Verif Require Import IntervalSet IntervalSetSpec IntervalSetProofs Vars VarsSpec State StateSpec Epochs Engine EngineSpec
  Tracker SessionSpec ContractSpec Search Solve SolveSpec Stateful StatefulSpec AllDifferentSpec CircuitSpec Circuit CircuitProofs
  Catalogue CatalogueSpec ExampleProblem SolveExample ConstraintExample.
Import ListNotations.
Local Open Scope Z_scope.

(** C56: a circuit is a list of all nodes in which each node is followed by its successor. *)
Theorem C56_circuit_is_an_order : forall succ a, circuit succ a <-> all_nodes succ a /\ exists order, goes_round succ a order.
Proof. exact circuit_order. Qed.
Print Assumptions C56_circuit_is_an_order.

(** C56: Circuit, with the algorithm that prevents short cycles, has exactly the solutions
    it should, whatever variables the handles share. *)
Theorem C56_prevent_correct : forall d0 succ k, Forall (var_known d0) succ -> circuit_prevent succ = Some k -> means d0 k succ (circuit succ).
Proof. exact circuit_prevent_means. Qed.
Print Assumptions C56_prevent_correct.

(** C56: the constructor only throws for what has no solution. *)
Theorem C56_refused_unsatisfiable : forall succ a, circuit_prevent succ = None -> ~ circuit succ a.
Proof. exact circuit_prevent_refused. Qed.
Print Assumptions C56_refused_unsatisfiable.

(** C56: every run leaves no successor able to take the value of one that is fixed, and
    leaves no way to close a cycle short of all nodes that just one successor would
    complete: an assignment that is left, and gives different successors, has at least
    two successors that are not fixed in every such cycle, apart from those from a node
    to itself. *)
Theorem C56_short_cycles_prevented : forall d0 cs succ k, domains_ok d0 -> Forall (var_known d0) succ -> circuit_prevent succ = Some k ->
  exists ps p s0, in_props (k d0 cs) = ps ++ [p] /\ in_states (k d0 cs) = [s0] /\
  forall i s D evs, lives p (length cs) d0 s0 (i_domains i) s -> nth_error (i_cstates i) (length cs) = Some s ->
    apply_lits (i_domains i) (o_infer (p_run p i)) = (D, evs, false) ->
    no_clash_with_fixed D succ /\
    forall a, within a D -> NoDup (map (var_value a) succ) -> all_nodes succ a -> no_nearly_fixed_cycle D succ a.
Proof. exact circuit_prevents. Qed.
Print Assumptions C56_short_cycles_prevented.

(** Four nodes, one with a view for its successor, and one with a constant: all circuits
    are found. *)
Example C56_solutions_example : let p := CircuitPrevent [VSimple 0; VView 1 true 3; VConst 1; VSimple 2] in let d0 := [[(-5, 9)]; [(0, 3)]; [(0, 5)]] in
  well_posed d0 p /\ exists pb, problem_of d0 [p] None = Some pb /\
  summary (solve ex_never 100 100 1 (plain_callbacks [VSimple 0; VSimple 1; VSimple 2]) pb) = Some ([[3; 3; 2]; [2; 0; 0]], true).
Proof.
  cbv zeta. split; [split; [repeat constructor|split; [constructor|exact Logic.I]]|]. eexists. split; [reflexivity|]. vm_compute. reflexivity.
Qed.

(** Five nodes. After 0 -> 1, and with 1 -> 2 already, node 2 cannot go back to 0; and
    with 3 -> 4 as well, four cannot go to 3, and nothing else to 4. *)
Example C56_prevented_example : let d0 := [[(0, 4)]; [(2, 2)]; [(0, 4)]; [(0, 4)]; [(0, 4)]] in let succ := map VSimple (seq 0 5) in
  domains_ok d0 /\ Forall (var_known d0) succ /\ exists k, circuit_prevent succ = Some k /\
  exists ps p s0, in_props (k d0 []) = ps ++ [p] /\ in_states (k d0 []) = [s0] /\
  let d1 := [[(1, 1)]; [(2, 2)]; [(0, 4)]; [(4, 4)]; [(0, 4)]] in let i := mk_in d1 [s0] [] [] [] (fun _ => false) in
  lives p 0 d0 s0 d1 s0 /\ fst (fst (apply_lits d1 (o_infer (p_run p i)))) = [[(1, 1)]; [(2, 2)]; [(3, 3)]; [(4, 4)]; [(0, 0)]].
Proof.
  cbv zeta. split; [|split; [repeat constructor; simpl; lia|]].
  { intros [|[|[|[|[|k]]]]] Hk; simpl in *; try lia; (split; [lia|]); exists 2; apply member_cons; lia. }
  eexists. split; [reflexivity|]. eexists _, _, _. split; [reflexivity|]. split; [reflexivity|]. split.
  - eapply lives_narrowed; [apply lives_start| |reflexivity|].
    + intros [|[|[|[|[|k]]]]] Hk; simpl in *; try lia; (split; [lia|]); [exists 1|exists 2|exists 2|exists 4|exists 2]; apply member_cons; lia.
    + intros a W n Hn. specialize (W n Hn). destruct n as [|[|[|[|[|n]]]]]; try exact W; destruct W as (l & h & [J|[]] & X); injection J as <- <-; apply member_cons; lia.
  - vm_compute. reflexivity.
Qed.

(** Nodes 0, 1 and 2 in a row, and 3, 4, 5 not fixed: all that is removed is what is
    taken, and the edge from 2 to 0. *)
Example C56_closing_example : let d1 := [[(1, 1)]; [(2, 2)]; [(0, 5)]; [(0, 5)]; [(0, 5)]; [(0, 5)]] in let succ := map VSimple (seq 0 6) in
  exists k, circuit_prevent succ = Some k /\ exists ps p s0, in_props (k d1 []) = ps ++ [p] /\ in_states (k d1 []) = [s0] /\
  let i := mk_in d1 [s0] [] [] [] (fun _ => false) in
  fst (fst (apply_lits d1 (o_infer (p_run p i)))) = [[(1, 1)]; [(2, 2)]; [(3, 5)]; [(0, 0); (3, 5)]; [(0, 0); (3, 5)]; [(0, 0); (3, 5)]].
Proof. cbv zeta. eexists. split; [reflexivity|]. eexists _, _, _. split; [reflexivity|]. split; [reflexivity|]. vm_compute. reflexivity. Qed.
