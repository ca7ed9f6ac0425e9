(** Properties of automata and decision diagrams. *)
From Coq Require Import ZArith List Bool Lia.
From Verif Require Import IntervalSet IntervalSetSpec IntervalSetProofs Vars VarsSpec State StateSpec Epochs Engine EngineSpec
  Tracker SessionSpec ContractSpec Search Solve SolveSpec Stateful StatefulSpec ConsistencySpec Layered LayeredSpec LayeredProofs
  Tabulation Catalogue CatalogueSpec ExampleProblem SolveExample ConstraintExample.
Import ListNotations.
Local Open Scope Z_scope.

(** C51: Regular has exactly the words that the automaton accepts as its solutions,
    for nondeterministic automata too, and whatever variables the handles share. *)
Theorem C51_regular_correct : forall vars ts final d0, Forall (var_known d0) vars ->
  means d0 (regular vars ts final) vars (fun a => accepts (fun q v r => In (q, v, r) ts) final (map (var_value a) vars)).
Proof. exact regular_means. Qed.
Print Assumptions C51_regular_correct.

(** C51: so it does if the automaton is given as a map for each state, or as a table. *)
Theorem C51_regular_maps_correct : forall vars rows final d0, Forall (var_known d0) vars ->
  means d0 (regular_maps vars rows final) vars (fun a => accepts (moves rows) final (map (var_value a) vars)).
Proof. exact regular_maps_means. Qed.
Print Assumptions C51_regular_maps_correct.

Theorem C51_regular_table_correct : forall vars table final d0, Forall (var_known d0) vars ->
  means d0 (regular_table vars table final) vars (fun a => accepts (table_moves table) final (map (var_value a) vars)).
Proof. exact regular_table_means. Qed.
Print Assumptions C51_regular_table_correct.

(** C51: if no variable is behind two handles, then after any run, with whatever graph
    earlier runs left behind, every remaining value occurs in an accepted word of
    remaining values, and another run with the new graph does nothing. *)
Theorem C51_regular_domain_consistent : forall vars ts final d0 (cs : list cstate), domains_ok d0 -> Forall (var_known d0) vars -> NoDup (underlying_list vars) ->
  exists p s0, in_props (regular vars ts final d0 cs) = [p] /\ in_states (regular vars ts final d0 cs) = [s0] /\
  forall i s D evs, lives p (length cs) d0 s0 (i_domains i) s -> nth_error (i_cstates i) (length cs) = Some s -> apply_lits (i_domains i) (o_infer (p_run p i)) = (D, evs, false) ->
    domain_consistent D vars (fun a => accepts (fun q v r => In (q, v, r) ts) final (map (var_value a) vars)) /\
    forall j, i_domains j = D -> nth_error (i_cstates j) (length cs) = nth_error (o_cstates (p_run p i)) (length cs) -> apply_lits D (o_infer (p_run p j)) = (D, [], false).
Proof. exact regular_consistent. Qed.
Print Assumptions C51_regular_domain_consistent.

(** C52: a decision diagram over at least one variable has exactly the words that lead
    from the root to an accepting terminal as its solutions. *)
Theorem C52_mdd_correct : forall vars layers nodes accepting k d0, Forall (var_known d0) vars -> vars <> [] -> mdd vars layers nodes accepting = Some k ->
  means d0 k vars (fun a => diagram_accepts layers accepting (map (var_value a) vars)).
Proof. exact mdd_means. Qed.
Print Assumptions C52_mdd_correct.

(** C52: it is refused exactly if its sizes do not fit. *)
Theorem C52_mdd_sizes : forall vars layers nodes accepting, (exists k, mdd vars layers nodes accepting = Some k) <-> well_sized vars layers nodes.
Proof. exact mdd_sizes. Qed.
Print Assumptions C52_mdd_sizes.

(** C52: as C51, for decision diagrams. *)
Theorem C52_mdd_domain_consistent : forall vars layers nodes accepting k d0 (cs : list cstate), domains_ok d0 -> Forall (var_known d0) vars -> NoDup (underlying_list vars) -> vars <> [] ->
  mdd vars layers nodes accepting = Some k ->
  exists p s0, in_props (k d0 cs) = [p] /\ in_states (k d0 cs) = [s0] /\
  forall i s D evs, lives p (length cs) d0 s0 (i_domains i) s -> nth_error (i_cstates i) (length cs) = Some s -> apply_lits (i_domains i) (o_infer (p_run p i)) = (D, evs, false) ->
    domain_consistent D vars (fun a => diagram_accepts layers accepting (map (var_value a) vars)) /\
    forall j, i_domains j = D -> nth_error (i_cstates j) (length cs) = nth_error (o_cstates (p_run p i)) (length cs) -> apply_lits D (o_infer (p_run p j)) = (D, [], false).
Proof. exact mdd_consistent. Qed.
Print Assumptions C52_mdd_domain_consistent.

(** C52: over no variables, a diagram of which no terminal is accepting accepts
    nothing, but a problem with it has a solution. *)
Theorem C52_mdd_empty_refuted : exists k, mdd [] [] [1%nat] [] = Some k /\ (forall a, ~ diagram_accepts [] [] (map (var_value a) [])) /\
  exists oc, solve ex_never 100 100 1 (plain_callbacks [VSimple 0]) (mk_problem [[(7, 7)]] [k] None) = Some oc /\ reports oc = [[[(7, 7)]]].
Proof.
  eexists. split; [reflexivity|]. split; [intros a (f & _ & [])|]. eexists. split; [vm_compute; reflexivity|]. reflexivity.
Qed.
Print Assumptions C52_mdd_empty_refuted.

(** Words of 0, 1 and 2 in which no 1 follows a 0 at once, and which end in 2, with a
    nondeterministic automaton that guesses the last letter. *)
Definition word_arrows : list arrow := [(0, 0, 1); (0, 1, 0); (0, 2, 0); (1, 0, 1); (1, 2, 0); (0, 2, 2); (1, 2, 2)].

Example C51_regular_example : let d0 := [[(0, 1)]; [(0, 2)]; [(0, 2)]] in let vars := [VSimple 0; VSimple 1; VSimple 2] in
  domains_ok d0 /\ Forall (var_known d0) vars /\ NoDup (underlying_list vars) /\
  option_map (fun pb => summary (solve ex_never 100 100 1 (plain_callbacks vars) pb)) (problem_of d0 [RegularWord vars word_arrows [2]] None) =
  Some (Some ([[1; 2; 2]; [1; 1; 2]; [1; 0; 2]; [0; 2; 2]; [0; 0; 2]], true)).
Proof.
  cbv zeta. split; [|split; [repeat constructor; simpl; lia|split; [|vm_compute; reflexivity]]].
  - intros [|[|[|n]]] Hn; simpl in *; try lia; (split; [simpl; lia|]); exists 0; apply member_cons; lia.
  - repeat (apply NoDup_cons; [simpl; intuition congruence|]). apply NoDup_nil.
Qed.

(** The first run of the propagator, and what it leaves behind. *)
Example C51_regular_run_example : let d0 := [[(0, 0)]; [(0, 2)]; [(0, 2)]] in let vars := [VSimple 0; VSimple 1; VSimple 2] in
  exists p, in_props (regular vars word_arrows [2] d0 []) = [p] /\
  let o := p_run p (mk_in d0 [[0]] [] [] [] (fun _ => false)) in
  apply_lits d0 (o_infer o) = ([[(0, 0)]; [(0, 0); (2, 2)]; [(2, 2)]], [(1%nat, InteriorValuesChanged); (2%nat, BoundsChanged); (2%nat, Instantiated)], false) /\
  o_cstates o = [[1; 0; 0; 0; 1; 1; 1; 0; 1; 1; 1; 2; 0; 2; 1; 2; 2; 2; 0; 2; 2]].
Proof. cbv zeta. eexists. split; [reflexivity|]. split; vm_compute; reflexivity. Qed.

Example C51_table_example : let d0 := [[(0, 2)]; [(0, 2)]] in let vars := [VSimple 0; VSimple 1; VView 0 true 2] in
  Forall (var_known d0) vars /\
  option_map (fun pb => summary (solve ex_never 100 100 1 (plain_callbacks [VSimple 0; VSimple 1]) pb)) (problem_of d0 [RegularTable vars [[1; -1; 0]; [1; 2; 1]; [-1; -1; 2]] [2]] None) =
  Some (Some ([[0; 1]], true)).
Proof. cbv zeta. split; [repeat constructor; simpl; lia|vm_compute; reflexivity]. Qed.

(** Two variables that add up to at most 2, in three layers. *)
Definition sum_layers : list (list (list (Z * Z))) := [[[(0, 0); (1, 1); (2, 2)]]; [[(0, 0); (1, 0); (2, 0)]; [(0, 0); (1, 0); (2, -1)]; [(0, 0)]]].

Example C52_mdd_example : let d0 := [[(0, 5)]; [(1, 5)]] in let vars := [VSimple 0; VSimple 1] in
  domains_ok d0 /\ Forall (var_known d0) vars /\ NoDup (underlying_list vars) /\ well_sized vars sum_layers [1%nat; 3%nat; 1%nat] /\
  option_map (fun pb => summary (solve ex_never 100 100 1 (plain_callbacks vars) pb)) (problem_of d0 [DecisionDiagram vars sum_layers [1%nat; 3%nat; 1%nat] [0]] None) =
  Some (Some ([[1; 1]; [0; 2]; [0; 1]], true)).
Proof.
  cbv zeta. split; [|split; [repeat constructor; simpl; lia|split; [|split; [|vm_compute; reflexivity]]]].
  - intros [|[|n]] Hn; simpl in *; try lia; (split; [simpl; lia|]); exists 1; apply member_cons; lia.
  - repeat (apply NoDup_cons; [simpl; intuition congruence|]). apply NoDup_nil.
  - apply (mdd_sizes _ _ _ [0]). eexists. reflexivity.
Qed.
