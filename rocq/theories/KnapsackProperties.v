(** Properties of multi-dimensional knapsacks. *)
From Coq Require Import ZArith List Bool Lia.
From Verif Require Import IntervalSet IntervalSetSpec IntervalSetProofs Vars VarsSpec State StateSpec Epochs Engine EngineSpec
  Tracker SessionSpec ContractSpec Search Solve SolveSpec ConsistencySpec AllDifferentSpec KnapsackSpec Knapsack KnapsackProofs
  Catalogue CatalogueSpec ExampleProblem SolveExample ConstraintExample.
Import ListNotations.
Local Open Scope Z_scope.

(** C62: with either strategy the constraint accepts exactly the assignments in which each
    total is the sum of the items times their coefficients, whatever variables the items and
    the totals share, if none of them can be negative. *)
Theorem C62_knapsack_correct : forall d0 s rows items totals, domains_ok d0 -> Forall (var_known d0) (items ++ totals) -> none_negative d0 (items ++ totals) ->
  forall k, knapsack s rows items totals = Some k -> correct_on d0 k (items ++ totals) (adds_up rows items totals).
Proof. exact knapsack_correct. Qed.
Print Assumptions C62_knapsack_correct.

(** C62: it is turned down exactly if there is no row, or not as many rows as totals, or
    they differ in length, or a coefficient is negative, or the items do not have a
    coefficient each; the other strategy also turns it down if there are too many. *)
Theorem C62_refused : forall s rows items totals, knapsack s rows items totals = None <->
  ~ exists width, well_filled width rows totals /\ match s with PerCall => (length items <= width)%nat | Upfront => width = length items end.
Proof. exact knapsack_none. Qed.
Print Assumptions C62_refused.

(** C62: after a single run that does not fail, each value that an item or a total still has
    belongs to a solution. *)
Theorem C62_domain_consistent : forall d0 s rows items totals k p, domains_ok d0 -> Forall (var_known d0) (items ++ totals) ->
  none_negative d0 (items ++ totals) -> NoDup (underlying_list (items ++ totals)) -> knapsack s rows items totals = Some k -> fst (k d0) = [p] ->
  forall d, ConsistencySpec.outcome (length d0) (fun d _ => inside d0 d) p d -> domain_consistent d (items ++ totals) (adds_up rows items totals).
Proof. exact knapsack_consistent. Qed.
Print Assumptions C62_domain_consistent.

(** C62: and a run fails exactly if there is no solution. *)
Theorem C62_fails_exactly : forall d0 s rows items totals k p i d evs failed, domains_ok d0 -> Forall (var_known d0) (items ++ totals) ->
  none_negative d0 (items ++ totals) -> NoDup (underlying_list (items ++ totals)) -> knapsack s rows items totals = Some k -> fst (k d0) = [p] ->
  usable (length d0) (fun d _ => inside d0 d) i -> apply_lits (i_domains i) (o_infer (p_run p i)) = (d, evs, failed) ->
  (failed = true <-> forall a, within a (i_domains i) -> ~ adds_up rows items totals a).
Proof. exact knapsack_fails. Qed.
Print Assumptions C62_fails_exactly.

(** C62: on the same domains both strategies fail, or both leave each item and each total
    the same values. *)
Theorem C62_strategies_agree : forall d0 rows items totals k1 k2 p1 p2 i1 i2 D1 D2 evs1 evs2 f1 f2, domains_ok d0 -> Forall (var_known d0) (items ++ totals) ->
  none_negative d0 (items ++ totals) -> NoDup (underlying_list (items ++ totals)) ->
  knapsack PerCall rows items totals = Some k1 -> knapsack Upfront rows items totals = Some k2 -> fst (k1 d0) = [p1] -> fst (k2 d0) = [p2] ->
  usable (length d0) (fun d _ => inside d0 d) i1 -> usable (length d0) (fun d _ => inside d0 d) i2 -> i_domains i1 = i_domains i2 ->
  apply_lits (i_domains i1) (o_infer (p_run p1 i1)) = (D1, evs1, f1) -> apply_lits (i_domains i2) (o_infer (p_run p2 i2)) = (D2, evs2, f2) ->
  f1 = f2 /\ (f1 = false -> forall v x, In v (items ++ totals) -> (exists a, within a D1 /\ var_value a v = x) <-> (exists a, within a D2 /\ var_value a v = x)).
Proof. exact knapsack_alike. Qed.
Print Assumptions C62_strategies_agree.

(** C62: the strategies do not accept the same problems: with more coefficients than items
    one of them ignores the rest and the other throws. *)
Theorem C62_accept_alike_refuted : exists rows items totals, knapsack Upfront rows items totals = None /\ knapsack PerCall rows items totals <> None.
Proof. exact strategies_differ. Qed.
Print Assumptions C62_accept_alike_refuted.

(** An item that is also a total, and a view. *)
Example C62_solutions_example : forall s, let p := KnapsackOf s [[2; 3; 1]; [1; 0; 4]] [VSimple 0; VSimple 1; VView 2 true 3] [VSimple 3; VSimple 0] in let d0 := [[(0, 4)]; [(0, 2)]; [(2, 3)]; [(0, 9)]] in
  well_posed d0 p /\ exists pb, problem_of d0 [p] None = Some pb /\
  summary (solve ex_never 100 100 1 (plain_callbacks [VSimple 0; VSimple 1; VSimple 2; VSimple 3]) pb) = Some ([[4; 0; 3; 8]; [3; 1; 3; 9]; [3; 0; 3; 6]; [2; 1; 3; 7]; [2; 0; 3; 4]; [1; 2; 3; 8]; [1; 1; 3; 5]; [1; 0; 3; 2]; [0; 2; 3; 6]; [0; 1; 3; 3]; [0; 0; 3; 0]], true).
Proof.
  intros s. cbv zeta. split.
  - split; [repeat constructor|]. split; [constructor|]. split; [|repeat (constructor; [vm_compute; discriminate|]); constructor].
    exists 3%nat. split; [|destruct s; [simpl; lia|reflexivity]]. split; [discriminate|]. split; [reflexivity|]. repeat (constructor; [split; [reflexivity|repeat (constructor; [lia|]); constructor]|]). constructor.
  - destruct s; eexists; (split; [reflexivity|]); vm_compute; reflexivity.
Qed.

(** With coefficients 4, 6 and 9 there is one way to a total of 14, one to 15 and none to
    11. *)
Example C62_prunes_example : forall s, let items := [VSimple 0; VSimple 1; VSimple 2] in let totals := [VSimple 3] in
  let d := [[(0, 3)]; [(0, 2)]; [(0, 1)]; [(11, 11); (14, 15)]] in let d' := [[(0, 0); (2, 2)]; [(1, 1)]; [(0, 1)]; [(14, 15)]] in
  exists k p, knapsack s [[4; 6; 9]] items totals = Some k /\ fst (k d) = [p] /\ ConsistencySpec.outcome 4 (fun d1 _ => inside d d1) p d'.
Proof.
  intros s. cbv zeta. destruct s; eexists; eexists; (split; [reflexivity|]); (split; [reflexivity|]).
  all: exists (mk_in [[(0, 3)]; [(0, 2)]; [(0, 1)]; [(11, 11); (14, 15)]] [] [] [] [] (fun _ => false)); eexists; (split; [|vm_compute; reflexivity]).
  all: split; [|split; [reflexivity|intros a Wa; exact Wa]].
  all: intros [|[|[|[|n]]]] Hn; simpl in *; try lia; (split; [simpl; lia|]); first [exists 0; apply member_cons; lia|exists 11; apply member_cons; lia].
Qed.

(** 5 cannot be had from 4, 6 and 9. *)
Example C62_fails_example : forall s, exists k p, knapsack s [[4; 6; 9]] [VSimple 0; VSimple 1; VSimple 2] [VConst 5] = Some k /\ fst (k [[(0, 3)]; [(0, 2)]; [(0, 1)]]) = [p] /\
  snd (apply_lits [[(0, 3)]; [(0, 2)]; [(0, 1)]] (o_infer (p_run p (mk_in [[(0, 3)]; [(0, 2)]; [(0, 1)]] [] [] [] [] (fun _ => false))))) = true.
Proof. intros s. destruct s; eexists; eexists; (split; [reflexivity|]); (split; [reflexivity|]); vm_compute; reflexivity. Qed.

Example C62_refused_example : forall s, knapsack s [] [] [] = None /\ knapsack s [[1; 2]] [VSimple 0; VSimple 1; VSimple 2] [VSimple 3] = None /\
  knapsack s [[1; -2]] [VSimple 0; VSimple 1] [VSimple 3] = None /\ knapsack s [[1; 2]; [1]] [VSimple 0] [VSimple 3; VSimple 3] = None.
Proof. intros s. destruct s; repeat split. Qed.
