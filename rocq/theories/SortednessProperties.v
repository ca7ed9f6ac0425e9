(** Properties of sorting. *)
From Coq Require Import ZArith List Bool Lia.
From Verif Require Import IntervalSet IntervalSetSpec IntervalSetProofs Vars VarsSpec State StateSpec Epochs Engine EngineSpec
  Tracker SessionSpec ContractSpec Search Solve SolveSpec ConsistencySpec SortednessSpec Sortedness SortednessProofs
  Catalogue CatalogueSpec ExampleProblem SolveExample ConstraintExample.
Import ListNotations.
Local Open Scope Z_scope.

(** C59: the constraint accepts exactly the assignments in which the second list is the
    first, sorted, whatever variables they share. *)
Theorem C59_sort_correct : forall d0 xs ys k, domains_ok d0 -> Forall (var_known d0) (xs ++ ys) -> sort xs ys = Some k ->
  correct_on d0 k (xs ++ ys) (sorts xs ys).
Proof. exact sort_correct. Qed.
Print Assumptions C59_sort_correct.

(** C59: the constructor throws exactly if the lists have different lengths. *)
Theorem C59_refused : forall xs ys, sort xs ys = None <-> length xs <> length ys.
Proof. exact sort_refused. Qed.
Print Assumptions C59_refused.

(** C59: the propagator always finds what it needs for the proof: no exception is thrown,
    whatever the bounds. *)
Theorem C59_never_throws : forall xs ys d, sort_inferences xs ys d <> None.
Proof. exact never_throws. Qed.
Print Assumptions C59_never_throws.

(** C59: when there is nothing more to infer, each bound of each handle belongs to values
    between the bounds, of which the second half is the first, sorted. *)
Theorem C59_bounds_consistent : forall d0 xs ys, Forall (var_known d0) (xs ++ ys) -> forall k d, sort xs ys = Some k ->
  domains_ok d -> length d = length d0 -> inside d0 d -> Forall (fun p => rerun_is_quiet p d) (fst (k d0)) ->
  bounds_consistent d (xs ++ ys) (half_sorts_other (length xs)).
Proof. exact sort_quiet. Qed.
Print Assumptions C59_bounds_consistent.

(** C59: one run makes all these inferences. Either it fails, and no values between the
    bounds will do, or for each handle the bound it had, or the one it is now given, belongs
    to values between the bounds that do. *)
Theorem C59_one_run_is_enough : forall xs ys d, domains_ok d -> Forall (var_known d) (xs ++ ys) -> length xs = length ys ->
  exists ls, sort_inferences xs ys d = Some ls /\
  ((ls = [LFalse] /\ forall vs, Forall2 (between_bounds d) (xs ++ ys) vs -> ~ half_sorts_other (length xs) vs) \/
   (forall k v, nth_error (xs ++ ys) k = Some v ->
     (exists vs x, Forall2 (between_bounds d) (xs ++ ys) vs /\ half_sorts_other (length xs) vs /\ nth_error vs k = Some x /\ (x = lower_bound d v \/ In (LCond (cond_ge v x)) ls)) /\
     (exists vs x, Forall2 (between_bounds d) (xs ++ ys) vs /\ half_sorts_other (length xs) vs /\ nth_error vs k = Some x /\ (x = upper_bound d v \/ In (LCond (cond_lt v (x + 1))) ls)))).
Proof. exact sort_one_round. Qed.
Print Assumptions C59_one_run_is_enough.

(** The sorted handles share a variable with the others. *)
Example C59_solutions_example : let p := Sorts [VSimple 0; VSimple 1; VSimple 2] [VConst 1; VSimple 2; VView 1 false 0] in let d0 := [[(0, 3)]; [(1, 3)]; [(0, 2)]] in
  well_posed d0 p /\ exists pb, problem_of d0 [p] None = Some pb /\
  summary (solve ex_never 100 100 1 (plain_callbacks [VSimple 0; VSimple 1; VSimple 2]) pb) = Some ([[1; 3; 2]; [1; 3; 1]; [1; 2; 2]; [1; 2; 1]; [1; 1; 1]], true).
Proof.
  cbv zeta. split; [split; [repeat constructor|split; [constructor|exact Logic.I]]|]. eexists. split; [reflexivity|]. vm_compute. reflexivity.
Qed.

(** Two of the three lie between 3 and 4, so the third, between 1 and 9, is not what the
    sorted list has in the middle: 5 or more is last. *)
Example C59_bounds_example : let xs := [VSimple 0; VSimple 1; VSimple 2] in let ys := [VSimple 3; VSimple 4; VSimple 5] in
  let d := [[(3, 4)]; [(3, 4)]; [(1, 9)]; [(3, 9)]; [(0, 9)]; [(5, 7)]] in let d' := [[(3, 4)]; [(3, 4)]; [(5, 7)]; [(3, 4)]; [(3, 4)]; [(5, 7)]] in
  exists k p, sort xs ys = Some k /\ fst (k d) = [p] /\ ConsistencySpec.outcome 6 (fun _ _ => True) p d' /\ rerun_is_quiet p d'.
Proof.
  cbv zeta. eexists. eexists. split; [reflexivity|]. split; [reflexivity|]. split.
  - exists (mk_in [[(3, 4)]; [(3, 4)]; [(1, 9)]; [(3, 9)]; [(0, 9)]; [(5, 7)]] [] [] [] [] (fun _ => false)). eexists. split; [|vm_compute; reflexivity]. split; [|split; [reflexivity|exact Logic.I]].
    intros [|[|[|[|[|[|n]]]]]] Hn; simpl in *; try lia; (split; [simpl; lia|]); first [exists 4; apply member_cons; lia|exists 5; apply member_cons; lia].
  - intros [d cs m f s w] E. cbn [i_domains] in E. subst d. vm_compute. reflexivity.
Qed.

(** Three values for two positions. *)
Example C59_fails_example : sort_inferences [VSimple 0; VSimple 1; VSimple 2] [VSimple 3; VSimple 4; VSimple 5] [[(3, 4)]; [(3, 4)]; [(3, 4)]; [(3, 9)]; [(0, 9)]; [(5, 7)]] = Some [LFalse].
Proof. vm_compute. reflexivity. Qed.

Example C59_refused_example : sort [VSimple 0] [] = None.
Proof. reflexivity. Qed.
