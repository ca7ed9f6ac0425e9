(** Properties of global cardinality. *)
From Coq Require Import ZArith List Bool Lia.
From Verif Require Import IntervalSet IntervalSetSpec IntervalSetProofs Vars VarsSpec State StateSpec Epochs Engine EngineSpec
  Tracker SessionSpec ContractSpec Search Solve SolveSpec ConsistencySpec GlobalCardinalitySpec GlobalCardinality GlobalCardinalityProofs
  Catalogue CatalogueSpec ExampleProblem SolveExample ConstraintExample.
Import ListNotations.
Local Open Scope Z_scope.

(** C55: global cardinality has exactly the solutions it should, closed or not, with
    variables or constants for the counts, and whatever variables the handles share, if the
    values in the cover differ. *)
Theorem C55_global_cardinality_correct : forall d0 closed vars values counts, NoDup values -> length values = length counts -> Forall (var_known d0) (vars ++ counts) ->
  correct_on d0 (global_cardinality closed vars values counts) (vars ++ counts) (cardinalities closed vars values counts).
Proof. exact gcc_correct. Qed.
Print Assumptions C55_global_cardinality_correct.

(** C55: when the propagator of the counts infers nothing more, Hall's conditions hold for
    the values in every interval. *)
Theorem C55_every_interval_balanced : forall d0 closed vars values counts, NoDup values -> length values = length counts -> Forall (var_known d0) (vars ++ counts) ->
  exists ps p, fst (global_cardinality closed vars values counts d0) = ps ++ [p] /\
  forall d, domains_ok d -> length d = length d0 -> rerun_is_quiet p d ->
  forall lo hi, in_balance d vars (filter (fun e => (lo <=? fst e) && (fst e <=? hi)) (combine values counts)).
Proof. exact gcc_balanced. Qed.
Print Assumptions C55_every_interval_balanced.

(** C55: after the propagator of a closed cover, only values in the cover are left. *)
Theorem C55_only_cover_left : forall d0 vars values counts, length values = length counts -> Forall (var_known d0) (vars ++ counts) ->
  exists p ps, fst (global_cardinality true vars values counts d0) = p :: ps /\
  forall Inv d, ConsistencySpec.outcome (length d0) Inv p d -> Forall (takes_only d values) vars.
Proof. exact gcc_closed. Qed.
Print Assumptions C55_only_cover_left.

(** C55: if a value is listed twice then solutions are lost. The value one is taken once,
    and both counts say so, but the solver finds no solution. *)
Theorem C55_repeated_values_refuted : exists d0 p pb a, problem_of d0 [p] None = Some pb /\
  summary (solve ex_never 100 100 1 (plain_callbacks [VSimple 0]) pb) = Some ([], true) /\ solves d0 [p] a.
Proof.
  exists [[(0, 2)]], (Cardinality false [VSimple 0] [1; 1] [VConst 1; VConst 1]). eexists. exists (fun _ => 1).
  split; [reflexivity|]. split; [vm_compute; reflexivity|]. split.
  - intros n Hn. destruct n as [|n]; simpl in *; [apply member_cons; lia|lia].
  - constructor; [|constructor]. split; [repeat constructor|discriminate].
Qed.
Print Assumptions C55_repeated_values_refuted.

(** Three variables over a closed cover, each value being taken once: all solutions are
    found. *)
Example C55_solutions_example : let p := Cardinality true [VSimple 0; VSimple 1; VSimple 2] [3; 1; 2] [VSimple 3; VConst 1; VConst 1] in
  let d0 := [[(1, 3)]; [(1, 2)]; [(2, 4)]; [(0, 3)]] in well_posed d0 p /\
  exists pb, problem_of d0 [p] None = Some pb /\
  summary (solve ex_never 100 100 1 (plain_callbacks [VSimple 0; VSimple 1; VSimple 2; VSimple 3]) pb) = Some ([[3; 1; 2; 1]; [2; 1; 3; 1]; [1; 2; 3; 1]], true).
Proof.
  cbv zeta. split.
  - split; [repeat constructor|]. split; [constructor|]. split; [|reflexivity]. repeat (apply NoDup_cons; [simpl; lia|]). apply NoDup_nil.
  - eexists. split; [reflexivity|]. vm_compute. reflexivity.
Qed.

(** Two of three variables need the values 1 and 2, each of which may be taken once. The
    third loses both, and then there is nothing left to infer. *)
Example C55_balance_example : let d0 := [[(1, 2)]; [(1, 2)]; [(1, 4)]; [(0, 1)]] in
  exists p, fst (global_cardinality false [VSimple 0; VSimple 1; VSimple 2] [2; 1] [VSimple 3; VConst 1] d0) = [p] /\
  ConsistencySpec.outcome 4 (fun _ _ => True) p [[(1, 2)]; [(1, 2)]; [(3, 4)]; [(1, 1)]] /\ rerun_is_quiet p [[(1, 2)]; [(1, 2)]; [(3, 4)]; [(1, 1)]].
Proof.
  cbv zeta. eexists. split; [reflexivity|]. split.
  - exists (mk_in [[(1, 2)]; [(1, 2)]; [(1, 4)]; [(0, 1)]] [] [] [] [] (fun _ => false)). eexists. split; [|vm_compute; reflexivity]. split; [|split; [reflexivity|exact Logic.I]].
    intros [|[|[|[|n]]]] Hn; simpl in *; try lia; (split; [simpl; lia|]); exists 1; apply member_cons; lia.
  - intros [d cs m f s w] E. cbn [i_domains] in E. subst d. vm_compute. reflexivity.
Qed.

(** A closed cover of 4, 1, and 2. *)
Example C55_closed_example : let d0 := [[(1, 9)]; [(0, 1); (5, 7)]; [(0, 3)]] in
  exists p ps, fst (global_cardinality true [VSimple 0; VSimple 1] [4; 1; 2] [VSimple 2; VConst 1; VConst 0] d0) = p :: ps /\
  ConsistencySpec.outcome 3 (fun _ _ => True) p [[(1, 2); (4, 4)]; [(1, 1)]; [(0, 3)]].
Proof.
  cbv zeta. do 2 eexists. split; [reflexivity|]. exists (mk_in [[(1, 9)]; [(0, 1); (5, 7)]; [(0, 3)]] [] [] [] [] (fun _ => false)). eexists. split; [|vm_compute; reflexivity]. split; [|split; [reflexivity|exact Logic.I]].
  intros [|[|[|n]]] Hn; simpl in *; try lia; (split; [simpl; lia|]); exists 1; apply member_cons; lia.
Qed.
