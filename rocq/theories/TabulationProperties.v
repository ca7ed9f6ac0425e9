(** Properties of constraints that are turned into tables. *)
From Coq Require Import ZArith List Bool Lia.
From Verif Require Import IntervalSet IntervalSetSpec IntervalSetProofs Vars VarsSpec State StateSpec Expressions ExpressionsSpec Epochs Engine EngineSpec
  Tracker SessionSpec ContractSpec Search Reify ReifySpec LinearSpec Solve SolveSpec ConsistencySpec Tabulation TabulationProofs
  Catalogue CatalogueSpec ExampleProblem SolveExample ConstraintExample.
Import ListNotations.
Local Open Scope Z_scope.

(** C48: Plus and Minus have the same solutions at every level of consistency, with or
    without a table, whatever variables the three handles share. *)
Theorem C48_plus_correct : forall d0 l a b r, Forall (var_known d0) [a; b; r] ->
  means d0 (plus l a b r) [a; b; r] (fun s => var_value s a + var_value s b = var_value s r).
Proof. exact plus_means. Qed.
Print Assumptions C48_plus_correct.

Theorem C48_minus_correct : forall d0 l a b r, Forall (var_known d0) [a; b; r] ->
  means d0 (minus l a b r) [a; b; r] (fun s => var_value s a - var_value s b = var_value s r).
Proof. exact minus_means. Qed.
Print Assumptions C48_minus_correct.

(** C48: with the level Tabulated, or Auto and domains that are small enough, there is
    a second propagator. After one run of it every value left belongs to a solution of
    the constraint, and it would find nothing if run again. This is so even if a
    variable is behind several of the handles. Only if there is no solution to begin
    with is there no such propagator; then the constraint fails before the search. *)
Theorem C48_plus_domain_consistent : forall d0 cs l a b r, domains_ok d0 -> Forall (var_known d0) [a; b; r] ->
  l = Tabulated \/ (exists threshold, l = Auto threshold /\ domain_size d0 a * domain_size d0 b * domain_size d0 r <= threshold) ->
  (exists s, within s d0 /\ var_value s a + var_value s b = var_value s r) ->
  let i := plus l a b r d0 cs in exists p q, in_props i = [p; q] /\
  forall D, ConsistencySpec.outcome (length (d0 ++ in_vars i)) (fun d _ => inside (d0 ++ in_vars i) d) q D ->
  domain_consistent D [a; b; r] (fun s => var_value s a + var_value s b = var_value s r) /\ rerun_is_quiet q D.
Proof. exact plus_consistent. Qed.
Print Assumptions C48_plus_domain_consistent.

Theorem C48_minus_domain_consistent : forall d0 cs l a b r, domains_ok d0 -> Forall (var_known d0) [a; b; r] ->
  l = Tabulated \/ (exists threshold, l = Auto threshold /\ domain_size d0 a * domain_size d0 b * domain_size d0 r <= threshold) ->
  (exists s, within s d0 /\ var_value s a - var_value s b = var_value s r) ->
  let i := minus l a b r d0 cs in exists p q, in_props i = [p; q] /\
  forall D, ConsistencySpec.outcome (length (d0 ++ in_vars i)) (fun d _ => inside (d0 ++ in_vars i) d) q D ->
  domain_consistent D [a; b; r] (fun s => var_value s a - var_value s b = var_value s r) /\ rerun_is_quiet q D.
Proof. exact minus_consistent. Qed.
Print Assumptions C48_minus_domain_consistent.

(** x + x = 9 - y, x in 0..4 and y in 0..9: bounds alone allow y in 1..9, the table
    only the odd ones. *)
Example C48_plus_example : let d0 := [[(0, 4)]; [(0, 9)]] in let r := VView 1 true 9 in
  domains_ok d0 /\ Forall (var_known d0) [VSimple 0; VSimple 0; r] /\
  (exists s, within s d0 /\ var_value s (VSimple 0) + var_value s (VSimple 0) = var_value s r) /\
  let i := plus Tabulated (VSimple 0) (VSimple 0) r d0 [] in in_vars i = [[(0, 4)]] /\
  exists p q, in_props i = [p; q] /\
  ConsistencySpec.outcome (length (d0 ++ in_vars i)) (fun d _ => inside (d0 ++ in_vars i) d) q
    [[(0, 4)]; [(1, 1); (3, 3); (5, 5); (7, 7); (9, 9)]; [(0, 4)]].
Proof.
  cbv zeta. split; [|split; [|split]].
  - intros [|[|n]] Hn; simpl in *; try lia; (split; [lia|]); exists 1; apply member_cons; lia.
  - repeat constructor; simpl; lia.
  - exists (fun n => match n with O => 3 | _ => 3 end). split; [intros [|[|n]] Hn; simpl in *; try lia; apply member_cons; lia|reflexivity].
  - split; [reflexivity|]. do 2 eexists. split; [reflexivity|].
    exists (mk_in [[(0, 4)]; [(0, 9)]; [(0, 4)]] [] [] [] [] (fun _ => false)). eexists. split; [|vm_compute; reflexivity].
    split; [|split; [reflexivity|]].
    + intros [|[|[|n]]] Hn; simpl in *; try lia; (split; [lia|]); exists 1; apply member_cons; lia.
    + intros a W. exact W.
Qed.

(** C48: linear equalities and disequalities with the level Tabulated, reified in any
    way, and whatever variables are repeated, or behind the condition as well. *)
Theorem C48_linear_correct : forall d0 s value r, Forall (var_known d0) (map snd s ++ reif_scope r) ->
  means d0 (tabulated_linear s value r) (map snd s ++ reif_scope r) (reif_sat r (fun a => weighted_sum s a = value)).
Proof. exact tabulated_linear_means. Qed.
Print Assumptions C48_linear_correct.

(** C48: their propagator leaves only values that belong to a solution. The condition
    may be about one of the variables of the sum, but not through a view of it. *)
Theorem C48_linear_domain_consistent : forall d0 cs s value r, domains_ok d0 -> Forall (var_known d0) (map snd s ++ reif_scope r) ->
  (forall v n, In v (reif_scope r) -> underlying v = Some n -> v = VSimple n \/ ~ In n (underlying_list (map snd s))) ->
  (exists a, within a d0 /\ reif_sat r (fun a => weighted_sum s a = value) a) ->
  let i := tabulated_linear s value r d0 cs in exists p, in_props i = [p] /\
  forall D, ConsistencySpec.outcome (length (d0 ++ in_vars i)) (fun d _ => inside (d0 ++ in_vars i) d) p D ->
  domain_consistent D (map snd s ++ reif_scope r) (reif_sat r (fun a => weighted_sum s a = value)) /\ rerun_is_quiet p D.
Proof. exact tabulated_linear_consistent. Qed.
Print Assumptions C48_linear_domain_consistent.

Definition ex_reified : posted := LinearTabulated [(2, VSimple 0); (3, VSimple 1)] 7 (RIff (cond_ge (VSimple 2) 1)).

(** 2x + 3y = 7 if and only if z >= 1, with x in 1..2, y in 1..2 and z in 0..1. *)
Example C48_linear_example : let d0 := [[(1, 2)]; [(1, 2)]; [(0, 1)]] in
  domains_ok d0 /\ Forall (var_known d0) (mentions ex_reified) /\
  (forall v n, In v [VSimple 2] -> underlying v = Some n -> v = VSimple n \/ ~ In n (underlying_list [VSimple 0; VSimple 1])) /\
  satisfies (fun n => nth n [2; 1; 1] 0) ex_reified /\ ~ satisfies (fun n => nth n [2; 1; 0] 0) ex_reified /\
  summary (solve ex_never 100 100 1 (plain_callbacks [VSimple 0; VSimple 1; VSimple 2])
    (match problem_of d0 [ex_reified] None with Some pb => pb | None => mk_problem [] [] None end)) =
  Some ([[2; 2; 0; 2]; [2; 1; 1; 3]; [1; 2; 0; 1]; [1; 1; 0; 0]], true).
Proof.
  cbv zeta. split; [|split; [|split; [|split; [|split]]]].
  - intros [|[|[|n]]] Hn; simpl in *; try lia; (split; [lia|]); exists 1; apply member_cons; lia.
  - repeat constructor; simpl; lia.
  - intros v n [<-|[]] [= <-]. now left.
  - vm_compute. split; intro; [reflexivity|discriminate].
  - intros H. assert (X : weighted_sum [(2, VSimple 0); (3, VSimple 1)] (fun n => nth n [2; 1; 0] 0) = 7) by (vm_compute; reflexivity). apply H in X. now vm_compute in X.
  - vm_compute. reflexivity.
Qed.
