(** Properties of powers. *)
From Coq Require Import ZArith List Bool Lia.
From Verif Require Import Integer IntervalSet IntervalSetSpec IntervalSetProofs Vars VarsSpec State StateSpec Epochs Engine EngineSpec
  Tracker SessionSpec ContractSpec Search Solve SolveSpec ConsistencySpec Tabulation Multiply PowerSpec Power PowerProofs
  Catalogue CatalogueSpec ExampleProblem SolveExample ConstraintExample.
Import ListNotations.
Local Open Scope Z_scope.

(** C54: the checked power of an integer is its power, if that can be represented, and
    nothing if it cannot or does not exist. No intermediate result overflows unless the
    power itself does. *)
Theorem C54_checked_power_exact : forall x k z, representable x -> (checked_power x k = Some z <-> raises x k z /\ representable z).
Proof. exact checked_power_exact. Qed.
Print Assumptions C54_checked_power_exact.

(** C54: Power has exactly the solutions it should, at every level of consistency, with
    any exponents, constant or not, negative, zero or large, and whatever variables the
    handles share, provided that a linear equality does not lose all its variables. *)
Theorem C54_power_correct_partial : forall d0 l base exponent result, Forall (var_known d0) [base; exponent; result] -> within_range d0 base result -> ~ cancels base exponent result ->
  means d0 (power l base exponent result) [base; exponent; result] (fun a => raises (var_value a base) (var_value a exponent) (var_value a result)).
Proof. exact power_means. Qed.
Print Assumptions C54_power_correct_partial.

(** C54: with a constant exponent and the level Tabulated, or Auto and domains that are
    small enough, the last propagator leaves only values that belong to a solution. *)
Theorem C54_domain_consistent : forall d0 cs l base k result, domains_ok d0 -> Forall (var_known d0) [base; result] -> within_range d0 base result -> ~ cancels base (VConst k) result -> underlying base <> None ->
  l = Tabulated \/ (exists threshold, l = Auto threshold /\ domain_size d0 base * domain_size d0 result <= threshold) ->
  (exists s, within s d0 /\ raises (var_value s base) k (var_value s result)) ->
  let i := power l base (VConst k) result d0 cs in exists p t, in_props i = [p; t] /\
  forall D, ConsistencySpec.outcome (length (d0 ++ in_vars i)) (fun d _ => inside (d0 ++ in_vars i) d) t D ->
  domain_consistent D [base; result] (fun s => raises (var_value s base) k (var_value s result)) /\ rerun_is_quiet t D.
Proof. exact power_tabulated. Qed.
Print Assumptions C54_domain_consistent.

(** C54: with a variable exponent it is always domain consistent. *)
Theorem C54_variable_exponent_domain_consistent : forall d0 cs l base exponent result, domains_ok d0 -> Forall (var_known d0) [base; exponent; result] -> within_range d0 base result ->
  NoDup (underlying_list [base; exponent; result]) -> underlying exponent <> None ->
  forall p, in_props (power l base exponent result d0 cs) = [p] ->
  forall D, ConsistencySpec.outcome (S (length d0)) (fun d _ => inside (d0 ++ in_vars (power l base exponent result d0 cs)) d) p D ->
  domain_consistent D [base; exponent; result] (fun s => raises (var_value s base) (var_value s exponent) (var_value s result)) /\ rerun_is_quiet p D.
Proof. exact power_table_consistent. Qed.
Print Assumptions C54_variable_exponent_domain_consistent.

(** C54: running the first propagator twice in a row does no more than running it once. *)
Theorem C54_power_rests : forall d0 cs l base k result, domains_ok d0 -> Forall (var_known d0) [base; result] -> within_range d0 base result -> ~ cancels base (VConst k) result -> underlying base <> None ->
  exists p ps, in_props (power l base (VConst k) result d0 cs) = p :: ps /\
  forall nv Inv D, (length (d0 ++ in_vars (power l base (VConst k) result d0 cs)) <= nv)%nat -> ConsistencySpec.outcome nv Inv p D -> rerun_is_quiet p D.
Proof. exact power_rests. Qed.
Print Assumptions C54_power_rests.

(** C54: without that proviso the claim is false. Two to the third is seven, according to
    the solver, and there is an x in 0..2 with x to the first being x + 1: what is left of
    the equality is zero = one, of which only zero <= one is checked. *)
Theorem C54_cancelled_refuted : exists d0 p q, 
  (exists pb, problem_of d0 [p] None = Some pb /\ summary (solve ex_never 100 100 1 (plain_callbacks [VSimple 0]) pb) = Some ([[2]; [1]; [0]], true) /\ forall a, ~ satisfies a p) /\
  (exists pb, problem_of d0 [q] None = Some pb /\ summary (solve ex_never 100 100 1 (plain_callbacks [VSimple 0]) pb) = Some ([[2]; [1]; [0]], true) /\ forall a, ~ satisfies a q).
Proof.
  exists [[(0, 2)]], (Raised BC (VConst 2) (VConst 3) (VConst 7)), (Raised BC (VSimple 0) (VConst 1) (VView 0 false 1)).
  split; eexists; (split; [reflexivity|split; [vm_compute; reflexivity|]]); intros a [[_ H]|[H _]]; cbn [var_value] in H; try lia; rewrite Z.pow_1_r in H; lia.
Qed.
Print Assumptions C54_cancelled_refuted.

(** C54: nor can the result be the least integer of all. Minus two to the sixty-third is
    that number, and can be computed, yet the constraint has no solution. *)
Theorem C54_least_integer_refuted : exists d0 p pb, raises (-2) 63 int64_min /\ checked_power (-2) 63 = Some int64_min /\
  p = Raised BC (VSimple 0) (VConst 63) (VSimple 1) /\ (exists a, solves d0 [p] a /\ var_value a (VSimple 1) = int64_min) /\
  problem_of d0 [p] None = Some pb /\ summary (solve ex_never 100 100 1 (plain_callbacks [VSimple 0; VSimple 1]) pb) = Some ([], true).
Proof.
  exists [[(-2, -2)]; [(int64_min, int64_min)]]. eexists. eexists. split; [left; split; [lia|reflexivity]|]. split; [vm_compute; reflexivity|]. split; [reflexivity|]. split.
  - exists (fun n => match n with O => -2 | _ => int64_min end). split; [|reflexivity]. split; [intros [|[|n]] Hn; simpl in *; try lia; apply member_cons; lia|].
    constructor; [|constructor]. left. split; [simpl; lia|reflexivity].
  - split; [reflexivity|]. vm_compute. reflexivity.
Qed.
Print Assumptions C54_least_integer_refuted.

Example C54_checked_examples : checked_power 3 39 = Some 4052555153018976267 /\ checked_power 3 40 = None /\ checked_power (-2) 63 = Some int64_min /\ checked_power 2 63 = None /\
  checked_power (-1) (-7) = Some (-1) /\ checked_power 5 (-2) = Some 0 /\ checked_power 0 (-1) = None /\ checked_power 0 0 = Some 1.
Proof. repeat (apply conj; [vm_compute; reflexivity|]). vm_compute; reflexivity. Qed.

(** x cubed is y, x in 0..9 and y in 10..200: the bounds of x and of the variable for the
    square of x follow. *)
Example C54_bounds_example : let d0 := [[(0, 9)]; [(10, 200)]] in
  domains_ok d0 /\ Forall (var_known d0) [VSimple 0; VConst 3; VSimple 1] /\ within_range d0 (VSimple 0) (VSimple 1) /\ ~ cancels (VSimple 0) (VConst 3) (VSimple 1) /\
  exists p, in_props (power BC (VSimple 0) (VConst 3) (VSimple 1) d0 []) = [p] /\
  ConsistencySpec.outcome 3 (fun _ _ => True) p [[(2, 9)]; [(10, 200)]; [(4, 81)]].
Proof.
  cbv zeta. split; [|split; [repeat constructor; simpl; lia|split; [|split]]].
  - intros [|[|n]] Hn; simpl in *; try lia; (split; [simpl; lia|]); [exists 0|exists 10]; apply member_cons; lia.
  - unfold within_range, representable. vm_compute. repeat split; discriminate.
  - intros [[H _]|[H _]]; discriminate.
  - eexists. split; [reflexivity|]. exists (mk_in [[(0, 9)]; [(10, 200)]; [(0, 81)]] [] [] [] [] (fun _ => false)). eexists. split; [|vm_compute; reflexivity]. split; [|split; [reflexivity|exact Logic.I]].
    intros [|[|[|n]]] Hn; simpl in *; try lia; (split; [simpl; lia|]); [exists 0|exists 10|exists 0]; apply member_cons; lia.
Qed.

(** x to the minus third, x in -3..9: zero is removed. *)
Example C54_negative_example : let d0 := [[(-3, 9)]; [(-5, 200)]] in
  ~ cancels (VSimple 0) (VConst (-3)) (VSimple 1) /\
  exists p, in_props (power BC (VSimple 0) (VConst (-3)) (VSimple 1) d0 []) = [p] /\
  ConsistencySpec.outcome 2 (fun _ _ => True) p [[(-3, -1); (1, 9)]; [(-5, 200)]].
Proof.
  cbv zeta. split.
  - intros [[H _]|[H _]]; discriminate.
  - eexists. split; [reflexivity|]. exists (mk_in [[(-3, 9)]; [(-5, 200)]] [] [] [] [] (fun _ => false)). eexists. split; [|vm_compute; reflexivity]. split; [|split; [reflexivity|exact Logic.I]].
    intros [|[|n]] Hn; simpl in *; try lia; (split; [simpl; lia|]); exists 1; apply member_cons; lia.
Qed.

(** A table for the square of x, x in -3..4. *)
Example C54_table_example : let d0 := [[(-3, 4)]; [(0, 20)]] in
  domains_ok d0 /\ Forall (var_known d0) [VSimple 0; VSimple 1] /\ within_range d0 (VSimple 0) (VSimple 1) /\ ~ cancels (VSimple 0) (VConst 2) (VSimple 1) /\
  domain_size d0 (VSimple 0) * domain_size d0 (VSimple 1) <= 1000 /\ (exists s, within s d0 /\ raises (var_value s (VSimple 0)) 2 (var_value s (VSimple 1))) /\
  let i := power (Auto 1000) (VSimple 0) (VConst 2) (VSimple 1) d0 [] in exists p t, in_props i = [p; t] /\
  ConsistencySpec.outcome (length (d0 ++ in_vars i)) (fun d _ => inside (d0 ++ in_vars i) d) t [[(-3, 4)]; [(0, 1); (4, 4); (9, 9); (16, 16)]; [(0, 7)]].
Proof.
  cbv zeta. split; [|split; [repeat constructor; simpl; lia|split; [|split; [|split; [vm_compute; discriminate|split]]]]].
  - intros [|[|n]] Hn; simpl in *; try lia; (split; [simpl; lia|]); exists 0; apply member_cons; lia.
  - unfold within_range, representable. vm_compute. repeat split; discriminate.
  - intros [[H _]|[H _]]; discriminate.
  - exists (fun n => match n with O => 2 | _ => 4 end). split; [intros [|[|n]] Hn; simpl in *; try lia; apply member_cons; lia|left; split; [lia|reflexivity]].
  - do 2 eexists. split; [reflexivity|]. exists (mk_in [[(-3, 4)]; [(0, 20)]; [(0, 7)]] [] [] [] [] (fun _ => false)). eexists. split; [|vm_compute; reflexivity].
    split; [|split; [reflexivity|]].
    + intros [|[|[|n]]] Hn; simpl in *; try lia; (split; [simpl; lia|]); exists 0; apply member_cons; lia.
    + intros a W. exact W.
Qed.

(** A variable exponent: x in -3..4, k in -2..4 and z in 0..20. *)
Example C54_variable_exponent_example : let d0 := [[(-3, 4)]; [(-2, 4)]; [(0, 20)]] in let i := power BC (VSimple 0) (VSimple 1) (VSimple 2) d0 [] in
  domains_ok d0 /\ Forall (var_known d0) [VSimple 0; VSimple 1; VSimple 2] /\ within_range d0 (VSimple 0) (VSimple 2) /\ NoDup (underlying_list [VSimple 0; VSimple 1; VSimple 2]) /\
  exists p, in_props i = [p] /\
  ConsistencySpec.outcome (S (length d0)) (fun d _ => inside (d0 ++ in_vars i) d) p [[(-3, 4)]; [(-2, 4)]; [(0, 4); (8, 9); (16, 16)]; [(0, 41)]].
Proof.
  cbv zeta. split; [|split; [repeat constructor; simpl; lia|split; [|split]]].
  - intros [|[|[|n]]] Hn; simpl in *; try lia; (split; [simpl; lia|]); exists 0; apply member_cons; lia.
  - unfold within_range, representable. vm_compute. repeat split; discriminate.
  - repeat (apply NoDup_cons; [simpl; intuition congruence|]). apply NoDup_nil.
  - eexists. split; [reflexivity|]. exists (mk_in [[(-3, 4)]; [(-2, 4)]; [(0, 20)]; [(0, 41)]] [] [] [] [] (fun _ => false)). eexists. split; [|vm_compute; reflexivity].
    split; [|split; [reflexivity|]].
    + intros [|[|[|[|n]]]] Hn; simpl in *; try lia; (split; [simpl; lia|]); exists 0; apply member_cons; lia.
    + intros a W. exact W.
Qed.

(** The whole solver on x to the k with a variable exponent, and on the fourth power of x; the
    last three values are those of variables that the constraints create. *)
Example C54_example : let d0 := [[(-2, 2)]; [(-1, 2)]; [(-9, 3)]; [(1, 20)]] in
  option_map (fun pb => summary (solve ex_never 100 100 1 (plain_callbacks [VSimple 0; VSimple 1; VSimple 2; VSimple 3]) pb))
    (problem_of d0 [Raised BC (VSimple 0) (VSimple 1) (VSimple 2); Raised BC (VSimple 0) (VConst 4) (VSimple 3); Compare NotEqual (VSimple 1) (VSimple 0); Compare Less (VSimple 2) (VSimple 1)] None) =
  Some (Some ([[1; 2; 1; 1; 13; 1; 1]; [-1; 2; 1; 1; 6; 1; -1]; [-1; 1; -1; 1; 5; 1; -1]; [-2; 1; -2; 16; 2; 4; -8]], true)).
Proof. vm_compute. reflexivity. Qed.
