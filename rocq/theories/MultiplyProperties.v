(** Properties of products of two variables. *)
From Coq Require Import ZArith List Bool Lia.
From Verif Require Import IntervalSet IntervalSetSpec IntervalSetProofs Vars VarsSpec State StateSpec Epochs Engine EngineSpec
  Tracker SessionSpec ContractSpec Search Solve SolveSpec ConsistencySpec Tabulation ProductBounds ProductSpec ProductBoundsProofs Multiply MultiplyProofs
  Catalogue CatalogueSpec ExampleProblem SolveExample ConstraintExample.
Import ListNotations.
Local Open Scope Z_scope.

(** C49: Multiply has exactly the solutions it should, at every level of consistency,
    with constants or without, and whatever variables the three handles share. *)
Theorem C49_multiply_correct : forall d0 l x y z, Forall (var_known d0) [x; y; z] ->
  means d0 (multiply l x y z) [x; y; z] (fun a => var_value a x * var_value a y = var_value a z).
Proof. exact multiply_means. Qed.
Print Assumptions C49_multiply_correct.

(** C49: with the level Tabulated, or Auto and domains that are small enough, the last
    propagator leaves only values that belong to a solution, even if a variable is
    behind several of the handles. *)
Theorem C49_multiply_domain_consistent : forall d0 cs l x y z, domains_ok d0 -> Forall (var_known d0) [x; y; z] ->
  l = Tabulated \/ (exists threshold, l = Auto threshold /\ domain_size d0 x * domain_size d0 y * domain_size d0 z <= threshold) ->
  (exists s, within s d0 /\ var_value s x * var_value s y = var_value s z) ->
  let i := multiply l x y z d0 cs in exists ps q, in_props i = ps ++ [q] /\
  forall D, ConsistencySpec.outcome (length (d0 ++ in_vars i)) (fun d _ => inside (d0 ++ in_vars i) d) q D ->
  domain_consistent D [x; y; z] (fun s => var_value s x * var_value s y = var_value s z) /\ rerun_is_quiet q D.
Proof. exact multiply_tabulated. Qed.
Print Assumptions C49_multiply_domain_consistent.

(** C49: without a table, after one run the bounds of the result are within what the
    bounds of the operands allow. A bound of an operand has a partner between the
    bounds of the other, counting fractions, except if the other may be of either sign
    while the result cannot be zero. *)
Theorem C49_multiply_bounds : forall d0 x y z, Forall (var_known d0) [x; y; z] -> x <> y ->
  exists p, fst (multiply_bc x y z d0) = [p] /\
  forall nv Inv D, (length d0 <= nv)%nat -> ConsistencySpec.outcome nv Inv p D -> rerun_is_quiet p D /\
  let xl := lower_bound D x in let xu := upper_bound D x in let yl := lower_bound D y in let yu := upper_bound D y in let zl := lower_bound D z in let zu := upper_bound D z in
  (Z.min (Z.min (xl * yl) (xl * yu)) (Z.min (xu * yl) (xu * yu)) <= zl /\ zu <= Z.max (Z.max (xl * yl) (xl * yu)) (Z.max (xu * yl) (xu * yu))) /\
  (forall b, b = xl \/ b = xu -> (yl < 0 < yu /\ (zu < 0 \/ 0 < zl)) \/ reaches b yl yu zl zu) /\
  (forall b, b = yl \/ b = yu -> (xl < 0 < xu /\ (zu < 0 \/ 0 < zl)) \/ reaches b xl xu zl zu).
Proof. exact multiply_reaches. Qed.
Print Assumptions C49_multiply_bounds.

(** C49: for a square the bounds of the operand are exact, and so is the upper bound of
    the result; the lower bound is if the operand cannot be zero. *)
Theorem C49_square_bounds : forall d0 x z, Forall (var_known d0) [x; z] ->
  exists p, fst (multiply_bc x x z d0) = [p] /\
  forall nv Inv D, (length d0 <= nv)%nat -> ConsistencySpec.outcome nv Inv p D -> rerun_is_quiet p D /\
  let xl := lower_bound D x in let xu := upper_bound D x in let zl := lower_bound D z in let zu := upper_bound D z in
  zl <= xl * xl <= zu /\ zl <= xu * xu <= zu /\ zu = Z.max (xl * xl) (xu * xu) /\ 0 <= zl /\ (0 < xl \/ xu < 0 -> zl = Z.min (xl * xl) (xu * xu)).
Proof. exact square_reaches. Qed.
Print Assumptions C49_square_bounds.

(** C49: the exception is real. With x in -1..4, y in -1..3 and z in 5..10 nothing is
    removed, though -1 times nothing in -1..3 is at least 5. *)
Theorem C49_multiply_bounds_consistent_refuted : exists d0 p D, domains_ok d0 /\ fst (multiply_bc (VSimple 0) (VSimple 1) (VSimple 2) d0) = [p] /\
  ConsistencySpec.outcome (length d0) (fun d _ => inside d0 d) p D /\
  ~ reaches (lower_bound D (VSimple 0)) (lower_bound D (VSimple 1)) (upper_bound D (VSimple 1)) (lower_bound D (VSimple 2)) (upper_bound D (VSimple 2)).
Proof.
  exists [[(-1, 4)]; [(-1, 3)]; [(5, 10)]]. eexists. exists [[(-1, 4)]; [(-1, 3)]; [(5, 10)]]. split; [|split; [reflexivity|split]].
  - intros [|[|[|n]]] Hn; simpl in *; try lia; (split; [simpl; lia|]); [exists 0|exists 0|exists 6]; apply member_cons; lia.
  - exists (mk_in [[(-1, 4)]; [(-1, 3)]; [(5, 10)]] [] [] [] [] (fun _ => false)). eexists. split; [|vm_compute; reflexivity]. split; [|split; [reflexivity|]].
    + intros [|[|[|n]]] Hn; simpl in *; try lia; (split; [simpl; lia|]); [exists 0|exists 0|exists 6]; apply member_cons; lia.
    + intros a W. exact W.
  - unfold reaches. vm_compute. intros [_ H]. now destruct H.
Qed.
Print Assumptions C49_multiply_bounds_consistent_refuted.

(** C49: the whole-number square roots are right for every number, and the loop that
    computes them does not run out of fuel. *)
Theorem C49_square_roots : forall n, 0 <= n ->
  (0 <= isqrt n /\ isqrt n * isqrt n <= n < (isqrt n + 1) * (isqrt n + 1)) /\
  (0 <= ceil_isqrt n /\ n <= ceil_isqrt n * ceil_isqrt n /\ forall r, 0 <= r -> n <= r * r -> ceil_isqrt n <= r).
Proof. exact square_roots. Qed.
Print Assumptions C49_square_roots.

Example C49_square_root_example : isqrt 1000000000000 = 1000000 /\ isqrt 999999999999 = 999999 /\ ceil_isqrt 999999999999 = 1000000 /\ isqrt 2 = 1 /\ ceil_isqrt 2 = 2.
Proof. vm_compute. auto. Qed.

(** x * y = z with x in 2..5, y in -3..9 and z in 6..13: the run leaves x in 2..5, y in
    2..6 and z in 6..13. *)
Example C49_bounds_example : let d0 := [[(2, 5)]; [(-3, 9)]; [(6, 13)]] in
  Forall (var_known d0) [VSimple 0; VSimple 1; VSimple 2] /\
  exists p, fst (multiply_bc (VSimple 0) (VSimple 1) (VSimple 2) d0) = [p] /\
  ConsistencySpec.outcome (length d0) (fun d _ => inside d0 d) p [[(2, 5)]; [(2, 6)]; [(6, 13)]].
Proof.
  cbv zeta. split; [repeat constructor; simpl; lia|]. eexists. split; [reflexivity|].
  exists (mk_in [[(2, 5)]; [(-3, 9)]; [(6, 13)]] [] [] [] [] (fun _ => false)). eexists. split; [|vm_compute; reflexivity]. split; [|split; [reflexivity|]].
  - intros [|[|[|n]]] Hn; simpl in *; try lia; (split; [simpl; lia|]); [exists 2|exists 0|exists 6]; apply member_cons; lia.
  - intros a W. exact W.
Qed.

(** x * x = z with x in -2..7 and z in 5..30: x cannot be 2 or less. *)
Example C49_square_example : let d0 := [[(-2, 7)]; [(5, 30)]] in
  Forall (var_known d0) [VSimple 0; VSimple 1] /\
  exists p, fst (multiply_bc (VSimple 0) (VSimple 0) (VSimple 1) d0) = [p] /\
  ConsistencySpec.outcome (length d0) (fun d _ => inside d0 d) p [[(3, 5)]; [(9, 25)]].
Proof.
  cbv zeta. split; [repeat constructor; simpl; lia|]. eexists. split; [reflexivity|].
  exists (mk_in [[(-2, 7)]; [(5, 30)]] [] [] [] [] (fun _ => false)). eexists. split; [|vm_compute; reflexivity]. split; [|split; [reflexivity|]].
  - intros [|[|n]] Hn; simpl in *; try lia; (split; [simpl; lia|]); [exists 2|exists 6]; apply member_cons; lia.
  - intros a W. exact W.
Qed.

(** A table for x * (2 - x) = y: x in 0..4 and y in -8..1, of which only 1, 0, -3 and
    -8 are left. *)
Example C49_table_example : let d0 := [[(0, 4)]; [(-8, 1)]] in let y := VView 0 true 2 in
  domains_ok d0 /\ Forall (var_known d0) [VSimple 0; y; VSimple 1] /\
  (exists s, within s d0 /\ var_value s (VSimple 0) * var_value s y = var_value s (VSimple 1)) /\
  let i := multiply (Auto 500) (VSimple 0) y (VSimple 1) d0 [] in in_vars i = [[(0, 4)]] /\
  domain_size d0 (VSimple 0) * domain_size d0 y * domain_size d0 (VSimple 1) <= 500 /\
  exists p q, in_props i = [p] ++ [q] /\
  ConsistencySpec.outcome (length (d0 ++ in_vars i)) (fun d _ => inside (d0 ++ in_vars i) d) q
    [[(0, 4)]; [(-8, -8); (-3, -3); (0, 1)]; [(0, 4)]].
Proof.
  cbv zeta. split; [|split; [|split]].
  - intros [|[|n]] Hn; simpl in *; try lia; (split; [simpl; lia|]); exists 0; apply member_cons; lia.
  - repeat constructor; simpl; lia.
  - exists (fun n => match n with O => 1 | _ => 1 end). split; [intros [|[|n]] Hn; simpl in *; try lia; apply member_cons; lia|reflexivity].
  - split; [reflexivity|]. split; [vm_compute; discriminate|]. do 2 eexists. split; [reflexivity|].
    exists (mk_in [[(0, 4)]; [(-8, 1)]; [(0, 4)]] [] [] [] [] (fun _ => false)). eexists. split; [|vm_compute; reflexivity].
    split; [|split; [reflexivity|]].
    + intros [|[|[|n]]] Hn; simpl in *; try lia; (split; [simpl; lia|]); exists 0; apply member_cons; lia.
    + intros a W. exact W.
Qed.

(** The whole solver on x * y = z and 3 * x = y. *)
Example C49_example : let d0 := [[(-2, 3)]; [(-9, 9)]; [(1, 20)]] in
  summary (solve ex_never 100 100 1 (plain_callbacks [VSimple 0; VSimple 1; VSimple 2])
    (match problem_of d0 [Product BC (VSimple 0) (VSimple 1) (VSimple 2); Product (Auto 5) (VConst 3) (VSimple 0) (VSimple 1)] None with Some pb => pb | None => mk_problem [] [] None end)) =
  Some ([[2; 6; 12]; [1; 3; 3]; [-1; -3; 3]; [-2; -6; 12]], true).
Proof. vm_compute. reflexivity. Qed.
