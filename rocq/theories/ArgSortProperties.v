(** Properties of sorting permutations. *)
From Coq Require Import ZArith List Bool Lia Permutation Sorted.
From Verif Require Import IntervalSet IntervalSetSpec IntervalSetProofs Vars VarsSpec State StateSpec Epochs Engine EngineSpec
  Tracker SessionSpec ContractSpec Search Solve SolveSpec ConsistencySpec ArgSortSpec ArgSort ArgSortOrderProofs ArgSortProofs
  Catalogue CatalogueSpec ExampleProblem SolveExample ConstraintExample.
Import ListNotations.
Local Open Scope Z_scope.

(** C61: the constraint accepts exactly the assignments in which the second list says in
    which order the elements of the first come, ties being broken by position, whatever
    variables they share, and its own variables neither add nor remove a solution. *)
Theorem C61_arg_sort_correct : forall d0 offset xs ps k, Forall (var_known d0) (xs ++ ps) -> arg_sort offset xs ps = Some k ->
  means d0 k (xs ++ ps) (arg_sorts offset xs ps).
Proof. exact arg_sort_means. Qed.
Print Assumptions C61_arg_sort_correct.

(** C61: posting throws exactly if the lists have different lengths. *)
Theorem C61_refused : forall offset xs ps, arg_sort offset xs ps = None <-> length xs <> length ps.
Proof. exact arg_sort_refused. Qed.
Print Assumptions C61_refused.

(** C61: when there is nothing more to infer, then for each position and each index that is
    a possible value of that position there are elements, between their bounds, in whose
    order the index stands there. This is part of the claim that the positions are bounds
    consistent: nothing is said about the other positions being possible values too. *)
Theorem C61_each_rank_supported_partial : forall d0 offset xs ps k d, Forall (var_known d0) (xs ++ ps) -> arg_sort offset xs ps = Some k ->
  domains_ok d -> (length d0 <= length d)%nat -> Forall (fun p => rerun_is_quiet p d) (in_props (k d0 [])) ->
  forall j i v, nth_error ps j = Some v -> (i < length xs)%nat -> view_member d v (offset + Z.of_nat i) ->
  exists vs qs, Forall2 (between_bounds d) xs vs /\ sorting_order offset vs qs /\ nth_error qs j = Some (offset + Z.of_nat i).
Proof. exact arg_sort_quiet. Qed.
Print Assumptions C61_each_rank_supported_partial.

(** C61: the ranks tried are enough: an element can have a rank, given bounds on all of them,
    exactly if the candidates say so. *)
Theorem C61_reachable_exactly : forall n lx ux k j, (forall i, (i < n)%nat -> lx i <= ux i) -> (k < n)%nat ->
  (reachable n lx ux k (Z.of_nat j) = true <->
   exists vs ks, length vs = n /\ (forall i, (i < n)%nat -> lx i <= nth i vs 0 <= ux i) /\ Permutation (seq 0 n) ks /\ Sorted (comes_first vs) ks /\ nth_error ks j = Some k).
Proof. exact reachable_exactly. Qed.
Print Assumptions C61_reachable_exactly.

(** C61: how each position is ruled out in the proof is right. Too many elements have to
    come before it, or too few can, or there is a value of the element up to which too few
    can and above which too many have to, and it is the one that is used. *)
Theorem C61_explained : forall n lx ux k j, (forall i, (i < n)%nat -> lx i <= ux i) -> (k < n)%nat -> reachable n lx ux k j = false ->
  j < forced n ux k (lx k) \/ possible n lx k (ux k) < j \/
  (lx k <= threshold n lx ux k j < ux k /\ possible n lx k (threshold n lx ux k j) <= j - 1 /\ j + 1 <= forced n ux k (threshold n lx ux k j + 1)).
Proof. exact hole_explained. Qed.
Print Assumptions C61_explained.

(** C61: what these counts mean: an element that is at most u comes after at most so many
    others, and one that is at least u comes after at least so many. *)
Theorem C61_counts_bound_place : forall xs ks k j n lx ux u, length xs = n -> (forall i, (i < n)%nat -> lx i <= nth i xs 0 <= ux i) ->
  Permutation (seq 0 n) ks -> Sorted (comes_first xs) ks -> nth_error ks j = Some k ->
  (nth k xs 0 <= u -> Z.of_nat j <= possible n lx k u) /\ (u <= nth k xs 0 -> forced n ux k u <= Z.of_nat j).
Proof. exact place_bounds. Qed.
Print Assumptions C61_counts_bound_place.

(** C61: the claim made for the propagators is false. Here there is nothing more to infer:
    three elements are 0 or 1, and the last of them comes first. So it is 0, the others are
    1, and they come in the order in which they stand; but the solver still thinks that the
    second may come before the first, and that both may be 0. *)
Theorem C61_bounds_consistent_refuted : exists d0 xs ps k d, arg_sort 0 xs ps = Some k /\ Forall (var_known d0) (xs ++ ps) /\ domains_ok d0 /\
  domains_ok d /\ inside (d0 ++ in_vars (k d0 [])) d /\ Forall (fun p => rerun_is_quiet p d) (in_props (k d0 [])) /\
  (exists v, nth_error ps 1 = Some v /\ upper_bound d v = 1) /\
  forall vs qs, Forall2 (between_bounds d) xs vs -> Forall2 (between_bounds d) ps qs -> sorting_order 0 vs qs -> nth_error qs 1 <> Some 1.
Proof. exact arg_sort_refuted. Qed.
Print Assumptions C61_bounds_consistent_refuted.

(** Counting from 1, with a constant and a view among the elements. The last three are the
    sorted elements. *)
Example C61_solutions_example : let p := ArgSorts 1 [VSimple 0; VConst 2; VView 1 true 5] [VSimple 2; VSimple 3; VSimple 4] in let d0 := [[(1, 3)]; [(2, 3)]; [(0, 9)]; [(0, 9)]; [(1, 2)]] in
  well_posed d0 p /\ exists pb, problem_of d0 [p] None = Some pb /\
  summary (solve ex_never 100 100 1 (plain_callbacks [VSimple 0; VSimple 1; VSimple 2; VSimple 3; VSimple 4]) pb) = Some ([[3; 3; 2; 3; 1; 2; 2; 3]], true).
Proof.
  cbv zeta. split; [split; [repeat constructor|split; [constructor|exact Logic.I]]|]. eexists. split; [reflexivity|]. vm_compute. reflexivity.
Qed.

(** Three elements are 3, so an element between 0 and 9 that stands after two of them and
    before the third cannot come second: it is 2 or less, or it comes after both. *)
Example C61_hole_example : let lx i := nth i [3; 3; 0; 3] 0 in let ux i := nth i [3; 3; 9; 3] 0 in
  map (fun j => reachable 4 lx ux 2 j) [0; 1; 2; 3] = [true; false; true; true] /\ threshold 4 lx ux 2 1 = 2.
Proof. split; vm_compute; reflexivity. Qed.

(** The hypotheses of the theorem about quiet propagators can be met. *)
Example C61_quiet_example : exists d0 xs ps k d, arg_sort 0 xs ps = Some k /\ Forall (var_known d0) (xs ++ ps) /\ domains_ok d /\ (length d0 <= length d)%nat /\
  Forall (fun p => rerun_is_quiet p d) (in_props (k d0 [])) /\ exists j i v, nth_error ps j = Some v /\ (i < length xs)%nat /\ view_member d v (0 + Z.of_nat i).
Proof.
  destruct arg_sort_example as (H1 & H2 & H3 & H4 & H5). eexists _, _, _, _, _. repeat (split; [eassumption|]). exists 1%nat, 1%nat. eexists. split; [reflexivity|]. split; [simpl; lia|].
  simpl. apply member_cons. lia.
Qed.
