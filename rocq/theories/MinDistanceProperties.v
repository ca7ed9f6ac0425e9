(** Properties of the least distance between selected sites. *)
From Coq Require Import ZArith List Bool Lia.
From Verif Require Import IntervalSet IntervalSetSpec IntervalSetProofs Vars VarsSpec State StateSpec Epochs Engine EngineSpec
  Tracker SessionSpec ContractSpec Search Solve SolveSpec ConsistencySpec AllDifferentSpec MinDistance MinDistanceSpec MinDistanceMatchingProofs MinDistanceProofs
  Catalogue CatalogueSpec ExampleProblem SolveExample ConstraintExample.
Import ListNotations.
Local Open Scope Z_scope.

(** C65: at every level the constraint accepts exactly the assignments that select sites
    that are as far apart as they must be, with the variable for the least distance equal
    to it, whatever variables these share. *)
Theorem C65_min_distance_correct : forall d0 level xs z D R, domains_ok d0 -> Forall (var_known d0) (z :: xs) ->
  forall k, min_distance level xs z D R = Some k -> correct_on d0 k (z :: xs) (is_min_distance xs z D R).
Proof. exact min_distance_correct. Qed.
Print Assumptions C65_min_distance_correct.

(** C65: it is turned down exactly if there are fewer than two points, or the distances are
    not those of a matrix of distances, or the requirements do not fit the points. *)
Theorem C65_refused : forall level xs z D R, min_distance level xs z D R = None <->
  ~ ((2 <= length xs)%nat /\ distance_matrix D /\ requirement_matrix (length xs) R).
Proof. exact min_distance_none. Qed.
Print Assumptions C65_refused.

(** C65: at each level that does more than check, when nothing more is inferred, each pair
    can be at least as far apart as the most that the least distance can be; and a point
    that is selected leaves others only values that go with it. *)
Theorem C65_forward_at_rest : forall d0 level xs z D R, Forall (var_known d0) (z :: xs) -> forall d, domains_ok d -> length d = length d0 ->
  forall k, min_distance level xs z D R = Some k -> (forall p, In p (fst (k d0)) -> rerun_is_quiet p d) -> level <> CheckOnly ->
  forall i j v w, (i < j)%nat -> nth_error xs i = Some v -> nth_error xs j = Some w ->
  (exists x y k, can_take d v x /\ can_take d w y /\ apart D x y k /\ far_enough R i j k /\ upper_bound d z <= k) /\
  (at_sites d xs D -> fixed d v \/ fixed d w -> forall x y, can_take d v x -> can_take d w y -> compatible d z D R i j x y).
Proof. exact posted_forward. Qed.
Print Assumptions C65_forward_at_rest.

(** C65: at the levels that look for the support of pairs, each value of a point goes with
    some value of each other point. *)
Theorem C65_support_at_rest : forall d0 level xs z D R, Forall (var_known d0) (z :: xs) -> forall d, domains_ok d -> length d = length d0 ->
  forall k, min_distance level xs z D R = Some k -> (forall p, In p (fst (k d0)) -> rerun_is_quiet p d) -> level = PairSupport \/ level = PairSupportMatch ->
  at_sites d xs D -> forall i j v w, (i < j)%nat -> nth_error xs i = Some v -> nth_error xs j = Some w ->
  (forall x, can_take d v x -> exists y, can_take d w y /\ compatible d z D R i j x y) /\
  (forall y, can_take d w y -> exists x, can_take d v x /\ compatible d z D R i j x y).
Proof. exact posted_support. Qed.
Print Assumptions C65_support_at_rest.

(** C65: at the levels with matching, at the greatest distance that is still open, there is
    a maximal matching of sites that are too near which leaves enough sites for all
    points. *)
Theorem C65_matching_at_rest : forall d0 level xs z D R, Forall (var_known d0) (z :: xs) -> forall d, domains_ok d -> length d = length d0 ->
  forall k, min_distance level xs z D R = Some k -> (forall p, In p (fst (k d0)) -> rerun_is_quiet p d) -> level = ForwardBoundMatch \/ level = PairSupportMatch ->
  at_sites d xs D -> forall t, highest_level d z D t -> lower_bound d z <= t -> 1 <= t ->
  exists A E, NoDup A /\ (forall x, In x A <-> selectable d xs x) /\ maximal_matching D t A E /\ (length xs + length E <= length A)%nat.
Proof. exact posted_matching. Qed.
Print Assumptions C65_matching_at_rest.

(** C65: the exception that there is no guard to derive from is never thrown: not in any
    state inside the one in which the constraint was posted, all values being sites. *)
Theorem C65_never_throws : forall d0 d xs z D, domains_ok d0 -> domains_ok d -> length d = length d0 -> Forall (var_known d0) xs -> inside d0 d -> at_sites d xs D ->
  no_guard d0 d xs z D = false.
Proof. exact guard_present. Qed.
Print Assumptions C65_never_throws.

(** C65: nothing stronger: with everything switched on there can be nothing left to infer
    although there is no solution. *)
Theorem C65_consistent_refuted : exists d xs z D k, domains_ok d /\ Forall (var_known d) (z :: xs) /\ NoDup (underlying_list xs) /\ min_distance PairSupportMatch xs z D None = Some k /\ at_sites d xs D /\
  (forall p, In p (fst (k d)) -> rerun_is_quiet p d) /\ forall a, within a d -> ~ is_min_distance xs z D None a.
Proof. exact three_on_a_ring. Qed.
Print Assumptions C65_consistent_refuted.

(** Sites at 0, 1, 3 and 7 on a line; two points at least 3 apart, and one further point,
    which is a view. *)
Definition line : list (list Z) := [[0; 1; 3; 7]; [1; 0; 2; 6]; [3; 2; 0; 4]; [7; 6; 4; 0]].
Definition needs : list (list Z) := [[0; 3; 0]; [9; 0; 0]; [9; 9; 0]].

Lemma line_good : distance_matrix line /\ requirement_matrix 3 (Some needs).
Proof. split; [apply distances_iff; reflexivity|]. apply requirements_iff. reflexivity. Qed.

Example C65_solutions_example : forall level, let p := MinDistanceOf level [VSimple 0; VSimple 1; VView 2 true 3] (VSimple 3) line (Some needs) in let d0 := [[(0, 9)]; [(1, 3)]; [(0, 3)]; [(2, 8)]] in
  well_posed d0 p /\ exists pb, problem_of d0 [p] None = Some pb /\
  summary (solve ex_never 100 100 1 (plain_callbacks [VSimple 0; VSimple 1; VSimple 2; VSimple 3]) pb) = Some
  ([[3; 2; 3; 3]; [3; 2; 2; 2]; [3; 1; 1; 2]; [2; 3; 3; 3]; [2; 3; 2; 2]; [1; 3; 1; 2]; [0; 3; 1; 3]; [0; 2; 0; 3]], true).
Proof.
  intros level. cbv zeta. split.
  - split; [repeat constructor|]. split; [constructor|]. split; [simpl; lia|]. exact line_good.
  - destruct level; eexists; (split; [reflexivity|]); vm_compute; reflexivity.
Qed.

(** On a ring of five sites, four points cannot all be apart, and two maximal pairs show it. *)
Example C65_matching_example : let d := [[(0, 4)]; [(0, 4)]; [(0, 4)]; [(0, 4)]; [(0, 1)]] in let xs := [VSimple 0; VSimple 1; VSimple 2; VSimple 3] in
  refuted_level d xs (VSimple 4) ring = Some 1 /\ no_guard d d xs (VSimple 4) ring = false /\
  exists k p q, min_distance ForwardBoundMatch xs (VSimple 4) ring None = Some k /\ fst (k d) = [p; q] /\
  fst (fst (apply_lits d (o_infer (p_run q (mk_in d [] [] [] [] (fun _ => false)))))) = [[(0, 4)]; [(0, 4)]; [(0, 4)]; [(0, 4)]; [(0, 0)]].
Proof. cbv zeta. split; [vm_compute; reflexivity|]. split; [vm_compute; reflexivity|]. eexists. eexists. eexists. split; [reflexivity|]. split; [reflexivity|]. vm_compute. reflexivity. Qed.

(** Only the levels that look for support see that the middle site goes with neither end. *)
Example C65_levels_example : let d := [[(0, 3)]; [(0, 0); (3, 3)]; [(5, 7)]] in let d' support := if support : bool then [[(0, 1); (3, 3)]; [(0, 0); (3, 3)]; [(5, 7)]] else d in
  forall level, level = ForwardBound \/ level = PairSupport -> exists k p, min_distance level [VSimple 0; VSimple 1] (VSimple 2) line None = Some k /\ fst (k d) = [p] /\
  fst (fst (apply_lits d (o_infer (p_run p (mk_in d [] [] [] [] (fun _ => false)))))) = d' (match level with PairSupport => true | _ => false end).
Proof. cbv zeta. intros level [E|E]; rewrite E; eexists; eexists; (split; [reflexivity|]); (split; [reflexivity|]); vm_compute; reflexivity. Qed.

Example C65_refused_example : forall level, min_distance level [VSimple 0] (VSimple 1) line None = None /\ min_distance level [VSimple 0; VSimple 1] (VSimple 2) [] None = None /\
  min_distance level [VSimple 0; VSimple 1] (VSimple 2) [[0; 1]; [2; 0]] None = None /\ min_distance level [VSimple 0; VSimple 1] (VSimple 2) [[0; -1]; [-1; 0]] None = None /\
  min_distance level [VSimple 0; VSimple 1] (VSimple 2) [[1]] None = None /\ min_distance level [VSimple 0; VSimple 1] (VSimple 2) line (Some [[0; -1]; [0; 0]]) = None /\
  min_distance level [VSimple 0; VSimple 1] (VSimple 2) line (Some [[0; 1; 0]; [0; 0; 0]]) = None.
Proof. intros level. repeat split. Qed.
