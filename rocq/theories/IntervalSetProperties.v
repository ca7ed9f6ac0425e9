(** Properties C02, C03 and C04: interval sets. *)
From Coq Require Import ZArith List Lia.
From Verif Require Import IntervalSet IntervalSetSpec IntervalSetProofs.
Import ListNotations.
Local Open Scope Z_scope.

(** C02: any history of operations on a freshly built set behaves like the same history on a
    mathematical set, and the representation invariant always holds. *)
Theorem C02_history : forall ops l u, l <= u -> history_allowed ops (fun v => l <= v <= u) ->
  represents (run_ops ops (iset_of_bounds l u)) (history_meaning ops (fun v => l <= v <= u)).
Proof. exact run_ops_from_bounds. Qed.
Print Assumptions C02_history.

Definition C02_ops : list iset_op :=
  [OpErase 5; OpErase 1; OpEraseRange 7 8; OpInsertAtEnd 12; OpInsertIntervalAtEnd 13 20;
   OpEraseGreaterThan 18; OpEraseLessThan 2; OpIntersectWith [(0, 3); (6, 15)]].
Example C02_history_ex : history_allowed C02_ops (fun v => 1 <= v <= 10) /\
  run_ops C02_ops (iset_of_bounds 1 10) = [(2, 3); (6, 6); (9, 10); (12, 15)].
Proof. split; [simpl; repeat split; intros; try lia|reflexivity]. Qed.

Theorem C02_erase : forall v s, well_formed s -> represents (erase v s) (fun w => member w s /\ w <> v).
Proof. exact erase_spec. Qed.
Print Assumptions C02_erase.
Example C02_erase_ex : well_formed [(1,3);(5,9)] /\ erase 7 [(1,3);(5,9)] = [(1,3);(5,6);(8,9)].
Proof. split; [simpl; lia|reflexivity]. Qed.

Theorem C02_erase_range : forall lo hi s, well_formed s ->
  represents (erase_range lo hi s) (fun w => member w s /\ ~ (lo <= w <= hi)).
Proof. exact erase_range_spec. Qed.
Print Assumptions C02_erase_range.
Example C02_erase_range_ex : erase_range 3 7 [(1,3);(5,5);(7,9)] = [(1,2);(8,9)].
Proof. reflexivity. Qed.

Theorem C02_erase_less_than : forall v s, well_formed s ->
  represents (erase_less_than v s) (fun w => member w s /\ v <= w).
Proof. exact erase_less_than_spec. Qed.
Print Assumptions C02_erase_less_than.
Example C02_erase_less_than_ex : erase_less_than 4 [(1,3);(5,9)] = [(5,9)] /\ erase_less_than 10 [(1,3);(5,9)] = [].
Proof. split; reflexivity. Qed.

Theorem C02_erase_greater_than : forall v s, well_formed s ->
  represents (erase_greater_than v s) (fun w => member w s /\ w <= v).
Proof. exact erase_greater_than_spec. Qed.
Print Assumptions C02_erase_greater_than.
Example C02_erase_greater_than_ex : erase_greater_than 4 [(1,3);(5,9)] = [(1,3)] /\ erase_greater_than 6 [(1,3);(5,9)] = [(1,3);(5,6)].
Proof. split; reflexivity. Qed.

Theorem C02_intersect_with : forall s other, well_formed s -> well_formed other ->
  represents (intersect_with s other) (fun v => member v s /\ member v other).
Proof. exact intersect_with_spec. Qed.
Print Assumptions C02_intersect_with.
Example C02_intersect_with_ex : intersect_with [(1,5);(7,20)] [(0,2);(4,8);(10,11);(19,30)] = [(1,2);(4,5);(7,8);(10,11);(19,20)].
Proof. reflexivity. Qed.

(** The representation of a set of values is unique. *)
Theorem C02_canonical : forall s t, well_formed s -> well_formed t ->
  (forall v, member v s <-> member v t) -> s = t.
Proof. exact wf_ext. Qed.
Print Assumptions C02_canonical.

(** C03: queries. *)
Theorem C03_queries : forall s v, well_formed s ->
  (contains v s = true <-> member v s) /\
  (is_empty s = true <-> forall w, ~ member w s) /\
  (lower s = Some v <-> member v s /\ forall w, member w s -> v <= w) /\
  (upper s = Some v <-> member v s /\ forall w, member w s -> w <= v) /\
  (has_holes s = true <-> exists a b c, a < b < c /\ member a s /\ ~ member b s /\ member c s).
Proof. exact queries_spec. Qed.
Print Assumptions C03_queries.
Example C03_queries_ex : well_formed [(1,3);(5,9)] /\ contains 4 [(1,3);(5,9)] = false /\ contains 9 [(1,3);(5,9)] = true.
Proof. repeat split; simpl; lia. Qed.

Theorem C03_contains_any_of : forall xs ys, well_formed xs -> well_formed ys ->
  (contains_any_of xs ys = true <-> exists v, member v xs /\ member v ys).
Proof. exact contains_any_of_spec. Qed.
Print Assumptions C03_contains_any_of.
Example C03_contains_any_of_ex : contains_any_of [(1,3);(9,12)] [(4,8);(12,13)] = true /\ contains_any_of [(1,3);(9,12)] [(4,8);(13,13)] = false.
Proof. split; reflexivity. Qed.

(** C03: iteration yields the members in order, each once, and [size] counts them. *)
Theorem C03_iteration : forall s, well_formed s ->
  (forall v, In v (each s) <-> member v s) /\ strictly_increasing (each s) /\
  Z.of_nat (length (each s)) = size s /\
  (forall v, In v (each_reversed s) <-> member v s) /\ strictly_decreasing (each_reversed s).
Proof. exact iteration_spec. Qed.
Print Assumptions C03_iteration.
Example C03_iteration_ex : each [(1,3);(5,6)] = [1;2;3;5;6] /\ each_reversed [(1,3);(5,6)] = [6;5;3;2;1] /\ size [(1,3);(5,6)] = 5.
Proof. repeat split; reflexivity. Qed.

Theorem C03_gaps : forall s, well_formed s ->
  (forall v, In v (each_gap s) <-> ~ member v s /\ exists a c, a < v < c /\ member a s /\ member c s) /\
  strictly_increasing (each_gap s) /\
  (forall a b, In (a, b) (each_gap_interval s) ->
     a < b /\ member (a - 1) s /\ member b s /\ forall v, a <= v < b -> ~ member v s) /\
  (forall v, In v (each_gap s) <-> exists a b, In (a, b) (each_gap_interval s) /\ a <= v < b).
Proof. exact gaps_spec. Qed.
Print Assumptions C03_gaps.
Example C03_gaps_ex : each_gap [(1,3);(5,6);(9,9)] = [4;7;8].
Proof. reflexivity. Qed.

Theorem C03_each_interval : forall s, well_formed s ->
  (forall v, member v (each_interval s) <-> member v s) /\
  (forall l u, In (l, u) (each_interval s) -> l <= u /\ ~ member (l - 1) s /\ ~ member (u + 1) s).
Proof. exact each_interval_spec. Qed.
Print Assumptions C03_each_interval.

Theorem C03_each_interval_minus : forall s other, well_formed s -> well_formed other ->
  represents (each_interval_minus s other) (fun v => member v s /\ ~ member v other).
Proof. exact each_interval_minus_spec. Qed.
Print Assumptions C03_each_interval_minus.
Example C03_each_interval_minus_ex : each_interval_minus [(1,5);(7,20)] [(0,2);(4,8);(10,11);(19,30)] = [(3,3);(9,9);(12,18)].
Proof. reflexivity. Qed.

(** C04: appending strictly above the upper bound is safe ... *)
Theorem C04_insert_strictly_above_partial : forall l u s, well_formed s -> l <= u ->
  (forall v, member v s -> v < l) ->
  represents (insert_interval_at_end l u s) (fun w => member w s \/ l <= w <= u).
Proof. exact insert_interval_at_end_spec. Qed.
Print Assumptions C04_insert_strictly_above_partial.
Example C04_insert_ex : insert_interval_at_end 10 12 [(1,3);(5,9)] = [(1,3);(5,12)] /\ insert_at_end 11 [(1,3);(5,9)] = [(1,3);(5,9);(11,11)].
Proof. split; reflexivity. Qed.

(** ... but the documented precondition (at or above the upper bound) is not enough. *)
Theorem C04_insert_at_upper_refuted : exists s v, well_formed s /\ upper s = Some v /\
  ~ well_formed (insert_at_end v s) /\ size (insert_at_end v s) <> size s.
Proof. exact insert_at_end_touching_refuted. Qed.
Print Assumptions C04_insert_at_upper_refuted.
