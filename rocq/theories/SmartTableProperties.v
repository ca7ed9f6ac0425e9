(** Properties of SmartTable and LexSmartTable. *)
From Coq Require Import ZArith List Bool Lia.
From Verif Require Import IntervalSet IntervalSetSpec IntervalSetProofs Vars VarsSpec State StateSpec Epochs Engine EngineSpec
  Tracker SessionSpec ContractSpec Search Solve SolveSpec ConsistencySpec Catalogue CatalogueSpec ExampleProblem SolveExample ConstraintExample.
From Verif Require Import SmartTable SmartTableSpec SmartTableProofs SmartTableExamples.
Import ListNotations.
Local Open Scope Z_scope.

(** C64: if the variables differ, and the comparisons of each row make no cycle, and
    whether an entry holds can be seen from a variable of the list and not only from a view
    of it, then SmartTable accepts exactly the assignments under which all the entries of
    some row hold, in whatever order the variables of its rows are gone through. *)
Theorem C64_smart_table_correct : forall d0 orders vars rows k, table_suits vars rows -> Forall (var_known d0) vars -> smart_table orders vars rows = Some k -> means d0 k vars (some_row rows).
Proof. exact smart_table_means. Qed.
Print Assumptions C64_smart_table_correct.

(** C64: it is turned down exactly if an entry compares a variable with itself or a view of
    it, or is about a constant, or about a variable that is not in the list. *)
Theorem C64_refused : forall orders vars rows, smart_table orders vars rows = None <->
  exists r e, In r rows /\ In e r /\
    ((exists v w t, e = Compare v w t /\ match v, w with VConst c, VConst c' => c = c' | VConst _, _ => False | _, VConst _ => False | _, _ => var_number v = var_number w end) \/
     (exists v, In v (entry_vars e) /\ match v with VConst _ => True | VSimple _ => ~ In v vars | VView _ _ _ => False end)).
Proof. exact smart_table_refused. Qed.
Print Assumptions C64_refused.

(** C64: without views, when nothing more is inferred, some row can be satisfied. *)
Theorem C64_satisfiable_at_rest : forall orders vars rows d0 d, table_suits vars rows -> Forall (Forall plain_entry) rows -> Forall (var_known d0) vars ->
  (length d0 + length rows <= length d)%nat -> domains_ok d ->
  Forall (fun p => rerun_is_quiet p d) (in_props (smart_table_install orders vars rows d0 [])) -> exists a, within a d /\ some_row rows a.
Proof. exact smart_table_at_rest. Qed.
Print Assumptions C64_satisfiable_at_rest.

(** C64: without views, neither pass over a tree reads the first or the last value of an
    empty list. *)
Theorem C64_reads_stay_inside : forall d vars rows order r es, domains_ok d -> Forall (var_known d) vars -> table_suits vars rows -> Forall (Forall plain_entry) rows ->
  In r rows -> In es (forest order r) ->
  ends_exist es (all_values d vars) /\
  forall m, filter_valid es (all_values d vars) = Some m -> forall pre e post v, es = pre ++ e :: post -> In v (entry_vars e) -> get_values (fold_left (fun m e => filter_edge e m) pre m) v <> [].
Proof. exact reads_inside. Qed.
Print Assumptions C64_reads_stay_inside.

(** C64: between different variables, LexSmartTable accepts exactly the assignments under
    which the first list is lexicographically greater, on what the lists have in common. *)
Theorem C64_lex_correct : forall left right, Forall simple (left ++ right) -> NoDup (left ++ right) -> forall d0 orders k, Forall (var_known d0) (left ++ right) ->
  lex_smart_table orders left right = Some k -> means d0 k (left ++ right) (fun a => lex_greater (map (var_value a) left) (map (var_value a) right)).
Proof. exact lex_smart_table_means. Qed.
Print Assumptions C64_lex_correct.

(** C64: it is never turned down then. *)
Theorem C64_lex_accepted : forall left right, Forall simple (left ++ right) -> NoDup (left ++ right) -> forall orders, exists k, lex_smart_table orders left right = Some k.
Proof. exact lex_accepted. Qed.
Print Assumptions C64_lex_accepted.

(** C64: with a cycle, even of two comparisons of the same variables, an assignment is
    accepted under which no row holds. *)
Theorem C64_cycle_refuted : exists d0 vars rows pb sols s, NoDup vars /\ Forall (Forall plain_entry) rows /\ problem_of d0 [SmartTableOf [] vars rows] None = Some pb /\
  summary (solve ex_never 100 100 1 (plain_callbacks [VSimple 0; VSimple 1]) pb) = Some (sols, true) /\ In s sols /\ ~ some_row rows (fun n => nth n s 0).
Proof. exact cycle_accepts. Qed.
Print Assumptions C64_cycle_refuted.

(** C64: so it is if a variable is in the list twice. *)
Theorem C64_repeated_refuted : exists d0 vars rows pb sols s, Forall acyclic rows /\ Forall (Forall (entry_suits vars)) rows /\ problem_of d0 [SmartTableOf [] vars rows] None = Some pb /\
  summary (solve ex_never 100 100 1 (plain_callbacks [VSimple 0; VSimple 1]) pb) = Some (sols, true) /\ In s sols /\ ~ some_row rows (fun n => nth n s 0).
Proof. exact repeated_accepts. Qed.
Print Assumptions C64_repeated_refuted.

(** C64: so it is if an entry is about a view of a variable of the list. *)
Theorem C64_view_refuted : exists d0 vars rows pb sols s, NoDup vars /\ Forall acyclic rows /\ problem_of d0 [SmartTableOf [] vars rows] None = Some pb /\
  summary (solve ex_never 100 100 1 (plain_callbacks [VSimple 0]) pb) = Some (sols, true) /\ In s sols /\ ~ some_row rows (fun n => nth n s 0).
Proof. exact view_accepts. Qed.
Print Assumptions C64_view_refuted.

(** C64: and if a comparison says that a variable differs from a view of another. *)
Theorem C64_different_view_refuted : exists d0 vars rows pb sols s, NoDup vars /\ Forall acyclic rows /\ problem_of d0 [SmartTableOf [] vars rows] None = Some pb /\
  summary (solve ex_never 100 100 1 (plain_callbacks [VSimple 0; VSimple 1]) pb) = Some (sols, true) /\ In s sols /\ ~ some_row rows (fun n => nth n s 0).
Proof. exact different_view_accepts. Qed.
Print Assumptions C64_different_view_refuted.

(** C64: if the list has a view only, solutions are lost. *)
Theorem C64_listed_view_refuted : exists d0 vars rows pb a, NoDup vars /\ Forall acyclic rows /\ Forall (var_known d0) vars /\ problem_of d0 [SmartTableOf [] vars rows] None = Some pb /\
  summary (solve ex_never 100 100 1 (plain_callbacks [VSimple 0]) pb) = Some ([], true) /\ within a d0 /\ some_row rows a.
Proof. exact listed_view_loses. Qed.
Print Assumptions C64_listed_view_refuted.

(** C64: when nothing more is inferred, a variable can have a value that is in no solution. *)
Theorem C64_domain_consistent_refuted : exists orders vars rows d, table_suits vars rows /\ Forall (Forall plain_entry) rows /\ Forall (var_known d) vars /\ domains_ok d /\
  Forall (fun p => rerun_is_quiet p d) (in_props (smart_table_install orders vars rows (firstn 4 d) [])) /\ ~ domain_consistent d vars (some_row rows).
Proof. exact values_without_support. Qed.
Print Assumptions C64_domain_consistent_refuted.

(** C64: LexSmartTable between lists that share variables accepts equal ones. *)
Theorem C64_lex_shared_refuted : exists d0 left right pb sols s, NoDup left /\ NoDup right /\ problem_of d0 [LexTable [] left right] None = Some pb /\
  summary (solve ex_never 100 100 1 (plain_callbacks [VSimple 0; VSimple 1]) pb) = Some (sols, true) /\ In s sols /\
  ~ lex_greater (map (var_value (fun n => nth n s 0)) left) (map (var_value (fun n => nth n s 0)) right).
Proof. exact lex_shared_accepts. Qed.
Print Assumptions C64_lex_shared_refuted.

(** Two rows: one with a comparison with a view, one with a set. *)
Example C64_solutions_example : let rows := [[Compare (VSimple 0) (VView 1 false 1) IsGreater; InSet (VSimple 2) [0; 2] false]; [CompareValue (VSimple 0) 0 IsEqual; InSet (VSimple 1) [2; 7] true; CompareValue (VSimple 2) 1 IsGreaterEqual]] in
  let p := SmartTableOf [[1%nat]] [VSimple 0; VSimple 1; VSimple 2] rows in let d0 := [[(0, 2)]; [(0, 2)]; [(0, 2)]] in
  well_posed d0 p /\ exists pb, problem_of d0 [p] None = Some pb /\
  option_map (fun r => (map (firstn 3) (fst r), snd r)) (summary (solve ex_never 100 100 1 (plain_callbacks [VSimple 0; VSimple 1; VSimple 2]) pb)) = Some ([[2; 0; 1]; [0; 2; 2]; [0; 2; 1]], true).
Proof.
  cbv zeta. split.
  - split; [repeat constructor|]. split; [constructor|]. split; [repeat constructor; simpl; intuition congruence|]. constructor; [|constructor; [|constructor]]; split.
    + apply acyclic_cut. intros v w t I. exists (fun n => Nat.leb n 0). simpl in I. decompose [or] I; try discriminate; try contradiction.
      match goal with E : _ = Compare v w t |- _ => injection E; intros; subst end. split; [simpl; discriminate|]. intros v' w' t' I'. simpl in I'. decompose [or] I'; try discriminate; try contradiction. left. congruence.
    + repeat constructor; cbn; try lia; auto; intros v; simpl; intuition (subst; simpl; auto 6).
    + intros v w t I. simpl in I. decompose [or] I; try discriminate; contradiction.
    + repeat constructor; cbn; try lia; auto; intros v; simpl; intuition (subst; simpl; auto 6).
  - eexists. split; [reflexivity|]. vm_compute. reflexivity.
Qed.

Example C64_lex_example : let p := LexTable [] [VSimple 0; VSimple 1] [VSimple 2; VSimple 3] in let d0 := [[(0, 1)]; [(0, 1)]; [(0, 1)]; [(1, 1)]] in
  well_posed d0 p /\ exists pb, problem_of d0 [p] None = Some pb /\
  option_map (fun r => (map (firstn 4) (fst r), snd r)) (summary (solve ex_never 100 100 1 (plain_callbacks [VSimple 0; VSimple 1; VSimple 2; VSimple 3]) pb)) = Some ([[1; 1; 0; 1]; [1; 0; 0; 1]], true).
Proof.
  cbv zeta. split.
  - split; [repeat constructor|]. split; [constructor|]. split; [repeat constructor|]. repeat constructor; simpl; intuition congruence.
  - eexists. split; [reflexivity|]. vm_compute. reflexivity.
Qed.

(** A table at rest, and trees with more than one comparison. *)
Example C64_rest_example : table_suits [VSimple 0; VSimple 1; VSimple 2; VSimple 3] rest_rows /\ let d := [[(0, 1)]; [(0, 1)]; [(0, 1)]; [(0, 1)]; [(0, 1)]; [(0, 1)]] in
  Forall (fun p => rerun_is_quiet p d) (in_props (smart_table_install [[0%nat]] [VSimple 0; VSimple 1; VSimple 2; VSimple 3] rest_rows (firstn 4 d) [])) /\
  forest [0%nat] (hd [] rest_rows) = [[Compare (VSimple 2) (VSimple 3) IsEqual; Compare (VSimple 1) (VSimple 2) IsEqual; CompareValue (VSimple 0) 0 IsEqual; Compare (VSimple 0) (VSimple 1) IsEqual]].
Proof.
  split; [exact rest_rows_suit|]. cbv zeta. split; [|vm_compute; reflexivity]. constructor; [|constructor]. intros i E. cbn [p_run body_propagator]. rewrite (proj1 (ContractProofs.body_run_out _ i)), E. vm_compute. reflexivity.
Qed.

(** From another root it does find that the last variable cannot be 1. *)
Example C64_order_example : let d := [[(0, 1)]; [(0, 1)]; [(0, 1)]; [(0, 1)]; [(0, 1)]; [(0, 1)]] in
  map (fun p => fst (fst (apply_lits d (o_infer (p_run p (mk_in d [] [] [] [] (fun _ => false))))))) (in_props (smart_table_install [[3%nat]] [VSimple 0; VSimple 1; VSimple 2; VSimple 3] rest_rows (firstn 4 d) [])) =
  [[[(0, 1)]; [(0, 1)]; [(0, 1)]; [(0, 0)]; [(0, 1)]; [(0, 1)]]].
Proof. vm_compute. reflexivity. Qed.

Example C64_refused_example : smart_table [] [VSimple 0] [[]; [Compare (VSimple 0) (VView 0 true 3) IsLess]] = None /\ smart_table [] [VSimple 0] [[Compare (VSimple 0) (VConst 3) IsLess]] = None /\
  smart_table [] [VSimple 0] [[CompareValue (VSimple 1) 3 IsLess]] = None.
Proof. repeat split. Qed.
