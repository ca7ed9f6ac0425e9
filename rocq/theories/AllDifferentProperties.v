(** Properties of AllDifferent. *)
From Coq Require Import ZArith List Bool Lia.
From Verif Require Import IntervalSet IntervalSetSpec IntervalSetProofs Vars VarsSpec State StateSpec Epochs Engine EngineSpec
  Tracker SessionSpec ContractSpec Search Solve SolveSpec Stateful StatefulSpec AllDifferent AllDifferentSpec AllDifferentProofs
  GacAllDifferent GacAllDifferentProofs Catalogue CatalogueSpec CatalogueProofs ExampleProblem SolveExample ConstraintExample ConsistencySpec.
Import ListNotations.
Local Open Scope Z_scope.

(** C28: AllDifferent with value consistency, if no handle that has just one value
    when the constraint is posted can share it with another. *)
Theorem C28_value_consistent_correct_partial : forall d0 vars, domains_ok d0 -> Forall (var_known d0) vars -> no_clash_with_fixed d0 vars ->
  means d0 (all_different_vc vars) vars (fun a => NoDup (map (var_value a) vars)).
Proof. exact all_different_vc_means. Qed.
Print Assumptions C28_value_consistent_correct_partial.

(** Every run leaves no handle able to share the value of one that is fixed. *)
Theorem C28_value_consistency_partial : forall d0 cs vars, domains_ok d0 -> Forall (var_known d0) vars -> NoDup vars -> no_clash_with_fixed d0 vars ->
  exists p s0, in_props (all_different_vc vars d0 cs) = [p] /\ in_states (all_different_vc vars d0 cs) = [s0] /\
  forall i s d evs, lives p (length cs) d0 s0 (i_domains i) s -> nth_error (i_cstates i) (length cs) = Some s ->
    apply_lits (i_domains i) (o_infer (p_run p i)) = (d, evs, false) -> no_clash_with_fixed d vars.
Proof. exact all_different_vc_consistent. Qed.
Print Assumptions C28_value_consistency_partial.

(** Otherwise a solution that violates it can be reported: AllDifferent{x, 3} with
    value consistency and x in 1..3 accepts x = 3. *)
Theorem C28_value_consistent_refuted : domains_ok clash_domains /\ Forall (var_known clash_domains) (mentions clash_different) /\
  exists d, In d (reports (run (problem_of clash_domains [clash_different] None) [VSimple 0])) /\ (exists a, within a d) /\
  forall a, within a d -> ~ satisfies a clash_different.
Proof. exact (conj clash_ok (conj clash_known clash_violated)). Qed.
Print Assumptions C28_value_consistent_refuted.

(** Three variables and two views, one with a value to itself. After x = 1, where
    y - 1 is 0 or 1, 3 - z is 1 or 2, and 7 is on its own. *)
Example C28_value_example : let d0 := [[(1, 2)]; [(1, 2)]; [(1, 2)]] in let vars := [VView 1 false (-1); VConst 7; VView 2 true 3; VSimple 0] in
  domains_ok d0 /\ Forall (var_known d0) vars /\ NoDup vars /\ no_clash_with_fixed d0 vars /\
  let p := nth 0 (in_props (all_different_vc vars d0 [])) (mk_propagator (fun i => mk_out [] Enable [] [] []) [] [] [] [] []) in
  let s0 := nth 0 (in_states (all_different_vc vars d0 [])) [] in
  let d1 := [[(1, 1)]; [(1, 2)]; [(1, 2)]] in let i := mk_in d1 [s0] [] [] [] (fun _ => false) in
  lives p 0 d0 s0 d1 s0 /\ fst (fst (apply_lits d1 (o_infer (p_run p i)))) = [[(1, 1)]; [(1, 1)]; [(1, 1)]].
Proof.
  cbv zeta. assert (Ok : domains_ok [[(1, 2)]; [(1, 2)]; [(1, 2)]]).
  { intros [|[|[|k]]] Hk; simpl in *; try lia; (split; [lia|]); exists 1; apply member_cons; lia. }
  split; [exact Ok|]. split; [repeat constructor; simpl; lia|]. split; [repeat constructor; simpl; intuition discriminate|]. split; [|split].
  - assert (V : forall a n, within a [[(1, 2)]; [(1, 2)]; [(1, 2)]] -> (n < 3)%nat -> 1 <= a n <= 2).
    { intros a n W Hn. specialize (W n Hn). destruct n as [|[|[|n]]]; [| | |lia]; destruct W as (l & h & [J|[]] & X); injection J as <- <-; lia. }
    assert (W1 : within (fun _ => 1) [[(1, 2)]; [(1, 2)]; [(1, 2)]]) by (intros [|[|[|k]]] Hk; simpl in *; try lia; apply member_cons; lia).
    assert (W2 : within (fun _ => 2) [[(1, 2)]; [(1, 2)]; [(1, 2)]]) by (intros [|[|[|k]]] Hk; simpl in *; try lia; apply member_cons; lia).
    intros b v r w a E Fx I Wa. pose proof (V a 0%nat Wa ltac:(lia)). pose proof (V a 1%nat Wa ltac:(lia)). pose proof (V a 2%nat Wa ltac:(lia)).
    destruct b as [|? [|? [|? [|? b]]]]; injection E as E; subst; try (destruct b; discriminate); destruct Fx as (x & Fx); pose proof (Fx _ W1) as F1; pose proof (Fx _ W2) as F2; cbn [var_value] in F1, F2; try lia.
    destruct I as [<-|[<-|[<-|[]]]]; cbn [var_value]; lia.
  - eapply lives_narrowed; [apply lives_start| |reflexivity|].
    + intros [|[|[|k]]] Hk; simpl in *; try lia; (split; [lia|]); exists 1; apply member_cons; lia.
    + intros a W n Hn. specialize (W n Hn). destruct n as [|[|[|n]]]; [|exact W|exact W|exact W]. destruct W as (l & h & [J|[]] & X); injection J as <- <-. apply member_cons. lia.
  - vm_compute. reflexivity.
Qed.

(** C28: AllDifferent as posted by default, on any handles, including constants,
    views of the same variable and handles given twice. *)
Theorem C28_all_different_correct : forall d0 vars, Forall (var_known d0) vars ->
  means d0 (all_different vars) vars (fun a => NoDup (map (var_value a) vars)).
Proof. exact all_different_means. Qed.
Print Assumptions C28_all_different_correct.

(** C28: AllDifferentExcept, where excluded values can be used any number of times. *)
Theorem C28_all_different_except_correct : forall d0 vars excluded, domains_ok d0 -> Forall (var_known d0) vars ->
  correct_on d0 (all_different_except vars excluded) vars (fun a => ForallOrdPairs (fun x y => x = y -> In x excluded) (map (var_value a) vars)).
Proof. exact except_pairs_correct. Qed.
Print Assumptions C28_all_different_except_correct.

(** C39: a run of the AllDifferent propagator leaves only values that belong to some
    assignment of different values, provided no variable is behind two handles. *)
Theorem C39_all_different_domain_consistent : forall d0 cs vars p, domains_ok d0 -> Forall (var_known d0) vars -> NoDup (underlying_list vars) ->
  in_states (all_different vars d0 cs) = [] -> in_props (all_different vars d0 cs) = [p] ->
  forall D, outcome (length d0) (fun d _ => inside d0 d) p D -> domain_consistent D vars (fun a => NoDup (map (var_value a) vars)).
Proof. exact all_different_consistent. Qed.
Print Assumptions C39_all_different_domain_consistent.

(** Large ones work in stages and keep a state. A run that makes no inferences, or
    claims that there is no need for another, has reached the same. *)
Theorem C39_staged_domain_consistent : forall d0 cs vars p s0, domains_ok d0 -> Forall (var_known d0) vars -> NoDup (underlying_list vars) ->
  in_states (all_different vars d0 cs) = [s0] -> in_props (all_different vars d0 cs) = [p] ->
  forall i s D evs, lives p (length cs) d0 s0 (i_domains i) s -> nth_error (i_cstates i) (length cs) = Some s ->
    apply_lits (i_domains i) (o_infer (p_run p i)) = (D, evs, false) -> evs = [] \/ o_result (p_run p i) = EnableButIdempotent ->
    domain_consistent D vars (fun a => NoDup (map (var_value a) vars)).
Proof. exact staged_consistent. Qed.
Print Assumptions C39_staged_domain_consistent.

Theorem C39_all_different_except_domain_consistent : forall d0 vars excluded p, domains_ok d0 -> Forall (var_known d0) vars -> NoDup vars -> NoDup (underlying_list vars) ->
  fst (all_different_except vars excluded d0) = [p] ->
  forall D, outcome (length d0) (fun d _ => inside d0 d) p D ->
    domain_consistent D vars (fun a => ForallOrdPairs (fun x y => x = y -> In x excluded) (map (var_value a) vars)).
Proof. exact except_pairs_consistent. Qed.
Print Assumptions C39_all_different_except_domain_consistent.

(** Two variables use up two values, and so take them away from a third: one run
    leaves only 3 for it. If 2 does not count then nothing can be taken away; it makes
    no difference if 7 does not count. *)
Example C39_example : let d0 := [[(1, 2)]; [(1, 2)]; [(1, 3)]] in let vars := [VSimple 0; VSimple 1; VSimple 2] in
  domains_ok d0 /\ Forall (var_known d0) vars /\ NoDup vars /\ NoDup (underlying_list vars) /\ in_states (all_different vars d0 []) = [] /\
  (exists p, in_props (all_different vars d0 []) = [p] /\ outcome 3 (fun d _ => inside d0 d) p [[(1, 2)]; [(1, 2)]; [(3, 3)]]) /\
  (exists p, fst (all_different_except vars [2] d0) = [p] /\ outcome 3 (fun d _ => inside d0 d) p d0) /\
  (exists p, fst (all_different_except vars [7] d0) = [p] /\ outcome 3 (fun d _ => inside d0 d) p [[(1, 2)]; [(1, 2)]; [(3, 3)]]).
Proof.
  cbv zeta. assert (Ok : domains_ok [[(1, 2)]; [(1, 2)]; [(1, 3)]]).
  { intros [|[|[|k]]] Hk; simpl in *; try lia; (split; [lia|]); exists 1; apply member_cons; lia. }
  assert (U : usable 3 (fun d _ => inside [[(1, 2)]; [(1, 2)]; [(1, 3)]] d) (mk_in [[(1, 2)]; [(1, 2)]; [(1, 3)]] [] [] [] [] (fun _ => false))).
  { split; [exact Ok|]. split; [reflexivity|]. intros a W. exact W. }
  split; [exact Ok|]. split; [repeat constructor; simpl; lia|]. split; [repeat constructor; simpl; intuition discriminate|]. split; [vm_compute; repeat constructor; simpl; intuition discriminate|].
  set (d0 := [[(1, 2)]; [(1, 2)]; [(1, 3)]]) in *. set (vars := [VSimple 0; VSimple 1; VSimple 2]).
  assert (A : adjacent_equal (sort_vars vars) = false) by reflexivity. assert (S : is_staged (sort_vars vars) (values_met d0 (sort_vars vars) []) = false) by (vm_compute; reflexivity).
  unfold all_different, all_different_except. cbv zeta. rewrite A, S. split; [reflexivity|]. clear A S. split; [|split]; eexists; (split; [reflexivity|]); exists (mk_in d0 [] [] [] [] (fun _ => false)); eexists; (split; [exact U|]); vm_compute; reflexivity.
Qed.

(** Two variables with the values 1 and 2, and one with 1 to 86, enough for the work
    to be staged: the second stage deletes 1 and 2. *)
Example C39_staged_example : let d0 := [[(1, 2)]; [(1, 2)]; [(1, 86)]] in let vars := [VSimple 0; VSimple 1; VSimple 2] in
  domains_ok d0 /\ NoDup (underlying_list vars) /\
  exists p s0, in_states (all_different vars d0 []) = [s0] /\ in_props (all_different vars d0 []) = [p] /\
  let i := mk_in d0 [s0] [] [] [] (fun _ => false) in
  lives p 0 d0 s0 d0 s0 /\ nth_error (i_cstates i) 0 = Some s0 /\ o_result (p_run p i) = EnableButIdempotent /\
  exists evs, apply_lits d0 (o_infer (p_run p i)) = ([[(1, 2)]; [(1, 2)]; [(3, 86)]], evs, false).
Proof.
  cbv zeta. split; [|split].
  - intros [|[|[|k]]] Hk; simpl in *; try lia; (split; [lia|]); exists 1; apply member_cons; lia.
  - vm_compute. repeat constructor; simpl; intuition discriminate.
  - set (d0 := [[(1, 2)]; [(1, 2)]; [(1, 86)]]). set (vars := [VSimple 0; VSimple 1; VSimple 2]).
    exists (state_propagator 0 (staged_body (sort_vars vars) (values_met d0 (sort_vars vars) [])) (sort_vars vars) [] []). exists (map Z.of_nat (initially_unassigned (sort_vars vars) d0)).
    assert (A : adjacent_equal (sort_vars vars) = false) by reflexivity. assert (S : is_staged (sort_vars vars) (values_met d0 (sort_vars vars) []) = true) by (vm_compute; reflexivity).
    unfold all_different. cbv zeta. rewrite A, S. split; [reflexivity|]. split; [reflexivity|]. clear A S. split; [apply lives_start|]. split; [reflexivity|]. split; [vm_compute; reflexivity|].
    eexists. vm_compute. reflexivity.
Qed.
