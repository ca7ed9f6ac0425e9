(** Properties of solving a problem.

    [poses pb rs] says that the constraints posted in [pb] mean the relations [rs];
    it is proved of each modelled constraint, see [problem_of] and [well_posed].
    [exhaustive pb vs branch] says that the branching heuristic keeps splitting until
    the handles [vs] are fixed; it is proved of the provided heuristics, see C21.
    [reports oc] is what was passed to the solution callback, newest first. *)
From Coq Require Import ZArith NArith List Bool Arith Lia.
From Verif Require Import IntervalSet IntervalSetSpec Vars VarsSpec State StateSpec Epochs Engine EngineSpec SessionSpec Tracker ContractSpec
  Search SearchSpec SearchTermProofs NegativeTable TableSpec NegativeTableProofs Nogoods NogoodsProofs Solve SolveSpec SolveProofs LubySpec LubyProofs Heuristics HeuristicsSpec HeuristicsProofs
  Catalogue CatalogueSpec CatalogueProofs SolveResults WatchExample ExampleProblem SolveExample.
Import ListNotations.
Local Open Scope Z_scope.

(** C15: whatever is reported is in the declared domains and satisfies every
    constraint whose handles are among the ones branched on. *)
Theorem C15_reports_satisfy_constraints : forall abort fuel depth tries cb pb rs vs,
  stays_set abort -> poses pb rs -> exhaustive pb vs (cb_branch cb) ->
  (forall v, pb_minimise pb = Some v -> var_below (length (pb_domains pb)) v /\ decides vs v) ->
  forall oc, solve abort fuel depth tries cb pb = Some oc ->
  Forall (fun r : relation => Forall (decides vs) (fst r)) rs ->
  Forall (fun d => (exists a, within a d) /\ forall a, within a d -> solution pb rs a) (reports oc).
Proof. exact reports_solve. Qed.
Print Assumptions C15_reports_satisfy_constraints.

(** The same for problems made of modelled constraints, branched on by a provided
    heuristic: nothing is left to assume about either. *)
Theorem C15_modelled_constraints : forall d ps m pb, domains_ok d -> Forall (well_posed d) ps -> problem_of d ps m = Some pb ->
  forall rngs h, (forall k, honest (rngs k)) -> Forall (var_known d) (handles h) -> splits_forwards h ->
  forall cb, cb_branch cb = branch_of rngs h ->
  (forall v, m = Some v -> var_known d v /\ decides (handles h) v) ->
  forall abort, stays_set abort -> forall fuel depth tries oc, decides_all (handles h) ps ->
  solve abort fuel depth tries cb pb = Some oc ->
  Forall (fun e => (exists a, within a e) /\ forall a, within a e -> solves d ps a) (reports oc).
Proof. exact modelled_reports. Qed.
Print Assumptions C15_modelled_constraints.

(** x < y, y <> z over 0..2 with the default heuristic: every hypothesis holds, and
    six solutions are reported. *)
Example C15_example :
  domains_ok sm_domains /\ Forall (well_posed sm_domains) sm_posted /\ problem_of sm_domains sm_posted None = Some (sm_problem None) /\
  honest plain_rng /\ Forall (var_known sm_domains) (handles sm_heuristic) /\ splits_forwards sm_heuristic /\
  cb_branch (sm_callbacks None) = branch_of (fun _ => plain_rng) sm_heuristic /\ stays_set ex_never /\ decides_all (handles sm_heuristic) sm_posted /\
  summary (solve ex_never 100 100 1 (sm_callbacks None) (sm_problem None)) =
    Some ([[1; 2; 1]; [1; 2; 0]; [0; 2; 1]; [0; 2; 0]; [0; 1; 2]; [0; 1; 0]], true).
Proof.
  split; [exact sm_ok|]. split; [exact sm_well_posed|]. split; [exact (sm_built None)|]. split; [exact plain_honest|]. split; [exact sm_handles|].
  split; [exact sm_forwards|]. split; [reflexivity|]. split; [exact ex_never_set|]. split; [exact sm_decides|exact sm_enumerates].
Qed.

(** C15 is false of problems with a NegativeTable among them, because of C13: with
    u = x, u = y (as sums) and NegativeTable forbidding x = y = 1, the assignment
    u = x = y = 1 is reported. *)
Theorem C15_negative_table_violated_refuted :
  negative_table gap_vars gap_tuples = Some gap_constraint /\ In [Some 1; Some 1] gap_tuples /\
  pb_constraints gap_problem = [simple gap_first; simple gap_second; simple gap_constraint] /\
  solve gap_never 100 100 1 gap_callbacks gap_problem = Some gap_outcome /\
  exists d, In d (reports gap_outcome) /\ (exists a, within a d) /\ forall a, within a d -> agrees a gap_vars [Some 1; Some 1].
Proof. exact (conj eq_refl (conj (or_introl eq_refl) (conj eq_refl (conj gap_solved violation_reported)))). Qed.
Print Assumptions C15_negative_table_violated_refuted.

(** C16: if a search without an objective or restarts completes, each solution is
    reported exactly once. *)
Theorem C16_each_solution_once : forall abort fuel depth tries cb pb rs vs,
  stays_set abort -> poses pb rs -> exhaustive pb vs (cb_branch cb) ->
  (forall v, pb_minimise pb = Some v -> var_below (length (pb_domains pb)) v /\ decides vs v) ->
  forall oc, solve abort fuel depth tries cb pb = Some oc ->
  forall a, pb_minimise pb = None -> (cb_restarts cb <> None -> cb_refined cb = false) -> oc_completed oc = true ->
  solution pb rs a -> exactly_one (fun d => shows vs d a) (reports oc).
Proof. exact solution_shown_once. Qed.
Print Assumptions C16_each_solution_once.

(** No two reports agree on the handles branched on, whether the search completes or
    not. *)
Theorem C16_never_repeated : forall abort fuel depth tries cb pb rs vs,
  stays_set abort -> poses pb rs -> exhaustive pb vs (cb_branch cb) ->
  (forall v, pb_minimise pb = Some v -> var_below (length (pb_domains pb)) v /\ decides vs v) ->
  forall oc, solve abort fuel depth tries cb pb = Some oc ->
  pb_minimise pb = None -> (cb_restarts cb <> None -> cb_refined cb = false) -> ForallOrdPairs (apart vs) (reports oc).
Proof. exact never_repeated. Qed.
Print Assumptions C16_never_repeated.

Theorem C16_modelled_constraints : forall d ps m pb, domains_ok d -> Forall (well_posed d) ps -> problem_of d ps m = Some pb ->
  forall rngs h, (forall k, honest (rngs k)) -> Forall (var_known d) (handles h) -> splits_forwards h ->
  forall cb, cb_branch cb = branch_of rngs h ->
  (forall v, m = Some v -> var_known d v /\ decides (handles h) v) ->
  forall abort, stays_set abort -> forall fuel depth tries oc a, m = None -> (cb_restarts cb <> None -> cb_refined cb = false) ->
  solve abort fuel depth tries cb pb = Some oc ->
  oc_completed oc = true -> solves d ps a -> exactly_one (fun e => shows (handles h) e a) (reports oc).
Proof. exact modelled_once. Qed.
Print Assumptions C16_modelled_constraints.

(** A constructor only throws where there is no solution to lose. *)
Theorem C16_throwing_constructors : forall d ps m, domains_ok d -> Forall (well_posed d) ps -> problem_of d ps m = None -> forall a, ~ solves d ps a.
Proof. exact thrown_unsatisfiable. Qed.
Print Assumptions C16_throwing_constructors.

Example C16_example :
  domains_ok sm_domains /\ Forall (well_posed sm_domains) sm_posted /\ problem_of sm_domains sm_posted None = Some (sm_problem None) /\
  honest plain_rng /\ Forall (var_known sm_domains) (handles sm_heuristic) /\ splits_forwards sm_heuristic /\ stays_set ex_never /\
  cb_restarts (sm_callbacks None) = None /\ solves sm_domains sm_posted (fun n => match n with 1%nat => 2 | _ => 0 end) /\
  option_map snd (summary (solve ex_never 100 100 1 (sm_callbacks None) (sm_problem None))) = Some true.
Proof.
  split; [exact sm_ok|]. split; [exact sm_well_posed|]. split; [exact (sm_built None)|]. split; [exact plain_honest|]. split; [exact sm_handles|].
  split; [exact sm_forwards|]. split; [exact ex_never_set|]. split; [reflexivity|]. split; [|now rewrite sm_enumerates].
  split; [|repeat constructor; simpl; lia]. intros [|[|[|n]]] Hn; simpl in *; try lia; (exists 0, 2; split; [now left|lia]).
Qed.

(** C17: each report is strictly better than the one before it, and if the search
    completes then the last is optimal, or there was none and there is no solution.
    Maximising a variable is minimising its negation. *)
Theorem C17_optimum : forall abort fuel depth tries cb pb rs vs,
  stays_set abort -> poses pb rs -> exhaustive pb vs (cb_branch cb) ->
  (forall v, pb_minimise pb = Some v -> var_below (length (pb_domains pb)) v /\ decides vs v) ->
  forall oc, solve abort fuel depth tries cb pb = Some oc ->
  forall v, pb_minimise pb = Some v -> improving v (reports oc) /\
  (oc_completed oc = true -> match reports oc with
                             | [] => forall a, ~ solution pb rs a
                             | d :: _ => exists x, has_value d v x /\ forall a, solution pb rs a -> x <= var_value a v
                             end).
Proof. exact optimum. Qed.
Print Assumptions C17_optimum.

Theorem C17_modelled_constraints : forall d ps m pb, domains_ok d -> Forall (well_posed d) ps -> problem_of d ps m = Some pb ->
  forall rngs h, (forall k, honest (rngs k)) -> Forall (var_known d) (handles h) -> splits_forwards h ->
  forall cb, cb_branch cb = branch_of rngs h ->
  (forall v, m = Some v -> var_known d v /\ decides (handles h) v) ->
  forall abort, stays_set abort -> forall fuel depth tries oc v, m = Some v ->
  solve abort fuel depth tries cb pb = Some oc ->
  improving v (reports oc) /\
  (oc_completed oc = true -> match reports oc with
                             | [] => forall a, ~ solves d ps a
                             | e :: _ => exists x, has_value e v x /\ forall a, solves d ps a -> x <= var_value a v
                             end).
Proof. exact modelled_optimum. Qed.
Print Assumptions C17_modelled_constraints.

(** Minimising 5 - y: first y = 1, then y = 2. *)
Example C17_example :
  domains_ok sm_domains /\ Forall (well_posed sm_domains) sm_posted /\
  problem_of sm_domains sm_posted (Some sm_objective) = Some (sm_problem (Some sm_objective)) /\
  honest plain_rng /\ Forall (var_known sm_domains) (handles sm_heuristic) /\ splits_forwards sm_heuristic /\ stays_set ex_never /\
  (forall v, Some sm_objective = Some v -> var_known sm_domains v /\ decides (handles sm_heuristic) v) /\
  summary (solve ex_never 100 100 1 (sm_callbacks None) (sm_problem (Some sm_objective))) = Some ([[0; 2; 0]; [0; 1; 0]], true).
Proof.
  split; [exact sm_ok|]. split; [exact sm_well_posed|]. split; [exact (sm_built _)|]. split; [exact plain_honest|]. split; [exact sm_handles|].
  split; [exact sm_forwards|]. split; [exact ex_never_set|]. split; [exact sm_objective_ok|exact sm_optimises].
Qed.

(** C18: the completed callback is called exactly when nothing asked for the search
    to stop: neither a callback answered false nor the abort flag was found set.
    Otherwise that request is the last thing that happened. *)
Theorem C18_stopping : forall abort fuel depth tries cb pb rs vs,
  stays_set abort -> poses pb rs -> exhaustive pb vs (cb_branch cb) ->
  (forall v, pb_minimise pb = Some v -> var_below (length (pb_domains pb)) v /\ decides vs v) ->
  forall oc, solve abort fuel depth tries cb pb = Some oc ->
  oc_threw oc = false /\
  (if oc_completed oc then Forall (fun e => ~ refusal e) (oc_log oc)
   else exists e rest, oc_log oc = e :: rest /\ refusal e /\ Forall (fun e => ~ refusal e) rest).
Proof. exact stopping. Qed.
Print Assumptions C18_stopping.

(** Asked to stop after the third solution. *)
Example C18_example :
  summary (solve ex_never 100 100 1 (mk_callbacks (cb_branch (sm_callbacks None)) (fun l => Nat.ltb (length l) 3) (fun _ _ => true) None true) (sm_problem None)) =
    Some ([[0; 2; 0]; [0; 1; 2]; [0; 1; 0]], false).
Proof. vm_compute. reflexivity. Qed.

(** C19: with restarts nothing unsound is reported and, if the search completes,
    every solution is reported. With the store scanned rather than watched,
    C16_each_solution_once and C16_never_repeated apply too. *)
Theorem C19_nothing_lost_partial : forall abort fuel depth tries cb pb rs vs,
  stays_set abort -> poses pb rs -> exhaustive pb vs (cb_branch cb) ->
  (forall v, pb_minimise pb = Some v -> var_below (length (pb_domains pb)) v /\ decides vs v) ->
  forall oc, solve abort fuel depth tries cb pb = Some oc ->
  forall a, pb_minimise pb = None -> oc_completed oc = true -> solution pb rs a -> Exists (fun d => shows vs d a) (reports oc).
Proof. exact solution_shown. Qed.
Print Assumptions C19_nothing_lost_partial.

(** If the cutoffs are unbounded then solving ends. *)
Theorem C19_search_ends : forall d ps m pb, domains_ok d -> Forall (well_posed d) ps -> problem_of d ps m = Some pb ->
  forall rngs h, (forall k, honest (rngs k)) -> Forall (var_known d) (handles h) -> splits_forwards h ->
  forall cb, cb_branch cb = branch_of rngs h ->
  (forall v, m = Some v -> var_known d v /\ decides (handles h) v) ->
  forall abort, stays_set abort -> forall fuel depth,
  (forall s, cb_restarts cb = Some s -> forall k, exists i, (1 <= i /\ k <= s i)%nat) ->
  (S (total_size (su_domains (set_up pb))) * S (S (length (su_props (set_up pb)))) <= fuel)%nat ->
  (total_size (su_domains (set_up pb)) < depth)%nat ->
  exists tries oc, solve abort fuel depth tries cb pb = Some oc /\ oc_threw oc = false.
Proof. exact modelled_ends. Qed.
Print Assumptions C19_search_ends.

Example C19_example :
  (S (total_size (su_domains (set_up (sm_problem None)))) * S (S (length (su_props (set_up (sm_problem None))))) = 40)%nat /\
  grows (luby_cutoff 1) /\
  summary (solve ex_never 100 100 30 (sm_callbacks (Some (luby_cutoff 1))) (sm_problem None)) =
    Some ([[1; 2; 1]; [1; 2; 0]; [0; 2; 1]; [0; 2; 0]; [0; 1; 2]; [0; 1; 0]], true).
Proof. split; [vm_compute; reflexivity|]. split; [apply luby_grows; lia|exact sm_restarts]. Qed.

(** C19 is false as the solver is configured by default, with the store watched
    rather than scanned, again because of C13: after one restart a solution is
    reported that was reported before it. *)
Theorem C19_reported_twice_refuted :
  problem_of twice_domains twice_posted None = Some twice_problem /\
  domains_ok twice_domains /\ Forall (well_posed twice_domains) twice_posted /\
  (forall k, honest (twice_rngs k)) /\ Forall (var_known twice_domains) (handles twice_heuristic) /\ splits_forwards twice_heuristic /\
  cb_branch (twice_callbacks true) = branch_of twice_rngs twice_heuristic /\ cb_refined (twice_callbacks true) = true /\
  solve ex_never 1000 100 3 (twice_callbacks true) twice_problem = Some twice_outcome /\
  exists i j d, i <> j /\ nth_error (reports twice_outcome) i = Some d /\ nth_error (reports twice_outcome) j = Some d.
Proof.
  exact (conj twice_built (conj twice_ok (conj twice_well_posed (conj twice_honest (conj twice_handles (conj twice_forwards
    (conj eq_refl (conj eq_refl (conj twice_solved reported_twice))))))))).
Qed.
Print Assumptions C19_reported_twice_refuted.

Example C19_scanned_example : summary (solve ex_never 1000 100 3 (twice_callbacks false) twice_problem) =
  Some ([[0; 0; 0; 0; 0; 0]; [0; 1; 0; 1; 0; 1]; [1; 0; 0; 0; 1; 1]; [1; 1; 1; 0; 0; 0]], true).
Proof. exact twice_scanned. Qed.

(** C20: the i-th cutoff is the i-th term of the Luby sequence times the scale. *)
Theorem C20_luby_terms : forall i, (1 <= i)%N -> exists t, luby_term i = Some t /\ luby_is i t.
Proof. exact luby_term_spec. Qed.
Print Assumptions C20_luby_terms.

Theorem C20_cutoffs : forall scale n t, (1 <= n)%nat -> luby_is (N.of_nat n) t -> luby_cutoff scale n = (N.to_nat t * scale)%nat.
Proof. exact luby_cutoff_spec. Qed.
Print Assumptions C20_cutoffs.

(** There is only one such sequence, and its terms are powers of two. *)
Theorem C20_luby_unique : forall i t t', luby_is i t -> luby_is i t' -> t = t'.
Proof. exact luby_functional. Qed.
Print Assumptions C20_luby_unique.

Theorem C20_powers_of_two : forall i t, luby_is i t -> exists k, t = (2 ^ k)%N.
Proof. exact luby_power. Qed.
Print Assumptions C20_powers_of_two.

(** The cutoffs exceed any bound, if the scale is at least one. *)
Theorem C20_unbounded : forall scale, (1 <= scale)%nat -> forall k, exists i, (1 <= i /\ k <= luby_cutoff scale i)%nat.
Proof. exact luby_grows. Qed.
Print Assumptions C20_unbounded.

Example C20_example : map (luby_cutoff 3) (seq 1 15) = [3; 3; 6; 3; 3; 6; 12; 3; 3; 6; 3; 3; 6; 12; 24]%nat.
Proof. vm_compute. reflexivity. Qed.

(** With a scale of zero every cutoff is zero, and unless initialisation finds a
    contradiction solving never ends, however many passes there are. *)
Theorem C20_scale_zero_refuted : (forall n, luby_cutoff 0 n = 0%nat) /\
  forall abort fuel depth cb pb s, cb_restarts cb = Some s -> (forall i, s i = 0%nat) -> initialise (set_up pb) <> None ->
  forall tries, solve abort fuel depth tries cb pb = None.
Proof. exact (conj luby_zero zero_cutoffs). Qed.
Print Assumptions C20_scale_zero_refuted.

Example C20_scale_zero_example : initialise (set_up (sm_problem None)) <> None.
Proof. vm_compute. discriminate. Qed.

(** C21: each provided variable order picks an undecided handle from the list, and
    none exactly when there is none. *)
Theorem C21_variable_orders : forall r o k (d : domains) vs, honest r -> domains_ok d -> Forall (var_known d) vs -> picks d vs (select r o k vs d).
Proof. exact select_spec. Qed.
Print Assumptions C21_variable_orders.

(** C21: each provided value order partitions the values of an undecided handle and
    each of its guesses removes some; the splitting orders only if the handle is not
    a negated view. *)
Theorem C21_value_orders_partial : forall (d : domains) v, domains_ok d -> var_known d v ->
  forall r o, honest r -> undecided d v -> (splitting o -> ~ negated v) -> exists cs, guesses r o d v = Some cs /\ partitions d v cs.
Proof. exact guesses_spec. Qed.
Print Assumptions C21_value_orders_partial.

(** So every provided heuristic keeps splitting until its handles are fixed. *)
Theorem C21_heuristics : forall nv rngs h, (forall k, honest (rngs k)) -> Forall (var_below nv) (handles h) -> splits_forwards h ->
  splits nv (handles h) (branch_of rngs h).
Proof. exact heuristic_splits. Qed.
Print Assumptions C21_heuristics.

(** Domain 0, 3..5, handle 10 - x: the value orders work on it; all of them do on x + 1. *)
Example C21_example : let d := [[(0, 0); (3, 5)]] in
  let r := mk_rng (fun _ lo hi => Nat.div2 (lo + hi)) (@rev Z) in
  map (fun o => guesses r o d (VSimple 0)) [RejectRandomInterval; SplitSmallestFirst; Median] =
    [Some [cond_ne (VSimple 0) 3; cond_eq (VSimple 0) 3]; Some [cond_le (VSimple 0) 3; cond_gt (VSimple 0) 3]; Some [cond_eq (VSimple 0) 4; cond_ne (VSimple 0) 4]] /\
  guesses r RandomValue d (VView 0 true 10) = Some (map (cond_eq (VView 0 true 10)) [5; 6; 7; 10]) /\
  select r RandomVariable 1 [VSimple 0; VConst 3; VView 0 true 10] d = Some (VSimple 0).
Proof. vm_compute. repeat split. Qed.

(** C21 is false of the splitting orders on a negated view with two values left: one
    of the two guesses holds of both values and the other of neither, so the first
    changes nothing and the search repeats the same node below it for ever, or, the
    other way round, the guess throws. *)
Theorem C21_split_negated_view_refuted : exists (d : domains) v r, domains_ok d /\ var_known d v /\ undecided d v /\ honest r /\
  exists c c', guesses r SplitSmallestFirst d v = Some [c; c'] /\ guesses r SplitLargestFirst d v = Some [c'; c] /\
    (forall a, within a d -> cond_holds a c) /\ (forall a, within a d -> ~ cond_holds a c').
Proof. exact split_negated. Qed.
Print Assumptions C21_split_negated_view_refuted.

(** C32: Nogoods, scanning: exactly the assignments satisfying every condition of
    some nogood are excluded. *)
Theorem C32_scanned_nogoods : forall d0 ns, Forall (Forall (fun c => var_known d0 (c_var c) /\ cond_sane c)) ns ->
  correct_on d0 (nogoods ns false) (map c_var (concat ns)) (fun a => Forall (fun n => ~ nogood_holds a n) ns).
Proof. exact scan_nogoods_correct. Qed.
Print Assumptions C32_scanned_nogoods.

(** Nogoods, watching: nothing is removed that is not excluded by some nogood. *)
Theorem C32_watched_nogoods_sound_partial : forall nv ns, Forall (Forall (lit_below nv)) ns -> Forall (Forall lit_sane) ns ->
  forall Inv, sound_for nv Inv (fun a => Forall (fun n => ~ Forall (lit_holds a) n) ns) (refined_nogoods ns).
Proof. exact refined_sound. Qed.
Print Assumptions C32_watched_nogoods_sound_partial.

Example C32_example : let ns := [[cond_eq (VSimple 0) 1; cond_ge (VView 1 true 4) 2]; [cond_lt (VSimple 0) 1]] in
  let d := [[(0, 1)]; [(0, 5)]] in
  Forall (Forall (fun c => var_known d (c_var c) /\ cond_sane c)) ns /\
  map (fun p => apply_lits d (o_infer (p_run p (mk_in d [] [] [] [] (fun _ => false))))) (fst (nogoods ns false d)) =
    [([[(1, 1)]; [(3, 5)]], [(0%nat, Instantiated); (1%nat, BoundsChanged)], false)].
Proof. cbv zeta. split; [repeat constructor; simpl; lia|]. vm_compute. reflexivity. Qed.
