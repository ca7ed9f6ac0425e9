(** Properties of handles, domains, inference and backtracking. *)
From Coq Require Import ZArith List Permutation Lia.
From Verif Require Import IntervalSet IntervalSetSpec Vars VarsSpec VarsProofs IntervalSetProofs State StateSpec StateProofs
  Epochs EpochsSpec EpochsProofs.
Import ListNotations.
Local Open Scope Z_scope.

(** C05: a handle built by any nesting of offsets and negations has the value of
    the arithmetic expression it was written as. *)
Theorem C05_handle_value : forall a h, var_value a (handle_build h) = handle_value a h.
Proof. exact handle_build_value. Qed.
Print Assumptions C05_handle_value.

Example C05_handle_value_example :
  handle_build (HNeg (HMinus (HNeg (HPlus (HVar (VSimple 3)) 5)) 2)) = VView 3 false 7.
Proof. reflexivity. Qed.

(** C05: every accessor reports exactly the possible values of the handle. *)
Theorem C05_accessors : forall d v, domains_ok d -> var_known d v ->
  (possible d v (lower_bound d v) /\ forall x, possible d v x -> lower_bound d v <= x) /\
  (possible d v (upper_bound d v) /\ forall x, possible d v x -> x <= upper_bound d v) /\
  bounds d v = (lower_bound d v, upper_bound d v) /\
  (forall x, in_domain d v x = true <-> possible d v x) /\
  (forall x, optional_single_value d v = Some x <-> (forall y, possible d v y <-> y = x)) /\
  (has_single_value d v = true <-> exists x, forall y, possible d v y <-> y = x) /\
  (domain_has_holes d v = true <-> exists a b c, a < b < c /\ possible d v a /\ ~ possible d v b /\ possible d v c) /\
  ((forall x, In x (each_value d v) <-> possible d v x) /\ NoDup (each_value d v) /\
    Z.of_nat (length (each_value d v)) = domain_size d v) /\
  represents (copy_of_values d v) (possible d v).
Proof. exact view_accessors. Qed.
Print Assumptions C05_accessors.

Theorem C05_intersection_tests : forall d v, domains_ok d -> var_known d v ->
  (forall s, well_formed s -> (domain_intersects_with d v s = true <-> exists x, possible d v x /\ member x s)) /\
  (forall w, var_known d w -> (domains_intersect d v w = true <-> exists x, possible d v x /\ possible d w x)).
Proof. exact intersect_accessors. Qed.
Print Assumptions C05_intersection_tests.

Example C05_example : let d := [[(1, 3); (7, 9)]; [(-4, -2)]] in
  domains_ok d /\ var_known d (VView 0 true 2) /\
  each_value d (VView 0 true 2) = [1; 0; -1; -5; -6; -7] /\
  copy_of_values d (VView 0 true 2) = [(-7, -5); (-1, 1)] /\
  domains_intersect d (VView 0 true 2) (VSimple 1) = false.
Proof.
  simpl. split; [|split; [repeat constructor|repeat split]].
  intros [|[|n]] Hn; simpl in *; try lia.
  - split; [lia|]. exists 1. apply member_cons. lia.
  - split; [lia|]. exists (-3). apply member_cons. lia.
Qed.

(** C06: an inference reports a contradiction exactly when no assignment within
    the domains satisfies the literal; otherwise it keeps exactly the assignments
    that do. No other variable is touched. *)
Theorem C06_inference_exact : forall d l i d', domains_ok d -> lit_known d l -> infer d l = (i, d') ->
  (i = Contradiction <-> forall a, within a d -> ~ lit_holds a l) /\
  (i <> Contradiction -> domains_ok d' /\ narrowed_to d' d (fun a => lit_holds a l)) /\
  length d' = length d /\
  forall n, lit_underlying l <> Some n -> nth n d' [] = nth n d [].
Proof. exact infer_exact. Qed.
Print Assumptions C06_inference_exact.

Example C06_example :
  infer [[(1, 9)]; [(0, 1)]] (LCond (mk_cond (VView 0 true 10) OpNotInRange 3 5)) =
    (InteriorValuesChanged, [[(1, 4); (8, 9)]; [(0, 1)]]) /\
  infer [[(1, 9)]] (LCond (mk_cond (VView 0 true 10) OpLess 1 0)) = (Contradiction, [[]]).
Proof. split; reflexivity. Qed.

(** C07: the reported kind of change. *)
Theorem C07_change_kind : forall d l i d', domains_ok d -> lit_known d l -> infer d l = (i, d') ->
  match lit_underlying l with
  | Some n => accurate i (nth n d []) (nth n d' [])
  | None => i = NoChange \/ i = Contradiction
  end.
Proof. exact infer_accurate. Qed.
Print Assumptions C07_change_kind.

(** The four kinds are mutually exclusive, so each is reported exactly when its
    description applies. *)
Theorem C07_kinds_exact : forall i s s', i <> Contradiction -> accurate i s s' ->
  (i = NoChange <-> s' = s) /\
  (i = Instantiated <-> s' <> s /\ singleton s') /\
  (i = BoundsChanged <-> s' <> s /\ ~ singleton s' /\ ~ same_bounds s s') /\
  (i = InteriorValuesChanged <-> s' <> s /\ ~ singleton s' /\ same_bounds s s').
Proof. exact accurate_exact. Qed.
Print Assumptions C07_kinds_exact.

Example C07_example :
  map (fun l => fst (infer [[(1, 3); (5, 5)]] (LCond l)))
    [cond_ne (VSimple 0) 2; cond_ne (VSimple 0) 4; cond_ne (VSimple 0) 5; cond_ge (VSimple 0) 4;
     cond_lt (VSimple 0) 5; cond_gt (VSimple 0) 5] =
  [InteriorValuesChanged; NoChange; BoundsChanged; Instantiated; BoundsChanged; Contradiction].
Proof. reflexivity. Qed.

(** C08: testing a literal that the public factories can build. *)
Theorem C08_test_literal : forall d l, domains_ok d -> lit_known d l -> lit_sane l ->
  (test_literal d l = DefinitelyTrue <-> forall a, within a d -> lit_holds a l) /\
  (test_literal d l = DefinitelyFalse <-> forall a, within a d -> ~ lit_holds a l).
Proof. exact test_exact. Qed.
Print Assumptions C08_test_literal.

Theorem C08_negation : forall a l, lit_holds a (lit_not l) <-> ~ lit_holds a l.
Proof. exact lit_not_holds. Qed.
Print Assumptions C08_negation.

Theorem C08_negation_swaps_answers : forall d l, domains_ok d -> lit_known d l -> lit_sane l ->
  (test_literal d (lit_not l) = DefinitelyTrue <-> test_literal d l = DefinitelyFalse) /\
  (test_literal d (lit_not l) = DefinitelyFalse <-> test_literal d l = DefinitelyTrue).
Proof. exact test_swap. Qed.
Print Assumptions C08_negation_swaps_answers.

Theorem C08_literally : forall l b, is_literally_true_or_false l = Some b -> forall a, lit_holds a l <-> b = true.
Proof. exact literally_spec. Qed.
Print Assumptions C08_literally.

(** Without the restriction to the factories the statement is false: a range
    condition assembled directly with its bounds crossed is reported undecided
    although no value satisfies it. *)
Theorem C08_crossed_range_refuted : exists d c, domains_ok d /\ cond_known d c /\
  (forall a, within a d -> ~ cond_holds a c) /\ test_literal d (LCond c) <> DefinitelyFalse.
Proof. exact test_empty_range_refuted. Qed.
Print Assumptions C08_crossed_range_refuted.

Example C08_example :
  map (fun l => test_literal [[(1, 3); (5, 5)]] (LCond l))
    [cond_eq (VSimple 0) 4; mk_cond (VSimple 0) OpNotInRange 4 4; cond_lt (VView 0 true 0) 0; cond_ge (VSimple 0) 2] =
  [DefinitelyFalse; DefinitelyTrue; DefinitelyTrue; Undecided].
Proof. reflexivity. Qed.

(** C09: after any history, open an epoch, run any further history, and
    backtrack: the whole state is what it was, and the callbacks run since then
    are exactly the ones registered since then. *)
Theorem C09_backtrack_restores : forall (A : Type) (before : list (st_op A)) base ts0 ran0 t st ops st' ts' ran,
  run_st_ops before (initial_state, [], []) = Some (base, ts0, ran0) ->
  new_epoch base = (t, st) ->
  run_st_ops ops (st, [], []) = Some (st', ts', ran) ->
  fst (backtrack t st') = base /\
  Permutation (ran ++ snd (backtrack t st')) (flat_map registered_by ops).
Proof. exact @backtrack_restores_reachable. Qed.
Print Assumptions C09_backtrack_restores.

Example C09_example :
  exists base st' ts' ran,
    run_st_ops [SAllocate 1 9; SAddConstraintState [4]; SOnBacktrack 100%nat] (initial_state, [], []) = Some (base, [], []) /\
    run_st_ops [SGuess (LCond (cond_lt (VSimple 0) 5)); SOnBacktrack 1%nat; SNewEpoch; SOnBacktrack 2%nat;
                SInfer (LCond (cond_ne (VSimple 0) 1)); SSetConstraintState 0 [7]; SBacktrack 0; SOnBacktrack 3%nat;
                SNewEpoch; SOnBacktrack 4%nat; SOnBacktrack 5%nat]
      (snd (new_epoch base), [], []) = Some (st', ts', ran) /\
    ran = [2]%nat /\ snd (backtrack (fst (new_epoch base)) st') = [4; 5; 1; 3]%nat.
Proof. vm_compute. repeat eexists. Qed.

(** C22 (conditions): the comparison operators on a handle and a value mean what
    they say; the range factories throw exactly on crossed bounds. *)
Theorem C22_conditions : forall a v x,
  (cond_holds a (cond_eq v x) <-> var_value a v = x) /\
  (cond_holds a (cond_ne v x) <-> var_value a v <> x) /\
  (cond_holds a (cond_lt v x) <-> var_value a v < x) /\
  (cond_holds a (cond_ge v x) <-> var_value a v >= x) /\
  (cond_holds a (cond_le v x) <-> var_value a v <= x) /\
  (cond_holds a (cond_gt v x) <-> var_value a v > x).
Proof. exact cond_sugar_holds. Qed.
Print Assumptions C22_conditions.

Theorem C22_range_conditions : forall a v lo hi,
  (lo <= hi -> exists c c', cond_in_range v lo hi = Some c /\ cond_not_in_range v lo hi = Some c' /\
    (cond_holds a c <-> lo <= var_value a v <= hi) /\
    (cond_holds a c' <-> ~ (lo <= var_value a v <= hi)) /\ cond_sane c /\ cond_sane c') /\
  (hi < lo -> cond_in_range v lo hi = None /\ cond_not_in_range v lo hi = None).
Proof. exact range_factories. Qed.
Print Assumptions C22_range_conditions.

Example C22_example : cond_holds (fun _ => 4) (cond_le (VView 0 true 10) 6) /\
  ~ cond_holds (fun _ => 4) (cond_gt (VView 0 true 10) 6).
Proof. unfold cond_holds; simpl. split; lia. Qed.
