(** Properties of further constraints. *)
From Coq Require Import ZArith List Bool Lia.
From Verif Require Import IntervalSet IntervalSetSpec IntervalSetProofs Vars VarsSpec State StateSpec Epochs Engine EngineSpec
  Tracker SessionSpec ContractSpec Search Solve SolveSpec Logical LogicalProofs Abs AbsProofs Member MemberProofs MinMax MinMaxProofs Counting CountingProofs
  Catalogue CatalogueSpec CatalogueProofs ExampleProblem SolveExample ConstraintExample.
Import ListNotations.
Local Open Scope Z_scope.

(** C26: v2 = |v1|. *)
Theorem C26_abs : forall d0 v1 v2, var_known d0 v1 -> var_known d0 v2 ->
  correct_on d0 (abs_constraint v1 v2) [v1; v2] (fun a => var_value a v2 = Z.abs (var_value a v1)).
Proof. exact abs_correct. Qed.
Print Assumptions C26_abs.

(** x in -7..-3, -1..2, 6..9 and y in 0..7, not 4 or 5. *)
Example C26_example : let d0 := [[(-7, -3); (-1, 2); (6, 9)]; [(0, 3); (6, 7)]] in let v1 := VSimple 0 in let v2 := VSimple 1 in
  var_known d0 v1 /\ var_known d0 v2 /\
  map (fun p => fst (fst (apply_lits d0 (o_infer (p_run p (mk_in d0 [] [] [] [] (fun _ => false))))))) (fst (abs_constraint v1 v2 d0)) =
    [[[(-7, -6); (-3, -3); (-1, 2); (6, 7)]; [(0, 3); (6, 7)]]].
Proof. cbv zeta. split; [simpl; lia|]. split; [simpl; lia|]. vm_compute. reflexivity. Qed.

(** C30: the number of [vars] with the value of [v] is [n]; any of the handles may be
    about the same variable as any other. *)
Theorem C30_count : forall d0 vars v n, Forall (var_known d0) (vars ++ [v; n]) ->
  posts d0 (Some (count_constraint vars v n)) (vars ++ [v; n]) (fun a => counts (fun x => x = var_value a v) (map (var_value a) vars) (var_value a n)).
Proof. exact count_posts. Qed.
Print Assumptions C30_count.

(** C30: the number of [vars] with a value in [vs] is [n], if no variable is behind
    two different handles. *)
Theorem C30_among_partial : forall d0 vars vs n, Forall (var_known d0) (vars ++ [n]) ->
  (forall v, In v vars -> unrelated v n) -> (forall v w, In v vars -> In w vars -> v = w \/ unrelated v w) ->
  posts d0 (Some (among_constraint vars vs n)) (vars ++ [n]) (fun a => counts (fun x => In x vs) (map (var_value a) vars) (var_value a n)).
Proof. exact among_posts. Qed.
Print Assumptions C30_among_partial.

(** Among never throws. *)
Theorem C30_among_no_exception : forall nv vars vs n, Forall (var_below nv) vars -> var_below nv n ->
  forall d, domains_ok d -> length d = nv -> among_throws vars vs n d = false.
Proof. exact among_no_throw. Qed.
Print Assumptions C30_among_no_exception.

(** Without that condition the propagator disables itself too early, and solving
    reports assignments that violate the constraint: Among([x, y], {1}, x) with y = 1
    has no solution, but x = y = 1 is reported. *)
Theorem C30_among_counting_itself_refuted : domains_ok self_domains /\ Forall (var_known self_domains) (mentions self_among) /\
  exists d, In d (reports (run (problem_of self_domains [self_among] None) self_handles)) /\ (exists a, within a d) /\
  forall a, within a d -> ~ satisfies a self_among.
Proof. exact (conj self_ok (conj self_known self_violated)). Qed.
Print Assumptions C30_among_counting_itself_refuted.

(** Among([x, x + 1], {1}, 2) has no solution, but x = 1 is reported. *)
Theorem C30_among_views_refuted : domains_ok views_domains /\ Forall (var_known views_domains) (mentions views_among) /\
  exists d, In d (reports (run (problem_of views_domains [views_among] None) views_handles)) /\ (exists a, within a d) /\
  forall a, within a d -> ~ satisfies a views_among.
Proof. exact (conj views_ok (conj views_known views_violated)). Qed.
Print Assumptions C30_among_views_refuted.

(** C30: [r] is the least of [vars]; the greatest of [vars]. *)
Theorem C30_minimum : forall d0 vars r, Forall (var_known d0) (r :: vars) ->
  posts d0 (Some (array_min_max true vars r)) (r :: vars) (fun a => least (var_value a r) (map (var_value a) vars)).
Proof. exact minimum_posts. Qed.
Print Assumptions C30_minimum.

Theorem C30_maximum : forall d0 vars r, Forall (var_known d0) (r :: vars) ->
  posts d0 (Some (array_min_max false vars r)) (r :: vars) (fun a => greatest (var_value a r) (map (var_value a) vars)).
Proof. exact maximum_posts. Qed.
Print Assumptions C30_maximum.

(** They do not throw unless the result is another view of one of the variables. *)
Theorem C30_minmax_no_exception_partial : forall nv mn vars r, var_below nv r -> Forall (var_below nv) vars ->
  forall d, domains_ok d -> length d = nv -> vars <> [] -> (forall v, In v vars -> v = r \/ unrelated v r) -> minmax_throws mn vars r d = false.
Proof. exact minmax_no_throw. Qed.
Print Assumptions C30_minmax_no_exception_partial.

(** In that case they can: Max(x, 0, x + 1) with x in 0..1 throws rather than
    reporting that there is no solution. *)
Theorem C30_minmax_throws_refuted : domains_ok throw_domains /\ Forall (var_known throw_domains) (throw_result :: throw_vars) /\
  minmax_throws false throw_vars throw_result throw_domains = true.
Proof. exact (conj throw_ok (conj throw_known throw_throws)). Qed.
Print Assumptions C30_minmax_throws_refuted.

(** C30: [v] has one of the values, or the value of one of [vars]. *)
Theorem C30_in : forall d0 v vars values, Forall (var_known d0) (v :: vars) ->
  posts d0 (Some (in_constraint v vars values)) (v :: vars) (fun a => In (var_value a v) (values ++ map (var_value a) vars)).
Proof. exact in_posts. Qed.
Print Assumptions C30_in.

(** Four variables, with handles that are not aliased, and one that is. *)
Example C30_example : let d0 := [[(0, 2)]; [(1, 1)]; [(3, 5)]; [(1, 3)]] in let x := VSimple 0 in let y := VSimple 1 in let z := VSimple 2 in let n := VSimple 3 in
  let after k := map (fun p => fst (fst (apply_lits d0 (o_infer (p_run p (mk_in d0 [] [] [] [] (fun _ => false))))))) (fst (k d0)) in
  domains_ok d0 /\ Forall (var_known d0) [x; y; z; n] /\
  (forall v, In v [x; y; z] -> unrelated v n) /\ (forall v w, In v [x; y; z] -> In w [x; y; z] -> v = w \/ unrelated v w) /\
  after (count_constraint [x; y; z] x n) = [[[(0, 2)]; [(1, 1)]; [(3, 5)]; [(1, 2)]]] /\
  after (among_constraint [x; y; z] [1; 2; 3] (VView 3 false 2)) = [[[(1, 2)]; [(1, 1)]; [(3, 3)]; [(1, 1)]]] /\
  after (array_min_max true [x; y; z] n) = [[[(1, 2)]; [(1, 1)]; [(3, 5)]; [(1, 1)]]] /\
  after (array_min_max false [x; y] n) = [[[(0, 2)]; [(1, 1)]; [(3, 5)]; [(1, 2)]]] /\
  after (in_constraint x [y; z] [0]) = [[[(0, 1)]; [(1, 1)]; [(3, 5)]; [(1, 3)]]].
Proof.
  cbv zeta. split; [|split; [|split; [|split]]].
  - intros [|[|[|[|k]]]] Hk; simpl in *; try lia; (split; [lia|]); [exists 1|exists 1|exists 3|exists 1]; apply member_cons; lia.
  - repeat constructor; simpl; lia.
  - intros v [<-|[<-|[<-|[]]]] m [= <-] H; discriminate H.
  - intros v w [<-|[<-|[<-|[]]]] [<-|[<-|[<-|[]]]]; try (left; reflexivity); right; intros m [= <-] H; discriminate H.
  - vm_compute. repeat split.
Qed.

(** C31: And and Or over conditions. *)
Theorem C31_and : forall d0 lits reif, domains_ok d0 -> well_posed d0 (Conjunction lits reif) ->
  posts d0 (Some (and_lits lits reif)) (mentions (Conjunction lits reif)) (fun a => lit_holds a reif <-> Forall (lit_holds a) lits).
Proof. exact and_posts. Qed.
Print Assumptions C31_and.

Theorem C31_or : forall d0 lits reif, domains_ok d0 -> well_posed d0 (Disjunction lits reif) ->
  posts d0 (Some (or_lits lits reif)) (mentions (Disjunction lits reif)) (fun a => lit_holds a reif <-> Exists (lit_holds a) lits).
Proof. exact or_posts. Qed.
Print Assumptions C31_or.

(** The forms over variables, where nonzero means true. *)
Theorem C31_over_variables : forall d0 vars y, domains_ok d0 -> Forall (var_known d0) vars -> var_known d0 y ->
  correct_on d0 (and_vars vars) vars (fun a => Forall (fun v => var_value a v <> 0) vars) /\
  correct_on d0 (and_vars_iff vars y) (vars ++ [y]) (fun a => var_value a y <> 0 <-> Forall (fun v => var_value a v <> 0) vars) /\
  correct_on d0 (or_vars vars) vars (fun a => Exists (fun v => var_value a v <> 0) vars) /\
  correct_on d0 (or_vars_iff vars y) (vars ++ [y]) (fun a => var_value a y <> 0 <-> Exists (fun v => var_value a v <> 0) vars).
Proof. exact logical_vars_correct. Qed.
Print Assumptions C31_over_variables.

Example C31_example : let d0 := [[(0, 3)]; [(0, 3)]; [(0, 1)]] in
  let lits := [LCond (cond_ge (VSimple 0) 2); LCond (cond_ne (VView 1 true 3) 1); LTrue] in let reif := LCond (cond_eq (VSimple 2) 1) in
  domains_ok d0 /\ well_posed d0 (Conjunction lits reif) /\ well_posed d0 (Disjunction lits reif) /\
  let d1 := [[(0, 1)]; [(0, 3)]; [(0, 1)]] in
  map (fun p => fst (fst (apply_lits d1 (o_infer (p_run p (mk_in d1 [] [] [] [] (fun _ => false))))))) (fst (and_lits lits reif d0)) =
    [[[(0, 1)]; [(0, 3)]; [(0, 0)]]].
Proof.
  cbv zeta. split; [|split; [|split]].
  - intros [|[|[|k]]] Hk; simpl in *; try lia; (split; [lia|]); exists 0; apply member_cons; lia.
  - split; [repeat constructor; simpl; lia|]. split; [repeat constructor|exact Logic.I].
  - split; [repeat constructor; simpl; lia|]. split; [repeat constructor|exact Logic.I].
  - vm_compute. reflexivity.
Qed.
