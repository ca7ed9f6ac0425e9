(** Properties of individual constraints. *)
From Coq Require Import ZArith List Lia.
From Verif Require Import IntervalSet IntervalSetSpec IntervalSetProofs Vars VarsSpec State StateSpec Epochs Engine EngineSpec
  Tracker SessionSpec ContractSpec ContractProofs Reify ReifySpec Equals EqualsProofs Comparison ComparisonProofs
  ConsistencySpec Quiet Plus PlusProofs EqualsConsistencyProofs.
Import ListNotations.
Local Open Scope Z_scope.

(** C23: the four comparisons. *)
Theorem C23_comparison : forall d0 v1 v2, domains_ok d0 -> var_known d0 v1 -> var_known d0 v2 ->
  posts d0 (less_than v1 v2) [v1; v2] (fun a => var_value a v1 < var_value a v2) /\
  posts d0 (less_than_equal v1 v2) [v1; v2] (fun a => var_value a v1 <= var_value a v2) /\
  posts d0 (greater_than v1 v2) [v2; v1] (fun a => var_value a v1 > var_value a v2) /\
  posts d0 (greater_than_equal v1 v2) [v2; v1] (fun a => var_value a v1 >= var_value a v2).
Proof. exact comparison_posts. Qed.
Print Assumptions C23_comparison.

(** C23: their half-reified and fully reified forms. *)
Theorem C23_reified_comparison : forall d0 v1 v2 c, domains_ok d0 -> var_known d0 v1 -> var_known d0 v2 -> cond_known d0 c -> cond_sane c ->
  (posts d0 (less_than_if v1 v2 c) [v1; v2; c_var c] (fun a => cond_holds a c -> var_value a v1 < var_value a v2) /\
   posts d0 (less_than_equal_if v1 v2 c) [v1; v2; c_var c] (fun a => cond_holds a c -> var_value a v1 <= var_value a v2) /\
   posts d0 (greater_than_if v1 v2 c) [v2; v1; c_var c] (fun a => cond_holds a c -> var_value a v1 > var_value a v2) /\
   posts d0 (greater_than_equal_if v1 v2 c) [v2; v1; c_var c] (fun a => cond_holds a c -> var_value a v1 >= var_value a v2)) /\
  (posts d0 (less_than_iff v1 v2 c) [v1; v2; c_var c] (fun a => cond_holds a c <-> var_value a v1 < var_value a v2) /\
   posts d0 (less_than_equal_iff v1 v2 c) [v1; v2; c_var c] (fun a => cond_holds a c <-> var_value a v1 <= var_value a v2) /\
   posts d0 (greater_than_iff v1 v2 c) [v2; v1; c_var c] (fun a => cond_holds a c <-> var_value a v1 > var_value a v2) /\
   posts d0 (greater_than_equal_iff v1 v2 c) [v2; v1; c_var c] (fun a => cond_holds a c <-> var_value a v1 >= var_value a v2)).
Proof. exact reified_comparison_posts. Qed.
Print Assumptions C23_reified_comparison.

(** Three variables 0..5, 0..5 and 0..1, with x < y + 3 reified by the third: the
    hypotheses hold, there is an invariant of the kind [correct_on] asks for, and
    the constructors do not throw. *)
Example C23_example : let d0 := [[(0, 5)]; [(0, 5)]; [(0, 1)]] in
  let v1 := VSimple 0 in let v2 := VView 1 false 3 in let c := cond_eq (VSimple 2) 1 in
  domains_ok d0 /\ var_known d0 v1 /\ var_known d0 v2 /\ cond_known d0 c /\ cond_sane c /\
  stable 3 (fun d _ => inside d0 d) /\ inside d0 d0 /\
  less_than_iff v1 v2 c <> None /\ less_than v1 v2 <> None /\ less_than v1 v1 = None.
Proof.
  cbv zeta. split; [|split; [|split; [|split; [|split; [|split; [|split; [|split; [|split]]]]]]]]; try discriminate; try reflexivity; simpl; try lia; try exact Logic.I.
  - intros [|[|[|n]]] Hn; simpl in *; try lia; (split; [lia|]); exists 0; apply member_cons; lia.
  - unfold cond_known. simpl. lia.
  - apply stable_inside.
  - intros a W. exact W.
Qed.

(** C24: equality and disequality. *)
Theorem C24_equality : forall d0 v1 v2, domains_ok d0 -> var_known d0 v1 -> var_known d0 v2 ->
  posts d0 (equals v1 v2) [v1; v2] (fun a => var_value a v1 = var_value a v2) /\
  posts d0 (not_equals v1 v2) [v1; v2] (fun a => var_value a v1 <> var_value a v2).
Proof. exact equality_posts. Qed.
Print Assumptions C24_equality.

(** C24: equality is domain consistent, if the two handles are about different
    variables: once its propagators have nothing more to infer, each value left for
    either is one that both can take. *)
Theorem C24_equality_consistent : forall d0 D v1 v2 k, var_known d0 v1 -> var_known d0 v2 -> unrelated v1 v2 -> equals v1 v2 = Some k ->
  domains_ok D -> length D = length d0 -> (forall p, In p (fst (k d0)) -> rerun_is_quiet p D) ->
  domain_consistent D [v1; v2] (fun a => var_value a v1 = var_value a v2).
Proof. exact equals_consistent. Qed.
Print Assumptions C24_equality_consistent.

Example C24_consistent_example : let d0 := [[(0, 9)]; [(-20, 20)]] in let D := [[(1, 2); (5, 7)]; [(-4, -2); (1, 2)]] in
  domains_ok D /\ unrelated (VSimple 0) (VView 1 true 3) /\
  exists k, equals (VSimple 0) (VView 1 true 3) = Some k /\ fst (k d0) <> [] /\ forall p, In p (fst (k d0)) -> rerun_is_quiet p D.
Proof.
  cbv zeta. split; [|split].
  - intros [|[|n]] Hn; simpl in *; try lia; (split; [lia|]); [exists 1|exists (-3)]; apply member_cons; lia.
  - intros n E F. simpl in *. congruence.
  - eexists. split; [reflexivity|]. split; [discriminate|]. intros p [<-|[]] i E. destruct i. simpl in E. subst. vm_compute. reflexivity.
Qed.

(** C24: their reified forms. *)
Theorem C24_reified_equality : forall d0 v1 v2 c, domains_ok d0 -> var_known d0 v1 -> var_known d0 v2 -> cond_known d0 c -> cond_sane c ->
  posts d0 (equals_if v1 v2 c) [v1; v2; c_var c] (fun a => cond_holds a c -> var_value a v1 = var_value a v2) /\
  posts d0 (equals_iff v1 v2 c) [v1; v2; c_var c] (fun a => cond_holds a c <-> var_value a v1 = var_value a v2) /\
  posts d0 (not_equals_if v1 v2 c) [v1; v2; c_var c] (fun a => cond_holds a c -> var_value a v1 <> var_value a v2) /\
  posts d0 (not_equals_iff v1 v2 c) [v1; v2; c_var c] (fun a => cond_holds a c <-> var_value a v1 <> var_value a v2).
Proof. exact reified_equality_posts. Qed.
Print Assumptions C24_reified_equality.

(** Domains with holes, a negated view, and a control condition on one of the two
    variables themselves. *)
Example C24_example : let d0 := [[(0, 2); (5, 9)]; [(-7, -4); (-1, 3)]] in
  let v1 := VSimple 0 in let v2 := VView 1 true 2 in let c := cond_ge (VSimple 0) 6 in
  domains_ok d0 /\ var_known d0 v1 /\ var_known d0 v2 /\ cond_known d0 c /\ cond_sane c /\
  (forall k, equals v1 v2 = Some k ->
     map (fun p => apply_lits d0 (o_infer (p_run p (mk_in d0 [] [] [] [] (fun _ => false))))) (fst (k d0)) =
     [([[(0, 2); (6, 9)]; [(-7, -4); (0, 2)]], [(0%nat, InteriorValuesChanged); (1%nat, BoundsChanged); (1%nat, InteriorValuesChanged)], false)]) /\
  not_equals v1 v2 <> None /\ not_equals v1 v1 = None.
Proof.
  cbv zeta. split; [|split; [|split; [|split; [|split; [|split; [|split]]]]]]; try discriminate; try reflexivity; simpl; try lia; try exact Logic.I.
  - intros [|[|n]] Hn; simpl in *; try lia.
    + split; [lia|]. exists 0. apply member_cons. lia.
    + split; [lia|]. exists (-5). apply member_cons. lia.
  - unfold cond_known. simpl. lia.
  - intros k [= <-]. vm_compute. reflexivity.
Qed.

(** C25: a + b = r, and its propagator: what it leaves is bounds consistent, and
    running it again straight away does nothing, as it claims. *)
Theorem C25_plus : forall d0 a b r, Forall (var_known d0) [a; b; r] ->
  correct_on d0 (plus_bc a b r) [a; b; r] (fun s => var_value s a + var_value s b = var_value s r) /\
  forall Inv p d, In p (fst (plus_bc a b r d0)) -> outcome (length d0) Inv p d ->
    bounds_consistent d [a; b; r] (fun xs => match xs with [x; y; z] => x + y = z | _ => False end) /\ rerun_is_quiet p d.
Proof. exact plus_correct. Qed.
Print Assumptions C25_plus.

(** C25: a - b = r. *)
Theorem C25_minus : forall d0 a b r, Forall (var_known d0) [a; b; r] ->
  correct_on d0 (minus_bc a b r) [a; b; r] (fun s => var_value s a - var_value s b = var_value s r) /\
  forall Inv p d, In p (fst (minus_bc a b r d0)) -> outcome (length d0) Inv p d ->
    bounds_consistent d [a; b; r] (fun xs => match xs with [x; y; z] => x - y = z | _ => False end) /\ rerun_is_quiet p d.
Proof. exact minus_correct. Qed.
Print Assumptions C25_minus.

(** a in 0..10, b a view of the same variable, r in 5..7. *)
Example C25_example : let d0 := [[(0, 10)]; [(5, 7)]] in let a := VSimple 0 in let b := VView 0 false 2 in let r := VSimple 1 in
  Forall (var_known d0) [a; b; r] /\
  (forall p, In p (fst (plus_bc a b r d0)) ->
     apply_lits d0 (o_infer (p_run p (mk_in d0 [] [] [] [] (fun _ => false)))) =
       ([[(0, 5)]; [(5, 7)]], [(0%nat, BoundsChanged)], false)) /\
  outcome 2 (fun d _ => inside d0 d) (nth 0 (fst (plus_bc a b r d0)) nil_propagator) [[(0, 5)]; [(5, 7)]].
Proof.
  cbv zeta. split; [repeat constructor; simpl; lia|]. split.
  - intros p [<-|[]]. vm_compute. reflexivity.
  - exists (mk_in [[(0, 10)]; [(5, 7)]] [] [] [] [] (fun _ => false)). eexists. split; [|vm_compute; reflexivity].
    split; [|split; [reflexivity|intros s W; exact W]].
    intros [|[|n]] Hn; simpl in *; try lia; (split; [lia|]); [exists 0|exists 5]; apply member_cons; lia.
Qed.
