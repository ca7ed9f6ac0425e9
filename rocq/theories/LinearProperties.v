(** Properties of linear constraints. *)
From Coq Require Import ZArith List Bool Lia.
From Verif Require Import IntervalSet IntervalSetSpec IntervalSetProofs Vars VarsSpec State StateSpec Expressions ExpressionsSpec Epochs Engine EngineSpec
  Tracker SessionSpec ContractSpec Search ConsistencySpec Linear LinearSpec LinearProofs Solve SolveSpec
  Catalogue CatalogueSpec CatalogueProofs ExampleProblem SolveExample ConstraintExample.
Import ListNotations.
Local Open Scope Z_scope.

(** C27: LinearLessThanEqual and LinearGreaterThanEqual. *)
Theorem C27_inequality : forall d0 s value, domains_ok d0 -> Forall (var_known d0) (map snd s) ->
  correct_on d0 (linear_le s value) (map snd s) (fun a => weighted_sum s a <= value) /\
  correct_on d0 (linear_ge s value) (map snd s) (fun a => weighted_sum s a >= value).
Proof. exact linear_inequalities. Qed.
Print Assumptions C27_inequality.

Theorem C27_reified_inequality : forall d0 s value c, domains_ok d0 -> Forall (var_known d0) (map snd s ++ [c_var c]) -> cond_sane c ->
  correct_on d0 (linear_le_if s value c) (map snd s ++ [c_var c]) (fun a => cond_holds a c -> weighted_sum s a <= value) /\
  correct_on d0 (linear_le_iff s value c) (map snd s ++ [c_var c]) (fun a => cond_holds a c <-> weighted_sum s a <= value) /\
  correct_on d0 (linear_ge_if s value c) (map snd s ++ [c_var c]) (fun a => cond_holds a c -> weighted_sum s a >= value) /\
  correct_on d0 (linear_ge_iff s value c) (map snd s ++ [c_var c]) (fun a => cond_holds a c <-> weighted_sum s a >= value).
Proof. exact linear_reified_inequalities. Qed.
Print Assumptions C27_reified_inequality.

(** C27: LinearEquality and LinearNotEquals. *)
Theorem C27_equality : forall d0 s value, domains_ok d0 -> Forall (var_known d0) (map snd s) ->
  correct_on d0 (linear_eq s value) (map snd s) (fun a => weighted_sum s a = value) /\
  correct_on d0 (linear_ne s value) (map snd s) (fun a => weighted_sum s a <> value).
Proof. exact linear_equalities. Qed.
Print Assumptions C27_equality.

(** With a condition that has to turn into the equality, the sum must not be a
    constant less than the value. *)
Theorem C27_reified_equality_partial : forall d0 s value c, domains_ok d0 -> Forall (var_known d0) (map snd s ++ [c_var c]) -> cond_sane c ->
  correct_on d0 (linear_ne_if s value (LCond c)) (map snd s ++ [c_var c]) (fun a => cond_holds a c -> weighted_sum s a <> value) /\
  (workable s value ->
   correct_on d0 (linear_eq_if s value (LCond c)) (map snd s ++ [c_var c]) (fun a => cond_holds a c -> weighted_sum s a = value) /\
   correct_on d0 (linear_eq_iff s value (LCond c)) (map snd s ++ [c_var c]) (fun a => cond_holds a c <-> weighted_sum s a = value) /\
   correct_on d0 (linear_ne_iff s value (LCond c)) (map snd s ++ [c_var c]) (fun a => cond_holds a c <-> weighted_sum s a <> value)).
Proof. exact linear_reified_equalities. Qed.
Print Assumptions C27_reified_equality_partial.

(** Otherwise solving can report an assignment that violates the constraint: from
    b = 1 and [x - x = 5 if b = 1] with x and b in 0..1, b = 1 is reported. *)
Theorem C27_cancelled_terms_refuted : domains_ok cancel_domains /\ Forall (var_known cancel_domains) (mentions cancel_linear ++ mentions cancel_force) /\
  exists d, In d (reports (run (problem_of cancel_domains [cancel_force; cancel_linear] None) cancel_handles)) /\ (exists a, within a d) /\
  forall a, within a d -> ~ satisfies a cancel_linear.
Proof. exact (conj cancel_ok (conj cancel_known cancel_violated)). Qed.
Print Assumptions C27_cancelled_terms_refuted.

(** Constant conditions: the forms that do the right thing. *)
Theorem C27_constant_condition_partial : forall d0 s value, domains_ok d0 -> Forall (var_known d0) (map snd s) -> forall l, l = LTrue \/ l = LFalse ->
  correct_on d0 (linear_eq_iff s value l) (map snd s) (fun a => lit_holds a l <-> weighted_sum s a = value) /\
  correct_on d0 (linear_ne_iff s value l) (map snd s) (fun a => lit_holds a l <-> weighted_sum s a <> value) /\
  correct_on d0 (linear_eq_if s value LTrue) (map snd s) (fun a => weighted_sum s a = value).
Proof. exact linear_constant_conditions. Qed.
Print Assumptions C27_constant_condition_partial.

(** The others do not. A false condition should leave the constraint without effect,
    but x = 1 is not reported by LinearEqualityIf(x, 1, false) or
    LinearNotEqualsIf(x, 1, false) with x in 0..1. *)
Theorem C27_false_condition_refuted : exists a, within a lit_domains /\
  ~ (exists d, In d (reports (lit_run (linear_eq_if lit_sum 1 LFalse))) /\ within a d) /\ ~ (exists d, In d (reports (lit_run (linear_ne_if lit_sum 1 LFalse))) /\ within a d).
Proof. exact lit_unreported. Qed.
Print Assumptions C27_false_condition_refuted.

(** LinearNotEqualsIf(x, 1, true) reports x = 1. *)
Theorem C27_true_condition_refuted : exists d, In d (reports (lit_run (linear_ne_if lit_sum 1 LTrue))) /\ (exists a, within a d) /\ forall a, within a d -> weighted_sum lit_sum a = 1.
Proof. exact lit_violated. Qed.
Print Assumptions C27_true_condition_refuted.

(** C27: an inequality leaves exactly the values that some way of satisfying it
    within the domains uses, and another run would infer nothing. *)
Theorem C27_inequality_consistent : forall (d0 : domains) s value Inv p d, Forall (var_known d0) (map snd s) ->
  In p (fst (linear_le s value d0)) -> ConsistencySpec.outcome (length d0) Inv p d ->
  domain_consistent d (map snd s) (fun a => weighted_sum s a <= value) /\ rerun_is_quiet p d.
Proof. exact linear_le_consistent. Qed.
Print Assumptions C27_inequality_consistent.

(** C27: an equality leaves each value between sums that are too small and sums that
    are too large. *)
Theorem C27_equality_consistent : forall (d0 : domains) s value Inv p d, Forall (var_known d0) (map snd s) -> workable s value ->
  In p (fst (linear_eq s value d0)) -> ConsistencySpec.outcome (length d0) Inv p d ->
  sum_consistent d s value /\ rerun_is_quiet p d.
Proof. exact linear_eq_consistent. Qed.
Print Assumptions C27_equality_consistent.

(** C27: sums are rewritten without changing their values. *)
Theorem C27_tidying : forall s, let '(r, m) := tidy_up_linear s in NoDup (map snd (terms r)) /\ Forall (fun t => fst t <> 0) (terms r) /\
  forall a, weighted_sum s a = weighted_sum (map (fun t => (fst t, VSimple (snd t))) (terms r)) a - m.
Proof. exact tidied_sum. Qed.
Print Assumptions C27_tidying.

(** 3x - 2y + (1 - x) + 4 with x in 0..9 and y in 2..9, that is 2x - 2y + 5. *)
Example C27_example : let d0 := [[(0, 9)]; [(2, 9)]; [(0, 1)]] in
  let s := [(3, VSimple 0); (-2, VSimple 1); (1, VView 0 true 1); (4, VConst 1)] in
  let after k := map (fun p => fst (fst (apply_lits d0 (o_infer (p_run p (mk_in d0 [] [] [] [] (fun _ => false))))))) (fst (k d0)) in
  domains_ok d0 /\ Forall (var_known d0) (map snd s ++ [VSimple 2]) /\ workable s 3 /\ cond_sane (cond_eq (VSimple 2) 1) /\
  tidy_up_linear s = (mk_tidied false [(2, 0%nat); (-2, 1%nat)], -5) /\
  after (linear_le s (-6)) = [[[(0, 3)]; [(6, 9)]; [(0, 1)]]] /\
  after (linear_ge s 19) = [[[(9, 9)]; [(2, 2)]; [(0, 1)]]] /\
  after (linear_eq s 3) = [[[(1, 8)]; [(2, 9)]; [(0, 1)]]] /\
  after (linear_eq_iff s 40 (LCond (cond_eq (VSimple 2) 1))) = [d0] /\
  after (linear_le_iff s 40 (cond_eq (VSimple 2) 1)) = [[[(0, 9)]; [(2, 9)]; [(1, 1)]]].
Proof.
  cbv zeta. split; [|split; [|split; [|split]]].
  - intros [|[|[|k]]] Hk; simpl in *; try lia; (split; [lia|]); [exists 1|exists 2|exists 1]; apply member_cons; lia.
  - repeat constructor; simpl; lia.
  - left. exists (fun _ => 0), (fun n => if Nat.eqb n 0 then 1 else 0). vm_compute. discriminate.
  - exact Logic.I.
  - vm_compute. repeat split.
Qed.
