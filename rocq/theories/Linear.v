(** Linear equalities and inequalities.

    Models gcs/constraints/linear/: utils.cc, propagate.cc, linear_equality.cc,
    linear_inequality.cc, linear_less_than_equal.cc and
    linear_greater_than_equal.cc. Arithmetic is on unbounded integers. Proofs,
    hints and reasons are left out. Not modelled: waking by slack watches
    (propagate.cc:383-441, off unless asked for through the environment),
    folding away fixed terms (propagate.cc:484-615) and tabulation
    (linear_equality.cc:268-315). *)
From Coq Require Import ZArith List Bool Arith.
From Verif Require Import IntervalSet Vars State Epochs Engine Tracker Quiet Reify Expressions.
Import ListNotations.
Local Open Scope Z_scope.

(** ** Tidying up *)

(** The first loop of tidy_up_linear, gcs/constraints/linear/utils.cc:30-41: the
    terms over actual variables, and the modifier. *)
Fixpoint strip_views (s : sum_of var_id) : list (Z * nat) * Z :=
  match s with
  | [] => ([], 0)
  | (c, v) :: r =>
      let '(ts, m) := strip_views r in
      match v with
      | VSimple n => ((c, n) :: ts, m)
      | VConst x => (ts, m - c * x)
      | VView n neg add => ((if neg then - c else c, n) :: ts, m - c * add)
      end
  end.

(** The sort, gcs/constraints/linear/utils.cc:43-44. *)
Fixpoint insert_term (t : Z * nat) (ts : list (Z * nat)) : list (Z * nat) :=
  match ts with
  | [] => [t]
  | u :: r => if Nat.leb (snd t) (snd u) then t :: ts else u :: insert_term t r
  end.

Definition sort_terms (ts : list (Z * nat)) : list (Z * nat) := fold_right insert_term [] ts.

(** Bringing in the coefficients of repeats,
    gcs/constraints/linear/utils.cc:46-57: [c] is at the term [(k, n)], [c_next]
    at the front of the list. *)
Fixpoint merge_from (k : Z) (n : nat) (ts : list (Z * nat)) : list (Z * nat) :=
  match ts with
  | [] => [(k, n)]
  | (k', n') :: r => if Nat.eqb n' n then merge_from (k + k') n r else (k, n) :: merge_from k' n' r
  end.

Definition merge_terms (ts : list (Z * nat)) : list (Z * nat) :=
  match ts with [] => [] | (k, n) :: r => merge_from k n r end.

(** TidiedUpLinear, gcs/constraints/linear/utils.hh:46-47. [units] is whether it is
    one of the first two alternatives, where every coefficient is one or minus
    one and is not stored. *)
Record tidied : Type := mk_tidied { units : bool; terms : list (Z * nat) }.

(** tidy_up_linear, gcs/constraints/linear/utils.cc:28-77. *)
Definition tidy_up_linear (s : sum_of var_id) : tidied * Z :=
  let '(ts, m) := strip_views s in
  let ts := filter (fun t => negb (fst t =? 0)) (merge_terms (sort_terms ts)) in
  (mk_tidied (forallb (fun t => (fst t =? 1) || (fst t =? -1)) ts) ts, m).

Definition term_vars (s : tidied) : list var_id := map (fun t => VSimple (snd t)) (terms s).

(** ** One inference *)

(** What infer decides for one term, given what is left for it and its bounds:
    to infer nothing, [var < x], or [var >= x]. *)
Inductive term_step : Type := StepNone | StepBelow (x : Z) | StepAtLeast (x : Z).

(** infer with a bool coefficient, gcs/constraints/linear/propagate.cc:100-132. *)
Definition unit_step (positive : bool) (remainder : Z) (b : Z * Z) : term_step :=
  if positive then
    if 1 + remainder <=? snd b then StepBelow (1 + remainder) else StepNone
  else
    if fst b <? - remainder then StepAtLeast (- remainder) else StepNone.

(** infer with an Integer coefficient, gcs/constraints/linear/propagate.cc:134-199.
    [None] is the exception. *)
Definition weighted_step (coeff remainder : Z) (b : Z * Z) : option term_step :=
  if (0 <? coeff) && (0 <=? remainder) then
    let x := 1 + Z.quot remainder coeff in Some (if x <=? snd b then StepBelow x else StepNone)
  else if (0 <? coeff) && (remainder <? 0) then
    let x := 1 + - Z.quot (- remainder + coeff - 1) coeff in Some (if x <=? snd b then StepBelow x else StepNone)
  else if (coeff <? 0) && (0 <=? remainder) then
    let x := Z.quot remainder coeff in Some (if fst b <? x then StepAtLeast x else StepNone)
  else if (coeff <? 0) && (remainder <? 0) then
    let x := Z.quot (- remainder + - coeff - 1) (- coeff) in Some (if fst b <? x then StepAtLeast x else StepNone)
  else None.

(** The two overloads. A zero coefficient never reaches this
    (LinearProofs.step_for_some). *)
Definition step_for (units : bool) (coeff remainder : Z) (b : Z * Z) : term_step :=
  if units then unit_step (0 <? coeff) remainder b
  else match weighted_step coeff remainder b with Some s => s | None => StepNone end.

(** Making the inference, and refreshing the bounds from where it landed:
    infer_less_than_or_stop_with_updated_bound and
    infer_greater_than_or_equal_or_stop_with_updated_bound,
    gcs/innards/inference_tracker.hh:447-472. *)
Definition take_step (n : nat) (s : term_step) (t : tracker) (b : Z * Z) : tracker * (Z * Z) :=
  match s with
  | StepNone => (t, b)
  | StepBelow x => let t' := tell_lt (VSimple n) x t in (t', (fst b, upper_bound (t_domains t') (VSimple n)))
  | StepAtLeast x => let t' := tell_ge (VSimple n) x t in (t', (lower_bound (t_domains t') (VSimple n), snd b))
  end.

(** ** Sweeps *)

(** The least that a term can contribute. *)
Definition contribution (c : Z) (b : Z * Z) : Z := if 0 <=? c then c * fst b else c * snd b.

(** compute_lower_sum, gcs/constraints/linear/propagate.cc:230-243, and the same
    for the inverse, lines 300-308. *)
Fixpoint lower_sum (sign : Z) (ts : list (Z * nat)) (bs : list (Z * Z)) : Z :=
  match ts, bs with
  | (c, _) :: ts', b :: bs' => contribution (sign * c) b + lower_sum sign ts' bs'
  | _, _ => 0
  end.

(** The forward sweep, gcs/constraints/linear/propagate.cc:275-292. *)
Fixpoint forward_sweep (u : bool) (value sum : Z) (ts : list (Z * nat)) (bs : list (Z * Z)) (t : tracker) : tracker * list (Z * Z) :=
  match ts, bs with
  | (c, n) :: ts', b :: bs' =>
      let '(t1, b1) := take_step n (step_for u c (value - (sum - contribution c b)) b) t b in
      if t_failed t1 then (t1, b1 :: bs')
      else let '(t2, bs2) := forward_sweep u value sum ts' bs' t1 in (t2, b1 :: bs2)
  | _, _ => (t, bs)
  end.

(** The inverse sweep, gcs/constraints/linear/propagate.cc:310-335: coefficients
    are negated, and the sum is adjusted after each term. *)
Fixpoint inverse_sweep (u : bool) (value sum : Z) (ts : list (Z * nat)) (bs : list (Z * Z)) (t : tracker) : tracker * list (Z * Z) :=
  match ts, bs with
  | (c, n) :: ts', b :: bs' =>
      let without_me := sum - contribution (- c) b in
      let '(t1, b1) := take_step n (step_for u (- c) (- value - without_me) b) t b in
      if t_failed t1 then (t1, b1 :: bs')
      else let '(t2, bs2) := inverse_sweep u value (without_me + contribution (- c) b1) ts' bs' t1 in (t2, b1 :: bs2)
  | _, _ => (t, bs)
  end.

(** The loop, gcs/constraints/linear/propagate.cc:272-341. [None] is running out
    of fuel. *)
Fixpoint linear_loop (s : tidied) (value : Z) (equality : bool) (d : domains) (fuel : nat) (first : bool) (t : tracker) (bs : list (Z * Z))
  : option (tracker * prop_state) :=
  match fuel with
  | O => None
  | S k =>
      let '(t1, bs1) := forward_sweep (units s) value (lower_sum 1 (terms s) bs) (terms s) bs t in
      if t_failed t1 then Some (t1, Enable)
      else if negb equality || (negb first && Nat.eqb (count_inferences d t1) (count_inferences d t)) then Some (t1, EnableButIdempotent)
      else
        let '(t2, bs2) := inverse_sweep (units s) value (lower_sum (-1) (terms s) bs1) (terms s) bs1 t1 in
        if t_failed t2 then Some (t2, Enable)
        else if Nat.eqb (count_inferences d t2) (count_inferences d t1) then Some (t2, EnableButIdempotent)
        else linear_loop s value equality d k false t2 bs2
  end.

(** propagate_linear, gcs/constraints/linear/propagate.cc:203-344. *)
Definition propagate_linear (s : tidied) (value : Z) (equality : bool) : body := fun d =>
  match terms s with
  | [] => (if 0 <=? value then track d else tell_false (track d), DisableUntilBacktrack)
  | _ =>
      match linear_loop s value equality d (enough_fuel d) true (track d) (map (bounds d) (term_vars s)) with
      | Some r => r
      | None => (track d, Enable)
      end
  end.

(** ** Disequality *)

(** The search for a term whose variable is not fixed, and the sum of the others:
    gcs/constraints/linear/propagate.cc:648-662 and linear_equality.cc:93-107.
    [None] is finding two of them. *)
Fixpoint single_unset (d : domains) (ts : list (Z * nat)) (found : option (Z * nat)) (accum : Z) : option (option (Z * nat) * Z) :=
  match ts with
  | [] => Some (found, accum)
  | (c, n) :: r =>
      match optional_single_value d (VSimple n) with
      | Some x => single_unset d r found (accum + c * x)
      | None => match found with Some _ => None | None => single_unset d r (Some (c, n)) accum end
      end
  end.

(** propagate_linear_not_equals, gcs/constraints/linear/propagate.cc:642-695. *)
Definition propagate_not_equals (s : tidied) (value : Z) : body := fun d =>
  match single_unset d (terms s) None 0 with
  | None => (track d, Enable)
  | Some (None, accum) => (if accum =? value then tell_false (track d) else track d, DisableUntilBacktrack)
  | Some (Some (c, n), accum) =>
      let residual := value - accum in
      if Z.rem residual c =? 0 then
        let forbidden := Z.quot residual c in
        (if in_domain d (VSimple n) forbidden then tell_ne (VSimple n) forbidden (track d) else track d, DisableUntilBacktrack)
      else (track d, DisableUntilBacktrack)
  end.

(** ** Inequality *)

(** infer_cond_when_undecided, gcs/constraints/linear/linear_inequality.cc:290-329. *)
Definition inequality_verdict (s : tidied) (value : Z) (d : domains) : verdict :=
  let bs := map (bounds d) (term_vars s) in
  let min_possible := lower_sum 1 (terms s) bs in
  let max_possible := - lower_sum (-1) (terms s) bs in
  if value <? min_possible then VMustNotHold
  else if max_possible <=? value then VMustHold
  else VStillUndecided.

(** ReifiedLinearInequality: prepare, gcs/constraints/linear/linear_inequality.cc:92-147,
    and install_propagators, lines 209-374. *)
Definition reified_linear_le (coeff_vars : sum_of var_id) (value : Z) (r : reif) : constraint := fun d0 =>
  let '(s, modifier) := tidy_up_linear coeff_vars in
  let '(neg, neg_modifier) := tidy_up_linear (negate_terms coeff_vars) in
  (install_dispatcher
     (propagate_linear s (value + modifier) false)
     (propagate_linear neg (- value + neg_modifier - 1) false)
     (inequality_verdict s (value + modifier))
     (test_reif d0 r) r [] (term_vars s) [], []).

(** The constructors, gcs/constraints/linear/linear_less_than_equal.cc:6-19 and
    linear_greater_than_equal.cc:6-29. *)
Definition linear_le (s : sum_of var_id) (value : Z) : constraint := reified_linear_le s value RMustHold.
Definition linear_le_if (s : sum_of var_id) (value : Z) (c : cond) : constraint := reified_linear_le s value (RIf c).
Definition linear_le_iff (s : sum_of var_id) (value : Z) (c : cond) : constraint := reified_linear_le s value (RIff c).
Definition linear_ge (s : sum_of var_id) (value : Z) : constraint := reified_linear_le (negate_terms s) (- value) RMustHold.
Definition linear_ge_if (s : sum_of var_id) (value : Z) (c : cond) : constraint := reified_linear_le (negate_terms s) (- value) (RIf c).
Definition linear_ge_iff (s : sum_of var_id) (value : Z) (c : cond) : constraint := reified_linear_le (negate_terms s) (- value) (RIff c).

(** ** Equality *)

(** The part of propagate_reified_linear_equality_when_undecided that is reached
    when the condition is not decided,
    gcs/constraints/linear/linear_equality.cc:90-148. *)
Definition equality_verdict (s : tidied) (value : Z) (d : domains) : verdict :=
  match single_unset d (terms s) None 0 with
  | None => VStillUndecided
  | Some (None, accum) => if accum =? value then VMustHold else VMustNotHold
  | Some (Some (c, n), accum) =>
      let residual := value - accum in
      if Z.rem residual c =? 0 then
        if in_domain d (VSimple n) (Z.quot residual c) then VStillUndecided else VMustNotHold
      else VMustNotHold
  end.

(** propagate_reified_linear_equality_when_undecided,
    gcs/constraints/linear/linear_equality.cc:73-152. Unlike the reified
    dispatcher, it passes on what the enforcing pass claims. *)
Definition propagate_reified_equality (s : tidied) (value : Z) (r : reif) : body := fun d =>
  match test_reif d r with
  | EMustHold => propagate_linear s value true d
  | EMustNotHold => propagate_not_equals s value d
  | EDeactivated => (track d, DisableUntilBacktrack)
  | EUndecided c h n nh =>
      match equality_verdict s value d with
      | VStillUndecided => (track d, Enable)
      | VMustHold => (tell_option (cond_if_must_hold c h nh) (track d), DisableUntilBacktrack)
      | VMustNotHold => (tell_option (cond_if_must_not_hold c n) (track d), DisableUntilBacktrack)
      end
  end.

Definition is_nil {X : Type} (l : list X) : bool := match l with [] => true | _ => false end.

(** ReifiedLinearEquality: prepare and install_propagators without tabulation,
    gcs/constraints/linear/linear_equality.cc:172-195 and 244-444. *)
Definition reified_linear_eq (coeff_vars : sum_of var_id) (value : Z) (r : reif) : constraint := fun d0 =>
  let '(s, modifier) := tidy_up_linear coeff_vars in
  let vars := map snd coeff_vars in
  let fail := [body_initialiser (fun d => tell LFalse (track d))] in
  match test_reif d0 r with
  | EMustHold =>
      ([body_propagator (propagate_linear s (value + modifier) true) [] vars []],
       if is_nil (terms s) && negb (modifier =? - value) then fail else [])
  | EMustNotHold =>
      ([body_propagator (propagate_not_equals s (value + modifier)) vars [] []],
       if is_nil (terms s) && (modifier =? - value) then fail else [])
  | EDeactivated => ([], [])
  | EUndecided c _ _ _ =>
      let '(ch, bo) := trigger_for c in
      ([body_propagator (propagate_reified_equality s (value + modifier) r) (vars ++ ch) bo []], [])
  end.

(** literal_to_reif, gcs/constraints/linear/linear_equality.cc:506-515. *)
Definition literal_to_reif (of_cond : cond -> reif) (l : literal) : reif :=
  match l with LTrue => RMustHold | LFalse => RMustNotHold | LCond c => of_cond c end.

(** The constructors, gcs/constraints/linear/linear_equality.cc:500-540. *)
Definition linear_eq (s : sum_of var_id) (value : Z) : constraint := reified_linear_eq s value RMustHold.
Definition linear_eq_if (s : sum_of var_id) (value : Z) (l : literal) : constraint := reified_linear_eq s value (literal_to_reif RIf l).
Definition linear_eq_iff (s : sum_of var_id) (value : Z) (l : literal) : constraint := reified_linear_eq s value (literal_to_reif RIff l).
Definition linear_ne (s : sum_of var_id) (value : Z) : constraint := reified_linear_eq s value RMustNotHold.
Definition linear_ne_if (s : sum_of var_id) (value : Z) (l : literal) : constraint := reified_linear_eq s value (literal_to_reif RNotIf l).
Definition linear_ne_iff (s : sum_of var_id) (value : Z) (l : literal) : constraint :=
  reified_linear_eq s value (literal_to_reif RIff (lit_not l)).
