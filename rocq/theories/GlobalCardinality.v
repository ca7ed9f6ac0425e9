(** The global cardinality constraint at bounds consistency.

    Models gcs/constraints/global_cardinality/global_cardinality.cc and
    gcs/constraints/global_cardinality/bounds_global_cardinality.cc, without the proof
    log. The cover is a list of values and their counts. *)
From Coq Require Import ZArith List Bool Arith.
From Verif Require Import IntervalSet Vars State Epochs Engine Tracker Passes.
Import ListNotations.
Local Open Scope Z_scope.

Definition cover : Type := list (Z * var_id).

(** sort_cover_values, gcs/constraints/global_cardinality/global_cardinality.cc:50-66. *)
Fixpoint insert_cover (e : Z * var_id) (l : cover) : cover :=
  match l with
  | [] => [e]
  | e' :: r => if fst e <=? fst e' then e :: l else e' :: insert_cover e r
  end.

Definition sort_cover (l : cover) : cover := fold_right insert_cover [] l.

Definition how_many {X : Type} (f : X -> bool) (l : list X) : Z := Z.of_nat (length (filter f l)).

(** binary_search over a sorted range. *)
Definition listed (values : list Z) (x : Z) : bool := existsb (Z.eqb x) values.

(** ** Closed *)

(** The maximal runs of consecutive values among those not in the cover,
    gcs/constraints/global_cardinality/global_cardinality.cc:135-143. The last run comes
    first. *)
Definition add_to_runs (values : list Z) (runs : list (Z * Z)) (v : Z) : list (Z * Z) :=
  if listed values v then runs
  else match runs with
       | (lo, hi) :: r => if hi + 1 =? v then (lo, v) :: r else (v, v) :: runs
       | [] => [(v, v)]
       end.

Definition uncovered_runs (values : list Z) (d : domains) (v : var_id) : list (Z * Z) :=
  rev (fold_left (add_to_runs values) (each_value d v) []).

(** gcs/constraints/global_cardinality/global_cardinality.cc:131-148. *)
Definition closed_pass (vars : list var_id) (values : list Z) : prog :=
  sequence vars (fun v rest => Look (fun d =>
    sequence (uncovered_runs values d v) (fun run => Infer (LCond (mk_cond v OpNotInRange (fst run) (snd run)))) rest)) Stop.

(** ** One value *)

(** gcs/constraints/global_cardinality/bounds_global_cardinality.cc:69-145. *)
Definition remove_from_others (vars : list var_id) (value : Z) : prog -> prog :=
  sequence vars (fun v rest => Look (fun d =>
    infer_when (in_domain d v value && negb (has_single_value d v)) (LCond (cond_ne v value)) rest)).

Definition force_others (vars : list var_id) (value : Z) : prog -> prog :=
  sequence vars (fun v rest => Look (fun d =>
    if in_domain d v value && negb (has_single_value d v) then
      sequence (each_value d v) (fun w => infer_when (negb (w =? value)) (LCond (cond_ne v w))) rest
    else rest)).

Definition value_pass (vars : list var_id) (e : Z * var_id) (rest : prog) : prog :=
  Look (fun d =>
    let '(value, count) := e in
    let can := how_many (fun v => in_domain d v value) vars in
    let must := how_many (fun v => in_domain d v value && has_single_value d v) vars in
    let '(lb, ub) := bounds d count in
    infer_when (lb <? must) (LCond (cond_ge count must))
      (infer_when (can <? ub) (LCond (cond_le count can))
        ((if must =? ub then remove_from_others vars value else fun r => r)
          ((if (can =? lb) && (0 <? can) then force_others vars value else fun r => r) rest)))).

(** ** Runs of values *)

(** domain_subset_of_hall and domain_meets_hall, bounds_global_cardinality.cc:177-193. *)
Definition confined_to (d : domains) (hall : list Z) (v : var_id) : bool := forallb (listed hall) (each_value d v).
Definition may_meet (d : domains) (hall : list Z) (v : var_id) : bool := existsb (in_domain d v) hall.

(** The bounds of a count from those of the others, bounds_global_cardinality.cc:266-325. *)
Definition count_pass (confined potential cap demand : Z) (e : Z * var_id) (rest : prog) : prog :=
  Look (fun d =>
    let '(lb, ub) := bounds d (snd e) in
    let lower := confined - (cap - ub) in
    let upper := potential - (demand - lb) in
    infer_when (lb <? lower) (LCond (cond_ge (snd e) lower))
      (infer_when (upper <? ub) (LCond (cond_le (snd e) upper)) rest)).

(** Others lose the values, bounds_global_cardinality.cc:332-344. *)
Definition outsiders_leave (vars : list var_id) (hall : list Z) : prog -> prog :=
  sequence vars (fun v rest => Look (fun d =>
    if confined_to d hall v then rest
    else sequence hall (fun x rest => Look (fun d => infer_when (in_domain d v x) (LCond (cond_ne v x)) rest)) rest)).

(** Those that can take the values must, bounds_global_cardinality.cc:385-394. *)
Definition insiders_stay (insiders : list var_id) (hall : list Z) : prog -> prog :=
  sequence insiders (fun v rest => Look (fun d =>
    sequence (each_value d v) (fun x => infer_when (negb (listed hall x)) (LCond (cond_ne v x))) rest)).

(** One run of values, bounds_global_cardinality.cc:195-396. *)
Definition hall_pass (vars : list var_id) (run : cover) (cap demand : Z) (rest : prog) : prog :=
  Look (fun d =>
    let hall := map fst run in
    let confined := how_many (confined_to d hall) vars in
    let potential := filter (may_meet d hall) vars in
    let n := Z.of_nat (length potential) in
    sequence run (count_pass confined n cap demand)
      ((if cap <? confined then Infer LFalse else if confined =? cap then outsiders_leave vars hall else fun r => r)
        ((if n <? demand then Infer LFalse else if n =? demand then insiders_stay potential hall else fun r => r) rest))).

(** The runs with a given start, bounds_global_cardinality.cc:165-397. The bounds are
    those at the time when a value is added to the run. *)
Fixpoint longer_runs (vars : list var_id) (run : cover) (cap demand : Z) (more : cover) (rest : prog) : prog :=
  match more with
  | [] => rest
  | e :: r =>
      Look (fun d =>
        let '(lo, hi) := bounds d (snd e) in
        hall_pass vars (run ++ [e]) (cap + hi) (demand + lo) (longer_runs vars (run ++ [e]) (cap + hi) (demand + lo) r rest))
  end.

(** bounds_global_cardinality.cc:158-398. *)
Fixpoint all_runs (vars : list var_id) (c : cover) (rest : prog) : prog :=
  match c with
  | [] => rest
  | e :: r =>
      Look (fun d => let '(lo, hi) := bounds d (snd e) in longer_runs vars [e] hi lo r (all_runs vars r rest))
  end.

(** propagate_bounds_global_cardinality, bounds_global_cardinality.cc:52-401. *)
Definition bounds_pass (vars : list var_id) (c : cover) : prog :=
  sequence c (value_pass vars) (all_runs vars c Stop).

(** GlobalCardinality::install_propagators with the level BC,
    gcs/constraints/global_cardinality/global_cardinality.cc:112-161. The constraint is a
    copy in which the cover is sorted, lines 68-76. *)
Definition closed_propagators (closed : bool) (vars : list var_id) (values : list Z) : list propagator :=
  if closed then [body_propagator (once (closed_pass vars values)) vars [] []] else [].

Definition global_cardinality (closed : bool) (vars : list var_id) (values : list Z) (counts : list var_id) : constraint := fun d =>
  let c := sort_cover (combine values counts) in
  (closed_propagators closed vars (map fst c) ++ [body_propagator (once (bounds_pass vars c)) vars (map snd c) []], []).
