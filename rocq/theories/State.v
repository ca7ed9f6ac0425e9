(** Domains, inference, and the backtrackable state.

    Models gcs/innards/state.cc. The first part works on the domains of one
    epoch (a list of interval sets indexed by variable); the second part adds
    the stack of epochs. *)
From Coq Require Import ZArith List Bool.
From Verif Require Import IntervalSet Vars.
Import ListNotations.
Local Open Scope Z_scope.

(** The domains of one epoch: integer_variable_states.back(). *)
Definition domains : Type := list iset.

(** gcs/innards/state.cc:142-155 (state_of). Variables are always allocated
    before use; an index out of range is given the empty set. *)
Definition dom (d : domains) (n : nat) : iset := @nth (list (Z * Z)) n d [].

(** Assigning through the reference that state_of returns. *)
Fixpoint set_dom (d : domains) (n : nat) (s : iset) : domains :=
  match d, n with
  | [], _ => []
  | _ :: r, O => s :: r
  | x :: r, S n' => x :: set_dom r n' s
  end.

(** gcs/innards/state-fwd.hh:15-22 (Inference). *)
Inductive inference : Type :=
| NoChange | BoundsChanged | InteriorValuesChanged | Instantiated | Contradiction.

(** set.lower() and set.upper(); reading an empty domain is undefined behaviour
    in the C++ and does not happen while all domains are non-empty (an invariant
    that is proved); 0 here. *)
Definition set_lower (s : iset) : Z := match lower s with Some l => l | None => 0 end.
Definition set_upper (s : iset) : Z := match upper s with Some u => u | None => 0 end.

(** The recurring test set.lower() == set.upper(). *)
Definition is_single (s : iset) : bool := set_lower s =? set_upper s.

(** gcs/innards/state.cc:157-167. *)
Definition change_state_for_equal (s : iset) (value : Z) : inference * iset :=
  if negb (contains value s) then (Contradiction, s)
  else if is_single s then (NoChange, s)
  else (Instantiated, insert_at_end value (clear s)).

(** gcs/innards/state.cc:169-181. *)
Definition change_state_for_not_equal (s : iset) (value : Z) : inference * iset :=
  if negb (contains value s) then (NoChange, s)
  else if is_single s then (Contradiction, s)
  else
    let is_bound := (value =? set_lower s) || (value =? set_upper s) in
    let s' := erase value s in
    if is_single s' then (Instantiated, s')
    else (if is_bound then BoundsChanged else InteriorValuesChanged, s').

(** gcs/innards/state.cc:183-194. *)
Definition change_state_for_less_than (s : iset) (value : Z) : inference * iset :=
  if set_upper s <? value then (NoChange, s)
  else
    let s' := erase_greater_than (value - 1) s in
    if is_empty s' then (Contradiction, s')
    else if is_single s' then (Instantiated, s')
    else (BoundsChanged, s').

(** gcs/innards/state.cc:196-207. *)
Definition change_state_for_greater_than_or_equal (s : iset) (value : Z) : inference * iset :=
  if value <=? set_lower s then (NoChange, s)
  else
    let s' := erase_less_than value s in
    if is_empty s' then (Contradiction, s')
    else if is_single s' then (Instantiated, s')
    else (BoundsChanged, s').

(** gcs/innards/state.cc:209-228. *)
Definition change_state_for_not_in_range (s : iset) (lo hi : Z) : inference * iset :=
  if hi <? lo then (NoChange, s)
  else
    let old_lower := set_lower s in
    let old_upper := set_upper s in
    if (hi <? old_lower) || (old_upper <? lo) then (NoChange, s)
    else if negb (contains_any_of s (iset_of_bounds lo hi)) then (NoChange, s)
    else
      let s' := erase_range lo hi s in
      if is_empty s' then (Contradiction, s')
      else if is_single s' then (Instantiated, s')
      else (if negb (set_lower s' =? old_lower) || negb (set_upper s' =? old_upper)
            then BoundsChanged else InteriorValuesChanged, s').

(** gcs/innards/state.cc:230-246. *)
Definition change_state_for_in_range (s : iset) (lo hi : Z) : inference * iset :=
  if hi <? lo then (Contradiction, s)
  else
    let old_lower := set_lower s in
    let old_upper := set_upper s in
    if (lo <=? old_lower) && (old_upper <=? hi) then (NoChange, s)
    else
      let s1 := erase_less_than lo s in
      let s' := if is_empty s1 then s1 else erase_greater_than hi s1 in
      if is_empty s' then (Contradiction, s')
      else if is_single s' then (Instantiated, s')
      else (BoundsChanged, s').

(** gcs/innards/state.cc:35-60 (deview): the underlying variable or constant,
    with the negation and offset. *)
Inductive direct_var : Type := DSimple (n : nat) | DConst (c : Z).

Definition deview (v : var_id) : direct_var * bool * Z :=
  match v with
  | VSimple n => (DSimple n, false, 0)
  | VView n neg add => (DSimple n, neg, add)
  | VConst c => (DConst c, false, 0)
  end.

(** gcs/innards/state.cc:62-65 (apply_view). *)
Definition apply_view (v : Z) (negate_first : bool) (then_add : Z) : Z :=
  (if negate_first then - v else v) + then_add.

(** visit_actual with a state change on the simple variable
    (gcs/innards/state.cc:67-87). *)
Definition on_simple (d : domains) (n : nat) (f : iset -> inference * iset) : inference * domains :=
  let '(i, s') := f (dom d n) in (i, set_dom d n s').

(** gcs/innards/state.cc:250-253 and the other _on_constant functions to 268. *)
Definition on_constant (d : domains) (b : bool) : inference * domains :=
  (if b then NoChange else Contradiction, d).

(** gcs/innards/state.cc:296-304. *)
Definition infer_equal (d : domains) (v : var_id) (value : Z) : inference * domains :=
  let '(actual, neg, add) := deview v in
  let adjusted := if neg then - value + add else value - add in
  match actual with
  | DSimple n => on_simple d n (fun s => change_state_for_equal s adjusted)
  | DConst c => on_constant d (c =? adjusted)
  end.

(** gcs/innards/state.cc:306-314. *)
Definition infer_not_equal (d : domains) (v : var_id) (value : Z) : inference * domains :=
  let '(actual, neg, add) := deview v in
  let adjusted := if neg then - value + add else value - add in
  match actual with
  | DSimple n => on_simple d n (fun s => change_state_for_not_equal s adjusted)
  | DConst c => on_constant d (negb (c =? adjusted))
  end.

(** gcs/innards/state.cc:316-332. *)
Definition infer_less_than (d : domains) (v : var_id) (value : Z) : inference * domains :=
  let '(actual, neg, add) := deview v in
  if (neg : bool) then
    let adjusted := - value + add + 1 in
    match actual with
    | DSimple n => on_simple d n (fun s => change_state_for_greater_than_or_equal s adjusted)
    | DConst c => on_constant d (adjusted <=? c)
    end
  else
    let adjusted := value - add in
    match actual with
    | DSimple n => on_simple d n (fun s => change_state_for_less_than s adjusted)
    | DConst c => on_constant d (c <? adjusted)
    end.

(** gcs/innards/state.cc:334-350. *)
Definition infer_greater_than_or_equal (d : domains) (v : var_id) (value : Z) : inference * domains :=
  let '(actual, neg, add) := deview v in
  if (neg : bool) then
    let adjusted := - value + add + 1 in
    match actual with
    | DSimple n => on_simple d n (fun s => change_state_for_less_than s adjusted)
    | DConst c => on_constant d (c <? adjusted)
    end
  else
    let adjusted := value - add in
    match actual with
    | DSimple n => on_simple d n (fun s => change_state_for_greater_than_or_equal s adjusted)
    | DConst c => on_constant d (adjusted <=? c)
    end.

(** gcs/innards/state.cc:352-368. *)
Definition infer_not_in_range (d : domains) (v : var_id) (lo hi : Z) : inference * domains :=
  if hi <? lo then (NoChange, d)
  else
    let '(actual, neg, add) := deview v in
    let alo := if (neg : bool) then add - hi else lo - add in
    let ahi := if neg then add - lo else hi - add in
    match actual with
    | DSimple n => on_simple d n (fun s => change_state_for_not_in_range s alo ahi)
    | DConst c => on_constant d (negb ((alo <=? c) && (c <=? ahi)))
    end.

(** gcs/innards/state.cc:370-383. *)
Definition infer_in_range (d : domains) (v : var_id) (lo hi : Z) : inference * domains :=
  if hi <? lo then (Contradiction, d)
  else
    let '(actual, neg, add) := deview v in
    let alo := if (neg : bool) then add - hi else lo - add in
    let ahi := if neg then add - lo else hi - add in
    match actual with
    | DSimple n => on_simple d n (fun s => change_state_for_in_range s alo ahi)
    | DConst c => on_constant d ((alo <=? c) && (c <=? ahi))
    end.

(** gcs/innards/state.cc:281-294 (infer on a condition). *)
Definition infer_cond (d : domains) (c : cond) : inference * domains :=
  match c_op c with
  | OpEqual => infer_equal d (c_var c) (c_value c)
  | OpNotEqual => infer_not_equal d (c_var c) (c_value c)
  | OpLess => infer_less_than d (c_var c) (c_value c)
  | OpGreaterEqual => infer_greater_than_or_equal d (c_var c) (c_value c)
  | OpInRange => infer_in_range d (c_var c) (c_value c) (c_upper c)
  | OpNotInRange => infer_not_in_range d (c_var c) (c_value c) (c_upper c)
  end.

(** gcs/innards/state.cc:271-279 (infer on a literal). *)
Definition infer (d : domains) (l : literal) : inference * domains :=
  match l with
  | LCond c => infer_cond d c
  | LTrue => (NoChange, d)
  | LFalse => (Contradiction, d)
  end.

(** ** Reading domains *)

(** gcs/innards/state.cc:405-420 (lower_bound). *)
Definition lower_bound (d : domains) (v : var_id) : Z :=
  match v with
  | VSimple n => set_lower (dom d n)
  | _ =>
      let '(actual, neg, add) := deview v in
      let raw := match actual with
                 | DSimple n => if (neg : bool) then set_upper (dom d n) else set_lower (dom d n)
                 | DConst c => c
                 end in
      (if neg then - raw else raw) + add
  end.

(** gcs/innards/state.cc:422-433 (upper_bound). *)
Definition upper_bound (d : domains) (v : var_id) : Z :=
  match v with
  | VSimple n => set_upper (dom d n)
  | _ =>
      let '(actual, neg, add) := deview v in
      let raw := match actual with
                 | DSimple n => if (neg : bool) then set_lower (dom d n) else set_upper (dom d n)
                 | DConst c => c
                 end in
      (if neg then - raw else raw) + add
  end.

(** gcs/innards/state.cc:435-456 (bounds). *)
Definition bounds (d : domains) (v : var_id) : Z * Z :=
  match v with
  | VSimple n => (set_lower (dom d n), set_upper (dom d n))
  | _ =>
      let '(actual, neg, add) := deview v in
      let raw := match actual with
                 | DSimple n => (set_lower (dom d n), set_upper (dom d n))
                 | DConst c => (c, c)
                 end in
      if (neg : bool) then (- snd raw + add, - fst raw + add)
      else (fst raw + add, snd raw + add)
  end.

(** gcs/innards/state.cc:458-470 (in_domain). *)
Definition in_domain (d : domains) (v : var_id) (val : Z) : bool :=
  match v with
  | VSimple n => contains val (dom d n)
  | _ =>
      let '(actual, neg, add) := deview v in
      let adjusted := if (neg : bool) then - val + add else val - add in
      match actual with
      | DSimple n => contains adjusted (dom d n)
      | DConst c => c =? adjusted
      end
  end.

(** gcs/innards/state.cc:472-480 (domain_has_holes). *)
Definition domain_has_holes (d : domains) (v : var_id) : bool :=
  let '(actual, _, _) := deview v in
  match actual with
  | DSimple n => has_holes (dom d n)
  | DConst _ => false
  end.

(** gcs/innards/state.cc:482-505 (optional_single_value). *)
Definition optional_single_value (d : domains) (v : var_id) : option Z :=
  match v with
  | VSimple n => if is_single (dom d n) then Some (set_lower (dom d n)) else None
  | _ =>
      let '(actual, neg, add) := deview v in
      let raw := match actual with
                 | DSimple n => if is_single (dom d n) then Some (set_lower (dom d n)) else None
                 | DConst c => Some c
                 end in
      option_map (fun x => apply_view x neg add) raw
  end.

(** gcs/innards/state.cc:507-519 (has_single_value). *)
Definition has_single_value (d : domains) (v : var_id) : bool :=
  let '(actual, _, _) := deview v in
  match actual with
  | DSimple n => is_single (dom d n)
  | DConst _ => true
  end.

(** gcs/innards/state.cc:521-532 (domain_size). *)
Definition domain_size (d : domains) (v : var_id) : Z :=
  let '(actual, _, _) := deview v in
  match actual with
  | DSimple n => size (dom d n)
  | DConst _ => 1
  end.

(** gcs/innards/state.cc:534-559 (copy_of_values). *)
Definition copy_of_values (d : domains) (v : var_id) : iset :=
  let '(actual, neg, add) := deview v in
  let raw := match actual with
             | DSimple n => dom d n
             | DConst c => iset_of_bounds c c
             end in
  if negb neg && (add =? 0) then raw
  else if (neg : bool) then
    fold_left (fun result '(l, u) => insert_interval_at_end (- u + add) (- l + add) result) (rev raw) []
  else
    fold_left (fun result '(l, u) => insert_interval_at_end (l + add) (u + add) result) raw [].

(** gcs/innards/state.cc:561-585 (domain_intersects_with). *)
Definition domain_intersects_with (d : domains) (v : var_id) (set : iset) : bool :=
  let '(actual, neg, add) := deview v in
  if (neg : bool) then contains_any_of (copy_of_values d v) set
  else
    match actual with
    | DSimple n =>
        if add =? 0 then contains_any_of (dom d n) set
        else contains_any_of (copy_of_values d v) set
    | DConst c => contains (c + add) set
    end.

(** gcs/innards/state.cc:587-628 (domains_intersect). *)
Definition domains_intersect (d : domains) (v1 v2 : var_id) : bool :=
  match v1, v2 with
  | VSimple n1, VSimple n2 => contains_any_of (dom d n1) (dom d n2)
  | _, _ =>
      let '(actual1, neg1, add1) := deview v1 in
      let '(actual2, neg2, add2) := deview v2 in
      if neg1 || neg2 then
        if (neg1 : bool) then domain_intersects_with d v2 (copy_of_values d v1)
        else domain_intersects_with d v1 (copy_of_values d v2)
      else
        match actual1 with
        | DSimple n1 =>
            match actual2 with
            | DSimple n2 =>
                if (add1 =? 0) && (add2 =? 0) then contains_any_of (dom d n1) (dom d n2)
                else domain_intersects_with d v1 (copy_of_values d v2)
            | DConst c2 => in_domain d v1 (c2 + add2)
            end
        | DConst c1 => in_domain d v2 (c1 + add1)
        end
  end.

(** gcs/innards/state.cc:644-666 (each_value_immutable, each_value_mutable): the
    values in the order of the underlying domain, so a negated view yields them
    in descending order. *)
Definition each_value (d : domains) (v : var_id) : list Z :=
  let '(actual, neg, add) := deview v in
  match actual with
  | DSimple n => map (fun x => apply_view x neg add) (each (dom d n))
  | DConst c => [apply_view c neg add]
  end.

(** gcs/innards/state.hh: LiteralIs. *)
Inductive literal_is : Type := DefinitelyTrue | DefinitelyFalse | Undecided.

(** gcs/innards/state.cc:721-779 (test_literal on a condition). *)
Definition test_cond (d : domains) (c : cond) : literal_is :=
  let v := c_var c in
  match c_op c with
  | OpEqual =>
      if negb (in_domain d v (c_value c)) then DefinitelyFalse
      else if has_single_value d v then DefinitelyTrue
      else Undecided
  | OpLess =>
      if lower_bound d v <? c_value c then
        if upper_bound d v <? c_value c then DefinitelyTrue else Undecided
      else DefinitelyFalse
  | OpGreaterEqual =>
      if c_value c <=? upper_bound d v then
        if c_value c <=? lower_bound d v then DefinitelyTrue else Undecided
      else DefinitelyFalse
  | OpNotEqual =>
      if negb (in_domain d v (c_value c)) then DefinitelyTrue
      else if has_single_value d v then DefinitelyFalse
      else Undecided
  | OpInRange =>
      if (c_value c <=? lower_bound d v) && (upper_bound d v <=? c_upper c) then DefinitelyTrue
      else if negb (domain_intersects_with d v (iset_of_bounds (c_value c) (c_upper c))) then DefinitelyFalse
      else Undecided
  | OpNotInRange =>
      if negb (domain_intersects_with d v (iset_of_bounds (c_value c) (c_upper c))) then DefinitelyTrue
      else if (c_value c <=? lower_bound d v) && (upper_bound d v <=? c_upper c) then DefinitelyFalse
      else Undecided
  end.

(** gcs/innards/state.cc:711-719 (test_literal). *)
Definition test_literal (d : domains) (l : literal) : literal_is :=
  match l with
  | LCond c => test_cond d c
  | LTrue => DefinitelyTrue
  | LFalse => DefinitelyFalse
  end.
