(** Variable handles, conditions and literals.

    Models gcs/variable_id.hh, gcs/variable_id.cc, gcs/variable_condition.hh and
    gcs/innards/literal.cc. *)
From Coq Require Import ZArith List Bool.
Import ListNotations.
Local Open Scope Z_scope.

(** gcs/variable_id.hh: IntegerVariableID is a variant of
    SimpleIntegerVariableID (an index), ViewOfIntegerVariableID (an index,
    negate_first, then_add) and ConstantIntegerVariableID. *)
Inductive var_id : Type :=
| VSimple (index : nat)
| VView (index : nat) (negate_first : bool) (then_add : Z)
| VConst (const_value : Z).

(** gcs/variable_id.cc:9-26 (operator+ with an offset). *)
Definition var_plus (v : var_id) (o : Z) : var_id :=
  match v with
  | VSimple n => if o =? 0 then VSimple n else VView n false o
  | VConst c => VConst (c + o)
  | VView n neg add =>
      let then_add := add + o in
      if negb neg && (then_add =? 0) then VSimple n else VView n neg then_add
  end.

(** gcs/variable_id.cc:28-38 (operator- with an offset). *)
Definition var_minus (v : var_id) (o : Z) : var_id :=
  match v with
  | VSimple n => VView n false (- o)
  | VConst c => VConst (c - o)
  | VView n neg add => VView n neg (add - o)
  end.

(** gcs/variable_id.cc:40-50 (unary operator-). *)
Definition var_neg (v : var_id) : var_id :=
  match v with
  | VSimple n => VView n true 0
  | VConst c => VConst (- c)
  | VView n neg add => VView n (negb neg) (- add)
  end.

(** gcs/variable_condition.hh: VariableConditionOperator. *)
Inductive cond_op : Type :=
| OpEqual | OpNotEqual | OpGreaterEqual | OpLess | OpInRange | OpNotInRange.

(** gcs/variable_condition.hh: VariableConditionFrom; [c_upper] is 0 unless the
    operator is a range. *)
Record cond : Type := mk_cond { c_var : var_id; c_op : cond_op; c_value : Z; c_upper : Z }.

(** gcs/variable_condition.hh:113-158 (operators ==, !=, <, >=) *)
Definition cond_eq (v : var_id) (x : Z) : cond := mk_cond v OpEqual x 0.
Definition cond_ne (v : var_id) (x : Z) : cond := mk_cond v OpNotEqual x 0.
Definition cond_lt (v : var_id) (x : Z) : cond := mk_cond v OpLess x 0.
Definition cond_ge (v : var_id) (x : Z) : cond := mk_cond v OpGreaterEqual x 0.

(** gcs/variable_condition.hh:173-176 (operator<=). *)
Definition cond_le (v : var_id) (x : Z) : cond := mk_cond v OpLess (x + 1) 0.

(** gcs/variable_condition.hh:191-194 (operator>). *)
Definition cond_gt (v : var_id) (x : Z) : cond := mk_cond v OpGreaterEqual (x + 1) 0.

(** gcs/variable_condition.hh:208-215 (in_range); [None] is the exception. *)
Definition cond_in_range (v : var_id) (lo hi : Z) : option cond :=
  if hi <? lo then None
  else if lo =? hi then Some (mk_cond v OpEqual lo 0)
  else Some (mk_cond v OpInRange lo hi).

(** gcs/variable_condition.hh:229-236 (not_in_range); [None] is the exception. *)
Definition cond_not_in_range (v : var_id) (lo hi : Z) : option cond :=
  if hi <? lo then None
  else if lo =? hi then Some (mk_cond v OpNotEqual lo 0)
  else Some (mk_cond v OpNotInRange lo hi).

(** gcs/variable_condition.hh:245-258 (operator!). *)
Definition cond_not (c : cond) : cond :=
  match c_op c with
  | OpEqual => mk_cond (c_var c) OpNotEqual (c_value c) 0
  | OpNotEqual => mk_cond (c_var c) OpEqual (c_value c) 0
  | OpLess => mk_cond (c_var c) OpGreaterEqual (c_value c) 0
  | OpGreaterEqual => mk_cond (c_var c) OpLess (c_value c) 0
  | OpInRange => mk_cond (c_var c) OpNotInRange (c_value c) (c_upper c)
  | OpNotInRange => mk_cond (c_var c) OpInRange (c_value c) (c_upper c)
  end.

(** gcs/innards/literal.hh: Literal is a variant of a condition, TrueLiteral and
    FalseLiteral. *)
Inductive literal : Type :=
| LCond (c : cond)
| LTrue
| LFalse.

(** gcs/innards/literal.cc:26-39 (operator!). *)
Definition lit_not (l : literal) : literal :=
  match l with
  | LCond c => LCond (cond_not c)
  | LTrue => LFalse
  | LFalse => LTrue
  end.

(** gcs/innards/literal.cc:79-88, the operator evaluated on a constant. *)
Definition cond_op_test (op : cond_op) (x value upper_value : Z) : bool :=
  match op with
  | OpEqual => x =? value
  | OpNotEqual => negb (x =? value)
  | OpGreaterEqual => value <=? x
  | OpLess => x <? value
  | OpInRange => (value <=? x) && (x <=? upper_value)
  | OpNotInRange => (x <? value) || (upper_value <? x)
  end.

(** gcs/innards/literal.cc:71-97 (is_literally_true_or_false). *)
Definition is_literally_true_or_false (l : literal) : option bool :=
  match l with
  | LCond c =>
      match c_var c with
      | VSimple _ => None
      | VView _ _ _ => None
      | VConst x => Some (cond_op_test (c_op c) x (c_value c) (c_upper c))
      end
  | LTrue => Some true
  | LFalse => Some false
  end.

(** gcs/innards/literal.cc:99-102 (is_literally_true). *)
Definition is_literally_true (l : literal) : bool :=
  match is_literally_true_or_false l with Some b => b | None => false end.

(** gcs/innards/literal.cc:104-108 (is_literally_false). *)
Definition is_literally_false (l : literal) : bool :=
  match is_literally_true_or_false l with Some b => negb b | None => false end.
