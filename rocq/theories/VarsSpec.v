(** Specification vocabulary: what handles, conditions and literals mean under
    an assignment of integers to the underlying variables. *)
From Coq Require Import ZArith.
From Verif Require Import Vars.
Local Open Scope Z_scope.

Definition assignment : Type := nat -> Z.

(** The value of a handle. *)
Definition var_value (a : assignment) (v : var_id) : Z :=
  match v with
  | VSimple n => a n
  | VView n neg add => (if neg then - a n else a n) + add
  | VConst c => c
  end.

(** The meaning of an operator applied to a value. *)
Definition op_holds (op : cond_op) (x value upper_value : Z) : Prop :=
  match op with
  | OpEqual => x = value
  | OpNotEqual => x <> value
  | OpGreaterEqual => x >= value
  | OpLess => x < value
  | OpInRange => value <= x <= upper_value
  | OpNotInRange => ~ (value <= x <= upper_value)
  end.

Definition cond_holds (a : assignment) (c : cond) : Prop :=
  op_holds (c_op c) (var_value a (c_var c)) (c_value c) (c_upper c).

Definition lit_holds (a : assignment) (l : literal) : Prop :=
  match l with
  | LCond c => cond_holds a c
  | LTrue => True
  | LFalse => False
  end.

(** Conditions that the public factories can build: a range is not empty. *)
Definition cond_sane (c : cond) : Prop :=
  match c_op c with
  | OpInRange | OpNotInRange => c_value c <= c_upper c
  | _ => True
  end.

Definition lit_sane (l : literal) : Prop :=
  match l with LCond c => cond_sane c | _ => True end.
