(** What powers are. *)
From Coq Require Import ZArith.
From Verif Require Import Vars VarsSpec State StateSpec.
Local Open Scope Z_scope.

(** [z] is [x] to the power of [k]. A negative power is one divided by the positive one,
    rounded towards zero; there are no negative powers of zero. *)
Definition raises (x k z : Z) : Prop :=
  (0 <= k /\ z = x ^ k) \/ (k < 0 /\ x <> 0 /\ z = Z.quot 1 (x ^ (- k))).

Definition power_rel (base exponent result : var_id) (a : assignment) : Prop :=
  raises (var_value a base) (var_value a exponent) (var_value a result).

(** A number the solver's integers can represent: from minus two to the sixty-third to
    that minus one. *)
Definition representable (z : Z) : Prop := -9223372036854775808 <= z <= 9223372036854775807.

(** The values are representable, and the result is not the least representable number
    of all. *)
Definition within_range (d : domains) (base result : var_id) : Prop :=
  representable (lower_bound d base) /\ representable (upper_bound d base) /\
  representable (lower_bound d result - 1) /\ representable (upper_bound d result).

(** The exponent is such that the constraint is a linear equality, and no variable is left
    in it: what it is about is constant, or the same variable on both sides. *)
Definition cancels (base exponent result : var_id) : Prop :=
  match exponent with
  | VConst k =>
      match base with
      | VConst _ => underlying result = None
      | _ => k = 0 /\ underlying result = None \/ k = 1 /\ underlying base = underlying result
      end
  | _ => False
  end.
