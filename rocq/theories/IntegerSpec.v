(** Specification vocabulary for checked integers. *)
From Coq Require Import ZArith.
Local Open Scope Z_scope.

(** The values of a signed 64-bit integer. *)
Definition int64_range (z : Z) : Prop := - 2 ^ 63 <= z <= 2 ^ 63 - 1.

(** The operation returns the exact result when it fits, and throws when it does not. *)
Definition exact_or_throws (exact : Z) (r : option Z) : Prop :=
  (int64_range exact -> r = Some exact) /\ (~ int64_range exact -> r = None).

(** Specification of the MiniZinc power rule: the exact power for a
    non-negative exponent; 1 div base^|exp| for a negative one. *)
Definition power_meaning (base exp : Z) : option Z :=
  if 0 <=? exp then Some (base ^ exp)
  else if base =? 0 then None
  else Some (Z.quot 1 (base ^ (- exp))).

