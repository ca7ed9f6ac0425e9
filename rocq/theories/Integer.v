(** Checked 64-bit integers.

    Models gcs/integer.hh and gcs/innards/integer_overflow.hh. A C++
    [long long] is a [Z] in [int64_range]; an operation that throws
    IntegerOverflow returns [None]. *)
From Coq Require Import ZArith Bool.
Local Open Scope Z_scope.

(** std::numeric_limits<long long>::min() and max();
    gcs/integer.hh:102-110 (min_value, max_value). *)
Definition int64_min : Z := -9223372036854775808.
Definition int64_max : Z := 9223372036854775807.

(** gcs/innards/integer_overflow.hh:41-59 (add_overflows), the portable branch.
    [true] means overflow. When the compiler has __builtin_add_overflow that is
    used instead, which is documented to be the range test on the exact sum. *)
Definition add_overflows (a b : Z) : bool :=
  if 0 <=? b then int64_max - b <? a
  else a <? int64_min - b.

(** gcs/innards/integer_overflow.hh:61-79 (sub_overflows), the portable branch. *)
Definition sub_overflows (a b : Z) : bool :=
  if 0 <=? b then a <? int64_min + b
  else int64_max + b <? a.

(** gcs/innards/integer_overflow.hh:81-113 (mul_overflows), the portable
    signed branch. C++ division truncates towards zero, which is [Z.quot]. *)
Definition mul_overflows (a b : Z) : bool :=
  if 0 <? a then
    if 0 <? b then Z.quot int64_max b <? a
    else b <? Z.quot int64_min a
  else
    if 0 <? b then a <? Z.quot int64_min b
    else negb (a =? 0) && (b <? Z.quot int64_max a).

(** gcs/integer.hh:121-127 (operator+) and 129-134 (operator+=). *)
Definition int_add (a b : Z) : option Z :=
  if add_overflows a b then None else Some (a + b).

(** gcs/integer.hh:136-142 (operator-) and 144-149 (operator-=). *)
Definition int_sub (a b : Z) : option Z :=
  if sub_overflows a b then None else Some (a - b).

(** gcs/integer.hh:151-157 (operator* ). *)
Definition int_mul (a b : Z) : option Z :=
  if mul_overflows a b then None else Some (a * b).

(** gcs/integer.hh:159-166 (operator/). *)
Definition int_div (a b : Z) : option Z :=
  if b =? 0 then None
  else if (a =? int64_min) && (b =? -1) then None
  else Some (Z.quot a b).

(** gcs/integer.hh:168-175 (operator%). *)
Definition int_rem (a b : Z) : option Z :=
  if b =? 0 then None
  else if (a =? int64_min) && (b =? -1) then None
  else Some (Z.rem a b).

(** gcs/integer.hh:177-182 (unary operator-). *)
Definition int_neg (a : Z) : option Z :=
  if a =? int64_min then None else Some (- a).

(** gcs/integer.hh:70-76 (operator++). *)
Definition int_incr (a : Z) : option Z :=
  if a =? int64_max then None else Some (a + 1).

(** gcs/integer.hh:85-91 (operator--). *)
Definition int_decr (a : Z) : option Z :=
  if a =? int64_min then None else Some (a - 1).

(** gcs/integer.hh:211-216 (abs). *)
Definition int_abs (a : Z) : option Z :=
  if a =? int64_min then None else Some (Z.abs a).

(** gcs/innards/power.cc:13-18 (power2). The shift of 1 by fewer than 63 places
    is exact, so it is written as a power. *)
Definition power2 (i : Z) : option Z :=
  if (i <? 0) || (63 <=? i) then None else Some (2 ^ i).

(** gcs/innards/power.cc:41-52, the square-and-multiply loop of
    checked_integer_power. [fuel] bounds the iterations; the loop halves [e]
    each time, so 64 is enough for any 64-bit exponent (proved). The outer
    option is [None] when fuel runs out; the inner option is the C++ result. *)
Fixpoint power_loop (fuel : nat) (result b e : Z) : option (option Z) :=
  match fuel with
  | O => None
  | S fuel' =>
      if 0 <? e then
        match (if Z.odd e then int_mul result b else Some result) with
        | None => Some None
        | Some result' =>
            let e' := Z.div2 e in
            match (if 0 <? e' then int_mul b b else Some b) with
            | None => Some None
            | Some b' => power_loop fuel' result' b' e'
            end
        end
      else Some (Some result)
  end.

(** gcs/innards/power.cc:20-53 (checked_integer_power). The bit test on a
    negative exponent is two's complement, for which [Z.odd] agrees. *)
Definition checked_integer_power (base exp : Z) : option (option Z) :=
  if exp =? 0 then Some (Some 1)
  else if base =? 1 then Some (Some 1)
  else if base =? -1 then Some (Some (if Z.odd exp then -1 else 1))
  else if exp <? 0 then
    if base =? 0 then Some None else Some (Some 0)
  else if base =? 0 then Some (Some 0)
  else power_loop 65 1 base exp.
