(** Property C01: Integer arithmetic is exact or throws. *)
From Coq Require Import ZArith.
From Verif Require Import Integer IntegerSpec IntegerProofs.
Local Open Scope Z_scope.

Theorem C01_add : forall a b, int64_range a -> int64_range b ->
  exact_or_throws (a + b) (int_add a b).
Proof. exact int_add_exact. Qed.
Print Assumptions C01_add.
Example C01_add_ex : int_add (2^62) (2^62) = None /\ int_add (-(2^62)) (-(2^62)) = Some (-(2^63)).
Proof. vm_compute. split; reflexivity. Qed.

Theorem C01_sub : forall a b, int64_range a -> int64_range b ->
  exact_or_throws (a - b) (int_sub a b).
Proof. exact int_sub_exact. Qed.
Print Assumptions C01_sub.
Example C01_sub_ex : int_sub (-(2^62)) (2^62) = Some (-(2^63)) /\ int_sub 0 (-(2^63)) = None.
Proof. vm_compute. split; reflexivity. Qed.

Theorem C01_mul : forall a b, int64_range a -> int64_range b ->
  exact_or_throws (a * b) (int_mul a b).
Proof. exact int_mul_exact. Qed.
Print Assumptions C01_mul.
Example C01_mul_ex : int_mul (-(2^32)) (2^31) = Some (-(2^63)) /\ int_mul (2^32) (2^31) = None
  /\ int_mul (-1) (-(2^63)) = None.
Proof. vm_compute. repeat split; reflexivity. Qed.

Theorem C01_div : forall a b, int64_range a -> int64_range b ->
  (b <> 0 -> exact_or_throws (Z.quot a b) (int_div a b)) /\ (b = 0 -> int_div a b = None).
Proof. exact int_div_exact. Qed.
Print Assumptions C01_div.
Example C01_div_ex : int_div (-7) 2 = Some (-3) /\ int_div (-(2^63)) (-1) = None.
Proof. vm_compute. split; reflexivity. Qed.

(** For the remainder the exact result always fits; the operation throws for a zero divisor
    and for the one operand pair whose machine quotient does not fit. *)
Theorem C01_rem : forall a b, int64_range a -> int64_range b ->
  int_rem a b = (if (b =? 0) || ((a =? - 2^63) && (b =? -1)) then None else Some (Z.rem a b))%bool /\
  (b <> 0 -> int64_range (Z.rem a b)).
Proof. exact int_rem_exact. Qed.
Print Assumptions C01_rem.
Example C01_rem_ex : int_rem (-7) 2 = Some (-1) /\ int_rem (-(2^63)) (-1) = None.
Proof. vm_compute. split; reflexivity. Qed.

(** Read literally, "throws exactly when the exact result does not fit" is false for the
    remainder: the remainder of the least value by -1 is 0, but the operation throws. *)
Theorem C01_rem_literal_refuted : exists a b, int64_range a /\ int64_range b /\ b <> 0 /\
  int64_range (Z.rem a b) /\ int_rem a b = None.
Proof. exact int_rem_throws_spuriously. Qed.
Print Assumptions C01_rem_literal_refuted.

Theorem C01_neg : forall a, int64_range a -> exact_or_throws (- a) (int_neg a).
Proof. exact int_neg_exact. Qed.
Print Assumptions C01_neg.
Example C01_neg_ex : int_neg (-(2^63)) = None /\ int_neg (2^63-1) = Some (-(2^63)+1).
Proof. vm_compute. split; reflexivity. Qed.

Theorem C01_incr : forall a, int64_range a -> exact_or_throws (a + 1) (int_incr a).
Proof. exact int_incr_exact. Qed.
Print Assumptions C01_incr.
Example C01_incr_ex : int_incr (2^63-1) = None /\ int_incr (-1) = Some 0.
Proof. vm_compute. split; reflexivity. Qed.

Theorem C01_decr : forall a, int64_range a -> exact_or_throws (a - 1) (int_decr a).
Proof. exact int_decr_exact. Qed.
Print Assumptions C01_decr.
Example C01_decr_ex : int_decr (-(2^63)) = None /\ int_decr 0 = Some (-1).
Proof. vm_compute. split; reflexivity. Qed.

Theorem C01_abs : forall a, int64_range a -> exact_or_throws (Z.abs a) (int_abs a).
Proof. exact int_abs_exact. Qed.
Print Assumptions C01_abs.
Example C01_abs_ex : int_abs (-(2^63)) = None /\ int_abs (-5) = Some 5.
Proof. vm_compute. split; reflexivity. Qed.

Theorem C36_power2 : forall i, 0 <= i -> exact_or_throws (2 ^ i) (power2 i).
Proof. exact power2_exact. Qed.
Print Assumptions C36_power2.
Example C36_power2_ex : power2 62 = Some (2^62) /\ power2 63 = None.
Proof. vm_compute. split; reflexivity. Qed.

(** Integer powers: the loop always finishes, and the answer is the exact power when it fits
    and "undefined" when it does not fit or is undefined. *)
Theorem C36_power : forall base exp, int64_range base -> int64_range exp ->
  exists r, checked_integer_power base exp = Some r /\
    match power_meaning base exp with
    | Some exact => exact_or_throws exact r
    | None => r = None
    end.
Proof. exact checked_integer_power_exact. Qed.
Print Assumptions C36_power.
Example C36_power_ex : checked_integer_power (-2) 63 = Some (Some (-(2^63)))
  /\ checked_integer_power 2 63 = Some None /\ checked_integer_power 3 39 = Some (Some (3^39))
  /\ checked_integer_power 0 (-3) = Some None /\ checked_integer_power (-1) (-3) = Some (Some (-1)).
Proof. vm_compute. repeat split; reflexivity. Qed.
