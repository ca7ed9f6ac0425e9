(** The properties of weighted sums and of the binary encoding of a variable. *)
From Coq Require Import ZArith List.
From Verif Require Import Expressions ExpressionsSpec ExpressionsProofs BitsEncoding BitsSpec BitsProofs.
Import ListNotations.
Local Open Scope Z_scope.

(** C22 (sums): adding terms one at a time gives the sum of coefficient times value. *)
Theorem C22_sums : forall V (value : V -> Z) (ts : list (weighted V)) s,
  sum_worth value (fold_left sum_plus ts s) = sum_worth value s + fold_right Z.add 0 (map (term_worth value) ts).
Proof. exact @worth_built. Qed.
Print Assumptions C22_sums.

(** C22 (comparisons of sums): the comparison operators between a sum and a value or
    a term mean what they say. *)
Theorem C22_sum_comparisons : forall V (value : V -> Z) (s : sum_of V) c t,
  (le_true value (at_most s c) <-> sum_worth value s <= c) /\
  (le_true value (at_least s c) <-> sum_worth value s >= c) /\
  (equals_true value (equals s c) <-> sum_worth value s = c) /\
  (le_true value (at_most_term s t) <-> sum_worth value s <= term_worth value t) /\
  (le_true value (at_least_term s t) <-> sum_worth value s >= term_worth value t) /\
  (equals_true value (equals_term s t) <-> sum_worth value s = term_worth value t).
Proof.
  exact (fun V value s c t => conj (at_most_true value s c) (conj (at_least_true value s c) (conj (iff_refl _)
    (conj (at_most_term_true value s t) (conj (at_least_term_true value s t) (equals_term_true value s t)))))).
Qed.
Print Assumptions C22_sum_comparisons.

(** C22 (negation of an inequality): true exactly when the inequality is not. *)
Theorem C22_negated_inequality : forall V (value : V -> Z) (i : sum_le V),
  le_true value (negate_inequality i) <-> ~ le_true value i.
Proof. exact @negate_true. Qed.
Print Assumptions C22_negated_inequality.

(** 2x - 3y >= 4 with x, y = 5, 2. *)
Example C22_sums_example :
  let value (v : bool) := if v then 5 else 2 in
  let s := fold_left sum_plus [times 2 true; times (-3) false] [] in
  sum_worth value s = 4 /\ at_least s 4 = mk_le [(-2, true); (3, false)] (-4) /\ le_true value (at_least s 4) /\
  ~ le_true value (negate_inequality (at_least s 4)) /\ ~ le_true value (at_least s 5).
Proof. vm_compute. repeat split; congruence. Qed.

(** C33: every value between the bounds has exactly one encoding. *)
Theorem C33_every_value_once : forall always_signed lower upper shift coeff negative,
  fits64 lower -> fits64 upper -> lower <= upper ->
  get_bits_encoding_coeffs lower upper = Some (shift, coeff, negative) ->
  forall v, lower <= v <= upper -> exists! bits, encodes (bit_weights always_signed shift negative) bits v.
Proof. exact every_value_once. Qed.
Print Assumptions C33_every_value_once.

(** No value at all, between the bounds or not, has two encodings. *)
Theorem C33_no_value_twice : forall always_signed lower upper shift coeff negative,
  fits64 lower -> fits64 upper -> lower <= upper ->
  get_bits_encoding_coeffs lower upper = Some (shift, coeff, negative) ->
  forall v bits bits', encodes (bit_weights always_signed shift negative) bits v ->
    encodes (bit_weights always_signed shift negative) bits' v -> bits = bits'.
Proof. exact no_value_twice. Qed.
Print Assumptions C33_no_value_twice.

(** The bits written for a value in a proof are that value's encoding. *)
Theorem C33_value_read : forall lower upper shift coeff negative,
  fits64 lower -> fits64 upper -> lower <= upper ->
  get_bits_encoding_coeffs lower upper = Some (shift, coeff, negative) ->
  forall v, lower <= v <= upper ->
    encodes (bit_weights false shift negative) (bits_of_value negative (bit_weights false shift negative) v) v.
Proof. exact value_read. Qed.
Print Assumptions C33_value_read.

(** No encoding of the same kind with fewer bits reaches every value. *)
Theorem C33_no_shorter : forall lower upper shift coeff negative,
  fits64 lower -> fits64 upper -> lower <= upper ->
  get_bits_encoding_coeffs lower upper = Some (shift, coeff, negative) ->
  forall shift' negative', (negative' = 0 \/ (negative' = - 2 ^ (shift' + 1) /\ lower < 0)) -> -1 <= shift' ->
  (forall v, lower <= v <= upper -> exists bits, encodes (bit_weights false shift' negative') bits v) ->
  (length (bit_weights false shift negative) <= length (bit_weights false shift' negative'))%nat.
Proof. exact no_shorter. Qed.
Print Assumptions C33_no_shorter.

(** Whether an encoding fits is answered for every pair of bounds, without overflow, and
    says exactly whether the encoding can be computed without overflow. *)
Theorem C33_fits_exactly : forall lower upper, fits64 lower -> fits64 upper -> lower <= upper ->
  exists b, bits_encoding_fits lower upper = Some b /\
    (b = true <-> 0 <= lower \/ (- 2 ^ 62 <= lower /\ upper < 2 ^ 62)) /\
    (b = true <-> exists c, get_bits_encoding_coeffs lower upper = Some c).
Proof. exact fits_exactly. Qed.
Print Assumptions C33_fits_exactly.

Example C33_example :
  get_bits_encoding_coeffs 0 0 = Some (-1, 0, 0) /\ get_bits_encoding_coeffs (-1) 0 = Some (-1, 0, -1) /\
  get_bits_encoding_coeffs (-9) 7 = Some (3, 8, -16) /\ bit_weights false 3 (-16) = [-16; 1; 2; 4; 8] /\
  bits_of_value (-16) [-16; 1; 2; 4; 8] (-9) = [true; true; true; true; false] /\
  encodes [-16; 1; 2; 4; 8] [true; true; true; true; false] (-9) /\
  bits_encoding_fits (- 2 ^ 63) 0 = Some false /\ bits_encoding_fits (- 2 ^ 62) 0 = Some true.
Proof. vm_compute. repeat split. Qed.
