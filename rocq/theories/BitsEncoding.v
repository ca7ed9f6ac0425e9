(** The binary encoding of a variable.

    Models gcs/innards/proofs/bits_encoding.cc, the choice of weights in
    gcs/innards/proofs/proof_model.cc and the reading of a value as bits in
    gcs/innards/proofs/names_and_ids_tracker.cc. *)
From Coq Require Import ZArith List Bool.
From Verif Require Import Integer.
Import ListNotations.
Local Open Scope Z_scope.

(** std::bit_width on an unsigned long long. *)
Definition bit_width (n : Z) : Z := if n <=? 0 then 0 else Z.log2 n + 1.

(** The cast to unsigned long long. *)
Definition to_unsigned (n : Z) : Z := n mod 2 ^ 64.

(** gcs/innards/proofs/bits_encoding.cc:35, and again at line 50. *)
Definition highest_abs_value (lower upper : Z) : option Z :=
  if lower <? 0 then
    match int_abs lower with
    | Some a => match int_sub a 1 with Some m => Some (Z.max m upper) | None => None end
    | None => None
    end
  else Some upper.

(** gcs/innards/proofs/bits_encoding.cc:35-36. *)
Definition highest_bit_shift (lower upper : Z) : option Z :=
  match highest_abs_value lower upper with
  | Some h => int_sub (bit_width (to_unsigned h)) 1
  | None => None
  end.

(** gcs/innards/proofs/bits_encoding.cc:16-40: the highest shift, the coefficient of
    that bit and the coefficient of the sign bit. *)
Definition get_bits_encoding_coeffs (lower upper : Z) : option (Z * Z * Z) :=
  match highest_bit_shift lower upper with
  | None => None
  | Some shift =>
      match (if 0 <=? shift then power2 shift else Some 0) with
      | None => None
      | Some coeff =>
          if lower <? 0 then
            match int_add shift 1 with
            | None => None
            | Some s =>
                match power2 s with
                | None => None
                | Some p => match int_neg p with Some negative => Some (shift, coeff, negative) | None => None end
                end
            end
          else Some (shift, coeff, 0)
      end
  end.

(** gcs/innards/proofs/bits_encoding.cc:42-54. *)
Definition bits_encoding_fits (lower upper : Z) : option bool :=
  if lower =? int64_min then Some false
  else
    match highest_bit_shift lower upper with
    | None => None
    | Some shift =>
        if lower <? 0 then match int_add shift 1 with Some n => Some (n <? 63) | None => None end
        else Some (shift <? 63)
    end.

(** The weights, in order: gcs/innards/proofs/proof_model.cc:515-573. [always_signed] is
    CakeBitNaming's flag for arg_sort. The weights are those for which power2 has
    already succeeded, so they are written as powers. *)
Definition bit_weights (always_signed : bool) (shift negative : Z) : list Z :=
  let negative := if always_signed && (negative =? 0) then - 2 ^ (shift + 1) else negative in
  (if negative =? 0 then [] else [negative]) ++ map (fun b => 2 ^ Z.of_nat b) (seq 0 (Z.to_nat (shift + 1))).

(** gcs/innards/proofs/names_and_ids_tracker.cc:1850-1870, bit_assignment_string_for:
    which bits are one in a value. *)
Definition bits_of_value (negative : Z) (weights : list Z) (value : Z) : list bool :=
  let sign_bit_set := negb (negative =? 0) && (value <? 0) in
  let remainder := if sign_bit_set then value - negative else value in
  map (fun coeff => if coeff <? 0 then sign_bit_set else Z.rem (Z.quot remainder coeff) 2 =? 1) weights.
