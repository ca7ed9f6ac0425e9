(** What a row of weighted bits is worth. *)
From Coq Require Import ZArith List.
Import ListNotations.
Local Open Scope Z_scope.

Definition bit_value (b : bool) : Z := if b then 1 else 0.

(** The weights of the bits that are one, added up. *)
Fixpoint worth (weights : list Z) (bits : list bool) : Z :=
  match weights, bits with
  | w :: weights, b :: bits => w * bit_value b + worth weights bits
  | _, _ => 0
  end.

(** The bits are as many as the weights and are worth the value. *)
Definition encodes (weights : list Z) (bits : list bool) (v : Z) : Prop :=
  length bits = length weights /\ worth weights bits = v.

(** A 64-bit number. *)
Definition fits64 (z : Z) : Prop := - 2 ^ 63 <= z < 2 ^ 63.
