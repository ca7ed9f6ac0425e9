(** What a matching is. *)
From Coq Require Import List Arith.
Import ListNotations.

(** [f] gives each of the first [n] left vertices a right vertex next to it, and no
    two the same. *)
Definition perfect (adjacent : nat -> list nat) (n : nat) (f : nat -> nat) : Prop :=
  (forall i, i < n -> In (f i) (adjacent i)) /\
  (forall i j, i < n -> j < n -> f i = f j -> i = j).
