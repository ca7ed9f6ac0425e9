(** Reachability in a directed graph. *)
From Coq Require Import List Relations.

Definition edge (succ : nat -> list nat) (u v : nat) : Prop := In v (succ u).

Definition reach (succ : nat -> list nat) : nat -> nat -> Prop := clos_refl_trans nat (edge succ).
