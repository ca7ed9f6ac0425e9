(** Specification vocabulary for histories of a state. *)
From Coq Require Import List.
From Verif Require Import Epochs.
Import ListNotations.

(** The on-backtrack callbacks an operation registers. *)
Definition registered_by {A : Type} (o : st_op A) : list A :=
  match o with SOnBacktrack f => [f] | _ => [] end.
