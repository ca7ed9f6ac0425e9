(** What it means for some numbers to say in which order others come. *)
From Coq Require Import ZArith List Permutation Sorted.
From Verif Require Import Vars VarsSpec.
Import ListNotations.
Local Open Scope Z_scope.

(** The element of [xs] at index [k] comes before the one at index [l]: it is smaller,
    or they are equal and it stands to the left. *)
Definition comes_first (xs : list Z) (k l : nat) : Prop :=
  nth k xs 0 < nth l xs 0 \/ nth k xs 0 = nth l xs 0 /\ (k < l)%nat.

(** [ps] lists the indices of [xs], each once and counted from [offset], in that order. *)
Definition sorting_order (offset : Z) (xs ps : list Z) : Prop :=
  exists ks, Permutation (seq 0 (length xs)) ks /\ ps = map (fun k => offset + Z.of_nat k) ks /\ Sorted (comes_first xs) ks.

Definition arg_sorts (offset : Z) (xs ps : list var_id) (a : assignment) : Prop :=
  sorting_order offset (map (var_value a) xs) (map (var_value a) ps).
