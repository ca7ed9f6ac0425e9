(** What it means to be the sorted version of something. *)
From Coq Require Import ZArith List Permutation Sorted.
From Verif Require Import Vars VarsSpec.
Import ListNotations.
Local Open Scope Z_scope.

(** [ys] has the elements of [xs], each as often, in order. *)
Definition sorted_version (xs ys : list Z) : Prop := Permutation xs ys /\ StronglySorted Z.le ys.

Definition sorts (xs ys : list var_id) (a : assignment) : Prop := sorted_version (map (var_value a) xs) (map (var_value a) ys).

(** The same for the halves of a list. *)
Definition half_sorts_other (n : nat) (vs : list Z) : Prop := sorted_version (firstn n vs) (skipn n vs).
