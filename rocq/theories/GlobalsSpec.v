(** What AllEqual, Increasing and its variants, NValue, AtMostOne and ParityOdd mean. *)
From Coq Require Import ZArith List Arith.
From Verif Require Import Vars VarsSpec.
Import ListNotations.
Local Open Scope Z_scope.

Definition all_same (vars : list var_id) (a : assignment) : Prop := forall v w, In v vars -> In w vars -> var_value a v = var_value a w.

(** Each value is related to all the later ones. *)
Definition in_order (rel : Z -> Z -> Prop) (vars : list var_id) (a : assignment) : Prop :=
  forall i j v w, (i < j)%nat -> nth_error vars i = Some v -> nth_error vars j = Some w -> rel (var_value a v) (var_value a w).

(** The order of Increasing, StrictlyIncreasing, Decreasing and StrictlyDecreasing. *)
Definition order_of (strict descending : bool) : Z -> Z -> Prop :=
  if descending then if strict then Z.gt else Z.ge else if strict then Z.lt else Z.le.

(** The list [l] is the different values, in some order. *)
Definition different_values (n : var_id) (vars : list var_id) (a : assignment) : Prop :=
  exists l, NoDup l /\ (forall x, In x l <-> exists v, In v vars /\ var_value a v = x) /\ var_value a n = Z.of_nat (length l).

(** No two positions have the value. *)
Definition no_two_take (vars : list var_id) (val : var_id) (a : assignment) : Prop :=
  forall i j v w, nth_error vars i = Some v -> nth_error vars j = Some w -> var_value a v = var_value a val -> var_value a w = var_value a val -> i = j.

Inductive number_holding (a : assignment) : list literal -> nat -> Prop :=
| none_hold : number_holding a [] 0
| this_holds l r n : lit_holds a l -> number_holding a r n -> number_holding a (l :: r) (S n)
| this_fails l r n : ~ lit_holds a l -> number_holding a r n -> number_holding a (l :: r) n.

Definition odd_number (lits : list literal) (a : assignment) : Prop := exists n, number_holding a lits n /\ Nat.Odd n.
