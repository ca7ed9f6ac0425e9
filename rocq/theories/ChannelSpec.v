(** What Inverse, SymmetricAllDifferent, ValuePrecede and SeqPrecedeChain mean. *)
From Coq Require Import ZArith List Arith.
From Verif Require Import Vars VarsSpec.
Import ListNotations.
Local Open Scope Z_scope.

(** The value of each position of [xs] is a position of [ys] whose value refers back. *)
Definition refers_back (xs : list var_id) (x_start : Z) (ys : list var_id) (y_start : Z) (a : assignment) : Prop :=
  forall i x, nth_error xs i = Some x -> exists j y, nth_error ys j = Some y /\
    var_value a x = y_start + Z.of_nat j /\ var_value a y = x_start + Z.of_nat i.

Definition inverse_of (xs ys : list var_id) (x_start y_start : Z) (a : assignment) : Prop :=
  refers_back xs x_start ys y_start a /\ refers_back ys y_start xs x_start a.

Definition own_inverse (vars : list var_id) (start : Z) (a : assignment) : Prop := refers_back vars start vars start a.

(** Each occurrence of [t] has an occurrence of [s] before it. *)
Definition precedes (s t : Z) (vars : list var_id) (a : assignment) : Prop :=
  forall j y, nth_error vars j = Some y -> var_value a y = t ->
  exists i x, (i < j)%nat /\ nth_error vars i = Some x /\ var_value a x = s.

Definition chain_precedes (chain : list Z) (vars : list var_id) (a : assignment) : Prop :=
  forall k s t, nth_error chain k = Some s -> nth_error chain (S k) = Some t -> precedes s t vars a.

(** Each value greater than 1 has the one below it somewhere before it. *)
Definition values_in_sequence (vars : list var_id) (a : assignment) : Prop :=
  forall v, 1 < v -> precedes (v - 1) v vars a.
