(** The dictionary order on sequences of integers. *)
From Coq Require Import ZArith List.
Import ListNotations.
Local Open Scope Z_scope.

(** [xs] comes before [ys]: they agree up to a position at which [xs] has the
    smaller value, or [xs] is a proper prefix of [ys]. *)
Definition before (xs ys : list Z) : Prop :=
  (exists same x y xs' ys', xs = same ++ x :: xs' /\ ys = same ++ y :: ys' /\ x < y) \/
  (exists y ys', ys = xs ++ y :: ys').

Definition before_or_same (xs ys : list Z) : Prop := before xs ys \/ xs = ys.
