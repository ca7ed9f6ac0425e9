(** What generalised arc consistency for global cardinality means. *)
From Coq Require Import ZArith List.
From Verif Require Import Vars VarsSpec State StateSpec.
Import ListNotations.
Local Open Scope Z_scope.

(** Values for all the variables, from their domains, such that how often each value in the
    cover is taken is between the bounds of its count, and, if the cover is closed, only
    values in the cover are taken. *)
Definition cardinality_support (d : domains) (closed : bool) (vars : list var_id) (values : list Z) (counts : list var_id) (ys : list Z) : Prop :=
  Forall2 (view_member d) vars ys /\
  Forall2 (fun x c => lower_bound d c <= Z.of_nat (count_occ Z.eq_dec ys x) <= upper_bound d c) values counts /\
  (closed = true -> Forall (fun y => In y values) ys).

(** [f] takes [amount] from [s] to [t] in a network of [n] vertices, where [c u v] can go from
    [u] to [v]. What goes one way is taken off what goes the other way. *)
Definition is_flow (n s t : nat) (c : nat -> nat -> Z) (amount : Z) (f : nat -> nat -> Z) : Prop :=
  (forall u v, f u v <= c u v) /\ (forall u v, f v u = - f u v) /\
  forall x, (x < n)%nat -> fold_right Z.add 0 (map (fun v => f v x) (seq 0 n)) = if Nat.eqb x t then amount else if Nat.eqb x s then - amount else 0.
