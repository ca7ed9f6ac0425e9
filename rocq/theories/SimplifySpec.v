(** What the root simplification of difference logic may conclude. *)
From Coq Require Import ZArith List.
From Verif Require Import Difference Simplify.
Import ListNotations.
Local Open Scope Z_scope.

(** The arc is in the list, with the role. *)
Definition has_role (arcs : list arc) (roles : list role) (r : role) (e : nat) (a : arc) : Prop :=
  nth_error arcs e = Some a /\ nth_error roles e = Some r.

(** Values that satisfy [from - to <= d]. The same inequality says that the arc raises no lower
    bound, or, of negated values, no upper bound. *)
Definition satisfies (x : nat -> Z) (a : arc) : Prop := x (a_from a) - x (a_to a) <= a_d a.

(** Arcs of the base graph that follow each other from one node to another. *)
Fixpoint leads (arcs : list arc) (roles : list role) (u : nat) (path : list nat) (v : nat) : Prop :=
  match path with
  | [] => u = v
  | e :: rest => exists a, has_role arcs roles Base e a /\ a_from a = u /\ leads arcs roles (a_to a) rest v
  end.

Fixpoint weight (arcs : list arc) (path : list nat) : Z :=
  match path with [] => 0 | e :: rest => a_d (nth e arcs (mk_arc 0 0 0)) + weight arcs rest end.
