(** What the algorithms of difference logic are for. *)
From Coq Require Import ZArith List.
From Verif Require Import Difference.
Import ListNotations.
Local Open Scope Z_scope.

(** An arc that is in the graph. If there are no flags, all are. *)
Definition active_arc (arcs : list arc) (active : list bool) (e : nat) (a : arc) : Prop :=
  nth_error arcs e = Some a /\ (active = [] \/ nth_error active e = Some true).

(** Values that satisfy [from - to <= d] for every arc. *)
Definition solves (arcs : list arc) (active : list bool) (x : nat -> Z) : Prop :=
  forall e a, active_arc arcs active e a -> x (a_from a) - x (a_to a) <= a_d a.

(** Values that make each arc's reduced cost nonnegative. *)
Definition potential (arcs : list arc) (active : list bool) (p : nat -> Z) : Prop :=
  forall e a, active_arc arcs active e a -> 0 <= p (a_from a) + a_d a - p (a_to a).

(** There are only [n] nodes. *)
Definition nodes_below (n : nat) (arcs : list arc) : Prop := forall a, In a arcs -> (a_from a < n /\ a_to a < n)%nat.

(** Bounds that no arc raises. Lower bounds go from tails to heads; upper bounds, negated,
    from heads to tails. *)
Definition closed (by_tail : bool) (arcs : list arc) (active : list bool) (b : nat -> Z) : Prop :=
  forall e a, active_arc arcs active e a -> if by_tail then b (a_from a) - a_d a <= b (a_to a) else b (a_to a) - a_d a <= b (a_from a).

(** The least such bounds from given ones. *)
Definition tightest (n : nat) (by_tail : bool) (arcs : list arc) (active : list bool) (start b : nat -> Z) : Prop :=
  closed by_tail arcs active b /\ (forall v, (v < n)%nat -> start v <= b v) /\
  forall c, closed by_tail arcs active c -> (forall v, (v < n)%nat -> start v <= c v) -> forall v, (v < n)%nat -> b v <= c v.

(** The bounds after inferences in order. *)
Definition after (start : nat -> Z) (inferences : list (nat * Z)) : nat -> Z :=
  fold_left (fun b i v => if Nat.eqb v (fst i) then Z.max (b v) (snd i) else b v) inferences start.

(** Each inference follows from a single arc, given the bounds when it is made. *)
Fixpoint justified (by_tail : bool) (arcs : list arc) (active : list bool) (start : nat -> Z) (inferences : list (nat * Z)) : Prop :=
  match inferences with
  | [] => True
  | i :: r =>
      (exists e a, active_arc arcs active e a /\ if by_tail then a_to a = fst i /\ snd i <= start (a_from a) - a_d a else a_from a = fst i /\ snd i <= start (a_to a) - a_d a) /\
      justified by_tail arcs active (after start [i]) r
  end.

(** Workspaces with nothing left over that would be read. *)
Definition clean_repair (w : repair_work) : Prop := forall v, r_gamma w v = 0 /\ r_is_updated w v = false.
Definition clean_bounds (w : bounds_work) : Prop := forall v, b_queued w v = false /\ b_settled w v = false.
