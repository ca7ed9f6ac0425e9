(** Specification vocabulary for interval sets: membership and well-formedness. *)
From Coq Require Import ZArith List.
Import ListNotations.
Local Open Scope Z_scope.

(** The values represented by a list of closed intervals. *)
Definition member (v : Z) (s : list (Z * Z)) : Prop :=
  exists l u, In (l, u) s /\ l <= v <= u.

(** The class invariant (gcs/interval_set.hh:28-29): non-empty intervals in
    increasing order, with at least one missing value between neighbours. *)
Fixpoint well_formed (s : list (Z * Z)) : Prop :=
  match s with
  | [] => True
  | (l, u) :: r =>
      l <= u /\ well_formed r /\
      match r with [] => True | (l', _) :: _ => u + 1 < l' end
  end.

(** [s'] is a well-formed representation of exactly the values satisfying [P]. *)
Definition represents (s' : list (Z * Z)) (P : Z -> Prop) : Prop :=
  well_formed s' /\ forall v, member v s' <-> P v.

Fixpoint strictly_increasing (xs : list Z) : Prop :=
  match xs with
  | [] => True
  | x :: r => (forall y, In y r -> x < y) /\ strictly_increasing r
  end.

Fixpoint strictly_decreasing (xs : list Z) : Prop :=
  match xs with
  | [] => True
  | x :: r => (forall y, In y r -> y < x) /\ strictly_decreasing r
  end.

(** Operation histories, for the refinement to mathematical sets. *)
Inductive iset_op : Type :=
| OpErase (v : Z)
| OpEraseRange (lo hi : Z)
| OpEraseLessThan (v : Z)
| OpEraseGreaterThan (v : Z)
| OpClear
| OpIntersectWith (other : list (Z * Z))
| OpInsertAtEnd (v : Z)
| OpInsertIntervalAtEnd (l u : Z).

(** What each operation does to a set of integers. *)
Definition op_meaning (o : iset_op) (P : Z -> Prop) (v : Z) : Prop :=
  match o with
  | OpErase x => P v /\ v <> x
  | OpEraseRange lo hi => P v /\ ~ (lo <= v <= hi)
  | OpEraseLessThan x => P v /\ x <= v
  | OpEraseGreaterThan x => P v /\ v <= x
  | OpClear => False
  | OpIntersectWith other => P v /\ member v other
  | OpInsertAtEnd x => P v \/ v = x
  | OpInsertIntervalAtEnd l u => P v \/ l <= v <= u
  end.

(** When an operation may be used. Appending must be strictly above. *)
Definition op_allowed (o : iset_op) (P : Z -> Prop) : Prop :=
  match o with
  | OpIntersectWith other => well_formed other
  | OpInsertAtEnd x => forall v, P v -> v < x
  | OpInsertIntervalAtEnd l u => l <= u /\ forall v, P v -> v < l
  | _ => True
  end.

Fixpoint history_meaning (ops : list iset_op) (P : Z -> Prop) : Z -> Prop :=
  match ops with
  | [] => P
  | o :: r => history_meaning r (op_meaning o P)
  end.

Fixpoint history_allowed (ops : list iset_op) (P : Z -> Prop) : Prop :=
  match ops with
  | [] => True
  | o :: r => op_allowed o P /\ history_allowed r (op_meaning o P)
  end.
