(* What a set of intervals should do, in terms of the insertions made and the visits observed. *)
From Coq Require Import ZArith List Bool Sorted.
From Verif Require Import IntervalTree.
Import ListNotations.
Open Scope Z_scope.

(* increasing order of (start, end) *)
Definition earlier (a b : Z * Z) : Prop := fst a < fst b \/ (fst a = fst b /\ snd a < snd b).

(* the visits are those of exactly the wanted intervals, each once, in increasing order *)
Definition visits_exactly (wanted : Z * Z -> Prop) (visits : list (Z * Z)) : Prop :=
  (forall i, In i visits <-> wanted i) /\ StronglySorted earlier visits.

(* the interval was inserted by one of the calls *)
Definition stored (calls : list (Z * Z * Z)) (i : Z * Z) : Prop := In i (map fst calls).

(* no child has a lower priority than its parent *)
Fixpoint heap (t : tree) : Prop :=
  match t with
  | Leaf => True
  | Node _ _ _ _ p l r =>
      (forall q, priority_of l = Some q -> p <= q) /\
      (forall q, priority_of r = Some q -> p <= q) /\ heap l /\ heap r
  end.
