(* What the partition of a variable's range is for. *)
From Coq Require Import ZArith List Bool.
From Verif Require Import Partition.
Import ListNotations.
Open Scope Z_scope.

Definition within_of (a b : Z * Z) : Prop := fst b <= fst a /\ snd a <= snd b.

Definition holds (x : Z) (i : Z * Z) : Prop := fst i <= x <= snd i.

(* the literal exists: as an equality if it has one value, as a range otherwise *)
Definition exists_literal (s : partition) (i : Z * Z) : Prop :=
  (fst i = snd i /\ In (fst i) (q_atoms s)) \/ (fst i < snd i /\ In i (q_ranges s)).

(* the interval lies between one boundary and the next *)
Definition cell (s : partition) (c : Z * Z) : Prop :=
  exists bs, q_boundaries s = Some bs /\
    In (fst c) bs /\ In (snd c + 1) bs /\ fst c <= snd c /\
    forall z, In z bs -> ~ (fst c < z <= snd c).

(* a covering is true of the value *)
Definition covers (x : Z) (c : covering) : Prop :=
  match fst c with None => True | Some i => holds x i end ->
  exists i, In i (snd c) /\ holds x i.

(* Unit propagation over the coverings: a set of rejected literals that has all the children of a
   covering has its parent. *)
Definition propagated (s : partition) (rejected : Z * Z -> Prop) : Prop :=
  forall i cs, In (Some i, cs) (q_coverings s) -> (forall c, In c cs -> rejected c) -> rejected i.

(* A covering without a parent all of whose children are rejected is a conflict. *)
Definition conflict (s : partition) (rejected : Z * Z -> Prop) : Prop :=
  exists cs, In (None, cs) (q_coverings s) /\ forall c, In c cs -> rejected c.

(* the literal that was asked for *)
Definition answered (s : partition) (r : request) : Prop :=
  match r with
  | NeedEquality v => exists_literal s (v, v)
  | NeedRange lo hi => lo <= hi -> exists_literal s (lo, hi)
  end.
