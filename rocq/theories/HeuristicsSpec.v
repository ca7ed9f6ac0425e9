(** Specification vocabulary for branching heuristics. *)
From Coq Require Import ZArith List Permutation.
From Verif Require Import Vars VarsSpec State StateSpec ContractSpec Heuristics.
Import ListNotations.
Local Open Scope Z_scope.

(** The random number generator keeps its promises. *)
Definition honest (r : rng) : Prop :=
  (forall n lo hi, (lo <= hi)%nat -> (lo <= draw r n lo hi <= hi)%nat) /\ forall l, Permutation l (shuffle r l).

(** The handle still has at least two possible values. *)
Definition undecided (d : domains) (v : var_id) : Prop := exists x y, x <> y /\ possible d v x /\ possible d v y.

(** The choice is an undecided handle from the list, and there is one if any is
    undecided. *)
Definition picks (d : domains) (vs : list var_id) (o : option var_id) : Prop :=
  match o with
  | Some v => In v vs /\ undecided d v
  | None => Forall (fun v => ~ undecided d v) vs
  end.

(** Every possible value of the handle satisfies exactly one of the conditions,
    which are all about that handle; each of them leaves some of the values and
    removes some. *)
Record partitions (d : domains) (v : var_id) (cs : list cond) : Prop :=
  { pa_var : Forall (fun c => c_var c = v) cs;
    pa_cover : forall x, possible d v x -> Exists (fun c => op_holds (c_op c) x (c_value c) (c_upper c)) cs;
    pa_apart : forall x, ForallOrdPairs (fun c c' => op_holds (c_op c) x (c_value c) (c_upper c) -> ~ op_holds (c_op c') x (c_value c') (c_upper c')) cs;
    pa_leaves : Forall (fun c => exists x, possible d v x /\ op_holds (c_op c) x (c_value c) (c_upper c)) cs;
    pa_removes : Forall (fun c => exists x, possible d v x /\ ~ op_holds (c_op c) x (c_value c) (c_upper c)) cs }.

(** The value orders that split at a value counted from the start of the iteration. *)
Definition splitting (o : value_order) : Prop := o = SplitSmallestFirst \/ o = SplitLargestFirst \/ o = SplitRandom.

Definition negated (v : var_id) : Prop := match v with VView _ true _ => True | _ => False end.

(** The handles of a heuristic. *)
Fixpoint handles (h : heuristic) : list var_id :=
  match h with
  | BranchWith vs _ _ => vs
  | BranchSequence a b => handles a ++ handles b
  end.

(** Splitting orders are not used with negated views. *)
Fixpoint splits_forwards (h : heuristic) : Prop :=
  match h with
  | BranchWith vs _ val => splitting val -> Forall (fun v => ~ negated v) vs
  | BranchSequence a b => splits_forwards a /\ splits_forwards b
  end.
