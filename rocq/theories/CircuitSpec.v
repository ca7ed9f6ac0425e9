(** What a circuit is. *)
From Coq Require Import ZArith List Arith Permutation.
From Verif Require Import Vars VarsSpec State StateSpec ContractSpec.
Import ListNotations.

(** The node after node [i], where the handle at position [i] is the successor of
    node [i]. *)
Definition next_node (succ : list var_id) (a : assignment) (i : nat) : nat := Z.to_nat (var_value a (nth i succ (VConst 0))).

(** Every successor is a node. *)
Definition all_nodes (succ : list var_id) (a : assignment) : Prop :=
  forall v, In v succ -> (0 <= var_value a v < Z.of_nat (length succ))%Z.

(** Following the successors from any node leads to every node. *)
Definition circuit (succ : list var_id) (a : assignment) : Prop :=
  all_nodes succ a /\
  forall i j, i < length succ -> j < length succ -> exists k, Nat.iter k (next_node succ a) i = j.

(** A cycle of an assignment that does not visit all nodes, other than from a node
    to itself, has at least two nodes whose successors are not fixed. *)
Definition no_nearly_fixed_cycle (d : domains) (succ : list var_id) (a : assignment) : Prop :=
  forall r p, r < length succ -> 0 < p -> p < length succ -> Nat.iter p (next_node succ a) r = r -> next_node succ a r <> r ->
  exists x y, Nat.iter x (next_node succ a) r <> Nat.iter y (next_node succ a) r /\
    ~ fixed d (nth (Nat.iter x (next_node succ a) r) succ (VConst 0)) /\ ~ fixed d (nth (Nat.iter y (next_node succ a) r) succ (VConst 0)).

(** [order] lists the nodes, and each is followed by the next, and the last by the first. *)
Definition goes_round (succ : list var_id) (a : assignment) (order : list nat) : Prop :=
  Permutation order (seq 0 (length succ)) /\
  forall k, k < length succ -> next_node succ a (nth k order 0) = nth (S k mod length succ) order 0.

(** Node [j] is a possible successor of node [i]. *)
Definition may_follow (d : domains) (succ : list var_id) (i j : nat) : Prop :=
  i < length succ /\ j < length succ /\ view_member d (nth i succ (VConst 0)) (Z.of_nat j).

(** There is a way from one node to another along possible successors. *)
Inductive leads_to (d : domains) (succ : list var_id) : nat -> nat -> Prop :=
| leads_here : forall i, leads_to d succ i i
| leads_on : forall i j k, may_follow d succ i j -> leads_to d succ j k -> leads_to d succ i k.

(** A cycle of an assignment that does not visit all nodes, other than from a node to
    itself, and has a node whose successor is not fixed in [D], has at least two nodes
    whose successors are not fixed in [d]. *)
Definition no_cycle_closing (d D : domains) (succ : list var_id) (a : assignment) : Prop :=
  forall r p, r < length succ -> 0 < p -> p < length succ -> Nat.iter p (next_node succ a) r = r -> next_node succ a r <> r ->
  (exists x, ~ fixed D (nth (Nat.iter x (next_node succ a) r) succ (VConst 0))) ->
  exists x y, Nat.iter x (next_node succ a) r <> Nat.iter y (next_node succ a) r /\
    ~ fixed d (nth (Nat.iter x (next_node succ a) r) succ (VConst 0)) /\ ~ fixed d (nth (Nat.iter y (next_node succ a) r) succ (VConst 0)).
