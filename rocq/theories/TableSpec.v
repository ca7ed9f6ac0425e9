(** What tables of allowed or forbidden tuples mean. *)
From Coq Require Import ZArith List.
From Verif Require Import Vars VarsSpec State StateSpec NegativeTable.
Import ListNotations.
Local Open Scope Z_scope.

(** The assignment agrees with the tuple. *)
Definition agrees (a : assignment) (vars : list var_id) (t : tuple) : Prop :=
  Forall2 (fun v e => match e with None => True | Some x => var_value a v = x end) vars t.

(** It agrees with one of the tuples. *)
Definition listed_in (a : assignment) (vars : list var_id) (tuples : list tuple) : Prop := Exists (agrees a vars) tuples.

(** The assignment agrees with none of them. *)
Definition avoids (a : assignment) (vars : list var_id) (tuples : list tuple) : Prop := Forall (fun t => ~ agrees a vars t) tuples.

(** The variable in that position may still take another value than the tuple's. *)
Definition may_differ (d : domains) (vars : list var_id) (t : tuple) (i : nat) : Prop :=
  exists v x a, nth_error vars i = Some v /\ nth_error t i = Some (Some x) /\ within a d /\ var_value a v <> x.

(** The tuple need not be acted on: no assignment that is still possible agrees with
    it, or there are two different positions in which there may still be a difference. *)
Definition at_ease (d : domains) (vars : list var_id) (t : tuple) : Prop :=
  (forall a, within a d -> ~ agrees a vars t) \/ exists i j, i <> j /\ may_differ d vars t i /\ may_differ d vars t j.
