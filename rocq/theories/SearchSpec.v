(** Specification vocabulary for search. *)
From Coq Require Import ZArith List.
From Verif Require Import Vars VarsSpec State StateSpec Epochs Engine EngineSpec Session SessionSpec Tracker ContractSpec Search.
Import ListNotations.
Local Open Scope Z_scope.

(** The two assignments give the handles the same values. *)
Definition agree (vs : list var_id) (a a' : assignment) : Prop := Forall (fun v => var_value a v = var_value a' v) vs.

(** Whether the condition holds depends only on the values of the handles. *)
Definition about (vs : list var_id) (c : cond) : Prop := forall a a', agree vs a a' -> cond_holds a c -> cond_holds a' c.

(** A branching heuristic that keeps splitting until every handle in [vs] has a
    value: it yields nothing only then; otherwise its guesses are about the
    handles, exclude each other, between them cover everything still possible, and
    each is possible but not certain. *)
Record splits (nv : nat) (vs : list var_id) (branch : nat -> domains -> list cond) : Prop :=
  { sp_handles : Forall (var_below nv) vs;
    sp_done : forall k d, domains_ok d -> length d = nv -> branch k d = [] -> Forall (fixed d) vs;
    sp_cover : forall k d a, domains_ok d -> length d = nv -> branch k d <> [] -> within a d -> Exists (cond_holds a) (branch k d);
    sp_apart : forall k d a, domains_ok d -> length d = nv -> ForallOrdPairs (fun c c' => cond_holds a c -> ~ cond_holds a c') (branch k d);
    sp_about : forall k d c, domains_ok d -> length d = nv -> In c (branch k d) -> about vs c;
    sp_known : forall k d c, domains_ok d -> length d = nv -> In c (branch k d) -> cond_known d c;
    sp_possible : forall k d c, domains_ok d -> length d = nv -> In c (branch k d) -> exists a, within a d /\ cond_holds a c;
    sp_uncertain : forall k d c, domains_ok d -> length d = nv -> In c (branch k d) -> exists a, within a d /\ ~ cond_holds a c }.

(** The two give some of the handles different values. *)
Definition apart (vs : list var_id) (d d' : domains) : Prop := forall a a', within a d -> within a' d' -> ~ agree vs a a'.

(** Every condition of the nogood holds. *)
Definition nogood_holds (a : assignment) (n : nogood) : Prop := Forall (cond_holds a) n.

(** The nogood is made of conditions a branching heuristic may guess. *)
Definition guessable (nv : nat) (vs : list var_id) (c : cond) : Prop := lit_below nv (LCond c) /\ cond_sane c /\ about vs c.
Definition legible (nv : nat) (vs : list var_id) (n : nogood) : Prop := Forall (guessable nv vs) n.

(** [d] gives the handle the value [x]. *)
Definition has_value (d : domains) (v : var_id) (x : Z) : Prop := forall a, within a d -> var_value a v = x.

(** Each report has a smaller objective value than the one before it; newest first. *)
Inductive improving (v : var_id) : list domains -> Prop :=
| im_nil : improving v []
| im_one d x : has_value d v x -> improving v [d]
| im_more d d' x x' rest : has_value d v x -> has_value d' v x' -> x < x' -> improving v (d' :: rest) -> improving v (d :: d' :: rest).

(** The event asks for the search to end. *)
Definition refusal (e : event) : Prop :=
  match e with Reported _ go_on | Traced _ go_on => go_on = false | SawAbort => True end.

(** The search ends with [Stop] exactly when it is asked to, and at once. *)
Definition answered (v : verdict) (log : list event) : Prop :=
  match v with
  | Stop => exists e rest, log = e :: rest /\ refusal e /\ Forall (fun e => ~ refusal e) rest
  | _ => Forall (fun e => ~ refusal e) log
  end.
