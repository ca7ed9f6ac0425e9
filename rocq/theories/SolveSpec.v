(** What a posted constraint must do to have a meaning of its own in a problem,
    and what a solution of a problem is. *)
From Coq Require Import ZArith List.
From Verif Require Import IntervalSet Vars VarsSpec State StateSpec Epochs Engine EngineSpec Tracker SessionSpec ContractSpec Search SearchSpec Solve.
Import ListNotations.

(** The assignments agree on the first [n] variables. *)
Definition same_below (n : nat) (a a' : assignment) : Prop := forall x, (x < n)%nat -> a x = a' x.

(** Only the first [n] variables matter. *)
Definition local (n : nat) (P : assignment -> Prop) : Prop := forall a a', same_below n a a' -> P a -> P a'.

(** The constraint states agree on the [len] from [lo] on, or on all the others. *)
Definition same_within (lo len : nat) (c c' : list cstate) : Prop := forall k, (lo <= k < lo + len)%nat -> nth_error c' k = nth_error c k.
Definition same_elsewhere (lo len : nat) (c c' : list cstate) : Prop := forall k, (k < lo \/ lo + len <= k)%nat -> nth_error c' k = nth_error c k.

(** The invariant survives whatever a constraint does to its own states, so long
    as that constraint's own invariant does. *)
Definition framed (nv : nat) (Inv : domains -> list cstate -> Prop) (lo len : nat) (Own : domains -> list cstate -> Prop) : Prop :=
  forall d c d' c', Inv d c -> domains_ok d' -> length d = nv -> length d' = nv -> inside d d' -> same_elsewhere lo len c c' -> Own d' c' -> Inv d' c'.

(** The parts remove nothing that satisfies [sol], and together enforce [sat] once
    everything in [scope] is fixed. *)
Definition fulfils (nv : nat) (d : domains) (Inv : domains -> list cstate -> Prop)
  (ps : list propagator) (is : list initialiser) (scope : list var_id) (sol sat : assignment -> Prop) : Prop :=
  exists pparts iparts,
    Forall2 (fun p s => supports nv Inv p scope sol s) ps pparts /\
    Forall2 (fun i s => initialises nv Inv i sol s) is iparts /\
    forall a, within a d -> Forall (fun s => s a) pparts -> Forall (fun s => s a) iparts -> sat a.

(** What is installed over the variables [d] and constraint states [cs] has the
    meaning [sat] on [scope]. [sol] is what it means for its own variables to have
    the right values as well: there are such values exactly when [sat] holds.
    [Own] is what it keeps true of its own constraint states; nobody else may
    disturb that, and in return it may rely on nothing else. *)
Record installs (d : domains) (cs : list cstate) (i : installation) (scope : list var_id) (sat sol : assignment -> Prop)
  (Own : domains -> list cstate -> Prop) : Prop :=
  { ins_ok : domains_ok (d ++ in_vars i);
    ins_priorities : Forall (fun x => fst x < 3)%nat (in_inits i);
    ins_local : local (length (d ++ in_vars i)) sol;
    ins_extends : forall a, within a d -> sat a -> exists a', same_below (length d) a a' /\ within a' (d ++ in_vars i) /\ sol a';
    ins_own : forall D D' c c', domains_ok D' -> length D' = length D -> inside D D' -> same_within (length cs) (length (in_states i)) c c' ->
      Own D c -> Own D' c';
    ins_start : forall more states, domains_ok ((d ++ in_vars i) ++ more) -> Own ((d ++ in_vars i) ++ more) ((cs ++ in_states i) ++ states);
    ins_fulfils : forall nv Inv, (length (d ++ in_vars i) <= nv)%nat -> stable nv Inv ->
      (forall D c, Inv D c -> inside (d ++ in_vars i) D /\ Own D c) ->
      framed nv Inv (length cs) (length (in_states i)) Own ->
      fulfils nv (d ++ in_vars i) Inv (in_props i) (map snd (in_inits i)) scope sol sat }.

(** A constraint posted in a problem whose variables are [d0] means [sat], which
    is about [scope], whatever other constraints have created before it. *)
Definition means (d0 : domains) (k : installer) (scope : list var_id) (sat : assignment -> Prop) : Prop :=
  Forall (var_below (length d0)) scope /\ local (length d0) sat /\
  forall hidden cs, domains_ok (d0 ++ hidden) ->
    exists sol Own, installs (d0 ++ hidden) cs (k (d0 ++ hidden) cs) scope sat sol Own.

(** A relation and the handles it is about. *)
Definition relation : Type := (list var_id * (assignment -> Prop))%type.

(** The constraints of the problem mean the relations [rs], in order. *)
Definition poses (pb : problem) (rs : list relation) : Prop :=
  domains_ok (pb_domains pb) /\ Forall2 (fun k r => means (pb_domains pb) k (fst r) (snd r)) (pb_constraints pb) rs.

(** An assignment to the problem's variables that is in every domain and satisfies
    every constraint. *)
Definition solution (pb : problem) (rs : list relation) (a : assignment) : Prop :=
  within a (pb_domains pb) /\ Forall (fun r => snd r a) rs.

(** Fixing the handles [vs] fixes the handle. *)
Definition decides (vs : list var_id) (v : var_id) : Prop :=
  underlying v = None \/ exists w, In w vs /\ underlying w = underlying v.

(** How many variables there are altogether. *)
Definition all_vars (pb : problem) : nat := length (su_domains (set_up pb)).

(** The branching heuristic is exhaustive for the handles [vs], which are about
    variables of the problem. *)
Definition exhaustive (pb : problem) (vs : list var_id) (branch : nat -> domains -> list cond) : Prop :=
  Forall (var_below (length (pb_domains pb))) vs /\ splits (all_vars pb) vs branch.

(** The report gives each handle the value the assignment gives it. *)
Definition shows (vs : list var_id) (d : domains) (a : assignment) : Prop := Forall (fun v => has_value d v (var_value a v)) vs.

(** What has been reported, newest first. *)
Definition reports (oc : outcome) : list domains := reported (oc_log oc).

(** What the search was told, newest first: whether each report and trace was
    answered with a request to stop, and whether the abort flag was found set. *)
Definition obeyed (oc : outcome) : Prop :=
  if oc_completed oc then Forall (fun e => ~ refusal e) (oc_log oc)
  else exists e rest, oc_log oc = e :: rest /\ refusal e /\ Forall (fun e => ~ refusal e) rest.

(** Exactly one element of the list has the property. *)
Definition exactly_one {A : Type} (P : A -> Prop) (l : list A) : Prop :=
  exists before x after, l = before ++ x :: after /\ P x /\ Forall (fun y => ~ P y) before /\ Forall (fun y => ~ P y) after.
