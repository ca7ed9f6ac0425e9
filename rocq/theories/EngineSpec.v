(** Specification vocabulary for propagation. *)
From Coq Require Import ZArith List.
From Verif Require Import IntervalSetSpec Vars VarsSpec State StateSpec Epochs Engine.
Import ListNotations.

(** The propagator asked to be woken by this kind of change to this variable. *)
Definition subscribes (p : propagator) (v : nat) (i : inference) : Prop :=
  (exists x, In x (p_on_change p) /\ underlying x = Some v /\
             (i = InteriorValuesChanged \/ i = BoundsChanged \/ i = Instantiated)) \/
  (exists x, In x (p_on_bounds p) /\ underlying x = Some v /\ (i = BoundsChanged \/ i = Instantiated)) \/
  (exists x, In x (p_on_instantiated p) /\ underlying x = Some v /\ i = Instantiated).

(** Two of the positions the propagator declares are the same variable. *)
Definition aliased (p : propagator) : Prop :=
  ~ NoDup (underlying_list (p_on_change p ++ p_on_bounds p ++ p_on_instantiated p ++ p_scope_only p)).

(** What a propagator may rely on when it is run: there are [nv] variables, none
    with an empty domain, and the constraint states satisfy [Inv]. *)
Definition usable (nv : nat) (Inv : domains -> list cstate -> Prop) (i : prop_in) : Prop :=
  domains_ok (i_domains i) /\ length (i_domains i) = nv /\ Inv (i_domains i) (i_cstates i).

(** The propagator only mentions existing variables and maintains [Inv]. *)
Record well_behaved (nv : nat) (Inv : domains -> list cstate -> Prop) (p : propagator) : Prop :=
  { wb_known : forall i, usable nv Inv i -> Forall (lit_known (i_domains i)) (o_infer (p_run p i));
    wb_inv : forall i d evs, usable nv Inv i ->
      apply_lits (i_domains i) (o_infer (p_run p i)) = (d, evs, false) -> Inv d (o_cstates (p_run p i)) }.

(** Everything the propagator infers holds in every assignment in [sol] that is
    still within the domains. *)
Definition sound_for (nv : nat) (Inv : domains -> list cstate -> Prop) (sol : assignment -> Prop) (p : propagator) : Prop :=
  forall i a, usable nv Inv i -> within a (i_domains i) -> sol a -> Forall (lit_holds a) (o_infer (p_run p i)).

(** [ok d] says that the propagator has nothing to do on domains [d], and [dead d]
    that it will have nothing to do on any narrower domains. The propagator
    - has nothing left to do after a run that did not change anything it subscribes to;
    - has nothing left to do after a run it claims to be idempotent (unless two of
      its positions are the same variable, when it may claim what it likes);
    - only disables itself when it is dead;
    - subscribes to every change that can give it something to do. *)
Record wakeable (nv : nat) (Inv : domains -> list cstate -> Prop) (p : propagator) (ok dead : domains -> Prop) : Prop :=
  { wk_run : forall i d evs, usable nv Inv i ->
      apply_lits (i_domains i) (o_infer (p_run p i)) = (d, evs, false) ->
      (forall v k, In (v, k) evs -> ~ subscribes p v k) ->
      o_result (p_run p i) <> DisableUntilBacktrack -> ok d;
    wk_claim : forall i d evs, usable nv Inv i -> ~ aliased p ->
      apply_lits (i_domains i) (o_infer (p_run p i)) = (d, evs, false) ->
      o_result (p_run p i) = EnableButIdempotent -> ok d;
    wk_disable : forall i d evs, usable nv Inv i ->
      apply_lits (i_domains i) (o_infer (p_run p i)) = (d, evs, false) ->
      o_result (p_run p i) = DisableUntilBacktrack -> dead d;
    wk_kept : forall d l k d', domains_ok d -> length d = nv -> lit_known d l -> ok d ->
      infer d l = (k, d') -> k <> Contradiction ->
      (forall v, lit_underlying l = Some v -> ~ subscribes p v k) -> ok d';
    wk_dead : forall d l k d', domains_ok d -> length d = nv -> lit_known d l -> dead d ->
      infer d l = (k, d') -> k <> Contradiction -> dead d' }.

(** Number of values left in all the domains together. *)
Definition total_size (d : domains) : nat := list_sum (map (fun s => length (IntervalSet.each s)) d).

(** The state has at least one epoch. *)
Definition has_epoch (st : estate) : Prop := st_domains st <> [] /\ st_cstates st <> [] /\ st_callbacks st <> [].
