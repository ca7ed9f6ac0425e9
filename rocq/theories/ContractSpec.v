(** What a propagator must do to implement a relation on its variables. *)
From Coq Require Import ZArith List.
From Verif Require Import Vars VarsSpec State StateSpec Epochs Engine EngineSpec Tracker SessionSpec.
Import ListNotations.

(** Every assignment within [d] is within [d0]. *)
Definition inside (d0 d : domains) : Prop := forall a, within a d -> within a d0.

(** The handle has the same value in every assignment within the domains. *)
Definition fixed (d : domains) (v : var_id) : Prop := exists x, forall a, within a d -> var_value a v = x.

(** The handle is about one of the first [nv] variables, if about any. *)
Definition var_below (nv : nat) (v : var_id) : Prop :=
  match underlying v with Some x => x < nv | None => True end.

(** The propagator [p] implements the relation [sat] on the handles [scope]: it
    - never removes an assignment satisfying [sat];
    - is woken when a handle of [scope] becomes fixed;
    - when every handle of [scope] is fixed, fails unless [sat] holds;
    - claims idempotence or disables itself only when that is right. *)
Record propagates (nv : nat) (Inv : domains -> list cstate -> Prop) (p : propagator)
  (scope : list var_id) (sat : assignment -> Prop) : Prop :=
  { pr_known : Forall (var_below nv) scope;
    pr_behaved : well_behaved nv Inv p;
    pr_sound : sound_for nv Inv sat p;
    pr_subscribed : forall v x, In v scope -> underlying v = Some x -> subscribes p x Instantiated;
    pr_checks : forall i d evs, usable nv Inv i -> Forall (fixed (i_domains i)) scope ->
      apply_lits (i_domains i) (o_infer (p_run p i)) = (d, evs, false) -> forall a, within a d -> sat a;
    pr_claims : forall i d evs, usable nv Inv i -> ~ aliased p ->
      apply_lits (i_domains i) (o_infer (p_run p i)) = (d, evs, false) ->
      o_result (p_run p i) = EnableButIdempotent -> Forall (fixed d) scope -> forall a, within a d -> sat a;
    pr_entails : forall i d evs, usable nv Inv i ->
      apply_lits (i_domains i) (o_infer (p_run p i)) = (d, evs, false) ->
      o_result (p_run p i) = DisableUntilBacktrack -> forall a, within a d -> sat a }.

(** When everything in [scope] is fixed, the relation holds. *)
Definition checked (scope : list var_id) (sat : assignment -> Prop) (d : domains) : Prop :=
  Forall (fixed d) scope -> forall a, within a d -> sat a.

(** The relation holds whatever happens. *)
Definition entailed (sat : assignment -> Prop) (d : domains) : Prop := forall a, within a d -> sat a.

(** What the engine needs of one propagator of a constraint: it removes nothing
    that satisfies [sat], and enforces the relation [part], which may be weaker. *)
Definition supports (nv : nat) (Inv : domains -> list cstate -> Prop) (p : propagator)
  (scope : list var_id) (sat part : assignment -> Prop) : Prop :=
  well_behaved nv Inv p /\ sound_for nv Inv sat p /\
  exists ok dead, wakeable nv Inv p ok dead /\
    forall d, domains_ok d -> length d = nv -> ok d \/ dead d -> checked scope part d.

(** An initialiser that removes nothing that satisfies [sat], and establishes the
    relation [part]. *)
Definition initialises (nv : nat) (Inv : domains -> list cstate -> Prop) (init : initialiser) (sat part : assignment -> Prop) : Prop :=
  forall d cs t cs', domains_ok d -> length d = nv -> Inv d cs -> init d cs = (t, cs') ->
    Forall (lit_below nv) (t_lits t) /\
    (exists evs, apply_lits d (rev (t_lits t)) = (t_domains t, evs, t_failed t)) /\
    (forall a, within a d -> sat a -> Forall (lit_holds a) (t_lits t)) /\
    (t_failed t = false -> Inv (t_domains t) cs' /\ forall a, within a (t_domains t) -> part a).

(** What a constraint installs implements the relation [sat] on [scope], given
    that every variable starts within [d0]. *)
Definition implements (nv : nat) (d0 : domains) (Inv : domains -> list cstate -> Prop)
  (ps : list propagator) (is : list initialiser) (scope : list var_id) (sat : assignment -> Prop) : Prop :=
  Forall (var_below nv) scope /\
  exists pparts iparts,
    Forall2 (fun p s => supports nv Inv p scope sat s) ps pparts /\
    Forall2 (fun i s => initialises nv Inv i sat s) is iparts /\
    forall a, within a d0 -> Forall (fun s => s a) pparts -> Forall (fun s => s a) iparts -> sat a.

(** No propagator and no initialiser finds a contradiction. *)
Definition accepts (nv : nat) (Inv : domains -> list cstate -> Prop) (ps : list propagator) (is : list initialiser) (d : domains) : Prop :=
  (forall p i, In p ps -> usable nv Inv i -> i_domains i = d -> exists d' evs, apply_lits d (o_infer (p_run p i)) = (d', evs, false)) /\
  (forall init cs, In init is -> Inv d cs -> t_failed (fst (init d cs)) = false).

(** Every variable has a single value. *)
Definition all_fixed (nv : nat) (d : domains) : Prop := forall n, n < nv -> fixed d (VSimple n).

(** What a constraint installs enforces the relation [sat] exactly: nothing that
    any part of it infers excludes an assignment satisfying [sat], and a full
    assignment is accepted if and only if it satisfies [sat]. *)
Definition enforces (nv : nat) (Inv : domains -> list cstate -> Prop)
  (ps : list propagator) (is : list initialiser) (sat : assignment -> Prop) : Prop :=
  (forall p, In p ps -> sound_for nv Inv sat p) /\
  (forall init d cs a, In init is -> domains_ok d -> length d = nv -> Inv d cs -> within a d -> sat a ->
     Forall (lit_holds a) (t_lits (fst (init d cs)))) /\
  (forall d cs a, domains_ok d -> length d = nv -> Inv d cs -> all_fixed nv d -> within a d -> (accepts nv Inv ps is d <-> sat a)).

(** A constraint installed on the domains [d0] is correct: whatever else is
    installed alongside it, and whatever those other parts keep true of the
    constraint states, it enforces [sat] exactly, and does so through the wake-up
    conditions it declares. Variables may be created after it is installed. *)
Definition correct_on (d0 : domains) (k : constraint) (scope : list var_id) (sat : assignment -> Prop) : Prop :=
  forall nv Inv, length d0 <= nv -> stable nv Inv -> (forall d cs, Inv d cs -> inside d0 d) ->
    enforces nv Inv (fst (k d0)) (snd (k d0)) sat /\
    implements nv d0 Inv (fst (k d0)) (snd (k d0)) scope sat.

(** A constructor call is correct: it makes a correct constraint, or throws when
    the relation has no solutions at all. *)
Definition posts (d0 : domains) (k : option constraint) (scope : list var_id) (sat : assignment -> Prop) : Prop :=
  match k with Some k => correct_on d0 k scope sat | None => forall a, ~ sat a end.
