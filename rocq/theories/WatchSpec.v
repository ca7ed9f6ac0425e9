(** Specification vocabulary for condition watches. *)
From Coq Require Import ZArith List.
From Verif Require Import Vars VarsSpec State StateSpec Epochs Engine EngineSpec Session SessionSpec.
Import ListNotations.

(** The condition is not yet certain. *)
Definition unmet (d : domains) (l : literal) : Prop := exists a, within a d /\ ~ lit_holds a l.

(** The propagator only arms watches on conditions that are not yet certain when
    it is called, about variables that exist. *)
Definition arms_unmet (nv : nat) (Inv : domains -> list cstate -> Prop) (p : propagator) : Prop :=
  p_refined p = [] /\
  forall i l payload, usable nv Inv i -> In (ReqWatch l payload) (o_edits (p_run p i)) ->
    lit_below nv l /\ lit_sane l /\ unmet (i_domains i) l.

(** No armed watch is waiting for a condition that is already certain. *)
Definition alert (c : config) : Prop :=
  forall v w, In w (watches_on (e_watch (c_engine c)) v) -> unmet (current (c_state c)) (w_lit w).

(** The condition is certain. *)
Definition certain (d : domains) (l : literal) : Prop := forall a, within a d -> lit_holds a l.

(** The propagator never claims that a run was idempotent, or has its claims
    ignored because two of its positions are the same variable. *)
Definition claims_nothing (nv : nat) (Inv : domains -> list cstate -> Prop) (p : propagator) : Prop :=
  aliased p \/ forall i, usable nv Inv i -> o_result (p_run p i) <> EnableButIdempotent.

(** ** What one propagator can see of the watches *)

(** The conditions it has armed watches on, with their payloads; the values it has
    stored; the payloads waiting for it; and its private data. *)
Definition armed_by (w : wpart) (p : nat) : literal -> nat -> Prop :=
  fun l pl => exists v y, In y (watches_on w v) /\ w_owner y = p /\ w_lit y = l /\ w_payload y = pl.

Definition stored (w : wpart) (p : nat) : nat -> Z := fun k => scratch_get w p k.
Definition inbox (w : wpart) (p : nat) : list nat := nth p (wp_inbox w) [].
Definition memo (w : wpart) (p : nat) : list Z := nth p (wp_memo w) [].

(** The effect of a run's requests on the armed watches, if none clears them, and
    on the stored values. A watch on a condition about no variable is not kept. *)
Definition arms (edits : list watch_request) (A : literal -> nat -> Prop) : literal -> nat -> Prop :=
  fun l pl => A l pl \/ (In (ReqWatch l pl) edits /\ lit_underlying l <> None).

Fixpoint stores (edits : list watch_request) (S : nat -> Z) : nat -> Z :=
  match edits with
  | [] => S
  | ReqSet k x :: r => stores r (fun j => if Nat.eqb j k then x else S j)
  | _ :: r => stores r S
  end.

(** A propagator that relies on its watches. [K d A S P] is what the propagator maintains between runs: [A] are its armed
    watches, [S] its stored values and [P] the payloads waiting to be delivered.
    [M] is what it maintains about its private data. *)
Record keeps_watch (nv : nat) (Inv : domains -> list cstate -> Prop) (q : propagator)
  (K : domains -> (literal -> nat -> Prop) -> (nat -> Z) -> list nat -> Prop) (M : list Z -> Prop) : Prop :=
  { wa_weaken : forall d d' A A' S S' P P', K d A S P -> (forall a, within a d' -> within a d) -> (forall k, S k = S' k) ->
      (forall l pl, A l pl -> A' l pl \/ (certain d' l /\ In pl P')) -> incl P P' -> K d' A' S' P';
    wa_run : forall i A S d evs, usable nv Inv i -> K (i_domains i) A S (i_fired i) -> (forall k, S k = nth k (i_scratch i) 0%Z) ->
      M (i_memo i) -> apply_lits (i_domains i) (o_infer (p_run q i)) = (d, evs, false) ->
      K d (arms (o_edits (p_run q i)) A) (stores (o_edits (p_run q i)) S) [];
    wa_memo : forall i, usable nv Inv i -> M (i_memo i) -> M (o_memo (p_run q i));
    wa_first : forall i S d evs, usable nv Inv i -> i_fired i = [] -> i_memo i = [] -> (forall k, S k = 0%Z) ->
      apply_lits (i_domains i) (o_infer (p_run q i)) = (d, evs, false) ->
      K d (arms (o_edits (p_run q i)) (fun _ _ => False)) (stores (o_edits (p_run q i)) S) [] /\
      M (o_memo (p_run q i));
    wa_enable : forall i, usable nv Inv i -> o_result (p_run q i) = Enable;
    wa_clear : forall i, ~ In ReqClear (o_edits (p_run q i)) }.

(** What it maintains holds. *)
Definition watchful (p : nat) (K : domains -> (literal -> nat -> Prop) -> (nat -> Z) -> list nat -> Prop) (M : list Z -> Prop)
  (d : domains) (w : wpart) : Prop := K d (armed_by w p) (stored w p) [] /\ M (memo w p) /\ inbox w p = [].
