(** Specification vocabulary for sequences of uses of the engine. *)
From Coq Require Import ZArith List Permutation.
From Verif Require Import Vars VarsSpec State StateSpec Epochs Engine EngineSpec Session.
Import ListNotations.

(** The constraint state invariant survives guesses and bounds made outside
    propagators. *)
Definition stable (nv : nat) (Inv : domains -> list cstate -> Prop) : Prop :=
  forall d cs l k d', domains_ok d -> length d = nv -> lit_known d l -> Inv d cs ->
    infer d l = (k, d') -> k <> Contradiction -> Inv d' cs.

(** A state a session may start from: [nv] variables with non-empty domains. *)
Record startable (nv : nat) (Inv : domains -> list cstate -> Prop) (st : estate) : Prop :=
  { sb_epoch : has_epoch st;
    sb_domains : domains_ok (current st);
    sb_length : length (current st) = nv;
    sb_inv : Inv (current st) (top (st_cstates st));
    sb_cstates : length (st_domains st) = length (st_cstates st);
    sb_callbacks : length (st_domains st) = length (st_callbacks st) }.

(** The literal is about one of the first [nv] variables, if about any. *)
Definition lit_below (nv : nat) (l : literal) : Prop :=
  match lit_underlying l with Some v => v < nv | None => True end.

Definition move_below (nv : nat) (m : move) : Prop :=
  match m with
  | Down l extra => lit_below nv l /\ Forall (lit_below nv) extra
  | Up => True
  | Again extra => Forall (lit_below nv) extra
  end.

(** Once set, the abort flag stays set. *)
Definition stays_set (abort : nat -> bool) : Prop := forall k, abort k = true -> abort (S k) = true.

(** Everything guessed or added on the way to the current node holds. *)
Definition path_holds (a : assignment) (c : config) : Prop := Forall (lit_holds a) (concat (c_path c)).

(** The propagator is in the enabled part of the queue. *)
Definition may_run (e : engine) (p : nat) : Prop := In p (firstn (q_idle (e_pq e)) (q_queue (e_pq e))).

(** The same watches are armed on every variable, in whatever order. *)
Definition same_watches (e e' : engine) : Prop :=
  forall v, Permutation (watches_on (e_watch e) v) (watches_on (e_watch e') v).

(** Every propagator sees the same backtrackable scratch values. *)
Definition same_scratch (e e' : engine) : Prop :=
  forall p key, scratch_get (e_watch e) p key = scratch_get (e_watch e') p key.

(** The same propagators, except that number [p] runs [f] when it is run. *)
Definition running (p : nat) (f : prop_in -> prop_out) (props : list propagator) : list propagator :=
  let x := nth p props nil_propagator in
  set_nth props p (mk_propagator f (p_on_change x) (p_on_bounds x) (p_on_instantiated x) (p_scope_only x) (p_refined x)).

(** Moves that stay in the subtree of the node they start from. *)
Inductive descent : list move -> Prop :=
| de_nil : descent []
| de_down l extra rest : descent rest -> descent (Down l extra :: rest)
| de_node l extra inside rest : excursion inside -> descent rest -> descent (Down l extra :: inside ++ Up :: rest).
