(** The stack of epochs.

    Models the backtracking part of gcs/innards/state.cc. The four parallel
    containers integer_variable_states, constraint_states, on_backtracks and
    guesses (gcs/innards/state.cc:90-102) are kept as four lists; the three
    stacks are held newest first, so "back()" is the head.

    Simplifications: a ConstraintState (a std::any) is a list of integers; an
    on_backtrack callback is a value of an arbitrary type [A], and backtracking
    returns the callbacks it would call in order. extra_proof_conditions (proof
    logging only) is left out. *)
From Coq Require Import ZArith List Bool.
From Verif Require Import IntervalSet Vars State.
Import ListNotations.

Definition cstate : Type := list Z.

Record state (A : Type) : Type := mk_state
  { st_domains : list domains;
    st_cstates : list (list cstate);
    st_callbacks : list (list A);
    st_guesses : list literal }.
Arguments mk_state {A}.
Arguments st_domains {A}.
Arguments st_cstates {A}.
Arguments st_callbacks {A}.
Arguments st_guesses {A}.

(** gcs/innards/state.hh: Timestamp, without how_many_extra_proof_conditions. *)
Record timestamp : Type := mk_timestamp { t_when : nat; t_guesses : nat }.

Section Epochs.
Context {A : Type}.

(** gcs/innards/state.cc:104-109. *)
Definition initial_state : state A := mk_state [[]] [[]] [[]] [].

(** integer_variable_states.back() and so on. *)
Definition top {X : Type} (l : list (list X)) : list X := match l with x :: _ => x | [] => [] end.
Definition set_top {X : Type} (l : list (list X)) (x : list X) : list (list X) :=
  match l with _ :: r => x :: r | [] => [] end.

Definition current (st : state A) : domains := top (st_domains st).

Definition with_domains (st : state A) (d : domains) : state A :=
  mk_state (set_top (st_domains st) d) (st_cstates st) (st_callbacks st) (st_guesses st).

(** gcs/innards/state.cc:129-135. [None] is the exception. *)
Definition allocate (st : state A) (l u : Z) : option (nat * state A) :=
  if Z.ltb u l then None
  else Some (length (current st), with_domains st (current st ++ [iset_of_bounds l u])).

(** gcs/innards/state.cc:271-279, on the newest epoch. *)
Definition state_infer (st : state A) (l : literal) : inference * state A :=
  let '(i, d) := infer (current st) l in (i, with_domains st d).

(** gcs/innards/state.cc:385-398. The boolean says whether it returned normally:
    on a contradiction the inference has been made and an exception is thrown. *)
Definition guess (st : state A) (l : literal) : bool * state A :=
  let '(i, st') := state_infer st l in
  match i with
  | Contradiction => (false, st')
  | _ => (true, mk_state (st_domains st') (st_cstates st') (st_callbacks st') (st_guesses st' ++ [l]))
  end.

(** gcs/innards/state.cc:675-683. *)
Definition new_epoch (st : state A) : timestamp * state A :=
  let st' := mk_state (current st :: st_domains st) (top (st_cstates st) :: st_cstates st)
                      ([] :: st_callbacks st) (st_guesses st) in
  (mk_timestamp (length (st_domains st') - 1) (length (st_guesses st)), st').

(** list::resize to a size not larger than the current one. *)
Definition resize {X : Type} (n : nat) (l : list X) : list X := skipn (length l - n) l.

(** gcs/innards/state.cc:694-698: callbacks of the newest epoch first, and within
    one epoch in registration order. *)
Definition callbacks_above (n : nat) (l : list (list A)) : list A :=
  concat (firstn (length l - n) l).

(** gcs/innards/state.cc:685-699. *)
Definition backtrack (t : timestamp) (st : state A) : state A * list A :=
  (mk_state (resize (t_when t) (st_domains st)) (resize (t_when t) (st_cstates st))
            (resize (t_when t) (st_callbacks st)) (firstn (t_guesses t) (st_guesses st)),
   callbacks_above (t_when t) (st_callbacks st)).

(** gcs/innards/state.cc:781-784. *)
Definition on_backtrack (st : state A) (f : A) : state A :=
  mk_state (st_domains st) (st_cstates st) (set_top (st_callbacks st) (top (st_callbacks st) ++ [f])) (st_guesses st).

(** gcs/innards/state.cc:791-795. *)
Definition add_constraint_state (st : state A) (c : cstate) : nat * state A :=
  (length (top (st_cstates st)),
   mk_state (st_domains st) (set_top (st_cstates st) (top (st_cstates st) ++ [c])) (st_callbacks st) (st_guesses st)).

(** Assigning through the reference returned by get_constraint_state
    (gcs/innards/state.cc:797-800). *)
Fixpoint set_nth {X : Type} (l : list X) (n : nat) (x : X) : list X :=
  match l, n with
  | [], _ => []
  | _ :: r, O => x :: r
  | y :: r, S n' => y :: set_nth r n' x
  end.

Definition get_constraint_state (st : state A) (h : nat) : cstate := nth h (top (st_cstates st)) [].

Definition set_constraint_state (st : state A) (h : nat) (c : cstate) : state A :=
  mk_state (st_domains st) (set_top (st_cstates st) (set_nth (top (st_cstates st)) h c)) (st_callbacks st) (st_guesses st).

(** ** Histories *)

(** The operations of State that change it. *)
Inductive st_op : Type :=
| SAllocate (l u : Z)
| SInfer (l : literal)
| SGuess (l : literal)
| SOnBacktrack (f : A)
| SAddConstraintState (c : cstate)
| SSetConstraintState (h : nat) (c : cstate)
| SNewEpoch
| SBacktrack (k : nat). (** to the k-th timestamp returned during the history *)

(** Run one operation: the state, the timestamps returned so far, and the
    callbacks run so far. [None] is a use outside the interface: a timestamp
    index that was never returned, or a timestamp newer than the current epoch
    (it was already backtracked over), for which resize would create empty
    epochs and erase would go past the end. *)
Definition run_st_op (o : st_op) (x : state A * list timestamp * list A) : option (state A * list timestamp * list A) :=
  let '(st, ts, ran) := x in
  match o with
  | SAllocate l u => match allocate st l u with Some (_, st') => Some (st', ts, ran) | None => Some (st, ts, ran) end
  | SInfer l => Some (snd (state_infer st l), ts, ran)
  | SGuess l => Some (snd (guess st l), ts, ran)
  | SOnBacktrack f => Some (on_backtrack st f, ts, ran)
  | SAddConstraintState c => Some (snd (add_constraint_state st c), ts, ran)
  | SSetConstraintState h c => Some (set_constraint_state st h c, ts, ran)
  | SNewEpoch => let '(t, st') := new_epoch st in Some (st', ts ++ [t], ran)
  | SBacktrack k =>
      match nth_error ts k with
      | Some t =>
          if Nat.leb (t_when t) (length (st_domains st)) && Nat.leb (t_guesses t) (length (st_guesses st))
          then let '(st', r) := backtrack t st in Some (st', ts, ran ++ r)
          else None
      | None => None
      end
  end.

Fixpoint run_st_ops (ops : list st_op) (x : state A * list timestamp * list A) : option (state A * list timestamp * list A) :=
  match ops with
  | [] => Some x
  | o :: r => match run_st_op o x with Some y => run_st_ops r y | None => None end
  end.

End Epochs.
Arguments st_op : clear implicits.
