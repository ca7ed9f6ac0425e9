(** What can happen between the calls of the difference logic propagator. *)
From Coq Require Import ZArith List.
From Verif Require Import Difference DifferenceSpec DifferenceSession.
Import ListNotations.
Local Open Scope Z_scope.

(** What the solver keeps for each guess: the length of the trail that the propagator last
    published, which conditions hold, and the bounds, upper ones negated. *)
Record epoch : Type := mk_epoch { e_mark : nat; e_flags : list bool; e_lb : nat -> Z; e_ub_neg : nat -> Z }.

(** Domains only shrink, and a condition that holds goes on holding. *)
Definition shrinks (t u : epoch) : Prop :=
  e_mark u = e_mark t /\ length (e_flags u) = length (e_flags t) /\
  (forall e, nth e (e_flags t) false = true -> nth e (e_flags u) false = true) /\
  (forall v, e_lb t v <= e_lb u v) /\ (forall v, e_ub_neg t v <= e_ub_neg u v).

(** The memory before the first call: the trail is empty and the workspaces are clean. *)
Definition fresh (m : memory) : Prop := m_trail m = [] /\ clean_repair (m_repair m) /\ clean_bounds (m_bounds m).

(** The memories and the stacks of epochs, the latest first, that a search can arrive at. A
    call that ends in a contradiction publishes nothing, and the solver then backtracks. *)
Inductive reached (n : nat) (arcs : list arc) : bool -> memory -> list epoch -> Prop :=
| reached_first : forall m flags lb ub m' lower upper, fresh m -> flags = [] \/ length flags = length arcs ->
    first_wake n arcs flags lb ub None m = Woke m' lower upper -> reached n arcs true m' [mk_epoch (length (m_trail m')) flags (after lb lower) (after ub upper)]
| reached_guess : forall m t r, reached n arcs true m (t :: r) -> reached n arcs true m (t :: t :: r)
| reached_shrink : forall m t u r, reached n arcs true m (t :: r) -> shrinks t u -> reached n arcs true m (u :: r)
| reached_wake : forall m t r m' lower upper, reached n arcs true m (t :: r) ->
    wake n arcs (e_flags t) (e_lb t) (e_ub_neg t) (e_mark t) None m = Woke m' lower upper ->
    reached n arcs true m' (mk_epoch (length (m_trail m')) (e_flags t) (after (e_lb t) lower) (after (e_ub_neg t) upper) :: r)
| reached_cycle : forall m t r cut m', reached n arcs true m (t :: r) ->
    wake n arcs (e_flags t) (e_lb t) (e_ub_neg t) (e_mark t) cut m = NegativeCycle m' -> reached n arcs false m' (t :: r)
| reached_emptied : forall m t r cut m', reached n arcs true m (t :: r) ->
    wake n arcs (e_flags t) (e_lb t) (e_ub_neg t) (e_mark t) cut m = Emptied m' -> reached n arcs false m' (t :: r)
| reached_backtrack : forall ok m t u r, reached n arcs ok m (t :: u :: r) -> reached n arcs true m (u :: r).

(** A call does all that the differences that are in force allow, or finds that there is
    nothing to be done. *)
Definition complete (n : nat) (arcs : list arc) (flags : list bool) (lb ub_neg : nat -> Z) (o : outcome) : Prop :=
  match o with
  | Woke _ lower upper =>
      justified true arcs flags lb lower /\ tightest n true arcs flags lb (after lb lower) /\
      justified false arcs flags ub_neg upper /\ tightest n false arcs flags ub_neg (after ub_neg upper)
  | NegativeCycle _ => ~ exists x, solves arcs flags x
  | Emptied _ => False
  | Broken => False
  end.
