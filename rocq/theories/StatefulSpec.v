(** The lifetime of a constraint state. *)
From Coq Require Import ZArith List.
From Verif Require Import IntervalSet Vars VarsSpec State StateSpec Epochs Engine ContractSpec.
Import ListNotations.

(** [lives p h d0 s0 D s]: the propagator [p] with state handle [h], installed on
    domains [d0] with state [s0], can find itself on domains [D] with state [s].
    Between its own runs other propagators and guesses make the domains narrower.
    Backtracking goes back to an earlier pair, for which the same holds. *)
Inductive lives (p : propagator) (h : nat) (d0 : domains) (s0 : cstate) : domains -> cstate -> Prop :=
| lives_start : lives p h d0 s0 d0 s0
| lives_narrowed D D' s : lives p h d0 s0 D s -> domains_ok D' -> length D' = length D -> inside D D' -> lives p h d0 s0 D' s
| lives_ran i D' evs s : lives p h d0 s0 (i_domains i) s -> nth_error (i_cstates i) h = Some s ->
    apply_lits (i_domains i) (o_infer (p_run p i)) = (D', evs, false) -> lives p h d0 s0 D' (nth h (o_cstates (p_run p i)) []).
