(** Lexicographic comparison.

    Models gcs/constraints/lex/lex.{hh,cc}. Proof flags, reasons and
    justifications are left out. *)
From Coq Require Import ZArith List Bool Arith.
From Verif Require Import IntervalSet Vars State Epochs Engine Tracker Reify Solve Stateful StatefulReify.
Import ListNotations.
Local Open Scope Z_scope.

(** The positions of the common prefix. Where the code indexes both lists up to
    the smaller length, the model has one list of pairs. *)
Definition lex_pairs (vars_1 vars_2 : list var_id) : list (var_id * var_id) := combine vars_1 vars_2.

(** equal_prefix_satisfies, gcs/constraints/lex/lex.cc:83. *)
Definition equal_prefix_satisfies (vars_1 vars_2 : list var_id) (or_equal : bool) : bool :=
  (length vars_2 <? length vars_1)%nat || (or_equal && Nat.eqb (length vars_1) (length vars_2)).

(** gcs/constraints/lex/lex.cc:95. *)
Definition forced_equal (d : domains) (xy : var_id * var_id) : bool :=
  let '(l1, u1) := bounds d (fst xy) in
  let '(l2, u2) := bounds d (snd xy) in
  (l1 =? u1) && (l2 =? u2) && (l1 =? l2).

(** How far alpha moves, gcs/constraints/lex/lex.cc:92-99. *)
Fixpoint run_of_equal (d : domains) (ps : list (var_id * var_id)) : nat :=
  match ps with
  | [] => O
  | xy :: r => if forced_equal d xy then S (run_of_equal d r) else O
  end.

(** gcs/constraints/lex/lex.cc:158-173: whether found_beta, prefix_blocked or
    neither. *)
Inductive scan_result : Type := FoundBeta | PrefixBlocked | AllTied.

Fixpoint scan (d : domains) (ps : list (var_id * var_id)) : scan_result :=
  match ps with
  | [] => AllTied
  | (x, y) :: r =>
      if lower_bound d y <? upper_bound d x then FoundBeta
      else if upper_bound d x <? lower_bound d y then PrefixBlocked
      else scan d r
  end.

(** gcs/constraints/lex/lex.cc:175. *)
Definition must_force_strict (s : scan_result) (equal_satisfies : bool) : bool :=
  match s with FoundBeta => false | PrefixBlocked => true | AllTied => negb equal_satisfies end.

(** run_lex_pass, gcs/constraints/lex/lex.cc:75-226, from the saved alpha to what is
    inferred, the alpha saved and the result. *)
Definition lex_pass (vars_1 vars_2 : list var_id) (or_equal : bool) (d : domains) (saved : nat) : tracker * nat * prop_state :=
  let ps := lex_pairs vars_1 vars_2 in
  let equal_satisfies := equal_prefix_satisfies vars_1 vars_2 or_equal in
  let alpha := (saved + run_of_equal d (skipn saved ps))%nat in
  match nth_error ps alpha with
  | None => if equal_satisfies then (track d, alpha, DisableUntilBacktrack) else (tell_false (track d), alpha, Enable)
  | Some (x, y) =>
      let t1 := tell_all [LCond (cond_ge x (lower_bound d y)); LCond (cond_lt y (upper_bound d x + 1))] (track d) in
      if t_failed t1 then (t1, saved, Enable)
      else
        let d1 := t_domains t1 in
        if upper_bound d1 y <? lower_bound d1 x then (t1, alpha, DisableUntilBacktrack)
        else if must_force_strict (scan d1 (skipn (S alpha) ps)) equal_satisfies then
          if lower_bound d1 y <? upper_bound d1 x then
            let t2 := tell_all [LCond (cond_ge x (lower_bound d1 y + 1)); LCond (cond_lt y (upper_bound d1 x))] t1 in
            if t_failed t2 then (t2, saved, Enable)
            else (t2, alpha, if upper_bound (t_domains t2) y <? lower_bound (t_domains t2) x then DisableUntilBacktrack else Enable)
          else (tell_false t1, saved, Enable)
        else (t1, alpha, Enable)
  end.

(** LexState, gcs/constraints/lex/lex.cc:59-62: the constraint state is alpha. *)
Definition lex_body (vars_1 vars_2 : list var_id) (or_equal : bool) : state_body := fun d s m =>
  let '(t, alpha, r) := lex_pass vars_1 vars_2 or_equal d (Z.to_nat (hd 0 s)) in
  mk_effect t [Z.of_nat alpha] m r.

(** run_lex_undecided_detection, gcs/constraints/lex/lex.cc:277-357. *)
Definition lex_verdict (vars_1 vars_2 : list var_id) (or_equal : bool) (d : domains) : verdict :=
  let ps := lex_pairs vars_1 vars_2 in
  match nth_error ps (run_of_equal d ps) with
  | None => if equal_prefix_satisfies vars_1 vars_2 or_equal then VMustHold else VMustNotHold
  | Some (x, y) =>
      if upper_bound d y <? lower_bound d x then VMustHold
      else if upper_bound d x <? lower_bound d y then VMustNotHold
      else VStillUndecided
  end.

(** LexCompareGreaterThanOrMaybeEqual: prepare, gcs/constraints/lex/lex.cc:474-479,
    and install_propagators, lines 542-582. *)
Definition reified_lex (vars_1 vars_2 : list var_id) (r : reif) (or_equal : bool) : installer := fun d cs =>
  mk_installation [] [[0]]
    (install_state_dispatcher (lex_body vars_1 vars_2 or_equal) (lex_body vars_2 vars_1 (negb or_equal)) (lex_verdict vars_1 vars_2 or_equal)
       (length cs) (test_reif d r) r [] (vars_1 ++ vars_2) [])
    [].

(** The constructors, gcs/constraints/lex/lex.hh:112-251. *)
Definition lex_greater_than (vars_1 vars_2 : list var_id) := reified_lex vars_1 vars_2 RMustHold false.
Definition lex_greater_than_if (vars_1 vars_2 : list var_id) (c : cond) := reified_lex vars_1 vars_2 (RIf c) false.
Definition lex_greater_than_iff (vars_1 vars_2 : list var_id) (c : cond) := reified_lex vars_1 vars_2 (RIff c) false.
Definition lex_greater_equal (vars_1 vars_2 : list var_id) := reified_lex vars_1 vars_2 RMustHold true.
Definition lex_greater_equal_if (vars_1 vars_2 : list var_id) (c : cond) := reified_lex vars_1 vars_2 (RIf c) true.
Definition lex_greater_equal_iff (vars_1 vars_2 : list var_id) (c : cond) := reified_lex vars_1 vars_2 (RIff c) true.
Definition lex_less_than (vars_1 vars_2 : list var_id) := reified_lex vars_2 vars_1 RMustHold false.
Definition lex_less_than_if (vars_1 vars_2 : list var_id) (c : cond) := reified_lex vars_2 vars_1 (RIf c) false.
Definition lex_less_than_iff (vars_1 vars_2 : list var_id) (c : cond) := reified_lex vars_2 vars_1 (RIff c) false.
Definition lex_less_than_equal (vars_1 vars_2 : list var_id) := reified_lex vars_2 vars_1 RMustHold true.
Definition lex_less_than_equal_if (vars_1 vars_2 : list var_id) (c : cond) := reified_lex vars_2 vars_1 (RIf c) true.
Definition lex_less_than_equal_iff (vars_1 vars_2 : list var_id) (c : cond) := reified_lex vars_2 vars_1 (RIff c) true.
