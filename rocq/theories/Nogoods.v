(** Nogoods.

    Models gcs/constraints/nogoods/nogoods.cc. A nogood is a list of literals
    which may not all hold. In the program they are conditions; literals are
    allowed here so that the same definitions describe negative tables, whose
    code is the same apart from what stands at each position
    (gcs/constraints/table/negative_table.cc:155-319). *)
From Coq Require Import ZArith List Bool Arith.
From Verif Require Import IntervalSet Vars State Epochs Engine Tracker NegativeTable Search.
Import ListNotations.
Local Open Scope Z_scope.

Definition clause : Type := list literal.

Definition definitely_true (d : domains) (l : literal) : bool :=
  match test_literal d l with DefinitelyTrue => true | _ => false end.

(** is_broken, gcs/constraints/nogoods/nogoods.cc:155 and 294. A position outside
    the nogood would be undefined behaviour; here it counts as broken. *)
Definition broken (d : domains) (N : clause) (p : nat) : bool :=
  match nth_error N p with Some l => definitely_true d l | None => true end.

(** find_unbroken, gcs/constraints/nogoods/nogoods.cc:103-111, 157-165 and 243-251. *)
Definition unbroken (d : domains) (N : clause) (skip : option nat) : option nat :=
  find (fun p => negb (match skip with Some s => Nat.eqb p s | None => false end) && negb (broken d N p)) (seq 0 (length N)).

(** nogood[p] and its negation. *)
Definition at_position (N : clause) (p : nat) : literal := nth p N LTrue.
Definition forbid (N : clause) (p : nat) : literal := lit_not (at_position N p).

(** init_watches_for, gcs/constraints/nogoods/nogoods.cc:95-125, for one nogood:
    returns the two positions; [None] if it left by an exception. *)
Definition first_positions (N : clause) (tr : tracker) : tracker * option (nat * nat) :=
  if t_failed tr then (tr, None)
  else
    match unbroken (t_domains tr) N None with
    | None => (tell_false tr, None)
    | Some w1 =>
        match unbroken (t_domains tr) N (Some w1) with
        | None => let tr' := tell (forbid N w1) tr in (tr', if t_failed tr' then None else Some (w1, w1))
        | Some w2 => (tr, Some (w1, w2))
        end
    end.

(** The initialiser, gcs/constraints/nogoods/nogoods.cc:144-149 and 219-225. *)
Definition detect_nogoods (ns : list clause) : domains -> tracker := fun d =>
  for_each ns (fun N tr => fst (first_positions N tr)) (track d).

(** ** With condition watches: install_refined_nogoods *)

(** The run at the root, gcs/constraints/nogoods/nogoods.cc:262-285, for nogood [ni]. *)
Definition arm_nogood (ns : list clause) (ni : nat) (s : progress_of) : progress_of :=
  let '(tr, ed) := s in
  if t_failed tr then s
  else
    match nth_error ns ni with
    | None => s
    | Some N =>
        match unbroken (t_domains tr) N None with
        | None => (tell_false tr, ed)
        | Some w1 =>
            match unbroken (t_domains tr) N (Some w1) with
            | None => (tell (forbid N w1) tr, ed ++ [ReqWatch (at_position N w1) ni; ReqSet ni (pack w1 w1)])
            | Some w2 => (tr, ed ++ [ReqWatch (at_position N w1) ni; ReqWatch (at_position N w2) ni; ReqSet ni (pack w1 w2)])
            end
        end
    end.

(** A run because watches fired, gcs/constraints/nogoods/nogoods.cc:296-343. *)
Definition visit_nogood (ns : list clause) (scratch : list Z) (ni : nat) (s : progress_of) : progress_of :=
  let '(tr, ed) := s in
  if t_failed tr then s
  else
    match nth_error ns ni with
    | None => s
    | Some N =>
        let d := t_domains tr in
        let '(p, q) := unpack (nth ni scratch 0) in
        match broken d N p, broken d N q with
        | false, false => s
        | true, true =>
            match unbroken d N None with
            | None => (tell_false tr, ed)
            | Some n1 =>
                match unbroken d N (Some n1) with
                | None => (tell (forbid N n1) tr, ed)
                | Some n2 => (tr, ed ++ [ReqWatch (at_position N n1) ni; ReqWatch (at_position N n2) ni; ReqSet ni (pack n1 n2)])
                end
            end
        | true, false =>
            match unbroken d N (Some q) with
            | None => (tell (forbid N q) tr, ed)
            | Some n1 => (tr, ed ++ [ReqWatch (at_position N n1) ni; ReqSet ni (pack n1 q)])
            end
        | false, true =>
            match unbroken d N (Some p) with
            | None => (tell (forbid N p) tr, ed)
            | Some n2 => (tr, ed ++ [ReqWatch (at_position N n2) ni; ReqSet ni (pack p n2)])
            end
        end
    end.

(** gcs/constraints/nogoods/nogoods.cc:236-345. The only private value is the
    counter set_up; an exception leaves before it is written. *)
Definition propagate_nogoods (ns : list clause) (i : prop_in) : prop_out :=
  match i_fired i with
  | [] =>
      let from := Z.to_nat (nth 0 (i_memo i) 0) in
      let '(tr, ed) := fold_left (fun s ni => arm_nogood ns ni s) (seq from (length ns - from)) (track (i_domains i), []) in
      mk_out (rev (t_lits tr)) Enable (i_cstates i) (if t_failed tr then i_memo i else [Z.of_nat (length ns)]) ed
  | fired =>
      let '(tr, ed) := fold_left (fun s ni => visit_nogood ns (i_scratch i) ni s) (sort_unique fired) (track (i_domains i), []) in
      mk_out (rev (t_lits tr)) Enable (i_cstates i) (i_memo i) ed
  end.

Definition refined_nogoods (ns : list clause) : propagator := mk_propagator (propagate_nogoods ns) [] [] [] [] [].

(** ** Without: install_scan_nogoods *)

(** The private value is the vector of watched positions, each pair packed. *)
Definition scan_catch_up (ns : list clause) (s : tracker * list Z) (ni : nat) : tracker * list Z :=
  let '(tr, ws) := s in
  match nth_error ns ni with
  | None => s
  | Some N =>
      let '(tr', w) := first_positions N tr in
      (tr', match w with Some (p, q) => ws ++ [pack p q] | None => ws end)
  end.

(** gcs/constraints/nogoods/nogoods.cc:167-204, for nogood [ni]. *)
Definition scan_nogood (ns : list clause) (s : tracker * list Z) (ni : nat) : tracker * list Z :=
  let '(tr, ws) := s in
  if t_failed tr then s
  else
    match nth_error ns ni with
    | None => s
    | Some N =>
        let d := t_domains tr in
        let '(p, q) := unpack (nth ni ws 0) in
        match broken d N p, broken d N q with
        | false, false => s
        | true, true =>
            match unbroken d N None with
            | None => (tell_false tr, ws)
            | Some n1 =>
                match unbroken d N (Some n1) with
                | None => (tell (forbid N n1) tr, ws)
                | Some n2 => (tr, set_nth ws ni (pack n1 n2))
                end
            end
        | true, false =>
            match unbroken d N (Some q) with
            | None => (tell (forbid N q) tr, ws)
            | Some n1 => (tr, set_nth ws ni (pack n1 q))
            end
        | false, true =>
            match unbroken d N (Some p) with
            | None => (tell (forbid N p) tr, ws)
            | Some n2 => (tr, set_nth ws ni (pack p n2))
            end
        end
    end.

(** gcs/constraints/nogoods/nogoods.cc:151-206. *)
Definition scan_run (ns : list clause) (i : prop_in) : prop_out :=
  let ws := i_memo i in
  let s := fold_left (scan_catch_up ns) (seq (length ws) (length ns - length ws)) (track (i_domains i), ws) in
  let '(tr, ws) := fold_left (scan_nogood ns) (seq 0 (length ns)) s in
  mk_out (rev (t_lits tr)) Enable (i_cstates i) ws [].

Definition scan_nogoods (ns : list clause) (trigger_vars : list var_id) : propagator :=
  mk_propagator (scan_run ns) trigger_vars [] [] [] [].

(** ** The two constructors *)

(** Nogoods(nogoods, refined) and install_propagators, gcs/constraints/nogoods/nogoods.cc:60-67 and
    350-357. add_distinct keeps the first of equal handles; which handles wake the
    propagator is all that matters, so repeats are kept here. The scan path
    shares its watched positions between the initialiser and the propagator; here
    the propagator finds them again, since a nogood that gave the initialiser
    something to infer is then settled. *)
Definition nogoods (ns : list nogood) (refined : bool) : constraint := fun _ =>
  let cs := map (map LCond) ns in
  ([if refined then refined_nogoods cs else scan_nogoods cs (map c_var (concat ns))],
   [body_initialiser (detect_nogoods cs)]).

(** The store the restart loop grows, gcs/solve.cc:321-334, when it holds [store].
    It is empty when the initialiser runs. *)
Definition learned_nogoods (refined : bool) (trigger_vars : list var_id) (store : list nogood) : propagator :=
  let cs := map (map LCond) store in
  if refined then refined_nogoods cs else scan_nogoods cs trigger_vars.
