(** Negative tables.

    Models gcs/constraints/table/negative_table.cc. A tuple entry is [None] for a
    wildcard. *)
From Coq Require Import ZArith List Bool Arith.
From Verif Require Import IntervalSet Vars State Epochs Engine Tracker.
Import ListNotations.
Local Open Scope Z_scope.

Definition entry : Type := option Z.
Definition tuple : Type := list entry.

(** The == and != overloads, gcs/constraints/table/negative_table.cc:92-110. *)
Definition matches (v : var_id) (e : entry) : literal :=
  match e with None => LTrue | Some x => LCond (cond_eq v x) end.

Definition differs (v : var_id) (e : entry) : literal :=
  match e with None => LFalse | Some x => LCond (cond_ne v x) end.

Definition position_matches (vars : list var_id) (t : tuple) (p : nat) : literal :=
  matches (nth p vars (VConst 0)) (nth p t None).

Definition position_differs (vars : list var_id) (t : tuple) (p : nat) : literal :=
  differs (nth p vars (VConst 0)) (nth p t None).

(** is_broken, gcs/constraints/table/negative_table.cc:262. *)
Definition is_broken (d : domains) (vars : list var_id) (t : tuple) (p : nat) : bool :=
  match test_literal d (position_matches vars t p) with DefinitelyTrue => true | _ => false end.

(** find_unbroken, gcs/constraints/table/negative_table.cc:165-173 and 218-226;
    no_watch is [None]. *)
Definition find_unbroken (d : domains) (vars : list var_id) (t : tuple) (skip : option nat) : option nat :=
  find (fun p => negb (match skip with Some s => Nat.eqb p s | None => false end) && negb (is_broken d vars t p))
       (seq 0 (length vars)).

(** detect_root_negative_table, gcs/constraints/table/negative_table.cc:155-184. *)
Definition detect_tuple (vars : list var_id) (t : tuple) (tr : tracker) : tracker :=
  if t_failed tr then tr
  else
    match find_unbroken (t_domains tr) vars t None with
    | None => tell_false tr
    | Some w1 =>
        match find_unbroken (t_domains tr) vars t (Some w1) with
        | None => tell (position_differs vars t w1) tr
        | Some _ => tr
        end
    end.

Definition detect_root (vars : list var_id) (tuples : list tuple) : domains -> tracker := fun d =>
  for_each tuples (detect_tuple vars) (track d).

(** pack and unpack two positions, gcs/constraints/table/negative_table.cc:213 and 270. *)
Definition two32 : Z := 4294967296.
Definition pack (p q : nat) : Z := Z.of_nat p * two32 + Z.of_nat q.
Definition unpack (x : Z) : nat * nat := (Z.to_nat (x / two32), Z.to_nat (x mod two32)).

(** What a run has done so far: inferences, and edits to the watches. *)
Definition progress_of : Type := (tracker * list watch_request)%type.

(** The first run, gcs/constraints/table/negative_table.cc:233-250, for tuple number [ti].
    Here and below a number that is not that of a tuple is passed over; the
    numbers are payloads of watches this propagator has armed. *)
Definition arm_tuple (vars : list var_id) (tuples : list tuple) (ti : nat) (s : progress_of) : progress_of :=
  let '(tr, ed) := s in
  if t_failed tr then s
  else
    match nth_error tuples ti with
    | None => s
    | Some t =>
        match find_unbroken (t_domains tr) vars t None with
        | None => (tell_false tr, ed)
        | Some w1 =>
            match find_unbroken (t_domains tr) vars t (Some w1) with
            | None => (tell (position_differs vars t w1) tr,
                       ed ++ [ReqWatch (position_matches vars t w1) ti; ReqSet ti (pack w1 w1)])
            | Some w2 => (tr, ed ++ [ReqWatch (position_matches vars t w1) ti; ReqWatch (position_matches vars t w2) ti;
                                     ReqSet ti (pack w1 w2)])
            end
        end
    end.

(** A later run, gcs/constraints/table/negative_table.cc:264-316, for a tuple with a
    watch that fired. *)
Definition visit_tuple (vars : list var_id) (tuples : list tuple) (scratch : list Z) (ti : nat) (s : progress_of) : progress_of :=
  let '(tr, ed) := s in
  if t_failed tr then s
  else
    match nth_error tuples ti with
    | None => s
    | Some t =>
        let d := t_domains tr in
        let '(p, q) := unpack (nth ti scratch 0) in
        match is_broken d vars t p, is_broken d vars t q with
        | false, false => s
        | true, true =>
            match find_unbroken d vars t None with
            | None => (tell_false tr, ed)
            | Some n1 =>
                match find_unbroken d vars t (Some n1) with
                | None => (tell (position_differs vars t n1) tr, ed)
                | Some n2 => (tr, ed ++ [ReqWatch (position_matches vars t n1) ti; ReqWatch (position_matches vars t n2) ti;
                                         ReqSet ti (pack n1 n2)])
                end
            end
        | true, false =>
            match find_unbroken d vars t (Some q) with
            | None => (tell (position_differs vars t q) tr, ed)
            | Some n1 => (tr, ed ++ [ReqWatch (position_matches vars t n1) ti; ReqSet ti (pack n1 q)])
            end
        | false, true =>
            match find_unbroken d vars t (Some p) with
            | None => (tell (position_differs vars t p) tr, ed)
            | Some n2 => (tr, ed ++ [ReqWatch (position_matches vars t n2) ti; ReqSet ti (pack p n2)])
            end
        end
    end.

(** sort and unique. *)
Fixpoint insert_sorted (n : nat) (l : list nat) : list nat :=
  match l with
  | [] => [n]
  | x :: r => if Nat.ltb n x then n :: l else if Nat.eqb n x then l else x :: insert_sorted n r
  end.

Definition sort_unique (l : list nat) : list nat := fold_right insert_sorted [] l.

(** propagate_negative_table_refined, gcs/constraints/table/negative_table.cc:206-319. The
    only private value is the counter set_up. A contradiction leaves by an
    exception, before the counter is written. *)
Definition propagate_negative_table (vars : list var_id) (tuples : list tuple) (i : prop_in) : prop_out :=
  match i_fired i with
  | [] =>
      let from := Z.to_nat (nth 0 (i_memo i) 0) in
      let '(tr, ed) := fold_left (fun s ti => arm_tuple vars tuples ti s) (seq from (length tuples - from)) (track (i_domains i), []) in
      mk_out (rev (t_lits tr)) Enable (i_cstates i) (if t_failed tr then i_memo i else [Z.of_nat (length tuples)]) ed
  | fired =>
      let '(tr, ed) := fold_left (fun s ti => visit_tuple vars tuples (i_scratch i) ti s) (sort_unique fired) (track (i_domains i), []) in
      mk_out (rev (t_lits tr)) Enable (i_cstates i) (i_memo i) ed
  end.

(** prepare, gcs/constraints/table/negative_table.cc:129-140: [None] is the exception; and
    install_propagators, lines 322-366. *)
Definition negative_table (vars : list var_id) (tuples : list tuple) : option constraint :=
  if forallb (fun t => Nat.eqb (length t) (length vars)) tuples then
    Some (fun _ => ([mk_propagator (propagate_negative_table vars tuples) [] [] [] vars []],
                    [body_initialiser (detect_root vars tuples)]))
  else None.
