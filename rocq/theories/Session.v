(** Sequences of uses of the propagation engine.

    A search drives State and Propagators by opening a node (new epoch, guess,
    perhaps an objective bound, propagate), closing it again (backtrack), and, at
    the root, propagating again for another restart pass. This is what
    solve_with_state does (gcs/solve.cc:69-278); a session is any such sequence of
    moves, in any order, of any length. *)
From Coq Require Import ZArith List Bool Arith.
From Verif Require Import Vars State Epochs Engine.
Import ListNotations.

(** How the last propagation at the current node ended: normally, in a
    contradiction, or cut short by the abort flag. *)
Inductive status : Type := Live | Failed | Aborted.

(** [c_open] holds the timestamps of the open nodes below the root, newest first,
    and [c_path] what was guessed or added at each open node, newest first, the
    root last. *)
Record config : Type := mk_config
  { c_engine : engine;
    c_state : estate;
    c_open : list timestamp;
    c_path : list (list literal);
    c_status : status }.

Inductive move : Type :=
| Down (guess : literal) (extra : list literal)
| Up
| Again (extra : list literal).

(** Inferring objective bounds directly on the state, gcs/solve.cc:100-112:
    whether there was no contradiction, and which made a change. *)
Fixpoint add_bounds (st : estate) (ls : list literal) : bool * estate * list literal :=
  match ls with
  | [] => (true, st, [])
  | l :: r =>
      let '(i, st') := state_infer st l in
      match i with
      | Contradiction => (false, st', [])
      | NoChange => add_bounds st' r
      | _ => let '(b, st2, ch) := add_bounds st' r in (b, st2, l :: ch)
      end
  end.

Section Session.
Variable props : list propagator.
Variable disabled : nat -> bool.
Variable abort : nat -> bool.
Variable fuel : nat.

(** propagate, then if it succeeded look at the abort flag, gcs/solve.cc:114-116. *)
Definition propagate_node (seed : list literal) (e : engine) (st : estate) : option (status * engine * estate) :=
  match propagate props disabled abort fuel seed e st with
  | None => None
  | Some (false, e', st') => Some (Failed, e', st')
  | Some (true, e', st') => Some (if abort (e_loads e') then Aborted else Live, mk_engine (e_pq e') (e_watch e') (S (e_loads e')), st')
  end.

Definition is_live (c : config) : bool := match c_status c with Live => true | _ => false end.

(** [None]: not a permitted move, or out of fuel. *)
Definition run_move (m : move) (c : config) : option config :=
  match m with
  | Down l extra =>
      if is_live c then
        let '(t, st1) := new_epoch (c_state c) in
        let '(fine, st2) := guess st1 l in
        let path := (l :: extra) :: c_path c in
        if fine then
          let '(fine', st3, changed) := add_bounds st2 extra in
          if fine' then
            match propagate_node (l :: changed) (c_engine c) st3 with
            | None => None
            | Some (s, e, st4) => Some (mk_config e st4 (t :: c_open c) path s)
            end
          else Some (mk_config (c_engine c) st3 (t :: c_open c) path Failed)
        else Some (mk_config (c_engine c) st2 (t :: c_open c) path Failed)
      else None
  | Up =>
      match c_open c, c_path c with
      | t :: open, _ :: path =>
          let '(st, undos) := backtrack t (c_state c) in
          Some (mk_config (fold_left run_undo undos (c_engine c)) st open path Live)
      | _, _ => None
      end
  | Again extra =>
      match c_open c, c_path c with
      | [], [p] =>
          if is_live c then
            let '(fine, st1, changed) := add_bounds (c_state c) extra in
            if fine then
              match propagate_node changed (c_engine c) st1 with
              | None => None
              | Some (s, e, st2) => Some (mk_config e st2 [] [p ++ extra] s)
              end
            else Some (mk_config (c_engine c) st1 [] [p ++ extra] Failed)
          else None
      | _, _ => None
      end
  end.

(** The root node: the first propagation after everything is installed. *)
Definition open_root (st : estate) : option config :=
  match propagate_node [] (installed_engine props) st with
  | None => None
  | Some (s, e, st') => Some (mk_config e st' [] [[]] s)
  end.

Fixpoint run_moves (ms : list move) (c : config) : option config :=
  match ms with
  | [] => Some c
  | m :: r => match run_move m c with Some c' => run_moves r c' | None => None end
  end.

End Session.

(** Well-bracketed sequences: each node opened is closed again. *)
Inductive excursion : list move -> Prop :=
| ex_nil : excursion []
| ex_node l extra inside rest : excursion inside -> excursion rest -> excursion (Down l extra :: inside ++ Up :: rest).
