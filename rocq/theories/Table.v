(** Tables.

    Models gcs/constraints/table/table.cc and gcs/constraints/extensional_utils.cc.
    A tuple entry is [None] for a wildcard. Proof logging is left out, and with it
    the contradictions that are only raised when there is a log. *)
From Coq Require Import ZArith List Bool Arith.
From Verif Require Import IntervalSet Vars State Epochs Engine Tracker Solve NegativeTable.
Import ListNotations.
Local Open Scope Z_scope.

(** feasible, gcs/constraints/extensional_utils.cc:27-40. *)
Definition feasible (d : domains) (v : var_id) (e : entry) : bool :=
  match e with None => true | Some x => in_domain d v x end.

(** match, gcs/constraints/extensional_utils.cc:42-55. *)
Definition fits (e : entry) (x : Z) : bool :=
  match e with None => true | Some y => y =? x end.

(** get_tuple_value, gcs/constraints/extensional_utils.cc:57-67. *)
Definition tuple_at (tuples : list tuple) (k : Z) : tuple := nth (Z.to_nat k) tuples [].
Definition entry_at (tuples : list tuple) (k : Z) (idx : nat) : entry := nth idx (tuple_at tuples k) None.

(** gcs/constraints/extensional_utils.cc:79-84: the tuples are as long as there are
    variables, see [table]. *)
Definition tuple_feasible (d : domains) (vars : list var_id) (t : tuple) : bool :=
  forallb (fun '(v, e) => feasible d v e) (combine vars t).

(** Whether selectable tuples are still feasible, gcs/constraints/extensional_utils.cc:74-99. *)
Definition drop_infeasible (sel : var_id) (vars : list var_id) (tuples : list tuple) (t : tracker) : tracker :=
  for_each (each_value (t_domains t) sel)
    (fun k u => if tuple_feasible (t_domains u) vars (tuple_at tuples k) then u else tell_ne sel k u) t.

(** The search for a support, gcs/constraints/extensional_utils.cc:136-144. *)
Definition find_support (d : domains) (sel : var_id) (tuples : list tuple) (idx : nat) (x : Z) : option Z :=
  find (fun k => fits (entry_at tuples k idx) x) (each_value d sel).

Definition supported (d : domains) (sel : var_id) (tuples : list tuple) (idx : nat) (x : Z) : bool :=
  match find_support d sel tuples idx x with Some _ => true | None => false end.

(** The values of one variable, gcs/constraints/extensional_utils.cc:124-149, with a
    full search each time. *)
Definition drop_unsupported (sel : var_id) (tuples : list tuple) (iv : nat * var_id) (t : tracker) : tracker :=
  let '(idx, v) := iv in
  for_each (each_value (t_domains t) v)
    (fun x u => if supported (t_domains u) sel tuples idx x then u else tell_ne v x u) t.

Definition positions (vars : list var_id) : list (nat * var_id) := combine (seq 0 (length vars)) vars.

(** propagate_extensional, gcs/constraints/extensional_utils.cc:70-166. Simplification:
    without the residues, which [residual_pass] below has. *)
Definition extensional_pass (sel : var_id) (vars : list var_id) (tuples : list tuple) : body := fun d =>
  (for_each (positions vars) (drop_unsupported sel tuples) (drop_infeasible sel vars tuples (track d)), EnableButIdempotent).

(** ** Residues *)

(** ExtensionalResidues, gcs/constraints/extensional_utils.hh:36-42: for each variable
    the value the row starts at, and the row; [None] is none. *)
Definition residue_row : Type := (Z * list (option Z))%type.

(** gcs/constraints/extensional_utils.cc:108-117. *)
Definition empty_row (d : domains) (v : var_id) : residue_row :=
  let '(lo, hi) := bounds d v in (lo, repeat None (Z.to_nat (hi - lo + 1))).

(** gcs/constraints/extensional_utils.cc:125-126: the offset is unsigned, so a value
    below the base has no place. *)
Definition offset (row : residue_row) (x : Z) : option nat :=
  if (fst row <=? x) && (Z.to_nat (x - fst row) <? length (snd row))%nat then Some (Z.to_nat (x - fst row)) else None.

(** gcs/constraints/extensional_utils.cc:129-134. *)
Definition remembered (d : domains) (sel : var_id) (tuples : list tuple) (idx : nat) (row : residue_row) (x : Z) : bool :=
  match offset row x with
  | None => false
  | Some o =>
      match nth o (snd row) None with
      | None => false
      | Some k => in_domain d sel k && fits (entry_at tuples k idx) x
      end
  end.

(** gcs/constraints/extensional_utils.cc:140-141. *)
Definition remember (row : residue_row) (x : Z) (k : Z) : residue_row :=
  match offset row x with None => row | Some o => (fst row, set_nth (snd row) o (Some k)) end.

(** gcs/constraints/extensional_utils.cc:124-149. *)
Definition check_value (sel : var_id) (tuples : list tuple) (idx : nat) (v : var_id) (s : tracker * residue_row) (x : Z) : tracker * residue_row :=
  let '(u, row) := s in
  if remembered (t_domains u) sel tuples idx row x then s
  else
    match find_support (t_domains u) sel tuples idx x with
    | Some k => (u, remember row x k)
    | None => (tell_ne v x u, row)
    end.

(** gcs/constraints/extensional_utils.cc:121-150. *)
Fixpoint check_rows (sel : var_id) (tuples : list tuple) (ivs : list (nat * var_id)) (rows : list residue_row) (t : tracker) : tracker * list residue_row :=
  match ivs with
  | [] => (t, rows)
  | (idx, v) :: more =>
      match rows with
      | [] => (t, [])
      | row :: rest =>
          let '(u, row') := fold_left (check_value sel tuples idx v) (each_value (t_domains t) v) (t, row) in
          let '(u', rest') := check_rows sel tuples more rest u in
          (u', row' :: rest')
      end
  end.

(** propagate_extensional with the residues; [None] if not initialised. *)
Definition residual_pass (sel : var_id) (vars : list var_id) (tuples : list tuple) (rows : option (list residue_row)) (d : domains) : tracker * list residue_row :=
  let t := drop_infeasible sel vars tuples (track d) in
  let rows := match rows with Some r => r | None => map (empty_row (t_domains t)) vars end in
  check_rows sel tuples (positions vars) rows t.

(** ** The constraint *)

(** Table, gcs/constraints/table/table.cc:110-133 and 169-195. The selector is the next
    variable there is. [None] is the exception for a tuple of the wrong length. *)
Definition table (vars : list var_id) (tuples : list tuple) : option installer :=
  match tuples with
  | [] => Some (fun _ _ => mk_installation [] [] [] [(O, body_initialiser (fun d => tell_false (track d)))])
  | _ :: _ =>
      if forallb (fun t => Nat.eqb (length t) (length vars)) tuples then
        Some (fun d _ =>
          let sel := VSimple (length d) in
          mk_installation [[(0, Z.of_nat (length tuples) - 1)]] []
            [body_propagator (extensional_pass sel vars tuples) (vars ++ [sel]) [] []] [])
      else None
  end.
