(** A variable equal to the entry of an array that index variables select.

    Models gcs/constraints/element/element.cc and element.hh. Entries are handles; an
    array of integers has constants for entries, for which the code has shorter paths
    that do the same (lines 353-359, 492-497 and 599-600). *)
From Coq Require Import ZArith List Bool.
From Verif Require Import IntervalSet Vars State Epochs Engine Tracker Equals.
Import ListNotations.
Local Open Scope Z_scope.

(** MakeNDVector, gcs/constraints/element/element.hh:17-31. *)
Inductive narray : Type :=
| Entry (v : var_id)
| Slices (xs : list narray).

(** get_dimension_size, gcs/constraints/element/element.cc:92-104. *)
Fixpoint dimension_size (k : nat) (arr : narray) : nat :=
  match k, arr with
  | O, Slices xs => length xs
  | S k', Slices (b :: _) => dimension_size k' b
  | _, _ => 0
  end.

(** vec.at((x - start).as_index()), as in gcs/constraints/element/element.cc:349 and
    116-128. [None] is the exception for an index out of range. *)
Definition slice (x start : Z) (arr : narray) : option narray :=
  match arr with
  | Slices xs => if x <? start then None else nth_error xs (Z.to_nat (x - start))
  | Entry _ => None
  end.

(** The entries for all ways of picking one of [choices] for each index, in order:
    the recursion over dimensions in gcs/constraints/element/element.cc:346-390 and
    others, with get_array_var, lines 116-128. Simplification: ways that are out of
    range, which cause an exception, are left out; the initialisers exclude them
    before anything is propagated. *)
Fixpoint cells (choices : list (list Z)) (starts : list Z) (arr : narray) : list var_id :=
  match choices, starts with
  | c :: cs, s :: ss => flat_map (fun x => match slice x s arr with Some b => cells cs ss b | None => [] end) c
  | _, _ => match arr with Entry v => [v] | Slices _ => [] end
  end.

(** gcs/constraints/element/element.cc:262-284 (collect_array_variables). *)
Definition all_cells (dims : nat) (arr : narray) : list var_id :=
  cells (map (fun k => zrange 0 (Z.of_nat (dimension_size k arr) - 1)) (seq 0 dims)) (repeat 0 dims) arr.

(** The values of the indices, with only [x] for the one in position [k]. *)
Definition choices_with (d : domains) (indices : list var_id) (k : nat) (x : Z) : list (list Z) :=
  map (fun '(i, v) => if Nat.eqb i k then [x] else each_value d v) (combine (seq 0 (length indices)) indices).

Section Element.
Variable result : var_id.
Variable indices : list var_id.
Variable starts : list Z.
Variable arr : narray.

(** gcs/constraints/element/element.cc:345-390 (look_for_support). *)
Definition index_supported (k : nat) (d : domains) (x : Z) : bool :=
  existsb (fun v => domains_intersect d v result) (cells (choices_with d indices k x) starts arr).

(** What the propagators return when nothing is fixed for good,
    gcs/constraints/element/element.cc:451. *)
Definition claim_unless (aliasing : bool) : prop_state := if aliasing then Enable else EnableButIdempotent.

(** gcs/constraints/element/element.cc:330-452. *)
Definition element_index (aliasing : bool) (k : nat) : body := fun d =>
  let var := nth k indices (VConst 0) in
  (for_each (each_value d var) (fun x t => if index_supported k (t_domains t) x then t else tell_ne var x t) (track d), claim_unless aliasing).

(** gcs/constraints/element/element.cc:480-516 (collect_supported_bounds). *)
Definition meet_bounds (d : domains) (lo hi : Z) (found : option Z * option Z) (v : var_id) : option Z * option Z :=
  let '(lowest, highest) := found in
  if match lowest, highest with Some l, Some h => (l <=? lo) && (hi <=? h) | _, _ => false end then found
  else
    let '(l, h) := bounds d v in
    if (l <=? hi) && (lo <=? h) then
      (Some (match lowest with Some x => Z.min x l | None => l end), Some (match highest with Some x => Z.max x h | None => h end))
    else found.

(** gcs/constraints/element/element.cc:470-568. *)
Definition element_result_bounds : body := fun d =>
  let '(lo, hi) := bounds d result in
  let '(lowest, highest) := fold_left (meet_bounds d lo hi) (cells (map (each_value d) indices) starts arr) (None, None) in
  let t1 := match lowest with Some l => if lo <? l then tell_ge result l (track d) else track d | None => track d end in
  let t2 := match highest with Some h => if h <? hi then tell_lt result (h + 1) t1 else t1 | None => t1 end in
  (t2, Enable).

(** gcs/constraints/element/element.cc:601-617. *)
Definition erase_values (d : domains) (s : iset) (v : var_id) : iset :=
  let '(lo, hi) := bounds d v in
  if domain_size d v =? hi - lo + 1 then erase_range lo hi s
  else fold_left (fun s x => erase x s) (each_value d v) s.

(** gcs/constraints/element/element.cc:578-676. Simplification: the loops stop when
    there is nothing left to erase. *)
Definition element_result (aliasing : bool) : body := fun d =>
  let unsupported := fold_left (erase_values d) (cells (map (each_value d) indices) starts arr) (copy_of_values d result) in
  (for_each (each unsupported) (tell_ne result) (track d), claim_unless aliasing).

(** gcs/constraints/element/element.cc:684-718. *)
Definition element_equality (aliasing : bool) : body := fun d =>
  let t :=
    if forallb (has_single_value d) indices then
      match cells (map (each_value d) indices) starts arr with
      | v :: _ => fst (enforce_equality result v d)
      | [] => track d
      end
    else track d in
  (t, claim_unless aliasing).

(** define_bound, gcs/innards/propagators.cc:379-402. *)
Definition define_lower (d0 : domains) (v : var_id) (x : Z) : list initialiser :=
  if x <=? lower_bound d0 v then [] else [body_initialiser (fun d => tell_ge v x (track d))].
Definition define_upper (d0 : domains) (v : var_id) (x : Z) : list initialiser :=
  if upper_bound d0 v <=? x then [] else [body_initialiser (fun d => tell_lt v (x + 1) (track d))].

(** Each index with its start and the size of its dimension. *)
Definition index_ranges : list (var_id * (Z * Z)) :=
  combine indices (combine starts (map (fun k => Z.of_nat (dimension_size k arr)) (seq 0 (length indices)))).

(** prepare, gcs/constraints/element/element.cc:163-193, and install_propagators,
    lines 241-726. *)
Definition element_nd (bounds_only : bool) : constraint := fun d0 =>
  if existsb (fun k => Nat.eqb (dimension_size k arr) 0) (seq 0 (length indices)) then
    ([], [body_initialiser (fun d => tell LFalse (track d))])
  else
    let vars := all_cells (length indices) arr in
    let nonconstants := existsb (fun v => negb (has_single_value d0 v)) vars in
    let aliasing := has_duplicate (underlying_list (result :: indices ++ vars)) in
    let watched := if nonconstants then vars else [] in
    (map (fun k => body_propagator (element_index aliasing k) (watched ++ result :: firstn k indices ++ skipn (S k) indices) [] [])
       (seq 0 (length indices)) ++
     (if bounds_only then [body_propagator element_result_bounds indices (watched ++ [result]) []]
      else [body_propagator (element_result aliasing) (watched ++ indices) [] []]) ++
     (if nonconstants then [body_propagator (element_equality aliasing) (indices ++ [result]) [] []] else []),
     flat_map (fun '(v, (s, n)) => define_lower d0 v s ++ define_upper d0 v (s + n - 1)) index_ranges).
End Element.

(** Element and ElementConstantArray, gcs/constraints/element/element.hh:94-123. *)
Definition element (bounds_only : bool) (result index : var_id) (start : Z) (array : list var_id) : constraint :=
  element_nd result [index] [start] (Slices (map Entry array)) bounds_only.

(** check_array_dimensions, gcs/constraints/element/element.cc:62-81, for two
    dimensions. *)
Definition same_lengths (rows : list (list var_id)) : bool :=
  match rows with [] => true | r :: _ => forallb (fun r' => Nat.eqb (length r') (length r)) rows end.

(** Element2D and Element2DConstantArray, gcs/constraints/element/element.hh:109-148. *)
Definition element_2d (bounds_only : bool) (result index1 index2 : var_id) (start1 start2 : Z) (rows : list (list var_id)) : option constraint :=
  if same_lengths rows then
    Some (element_nd result [index1; index2] [start1; start2] (Slices (map (fun r => Slices (map Entry r)) rows)) bounds_only)
  else None.
