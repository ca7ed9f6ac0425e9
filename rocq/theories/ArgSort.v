(** Model of ArgSort, gcs/constraints/sort/arg_sort.{hh,cc}: the permutation that sorts
    an array stably. *)
From Coq Require Import ZArith List Bool.
From Verif Require Import IntervalSet Vars State Engine Epochs Tracker Stateful Passes Solve Element AllDifferent GacAllDifferent Inverse GlobalCardinality Sortedness.
Import ListNotations.
Local Open Scope Z_scope.

(** ** The ranks an element can have *)
Section Ranks.
(** How many elements there are, their bounds, and the element asked about. *)
Variable n : nat.
Variables lx ux : nat -> Z.
Variable k : nat.

(** Whether an element whose value is given by [b] comes before element [k] if that has
    value [v]; element [k] itself does not. arg_sort.cc:333-334, 364-365 and 423. *)
Definition precedes (b : nat -> Z) (v : Z) (i : nat) : bool :=
  negb (Nat.eqb i k) && (if Nat.ltb i k then b i <=? v else b i <? v).

(** arg_sort.cc:358-370: how many come before at least, and at most. The bounds a_k and
    b_k of lines 325-339 are [forced (lx k)] and [possible (ux k)]. *)
Definition forced (v : Z) : Z := how_many (precedes ux v) (seq 0 n).
Definition possible (v : Z) : Z := how_many (precedes lx v) (seq 0 n).

(** arg_sort.cc:348-357. *)
Definition candidates : list Z :=
  lx k :: ux k :: flat_map (fun i => if Nat.eqb i k then [] else
    filter (fun t => (lx k <=? t) && (t <=? ux k)) [lx i; ux i; lx i + 1; ux i + 1; lx i - 1; ux i - 1]) (seq 0 n).

(** arg_sort.cc:346 and 358-374. *)
Definition reachable (j : Z) : bool := existsb (fun v => (forced v <=? j) && (j <=? possible v)) candidates.

(** arg_sort.cc:430-436: the value that tells the two sides of a hole apart. *)
Fixpoint climb (fuel : nat) (j v : Z) : Z :=
  match fuel with
  | O => v
  | S f => if possible (v + 1) <? j then climb f j (v + 1) else v
  end.
Definition threshold (j : Z) : Z := climb (Z.to_nat (ux k - lx k)) j (lx k).
End Ranks.

Section ArgSort.
Variable offset : Z.
Variables xs ps : list var_id.

Definition index_value (k : nat) : Z := offset + Z.of_nat k.

(** ** The propagation functions *)

(** arg_sort.cc:319-503, without the proof. *)
Definition rank_pass : prog :=
  sequence (seq 0 (length xs)) (fun k rest => Look (fun d =>
    let reached := reachable (length xs) (fun i => lower_bound d (handle xs i)) (fun i => upper_bound d (handle xs i)) k in
    sequence (seq 0 (length ps)) (fun j rest => Look (fun d =>
      infer_when (negb (reached (Z.of_nat j)) && in_domain d (handle ps j) (index_value k)) (LCond (cond_ne (handle ps j) (index_value k))) rest)) rest)) Stop.

(** arg_sort.cc:268-306. An index out of range is undefined behaviour; there is none
    once the bounds of [ps] have been defined, and the model does nothing about it. *)
Definition equal_bounds (x y : var_id) (ylo yhi : Z) (rest : prog) : prog :=
  Look (fun d =>
    let '(xlo, xhi) := bounds d x in
    infer_when (ylo <? xlo) (LCond (cond_ge y xlo)) (
    infer_when (xhi <? yhi) (LCond (cond_lt y (xhi + 1))) (
    infer_when (xlo <? ylo) (LCond (cond_ge x ylo)) (
    infer_when (yhi <? xhi) (LCond (cond_lt x (yhi + 1))) rest)))).

Definition channel_pass (ys : list var_id) : prog :=
  sequence (seq 0 (length xs)) (fun j rest => Look (fun d =>
    let '(ylo, yhi) := bounds d (handle ys j) in
    sequence (seq 0 (length xs)) (fun k rest => Look (fun d =>
      let '(xlo, xhi) := bounds d (handle xs k) in
      infer_when (in_domain d (handle ps j) (index_value k) && ((xhi <? ylo) || (yhi <? xlo))) (LCond (cond_ne (handle ps j) (index_value k))) rest))
    (Look (fun d =>
      match optional_single_value d (handle ps j) with
      | Some pj =>
          if (offset <=? pj) && (pj <? offset + Z.of_nat (length xs)) then equal_bounds (handle xs (Z.to_nat (pj - offset))) (handle ys j) ylo yhi rest else rest
      | None => rest
      end)))) Stop.

(** ** Posting *)

(** arg_sort.cc:91-105: the bounds of the sorted values. *)
Definition lowest (d : domains) : Z := fold_right (fun x m => Z.min (lower_bound d x) m) (lower_bound d (handle xs 0)) xs.
Definition highest (d : domains) : Z := fold_right (fun x m => Z.max (upper_bound d x) m) (upper_bound d (handle xs 0)) xs.

(** ArgSort{xs, ps, offset}, arg_sort.cc:57-115 and 195-533. The initialiser of lines
    226-257 only writes to the proof. *)
Definition arg_sort_install : installer := fun d _ =>
  match xs with
  | [] => mk_installation [] [] [] []
  | _ =>
      let ys := map VSimple (seq (length d) (length xs)) in
      mk_installation (repeat [(lowest d, highest d)] (length xs)) []
        [body_propagator (once (sort_pass xs ys)) [] (xs ++ ys) [];
         body_propagator (once (channel_pass ys)) ps (xs ++ ys) [];
         body_propagator (once rank_pass) ps xs [];
         memo_propagator (gac_body ps (values_from offset (length xs))) ps [] []]
        (map (pair O) (flat_map (fun p => define_lower d p offset ++ define_upper d p (offset + Z.of_nat (length xs) - 1)) ps))
  end.
End ArgSort.

(** arg_sort.cc:68-69: the exception thrown for arrays of different sizes. *)
Definition arg_sort (offset : Z) (xs ps : list var_id) : option installer :=
  if Nat.eqb (length xs) (length ps) then Some (arg_sort_install offset xs ps) else None.
