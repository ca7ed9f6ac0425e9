(** Variables that all take the same value.

    Models gcs/constraints/all_equal/all_equal.cc. *)
From Coq Require Import ZArith List Bool.
From Verif Require Import IntervalSet Vars State Epochs Engine Tracker Equals.
Import ListNotations.
Local Open Scope Z_scope.

(** gcs/constraints/all_equal/all_equal.cc:83-96: the greatest lower bound and the
    least upper bound. *)
Definition tightest (d : domains) (best : Z * Z) (v : var_id) : Z * Z :=
  let '(lo, hi) := best in
  let '(l, u) := bounds d v in
  (if lo <? l then l else lo, if u <? hi then u else hi).

(** gcs/constraints/all_equal/all_equal.cc:98-105. *)
Definition tighten (lo hi : Z) (v : var_id) (t : tracker) : tracker :=
  let t' := if lower_bound (t_domains t) v <? lo then tell_ge v lo t else t in
  if hi <? upper_bound (t_domains t') v then tell_lt v (hi + 1) t' else t'.

(** gcs/constraints/all_equal/all_equal.cc:77-147. Lines 127-132 only pick a reason. *)
Definition all_equal_body (vars : list var_id) : body := fun d =>
  match vars with
  | [] => (track d, Enable)
  | v0 :: rest =>
      let '(lo, hi) := fold_left (tightest d) rest (bounds d v0) in
      let t1 := for_each vars (tighten lo hi) (track d) in
      let d1 := t_domains t1 in
      let t2 :=
        if existsb (domain_has_holes d1) vars then
          let common := fold_left (fun s v => intersect_with s (copy_of_values d1 v)) rest (copy_of_values d1 v0) in
          for_each vars (fun v t => prune_minus false v (copy_of_values (t_domains t) v) common t) t1
        else t1 in
      (t2, if has_single_value (t_domains t2) v0 then DisableUntilBacktrack else Enable)
  end.

(** prepare, gcs/constraints/all_equal/all_equal.cc:50-53, and install_propagators, lines
    68-149. *)
Definition all_equal (vars : list var_id) : constraint := fun _ =>
  if Nat.leb (length vars) 1 then ([], []) else ([body_propagator (all_equal_body vars) vars [] []], []).
