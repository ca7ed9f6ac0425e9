(** What Knapsack means. *)
From Coq Require Import ZArith List.
From Verif Require Import Vars VarsSpec State StateSpec Epochs Expressions ExpressionsSpec LinearSpec.
Import ListNotations.
Local Open Scope Z_scope.

(** For each row of coefficients there is a total, which is the sum of the items, each
    times its coefficient in the row. *)
Definition adds_up (rows : list (list Z)) (items totals : list var_id) (a : assignment) : Prop :=
  Forall2 (fun row t => weighted_sum (combine row items) a = var_value a t) rows totals.

(** There is a row for each total, and at least one, and each row has [width] coefficients,
    none of them negative. *)
Definition well_filled (width : nat) (rows : list (list Z)) (totals : list var_id) : Prop :=
  rows <> [] /\ length rows = length totals /\ Forall (fun row => length row = width /\ Forall (fun c => 0 <= c) row) rows.

(** No item and no total can be negative. *)
Definition none_negative (d : domains) (vs : list var_id) : Prop := Forall (fun v => 0 <= lower_bound d v) vs.
