(** The number of different values taken, and at most one variable taking a value.

    Models gcs/constraints/n_value/n_value.cc and
    gcs/constraints/at_most_one/at_most_one.cc. *)
From Coq Require Import ZArith List Bool.
From Verif Require Import IntervalSet Vars State Epochs Engine Tracker Counting.
Import ListNotations.
Local Open Scope Z_scope.

(** ** NValue *)

(** The size of the set of the values. *)
Definition distinct (xs : list Z) : Z := Z.of_nat (length (nodup Z.eq_dec xs)).

Definition single_values (d : domains) (v : var_id) : list Z := match optional_single_value d v with Some x => [x] | None => [] end.

(** gcs/constraints/n_value/n_value.cc:95-120. *)
Definition n_value_body (n_values : var_id) (vars : list var_id) : body := fun d =>
  let t1 := tell_lt n_values (distinct (flat_map (each_value d) vars) + 1) (track d) in
  let definite := distinct (flat_map (single_values (t_domains t1)) vars) in
  let floor := match vars with [] => 0 | _ => 1 end in
  (tell_ge n_values (Z.max floor definite) t1, Enable).

(** install_propagators, gcs/constraints/n_value/n_value.cc:78-122. *)
Definition n_value (n_values : var_id) (vars : list var_id) : constraint := fun _ =>
  ([body_propagator (n_value_body n_values vars) vars [n_values] []], []).

(** ** AtMostOne *)

(** The first variable that is fixed to the value, if it is the only one: the loop
    of gcs/constraints/at_most_one/at_most_one.cc:121-131. *)
Definition only_fixed (d : domains) (x : Z) (vars : list var_id) : option nat :=
  match filter (fun '(_, v) => is_set_to d x v) (combine (seq 0 (length vars)) vars) with
  | [(i, _)] => Some i
  | _ => None
  end.

(** gcs/constraints/at_most_one/at_most_one.cc:97-143. *)
Definition at_most_one_body (vars : list var_id) (val : var_id) : body := fun d =>
  let t1 := for_each (each_value d val) (fun x t =>
              if 2 <=? how_many_of (is_set_to (t_domains t) x) vars then tell_ne val x t else t) (track d) in
  let t2 :=
    match optional_single_value (t_domains t1) val with
    | None => t1
    | Some x =>
        match only_fixed (t_domains t1) x vars with
        | None => t1
        | Some k => for_each (combine (seq 0 (length vars)) vars) (fun '(i, v) t => if Nat.eqb i k then t else tell_ne v x t) t1
        end
    end in
  (t2, Enable).

(** prepare, gcs/constraints/at_most_one/at_most_one.cc:54-59, and install_propagators,
    lines 81-145. *)
Definition at_most_one (vars : list var_id) (val : var_id) : constraint := fun _ =>
  if Nat.leb 2 (length vars) then ([body_propagator (at_most_one_body vars val) (vars ++ [val]) [] []], []) else ([], []).
