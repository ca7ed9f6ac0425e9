(** Inverse and SymmetricAllDifferent.

    Models gcs/constraints/inverse/inverse.cc and
    gcs/constraints/all_different/symmetric_all_different.cc. *)
From Coq Require Import ZArith List Bool Arith.
From Verif Require Import IntervalSet Vars State Epochs Engine Tracker Equals Quiet Settle Stateful AllDifferent GacAllDifferent Element.
Import ListNotations.
Local Open Scope Z_scope.

(** [vars.at((x - start).as_index())]. [None] is an exception, which cannot happen once
    the bounds of prepare hold. *)
Definition at_index (vars : list var_id) (start x : Z) : option var_id :=
  if x <? start then None else nth_error vars (Z.to_nat (x - start)).

(** One direction of the channelling, inverse.cc:167-172 and 174-179: position [i] of
    [xs] loses the values whose position in [ys] cannot refer back to [i]. The values
    are those at the start of the loop over them (each_value_mutable). Simplification:
    a value with no position is skipped, where the code would throw. *)
Definition channel (xs : list var_id) (x_start : Z) (ys : list var_id) (y_start : Z) : tracker -> tracker :=
  for_each (combine (seq 0 (length xs)) xs) (fun '(i, x) t =>
    for_each (each_value (t_domains t) x) (fun v t =>
      match at_index ys y_start v with
      | Some y => if in_domain (t_domains t) y (Z.of_nat i + x_start) then t else tell_ne x v t
      | None => t
      end) t).

(** [start], [start + 1] and so on, one for each position. *)
Definition values_from (start : Z) (n : nat) : list Z := map (fun i => Z.of_nat i + start) (seq 0 n).

(** One round of the loop, inverse.cc:166-182. The values are those of the positions of
    [xs], that is, they start at [x_start]: inverse.cc:151-153. *)
Definition inverse_pass (xs ys : list var_id) (x_start y_start : Z) (s : tracker * list Z) : tracker * list Z :=
  let t := channel ys y_start xs x_start (channel xs x_start ys y_start (fst s)) in
  if t_failed t then (t, snd s) else gac_pass xs (values_from x_start (length xs)) [] (snd s) t.

(** inverse.cc:155-187. *)
Definition inverse_body (xs ys : list var_id) (x_start y_start : Z) : memo_body := fun d memo =>
  match settle (inverse_pass xs ys x_start y_start) d (enough_fuel d) (track d, memo) with
  | Some (t, memo') => (t, memo', EnableButIdempotent)
  | None => (track d, memo, Enable)
  end.

(** is_constant_variable, gcs/variable_id.hh. *)
Definition is_constant (v : var_id) : bool := match v with VConst _ => true | _ => false end.

(** throw_if_dup, inverse.cc:59-67. *)
Fixpoint repeats_variable (vars : list var_id) : bool :=
  match vars with
  | [] => false
  | v :: r => (negb (is_constant v) && existsb (var_eqb v) r) || repeats_variable r
  end.

(** Bounds, inverse.cc:82-90 and symmetric_all_different.cc:81-84. *)
Definition bound_all (d : domains) (vars : list var_id) (start : Z) (n : nat) : list initialiser :=
  flat_map (fun v => define_lower d v start ++ define_upper d v (Z.of_nat n + start - 1)) vars.

(** Inverse{x, y, x_start, y_start}, inverse.cc:48-70, 77-93 and 111-187. [None] is an
    exception from the constructor or from prepare. *)
Definition inverse (xs ys : list var_id) (x_start y_start : Z) : option constraint :=
  if repeats_variable xs || repeats_variable ys || negb (Nat.eqb (length xs) (length ys)) then None
  else Some (fun d =>
    ([memo_propagator (inverse_body xs ys x_start y_start) (xs ++ ys) [] []],
     bound_all d xs y_start (length ys) ++ bound_all d ys x_start (length xs))).

(** symmetric_all_different.cc:149-166. *)
Definition symmetric_body (vars : list var_id) (start : Z) : memo_body := fun d memo =>
  let t := channel vars start vars start (track d) in
  if t_failed t then (t, memo, Enable)
  else let '(t', memo') := gac_pass vars (values_from start (length vars)) [] memo t in (t', memo', Enable).

(** SymmetricAllDifferent{vars, start}, symmetric_all_different.cc:59-87 and 109-167. *)
Definition symmetric_all_different (vars : list var_id) (start : Z) : constraint := fun d =>
  if adjacent_equal (sort_vars vars) then ([], [body_initialiser (fun d => tell_false (track d))])
  else ([memo_propagator (symmetric_body vars start) vars [] []], bound_all d vars start (length vars)).
