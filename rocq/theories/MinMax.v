(** Minimum and maximum of an array.

    Models gcs/constraints/min_max/min_max.cc. [mn] is [_min]. *)
From Coq Require Import ZArith List Bool.
From Verif Require Import IntervalSet Vars State Epochs Engine Tracker Equals.
Import ListNotations.
Local Open Scope Z_scope.

(** gcs/constraints/min_max/min_max.cc:83-92. *)
Definition bound_result (mn : bool) (vars : list var_id) (result : var_id) (t : tracker) : tracker :=
  for_each vars (fun var t =>
    if mn then tell_lt result (upper_bound (t_domains t) var + 1) t
    else tell_ge result (lower_bound (t_domains t) var) t) t.

(** gcs/constraints/min_max/min_max.cc:94-103. *)
Definition bound_vars (mn : bool) (vars : list var_id) (result : var_id) (t : tracker) : tracker :=
  let result_lower := lower_bound (t_domains t) result in
  for_each vars (fun var t =>
    if mn then tell_ge var result_lower t
    else tell_lt var (upper_bound (t_domains t) result + 1) t) t.

(** gcs/constraints/min_max/min_max.cc:105-132. *)
Definition result_in_union (vars : list var_id) (result : var_id) (t : tracker) : tracker :=
  for_each (each_value (t_domains t) result) (fun value t =>
    if existsb (fun var => in_domain (t_domains t) var value) vars then t else tell_ne result value t) t.

(** gcs/constraints/min_max/min_max.cc:134-145. Simplification: all the supports
    are collected, where the code stops at the second. *)
Definition minmax_supports (vars : list var_id) (result : var_id) (d : domains) : list var_id :=
  filter (fun var => existsb (in_domain d var) (each_value d result)) vars.

(** gcs/constraints/min_max/min_max.cc:147-225. The case with no support throws
    UnexpectedException; see [minmax_throws]. *)
Definition single_support (vars : list var_id) (result : var_id) (t : tracker) : tracker :=
  match minmax_supports vars result (t_domains t) with
  | [] => tell_false t
  | [support_1] =>
      prune_minus (is_simple support_1 && is_simple result) support_1
        (copy_of_values (t_domains t) support_1) (copy_of_values (t_domains t) result) t
  | _ => t
  end.

(** The running minimum or maximum kept in an optional. *)
Definition best_of (mn : bool) (xs : list Z) : option Z :=
  fold_left (fun acc x => Some (match acc with None => x | Some o => if mn then Z.min o x else Z.max o x end)) xs None.

(** Each variable with the variables in the other positions. *)
Fixpoint with_others (before : list var_id) (vars : list var_id) : list (var_id * list var_id) :=
  match vars with
  | [] => []
  | v :: r => (v, rev before ++ r) :: with_others (v :: before) r
  end.

(** gcs/constraints/min_max/min_max.cc:249-256. *)
Definition others_limit (mn : bool) (others : list var_id) (d : domains) : option Z :=
  best_of mn (map (fun var => if mn then upper_bound d var else lower_bound d var) others).

Definition within_limit (mn : bool) (limit : option Z) (r : Z) : bool :=
  match limit with
  | None => true
  | Some l => if mn then r <=? l else l <=? r
  end.

(** gcs/constraints/min_max/min_max.cc:257-269. *)
Definition other_extreme (mn : bool) (others : list var_id) (result : var_id) (d : domains) : option Z :=
  best_of mn (filter (fun r => within_limit mn (others_limit mn others d) r && existsb (fun var => in_domain d var r) others)
    (each_value d result)).

(** gcs/constraints/min_max/min_max.cc:247-293. *)
Definition minmax_gac (mn : bool) (vars : list var_id) (result : var_id) (t : tracker) : tracker :=
  for_each (with_others [] vars) (fun '(var, others) t =>
    let limit := others_limit mn others (t_domains t) in
    let extreme := other_extreme mn others result (t_domains t) in
    for_each (each_value (t_domains t) var) (fun v t =>
      let supported_as_extreme := in_domain (t_domains t) result v && within_limit mn limit v in
      let supported_under_other := match extreme with None => false | Some e => if mn then e <? v else v <? e end in
      if supported_as_extreme || supported_under_other then t else tell_ne var v t) t) t.

(** Up to the search for supports, gcs/constraints/min_max/min_max.cc:83-132. *)
Definition minmax_start (mn : bool) (vars : list var_id) (result : var_id) (d : domains) : tracker :=
  result_in_union vars result (bound_vars mn vars result (bound_result mn vars result (track d))).

(** gcs/constraints/min_max/min_max.cc:147-148: the run throws
    UnexpectedException. *)
Definition minmax_throws (mn : bool) (vars : list var_id) (result : var_id) (d : domains) : bool :=
  let t := minmax_start mn vars result d in
  negb (t_failed t) && match minmax_supports vars result (t_domains t) with [] => true | _ => false end.

(** gcs/constraints/min_max/min_max.cc:81-296. *)
Definition minmax_body (mn : bool) (vars : list var_id) (result : var_id) : body := fun d =>
  (minmax_gac mn vars result (single_support vars result (minmax_start mn vars result d)), Enable).

(** ArrayMinMax::install_propagators, gcs/constraints/min_max/min_max.cc:73-298.
    Posting an empty array throws, gcs/constraints/min_max/min_max.cc:40-45, and
    is not modelled. *)
Definition array_min_max (mn : bool) (vars : list var_id) (result : var_id) : constraint := fun _ =>
  ([body_propagator (minmax_body mn vars result) (result :: vars) [] []], []).

(** gcs/constraints/min_max/min_max.cc:317-331. *)
Definition array_min : list var_id -> var_id -> constraint := array_min_max true.
Definition array_max : list var_id -> var_id -> constraint := array_min_max false.
Definition min_of (v1 v2 result : var_id) : constraint := array_min [v1; v2] result.
Definition max_of (v1 v2 result : var_id) : constraint := array_max [v1; v2] result.
