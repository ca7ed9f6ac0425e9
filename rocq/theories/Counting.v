(** Counting constraints.

    Models gcs/constraints/count/count.cc and gcs/constraints/among/among.cc. *)
From Coq Require Import ZArith List Bool.
From Verif Require Import IntervalSet Vars State Epochs Engine Tracker Equals Member.
Import ListNotations.
Local Open Scope Z_scope.

Definition how_many_of (f : var_id -> bool) (vars : list var_id) : Z := Z.of_nat (length (filter f vars)).

(** ** Count *)

(** gcs/constraints/count/count.cc:143-148: it must take the value. *)
Definition is_set_to (d : domains) (x : Z) (var : var_id) : bool :=
  match optional_single_value d var with Some sv => sv =? x | None => false end.

(** gcs/constraints/count/count.cc:143-151: it might take the value. *)
Definition might_be (d : domains) (x : Z) (var : var_id) : bool :=
  match optional_single_value d var with Some sv => sv =? x | None => in_domain d var x end.

(** The lowest must and highest might seen for a supported value of interest. *)
Definition count_acc : Type := tracker * option Z * option Z.

(** gcs/constraints/count/count.cc:139-225. *)
Definition count_value (vars : list var_id) (value_of_interest how_many : var_id) (acc : count_acc) (voi : Z) : count_acc :=
  let '(t, lowest, highest) := acc in
  let d := t_domains t in
  let must := how_many_of (is_set_to d voi) vars in
  let might := how_many_of (might_be d voi) vars in
  if might <? lower_bound d how_many then (tell_ne value_of_interest voi t, lowest, highest)
  else if upper_bound d how_many <? must then (tell_ne value_of_interest voi t, lowest, highest)
  else if existsb (in_domain d how_many) (zrange must might) then
    (t, Some (match lowest with None => must | Some l => if must <? l then must else l end),
        Some (match highest with None => might | Some h => if h <? might then might else h end))
  else (tell_ne value_of_interest voi t, lowest, highest).

(** gcs/constraints/count/count.cc:98-271. *)
Definition count_body (vars : list var_id) (value_of_interest how_many : var_id) : body := fun d =>
  let viable := how_many_of (domains_intersect d value_of_interest) vars in
  let t1 := tell_lt how_many (viable + 1) (track d) in
  let must := match optional_single_value (t_domains t1) value_of_interest with
              | Some voi => how_many_of (is_set_to (t_domains t1) voi) vars
              | None => 0
              end in
  let t2 := tell_ge how_many must t1 in
  let '(t3, lowest, highest) :=
    fold_left (count_value vars value_of_interest how_many) (each_value (t_domains t2) value_of_interest) (t2, None, None) in
  let t4 := match lowest with Some l => tell_ge how_many l t3 | None => t3 end in
  let t5 := match highest with Some h => tell_lt how_many (h + 1) t4 | None => t4 end in
  (t5, Enable).

(** Count::install_propagators, gcs/constraints/count/count.cc:80-273. *)
Definition count_constraint (vars : list var_id) (value_of_interest how_many : var_id) : constraint := fun _ =>
  ([body_propagator (count_body vars value_of_interest how_many) (vars ++ [value_of_interest]) [how_many] []], []).

(** ** Among *)

(** gcs/constraints/among/among.cc:125-127. *)
Definition cannot_match (vois : list Z) (d : domains) (var : var_id) : bool := negb (existsb (in_domain d var) vois).

(** gcs/constraints/among/among.cc:128-131 and 204-207. *)
Definition all_match (vois : list Z) (d : domains) (var : var_id) : bool := forallb (listed vois) (each_value d var).

(** gcs/constraints/among/among.cc:202-234: enough variables match already. *)
Definition forbid_others (vars : list var_id) (vois : list Z) (t : tracker) : tracker :=
  for_each vars (fun var t =>
    if all_match vois (t_domains t) var then t else tell_all (map (fun val => LCond (cond_ne var val)) vois) t) t.

(** gcs/constraints/among/among.cc:250-289: everything that might match must. *)
Definition require_others (vars : list var_id) (vois : list Z) (t : tracker) : tracker :=
  for_each vars (fun var t =>
    if cannot_match vois (t_domains t) var then t
    else for_each (each_value (t_domains t) var) (fun val t => if listed vois val then t else tell_ne var val t) t) t.

(** gcs/constraints/among/among.cc:122-184: the bounds on how many. *)
Definition among_bounds (vars : list var_id) (vois : list Z) (how_many : var_id) (d : domains) : tracker :=
  let must_not := how_many_of (cannot_match vois d) vars in
  let must := how_many_of (fun var => negb (cannot_match vois d var) && all_match vois d var) vars in
  tell_lt how_many (Z.of_nat (length vars) - must_not + 1) (tell_ge how_many must (track d)).

(** gcs/constraints/among/among.cc:122-297. The two places that throw
    UnexpectedException are in [among_throws]. *)
Definition among_body (vars : list var_id) (vois : list Z) (how_many : var_id) : body := fun d =>
  let must := how_many_of (fun var => negb (cannot_match vois d var) && all_match vois d var) vars in
  let either := how_many_of (fun var => negb (cannot_match vois d var) && negb (all_match vois d var)) vars in
  let t := among_bounds vars vois how_many d in
  let '(at_least, at_most) := bounds (t_domains t) how_many in
  if must =? at_most then (forbid_others vars vois t, DisableUntilBacktrack)
  else if (must + either =? at_least) && (0 <? either) then (require_others vars vois t, DisableUntilBacktrack)
  else (t, Enable).

(** gcs/constraints/among/among.cc:195-200 and 243-248. *)
Definition among_throws (vars : list var_id) (vois : list Z) (how_many : var_id) (d : domains) : bool :=
  let must := how_many_of (fun var => negb (cannot_match vois d var) && all_match vois d var) vars in
  let either := how_many_of (fun var => negb (cannot_match vois d var) && negb (all_match vois d var)) vars in
  let t := among_bounds vars vois how_many d in
  let '(at_least, at_most) := bounds (t_domains t) how_many in
  negb (t_failed t) && ((must =? at_most) || (must + either =? at_least)) && negb (at_least =? at_most).

(** Among::install_propagators, gcs/constraints/among/among.cc:89-300.
    Simplification: duplicates are not removed from the values of interest, which
    are only ever tested for membership. The initialiser only writes proof lines. *)
Definition among_constraint (vars : list var_id) (vois : list Z) (how_many : var_id) : constraint := fun _ =>
  ([body_propagator (among_body vars vois how_many) vars [how_many] []], [body_initialiser track]).
