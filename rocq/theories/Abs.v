(** Absolute value.

    Models gcs/constraints/abs/abs.cc. *)
From Coq Require Import ZArith List Bool.
From Verif Require Import IntervalSet Vars State Epochs Engine Tracker Equals.
Import ListNotations.
Local Open Scope Z_scope.

(** Lexicographic order on pairs, and sort (std::ranges::sort). *)
Definition pair_leb (p q : Z * Z) : bool :=
  (fst p <? fst q) || ((fst p =? fst q) && (snd p <=? snd q)).

Fixpoint insert_sorted (p : Z * Z) (l : list (Z * Z)) : list (Z * Z) :=
  match l with
  | [] => [p]
  | q :: r => if pair_leb p q then p :: l else q :: insert_sorted p r
  end.

Definition sort_pairs (l : list (Z * Z)) : list (Z * Z) := fold_right insert_sorted [] l.

(** The loop of pieces_to_set, gcs/constraints/abs/abs.cc:60-69. *)
Fixpoint merge_pieces (cur : Z * Z) (l : list (Z * Z)) (result : iset) : iset :=
  match l with
  | [] => insert_interval_at_end (fst cur) (snd cur) result
  | it :: r =>
      if fst it <=? snd cur + 1 then merge_pieces (fst cur, Z.max (snd cur) (snd it)) r result
      else merge_pieces it r (insert_interval_at_end (fst cur) (snd cur) result)
  end.

(** gcs/constraints/abs/abs.cc:52-71. *)
Definition pieces_to_set (pieces : list (Z * Z)) : iset :=
  match sort_pairs pieces with
  | [] => []
  | cur :: r => merge_pieces cur r []
  end.

(** gcs/constraints/abs/abs.cc:112-162, the initialiser. *)
Definition abs_initialiser (v1 v2 : var_id) (d : domains) : tracker :=
  if is_constant v2 then track d
  else
    let t1 := tell_ge v2 0 (track d) in
    let v2_ub := upper_bound (t_domains t1) v2 in
    let t2 := if 0 <=? v2_ub then tell (LCond (cond_le v1 v2_ub)) t1 else t1 in
    let t3 := if 0 <? v2_ub then tell_ge v1 (- v2_ub) t2 else t2 in
    let '(v1_lb, v1_ub) := bounds (t_domains t3) v1 in
    tell (LCond (cond_le v2 (Z.max v1_ub (- v1_lb)))) t3.

(** gcs/constraints/abs/abs.cc:239-248. *)
Definition image_pieces (s : iset) : list (Z * Z) :=
  map (fun '(a, b) => if 0 <=? a then (a, b) else if b <? 0 then (- b, - a) else (0, Z.max (- a) b)) s.

(** gcs/constraints/abs/abs.cc:265-273. *)
Definition preimage_pieces (s : iset) : list (Z * Z) :=
  flat_map (fun '(a, b) => if a =? 0 then [(- b, b)] else [(- b, - a); (a, b)]) s.

(** The two loops over gaps, gcs/constraints/abs/abs.cc:250-263 and 275-286. *)
Definition prune_gaps (v : var_id) (gaps : list (Z * Z)) (t : tracker) : tracker :=
  let '(post_lb, post_ub) := bounds (t_domains t) v in
  for_each gaps (fun '(lo, hi) t =>
    for_each (zrange (Z.max lo post_lb) (Z.min hi post_ub))
      (fun val t => if in_domain (t_domains t) v val then tell_ne v val t else t) t) t.

(** gcs/constraints/abs/abs.cc:169-289. *)
Definition abs_body (v1 v2 : var_id) : body := fun d =>
  let v1_set := copy_of_values d v1 in
  let v2_set := copy_of_values d v2 in
  let '(v1_lb, v1_ub) := bounds d v1 in
  let '(v2_lb, v2_ub) := bounds d v2 in
  let t0 := track d in
  let t1 :=
    if is_constant v2 then t0
    else
      let image_ub := Z.max (- v1_lb) v1_ub in
      let t := if image_ub <? v2_ub then tell_lt v2 (image_ub + 1) t0 else t0 in
      if (1 <=? v1_lb) && (v2_lb <? v1_lb) then tell_ge v2 v1_lb t
      else if (v1_ub <=? -1) && (v2_lb <? - v1_ub) then tell_ge v2 (- v1_ub) t
      else t in
  let t2 := if v2_ub <? v1_ub then tell_lt v1 (v2_ub + 1) t1 else t1 in
  let t3 := if v1_lb <? - v2_ub then tell_ge v1 (- v2_ub) t2 else t2 in
  let t4 := prune_gaps v2 (each_interval_minus v2_set (pieces_to_set (image_pieces v1_set))) t3 in
  let t5 := prune_gaps v1 (each_interval_minus v1_set (pieces_to_set (preimage_pieces v2_set))) t4 in
  (t5, Enable).

(** Abs::install_propagators, gcs/constraints/abs/abs.cc:94-291. *)
Definition abs_constraint (v1 v2 : var_id) : constraint := fun _ =>
  ([body_propagator (abs_body v1 v2) [v1; v2] [] []], [body_initialiser (abs_initialiser v1 v2)]).
