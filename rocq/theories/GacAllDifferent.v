(** AllDifferent with generalised arc consistency, and AllDifferentExcept.

    Models propagate_gac_all_different,
    gcs/constraints/all_different/gac_all_different.cc:699-938, its use in
    all_different.cc, and gcs/constraints/all_different/all_different_except.cc.
    The justifications of inferences are not modelled. *)
From Coq Require Import ZArith List Bool Arith.
From Verif Require Import IntervalSet Vars State Epochs Engine Tracker Equals Solve Stateful AllDifferent Scc Matching.
Import ListNotations.

Section Graph.
(** The edges of each variable, the numbers of variables, of values and of right
    vertices (values and phantoms), and a matching that covers every variable. *)
Variable adjacent : nat -> list nat.
Variable n : nat.
Variable n_values : nat.
Variable n_right : nat.
Variable m : matching.

(** The directed matching graph, gac_all_different.cc:575-586: variable [i] is vertex
    [i] and leads to its unmatched values, and right vertex [t] is vertex [n + t] and
    leads to the variable matched to it. *)
Definition residual (v : nat) : list nat :=
  if v <? n then map (fun t => n + t) (unmatched_edges adjacent (mt_left m) v)
  else match mt_right m (v - n) with Some l => [l] | None => [] end.

(** edges_in_to_value, gac_all_different.cc:830-834. *)
Definition into_right (t : nat) : list nat := filter (fun l => existsb (Nat.eqb t) (unmatched_edges adjacent (mt_left m) l)) (seq 0 n).

(** The arrays of the sweep and its stack, whose head is the back of to_explore:
    gac_all_different.cc:817-824 and 836-841. *)
Record sweep : Type := mk_sweep
  { sw_explored : nat -> bool;
    sw_waiting : nat -> bool;
    sw_stack : list nat;
    sw_used : nat -> nat -> bool }.

(** An edge is used, unless it goes to a phantom: gac_all_different.cc:869-870 and 883-884. *)
Definition use (l t : nat) (used : nat -> nat -> bool) : nat -> nat -> bool := if t <? n_values then put used l (put (used l) t true) else used.

(** Use an edge and wait for one of its ends, gac_all_different.cc:869-878 and 883-892. *)
Definition bring_in (s : sweep) (v l t : nat) : sweep :=
  let used := use l t (sw_used s) in
  if sw_explored s v || sw_waiting s v then mk_sweep (sw_explored s) (sw_waiting s) (sw_stack s) used
  else mk_sweep (sw_explored s) (put (sw_waiting s) v true) (v :: sw_stack s) used.

(** One vertex, gac_all_different.cc:864-895. *)
Definition sweep_vertex (s : sweep) (v : nat) : sweep :=
  if v <? n then match mt_left m v with Some t => bring_in s (n + t) v t | None => s end
  else fold_left (fun s l => bring_in s l l (v - n)) (into_right (v - n)) s.

(** The loop, gac_all_different.cc:857-896. No vertex is explored twice, so their
    number is fuel enough. *)
Fixpoint sweeps (fuel : nat) (s : sweep) : sweep :=
  match fuel, sw_stack s with
  | S fuel', v :: r =>
      sweeps fuel' (sweep_vertex (mk_sweep (put (sw_explored s) v true) (put (sw_waiting s) v false) r (sw_used s)) v)
  | _, _ => s
  end.

Definition free_right (t : nat) : bool := negb (is_some (mt_right m t)).

(** Every edge of the matching is used, and the sweep starts from the unmatched right
    vertices: gac_all_different.cc:817-824 and 843-855. *)
Definition sweep_init : sweep :=
  mk_sweep (fun _ => false) (fun v => (n <=? v) && (v - n <? n_right) && free_right (v - n))
           (rev (map (fun t => n + t) (filter free_right (seq 0 n_right))))
           (fun l t => (t <? n_values) && matched_to (mt_left m) l t).

(** gac_all_different.cc:836-897: nothing is unmatched unless there are more right
    vertices than variables. *)
Definition used_edges : nat -> nat -> bool :=
  sw_used (if n_right =? n then sweep_init else sweeps (n + n_right) sweep_init).

(** gac_all_different.cc:811. *)
Definition graph_components : tarjan := find_components residual (n + n_right).

(** The edge goes, gac_all_different.cc:909-916. *)
Definition redundant (l t : nat) : bool :=
  negb (used_edges l t) && negb (tj_component graph_components (n + t) =? tj_component graph_components l).
End Graph.

(** ** The graph of the domains *)

Section Domains.
Variable vars : list var_id.
Variable vals : list Z.
Variable excluded : list Z.
Variable d : domains.

Definition value_at (j : nat) : Z := nth j vals 0%Z.

(** The values of a variable, gac_all_different.cc:753-760; the other way of finding
    them, 729-752, gives the same ones in the same order. *)
Definition value_edges (i : nat) : list nat := filter (fun j => in_domain d (handle vars i) (value_at j)) (seq 0 (length vals)).

(** Phantoms, gac_all_different.cc:763-783: a variable that has an excluded value has
    one, numbered after the values in the order of the variables. *)
Definition opts_out (i : nat) : bool := existsb (in_domain d (handle vars i)) excluded.

Definition phantom (i : nat) : nat := length vals + length (filter opts_out (seq 0 i)).

Definition gac_edges (i : nat) : list nat := value_edges i ++ (if opts_out i then [phantom i] else []).

Definition right_count : nat := phantom (length vars).
End Domains.

(** ** The pass *)

(** The matching is kept between runs in the scratch data,
    gac_all_different.cc:322-344. *)
Definition recall (memo : list Z) (i : nat) : option nat := if (0 <? nth i memo 0)%Z then Some (Z.to_nat (nth i memo 0%Z - 1)) else None.

Definition remember (n : nat) (m : matching) : list Z :=
  map (fun i => match mt_left m i with Some t => Z.of_nat t + 1 | None => 0 end)%Z (seq 0 n).

(** Deletions in the order of the components of their values,
    gac_all_different.cc:899-937. *)
Definition delete_edges (vars : list var_id) (vals : list Z) (edges : list (nat * nat)) (component : nat -> nat) (count : nat) : tracker -> tracker :=
  for_each (seq 0 count) (fun c =>
    for_each (filter (fun '(i, j) => component j =? c) edges) (fun '(i, j) => tell_ne (handle vars i) (value_at vals j))).

(** propagate_gac_all_different, gac_all_different.cc:699-938. With excluded values the
    matching is found afresh (785-788). *)
Definition gac_pass (vars : list var_id) (vals excluded : list Z) (memo : list Z) (t : tracker) : tracker * list Z :=
  let d := t_domains t in
  let n := length vars in
  let adjacent := gac_edges vars vals excluded d in
  let n_right := right_count vars vals excluded d in
  let m := build_matching adjacent n (match excluded with [] => recall memo | _ => fun _ => None end) in
  if forallb (fun i => is_some (mt_left m i)) (seq 0 n) then
    let gone := redundant adjacent n (length vals) n_right m in
    let edges := filter (fun '(i, j) => gone i j) (flat_map (fun i => map (pair i) (value_edges vars vals d i)) (seq 0 n)) in
    let components := graph_components adjacent n n_right m in
    (delete_edges vars vals edges (fun j => tj_component components (n + j)) (tj_count components) t, remember n m)
  else (tell_false t, remember n m).

(** ** AllDifferent *)

(** The values of the variables in the order in which they are met,
    all_different.cc:109-115 and all_different_except.cc:105-109. *)
Definition add_value (vals : list Z) (x : Z) : list Z := if existsb (Z.eqb x) vals then vals else vals ++ [x].

Definition values_met (d : domains) (vars : list var_id) (excluded : list Z) : list Z :=
  fold_left add_value (filter (fun x => negb (existsb (Z.eqb x) excluded)) (flat_map (each_value d) vars)) [].

(** Small constraints run the pass at once, all_different.cc:186-210. *)
Definition gac_body (vars : list var_id) (vals : list Z) : memo_body := fun d memo =>
  let '(t, memo') := gac_pass vars vals [] memo (track d) in (t, memo', EnableButIdempotent).

(** Whether any domain has changed, made_progress_since_last_check: a domain is only
    ever changed by the inferences. *)
Definition progressed (d : domains) (t : tracker) : bool :=
  match apply_lits d (rev (t_lits t)) with (_, [], _) => false | _ => true end.

(** Others do value consistency first, and leave the pass for later if that changes
    anything, all_different.cc:159-210. *)
Definition staged_body (vars : list var_id) (vals : list Z) : state_body := fun d s memo =>
  let '(unassigned, t) := value_consistency vars d (map Z.to_nat s) in
  let s' := map Z.of_nat unassigned in
  if t_failed t || progressed d t then mk_effect t s' memo Enable
  else let '(t', memo') := gac_pass vars vals [] memo t in mk_effect t' s' memo' EnableButIdempotent.

(** min_var_val_pairs_for_staged_gac, all_different.cc:47 and 116. *)
Definition is_staged (vars : list var_id) (vals : list Z) : bool := (256 <=? Z.of_nat (length vars) * Z.of_nat (length vals))%Z.

(** AllDifferent{vars}, all_different.cc:95-133 and 142-213. *)
Definition all_different (vars : list var_id) : installer := fun d cs =>
  let sorted := sort_vars vars in
  if adjacent_equal sorted then mk_installation [] [] [] [(O, body_initialiser (fun d => tell_false (track d)))]
  else
    let vals := values_met d sorted [] in
    if is_staged sorted vals then
      mk_installation [] [map Z.of_nat (initially_unassigned sorted d)] [state_propagator (length cs) (staged_body sorted vals) sorted [] []] []
    else mk_installation [] [] [memo_propagator (gac_body sorted vals) sorted [] []] [].

(** ** AllDifferentExcept *)

(** Excluded values that can be taken at all, all_different_except.cc:74-84.
    Simplification: they are not sorted and may be repeated, since all that is ever
    asked is whether a value is one of them. *)
Definition usable_excluded (d : domains) (vars : list var_id) (excluded : list Z) : list Z :=
  filter (fun s => existsb (fun v => in_domain d v s) vars) excluded.

(** std::unique, all_different_except.cc:171. *)
Fixpoint drop_repeats (l : list var_id) : list var_id :=
  match l with
  | v :: (w :: _) as r => if var_eqb v w then drop_repeats r else v :: drop_repeats r
  | _ => l
  end.

(** The variables that occur more than once, all_different_except.cc:94-101. *)
Definition repeated_vars (l : list var_id) : list var_id := filter (fun v => 1 <? length (filter (var_eqb v) l)) (drop_repeats l).

(** They can only take excluded values, all_different_except.cc:144-165. *)
Definition force_excluded (repeated : list var_id) (excluded : list Z) (d : domains) : tracker :=
  for_each repeated (fun v t =>
    for_each (filter (fun x => negb (existsb (Z.eqb x) excluded)) (each_value (t_domains t) v)) (tell_ne v) t) (track d).

(** all_different_except.cc:180-187. *)
Definition except_body (vars : list var_id) (vals excluded : list Z) : memo_body := fun d memo =>
  let '(t, memo') := gac_pass vars vals excluded memo (track d) in (t, memo', Enable).

(** AllDifferentExcept{vars, excluded}, all_different_except.cc:62-112 and 125-189. *)
Definition all_different_except (vars : list var_id) (excluded : list Z) : constraint := fun d =>
  let sorted := sort_vars vars in
  let usable := usable_excluded d sorted excluded in
  let vals := values_met d sorted usable in
  if adjacent_equal sorted then
    match excluded with
    | [] => ([], [body_initialiser (fun d => tell_false (track d))])
    | _ =>
        let distinct := drop_repeats sorted in
        ([memo_propagator (except_body distinct vals usable) distinct [] []],
         [body_initialiser (force_excluded (repeated_vars sorted) usable)])
    end
  else ([memo_propagator (except_body sorted vals usable) sorted [] []], []).
