(** Model of MinDistance, gcs/constraints/min_distance/min_distance.{hh,cc}: a variable is
    the least distance between the sites that others select. *)
From Coq Require Import ZArith List Bool.
From Verif Require Import IntervalSet Vars State Engine Epochs Tracker Passes Element.
Import ListNotations.
Local Open Scope Z_scope.

(** MinDistancePropagation, min_distance.hh:46-53. *)
Inductive distance_level : Type := CheckOnly | ForwardBound | PairSupport | ForwardBoundMatch | PairSupportMatch.

(** MinDistance::Matrix, min_distance.hh:93. *)
Definition matrix : Type := list (list Z).
Definition entry_at (m : matrix) (i j : nat) : Z := nth j (nth i m []) 0.

(** d_at, in_range and r_at, min_distance.cc:381-383. *)
Definition distance (D : matrix) (a b : Z) : Z := entry_at D (Z.to_nat a) (Z.to_nat b).
Definition site (D : matrix) (v : Z) : bool := (0 <=? v) && (v <? Z.of_nat (length D)).
Definition requirement (R : option matrix) (i j : nat) : Z := match R with Some m => entry_at m i j | None => 0 end.

(** The pairs of the loops over i and j > i. *)
Definition pairs (p : nat) : list (nat * nat) := flat_map (fun i => map (pair i) (seq (S i) (p - S i))) (seq 0 p).

Definition point (xs : list var_id) (i : nat) : var_id := nth i xs (VConst 0).

(** ** Checking *)

Definition least (l : list Z) : option Z := match l with [] => None | x :: r => Some (fold_left Z.min r x) end.
Definition greatest (l : list Z) : option Z := match l with [] => None | x :: r => Some (fold_left Z.max r x) end.

(** The values, if each variable has only one. *)
Definition value_list (d : domains) (xs : list var_id) : option (list Z) :=
  fold_right (fun v l => match optional_single_value d v, l with Some x, Some l => Some (x :: l) | _, _ => None end) (Some []) xs.

(** The end of both propagators, min_distance.cc:328-352 and 509-535: the least distance,
    once everything is known. *)
Definition pin (D : matrix) (values : option (list Z)) (z : var_id) (rest : prog) : prog :=
  match values with
  | None => rest
  | Some vs =>
      if forallb (site D) vs then
        match least (map (fun '(i, j) => distance D (nth i vs 0) (nth j vs 0)) (pairs (length vs))) with
        | Some mu => Infer (LCond (cond_ge z mu)) (Infer (LCond (cond_lt z (mu + 1))) rest)
        | None => rest
        end
      else rest
  end.

(** min_distance.cc:304-323: a pair that is known. *)
Definition check_pair (d : domains) (xs : list var_id) (z : var_id) (D : matrix) (R : option matrix) (ij : nat * nat) (rest : prog) : prog :=
  let '(i, j) := ij in
  match optional_single_value d (point xs i), optional_single_value d (point xs j) with
  | Some a, Some b =>
      if site D a && site D b then
        if match R with Some m => distance D a b <? entry_at m i j | None => false end then Infer LFalse rest
        else Infer (LCond (cond_lt z (distance D a b + 1))) rest
      else rest
  | _, _ => rest
  end.

(** install_check_only_propagator, min_distance.cc:274-358. *)
Definition check_pass (xs : list var_id) (z : var_id) (D : matrix) (R : option matrix) : prog :=
  Look (fun d => sequence (pairs (length xs)) (check_pair d xs z D R) (pin D (value_list d xs) z Stop)).

(** ** Propagation *)

(** forward_prune, min_distance.cc:401-417; [tij] is the distance that is needed. *)
Definition forward_prune (D : matrix) (tij : Z) (v w : var_id) (rest : prog) : prog :=
  Look (fun d =>
    match optional_single_value d v with
    | Some a => if site D a then sequence (each_value d w) (fun b => infer_when (site D b && (distance D a b <? tij)) (LCond (cond_ne w b))) rest else rest
    | None => rest
    end).

(** min_distance.cc:420-475: the greatest distance that the pair can have, if any. *)
Definition reachable (d : domains) (D : matrix) (rij : Z) (v w : var_id) : list Z :=
  filter (fun k => rij <=? k)
    (flat_map (fun a => map (distance D a) (filter (site D) (each_value d w))) (filter (site D) (each_value d v))).

Definition pair_bound (z : var_id) (D : matrix) (rij z_min : Z) (v w : var_id) (rest : prog) : prog :=
  Look (fun d =>
    match greatest (reachable d D rij v w) with
    | None => Infer LFalse rest
    | Some u => if u <? z_min then Infer LFalse rest else infer_when (u <? upper_bound d z) (LCond (cond_lt z (u + 1))) rest
    end).

(** support_scan, min_distance.cc:484-503. *)
Definition support_scan (D : matrix) (tij : Z) (v w : var_id) (rest : prog) : prog :=
  Look (fun d => sequence (each_value d v) (fun a rest => Look (fun d =>
    infer_when (site D a && in_domain d v a && negb (existsb (fun b => site D b && (tij <=? distance D a b)) (each_value d w)))
      (LCond (cond_ne v a)) rest)) rest).

(** min_distance.cc:391-507. *)
Definition forward_pair (xs : list var_id) (z : var_id) (D : matrix) (R : option matrix) (support : bool) (z_min : Z) (ij : nat * nat) (rest : prog) : prog :=
  let '(i, j) := ij in
  let rij := requirement R i j in
  let tij := Z.max rij z_min in
  forward_prune D tij (point xs i) (point xs j) (forward_prune D tij (point xs j) (point xs i)
    (pair_bound z D rij z_min (point xs i) (point xs j)
      (if support then support_scan D tij (point xs i) (point xs j) (support_scan D tij (point xs j) (point xs i) rest) else rest))).

(** install_forward_propagator, min_distance.cc:360-541. *)
Definition forward_pass (xs : list var_id) (z : var_id) (D : matrix) (R : option matrix) (support : bool) : prog :=
  Look (fun d => sequence (pairs (length xs)) (forward_pair xs z D R support (lower_bound d z))
    (Look (fun d => pin D (value_list d xs) z Stop))).

(** ** Matching *)

(** std::set. *)
Fixpoint insert_level (x : Z) (l : list Z) : list Z :=
  match l with
  | [] => [x]
  | y :: r => if x <? y then x :: l else if x =? y then l else y :: insert_level x r
  end.

(** min_distance.cc:548-557. *)
Definition levels (D : matrix) : list Z := fold_left (fun l '(a, b) => insert_level (entry_at D a b) l) (pairs (length D)) [].

(** The active sites, min_distance.cc:587-598. *)
Definition active (d : domains) (D : matrix) (xs : list var_id) : list Z :=
  filter (fun a => existsb (fun v => existsb (Z.eqb a) (each_value d v)) xs) (map Z.of_nat (seq 0 (length D))).

(** build_matching, min_distance.cc:622-637. *)
Fixpoint match_sites (D : matrix) (t : Z) (A matched : list Z) : list (Z * Z) :=
  match A with
  | [] => []
  | a :: later =>
      if existsb (Z.eqb a) matched then match_sites D t later matched
      else match find (fun b => negb (existsb (Z.eqb b) matched) && (distance D a b <? t)) later with
           | Some b => (a, b) :: match_sites D t later (b :: a :: matched)
           | None => match_sites D t later matched
           end
  end.

(** refuted_at, min_distance.cc:638-641. *)
Definition refuted_at (D : matrix) (p : nat) (A : list Z) (t : Z) : bool :=
  Z.of_nat (length A) - Z.of_nat (length (match_sites D t A [])) <? Z.of_nat p.

(** The binary search, min_distance.cc:647-660, with enough fuel. *)
Fixpoint search_levels (fuel : nat) (refuted : nat -> bool) (left right : nat) (found : option nat) : option nat :=
  match fuel with
  | O => found
  | S f =>
      if Nat.ltb right left then found
      else
        let mid := (left + (right - left) / 2)%nat in
        if refuted mid then (if Nat.eqb mid 0 then Some mid else search_levels f refuted left (mid - 1) (Some mid))
        else search_levels f refuted (S mid) right found
  end.

(** min_distance.cc:599-663: the level that is refuted, if there is one. std::lower_bound
    and std::upper_bound on what is sorted: the number of elements before. *)
Definition refuted_level (d : domains) (xs : list var_id) (z : var_id) (D : matrix) : option Z :=
  let A := active d D xs in
  let z_min := lower_bound d z in
  let z_max := upper_bound d z in
  let t_low := Z.max z_min 1 in
  let lo := length (filter (fun t => t <? t_low) (levels D)) in
  let hi := length (filter (fun t => t <=? z_max) (levels D)) in
  match A with
  | [] => None
  | _ =>
      if z_max <? t_low then None
      else if Nat.leb hi lo then None
      else option_map (fun k => nth k (levels D) 0)
             (search_levels (S (length (levels D))) (fun k => refuted_at D (length xs) A (nth k (levels D) 0)) lo (hi - 1) None)
  end.

(** install_matching_propagator, min_distance.cc:543-777. The exception of line 689 is
    [no_guard]. *)
Definition matching_pass (xs : list var_id) (z : var_id) (D : matrix) : prog :=
  Look (fun d =>
    match refuted_level d xs z D with
    | None => Stop
    | Some t => if t <=? lower_bound d z then Infer LFalse Stop else Infer (LCond (cond_lt z t)) Stop
    end).

(** min_distance.cc:559-567: how many positions could be at the site when the constraint
    was posted. *)
Definition lit_count (d0 : domains) (xs : list var_id) (a : Z) : nat := length (filter (fun v => in_domain d0 v a) xs).

(** min_distance.cc:668-690: whether an exception is thrown for want of a guard. *)
Definition no_guard (d0 d : domains) (xs : list var_id) (z : var_id) (D : matrix) : bool :=
  match refuted_level d xs z D with
  | None => false
  | Some t =>
      let A := active d D xs in
      let edges := match_sites D t A [] in
      let unmatched := filter (fun c => negb (existsb (fun e => (fst e =? c) || (snd e =? c)) edges)) A in
      fold_left (fun sum c => sum + (Z.of_nat (lit_count d0 xs c) - 1)) unmatched
        (fold_left (fun sum e => sum + (Z.of_nat (lit_count d0 xs (fst e) + lit_count d0 xs (snd e)) - 1)) edges 0) <? 1
  end.

(** ** Posting *)

(** The exceptions of prepare, min_distance.cc:47-80. *)
Definition distances_refused (D : matrix) : bool :=
  Nat.eqb (length D) 0 || existsb (fun row => negb (Nat.eqb (length row) (length D))) D
  || existsb (fun a => negb (entry_at D a a =? 0)) (seq 0 (length D))
  || existsb (fun '(a, b) => (entry_at D a b <? 0) || negb (entry_at D a b =? entry_at D b a)) (pairs (length D)).

Definition requirements_refused (p : nat) (R : option matrix) : bool :=
  match R with
  | None => false
  | Some m =>
      negb (Nat.eqb (length m) p) || existsb (fun row => negb (Nat.eqb (length row) p)) m
      || existsb (fun '(i, j) => entry_at m i j <? 0) (pairs p)
  end.

Definition distance_refused (xs : list var_id) (D : matrix) (R : option matrix) : bool :=
  Nat.ltb (length xs) 2 || distances_refused D || requirements_refused (length xs) R.

(** install_propagators, min_distance.cc:258-272. *)
Definition distance_propagators (level : distance_level) (xs : list var_id) (z : var_id) (D : matrix) (R : option matrix) : list propagator :=
  let forward support := body_propagator (once (forward_pass xs z D R support)) xs [z] [] in
  let matching := body_propagator (once (matching_pass xs z D)) xs [z] [] in
  match level with
  | CheckOnly => [body_propagator (once (check_pass xs z D R)) [] [] xs]
  | ForwardBound => [forward false]
  | PairSupport => [forward true]
  | ForwardBoundMatch => [forward false; matching]
  | PairSupportMatch => [forward true; matching]
  end.

(** MinDistance{x, z, distances, requirements, propagation}, min_distance.cc:35-118. *)
Definition min_distance (level : distance_level) (xs : list var_id) (z : var_id) (D : matrix) (R : option matrix) : option constraint :=
  if distance_refused xs D R then None
  else Some (fun d0 => (distance_propagators level xs z D R,
    flat_map (fun v => define_lower d0 v 0 ++ define_upper d0 v (Z.of_nat (length D) - 1)) xs)).
