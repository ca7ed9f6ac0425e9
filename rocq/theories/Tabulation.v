(** Constraints that are turned into tables.

    Models gcs/constraints/innards/tabulation.{hh,cc} and the parts of plus.cc,
    minus.cc and linear_equality.cc that use it. The proof log, for which most of that
    is there, is left out. Arithmetic is on unbounded integers.

    Simplification: the code makes the table, and the selector variable, in an
    initialiser of the lowest priority; here this happens when the constraint is
    installed. The table may so have tuples that other initialisers have ruled out,
    which the first run of the propagator then drops. *)
From Coq Require Import ZArith List Bool Arith.
From Verif Require Import IntervalSet Vars State Expressions Epochs Engine Tracker Reify Equals Solve NegativeTable Table Plus Linear.
Import ListNotations.
Local Open Scope Z_scope.

(** ** Plans *)

(** TabulationBranch, gcs/constraints/innards/tabulation.hh:81-86. *)
Inductive branch : Type := Free | Holds | Negated.

(** TabulationPlan, gcs/constraints/innards/tabulation.hh:273-278, with the
    TabulationReification, lines 109-113. Simplification: determined variables and the
    variable of the reification are given by their positions among the variables,
    which the code looks up. *)
Record plan : Type := mk_plan
  { pl_vars : list var_id;
    pl_determined : list (nat * (list Z -> option Z));
    pl_reification : option (nat * (Z -> branch));
    pl_accept : list Z -> bool }.

(** The size of the domain of the variable in this position. *)
Definition size_at (d : domains) (vars : list var_id) (p : nat) : Z := domain_size d (nth p vars (VConst 0)).

(** gcs/constraints/innards/tabulation.cc:64-77 and 244-247: the one with the largest
    domain, the first of equals. *)
Fixpoint pick_determined (d : domains) (vars : list var_id) (ds : list (nat * (list Z -> option Z))) (best : option (nat * (list Z -> option Z)))
  : option (nat * (list Z -> option Z)) :=
  match ds with
  | [] => best
  | (p, f) :: r =>
      pick_determined d vars r
        match best with
        | None => Some (p, f)
        | Some (q, g) => if size_at d vars q <? size_at d vars p then Some (p, f) else Some (q, g)
        end
  end.

(** stable_sort by domain size, gcs/constraints/innards/tabulation.cc:83. *)
Fixpoint insert_by_size (d : domains) (vars : list var_id) (p : nat) (ps : list nat) : list nat :=
  match ps with
  | [] => [p]
  | q :: r => if size_at d vars p <=? size_at d vars q then p :: ps else q :: insert_by_size d vars p r
  end.

Definition is_at (o : option nat) (p : nat) : bool := match o with Some q => Nat.eqb q p | None => false end.

(** The order in which the variables are enumerated, except for the one of the
    reification and the one whose value is computed:
    gcs/constraints/innards/tabulation.cc:79-83. *)
Definition middle_order (d : domains) (vars : list var_id) (reified last : option nat) : list nat :=
  fold_right (insert_by_size d vars) [] (filter (fun p => negb (is_at reified p || is_at last p)) (seq 0 (length vars))).

(** ** Enumeration *)

(** search, gcs/constraints/innards/tabulation.cc:123-170, below the reification. The
    positions still to go are in [rest]. *)
Fixpoint enumerate (d : domains) (vars : list var_id) (accept : list Z -> bool) (last : option (list Z -> option Z)) (b : branch)
  (rest : list nat) (values : list Z) : list tuple :=
  match rest with
  | [] => if accept values then [map Some values] else []
  | p :: r =>
      match r, last, b with
      | [], Some f, Holds =>
          match f values with
          | Some x =>
              if in_domain d (nth p vars (VConst 0)) x then
                if accept (set_nth values p x) then [map Some (set_nth values p x)] else []
              else []
          | None => []
          end
      | _, _, _ => flat_map (fun x => enumerate d vars accept last b r (set_nth values p x)) (each_value d (nth p vars (VConst 0)))
      end
  end.

(** A tuple that is wildcard except in one place:
    gcs/constraints/innards/tabulation.cc:96-100 with one value assigned. *)
Definition only_at (n p : nat) (x : Z) : tuple := set_nth (repeat None n) p (Some x).

(** build_table_in_proof, gcs/constraints/innards/tabulation.cc:45-184: the tuples. *)
Definition build_table (d : domains) (pl : plan) : list tuple :=
  let vars := pl_vars pl in
  let last := pick_determined d vars (pl_determined pl) None in
  let order := middle_order d vars (option_map fst (pl_reification pl)) (option_map fst last) ++
    match last with Some (p, _) => [p] | None => [] end in
  let zeros := repeat 0 (length vars) in
  let below := enumerate d vars (pl_accept pl) (option_map snd last) in
  match pl_reification pl with
  | None => below Holds order zeros
  | Some (p, br) =>
      flat_map (fun x => match br x with Free => [only_at (length vars) p x] | b => below b order (set_nth zeros p x) end)
        (each_value d (nth p vars (VConst 0)))
  end.

(** install_tabulation, gcs/constraints/innards/tabulation.hh:299-327. An Expensive
    initialiser has priority 2. *)
Definition install_tabulation (pl : plan) : installer := fun d _ =>
  let tuples := build_table d pl in
  match tuples with
  | [] => mk_installation [] [] [body_propagator (fun d => (track d, DisableUntilBacktrack)) (pl_vars pl) [] []]
            [(2%nat, body_initialiser (fun d => tell_false (track d)))]
  | _ :: _ =>
      let sel := VSimple (length d) in
      mk_installation [[(0, Z.of_nat (length tuples) - 1)]] [] [body_propagator (extensional_pass sel (pl_vars pl) tuples) (pl_vars pl) [] []] []
  end.

(** ** Whether to *)

(** The levels of consistency. The threshold for Auto is 100 unless the environment
    says otherwise (default_tabulation_threshold,
    gcs/constraints/innards/tabulation.cc:223-231). *)
Inductive level : Type := Auto (threshold : Z) | BC | Tabulated.

(** want_tabulation, gcs/constraints/innards/tabulation.cc:233-256. A reification plays
    no role. *)
Definition want_tabulation (l : level) (d : domains) (pl : plan) : bool :=
  match l with
  | Tabulated => true
  | BC => false
  | Auto threshold =>
      let skip := option_map fst (pick_determined d (pl_vars pl) (pl_determined pl) None) in
      fold_left (fun size p => if is_at skip p then size else size * size_at d (pl_vars pl) p) (seq 0 (length (pl_vars pl))) 1 <=? threshold
  end.

(** A constraint, and a table for it if that is wanted:
    gcs/constraints/plus_minus/plus.cc:170-182 and 197-211. *)
Definition tabulated (l : level) (k : constraint) (pl : plan) : installer := fun d cs =>
  if want_tabulation l d pl then
    let i := install_tabulation pl d cs in
    mk_installation (in_vars i) (in_states i) (fst (k d) ++ in_props i) (map (fun x => (0%nat, x)) (snd (k d)) ++ in_inits i)
  else simple k d cs.

(** ** Affine forms *)

(** affine_of, gcs/constraints/innards/arithmetic_utils.hh:20-34. *)
Definition affine : Type := (option nat * Z * Z)%type.

Definition affine_of (v : var_id) : affine :=
  match v with
  | VSimple n => (Some n, 1, 0)
  | VView n neg add => (Some n, if neg then -1 else 1, add)
  | VConst x => (None, 0, x)
  end.

(** TabulationVariables::position_of, gcs/constraints/innards/tabulation.hh:188-195. *)
Fixpoint position_of (v : var_id) (vs : list var_id) : list var_id * nat :=
  match vs with
  | [] => ([v], O)
  | w :: r => if var_eqb w v then (vs, O) else let '(r', p) := position_of v r in (w :: r', S p)
  end.

(** The slots of a constraint: for each the affine form, and the position of its
    variable, if it has one (gcs/constraints/plus_minus/plus.cc:141-145). *)
Definition slot : Type := (option nat * Z * Z)%type.

Fixpoint place_slots (fs : list affine) (vs : list var_id) : list var_id * list slot :=
  match fs with
  | [] => (vs, [])
  | (None, c, o) :: r => let '(vs', ss) := place_slots r vs in (vs', (None, c, o) :: ss)
  | (Some n, c, o) :: r =>
      let '(vs1, p) := position_of (VSimple n) vs in
      let '(vs', ss) := place_slots r vs1 in (vs', (Some p, c, o) :: ss)
  end.

Definition slot_value (s : slot) (values : list Z) : Z :=
  let '(p, c, o) := s in match p with Some q => c * nth q values 0 + o | None => o end.

(** ** Plus and Minus *)

(** What a slot contributes to the coefficient of the variable in this position, and to
    the rest of the sum: gcs/constraints/plus_minus/plus.cc:154-163. *)
Definition net_at (pos : nat) (s : slot) : Z := let '(p, c, _) := s in if is_at p pos then c else 0.

Definition other_than (pos : nat) (values : list Z) (s : slot) : Z :=
  let '(p, c, o) := s in match p with Some q => if Nat.eqb q pos then o else c * nth q values 0 + o | None => o end.

(** gcs/constraints/plus_minus/plus.cc:147-168 with [sign] 1, and minus.cc:157-178 with
    [sign] -1: the variables determined by a + sign * b - result = 0. *)
Definition sum_determined (sign : Z) (a b r : slot) (n : nat) : list (nat * (list Z -> option Z)) :=
  flat_map (fun pos =>
    let net := net_at pos a + sign * net_at pos b - net_at pos r in
    if net =? 0 then []
    else [(pos, fun values =>
      let other := other_than pos values a + sign * other_than pos values b - other_than pos values r in
      if Z.rem (- other) net =? 0 then Some (Z.quot (- other) net) else None)]) (seq 0 n).

(** prepare, gcs/constraints/plus_minus/plus.cc:136-185 and minus.cc:146-195. *)
Definition sum_plan (sign : Z) (a b r : var_id) : plan :=
  let '(vars, slots) := place_slots [affine_of a; affine_of b; affine_of r] [] in
  let sa := nth 0 slots (None, 0, 0) in let sb := nth 1 slots (None, 0, 0) in let sr := nth 2 slots (None, 0, 0) in
  mk_plan vars (sum_determined sign sa sb sr (length vars)) None
    (fun values => slot_value sa values + sign * slot_value sb values =? slot_value sr values).

Definition plus (l : level) (a b r : var_id) : installer := tabulated l (plus_bc a b r) (sum_plan 1 a b r).
Definition minus (l : level) (a b r : var_id) : installer := tabulated l (minus_bc a b r) (sum_plan (-1) a b r).

(** ** Linear equalities *)

(** condition_holds_at, gcs/constraints/innards/tabulation.cc:30-42. *)
Definition condition_holds_at (c : cond) (x : Z) : bool :=
  match c_op c with
  | OpEqual => x =? c_value c
  | OpNotEqual => negb (x =? c_value c)
  | OpGreaterEqual => c_value c <=? x
  | OpLess => x <? c_value c
  | OpInRange => (c_value c <=? x) && (x <=? c_upper c)
  | OpNotInRange => (x <? c_value c) || (c_upper c <? x)
  end.

(** reify_tabulation, gcs/constraints/innards/tabulation.cc:186-221. *)
Definition reify_tabulation (r : reif) (vars : list var_id) (determined : list (nat * (list Z -> option Z))) (accept : list Z -> bool) : plan :=
  match r with
  | RMustHold => mk_plan vars determined None accept
  | RMustNotHold => mk_plan vars [] None (fun values => negb (accept values))
  | RIf c =>
      let '(vars', p) := position_of (c_var c) vars in
      mk_plan vars' (filter (fun f => negb (Nat.eqb (fst f) p)) determined)
        (Some (p, fun x => if condition_holds_at c x then Holds else Free))
        (fun values => negb (condition_holds_at c (nth p values 0)) || accept values)
  | RNotIf c =>
      let '(vars', p) := position_of (c_var c) vars in
      mk_plan vars' [] (Some (p, fun x => if condition_holds_at c x then Negated else Free))
        (fun values => negb (condition_holds_at c (nth p values 0)) || negb (accept values))
  | RIff c =>
      let '(vars', p) := position_of (c_var c) vars in
      mk_plan vars' (filter (fun f => negb (Nat.eqb (fst f) p)) determined)
        (Some (p, fun x => if condition_holds_at c x then Holds else Negated))
        (fun values => eqb (condition_holds_at c (nth p values 0)) (accept values))
  end.

(** gcs/constraints/linear/linear_equality.cc:283-288: the sum of the terms. *)
Fixpoint terms_value (ts : list (Z * nat)) (values : list Z) : Z :=
  match ts, values with
  | (c, _) :: ts', x :: values' => c * x + terms_value ts' values'
  | _, _ => 0
  end.

(** gcs/constraints/linear/linear_equality.cc:296-308. *)
Definition terms_determined (ts : list (Z * nat)) (value : Z) : list (nat * (list Z -> option Z)) :=
  map (fun pos =>
    (pos, fun values =>
      let other := terms_value ts (set_nth values pos 0) in
      let c := fst (nth pos ts (0, O)) in
      if Z.rem (value - other) c =? 0 then Some (Z.quot (value - other) c) else None)) (seq 0 (length ts)).

(** install_propagators with the level Tabulated,
    gcs/constraints/linear/linear_equality.cc:265-316. *)
Definition tabulated_linear (coeff_vars : sum_of var_id) (value : Z) (r : reif) : installer :=
  let '(s, modifier) := tidy_up_linear coeff_vars in
  install_tabulation (reify_tabulation r (term_vars s) (terms_determined (terms s) (value + modifier))
    (fun values => terms_value (terms s) values =? value + modifier)).
