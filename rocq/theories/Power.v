(** Powers.

    Models gcs/innards/power.cc, gcs/constraints/power/power.cc and
    gcs/constraints/power/power_table.cc, without the proof log. Apart from
    checked_integer_power and saturating_product, arithmetic is on unbounded integers. *)
From Coq Require Import ZArith List Bool Arith.
From Verif Require Import Integer IntervalSet Vars State Expressions Epochs Engine Tracker Passes ProductBounds Equals Reify Solve Linear NegativeTable Table Tabulation Stages Multiply DivideModulus.
Import ListNotations.
Local Open Scope Z_scope.

(** ** Numbers *)

(** The loop of checked_integer_power, gcs/innards/power.cc:40-52, over the binary digits
    of the exponent. *)
Fixpoint power_loop (result b : Z) (e : positive) : option Z :=
  match e with
  | xH => int_mul result b
  | xO e' => match int_mul b b with Some b' => power_loop result b' e' | None => None end
  | xI e' =>
      match int_mul result b with
      | Some result' => match int_mul b b with Some b' => power_loop result' b' e' | None => None end
      | None => None
      end
  end.

(** checked_integer_power, gcs/innards/power.cc:21-53. *)
Definition checked_power (base exp : Z) : option Z :=
  if exp =? 0 then Some 1
  else if base =? 1 then Some 1
  else if base =? -1 then Some (if Z.even exp then 1 else -1)
  else if exp <? 0 then if base =? 0 then None else Some 0
  else if base =? 0 then Some 0
  else power_loop 1 base (Z.to_pos exp).

(** saturating_product, gcs/constraints/power/power.cc:55-60. *)
Definition saturating_product (a b m : Z) : Z :=
  match int_mul a b with
  | Some p => Z.max (- m) (Z.min p m)
  | None => if Bool.eqb (0 <? a) (0 <? b) then m else - m
  end.

(** ** A variable exponent *)

(** PowerTable::prepare, gcs/constraints/power/power_table.cc:31-51. *)
Definition power_tuples (d : domains) (base exponent result : var_id) : list tuple :=
  flat_map (fun v1 => flat_map (fun v2 =>
    match checked_power v1 v2 with
    | Some r => if in_domain d result r then [[Some v1; Some v2; Some r]] else []
    | None => []
    end) (each_value d exponent)) (each_value d base).

(** The tuples are as long as there are variables, so that the table does not throw. *)
Definition power_table (base exponent result : var_id) : installer := fun d cs =>
  match table [base; exponent; result] (power_tuples d base exponent result) with
  | Some k => k d cs
  | None => mk_installation [] [] [] []
  end.

(** ** A constant exponent *)

(** The bounds of the next variable of the chain, gcs/constraints/power/power.cc:179-184. *)
Definition next_bounds (d : domains) (prev base : var_id) (m : Z) : Z * Z :=
  let '(plo, phi) := bounds d prev in
  let '(xlo, xhi) := bounds d base in
  let a := saturating_product plo xlo m in let b := saturating_product plo xhi m in
  let c := saturating_product phi xlo m in let e := saturating_product phi xhi m in
  (Z.min (Z.min a b) (Z.min c e), Z.max (Z.max a b) (Z.max c e)).

(** A factor, another, and their product. *)
Definition link : Type := var_id * var_id * var_id.

(** The variables and the multiplications of the chain:
    gcs/constraints/power/power.cc:172-192, with so many multiplications to come. *)
Fixpoint chain (base result : var_id) (m : Z) (todo : nat) (d : domains) (prev : var_id) : list iset * list link :=
  match todo with
  | O => ([], [])
  | S O => ([], [(prev, base, result)])
  | S todo' =>
      let t := VSimple (length d) in
      let own : iset := [next_bounds d prev base m] in
      let '(owns, links) := chain base result m todo' (d ++ [own]) t in
      (own :: owns, (prev, base, t) :: links)
  end.

(** What the propagator consists of: whether zero is removed from the base, the linear
    equalities, the linear inequalities and the multiplications, with the variables
    created for them. *)
Record power_parts : Type := mk_parts {
  prune_zero : bool;
  equalities : list (sum_of var_id * Z);
  inequalities : list stage;
  chain_vars : list iset;
  links : list link }.

(** add_gated_equality, gcs/constraints/power/power.cc:99-103. *)
Definition gated_equality (result : var_id) (gate : cond) (value : Z) : list stage :=
  [le_stage [(1, result)] value (Some gate); le_stage [(-1, result)] (- value) (Some gate)].

(** The largest absolute value of the result, or 1: gcs/constraints/power/power.cc:169-170. *)
Definition largest (d : domains) (result : var_id) : Z := Z.max 1 (magnitude d result).

(** Power::prepare, gcs/constraints/power/power.cc:114-193. Nothing, if there is no
    representable result. *)
Definition prepare_power (base : var_id) (k : Z) (result : var_id) (d : domains) : option power_parts :=
  match constant_of base with
  | Some c =>
      match checked_power c k with
      | Some value => Some (mk_parts false [([(1, result)], value)] [] [] [])
      | None => None
      end
  | None =>
      if k =? 0 then Some (mk_parts false [([(1, result)], 1)] [] [] [])
      else if k =? 1 then Some (mk_parts false [([(1, base); (-1, result)], 0)] [] [] [])
      else if (k <? 0) || (62 <? k) then
        let parity := if Z.even k then 1 else -1 in
        let ones := gated_equality result (cond_eq base 1) 1 ++ gated_equality result (cond_eq base (-1)) parity in
        Some (if k <? 0 then
          mk_parts true [] (gated_equality result (cond_ge base 2) 0 ++ gated_equality result (cond_lt base (-1)) 0 ++ ones) [] []
        else
          mk_parts false [] ([le_stage [(1, base)] 1 None; le_stage [(-1, base)] 1 None] ++ gated_equality result (cond_eq base 0) 0 ++ ones) [] [])
      else
        let '(own, ls) := chain base result (largest d result) (Z.to_nat k - 1) d base in
        Some (mk_parts false [] [] own ls)
  end.

(** ** The propagator *)

(** A stage that is an equality, without a gate: gcs/constraints/innards/linear_stages.hh:154-159. The
    inferences are those propagate_linear makes from the domains as they are. *)
Definition equality_stage (s : sum_of var_id) (value : Z) (rest : prog) : prog :=
  let '(t, modifier) := tidy_up_linear s in
  Look (fun d => fold_right Infer rest (rev (t_lits (fst (propagate_linear t (value + modifier) true d))))).

(** gcs/constraints/power/power.cc:289-297. *)
Definition power_pass (base : var_id) (pp : power_parts) : prog :=
  Look (fun d =>
    infer_when (prune_zero pp && in_domain d base 0) (LCond (cond_ne base 0))
      (fold_right (fun e rest => equality_stage (fst e) (snd e) rest)
        (run_stages (inequalities pp)
          (fold_right (fun l rest => multiply_pass (fst (fst l)) (snd (fst l)) (snd l) rest) Stop (links pp)))
        (equalities pp))).

(** gcs/constraints/power/power.cc:269-306. There is always something to do. *)
Definition power_propagator (base result : var_id) (pp : power_parts) : propagator :=
  body_propagator (settling (power_pass base pp)) []
    (distinct_variables (base :: result :: flat_map (fun l => [fst (fst l); snd (fst l); snd l]) (links pp))) [].

(** ** Tabulation *)

(** gcs/constraints/power/power.cc:205-231. *)
Definition power_plan (base : var_id) (k : Z) (result : var_id) : plan :=
  let '(vars, slots) := place_slots [affine_of base; affine_of result] [] in
  let sx := nth 0 slots (None, 0, 0) in let sz := nth 1 slots (None, 0, 0) in
  let determined :=
    match slot_position sz with
    | Some p =>
        if same_position (Some p) (slot_position sx) then []
        else [(p, fun values =>
          match checked_power (slot_value sx values) k with Some want => slot_solve sz want | None => None end)]
    | None => []
    end in
  mk_plan vars determined None (fun values =>
    match checked_power (slot_value sx values) k with Some want => want =? slot_value sz values | None => false end).

(** ** Installation *)

(** Power with a constant exponent, gcs/constraints/power/power.cc:80-314. *)
Definition constant_power (l : level) (base : var_id) (k : Z) (result : var_id) : installer := fun d cs =>
  match prepare_power base k result d with
  | None => mk_installation [] [] [] [(0%nat, body_initialiser (fun d => tell_false (track d)))]
  | Some pp =>
      let own := chain_vars pp in
      let p := power_propagator base result pp in
      let pl := power_plan base k result in
      if match constant_of base with Some _ => false | None => want_tabulation l (d ++ own) pl end then
        let i := install_tabulation pl (d ++ own) cs in
        mk_installation (own ++ in_vars i) (in_states i) (p :: in_props i) (in_inits i)
      else mk_installation own [] [p] []
  end.

(** Power, gcs/constraints/power/power.cc:80-314. *)
Definition power (l : level) (base exponent result : var_id) : installer :=
  match constant_of exponent with
  | Some k => constant_power l base k result
  | None => power_table base exponent result
  end.
