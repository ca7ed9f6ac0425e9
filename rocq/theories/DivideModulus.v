(** Division and remainder, rounding towards zero.

    Models gcs/constraints/divide_modulus/divide_modulus.cc, without the proof log.
    Arithmetic is on unbounded integers, so that the case of the least long long
    divided by -1 is left out. *)
From Coq Require Import ZArith List Bool Arith.
From Verif Require Import IntervalSet Vars State Expressions Epochs Engine Tracker Passes ProductBounds Equals Reify Solve Linear Tabulation Stages Multiply.
Import ListNotations.
Local Open Scope Z_scope.

(** ** Own variables *)

(** is_in_relation, gcs/constraints/divide_modulus/divide_modulus.cc:117-124. *)
Definition is_in_relation (x y q r : Z) : bool :=
  if y =? 0 then false else (Z.quot x y =? q) && (Z.rem x y =? r).

(** The loops in gcs/constraints/divide_modulus/divide_modulus.cc:131-132 and 962-964:
    the first power of two above a number, from some exponent on. *)
Fixpoint bits_above (fuel : nat) (bits m : Z) : Z :=
  match fuel with
  | O => bits
  | S k => if 2 ^ bits <=? m then bits_above k (bits + 1) m else bits
  end.

(** The largest number with as many bits as the number has. *)
Definition bit_max (m : Z) : Z := 2 ^ bits_above (Z.to_nat (Z.log2 m) + 2) 0 m - 1.

(** The largest absolute value, as in divide_modulus.cc:130 and 943. *)
Definition magnitude (d : domains) (v : var_id) : Z := Z.max (Z.abs (lower_bound d v)) (Z.abs (upper_bound d v)).

(** What Divide (which has the quotient for its third argument) and Modulus (which has
    the remainder) create: gcs/constraints/divide_modulus/divide_modulus.cc:947-989. *)
Definition own_variables (divide : bool) (x y out : var_id) (d : domains) : list iset :=
  if divide then [[(0, 0)]; [(0, bit_max (magnitude d out))]; [(0, bit_max (magnitude d y))]]
  else [[(0, bit_max (magnitude d x))]; [(0, bit_max (magnitude d y))]].

(** mag_a and mag_b, given how many variables there were: the absolute values of the
    quotient and of the divisor. *)
Definition quotient_magnitude (divide : bool) (n : nat) : nat := if divide then S n else n.
Definition divisor_magnitude (divide : bool) (n : nat) : nat := S (quotient_magnitude divide n).

(** ** Stages *)

(** append_magnitude_stages, gcs/constraints/divide_modulus/divide_modulus.cc:881-909. *)
Definition magnitude_stages (mag : nat) (v : var_id) (pos_threshold : Z) : list stage :=
  let m := VSimple mag in
  let pos gate := [le_stage [(1, m); (-1, v)] 0 gate; le_stage [(-1, m); (1, v)] 0 gate] in
  let neg gate := [le_stage [(1, m); (1, v)] 0 gate; le_stage [(-1, m); (-1, v)] 0 gate] in
  match v with
  | VConst k => (if pos_threshold <=? k then pos None else []) ++ (if k <? 0 then neg None else [])
  | _ => pos (Some (cond_ge v pos_threshold)) ++ neg (Some (cond_lt v 0))
  end.

(** gcs/constraints/divide_modulus/divide_modulus.cc:1204-1229. *)
Definition division_stages (divide : bool) (x y out : var_id) (n : nat) : list stage :=
  let absy := divisor_magnitude divide n in
  if divide then magnitude_stages (quotient_magnitude divide n) out 0 ++ magnitude_stages absy y 1
  else
    [le_stage [(1, out); (-1, VSimple absy)] (-1) None;
     le_stage [(-1, out); (-1, VSimple absy)] (-1) None;
     le_stage [(-1, out)] 0 (Some (cond_ge x 0));
     le_stage [(1, out)] 0 (Some (cond_lt x 1))] ++
    magnitude_stages absy y 1.

(** ** The product *)

(** infer_bound, gcs/constraints/divide_modulus/divide_modulus.cc:491-501. *)
Definition infer_bound (v : var_id) (lower : bool) (value : Z) (rest : prog) : prog :=
  Look (fun d =>
    if (if lower then value <=? lower_bound d v else upper_bound d v <=? value) then rest
    else Infer (LCond (if lower then cond_ge v value else cond_lt v (value + 1))) rest).

(** filter_one, gcs/constraints/divide_modulus/divide_modulus.cc:711-803. *)
Definition filter_one (target : var_id) (t_lo t_hi o_lo o_hi w_lo w_hi : Z) (rest : prog) : prog :=
  match quotient_filter o_lo o_hi w_lo w_hi with
  | NoFilter => rest
  | EmptyBecauseYZero => Infer LFalse rest
  | Bounds lo hi =>
      infer_when (hi <? t_hi) (LCond (cond_lt target (hi + 1)))
        (infer_when (Z.max t_lo 0 <? lo) (LCond (cond_ge target lo)) rest)
  end.

(** The divisor cannot be close to zero:
    gcs/constraints/divide_modulus/divide_modulus.cc:812-850. *)
Definition push_through_hole (mag_b y : var_id) (rest : prog) : prog :=
  Look (fun d =>
    let b_lo := lower_bound d mag_b in
    let '(y_lo, y_hi) := bounds d y in
    if (y_hi <? b_lo) && (- b_lo <? y_hi + 1) then Infer (LCond (cond_lt y (- b_lo + 1))) rest
    else if (- y_lo <? b_lo) && (y_lo <? b_lo) then Infer (LCond (cond_ge y b_lo)) rest
    else rest).

(** Back onto the dividend and the divisor, for Divide:
    gcs/constraints/divide_modulus/divide_modulus.cc:503-589. *)
Definition divide_rows (mag_b x : var_id) (x_lo x_hi b_hi pw_lo pw_hi w_hi : Z) (rest : prog) : prog :=
  let x_pos := 0 <=? x_lo in let x_neg := x_hi <? 1 in
  let rest' :=
    infer_bound x false (pw_hi + b_hi - 1)
      (infer_bound x true (- (pw_hi + b_hi - 1))
        (if x_pos then infer_bound mag_b true (x_lo - w_hi + 1) rest
         else if x_neg then infer_bound mag_b true (1 - x_hi - w_hi) rest
         else rest)) in
  if x_pos then infer_bound x true pw_lo rest'
  else if x_neg then infer_bound x false (- pw_lo) rest'
  else
    let rest'' := if - x_lo <? pw_lo then infer_bound x true 1 rest' else rest' in
    if x_hi <? pw_lo then infer_bound x false (-1) rest'' else rest''.

(** Back onto the dividend and the remainder, for Modulus:
    gcs/constraints/divide_modulus/divide_modulus.cc:590-705. *)
Definition modulus_rows (x r : var_id) (x_lo x_hi r_lo r_hi pw_lo pw_hi w_lo w_hi : Z) (rest : prog) : prog :=
  if 0 <=? x_lo then
    infer_bound r false (x_hi - w_lo)
      (infer_bound r true (x_lo - w_hi)
        (infer_bound x true (r_lo + w_lo)
          (infer_bound x false (r_hi + w_hi) rest)))
  else if x_hi <? 1 then
    infer_bound r true (x_lo + w_lo)
      (infer_bound r false (x_hi + w_hi)
        (infer_bound x true (r_lo - w_hi)
          (infer_bound x false (r_hi - w_lo) rest)))
  else
    let rest4 := if pw_hi <? r_lo - x_hi then infer_bound x true 1 rest else rest in
    let rest3 := if r_hi - x_lo <? pw_lo then infer_bound x true 1 rest4 else rest4 in
    let rest2 := if pw_hi <? x_lo - r_hi then infer_bound x false (-1) rest3 else rest3 in
    if x_hi - r_lo <? pw_lo then infer_bound x false (-1) rest2 else rest2.

(** What the signs say about the product of the two absolute values:
    gcs/constraints/divide_modulus/divide_modulus.cc:374-414. *)
Definition row_interval (r : option (Z * Z)) (x_lo x_hi b_hi : Z) : Z * Z :=
  let pos_hi := match r with Some (r_lo, _) => x_hi - r_lo | None => x_hi end in
  let pos_lo := match r with Some (_, r_hi) => x_lo - r_hi | None => x_lo - b_hi + 1 end in
  let neg_hi := match r with Some (_, r_hi) => r_hi - x_lo | None => - x_lo end in
  let neg_lo := match r with Some (r_lo, _) => r_lo - x_hi | None => - x_hi - b_hi + 1 end in
  if 0 <=? x_lo then (pos_lo, pos_hi)
  else if x_hi <? 1 then (neg_lo, neg_hi)
  else (Z.min pos_lo neg_lo, Z.max pos_hi neg_hi).

(** propagate_default_product, gcs/constraints/divide_modulus/divide_modulus.cc:363-851.
    [r] is the remainder, for Modulus. *)
Definition default_product (mag_a mag_b x y : var_id) (r : option var_id) (rest : prog) : prog :=
  Look (fun d =>
    let '(a_lo, a_hi) := bounds d mag_a in
    let '(b_lo, b_hi) := bounds d mag_b in
    let '(x_lo, x_hi) := bounds d x in
    let r_bounds := option_map (bounds d) r in
    let '(pw_lo, pw_hi) := product_bounds a_lo a_hi b_lo b_hi in
    let '(row_lo, row_hi) := row_interval r_bounds x_lo x_hi b_hi in
    let w_lo := Z.max (Z.max pw_lo 0) row_lo in
    let w_hi := Z.min pw_hi row_hi in
    let filters :=
      filter_one mag_a a_lo a_hi b_lo b_hi w_lo w_hi
        (filter_one mag_b b_lo b_hi a_lo a_hi w_lo w_hi
          (push_through_hole mag_b y rest)) in
    infer_when (w_hi <? w_lo) LFalse
      match r, r_bounds with
      | Some v, Some (r_lo, r_hi) => modulus_rows x v x_lo x_hi r_lo r_hi pw_lo pw_hi w_lo w_hi filters
      | _, _ => divide_rows mag_b x x_lo x_hi b_hi pw_lo pw_hi w_hi filters
      end).

(** ** The propagator *)

(** gcs/constraints/divide_modulus/divide_modulus.cc:1254-1273. *)
Definition pin_sign (x y q : var_id) (rest : prog) : prog :=
  Look (fun d =>
    if 1 <=? lower_bound d x then
      if (1 <=? lower_bound d y) && (lower_bound d q <? 0) then Infer (LCond (cond_ge q 0)) rest
      else if (upper_bound d y <? 0) && (0 <? upper_bound d q) then Infer (LCond (cond_lt q 1)) rest
      else rest
    else if upper_bound d x <? 0 then
      if (upper_bound d y <? 0) && (lower_bound d q <? 0) then Infer (LCond (cond_ge q 0)) rest
      else if (1 <=? lower_bound d y) && (0 <? upper_bound d q) then Infer (LCond (cond_lt q 1)) rest
      else rest
    else rest).

(** gcs/constraints/divide_modulus/divide_modulus.cc:1250-1278. *)
Definition division_pass (divide : bool) (x y out : var_id) (n : nat) : prog :=
  let mag_a := VSimple (quotient_magnitude divide n) in let mag_b := VSimple (divisor_magnitude divide n) in
  let main := run_stages (division_stages divide x y out n) (default_product mag_a mag_b x y (if divide then None else Some out) Stop) in
  Look (fun d => infer_when (in_domain d y 0) (LCond (cond_ne y 0)) (if divide then pin_sign x y out main else main)).

(** gcs/constraints/divide_modulus/divide_modulus.cc:1231-1286. *)
Definition division_propagator (divide : bool) (x y out : var_id) (n : nat) : propagator :=
  body_propagator (settling (division_pass divide x y out n)) []
    (distinct_variables [x; y; out; VSimple n; VSimple (quotient_magnitude divide n); VSimple (divisor_magnitude divide n)]) [].

(** ** Tabulation *)

(** recover_q, gcs/constraints/divide_modulus/divide_modulus.cc:1009. *)
Definition recover_quotient (aux x y : Z) : Z := if xorb (0 <=? x) (0 <=? y) then - aux else aux.

(** Solving for the variable of a slot, divide_modulus.cc:1027-1029 and 1038-1040. *)
Definition slot_solve (s : slot) (want : Z) : option Z :=
  if Z.rem (want - slot_offset s) (slot_coeff s) =? 0 then Some (Z.quot (want - slot_offset s) (slot_coeff s)) else None.

Definition same_position (p q : option nat) : bool :=
  match p, q with Some i, Some j => Nat.eqb i j | None, None => true | _, _ => false end.

(** The variables that the others determine:
    gcs/constraints/divide_modulus/divide_modulus.cc:1021-1041. *)
Definition modulus_determined (d : domains) (x : var_id) (sx sy sout saux : slot) : list (nat * (list Z -> option Z)) :=
  match slot_position sout with
  | Some p =>
      if same_position (Some p) (slot_position sx) || same_position (Some p) (slot_position sy) then []
      else [(p, fun values =>
        let xv := slot_value sx values in let yv := slot_value sy values in
        slot_solve sout (xv - recover_quotient (slot_value saux values) xv yv * yv))]
  | None => []
  end ++
  match slot_position sx with
  | Some p =>
      if same_position (Some p) (slot_position sy) || same_position (Some p) (slot_position sout) then []
      else if (0 <=? lower_bound d x) || (upper_bound d x <=? 0) then
        [(p, fun values =>
          slot_solve sx ((if upper_bound d x <=? 0 then -1 else 1) * slot_value saux values * Z.abs (slot_value sy values) + slot_value sout values))]
      else []
  | None => []
  end.

(** gcs/constraints/divide_modulus/divide_modulus.cc:995-1055. *)
Definition division_plan (divide : bool) (x y out : var_id) (n : nat) (d : domains) : plan :=
  if divide then
    let '(vars, slots) := place_slots [affine_of x; affine_of y; affine_of out] [] in
    let sx := nth 0 slots (None, 0, 0) in let sy := nth 1 slots (None, 0, 0) in let sout := nth 2 slots (None, 0, 0) in
    mk_plan vars [] None (fun values =>
      let xv := slot_value sx values in let yv := slot_value sy values in let outv := slot_value sout values in
      is_in_relation xv yv outv (xv - outv * yv))
  else
    let '(vars, slots) := place_slots [affine_of x; affine_of y; affine_of out; affine_of (VSimple n)] [] in
    let sx := nth 0 slots (None, 0, 0) in let sy := nth 1 slots (None, 0, 0) in let sout := nth 2 slots (None, 0, 0) in
    let saux := nth 3 slots (None, 0, 0) in
    mk_plan vars (modulus_determined d x sx sy sout saux) None (fun values =>
      let xv := slot_value sx values in let yv := slot_value sy values in
      is_in_relation xv yv (recover_quotient (slot_value saux values) xv yv) (slot_value sout values)).

(** ** Installation *)

(** prepare_divide_modulus and install_propagators_divide_modulus,
    gcs/constraints/divide_modulus/divide_modulus.cc:922-1057 and 1190-1292. *)
Definition division (divide : bool) (l : level) (x y out : var_id) : installer := fun d cs =>
  match constant_of y with
  | Some 0 => mk_installation [] [] [] [(0%nat, body_initialiser (fun d => tell_false (track d)))]
  | _ =>
      let n := length d in
      let own := own_variables divide x y out d in
      let p := division_propagator divide x y out n in
      let pl := division_plan divide x y out n (d ++ own) in
      if want_tabulation l (d ++ own) pl then
        let i := install_tabulation pl (d ++ own) cs in
        mk_installation (own ++ in_vars i) (in_states i) (p :: in_props i) (in_inits i)
      else mk_installation own [] [p] []
  end.

Definition divide (l : level) (x y quotient : var_id) : installer := division true l x y quotient.
Definition modulus (l : level) (x y remainder : var_id) : installer := division false l x y remainder.
