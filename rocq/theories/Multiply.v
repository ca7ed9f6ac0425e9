(** The product of two variables.

    Models gcs/constraints/multiply/multiply.cc and signed_multiply.cc, without the proof
    log. Arithmetic is on unbounded integers, so that a product is always
    representable. *)
From Coq Require Import ZArith List Bool Arith.
From Verif Require Import IntervalSet Vars State Expressions Epochs Engine Tracker Passes ProductBounds Equals Reify Solve Linear Tabulation.
Import ListNotations.
Local Open Scope Z_scope.

(** ** Propagation *)

(** filter_factor, gcs/constraints/multiply/signed_multiply.cc:287-321. *)
Definition filter_factor (target cofactor z : var_id) (rest : prog) : prog :=
  Look (fun d =>
    let '(cof_lo, cof_hi) := bounds d cofactor in
    let '(z_lo, z_hi) := bounds d z in
    let '(t_lo, t_hi) := bounds d target in
    match quotient_filter cof_lo cof_hi z_lo z_hi with
    | NoFilter => rest
    | EmptyBecauseYZero => Infer LFalse rest
    | Bounds lo hi =>
        infer_when (hi <? t_hi) (LCond (cond_lt target (hi + 1)))
          (infer_when (t_lo <? lo) (LCond (cond_ge target lo)) rest)
    end).

(** infer_square_bound, gcs/constraints/multiply/signed_multiply.cc:368-379. *)
Definition infer_square_bound (x : var_id) (is_upper : bool) (b : Z) (rest : prog) : prog :=
  Look (fun d =>
    let '(cur_lo, cur_hi) := bounds d x in
    if (if is_upper then cur_hi <=? b else b <=? cur_lo) then rest
    else Infer (LCond (if is_upper then cond_lt x (b + 1) else cond_ge x b)) rest).

(** The operand of a square, gcs/constraints/multiply/signed_multiply.cc:364-392. *)
Definition filter_root (x z : var_id) (rest : prog) : prog :=
  Look (fun d =>
    let '(z_lo, z_hi) := bounds d z in
    if z_hi <? 0 then rest
    else
      let u := isqrt z_hi in
      infer_square_bound x true u
        (infer_square_bound x false (- u)
          (if 0 <? z_lo then
             let m := ceil_isqrt z_lo in
             Look (fun d' =>
               let '(cur_lo, cur_hi) := bounds d' x in
               if - m <? cur_lo then infer_square_bound x false m rest
               else if cur_hi <? m then infer_square_bound x true (- m) rest
               else rest)
           else rest))).

(** propagate, gcs/constraints/multiply/signed_multiply.cc:324-397. *)
Definition multiply_pass (x y z : var_id) (rest : prog) : prog :=
  Look (fun d =>
    let '(x_lo, x_hi) := bounds d x in
    let '(y_lo, y_hi) := bounds d y in
    let square := var_eqb x y in
    let '(prod_lo, prod_hi) := if square then square_bounds x_lo x_hi else product_bounds x_lo x_hi y_lo y_hi in
    let '(z_lo, z_hi) := bounds d z in
    infer_when (prod_hi <? z_hi) (LCond (cond_le z prod_hi))
      (infer_when (z_lo <? prod_lo) (LCond (cond_ge z prod_lo))
        (if square then filter_root x z rest else filter_factor x y z (filter_factor y x z rest)))).

(** The triggers, gcs/constraints/multiply/multiply.cc:186-189. *)
Definition distinct_variables (vs : list var_id) : list var_id :=
  fold_left (fun done v => match v with VConst _ => done | _ => if existsb (var_eqb v) done then done else done ++ [v] end) vs [].

(** install_propagators without a table, gcs/constraints/multiply/multiply.cc:191-205. *)
Definition multiply_bc (v1 v2 result : var_id) : constraint := fun _ =>
  ([body_propagator (settling (multiply_pass v1 v2 result Stop)) [] (distinct_variables [v1; v2; result]) []], []).

(** ** Tabulation *)

Definition slot_position (s : slot) : option nat := fst (fst s).
Definition slot_coeff (s : slot) : Z := snd (fst s).
Definition slot_offset (s : slot) : Z := snd s.

(** gcs/constraints/multiply/multiply.cc:144-173. *)
Definition product_determined (s1 s2 s3 : slot) : list (nat * (list Z -> option Z)) :=
  match slot_position s3 with
  | None => []
  | Some p3 =>
      if is_at (slot_position s1) p3 || is_at (slot_position s2) p3 then []
      else [(p3, fun values =>
        let product := slot_value s1 values * slot_value s2 values in
        if Z.rem (product - slot_offset s3) (slot_coeff s3) =? 0 then Some (Z.quot (product - slot_offset s3) (slot_coeff s3)) else None)]
  end.

Definition product_plan (v1 v2 result : var_id) : plan :=
  let '(vars, slots) := place_slots [affine_of v1; affine_of v2; affine_of result] [] in
  let s1 := nth 0 slots (None, 0, 0) in let s2 := nth 1 slots (None, 0, 0) in let s3 := nth 2 slots (None, 0, 0) in
  mk_plan vars (product_determined s1 s2 s3) None (fun values => slot_value s1 values * slot_value s2 values =? slot_value s3 values).

(** ** Constant operands *)

Definition constant_of (v : var_id) : option Z := match v with VConst c => Some c | _ => None end.

(** linear_for_constant_operand, gcs/constraints/multiply/multiply.cc:49-58. *)
Definition linear_for_constant_operand (v1 v2 result : var_id) : option (sum_of var_id * Z) :=
  match constant_of v1, constant_of v2 with
  | Some c1, Some c2 => Some ([(1, result)], c1 * c2)
  | None, Some c2 => Some ([(c2, v1); (-1, result)], 0)
  | Some c1, None => Some ([(c1, v2); (-1, result)], 0)
  | None, None => None
  end.

(** The number of tuples that Auto expects: the product of the sizes of the domains but
    for one of the largest, gcs/constraints/multiply/multiply.cc:97-118. *)
Definition skip_one_largest (sizes : list Z) : Z :=
  let largest := fold_left Z.max sizes 0 in
  snd (fold_left (fun (acc : bool * Z) s => let '(skipped, size) := acc in if negb skipped && (s =? largest) then (true, size) else (skipped, size * s)) sizes (false, 1)).

Definition linear_level (l : level) (d : domains) (sum : sum_of var_id) : level :=
  match l with
  | Auto threshold =>
      if skip_one_largest (map (domain_size d) (term_vars (fst (tidy_up_linear sum)))) <=? threshold then Tabulated else BC
  | _ => l
  end.

(** prepare and install, gcs/constraints/multiply/multiply.cc:78-210. *)
Definition multiply (l : level) (v1 v2 result : var_id) : installer := fun d cs =>
  match linear_for_constant_operand v1 v2 result with
  | Some (sum, value) =>
      match linear_level l d sum with
      | Tabulated => tabulated_linear sum value RMustHold d cs
      | _ => simple (linear_eq sum value) d cs
      end
  | None => tabulated l (multiply_bc v1 v2 result) (product_plan v1 v2 result) d cs
  end.
