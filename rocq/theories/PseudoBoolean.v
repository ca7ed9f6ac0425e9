(** The rows of the pseudo-Boolean model that proofs are checked against.

    Models gcs/innards/proofs/simplify_literal.cc, emit_inequality_to.cc, parts of
    names_and_ids_tracker.cc and proof_model.cc. Rows are lists of weighted literals
    rather than text. Arithmetic is unbounded. *)
From Coq Require Import ZArith List Bool.
From Verif Require Import Vars Expressions.
Import ListNotations.
Local Open Scope Z_scope.

(** SimpleOrProofOnlyIntegerVariableID. *)
Inductive pvar : Type :=
| PSimple (n : nat)
| POnly (n : nat).

(** VariableConditionFrom<SimpleOrProofOnlyIntegerVariableID>. *)
Record pcond : Type := mk_pcond { pc_var : pvar; pc_op : cond_op; pc_value : Z; pc_upper : Z }.

(** gcs/innards/proofs/proof_only_variables.hh:51 (ProofLiteral): a literal, or a
    condition on a proof-only variable. *)
Inductive plit : Type :=
| PLit (l : literal)
| POnlyCond (n : nat) (op : cond_op) (value upper : Z).

(** gcs/innards/proofs/proof_only_variables.hh:61-68 (ProofFlag) and 32-39
    (ProofBitVariable). *)
Record pflag : Type := mk_flag { fl_index : nat; fl_positive : bool }.
Record pbit : Type := mk_bit { bt_var : pvar; bt_position : nat; bt_positive : bool }.

(** gcs/innards/proofs/pseudo_boolean.hh:18 (PseudoBooleanTerm). *)
Inductive pterm : Type :=
| TLit (l : plit)
| TFlag (f : pflag)
| TVar (v : var_id)
| TOnly (n : nat)
| TBit (b : pbit).

(** gcs/innards/proofs/proof_only_variables.hh:53 (ProofLiteralOrFlag). *)
Inductive guard : Type :=
| GLit (l : plit)
| GFlag (f : pflag)
| GBit (b : pbit).

(** XLiteral: the number of a 0-1 variable, and whether it is negated. *)
Record xlit : Type := mk_xlit { x_id : nat; x_negated : bool }.

Definition x_not (x : xlit) : xlit := mk_xlit (x_id x) (negb (x_negated x)).

(** What NamesAndIDsTracker has recorded: the weights and literals of a variable's
    bits; the literals of conditions with a positive operator; of flags; and the
    proof-only variables standing for views. *)
Record names : Type := mk_names {
  n_bits : pvar -> option (list (Z * xlit));
  n_eq : pvar -> Z -> option xlit;
  n_ge : pvar -> Z -> option xlit;
  n_in : pvar -> Z -> Z -> option xlit;
  n_flag : nat -> option xlit;
  n_view : nat -> bool -> Z -> option nat }.

(** A row: its weighted literals add up to at least the degree. *)
Definition row : Type := (list (Z * xlit) * Z)%type.

Definition flip_if (b : bool) (x : option xlit) : option xlit := if b then option_map x_not x else x.

(** gcs/innards/proofs/names_and_ids_tracker.cc:254-281 (find_condition), through
    xliteral_for, lines 1888-1894, which throws when there is nothing to find. *)
Definition find_condition (nm : names) (c : pcond) : option xlit :=
  match pc_op c with
  | OpEqual => n_eq nm (pc_var c) (pc_value c)
  | OpNotEqual => flip_if true (n_eq nm (pc_var c) (pc_value c))
  | OpGreaterEqual => n_ge nm (pc_var c) (pc_value c)
  | OpLess => flip_if true (n_ge nm (pc_var c) (pc_value c))
  | OpInRange => n_in nm (pc_var c) (pc_value c) (pc_upper c)
  | OpNotInRange => flip_if true (n_in nm (pc_var c) (pc_value c) (pc_upper c))
  end.

(** gcs/innards/proofs/simplify_literal.hh:13 (SimpleLiteral). *)
Inductive simple_literal : Type :=
| SCond (c : pcond)
| STrue
| SFalse.

(** gcs/innards/proofs/simplify_literal.cc:29-38. *)
Definition canonicalise_range (c : pcond) : simple_literal :=
  let is_in := match pc_op c with OpInRange => true | _ => false end in
  if pc_upper c <? pc_value c then (if is_in then SFalse else STrue)
  else if pc_value c =? pc_upper c then SCond (mk_pcond (pc_var c) (if is_in then OpEqual else OpNotEqual) (pc_value c) 0)
  else SCond c.

(** gcs/innards/proofs/simplify_literal.cc:40-43. *)
Definition is_range_op (op : cond_op) : bool := match op with OpInRange | OpNotInRange => true | _ => false end.

Definition truth_literal (b : bool) : simple_literal := if b then STrue else SFalse.

(** gcs/innards/proofs/simplify_literal.cc:46-147; [None] is the
    UnimplementedException for a range on a view. The shortcut of lines 48-55 gives
    what the rest gives. *)
Definition simplify_literal (nm : names) (l : plit) : option simple_literal :=
  match l with
  | PLit LTrue => Some STrue
  | PLit LFalse => Some SFalse
  | PLit (LCond c) =>
      match c_var c with
      | VSimple n =>
          let c' := mk_pcond (PSimple n) (c_op c) (c_value c) (c_upper c) in
          Some (if is_range_op (c_op c) then canonicalise_range c' else SCond c')
      | VView n neg add =>
          if is_range_op (c_op c) then None
          else
            match n_view nm n neg add with
            | Some v => Some (SCond (mk_pcond (POnly v) (c_op c) (c_value c) 0))
            | None =>
                Some (match c_op c with
                | OpNotEqual => SCond (mk_pcond (PSimple n) OpNotEqual (if neg then - c_value c + add else c_value c - add) 0)
                | OpEqual => SCond (mk_pcond (PSimple n) OpEqual (if neg then - c_value c + add else c_value c - add) 0)
                | OpLess =>
                    if neg then SCond (mk_pcond (PSimple n) OpGreaterEqual (- c_value c + add + 1) 0)
                    else SCond (mk_pcond (PSimple n) OpLess (c_value c - add) 0)
                | OpGreaterEqual =>
                    if neg then SCond (mk_pcond (PSimple n) OpLess (- c_value c + add + 1) 0)
                    else SCond (mk_pcond (PSimple n) OpGreaterEqual (c_value c - add) 0)
                | OpInRange | OpNotInRange => SFalse (* not reached *)
                end)
            end
      | VConst x =>
          Some (match c_op c with
          | OpNotEqual => truth_literal (negb (x =? c_value c))
          | OpEqual => truth_literal (x =? c_value c)
          | OpLess => truth_literal (x <? c_value c)
          | OpGreaterEqual => truth_literal (c_value c <=? x)
          | OpInRange => truth_literal ((c_value c <=? x) && (x <=? c_upper c))
          | OpNotInRange => truth_literal ((x <? c_value c) || (c_upper c <? x))
          end)
      end
  | POnlyCond n op value upper =>
      let c' := mk_pcond (POnly n) op value upper in
      Some (if is_range_op op then canonicalise_range c' else SCond c')
  end.

(** gcs/innards/proofs/names_and_ids_tracker.cc:693-706 (get_bit). *)
Definition get_bit (nm : names) (b : pbit) : option xlit :=
  match n_bits nm (bt_var b) with
  | None => None
  | Some bits =>
      match nth_error bits (bt_position b) with
      | Some (_, x) => Some (if bt_positive b then x else x_not x)
      | None => None
      end
  end.

Definition find_flag (nm : names) (f : pflag) : option xlit := flip_if (negb (fl_positive f)) (n_flag nm (fl_index f)).

(** Some bits' weights multiplied. *)
Definition scaled (w : Z) (bits : list (Z * xlit)) : list (Z * xlit) := map (fun '(b, x) => (w * b, x)) bits.

(** gcs/innards/proofs/emit_inequality_to.cc:29-88 (append_or_fold_term_to): the
    weighted literals appended, and what is added to the degree. [None] is an
    exception. EnsureNames::Yes, which introduces missing names first, is not
    modelled. *)
Definition append_or_fold_term (nm : names) (w : Z) (t : pterm) : option row :=
  match t with
  | TLit l =>
      match simplify_literal nm l with
      | None => None
      | Some STrue => Some ([], w)
      | Some SFalse => Some ([], 0)
      | Some (SCond c) => option_map (fun x => ([(- w, x)], 0)) (find_condition nm c)
      end
  | TFlag f => option_map (fun x => ([(- w, x)], 0)) (find_flag nm f)
  | TVar (VSimple n) => option_map (fun bits => (scaled (- w) bits, 0)) (n_bits nm (PSimple n))
  | TVar (VView n neg add) =>
      match n_view nm n neg add with
      | Some v => option_map (fun bits => (scaled (- w) bits, 0)) (n_bits nm (POnly v))
      | None => option_map (fun bits => (scaled (if neg then w else - w) bits, w * add)) (n_bits nm (PSimple n))
      end
  | TVar (VConst c) => Some ([], w * c)
  | TOnly n => option_map (fun bits => (scaled (- w) bits, 0)) (n_bits nm (POnly n))
  | TBit b => option_map (fun x => ([(- w, x)], 0)) (get_bit nm b)
  end.

(** The loop at gcs/innards/proofs/emit_inequality_to.cc:97-101 and 117-121. *)
Fixpoint append_terms (nm : names) (s : sum_of pterm) (r : row) : option row :=
  match s with
  | [] => Some r
  | (w, t) :: rest =>
      if w =? 0 then append_terms nm rest r
      else
        match append_or_fold_term nm w t with
        | None => None
        | Some (ts, k) => append_terms nm rest (fst r ++ ts, snd r + k)
        end
  end.

(** gcs/innards/proofs/emit_inequality_to.cc:91-105. *)
Definition emit_inequality (nm : names) (i : sum_le pterm) : option row := append_terms nm (le_lhs i) ([], - le_rhs i).

(** gcs/innards/proofs/names_and_ids_tracker.cc:2281-2294: a reifying literal that is
    false as it stands. *)
Definition literally_false_guard (g : guard) : bool :=
  match g with
  | GLit (PLit l) => is_literally_false l
  | _ => false
  end.

(** The bits' positive contributions. *)
Definition positive_bits (w : Z) (bits : list (Z * xlit)) : Z := fold_left (fun acc '(b, _) => acc + Z.max 0 (w * b)) bits 0.

(** gcs/innards/proofs/names_and_ids_tracker.cc:2300-2350. *)
Definition positive_contribution (nm : names) (w : Z) (t : pterm) : option Z :=
  match t with
  | TLit _ | TFlag _ | TBit _ => Some (Z.max 0 w)
  | TVar (VSimple n) => option_map (positive_bits w) (n_bits nm (PSimple n))
  | TVar (VView n neg add) =>
      match n_view nm n neg add with
      | Some v => option_map (positive_bits w) (n_bits nm (POnly v))
      | None => option_map (fun bits => positive_bits (if neg then - w else w) bits + Z.max 0 (w * add)) (n_bits nm (PSimple n))
      end
  | TVar (VConst c) => Some (Z.max 0 (w * c))
  | TOnly n => option_map (positive_bits w) (n_bits nm (POnly n))
  end.

Fixpoint positive_contributions (nm : names) (s : sum_of pterm) : option Z :=
  match s with
  | [] => Some 0
  | (w, t) :: rest =>
      match positive_contribution nm w t, positive_contributions nm rest with
      | Some a, Some b => Some (a + b)
      | _, _ => None
      end
  end.

(** gcs/innards/proofs/names_and_ids_tracker.cc:2275-2363 (reification_shape): the
    coefficient of the negated reifying terms and the right-hand side. *)
Definition reification_shape (nm : names) (i : sum_le pterm) (half_reif : list guard) : option (Z * Z) :=
  match positive_contributions nm (le_lhs i) with
  | None => None
  | Some m =>
      Some (Z.min (- m + le_rhs i) (-1), if existsb literally_false_guard half_reif then le_rhs i + m else le_rhs i)
  end.

(** gcs/innards/proofs/proof_only_variables.cc:10-28 (operator!). *)
Definition plit_not (l : plit) : plit :=
  match l with
  | PLit l => PLit (lit_not l)
  | POnlyCond n op value upper =>
      let c := cond_not (mk_cond (VSimple n) op value upper) in POnlyCond n (c_op c) (c_value c) (c_upper c)
  end.

Definition flag_not (f : pflag) : pflag := mk_flag (fl_index f) (negb (fl_positive f)).
Definition bit_not (b : pbit) : pbit := mk_bit (bt_var b) (bt_position b) (negb (bt_positive b)).

Definition negated_term (g : guard) : pterm :=
  match g with
  | GLit l => TLit (plit_not l)
  | GFlag f => TFlag (flag_not f)
  | GBit b => TBit (bit_not b)
  end.

(** gcs/innards/proofs/names_and_ids_tracker.cc:2365-2381 (reify). *)
Definition reify (nm : names) (i : sum_le pterm) (half_reif : list guard) : option (sum_le pterm) :=
  match reification_shape nm i half_reif with
  | None => None
  | Some (w, rhs) => Some (at_most (le_lhs i ++ map (fun g => (w, negated_term g)) half_reif) rhs)
  end.

(** gcs/innards/proofs/emit_inequality_to.cc:130-147. *)
Definition append_guard (nm : names) (w : Z) (g : guard) : option row :=
  match g with
  | GFlag f => append_or_fold_term nm w (TFlag (flag_not f))
  | GLit l =>
      match simplify_literal nm l with
      | None => None
      | Some STrue => Some ([], 0)
      | Some SFalse => Some ([], w)
      | Some (SCond c) => option_map (fun x => ([(- w, x_not x)], 0)) (find_condition nm c)
      end
  | GBit b => append_or_fold_term nm w (TBit (bit_not b))
  end.

Fixpoint append_guards (nm : names) (w : Z) (gs : list guard) (r : row) : option row :=
  match gs with
  | [] => Some r
  | g :: rest =>
      match append_guard nm w g with
      | None => None
      | Some (ts, k) => append_guards nm w rest (fst r ++ ts, snd r + k)
      end
  end.

(** gcs/innards/proofs/emit_inequality_to.cc:107-151. *)
Definition emit_reified_inequality (nm : names) (i : sum_le pterm) (half_reif : list guard) : option row :=
  match reification_shape nm i half_reif with
  | None => None
  | Some (w, rhs) =>
      match append_terms nm (le_lhs i) ([], - rhs) with
      | None => None
      | Some r => append_guards nm w half_reif r
      end
  end.

(** gcs/innards/proofs/proof_model.cc:170-182 (add_constraint of an inequality): the
    row written. *)
Definition constraint_row (nm : names) (i : sum_le pterm) (half_reif : option (list guard)) : option row :=
  match half_reif with
  | None => emit_inequality nm i
  | Some gs => match reify nm i gs with Some i' => emit_inequality nm i' | None => None end
  end.

Definition both {A B} (x : option A) (y : option B) : option (A * B) :=
  match x, y with Some a, Some b => Some (a, b) | _, _ => None end.

(** gcs/innards/proofs/proof_model.cc:184-206 (add_constraint of an equality). *)
Definition equality_rows (nm : names) (e : sum_equals pterm) (half_reif : option (list guard)) : option (row * row) :=
  both (constraint_row nm (at_most (eq_lhs e) (eq_rhs e)) half_reif) (constraint_row nm (at_least (eq_lhs e) (eq_rhs e)) half_reif).

(** gcs/innards/proofs/proof_model.cc:144-168 (add_constraint of a clause).
    Simplification: the terms are not put in order and repeated terms are not removed. *)
Fixpoint clause_terms (nm : names) (ls : list plit) : option (list pcond * bool) :=
  match ls with
  | [] => Some ([], false)
  | l :: rest =>
      match simplify_literal nm l, clause_terms nm rest with
      | Some STrue, Some (cs, _) => Some (cs, true)
      | Some SFalse, Some r => Some r
      | Some (SCond c), Some (cs, t) => Some (c :: cs, t)
      | _, _ => None
      end
  end.

Definition cond_term (c : pcond) : pterm :=
  match pc_var c with
  | PSimple n => TLit (PLit (LCond (mk_cond (VSimple n) (pc_op c) (pc_value c) (pc_upper c))))
  | POnly n => TLit (POnlyCond n (pc_op c) (pc_value c) (pc_upper c))
  end.

Definition clause_row (nm : names) (ls : list plit) : option row :=
  match clause_terms nm ls with
  | None => None
  | Some (cs, tautological) => emit_inequality nm (at_least (map (fun c => (1, cond_term c)) cs) (if tautological then 0 else 1))
  end.

(** gcs/innards/proofs/proof_model.cc:297-313 (add_two_way_reified_constraint), and the
    same at lines 331-332 and 343-344. *)
Definition two_way_rows (nm : names) (i : sum_le pterm) (f : pflag) : option (row * row) :=
  both (constraint_row nm i (Some [GFlag f])) (constraint_row nm (negate_inequality i) (Some [GFlag (flag_not f)])).

(** gcs/innards/proofs/proof_model.cc:599-624, the bounds of a variable, over its
    bits. *)
Definition lower_bound_row (bits : list (Z * xlit)) (lower : Z) : row := (bits, lower).
Definition upper_bound_row (bits : list (Z * xlit)) (upper : Z) : row := (scaled (-1) bits, - upper).

(** A variable as a term, and a condition on it as a guard. *)
Definition pvar_term (v : pvar) : pterm := match v with PSimple n => TVar (VSimple n) | POnly n => TOnly n end.

Definition pvar_lit (v : pvar) (op : cond_op) (k : Z) : plit :=
  match v with PSimple n => PLit (LCond (mk_cond (VSimple n) op k 0)) | POnly n => POnlyCond n op k 0 end.

(** gcs/innards/proofs/names_and_ids_tracker.cc:947-951 (need_gevar, when the model is
    being written). *)
Definition ge_rows (nm : names) (v : pvar) (k : Z) : option (row * row) :=
  both (constraint_row nm (at_least [(1, pvar_term v)] k) (Some [GLit (pvar_lit v OpGreaterEqual k)]))
       (constraint_row nm (at_least [(-1, pvar_term v)] (- k + 1)) (Some [GLit (pvar_lit v OpLess k)])).

(** gcs/innards/proofs/names_and_ids_tracker.cc:758-821 (need_direct_encoding_for, when
    the model is being written). [compact] is use_compact_boolean_encoding, and the
    bounds are those recorded, if any. *)
Definition eq_rows (compact : bool) (bounds : option (Z * Z)) (nm : names) (v : pvar) (k : Z) : option (row * row) :=
  let ge k := TLit (pvar_lit v OpGreaterEqual k) in
  let not_ge k := TLit (plit_not (pvar_lit v OpGreaterEqual k)) in
  let is := Some [GLit (pvar_lit v OpEqual k)] in
  let is_not := Some [GLit (pvar_lit v OpNotEqual k)] in
  if compact && match bounds with Some (l, _) => l =? k | None => false end then
    both (constraint_row nm (at_least [(1, not_ge (k + 1))] 1) is) (constraint_row nm (at_least [(1, ge (k + 1))] 1) is_not)
  else if compact && match bounds with Some (_, u) => u =? k | None => false end then
    both (constraint_row nm (at_least [(1, ge k)] 1) is) (constraint_row nm (at_least [(1, not_ge k)] 1) is_not)
  else
    both (constraint_row nm (at_least [(1, ge k); (1, not_ge (k + 1))] 2) is)
         (constraint_row nm (at_least [(1, not_ge k); (1, ge (k + 1))] 1) is_not).

(** gcs/innards/proofs/names_and_ids_tracker.cc:1475-1483 (need_view): the view's own
    variable and the variable viewed. *)
Definition view_rows (nm : names) (v n : nat) (neg : bool) (add : Z) : option (row * row) :=
  equality_rows nm (equals [(1, TOnly v); (- (if neg then -1 else 1), TVar (VSimple n))] add) None.

(** gcs/innards/proofs/proof_model.cc:742-767: the terms of the objective. [None] is the
    UnimplementedException for a constant, or missing bits. *)
Definition objective_terms (nm : names) (v : var_id) : option (list (Z * xlit)) :=
  match v with
  | VSimple n => n_bits nm (PSimple n)
  | VView n neg add =>
      match n_view nm n neg add with
      | Some v => n_bits nm (POnly v)
      | None => option_map (scaled (if neg then -1 else 1)) (n_bits nm (PSimple n))
      end
  | VConst _ => None
  end.

(** What can be written to a model, in any order: a variable with its bounds; a {0,1}
    variable (gcs/innards/proofs/proof_model.cc:407-450); the atoms of conditions; the
    link of a view; and the rows of constraints. *)
Inductive declaration : Type :=
| DVar (v : pvar) (lower upper : Z)
| DBool (v : pvar)
| DGe (v : pvar) (k : Z)
| DEq (v : pvar) (k : Z)
| DView (v n : nat) (neg : bool) (add : Z)
| DIneq (i : sum_le pterm) (half_reif : option (list guard))
| DEquals (e : sum_equals pterm) (half_reif : option (list guard))
| DClause (ls : list plit)
| DTwoWay (i : sum_le pterm) (f : pflag).

Definition pair_rows (p : option (row * row)) : option (list row) := option_map (fun '(a, b) => [a; b]) p.

Definition declared_rows (compact : bool) (bounds : pvar -> option (Z * Z)) (nm : names) (d : declaration) : option (list row) :=
  match d with
  | DVar v lower upper => option_map (fun bits => [lower_bound_row bits lower; upper_bound_row bits upper]) (n_bits nm v)
  | DBool v => option_map (fun x => [([(1, x)], 0)]) (n_eq nm v 1)
  | DGe v k => pair_rows (ge_rows nm v k)
  | DEq v k => pair_rows (eq_rows compact (bounds v) nm v k)
  | DView v n neg add => pair_rows (view_rows nm v n neg add)
  | DIneq i half_reif => option_map (fun r => [r]) (constraint_row nm i half_reif)
  | DEquals e half_reif => pair_rows (equality_rows nm e half_reif)
  | DClause ls => option_map (fun r => [r]) (clause_row nm ls)
  | DTwoWay i f => pair_rows (two_way_rows nm i f)
  end.
