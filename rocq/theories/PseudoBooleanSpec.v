(** What pseudo-Boolean rows, and the terms they are built from, mean. *)
From Coq Require Import ZArith List Bool.
From Verif Require Import Vars VarsSpec Expressions ExpressionsSpec BitsEncoding BitsSpec PseudoBoolean.
Import ListNotations.
Local Open Scope Z_scope.

(** ** Rows *)

(** An assignment of the 0-1 variables. *)
Definition alpha : Type := nat -> bool.

Definition x_true (al : alpha) (x : xlit) : bool := xorb (al (x_id x)) (x_negated x).

(** The weights of the literals that are true, added up. *)
Fixpoint row_sum (al : alpha) (ts : list (Z * xlit)) : Z :=
  match ts with
  | [] => 0
  | (w, x) :: rest => w * Z.b2z (x_true al x) + row_sum al rest
  end.

Definition row_holds (al : alpha) (r : row) : Prop := row_sum al (fst r) >= snd r.

(** ** The world the rows are about *)

(** Values for the variables, for the variables that only occur in proofs, and the
    truth of flags and of the variables' bits. *)
Record world : Type := mk_world { w_int : nat -> Z; w_only : nat -> Z; w_flag : nat -> bool; w_bit : pvar -> nat -> bool }.

Definition pvar_value (w : world) (v : pvar) : Z := match v with PSimple n => w_int w n | POnly n => w_only w n end.

Definition op_true (op : cond_op) (x value upper : Z) : bool :=
  match op with
  | OpEqual => x =? value
  | OpNotEqual => negb (x =? value)
  | OpGreaterEqual => value <=? x
  | OpLess => x <? value
  | OpInRange => (value <=? x) && (x <=? upper)
  | OpNotInRange => negb ((value <=? x) && (x <=? upper))
  end.

Definition literal_true (w : world) (l : literal) : bool :=
  match l with
  | LCond c => op_true (c_op c) (var_value (w_int w) (c_var c)) (c_value c) (c_upper c)
  | LTrue => true
  | LFalse => false
  end.

Definition plit_true (w : world) (l : plit) : bool :=
  match l with
  | PLit l => literal_true w l
  | POnlyCond n op value upper => op_true op (w_only w n) value upper
  end.

Definition flag_true (w : world) (f : pflag) : bool := if fl_positive f then w_flag w (fl_index f) else negb (w_flag w (fl_index f)).
Definition bit_true (w : world) (b : pbit) : bool :=
  if bt_positive b then w_bit w (bt_var b) (bt_position b) else negb (w_bit w (bt_var b) (bt_position b)).

Definition guard_true (w : world) (g : guard) : bool :=
  match g with GLit l => plit_true w l | GFlag f => flag_true w f | GBit b => bit_true w b end.

(** The value of a term: its own, or one or zero for something true or false. *)
Definition term_value (w : world) (t : pterm) : Z :=
  match t with
  | TLit l => Z.b2z (plit_true w l)
  | TFlag f => Z.b2z (flag_true w f)
  | TVar v => var_value (w_int w) v
  | TOnly n => w_only w n
  | TBit b => Z.b2z (bit_true w b)
  end.

Definition guards_true (w : world) (gs : list guard) : Prop := forall g, In g gs -> guard_true w g = true.

(** The implication: if there is a list of conditions and all hold, so does the claim. *)
Definition reified (w : world) (half_reif : option (list guard)) (claim : Prop) : Prop :=
  match half_reif with
  | None => claim
  | Some gs => guards_true w gs -> claim
  end.

(** ** Names that mean what they say *)

(** The 0-1 variables have the values that the world gives to what they are names of. *)
Record coherent (nm : names) (w : world) (al : alpha) : Prop := {
  co_bits : forall v bits, n_bits nm v = Some bits -> row_sum al bits = pvar_value w v;
  co_bit : forall v bits p c x, n_bits nm v = Some bits -> nth_error bits p = Some (c, x) -> x_true al x = w_bit w v p;
  co_eq : forall v k x, n_eq nm v k = Some x -> x_true al x = (pvar_value w v =? k);
  co_ge : forall v k x, n_ge nm v k = Some x -> x_true al x = (k <=? pvar_value w v);
  co_in : forall v l u x, n_in nm v l u = Some x -> x_true al x = (l <=? pvar_value w v) && (pvar_value w v <=? u);
  co_flag : forall i x, n_flag nm i = Some x -> x_true al x = w_flag w i;
  co_view : forall n neg add v, n_view nm n neg add = Some v -> w_only w v = var_value (w_int w) (VView n neg add) }.

(** ** Whole models *)

(** What each declaration that is a constraint says. *)
Definition declaration_holds (w : world) (d : declaration) : Prop :=
  match d with
  | DVar v lower upper => lower <= pvar_value w v <= upper
  | DBool v => 0 <= pvar_value w v <= 1
  | DGe _ _ | DEq _ _ => True
  | DView v n neg add => w_only w v = var_value (w_int w) (VView n neg add)
  | DIneq i half_reif => reified w half_reif (le_true (term_value w) i)
  | DEquals e half_reif => reified w half_reif (equals_true (term_value w) e)
  | DClause ls => exists l, In l ls /\ plit_true w l = true
  | DTwoWay i f => flag_true w f = true <-> le_true (term_value w) i
  end.

(** What a 0-1 variable can be the name of. *)
Inductive atom : Type :=
| ABit (v : pvar) (p : nat)
| AEq (v : pvar) (k : Z)
| AGe (v : pvar) (k : Z)
| AFlag (i : nat).

(** The names in use when a model has been written: each was introduced by a
    declaration, for one thing only. *)
Record proper (bounds : pvar -> option (Z * Z)) (nm : names) (meaning : nat -> option atom) (ds : list declaration) : Prop := {
  pr_bounds : forall v l u, bounds v = Some (l, u) -> In (DVar v l u) ds;
  pr_bits : forall v bits, n_bits nm v = Some bits ->
    (exists l u, In (DVar v l u) ds) \/ (In (DBool v) ds /\ exists x, bits = [(1, x)] /\ n_eq nm v 1 = Some x);
  pr_bool : forall v, In (DBool v) ds -> exists x, n_bits nm v = Some [(1, x)] /\ n_eq nm v 1 = Some x /\ n_eq nm v 0 = Some (x_not x);
  pr_var : forall v l u, In (DVar v l u) ds -> l <= u /\ fits64 l /\ fits64 u /\
    exists bits shift coeff negative, n_bits nm v = Some bits /\
      get_bits_encoding_coeffs l u = Some (shift, coeff, negative) /\ map fst bits = bit_weights false shift negative;
  pr_ge : forall v k x, n_ge nm v k = Some x -> In (DGe v k) ds /\ exists bits, n_bits nm v = Some bits;
  pr_eq : forall v k x, n_eq nm v k = Some x -> (In (DEq v k) ds /\ exists bits, n_bits nm v = Some bits) \/ (In (DBool v) ds /\ (k = 0 \/ k = 1));
  pr_in : forall v l u, n_in nm v l u = None;
  pr_view : forall n neg add v, n_view nm n neg add = Some v -> In (DView v n neg add) ds;
  pr_bit_meaning : forall v bits p c x, n_bits nm v = Some bits -> nth_error bits p = Some (c, x) ->
    x_negated x = false /\ meaning (x_id x) = Some (ABit v p);
  pr_ge_meaning : forall v k x, n_ge nm v k = Some x -> x_negated x = false /\ meaning (x_id x) = Some (AGe v k);
  pr_eq_meaning : forall v k x, n_eq nm v k = Some x ->
    (In (DBool v) ds /\ (k = 0 \/ k = 1)) \/ (x_negated x = false /\ meaning (x_id x) = Some (AEq v k));
  pr_flag_meaning : forall i x, n_flag nm i = Some x -> x_negated x = false /\ meaning (x_id x) = Some (AFlag i) }.

(** The rows of all the declarations, if all could be written. *)
Fixpoint all_rows (compact : bool) (bounds : pvar -> option (Z * Z)) (nm : names) (ds : list declaration) : option (list row) :=
  match ds with
  | [] => Some []
  | d :: rest =>
      match declared_rows compact bounds nm d, all_rows compact bounds nm rest with
      | Some rs, Some rest => Some (rs ++ rest)
      | _, _ => None
      end
  end.

(** The bits of every variable are an encoding of its value. *)
Definition bits_encode (nm : names) (w : world) : Prop :=
  forall v bits, n_bits nm v = Some bits ->
    worth (map fst bits) (map (w_bit w v) (seq 0 (length bits))) = pvar_value w v.

(** The assignment of 0-1 variables gives these values to the variables. *)
Definition reads (nm : names) (al : alpha) (w : world) : Prop :=
  (forall v bits, n_bits nm v = Some bits -> row_sum al bits = pvar_value w v) /\
  (forall i x, n_flag nm i = Some x -> x_true al x = w_flag w i).
