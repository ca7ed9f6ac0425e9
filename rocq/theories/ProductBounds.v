(** Bounds of products and quotients.

    Models gcs/constraints/innards/product_bounds.hh, on unbounded integers. *)
From Coq Require Import ZArith List Bool.
Import ListNotations.
Local Open Scope Z_scope.

(** div_floor, gcs/constraints/innards/product_bounds.hh:18-21. *)
Definition div_floor (a b : Z) : Z :=
  if negb (Bool.eqb (0 <=? a) (0 <=? b)) && negb (a =? 0) then Z.quot (1 - Z.abs a) (Z.abs b) - 1 else Z.quot a b.

(** div_ceil, gcs/constraints/innards/product_bounds.hh:28-31. *)
Definition div_ceil (a b : Z) : Z :=
  if Bool.eqb (0 <=? a) (0 <=? b) && negb (a =? 0) then Z.quot (Z.abs a - 1) (Z.abs b) + 1 else Z.quot a b.

(** The loop of isqrt, gcs/constraints/innards/product_bounds.hh:45-50. [None] is
    running out of fuel. *)
Fixpoint newton (fuel : nat) (n x : Z) : option Z :=
  match fuel with
  | O => None
  | S k => let y := Z.quot (x + Z.quot n x) 2 in if y <? x then newton k n y else Some x
  end.

(** isqrt, gcs/constraints/innards/product_bounds.hh:38-51. -1 stands for the
    exception thrown for a negative number; running out of fuel would give -1 as
    well. *)
Definition isqrt (n : Z) : Z :=
  if n <? 0 then -1
  else if n <? 2 then n
  else match newton (Z.to_nat (Z.log2 n) + 2) n n with Some x => x | None => -1 end.

(** ceil_isqrt, gcs/constraints/innards/product_bounds.hh:58-62. *)
Definition ceil_isqrt (n : Z) : Z := let r := isqrt n in if r * r =? n then r else r + 1.

(** product_bounds, gcs/constraints/innards/product_bounds.hh:70-77. *)
Definition product_bounds (x_min x_max y_min y_max : Z) : Z * Z :=
  let x1y1 := x_min * y_min in let x2y1 := x_max * y_min in let x1y2 := x_min * y_max in let x2y2 := x_max * y_max in
  (Z.min (Z.min (Z.min x1y1 x1y2) x2y1) x2y2, Z.max (Z.max (Z.max x1y1 x1y2) x2y1) x2y2).

(** square_bounds, gcs/constraints/innards/product_bounds.hh:85-91. *)
Definition square_bounds (lo hi : Z) : Z * Z :=
  let lo2 := lo * lo in let hi2 := hi * hi in
  if (lo <=? 0) && (0 <=? hi) then (0, Z.max lo2 hi2) else (Z.min lo2 hi2, Z.max lo2 hi2).

(** QuotientFilter, gcs/constraints/innards/product_bounds.hh:123-135. *)
Inductive quotient : Type := NoFilter | EmptyBecauseYZero | Bounds (lo hi : Z).

(** quotient_filter, gcs/constraints/innards/product_bounds.hh:148-175. *)
Definition quotient_filter (y_min y_max z_min z_max : Z) : quotient :=
  if (z_min <=? 0) && (0 <=? z_max) && (y_min <=? 0) && (0 <=? y_max) then NoFilter
  else if (y_min =? 0) && (y_max =? 0) then EmptyBecauseYZero
  else if (y_min <? 0) && (0 <? y_max) then
    let largest := Z.max (Z.abs z_min) (Z.abs z_max) in Bounds (- largest) largest
  else
    let '(y_min, y_max) := if y_min =? 0 then (1, y_max) else if y_max =? 0 then (y_min, -1) else (y_min, y_max) in
    Bounds (Z.min (Z.min (Z.min (div_ceil z_min y_min) (div_ceil z_min y_max)) (div_ceil z_max y_min)) (div_ceil z_max y_max))
      (Z.max (Z.max (Z.max (div_floor z_min y_min) (div_floor z_min y_max)) (div_floor z_max y_min)) (div_floor z_max y_max)).
