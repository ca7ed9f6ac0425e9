(** Rectangles that do not overlap. *)
From Coq Require Import ZArith List.
From Verif Require Import Vars VarsSpec State.
Import ListNotations.
Local Open Scope Z_scope.

(** The value of the handle at a position. *)
Definition at_pos (a : assignment) (vs : list var_id) (i : nat) : Z := var_value a (nth i vs (VConst 0)).

(** One rectangle is entirely beside, or above, the other. *)
Definition separated (xs ys ws hs : list var_id) (a : assignment) (i j : nat) : Prop :=
  at_pos a xs i + at_pos a ws i <= at_pos a xs j \/ at_pos a xs j + at_pos a ws j <= at_pos a xs i \/
  at_pos a ys i + at_pos a hs i <= at_pos a ys j \/ at_pos a ys j + at_pos a hs j <= at_pos a ys i.

Definition no_area (ws hs : list var_id) (a : assignment) (i : nat) : Prop := at_pos a ws i = 0 \/ at_pos a hs i = 0.

(** Any two rectangles are separated. Unless [strict], those without an area are left
    out. *)
Definition no_overlap (strict : bool) (xs ys ws hs : list var_id) (a : assignment) : Prop :=
  forall i j, (i < j)%nat -> (j < length xs)%nat ->
  (strict = false /\ (no_area ws hs a i \/ no_area ws hs a j)) \/ separated xs ys ws hs a i j.

(** A rectangle has a cell. *)
Definition has_cell (xs ys ws hs : list var_id) (a : assignment) (i : nat) (u v : Z) : Prop :=
  at_pos a xs i <= u < at_pos a xs i + at_pos a ws i /\ at_pos a ys i <= v < at_pos a ys i + at_pos a hs i.

(** On one axis, the places that whatever starts in [pos] and has [size] must take,
    wherever it is put. *)
Definition compulsory (d : domains) (pos size : list var_id) (i : nat) (u : Z) : Prop :=
  upper_bound d (nth i pos (VConst 0)) <= u < lower_bound d (nth i pos (VConst 0)) + lower_bound d (nth i size (VConst 0)).

(** Put at [start], and taking no more than it must, the one at position [i] takes none of
    the places the one at [j] must take. *)
Definition keeps_clear (d : domains) (pos size : list var_id) (i j : nat) (start : Z) : Prop :=
  forall u, start <= u < start + lower_bound d (nth i size (VConst 0)) -> ~ compulsory d pos size j u.
