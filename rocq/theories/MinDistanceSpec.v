(** What MinDistance means. *)
From Coq Require Import ZArith List.
From Verif Require Import IntervalSet Vars VarsSpec State StateSpec Epochs.
Import ListNotations.
Local Open Scope Z_scope.

(** What is in a row and a column of a matrix. *)
Definition cell (m : list (list Z)) (i j : nat) (k : Z) : Prop := exists row, nth_error m i = Some row /\ nth_error row j = Some k.

(** Two sites, and the distance between them. *)
Definition apart (D : list (list Z)) (x y k : Z) : Prop := 0 <= x /\ 0 <= y /\ cell D (Z.to_nat x) (Z.to_nat y) k.

(** A distance that is at least what is required of a pair. *)
Definition far_enough (R : option (list (list Z))) (i j : nat) (k : Z) : Prop := forall m r, R = Some m -> cell m i j r -> r <= k.

(** [z] is the least of the distances between the sites that are selected, and these are as
    far apart as they must be. *)
Definition is_min_distance (xs : list var_id) (z : var_id) (D : list (list Z)) (R : option (list (list Z))) (a : assignment) : Prop :=
  (forall i j v w, (i < j)%nat -> nth_error xs i = Some v -> nth_error xs j = Some w ->
     exists k, apart D (var_value a v) (var_value a w) k /\ var_value a z <= k /\ far_enough R i j k) /\
  exists i j v w, (i < j)%nat /\ nth_error xs i = Some v /\ nth_error xs j = Some w /\ apart D (var_value a v) (var_value a w) (var_value a z).

(** A matrix of distances: square, with nothing on the diagonal, symmetric and not negative. *)
Definition distance_matrix (D : list (list Z)) : Prop :=
  D <> [] /\ Forall (fun row => length row = length D) D /\ (forall a k, cell D a a k -> k = 0) /\ forall a b k, cell D a b k -> 0 <= k /\ cell D b a k.

(** A matrix of requirements for [p] points, of which only what is above the diagonal counts. *)
Definition requirement_matrix (p : nat) (R : option (list (list Z))) : Prop :=
  forall m, R = Some m -> length m = p /\ Forall (fun row => length row = p) m /\ forall i j r, (i < j)%nat -> cell m i j r -> 0 <= r.

(** A value that an assignment can have. *)
Definition can_take (d : domains) (v : var_id) (x : Z) : Prop := exists a, within a d /\ var_value a v = x.

(** All values are sites. *)
Definition at_sites (d : domains) (xs : list var_id) (D : list (list Z)) : Prop := forall v x, In v xs -> can_take d v x -> 0 <= x < Z.of_nat (length D).

(** Two values that are as far apart as they must be, given the least that [z] can be. *)
Definition compatible (d : domains) (z : var_id) (D : list (list Z)) (R : option (list (list Z))) (i j : nat) (x y : Z) : Prop :=
  exists k, apart D x y k /\ lower_bound d z <= k /\ far_enough R i j k.

(** Sites that can be selected. *)
Definition selectable (d : domains) (xs : list var_id) (x : Z) : Prop := exists v, In v xs /\ can_take d v x.

(** Disjoint pairs of sites that are nearer than [t], to which no other pair can be added. *)
Definition maximal_matching (D : list (list Z)) (t : Z) (A : list Z) (M : list (Z * Z)) : Prop :=
  NoDup (flat_map (fun e => [fst e; snd e]) M) /\
  (forall x y, In (x, y) M -> In x A /\ In y A /\ exists k, apart D x y k /\ k < t) /\
  forall x y k, In x A -> In y A -> x <> y -> apart D x y k -> k < t -> exists e, In e M /\ (fst e = x \/ snd e = x \/ fst e = y \/ snd e = y).

(** The greatest distance between two different sites that is no more than [z] can be. *)
Definition highest_level (d : domains) (z : var_id) (D : list (list Z)) (t : Z) : Prop :=
  (exists x y, x <> y /\ apart D x y t) /\ t <= upper_bound d z /\ forall x y k, x <> y -> apart D x y k -> k <= upper_bound d z -> k <= t.
