(** What BinPacking means. *)
From Coq Require Import ZArith List.
From Verif Require Import Vars VarsSpec State StateSpec Epochs BinPacking.
Import ListNotations.
Local Open Scope Z_scope.

(** What the items in a bin add up to. *)
Definition content (items : list var_id) (sizes : list Z) (a : assignment) (b : nat) : Z :=
  fold_right (fun p sum => (if var_value a (fst p) =? Z.of_nat b then snd p else 0) + sum) 0 (combine items sizes).

(** A single bin: it holds its load, or no more than its capacity. *)
Definition bin_right (items : list var_id) (sizes : list Z) (bs : bins) (b : nat) (a : assignment) : Prop :=
  match bs with
  | Loads loads => forall v, nth_error loads b = Some v -> content items sizes a b = var_value a v
  | Capacities cs => forall c, nth_error cs b = Some c -> content items sizes a b <= c
  end.

(** Each item is in one of the bins, and all bins are right. *)
Definition packs (items : list var_id) (sizes : list Z) (bs : bins) (a : assignment) : Prop :=
  Forall (fun v => 0 <= var_value a v < Z.of_nat (bin_count bs)) items /\ forall b, (b < bin_count bs)%nat -> bin_right items sizes bs b a.

(** There is a size for each item, and none is negative; there are bins, and no capacity is
    negative. *)
Definition packable (items : list var_id) (sizes : list Z) (bs : bins) : Prop :=
  length items = length sizes /\ Forall (fun s => 0 <= s) sizes /\ bin_count bs <> O /\
  match bs with Loads _ => True | Capacities cs => Forall (fun c => 0 <= c) cs end.

(** The items can only be in bins that exist. *)
Definition in_bins (d : domains) (items : list var_id) (bs : bins) : Prop :=
  Forall (fun v => 0 <= lower_bound d v /\ upper_bound d v < Z.of_nat (bin_count bs)) items.

(** A value of a variable that goes with the bin, taken alone: everything else can be chosen
    so that the bin is right. *)
Definition bin_supports (D : domains) (items : list var_id) (sizes : list Z) (bs : bins) (b : nat) (v : var_id) (x : Z) : Prop :=
  exists a, within a D /\ var_value a v = x /\ bin_right items sizes bs b a.

(** A value that an assignment can have. *)
Definition takes (D : domains) (v : var_id) (x : Z) : Prop := exists a, within a D /\ var_value a v = x.

(** The least and the most that can be in the bin leave no bound of its load out, and do not
    rule out a place for any one item. *)
Definition bin_bounded (D : domains) (items : list var_id) (sizes : list Z) (load : var_id) (b : nat) : Prop :=
  (exists a, within a D /\ content items sizes a b <= lower_bound D load) /\
  (exists a, within a D /\ upper_bound D load <= content items sizes a b) /\
  forall v x, In v items -> takes D v x ->
    if x =? Z.of_nat b then exists a, within a D /\ var_value a v = x /\ content items sizes a b <= upper_bound D load
    else exists a, within a D /\ var_value a v <> Z.of_nat b /\ lower_bound D load <= content items sizes a b.
