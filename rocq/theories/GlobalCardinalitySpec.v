(** What the global cardinality constraint means. *)
From Coq Require Import ZArith List.
From Verif Require Import Vars VarsSpec State StateSpec.
Import ListNotations.
Local Open Scope Z_scope.

(** How often the value is taken. *)
Definition times_taken (vars : list var_id) (a : assignment) (x : Z) : Z := Z.of_nat (count_occ Z.eq_dec (map (var_value a) vars) x).

(** Each count is the number of times its value is taken, and, if the cover is closed, only
    values in the cover are taken. *)
Definition cardinalities (closed : bool) (vars : list var_id) (values : list Z) (counts : list var_id) (a : assignment) : Prop :=
  Forall2 (fun x c => var_value a c = times_taken vars a x) values counts /\
  (closed = true -> Forall (fun v => In (var_value a v) values) vars).

(** [n] of the handles have the property. *)
Inductive number (P : var_id -> Prop) : list var_id -> Z -> Prop :=
| number_nil : number P [] 0
| number_yes v vs n : P v -> number P vs n -> number P (v :: vs) (n + 1)
| number_no v vs n : ~ P v -> number P vs n -> number P (v :: vs) n.

(** All values left are among these, or at least one is. *)
Definition takes_only (d : domains) (xs : list Z) (v : var_id) : Prop := forall x, view_member d v x -> In x xs.
Definition can_take (d : domains) (xs : list Z) (v : var_id) : Prop := exists x, In x xs /\ view_member d v x.

(** What Hall's theorem says of some values and their counts: those that take only these
    values are no more than the counts allow, those that can take them are no fewer than
    the counts need, a count makes up for what the others leave, and if there is nothing to
    spare then others leave the values alone, or all that can take them do so. *)
Definition in_balance (d : domains) (vars : list var_id) (run : list (Z * var_id)) : Prop :=
  let xs := map fst run in
  let cap := fold_right (fun e s => upper_bound d (snd e) + s) 0 run in
  let demand := fold_right (fun e s => lower_bound d (snd e) + s) 0 run in
  forall confined potential, number (takes_only d xs) vars confined -> number (can_take d xs) vars potential ->
    confined <= cap /\ demand <= potential /\
    (forall e, In e run -> confined - (cap - upper_bound d (snd e)) <= lower_bound d (snd e) /\ upper_bound d (snd e) <= potential - (demand - lower_bound d (snd e))) /\
    (confined = cap -> forall v, In v vars -> can_take d xs v -> takes_only d xs v) /\
    (potential = demand -> forall v, In v vars -> can_take d xs v -> takes_only d xs v).
