(** What a table whose rows are conditions says. *)
From Coq Require Import ZArith List Bool.
From Verif Require Import Vars VarsSpec SmartTable.
Import ListNotations.
Local Open Scope Z_scope.

(** One value is related to another as the test says. *)
Definition related (t : test) (x y : Z) : Prop :=
  match t with
  | IsLess => x < y
  | IsLessEqual => x <= y
  | IsEqual => x = y
  | IsNotEqual => x <> y
  | IsGreater => x > y
  | IsGreaterEqual => x >= y
  end.

Definition entry_holds (a : assignment) (e : entry) : Prop :=
  match e with
  | Compare v w t => related t (var_value a v) (var_value a w)
  | CompareValue v x t => related t (var_value a v) x
  | InSet v values true => In (var_value a v) values
  | InSet v values false => ~ In (var_value a v) values
  end.

(** Some row holds throughout. *)
Definition some_row (rows : list row) (a : assignment) : Prop := exists r, In r rows /\ Forall (entry_holds a) r.

(** The first list is lexicographically greater than the second, on what they have in
    common. *)
Fixpoint lex_greater (l k : list Z) : Prop :=
  match l, k with
  | x :: l', y :: k' => x > y \/ (x = y /\ lex_greater l' k')
  | _, _ => False
  end.

(** Two variables are connected by comparisons. *)
Inductive connected (r : row) : nat -> nat -> Prop :=
| connected_refl x : connected r x x
| connected_step x y v w t : connected r x y -> In (Compare v w t) r ->
    forall z, (var_number v = y /\ var_number w = z) \/ (var_number w = y /\ var_number v = z) -> connected r x z.

(** The comparisons of a row make no cycle: without it, the sides of a comparison are not
    connected. *)
Definition acyclic (r : row) : Prop :=
  forall v w t, In (Compare v w t) r -> forall r', incl r' r -> ~ In (Compare v w t) r' -> ~ connected r' (var_number v) (var_number w).

(** Every variable of an entry is one of the list, or a view of one of them. Whether an
    entry holds is seen from a variable itself and not from a view of it: the second one
    of a comparison for being different, and either of the two otherwise. *)
Definition simple (v : var_id) : Prop := match v with VSimple _ => True | _ => False end.

Definition entry_suits (vars : list var_id) (e : entry) : Prop :=
  (forall v, In v (entry_vars e) -> match v with VConst _ => False | _ => In (VSimple (var_number v)) vars end) /\
  match e with
  | Compare v w IsNotEqual => simple w
  | Compare v w _ => simple v \/ simple w
  | CompareValue v _ _ | InSet v _ _ => simple v
  end /\
  match e with Compare v w _ => var_number v <> var_number w | _ => True end.

Definition table_suits (vars : list var_id) (rows : list row) : Prop :=
  NoDup vars /\ Forall (fun r => acyclic r /\ Forall (entry_suits vars) r) rows.

(** An entry that is about variables only, and not about views. *)
Definition plain_entry (e : entry) : Prop := forall v, In v (entry_vars e) -> simple v.

(** Filtering by one entry after another, until one leaves a variable without values,
    reads the first and last value of lists that have one. *)
Fixpoint ends_exist (es : list entry) (m : values_of) : Prop :=
  match es with
  | [] => True
  | e :: more =>
      (forall v, In v (entry_vars e) -> get_values m v <> []) /\
      ((forall v, In v (entry_vars e) -> get_values (filter_edge e m) v <> []) -> ends_exist more (filter_edge e m))
  end.
