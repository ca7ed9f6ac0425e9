(** Specification vocabulary for domains. *)
From Coq Require Import ZArith List.
From Verif Require Import IntervalSetSpec Vars VarsSpec State.
Import ListNotations.
Local Open Scope Z_scope.

(** Every domain is a well-formed, non-empty set. *)
Definition domains_ok (d : list (list (Z * Z))) : Prop :=
  forall n, (n < length d)%nat -> well_formed (nth n d []) /\ exists v, member v (nth n d []).

(** The handle refers to an allocated variable (or is a constant). *)
Definition var_known (d : list (list (Z * Z))) (v : var_id) : Prop :=
  match v with
  | VSimple n => (n < length d)%nat
  | VView n _ _ => (n < length d)%nat
  | VConst _ => True
  end.

Definition cond_known (d : list (list (Z * Z))) (c : cond) : Prop := var_known d (c_var c).

Definition lit_known (d : list (list (Z * Z))) (l : literal) : Prop :=
  match l with LCond c => cond_known d c | _ => True end.

(** The assignment takes each variable's value from its domain. *)
Definition within (a : assignment) (d : list (list (Z * Z))) : Prop :=
  forall n, (n < length d)%nat -> member (a n) (nth n d []).

(** [x] is a possible value of the handle: the image of the underlying domain
    under the view. *)
Definition view_member (d : list (list (Z * Z))) (v : var_id) (x : Z) : Prop :=
  match v with
  | VSimple n => member x (nth n d [])
  | VView n neg add => exists y, member y (nth n d []) /\ x = (if neg then - y else y) + add
  | VConst c => x = c
  end.

(** Domains [d'] have the same variables as [d], and the assignments within [d']
    are exactly those within [d] satisfying [P]. *)
Definition narrowed_to (d' d : list (list (Z * Z))) (P : assignment -> Prop) : Prop :=
  length d' = length d /\ forall a, within a d' <-> within a d /\ P a.

(** The set has exactly one member. *)
Definition singleton (s : list (Z * Z)) : Prop := exists v, forall w, member w s <-> w = v.

Definition least (s : list (Z * Z)) (v : Z) : Prop := member v s /\ forall w, member w s -> v <= w.
Definition greatest (s : list (Z * Z)) (v : Z) : Prop := member v s /\ forall w, member w s -> w <= v.
Definition same_bounds (s s' : list (Z * Z)) : Prop :=
  (forall v, least s v <-> least s' v) /\ (forall v, greatest s v <-> greatest s' v).

(** The reported kind of change describes the step from [s] to [s']. *)
Definition accurate (i : inference) (s s' : list (Z * Z)) : Prop :=
  match i with
  | NoChange => s' = s
  | Instantiated => s' <> s /\ singleton s'
  | BoundsChanged => s' <> s /\ ~ singleton s' /\ ~ same_bounds s s'
  | InteriorValuesChanged => s' <> s /\ ~ singleton s' /\ same_bounds s s'
  | Contradiction => True
  end.

(** The underlying variable of a handle, if it has one. *)
Definition underlying (v : var_id) : option nat :=
  match v with
  | VSimple n => Some n
  | VView n _ _ => Some n
  | VConst _ => None
  end.

(** The handles are not about one and the same variable. *)
Definition unrelated (v w : var_id) : Prop := forall n, underlying v = Some n -> underlying w <> Some n.

Definition lit_underlying (l : literal) : option nat :=
  match l with LCond c => underlying (c_var c) | _ => None end.

(** [x] is a possible value of the handle: some assignment within the domains
    gives it that value. *)
Definition possible (d : list (list (Z * Z))) (v : var_id) (x : Z) : Prop :=
  exists a, within a d /\ var_value a v = x.

(** Handles written by nesting offsets and negations around a variable or
    constant, and their arithmetic meaning. *)
Inductive handle_expr : Type :=
| HVar (v : var_id)
| HPlus (h : handle_expr) (c : Z)
| HMinus (h : handle_expr) (c : Z)
| HNeg (h : handle_expr).

Fixpoint handle_value (a : assignment) (h : handle_expr) : Z :=
  match h with
  | HVar v => var_value a v
  | HPlus h c => handle_value a h + c
  | HMinus h c => handle_value a h - c
  | HNeg h => - handle_value a h
  end.

(** The handle the operators build. *)
Fixpoint handle_build (h : handle_expr) : var_id :=
  match h with
  | HVar v => v
  | HPlus h c => var_plus (handle_build h) c
  | HMinus h c => var_minus (handle_build h) c
  | HNeg h => var_neg (handle_build h)
  end.
