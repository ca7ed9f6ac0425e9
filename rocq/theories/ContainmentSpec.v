(* What the links between the literals of a variable are for. *)
From Coq Require Import ZArith List Bool.
From Verif Require Import Containment.
Import ListNotations.
Open Scope Z_scope.

(* the interval that a call defines a literal for *)
Definition interval (e : event) : Z * Z :=
  match e with Equality v _ => (v, v) | Range lo hi _ _ => (lo, hi) end.

(* range literals have at least two values *)
Definition proper (e : event) : Prop :=
  match e with Equality _ _ => True | Range lo hi _ _ => lo < hi end.

Definition defined (events : list event) (i : Z * Z) : Prop := In i (map interval events).

Definition inside (a b : Z * Z) : Prop := fst b <= fst a /\ snd a <= snd b.

(* the clause "not child, or parent" is true whatever value the variable takes *)
Definition true_clause (e : edge) : Prop :=
  forall x, ~ (fst (fst e) <= x <= snd (fst e)) \/ fst (snd e) <= x <= snd (snd e).

(* Unit propagation over the clauses: a set of rejected literals is closed when it has the child of
   each clause whose parent it has. Rejecting [b] rejects [a] when every closed set with [b] has [a]. *)
Definition rejects (edges : list edge) (b a : Z * Z) : Prop :=
  forall rejected : Z * Z -> Prop,
    (forall c p, In (c, p) edges -> rejected p -> rejected c) -> rejected b -> rejected a.

(* The other direction: a set of accepted literals has the parent of each clause whose child it has. *)
Definition accepts (edges : list edge) (a b : Z * Z) : Prop :=
  forall accepted : Z * Z -> Prop,
    (forall c p, In (c, p) edges -> accepted c -> accepted p) -> accepted a -> accepted b.

(* nothing defined lies strictly between the two ends of the clause *)
Definition immediate (events : list event) (e : edge) : Prop :=
  forall i, defined events i -> inside (fst e) i -> inside i (snd e) -> i = fst e \/ i = snd e.
