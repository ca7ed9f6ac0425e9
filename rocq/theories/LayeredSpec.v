(** What automata and decision diagrams accept. *)
From Coq Require Import ZArith List.
Import ListNotations.
Local Open Scope Z_scope.

(** The transitions of a map for each state: where -1 is given there is none. *)
Definition moves (rows : list (list (Z * Z))) (q v r : Z) : Prop :=
  exists row, 0 <= q /\ nth_error rows (Z.to_nat q) = Some row /\ In (v, r) row /\ r <> -1.

(** The transitions of a table of targets. *)
Definition table_moves (table : list (list Z)) (q v r : Z) : Prop :=
  exists row, 0 <= q /\ nth_error table (Z.to_nat q) = Some row /\ 0 <= v /\ nth_error row (Z.to_nat v) = Some r /\ r <> -1.

(** Reading the word can take the automaton from one state to another. *)
Inductive reads (step : Z -> Z -> Z -> Prop) : Z -> list Z -> Z -> Prop :=
| reads_nothing q : reads step q [] q
| reads_one q v r w f : step q v r -> reads step r w f -> reads step q (v :: w) f.

(** Some run from state 0 ends in a final state. *)
Definition accepts (step : Z -> Z -> Z -> Prop) (final : list Z) (w : list Z) : Prop :=
  exists f, reads step 0 w f /\ In f final.

(** There is a path through the layers, one value to each. *)
Inductive leads : list (list (list (Z * Z))) -> Z -> list Z -> Z -> Prop :=
| leads_nowhere q : leads [] q [] q
| leads_on rows layers q v r w f : moves rows q v r -> leads layers r w f -> leads (rows :: layers) q (v :: w) f.

Definition diagram_accepts (layers : list (list (list (Z * Z)))) (accepting : list Z) (w : list Z) : Prop :=
  exists f, leads layers 0 w f /\ In f accepting.

(** The sizes that the constructor of a decision diagram asks for: one layer for each
    variable, one root, and at least one row for each node. *)
Definition well_sized {X Y : Type} (vars : list X) (layers : list (list Y)) (nodes : list nat) : Prop :=
  length nodes = S (length vars) /\ length layers = length vars /\ nth_error nodes 0 = Some 1%nat /\
  forall i rows n, nth_error layers i = Some rows -> nth_error nodes i = Some n -> (n <= length rows)%nat.
