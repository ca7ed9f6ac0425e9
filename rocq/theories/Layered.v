(** Automata and decision diagrams as layered graphs.

    Models the propagators of gcs/constraints/regular/regular.cc and
    gcs/constraints/mdd/mdd.cc, which are the same but for where a transition is
    looked up. The other proof strategies of Regular (regular_legacy.cc,
    regular_bacchus.cc) draw the same inferences and are not modelled. *)
From Coq Require Import ZArith List Bool Arith.
From Verif Require Import IntervalSet Vars State Epochs Engine Tracker Solve Stateful.
Import ListNotations.
Local Open Scope Z_scope.

(** ** Transitions *)

(** From a state, reading a value, to a state. What the code keeps as a map, for each
    state, from a value to a set of states is a list of these here. *)
Definition arrow : Type := Z * Z * Z.

(** find_transitions, regular.cc:73-80, and find_transition, mdd.cc:55-61: empty if
    there is none. *)
Definition targets (ts : list arrow) (q v : Z) : list Z :=
  map snd (filter (fun '(p, x, _) => (p =? q) && (x =? v)) ts).

Fixpoint with_index {X : Type} (i : Z) (xs : list X) : list (Z * X) :=
  match xs with
  | [] => []
  | x :: r => (i, x) :: with_index (i + 1) r
  end.

(** From a map for each state, a target of -1 meaning that there is none:
    regular.cc:466-470, and the comparisons with -1 in mdd.cc. *)
Definition arrows_of (rows : list (list (Z * Z))) : list arrow :=
  flat_map (fun '(q, row) => map (fun '(v, r) => (q, v, r)) (filter (fun '(_, r) => negb (r =? -1)) row)) (with_index 0 rows).

(** From a table of the targets, regular.cc:474-484. *)
Definition table_rows (table : list (list Z)) : list (list (Z * Z)) := map (with_index 0) table.

(** ** The graph *)

(** An edge out of layer [ed_at], from a state, by a value, to a state of the next. *)
Record edge : Type := mk_edge { ed_at : nat; ed_from : Z; ed_by : Z; ed_to : Z }.

Definition edge_eqb (e f : edge) : bool :=
  Nat.eqb (ed_at e) (ed_at f) && (ed_from e =? ed_from f) && (ed_by e =? ed_by f) && (ed_to e =? ed_to f).

(** RegularGraph, regular.cc:92-117, and MDDGraph, mdd.cc:63-91. Simplification: the
    code keeps the edges by source and by target, and their number out of and into
    each state, and the states that have an edge by each value. All are read off one
    list of edges here. *)
Definition graph : Type := list edge.

Definition out_edges (i : nat) (q : Z) (g : graph) : list edge := filter (fun e => Nat.eqb (ed_at e) i && (ed_from e =? q)) g.
Definition in_edges (i : nat) (q : Z) (g : graph) : list edge := filter (fun e => Nat.eqb (S (ed_at e)) i && (ed_to e =? q)) g.

(** states_supporting[i][val] is not empty. *)
Definition supports_value (g : graph) (i : nat) (v : Z) : bool := existsb (fun e => Nat.eqb (ed_at e) i && (ed_by e =? v)) g.

Definition remove_edge (e : edge) (g : graph) : graph := filter (fun f => negb (edge_eqb e f)) g.

(** As a constraint state: whether it is initialised, then the edges. *)
Definition write_edge (e : edge) : list Z := [Z.of_nat (ed_at e); ed_from e; ed_by e; ed_to e].

Fixpoint read_edges (l : list Z) : graph :=
  match l with
  | i :: q :: v :: r :: rest => mk_edge (Z.to_nat i) q v r :: read_edges rest
  | _ => []
  end.

Definition write_graph (g : graph) : cstate := 1 :: flat_map write_edge g.

Definition is_one_of (l : list Z) (x : Z) : bool := existsb (Z.eqb x) l.

Section Layers.
  (** The transitions out of each layer, and the accepting states. *)
  Context (trans : nat -> list arrow) (final : list Z).

  (** Forward phase of initialise_graph, regular.cc:159-171, mdd.cc:121-132: the
      states of this layer and of each later one that can be reached. *)
  Fixpoint forward (i : nat) (doms : list (list Z)) (now : list Z) : list (list Z) :=
    now :: match doms with
           | [] => []
           | vals :: rest => forward (S i) rest (nodup Z.eq_dec (flat_map (fun v => flat_map (fun q => targets (trans i) q v) now) vals))
           end.

  (** The accepting states of the last layer, regular.cc:184-197, and the backward
      phase, regular.cc:199-233, mdd.cc:143-197: the edges from this layer on, and the
      states of this layer that have any. *)
  Fixpoint backward (i : nat) (doms : list (list Z)) (layers : list (list Z)) : graph * list Z :=
    match doms, layers with
    | vals :: rest, now :: later =>
        let '(g, alive) := backward (S i) rest later in
        let out := flat_map (fun v => flat_map (fun q => map (mk_edge i q v) (filter (is_one_of alive) (targets (trans i) q v))) now) vals in
        (out ++ g, filter (fun q => existsb (fun e => ed_from e =? q) out) now)
    | _, now :: _ => ([], filter (is_one_of final) now)
    | _, [] => ([], [])
    end.

  Definition initial_graph (doms : list (list Z)) : graph := fst (backward 0 doms (forward 0 doms [0])).
End Layers.

(** decrement_outdeg, regular.cc:238-266, mdd.cc:199-225, after an edge out of state
    [k] of layer [i] has gone. *)
Fixpoint drop_back (i : nat) (k : Z) (g : graph) : graph :=
  match i with
  | O => g
  | S j =>
      match out_edges i k g with
      | [] => fold_left (fun g e => drop_back j (ed_from e) (remove_edge e g)) (in_edges i k g) g
      | _ :: _ => g
      end
  end.

(** decrement_indeg, regular.cc:268-285, mdd.cc:227-244, after an edge into state [k]
    of layer [i] has gone; there are [left] more layers. *)
Fixpoint drop_ahead (left i : nat) (k : Z) (g : graph) : graph :=
  match left with
  | O => g
  | S left' =>
      match in_edges i k g with
      | [] => fold_left (fun g e => drop_ahead left' (S i) (ed_to e) (remove_edge e g)) (out_edges i k g) g
      | _ :: _ => g
      end
  end.

(** One edge of a value that has gone, regular.cc:325-337, mdd.cc:262-279. *)
Definition drop_edge (n : nat) (g : graph) (e : edge) : graph :=
  drop_ahead (n - S (ed_at e)) (S (ed_at e)) (ed_to e) (drop_back (ed_at e) (ed_from e) (remove_edge e g)).

(** The values of one variable, regular.cc:310-342, mdd.cc:255-284. *)
Definition refresh_layer (d : domains) (n : nat) (g : graph) (iv : nat * var_id) : graph :=
  let '(i, v) := iv in
  fold_left (drop_edge n) (filter (fun e => Nat.eqb (ed_at e) i && negb (in_domain d v (ed_by e))) g) g.

Definition numbered (vars : list var_id) : list (nat * var_id) := combine (seq 0 (length vars)) vars.

Definition refresh (d : domains) (vars : list var_id) (g : graph) : graph :=
  fold_left (refresh_layer d (length vars)) (numbered vars) g.

(** regular.cc:345-350, mdd.cc:287-292. *)
Definition prune (g : graph) (vars : list var_id) (t : tracker) : tracker :=
  for_each (numbered vars) (fun '(i, v) t =>
    for_each (each_value (t_domains t) v) (fun x t => if supports_value g i x then t else tell_ne v x t) t) t.

(** propagate_regular, regular.cc:287-351, and propagate_mdd, mdd.cc:246-293. Only
    the former looks at the accepting states when there are no variables. *)
Definition layered_body (checks_empty : bool) (trans : nat -> list arrow) (final : list Z) (vars : list var_id) : state_body :=
  fun d s m =>
    match vars, checks_empty with
    | [], true => mk_effect (if is_one_of final 0 then track d else tell_false (track d)) s m Enable
    | _, _ =>
        let g0 := match s with
                  | 1 :: es => read_edges es
                  | _ => initial_graph trans final (map (each_value d) vars)
                  end in
        let g := refresh d vars g0 in
        mk_effect (prune g vars (track d)) (write_graph g) m Enable
    end.

(** install_propagators, regular.cc:636-671, mdd.cc:527-563. Simplification: the
    second constraint state, which is only for proofs, is left out, as is the
    initialiser. *)
Definition layered (checks_empty : bool) (trans : nat -> list arrow) (final : list Z) (vars : list var_id) : installer := fun _ cs =>
  mk_installation [] [[0]] [state_propagator (length cs) (layered_body checks_empty trans final vars) vars [] []] [].

(** Regular, given its transitions. A state that has no entry has no transitions
    here; the code would read beyond the end of a vector. *)
Definition regular (vars : list var_id) (ts : list arrow) (final : list Z) : installer := layered true (fun _ => ts) final vars.

(** The two constructors for deterministic automata, regular.cc:463-484. *)
Definition regular_maps (vars : list var_id) (rows : list (list (Z * Z))) (final : list Z) : installer := regular vars (arrows_of rows) final.
Definition regular_table (vars : list var_id) (table : list (list Z)) (final : list Z) : installer := regular_maps vars (table_rows table) final.

(** MDD, mdd.cc:430-450: [None] is the exception for sizes that do not match. *)
Definition mdd (vars : list var_id) (layers : list (list (list (Z * Z)))) (nodes : list nat) (accepting : list Z) : option installer :=
  if Nat.eqb (length nodes) (S (length vars)) && Nat.eqb (length layers) (length vars) && Nat.eqb (hd O nodes) 1 &&
     forallb (fun '(rows, n) => (n <=? length rows)%nat) (combine layers nodes)
  then Some (layered false (fun i => arrows_of (nth i layers [])) accepting vars)
  else None.
