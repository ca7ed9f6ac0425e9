(** The global cardinality constraint at domain consistency.

    Models gcs/constraints/global_cardinality/gac_global_cardinality.cc and the part of
    gcs/constraints/global_cardinality/global_cardinality.cc that is for this level, without
    the proof log. *)
From Coq Require Import ZArith List Bool Arith.
From Verif Require Import IntervalSet Vars State Epochs Engine Tracker Passes Scc MaxFlow GlobalCardinality.
Import ListNotations.
Local Open Scope Z_scope.

(** ** The network

    [m] values and [n] variables; [dom j i] says that variable [i] can take value [j],
    [free i] that it can take a value outside the cover, and [low] and [high] bound the
    counts. *)
Section Network.
Variables m n : nat.
Variable dom : nat -> nat -> bool.
Variable free : nat -> bool.
Variable closed : bool.
Variables low high : nat -> Z.

(** The vertices, gac_global_cardinality.cc:247-252. *)
Definition value_node (j : nat) : nat := 2 + j.
Definition dummy_node : nat := 2 + m.
Definition var_node (i : nat) : nat := 3 + m + i.
Definition base_nodes : nat := 3 + m + n.
Definition super_source : nat := base_nodes.
Definition super_sink : nat := S base_nodes.
Definition all_nodes : nat := S (S base_nodes).

(** orig, gac_global_cardinality.cc:256-308: from, to, and how much at least and at most. *)
Definition plenty : Z := Z.of_nat n + 1.
Definition network : list (nat * nat * (Z * Z)) :=
  flat_map (fun j => (O, value_node j, (Z.max 0 (low j), high j)) ::
    flat_map (fun i => if dom j i then [(value_node j, var_node i, (0, 1))] else []) (seq 0 n)) (seq 0 m) ++
  (if closed then [] else (O, dummy_node, (0, plenty)) :: flat_map (fun i => if free i then [(dummy_node, var_node i, (0, 1))] else []) (seq 0 n)) ++
  map (fun i => (var_node i, 1%nat, (1, 1))) (seq 0 n) ++ [(1%nat, O, (0, plenty))].

(** What the least amounts bring to a vertex, gac_global_cardinality.cc:265-270. *)
Definition excess (x : nat) : Z :=
  fold_right (fun (e : nat * nat * (Z * Z)) a => (if Nat.eqb (snd (fst e)) x then fst (snd e) else 0) - (if Nat.eqb (fst (fst e)) x then fst (snd e) else 0) + a) 0 network.

(** gac_global_cardinality.cc:310-319. *)
Definition balance (x : nat) : list edge :=
  if 0 <? excess x then [(super_source, x, excess x)] else if excess x <? 0 then [(x, super_sink, - excess x)] else [].
Definition need : Z := sum_over (fun x => Z.max 0 (excess x)) (seq 0 base_nodes).

Definition edges : list edge := map (fun e : nat * nat * (Z * Z) => (fst e, snd (snd e) - fst (snd e))) network ++ flat_map balance (seq 0 base_nodes).

(** gac_global_cardinality.cc:321. *)
Definition run_flow : option (Z * residual) := max_flow all_nodes (neighbours edges) super_source super_sink (capacity_of edges).

(** ** No flow

    From here on the flow is that found. *)
Section Found.
Variable r : residual.

(** The flow from value to variable and from the dummy to variable, gac_global_cardinality.cc:323-327. *)
Definition assigned (j i : nat) : Z := if dom j i then r (var_node i) (value_node j) else 0.
Definition dummy_flow (i : nat) : Z := if negb closed && free i then r (var_node i) dummy_node else 0.

(** gac_global_cardinality.cc:335-345. *)
Definition unmatched : option nat :=
  find (fun i => sum_over (fun j => assigned j i) (seq 0 m) + dummy_flow i =? 0) (seq 0 n).

(** Growing the values and variables of a cut, gac_global_cardinality.cc:352-372 and 419-439.
    One turn of the loop over the values, or the variables: the [k]th is marked if it meets
    the others, and then the others are joined by those it is assigned. The last part of the
    state is [grew]. *)
Section Grow.
Variable meets : (nat -> bool) -> nat -> bool.
Variable joined : nat -> nat -> bool.

Definition grow_one (st : (nat -> bool) * (nat -> bool) * bool) (k : nat) : (nat -> bool) * (nat -> bool) * bool :=
  let '(mark, others, grew) := st in
  if mark k then st else if meets others k then (put mark k true, (fun x => others x || joined k x), true) else st.

(** while (grew). Each turn but the last marks one more. *)
Fixpoint grow (fuel : nat) (ks : list nat) (mark others : nat -> bool) : option ((nat -> bool) * (nat -> bool)) :=
  match fuel with
  | O => None
  | S fuel' =>
      let '(mark', others', grew) := fold_left grow_one ks (mark, others, false) in
      if grew then grow fuel' ks mark' others' else Some (mark', others')
  end.
End Grow.

(** [confined hall i]: variable [i] takes only values in the hall. *)
Variable confined : (nat -> bool) -> nat -> bool.

Definition count_if (f : nat -> bool) (k : nat) : Z := sum_over (fun x => if f x then 1 else 0) (seq 0 k).
Definition total_if (f : nat -> bool) (g : nat -> Z) (k : nat) : Z := sum_over (fun x => if f x then g x else 0) (seq 0 k).

(** Whether more variables are confined than the values allow, gac_global_cardinality.cc:347-399.
    An empty list of values counts as none found, lines 406 and 456. *)
Definition capacity_violated : option bool :=
  match unmatched with
  | None => Some false
  | Some i0 =>
      match grow (fun hv_var j => existsb (fun i => hv_var i && dom j i) (seq 0 n)) (fun j i => dom j i && (assigned j i =? 1))
              (S m) (seq 0 m) (fun _ => false) (fun i => Nat.eqb i i0) with
      | None => None
      | Some (hv_val, _) => Some (existsb hv_val (seq 0 m) && (total_if hv_val high m <? count_if (confined hv_val) n))
      end
  end.

(** Whether fewer variables can take the values than they need, gac_global_cardinality.cc:401-454. *)
Definition demand_violated : option bool :=
  match find (fun j => sum_over (fun i => assigned j i) (seq 0 n) <? low j) (seq 0 m) with
  | None => Some false
  | Some j0 =>
      match grow (fun hv_val i => existsb (fun j => hv_val j && dom j i) (seq 0 m)) (fun i j => dom j i && (assigned j i =? 1))
              (S n) (seq 0 n) (fun _ => false) (fun j => Nat.eqb j j0) with
      | None => None
      | Some (hv_var, hv_val) => Some (count_if hv_var n <? total_if hv_val low m)
      end
  end.

Inductive no_flow : Type := Violated | LeaveIt | Throw.

(** gac_global_cardinality.cc:456-487. *)
Definition explain_no_flow : no_flow :=
  match capacity_violated with
  | None => Throw
  | Some true => Violated
  | Some false =>
      match demand_violated with
      | None => Throw
      | Some true => Violated
      | Some false => if closed && (match unmatched with Some _ => true | None => false end) then LeaveIt else Throw
      end
  end.

(** ** A flow *)

(** radj, gac_global_cardinality.cc:490-500. *)
Definition flow_on (e : nat * nat * (Z * Z)) : Z := fst (snd e) + r (snd (fst e)) (fst (fst e)).
Definition residual_graph (u : nat) : list nat :=
  flat_map (fun e : nat * nat * (Z * Z) =>
    (if Nat.eqb (fst (fst e)) u && (flow_on e <? snd (snd e)) then [snd (fst e)] else []) ++
    (if Nat.eqb (snd (fst e)) u && (fst (snd e) <? flow_on e) then [fst (fst e)] else [])) network.

(** The components, gac_global_cardinality.cc:502-563. See C13 for [find_components]: it
    takes the lower of two low numbers where the code takes that of a low number and an
    index, which finds the same components but perhaps not with the same numbers. *)
Definition components : nat -> nat := tj_component (find_components residual_graph base_nodes).

(** gac_global_cardinality.cc:597-603: value and variable. *)
Definition crossing : list (nat * nat) :=
  let c := components in
  flat_map (fun j => flat_map (fun i => if dom j i && ((assigned j i =? 0) && negb (Nat.eqb (c (value_node j)) (c (var_node i)))) then [(j, i)] else []) (seq 0 n)) (seq 0 m).

(** gac_global_cardinality.cc:670-673. *)
Definition crossing_dummy : list nat :=
  let c := components in
  filter (fun i => negb closed && free i && ((dummy_flow i =? 0) && negb (Nat.eqb (c dummy_node) (c (var_node i))))) (seq 0 n).
End Found.

Inductive verdict : Type := Fails | Leaves | Throws | Prunes (pairs : list (nat * nat)) (dummies : list nat).

Definition judge (confined : (nat -> bool) -> nat -> bool) : verdict :=
  match run_flow with
  | None => Throws
  | Some (f, r) =>
      if f =? need then Prunes (crossing r) (crossing_dummy r)
      else match explain_no_flow r confined with Violated => Fails | LeaveIt => Leaves | Throw => Throws end
  end.
End Network.

(** ** The propagator *)

(** std::binary_search as libstdc++ has it, also for a range that is not sorted: [len]
    values from [first] on, and then whether the value is at the place found. *)
Fixpoint bisect (fuel : nat) (values : list Z) (x : Z) (first len : nat) : bool :=
  match fuel with
  | O => match nth_error values first with Some y => negb (x <? y) | None => false end
  | S fuel' =>
      if Nat.eqb len 0 then match nth_error values first with Some y => negb (x <? y) | None => false end
      else
        let half := Nat.div2 len in
        if nth (first + half) values 0 <? x then bisect fuel' values x (first + half + 1) (len - half - 1)
        else bisect fuel' values x first half
  end.

(** in_cover, gac_global_cardinality.cc:207. *)
Definition in_cover (values : list Z) (x : Z) : bool := bisect (length values) values x 0 (length values).

(** gac_global_cardinality.cc:214-239. *)
Definition pin_count (vars : list var_id) (e : Z * var_id) (rest : prog) : prog :=
  Look (fun d =>
    let '(value, count) := e in
    let can := how_many (fun v => in_domain d v value) vars in
    let must := how_many (fun v => in_domain d v value && has_single_value d v) vars in
    let '(lb, ub) := bounds d count in
    infer_when (lb <? must) (LCond (cond_ge count must)) (infer_when (can <? ub) (LCond (cond_le count can)) rest)).

Section Pass.
Variable closed : bool.
Variables vars : list var_id.
Variable values : list Z.
Variable counts : list var_id.

Definition the_var (i : nat) : var_id := nth i vars (VConst 0).
Definition the_value (j : nat) : Z := nth j values 0.
Definition the_count (j : nat) : var_id := nth j counts (VConst 0).

Definition gac_verdict (d : domains) : verdict :=
  judge (length values) (length vars)
    (fun j i => in_domain d (the_var i) (the_value j))
    (fun i => existsb (fun x => negb (in_cover values x)) (each_value d (the_var i)))
    closed
    (fun j => lower_bound d (the_count j)) (fun j => upper_bound d (the_count j))
    (fun hall i => forallb (fun x => existsb (fun j => hall j && (the_value j =? x)) (seq 0 (length values))) (each_value d (the_var i))).

(** gac_global_cardinality.cc:241-703. If there is an exception the model infers nothing. *)
Definition flow_pass : prog :=
  Look (fun d =>
    match gac_verdict d with
    | Fails => Infer LFalse Stop
    | Leaves | Throws => Stop
    | Prunes pairs dummies =>
        sequence pairs (fun p => Infer (LCond (cond_ne (the_var (snd p)) (the_value (fst p)))))
          (sequence dummies (fun i rest => Look (fun d =>
             sequence (each_value d (the_var i)) (fun x => infer_when (negb (in_cover values x)) (LCond (cond_ne (the_var i) x))) rest)) Stop)
    end).

Definition gac_pass : prog := sequence (combine values counts) (pin_count vars) flow_pass.
End Pass.

(** GlobalCardinality::install_propagators with the level GAC,
    gcs/constraints/global_cardinality/global_cardinality.cc:112-173. *)
Definition gac_global_cardinality (closed : bool) (vars : list var_id) (values : list Z) (counts : list var_id) : constraint := fun d =>
  let c := sort_cover (combine values counts) in
  (closed_propagators closed vars (map fst c) ++ [body_propagator (once (gac_pass closed vars values counts)) vars counts []], []).
