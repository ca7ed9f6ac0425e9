(** Circuit with the algorithm that looks at strongly connected components.

    Models gcs/constraints/circuit/circuit_scc.cc and prevent_small_cycles of
    circuit_base.cc. Not modelled: the proof logging. *)
From Coq Require Import ZArith List Bool Arith.
From Verif Require Import IntervalSet Vars State Epochs Engine Tracker Solve Stateful AllDifferent Element Inverse Circuit.
Import ListNotations.
Local Open Scope Z_scope.

(** SCCOptions, gcs/constraints/circuit/circuit_scc.hh:19-29: those that are read.
    prune_within is stored and never read. *)
Record scc_options : Type := mk_scc_options { prune_root : bool; prune_skip : bool; fix_req : bool }.

(** What Circuit{succ} has unless told otherwise. *)
Definition default_options : scc_options := mk_scc_options true true true.

(** Only contradictions are inferred from the components. *)
Definition no_pruning (o : scc_options) : Prop := prune_root o = false /\ prune_skip o = false /\ fix_req o = false.

(** SCCPropagatorData, circuit_scc.cc:66-83, without prev_subroot, which is only used
    for proofs; root is 0. In the arrays -1 stands for undefined. *)
Record scc_data : Type := mk_data { dt_count : Z; dt_low : list Z; dt_visit : list Z; dt_start : Z; dt_end : Z }.

(** The root, select_root, circuit_scc.cc:60-64. *)
Definition root : nat := O.

(** Simplification: with no successors at all the code writes beyond the end of both
    arrays; here nothing is written. *)
Definition initial_data (n : nat) : scc_data :=
  mk_data 1 (set_nth (repeat (-1) n) root 0) (set_nth (repeat (-1) n) root 0) 0 0.

Definition low (dt : scc_data) (x : nat) : Z := nth x (dt_low dt) (-1).
Definition number (dt : scc_data) (x : nat) : Z := nth x (dt_visit dt) (-1).

Definition set_low (dt : scc_data) (x : nat) (v : Z) : scc_data :=
  mk_data (dt_count dt) (set_nth (dt_low dt) x v) (dt_visit dt) (dt_start dt) (dt_end dt).

(** circuit_scc.cc:131-140. *)
Definition pos_min (a b : Z) : Z := if b =? -1 then a else if a =? -1 then b else Z.min a b.

(** A value as a node. Simplification: the code uses every value as an index; the
    bounds of the successors keep them inside, and what is outside is ignored here. *)
Definition as_node (n : nat) (x : Z) : option nat := if (0 <=? x) && (x <? Z.of_nat n) then Some (Z.to_nat x) else None.

Definition node_values (succ : list var_id) (d : domains) (i : nat) : list nat :=
  flat_map (fun x => match as_node (length succ) x with Some j => [j] | None => [] end) (each_value d (handle succ i)).

Definition single_node (succ : list var_id) (d : domains) (i : nat) : option nat :=
  match optional_single_value d (handle succ i) with Some x => as_node (length succ) x | None => None end.

(** The result of exploring: the data, what has been inferred, the back edges. *)
Definition explored : Type := scc_data * tracker * list (nat * nat).

(** The loop over the values of a successor in explore, circuit_scc.cc:950-984. [ws]
    are the values left, [back] the edges so far. A contradiction ends it. *)
Fixpoint each_edge (recurse : nat -> scc_data -> tracker -> explored) (o : scc_options) (succ : list var_id) (node : nat)
  (ws : list nat) (dt : scc_data) (t : tracker) (back : list (nat * nat)) : explored :=
  match ws with
  | [] => (dt, t, back)
  | w :: r =>
      if t_failed t then (dt, t, back)
      else if number dt w =? -1 then
        let '(dt1, t1, b) := recurse w dt t in
        each_edge recurse o succ node r (set_low dt1 node (pos_min (low dt1 node) (low dt1 w))) t1 (back ++ b)
      else
        let inside_prev := (dt_start dt <=? number dt w) && (number dt w <=? dt_end dt) in
        let back' := if inside_prev then back ++ [(node, w)] else back in
        let t' := if negb inside_prev && prune_skip o && (number dt w <? dt_start dt) then tell_ne (handle succ node) (Z.of_nat w) t else t in
        each_edge recurse o succ node r (set_low dt node (pos_min (low dt node) (number dt w))) t' back'
  end.

(** explore, circuit_scc.cc:940-996. Each call numbers another node, so [fuel] the
    number of nodes is enough. *)
Fixpoint explore (fuel : nat) (o : scc_options) (succ : list var_id) (node : nat) (dt : scc_data) (t : tracker) : explored :=
  match fuel with
  | O => (dt, t, [])
  | S fuel' =>
      let dt0 := mk_data (dt_count dt + 1) (set_nth (dt_low dt) node (dt_count dt)) (set_nth (dt_visit dt) node (dt_count dt)) (dt_start dt) (dt_end dt) in
      let '(dt', t', back) := each_edge (explore fuel' o succ) o succ node (node_values succ (t_domains t) node) dt0 t [] in
      if t_failed t' then (dt', t', back)
      else if low dt' node =? number dt' node then (dt', tell_false t', back) else (dt', t', back)
  end.

(** What is inferred from the back edges of a subtree, circuit_scc.cc:1008-1032. *)
Definition required_edge (o : scc_options) (succ : list var_id) (back : list (nat * nat)) (t : tracker) : tracker :=
  match back with
  | [] => tell_false t
  | [(x, y)] => if fix_req o && negb (single_valued (t_domains t) (handle succ x)) then tell_eq (handle succ x) (Z.of_nat y) t else t
  | _ => t
  end.

(** The loop over the values of the successor of the root, circuit_scc.cc:1003-1037. *)
Fixpoint each_subtree (o : scc_options) (succ : list var_id) (vs : list nat) (dt : scc_data) (t : tracker) : scc_data * tracker :=
  match vs with
  | [] => (dt, t)
  | v :: r =>
      if t_failed t then (dt, t)
      else if number dt v =? -1 then
        let '(dt1, t1, back) := explore (length succ) o succ v dt t in
        if t_failed t1 then (dt1, t1)
        else each_subtree o succ r (mk_data (dt_count dt1) (dt_low dt1) (dt_visit dt1) (dt_end dt1 + 1) (dt_count dt1 - 1)) (required_edge o succ back t1)
      else each_subtree o succ r dt t
  end.

(** The edges from the root that cannot be used, circuit_scc.cc:1048-1060. *)
Definition from_root (o : scc_options) (succ : list var_id) (dt : scc_data) (t : tracker) : tracker :=
  if prune_root o && (1 <? dt_start dt)
  then for_each (node_values succ (t_domains t) root)
         (fun v t => if number dt v <? dt_start dt then tell_ne (handle succ root) (Z.of_nat v) t else t) t
  else t.

(** check_sccs, circuit_scc.cc:998-1061. *)
Definition check_sccs (o : scc_options) (succ : list var_id) (t : tracker) : tracker :=
  let '(dt, t1) := each_subtree o succ (node_values succ (t_domains t) root) (initial_data (length succ)) t in
  if t_failed t1 then t1
  else if dt_count dt =? Z.of_nat (length succ) then from_root o succ dt t1 else tell_false t1.

(** What following fixed successors comes to: back to where it began, or to a node
    whose successor is not fixed, after so many steps. *)
Inductive walked : Type := Closed | Ended (last : nat) (length : nat).

(** The do loop in prevent_small_cycles, circuit_base.cc:90-99. [None] if it has not
    ended after [fuel] steps. *)
Fixpoint walk (fuel : nat) (succ : list var_id) (d : domains) (j0 j len : nat) : option walked :=
  match fuel with
  | O => None
  | S fuel' =>
      match single_node succ d j with
      | None => Some (Ended j len)
      | Some j' => if Nat.eqb j' j0 then Some Closed else walk fuel' succ d j0 j' (S len)
      end
  end.

(** A chain of fixed successors: where it starts, where it ends, how long it is. *)
Definition chain_found : Type := nat * nat * nat.

(** The loop over the values of the unassigned successors, circuit_base.cc:84-105. The
    last chain found comes first. [None] if a walk has not ended, [Some None] on a
    contradiction. *)
Fixpoint gather (fuel : nat) (succ : list var_id) (d : domains) (vals : list nat) (found : list chain_found) : option (option (list chain_found)) :=
  match vals with
  | [] => Some (Some found)
  | j0 :: r =>
      match single_node succ d j0 with
      | Some _ =>
          if existsb (fun '(i, _, _) => Nat.eqb i j0) found then gather fuel succ d r found
          else
            match walk fuel succ d j0 j0 O with
            | None => None
            | Some Closed => Some None
            | Some (Ended e len) => gather fuel succ d r ((j0, e, len) :: found)
            end
      | None => gather fuel succ d r found
      end
  end.

(** The loop over the chains, circuit_base.cc:107-121. *)
Definition close_chain (succ : list var_id) (c : chain_found) (t : tracker) : tracker :=
  let '(i, e, len) := c in
  if (len <? length succ - 1)%nat then tell_ne (handle succ e) (Z.of_nat i) t else tell_eq (handle succ e) (Z.of_nat i) t.

(** prevent_small_cycles, circuit_base.cc:74-122. *)
Definition small_cycles (fuel : nat) (succ : list var_id) (unassigned : list nat) (t : tracker) : option tracker :=
  match gather fuel succ (t_domains t) (flat_map (node_values succ (t_domains t)) unassigned) [] with
  | None => None
  | Some None => Some (tell_false t)
  | Some (Some found) => Some (for_each found (close_chain succ) t)
  end.

(** propagate_circuit_using_scc, circuit_scc.cc:1064-1084. [None] if a walk has not
    ended after [fuel] steps. *)
Definition scc_run (fuel : nat) (o : scc_options) (succ : list var_id) (d : domains) (unassigned : list nat) : option (list nat * tracker) :=
  let '(u1, t1) := continue_different succ unassigned (track d) in
  if t_failed t1 then Some (u1, t1)
  else
    let t2 := check_sccs o succ t1 in
    if t_failed t2 then Some (u1, t2)
    else
      let u2 := fst (collect (length u1) (t_domains t2) succ [] u1 []) in
      match small_cycles fuel succ u2 t2 with
      | None => None
      | Some t3 => Some (u2, t3)
      end.

(** circuit_scc.cc:1105-1127. Simplification: a run that does not return is one that
    infers nothing. With no_pruning there is none. *)
Definition scc_body (o : scc_options) (succ : list var_id) : state_body := fun d s m =>
  match scc_run (S (length succ)) o succ d (map Z.to_nat s) with
  | Some (u, t) => mk_effect t (map Z.of_nat u) m Enable
  | None => mk_effect (track d) s m Enable
  end.

(** Circuit{succ}, circuit.cc:49-60, 122-159 and 217-237, and install_circuit_scc,
    circuit_scc.cc:1094-1128. *)
Definition circuit_scc (o : scc_options) (succ : list var_id) : option installer :=
  if repeats_variable succ then None
  else Some (fun d cs =>
    mk_installation [] [map Z.of_nat (seq 0 (length succ))]
      (self_loop_propagators succ ++ [state_propagator (length cs) (scc_body o succ) succ [] []])
      (map (fun i => (O, i)) (node_bounds succ d))).
