(** Circuit with the algorithm that prevents short cycles.

    Models gcs/constraints/circuit/circuit.cc and circuit_prevent.cc. The algorithm
    with strongly connected components is in CircuitScc. Not modelled: the proof
    encoding, and with_gac_all_different, which installs an AllDifferent as well. *)
From Coq Require Import ZArith List Bool Arith.
From Verif Require Import IntervalSet Vars State Epochs Engine Tracker Solve Stateful AllDifferent Element Inverse.
Import ListNotations.
Local Open Scope Z_scope.

(** PreventChainData, gcs/constraints/circuit/circuit_prevent.hh:35-41, without
    [unspliced]. *)
Record chains : Type := mk_chains { ch_orig : list nat; ch_dest : list nat; ch_len : list nat }.

(** An element of an array. *)
Definition at_node (l : list nat) (i : nat) : nat := nth i l O.

Definition single_valued (d : domains) (v : var_id) : bool :=
  match optional_single_value d v with Some _ => true | None => false end.

(** One newly fixed edge from [i] to [j], circuit_prevent.cc:57-88. The boolean is
    fixed_a_successor. *)
Definition splice (succ : list var_id) (i j : nat) (c : chains) (t : tracker) : chains * tracker * bool :=
  let n := length succ in
  let o := at_node (ch_orig c) i in
  if Nat.eqb j o then
    (c, if (at_node (ch_len c) o + 1 <? n)%nat then tell_false t else t, false)
  else
    let d := at_node (ch_dest c) j in
    let new_len := (at_node (ch_len c) o + 1 + at_node (ch_len c) j)%nat in
    let c' := mk_chains (set_nth (ch_orig c) d o) (set_nth (ch_dest c) o d) (set_nth (ch_len c) o new_len) in
    if (new_len <? n - 1)%nat then
      let t' := tell_ne (handle succ d) (Z.of_nat o) t in (c', t', single_valued (t_domains t') (handle succ d))
    else (c', tell_eq (handle succ d) (Z.of_nat o) t, true).

(** What the pass over the unspliced nodes leaves: those nodes, the chains, the
    tracker, whether a successor was fixed, and whether there was progress. *)
Record spliced : Type := mk_spliced
  { sp_nodes : list nat; sp_chains : chains; sp_tracker : tracker; sp_fixed : bool; sp_progress : bool }.

(** The loop over the unspliced nodes, circuit_prevent.cc:41-89. [kept] are those
    before index k, reversed, [rest] those from it on. A contradiction ends it. *)
Fixpoint splice_pass (fuel : nat) (succ : list var_id) (kept rest : list nat) (c : chains) (t : tracker) (fx pr : bool) : spliced :=
  match fuel, rest with
  | S fuel', i :: r =>
      if t_failed t then mk_spliced (rev kept ++ rest) c t fx pr
      else
        match optional_single_value (t_domains t) (handle succ i) with
        | None => splice_pass fuel' succ (i :: kept) r c t fx pr
        | Some x =>
            let '(c', t', f) := splice succ i (Z.to_nat x) c t in
            splice_pass fuel' succ kept (swap_pop r) c' t' (fx || f) true
        end
  | _, _ => mk_spliced (rev kept ++ rest) c t fx pr
  end.

(** while (progress), circuit_prevent.cc:38-92. Every round with progress takes a
    node out of [nodes], so [fuel] above their number is enough. *)
Fixpoint splice_all (fuel : nat) (succ : list var_id) (nodes : list nat) (c : chains) (t : tracker) (fx : bool) : list nat * chains * tracker * bool :=
  match fuel with
  | O => (nodes, c, t, fx)
  | S fuel' =>
      let s := splice_pass (length nodes) succ [] nodes c t fx false in
      if negb (t_failed (sp_tracker s)) && sp_progress s
      then splice_all fuel' succ (sp_nodes s) (sp_chains s) (sp_tracker s) (sp_fixed s)
      else (sp_nodes s, sp_chains s, sp_tracker s, sp_fixed s)
  end.

(** propagate_circuit_using_prevent, circuit_prevent.cc:97-116. A round that goes on
    took a node out of [nodes]. *)
Fixpoint alternate (fuel : nat) (succ : list var_id) (unassigned nodes : list nat) (c : chains) (t : tracker) : list nat * list nat * chains * tracker :=
  match fuel with
  | O => (unassigned, nodes, c, t)
  | S fuel' =>
      let '(unassigned', t1) := continue_different succ unassigned t in
      if t_failed t1 then (unassigned', nodes, c, t1)
      else
        let '(nodes', c', t2, fx) := splice_all (S (length nodes)) succ nodes c t1 false in
        if negb (t_failed t2) && fx then alternate fuel' succ unassigned' nodes' c' t2 else (unassigned', nodes', c', t2)
  end.

(** The constraint states. Simplification: the two that the code allocates, the
    unassigned successors and the chains, are one after the other in one. *)
Definition pack (unassigned nodes : list nat) (c : chains) : cstate :=
  map Z.of_nat (ch_orig c ++ ch_dest c ++ ch_len c ++ length nodes :: nodes ++ unassigned).

Definition unpack (n : nat) (s : cstate) : list nat * list nat * chains :=
  let l := map Z.to_nat s in
  let l1 := skipn n l in
  let l2 := skipn n l1 in
  let l3 := skipn n l2 in
  let m := nth O l3 O in
  let l4 := skipn 1 l3 in
  (skipn m l4, firstn m l4, mk_chains (firstn n l) (firstn n l1) (firstn n l2)).

(** circuit_prevent.cc:150-167. *)
Definition prevent_body (succ : list var_id) : state_body := fun d s m =>
  let '(unassigned, nodes, c) := unpack (length succ) s in
  let '(unassigned', nodes', c', t) := alternate (S (length nodes)) succ unassigned nodes c (track d) in
  mk_effect t (pack unassigned' nodes' c') m (if t_failed t then Enable else EnableButIdempotent).

(** make_prevent_chain_data, circuit_prevent.cc:126-139. *)
Definition initial_chains (n : nat) : chains := mk_chains (seq 0 n) (seq 0 n) (repeat O n).

(** The bounds, circuit.cc:124-130. *)
Definition node_bounds (succ : list var_id) (d : domains) : list initialiser :=
  flat_map (fun v => define_lower d v 0) succ ++ flat_map (fun v => define_upper d v (Z.of_nat (length succ) - 1)) succ.

(** No node is its own successor, circuit.cc:219-232. *)
Definition no_self_loops (succ : list var_id) : body := fun d =>
  (for_each (combine (seq 0 (length succ)) succ) (fun '(i, v) t => tell_ne v (Z.of_nat i) t) (track d), DisableUntilBacktrack).

Definition self_loop_propagators (succ : list var_id) : list propagator :=
  if (1 <? length succ)%nat then [body_propagator (no_self_loops succ) [] [] []] else [].

(** Circuit{succ}.with_algorithm(circuit::Prevent{}), circuit.cc:49-60, 122-159 and
    217-237, and install_circuit_prevent, circuit_prevent.cc:141-167. [None] is an
    exception from the constructor. *)
Definition circuit_prevent (succ : list var_id) : option installer :=
  if repeats_variable succ then None
  else Some (fun d cs =>
    let n := length succ in
    mk_installation [] [pack (seq 0 n) (seq 0 n) (initial_chains n)]
      (self_loop_propagators succ ++ [state_propagator (length cs) (prevent_body succ) [] [] succ])
      (map (fun i => (O, i)) (node_bounds succ d))).
