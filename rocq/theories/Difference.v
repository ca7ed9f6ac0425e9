(** Model of the incremental algorithms of the difference logic propagator,
    gcs/constraints/difference/difference_incremental.{hh,cc}. An array that is indexed by
    nodes is a function. A heap that is kept with std::greater is a list from which the
    least element is taken. *)
From Coq Require Import ZArith List Bool.
Import ListNotations.
Local Open Scope Z_scope.

(** DifferenceArc, difference_incremental.hh:30-36, without posted_index, which is only for
    the proof. *)
Record arc : Type := mk_arc { a_from : nat; a_to : nat; a_d : Z }.

Definition arc_at (arcs : list arc) (e : nat) : arc := nth e arcs (mk_arc 0 0 0).

(** difference_arc_is_active, difference_incremental.hh:113-116. *)
Definition arc_active (active : list bool) (e : nat) : bool := match active with [] => true | _ => nth e active false end.

(** The ends of an arc, in the direction in which bounds flow, difference_incremental.cc:36
    and 257. *)
Definition near (by_tail : bool) (a : arc) : nat := if by_tail then a_from a else a_to a.
Definition far (by_tail : bool) (a : arc) : nat := if by_tail then a_to a else a_from a.

(** build_difference_adjacency, difference_incremental.cc:29-48: the arcs of a node, in
    increasing order. The two arrays that it returns are not modelled, only what the range
    of a node holds. *)
Definition adjacent (by_tail : bool) (arcs : list arc) (v : nat) : list nat :=
  filter (fun e => Nat.eqb (near by_tail (arc_at arcs e)) v) (seq 0 (length arcs)).

Definition set {X : Type} (f : nat -> X) (v : nat) (x : X) : nat -> X := fun w => if Nat.eqb w v then x else f w.

(** pop_heap and pop_back: the least pair, and the others. *)
Definition before (p q : Z * nat) : bool := (fst p <? fst q) || ((fst p =? fst q) && Nat.leb (snd p) (snd q)).

Fixpoint pop_least (p : Z * nat) (l : list (Z * nat)) : (Z * nat) * list (Z * nat) :=
  match l with
  | [] => (p, [])
  | q :: r => let '(m, rest) := pop_least q r in if before p m then (p, q :: r) else (m, p :: rest)
  end.

(** ** The initial potential *)

(** difference_initial_potential, difference_incremental.cc:50-81. *)
Definition relax_arc (arcs : list arc) (active : list bool) (st : (nat -> Z) * bool) (e : nat) : (nat -> Z) * bool :=
  let '(h, changed) := st in
  if arc_active active e then
    let a := arc_at arcs e in
    let candidate := h (a_from a) + a_d a in
    if candidate <? h (a_to a) then (set h (a_to a) candidate, true) else (h, changed)
  else (h, changed).

Definition relax_round (arcs : list arc) (active : list bool) (h : nat -> Z) : (nat -> Z) * bool :=
  fold_left (relax_arc arcs active) (seq 0 (length arcs)) (h, false).

Fixpoint relax_rounds (rounds : nat) (arcs : list arc) (active : list bool) (h : nat -> Z) : option (nat -> Z) :=
  match rounds with
  | O => None
  | S k => let '(h', changed) := relax_round arcs active h in if changed then relax_rounds k arcs active h' else Some h'
  end.

Definition initial_potential (n : nat) (arcs : list arc) (active : list bool) : option (nat -> Z) :=
  relax_rounds (S n) arcs active (fun _ => 0).

(** difference_invalid_potential_arc, difference_incremental.cc:83-90. *)
Definition invalid_arc (arcs : list arc) (active : list bool) (p : nat -> Z) : option nat :=
  find (fun e => arc_active active e && (p (a_from (arc_at arcs e)) + a_d (arc_at arcs e) - p (a_to (arc_at arcs e)) <? 0)) (seq 0 (length arcs)).

(** ** The repair of a potential *)

(** DifferencePotentialWorkspace, difference_incremental.hh:166-173. *)
Record repair_work : Type := mk_repair {
  r_gamma : nat -> Z; r_updated : nat -> Z; r_is_updated : nat -> bool; r_touched : list nat; r_heap : list (Z * nat) }.

(** An arc out of [here], difference_incremental.cc:139-158. *)
Definition repair_arc (arcs : list arc) (active : list bool) (p : nat -> Z) (here : nat) (w : repair_work) (e : nat) : repair_work :=
  if arc_active active e then
    let next := a_to (arc_at arcs e) in
    if r_is_updated w next then w
    else
      let candidate := r_updated w here + a_d (arc_at arcs e) - p next in
      if candidate <? r_gamma w next then
        mk_repair (set (r_gamma w) next candidate) (r_updated w) (r_is_updated w)
          (if r_gamma w next =? 0 then r_touched w ++ [next] else r_touched w) ((candidate, next) :: r_heap w)
      else w
  else w.

(** The loop, difference_incremental.cc:118-159, with fuel; None if there is not enough. *)
Fixpoint repair_loop (fuel : nat) (arcs : list arc) (active : list bool) (p : nat -> Z) (source : nat) (w : repair_work) : option (bool * repair_work) :=
  match fuel with
  | O => None
  | S f =>
      match r_heap w with
      | [] => Some (true, w)
      | q :: r =>
          if r_gamma w source <? 0 then Some (false, w)
          else
            let '((gamma_here, here), rest) := pop_least q r in
            let w1 := mk_repair (r_gamma w) (r_updated w) (r_is_updated w) (r_touched w) rest in
            if negb (gamma_here =? r_gamma w here) then repair_loop f arcs active p source w1
            else
              let w2 := mk_repair (set (r_gamma w) here 0) (set (r_updated w) here (p here + gamma_here)) (set (r_is_updated w) here true) (r_touched w) rest in
              repair_loop f arcs active p source (fold_left (repair_arc arcs active p here) (adjacent true arcs here) w2)
      end
  end.

(** difference_repair_potential, difference_incremental.cc:92-180: whether there is a
    potential, what it is, and what is left in the workspace. *)
Definition repair_potential (arcs : list arc) (active : list bool) (p : nat -> Z) (added : nat) (w : repair_work) : option (bool * (nat -> Z) * repair_work) :=
  let source := a_from (arc_at arcs added) in
  let target := a_to (arc_at arcs added) in
  let initial := p source + a_d (arc_at arcs added) - p target in
  if initial <? 0 then
    let w0 := mk_repair (set (r_gamma w) target initial) (r_updated w) (r_is_updated w) [target] [(initial, target)] in
    match repair_loop (S (S (length arcs))) arcs active p source w0 with
    | None => None
    | Some (going, w1) =>
        let result := if going && (r_gamma w1 source <? 0) then false else going in
        let p' := if result then fold_left (fun p v => if r_is_updated w1 v then set p v (r_updated w1 v) else p) (r_touched w1) p else p in
        Some (result, p', mk_repair (fold_left (fun g v => set g v 0) (r_touched w1) (r_gamma w1)) (r_updated w1)
          (fold_left (fun u v => set u v false) (r_touched w1) (r_is_updated w1)) (r_touched w1) (r_heap w1))
    end
  else Some (true, p, mk_repair (r_gamma w) (r_updated w) (r_is_updated w) [] []).

(** ** Bounds *)

(** DifferenceBoundsWorkspace, difference_incremental.hh:217-227. *)
Record bounds_work : Type := mk_bounds {
  b_gamma : nat -> Z; b_queued : nat -> bool; b_settled : nat -> bool; b_has_predecessor : nat -> bool; b_predecessor : nat -> nat;
  b_settled_bound : nat -> Z; b_settle_order : list nat; b_heap : list (Z * nat) }.

Inductive result (X : Type) : Type := Finished (x : X) | Threw | NoFuel.
Arguments Finished {X} x.
Arguments Threw {X}.
Arguments NoFuel {X}.

(** An arc out of [here], difference_incremental.cc:252-286. *)
Definition bounds_arc (by_tail : bool) (arcs : list arc) (active : list bool) (p : nat -> Z) (gamma_here : Z) (here : nat) (st : result bounds_work) (e : nat) : result bounds_work :=
  match st with
  | Finished w =>
      if arc_active active e then
        let next := far by_tail (arc_at arcs e) in
        if b_settled w next then Finished w
        else
          let reduced := p here + a_d (arc_at arcs e) - p next in
          if reduced <? 0 then Threw
          else
            let candidate := gamma_here + reduced in
            if negb (b_queued w next) || (candidate <? b_gamma w next) then
              Finished (mk_bounds (set (b_gamma w) next candidate) (set (b_queued w) next true) (b_settled w) (set (b_has_predecessor w) next true) (set (b_predecessor w) next e)
                (b_settled_bound w) (b_settle_order w) ((candidate, next) :: b_heap w))
            else Finished w
      else Finished w
  | other => other
  end.

(** The loop, difference_incremental.cc:226-287, with fuel. *)
Fixpoint bounds_loop (fuel : nat) (by_tail : bool) (arcs : list arc) (active : list bool) (p : nat -> Z) (gate : nat -> Z) (forced : nat -> bool) (pi_v0 : Z) (w : bounds_work) : result bounds_work :=
  match fuel with
  | O => NoFuel
  | S f =>
      match b_heap w with
      | [] => Finished w
      | q :: r =>
          let '((gamma_here, here), rest) := pop_least q r in
          if b_settled w here || negb (gamma_here =? b_gamma w here) then
            bounds_loop f by_tail arcs active p gate forced pi_v0 (mk_bounds (b_gamma w) (b_queued w) (b_settled w) (b_has_predecessor w) (b_predecessor w) (b_settled_bound w) (b_settle_order w) rest)
          else
            let bound_here := pi_v0 - gamma_here - p here in
            let w1 := mk_bounds (b_gamma w) (b_queued w) (set (b_settled w) here true) (b_has_predecessor w) (b_predecessor w)
              (set (b_settled_bound w) here bound_here) (b_settle_order w ++ [here]) rest in
            if negb ((gate here <? bound_here) || forced here) then bounds_loop f by_tail arcs active p gate forced pi_v0 w1
            else
              match fold_left (bounds_arc by_tail arcs active p gamma_here here) (adjacent by_tail arcs here) (Finished w1) with
              | Finished w2 => bounds_loop f by_tail arcs active p gate forced pi_v0 w2
              | other => other
              end
      end
  end.

(** The greatest of the starting nodes' keys, difference_incremental.cc:201-209. *)
Definition source_key (starts : list nat) (bound p : nat -> Z) : Z :=
  match starts with [] => 0 | v :: r => fold_left (fun m v => if m <? bound v + p v then bound v + p v else m) r (bound v + p v) end.

(** difference_incremental_bounds, difference_incremental.cc:182-295. *)
Definition incremental_bounds (n : nat) (by_tail : bool) (arcs : list arc) (active : list bool) (p bound gate : nat -> Z) (forced : nat -> bool) (w : bounds_work) : result bounds_work :=
  let starts := filter (fun v => (gate v <? bound v) || forced v) (seq 0 n) in
  let pi_v0 := source_key starts bound p in
  match starts with
  | [] => Finished (mk_bounds (b_gamma w) (b_queued w) (b_settled w) (b_has_predecessor w) (b_predecessor w) (b_settled_bound w) [] [])
  | _ =>
      let w0 := fold_left (fun w v =>
        mk_bounds (set (b_gamma w) v (pi_v0 - bound v - p v)) (set (b_queued w) v true) (b_settled w) (set (b_has_predecessor w) v false) (b_predecessor w)
          (b_settled_bound w) (b_settle_order w) ((pi_v0 - bound v - p v, v) :: b_heap w)) starts
        (mk_bounds (b_gamma w) (b_queued w) (b_settled w) (b_has_predecessor w) (b_predecessor w) (b_settled_bound w) [] []) in
      match bounds_loop (S (n + length arcs)) by_tail arcs active p gate forced pi_v0 w0 with
      | Finished w1 =>
          Finished (mk_bounds (b_gamma w1) (fold_left (fun q v => set q v false) (b_settle_order w1) (b_queued w1)) (fold_left (fun q v => set q v false) (b_settle_order w1) (b_settled w1))
            (b_has_predecessor w1) (b_predecessor w1) (b_settled_bound w1) (b_settle_order w1) (b_heap w1))
      | other => other
      end
  end.

(** What the caller makes of it, difference_graph.cc:996-1016: the bounds that it infers, in
    order, and the gate for the next call. *)
Definition inferred (w : bounds_work) (bound : nat -> Z) : list (nat * Z) :=
  flat_map (fun v => if b_has_predecessor w v && (bound v <? b_settled_bound w v) then [(v, b_settled_bound w v)] else []) (b_settle_order w).

Definition next_gate (w : bounds_work) (gate : nat -> Z) : nat -> Z :=
  fold_left (fun g v => if g v <? b_settled_bound w v then set g v (b_settled_bound w v) else g) (b_settle_order w) gate.
