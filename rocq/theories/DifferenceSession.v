(** Model of what the difference logic propagator remembers from call to call,
    gcs/constraints/difference/difference_graph.cc:70-165, 868-1085 and 1253-1370. The arrays
    that are rebuilt in each call are not part of the memory. Neither the proofs, nor the
    static bounds, nor the route without incrementality are modelled, nor the audit, which
    does nothing unless it throws. *)
From Coq Require Import ZArith List Bool.
From Verif Require Import Difference.
Import ListNotations.
Local Open Scope Z_scope.

(** DifferenceTrailEntry, difference_graph.cc:73-89. *)
Inductive entry : Type := LowerGate (v : nat) (z : Z) | UpperGate (v : nat) (z : Z) | Activation (e : nat) (b : bool).

(** DifferencePropagatorMemory, difference_graph.cc:118-159. The back of the trail is the
    head of the list. *)
Record memory : Type := mk_memory {
  m_potential : nat -> Z; m_neg_potential : nat -> Z; m_do_lb : nat -> Z; m_do_ub_neg : nat -> Z; m_was_active : list bool; m_trail : list entry;
  m_repair : repair_work; m_bounds : bounds_work }.

Fixpoint replace (l : list bool) (e : nat) (b : bool) : list bool :=
  match l, e with
  | [], _ => []
  | _ :: r, O => b :: r
  | x :: r, S e => x :: replace r e b
  end.

(** The body of the loop that unwinds the trail, difference_graph.cc:1326-1333. *)
Definition undo (en : entry) (rest : list entry) (m : memory) : memory :=
  match en with
  | LowerGate v z => mk_memory (m_potential m) (m_neg_potential m) (set (m_do_lb m) v z) (m_do_ub_neg m) (m_was_active m) rest (m_repair m) (m_bounds m)
  | UpperGate v z => mk_memory (m_potential m) (m_neg_potential m) (m_do_lb m) (set (m_do_ub_neg m) v z) (m_was_active m) rest (m_repair m) (m_bounds m)
  | Activation e b => mk_memory (m_potential m) (m_neg_potential m) (m_do_lb m) (m_do_ub_neg m) (replace (m_was_active m) e b) rest (m_repair m) (m_bounds m)
  end.

Fixpoint unwind (count : nat) (m : memory) : memory :=
  match count with
  | O => m
  | S k => match m_trail m with [] => m | en :: rest => unwind k (undo en rest m) end
  end.

(** The loop, difference_graph.cc:1323-1335. *)
Definition unwind_to (mark : nat) (m : memory) : memory := unwind (length (m_trail m) - mark) m.

(** The arcs whose activity is not what was recorded, difference_graph.cc:1350-1359. *)
Definition changed_arcs (arcs : list arc) (flags was : list bool) : list nat :=
  match flags with [] => [] | _ => filter (fun e => negb (Bool.eqb (nth e flags false) (nth e was false))) (seq 0 (length arcs)) end.

Inductive changing : Type := Going (m : memory) (forced_lb forced_ub : nat -> bool) (moved : bool) | Cycle (m : memory) | Stuck.

(** One of these arcs, difference_graph.cc:934-962. *)
Definition change_arc (arcs : list arc) (flags : list bool) (st : changing) (e : nat) : changing :=
  match st with
  | Going m fl fu moved =>
      if nth e flags false then
        let was := replace (m_was_active m) e true in
        let trail := Activation e false :: m_trail m in
        match repair_potential arcs was (m_potential m) e (m_repair m) with
        | Some (ok, p, w) =>
            let m' := mk_memory p (m_neg_potential m) (m_do_lb m) (m_do_ub_neg m) was trail w (m_bounds m) in
            if ok then Going m' (set fl (a_from (arc_at arcs e)) true) (set fu (a_to (arc_at arcs e)) true) true else Cycle m'
        | None => Stuck
        end
      else
        Going (mk_memory (m_potential m) (m_neg_potential m) (m_do_lb m) (m_do_ub_neg m) (replace (m_was_active m) e false) (Activation e true :: m_trail m) (m_repair m) (m_bounds m)) fl fu moved
  | other => other
  end.

(** The record of a pass and its trail, difference_graph.cc:1011-1015 and 1051-1055. *)
Definition raise_gates (kind : nat -> Z -> entry) (w : bounds_work) (gate : nat -> Z) (trail : list entry) : (nat -> Z) * list entry :=
  fold_left (fun '(g, t) v => if g v <? b_settled_bound w v then (set g v (b_settled_bound w v), kind v (g v) :: t) else (g, t)) (b_settle_order w) (gate, trail).

(** What a call ends with: inferences, lower bounds and negated upper bounds, or a
    contradiction, which leaves the memory as it is at the time. *)
Inductive outcome : Type := Woke (m : memory) (lower upper : list (nat * Z)) | NegativeCycle (m : memory) | Emptied (m : memory) | Broken.

(** The two passes, difference_graph.cc:999-1055. Whether an inference empties a domain is
    not for this code to say; [cut] says in which pass one does, if any. *)
Definition passes (n : nat) (arcs : list arc) (flags : list bool) (lb ub_neg : nat -> Z) (forced_lb forced_ub : nat -> bool) (cut : option bool) (m : memory) : outcome :=
  match incremental_bounds n true arcs flags (m_potential m) lb (m_do_lb m) forced_lb (m_bounds m) with
  | Finished w1 =>
      match cut with
      | Some true => Emptied (mk_memory (m_potential m) (m_neg_potential m) (m_do_lb m) (m_do_ub_neg m) (m_was_active m) (m_trail m) (m_repair m) w1)
      | _ =>
          let '(do_lb, trail1) := raise_gates LowerGate w1 (m_do_lb m) (m_trail m) in
          match incremental_bounds n false arcs flags (m_neg_potential m) ub_neg (m_do_ub_neg m) forced_ub w1 with
          | Finished w2 =>
              match cut with
              | Some false => Emptied (mk_memory (m_potential m) (m_neg_potential m) do_lb (m_do_ub_neg m) (m_was_active m) trail1 (m_repair m) w2)
              | _ =>
                  let '(do_ub, trail2) := raise_gates UpperGate w2 (m_do_ub_neg m) trail1 in
                  Woke (mk_memory (m_potential m) (m_neg_potential m) do_lb do_ub (m_was_active m) trail2 (m_repair m) w2) (inferred w1 lb) (inferred w2 ub_neg)
              end
          | _ => Broken
          end
      end
  | _ => Broken
  end.

(** The first call, difference_graph.cc:870-917 and 994-997. *)
Definition first_wake (n : nat) (arcs : list arc) (flags : list bool) (lb ub_neg : nat -> Z) (cut : option bool) (m : memory) : outcome :=
  match initial_potential n arcs flags with
  | Some p => passes n arcs flags lb ub_neg (fun _ => true) (fun _ => true) cut (mk_memory p (fun v => - p v) lb ub_neg flags (m_trail m) (m_repair m) (m_bounds m))
  | None => NegativeCycle m
  end.

(** Any other call, difference_graph.cc:1323-1370 and 904-1085. *)
Definition wake (n : nat) (arcs : list arc) (flags : list bool) (lb ub_neg : nat -> Z) (mark : nat) (cut : option bool) (m : memory) : outcome :=
  let m0 := unwind_to mark m in
  match fold_left (change_arc arcs flags) (changed_arcs arcs flags (m_was_active m0)) (Going m0 (fun _ => false) (fun _ => false) false) with
  | Going m1 forced_lb forced_ub moved =>
      let m2 := if moved then mk_memory (m_potential m1) (fun v => - m_potential m1 v) (m_do_lb m1) (m_do_ub_neg m1) (m_was_active m1) (m_trail m1) (m_repair m1) (m_bounds m1) else m1 in
      passes n arcs flags lb ub_neg forced_lb forced_ub cut m2
  | Cycle m1 => NegativeCycle m1
  | Stuck => Broken
  end.
