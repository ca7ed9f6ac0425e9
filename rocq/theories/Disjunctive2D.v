(** Disjunctive2D. *)
From Coq Require Import ZArith List Bool Arith.
From Verif Require Import IntervalSet Vars State Epochs Engine Tracker AllDifferent Passes.
Import ListNotations.
Local Open Scope Z_scope.

(** Where something must be by the latest, and must still be, mand in
    gcs/constraints/disjunctive_2d/disjunctive_2d.cc:299-301. *)
Definition mandatory (d : domains) (pos size : list var_id) (i : nat) : Z * Z :=
  (upper_bound d (handle pos i), lower_bound d (handle pos i) + lower_bound d (handle size i)).

Definition mandatory_meet (m1 m2 : Z * Z) : bool := Z.max (fst m1) (fst m2) <? Z.min (snd m1) (snd m2).

Definition nothing_mandatory (m : Z * Z) : bool := snd m <=? fst m.

(** Each item with each later one, as in the two nested loops. *)
Fixpoint with_later (l : list nat) : list (nat * nat) :=
  match l with [] => [] | x :: r => map (pair x) r ++ with_later r end.

(** The contradiction, disjunctive_2d.cc:303-346. Simplification: both mandatory parts are
    tested in the inner loop. *)
Definition overlap_fails (xs ys ws hs : list var_id) (ij : nat * nat) (rest : prog) : prog :=
  Look (fun d =>
    let '(i, j) := ij in
    let xi := mandatory d xs ws i in
    let yi := mandatory d ys hs i in
    let xj := mandatory d xs ws j in
    let yj := mandatory d ys hs j in
    if nothing_mandatory xi || nothing_mandatory yi || nothing_mandatory xj || nothing_mandatory yj then rest
    else infer_when (mandatory_meet xi xj && mandatory_meet yi yj) LFalse rest).

(** push_axis, disjunctive_2d.cc:364-440, for the positions and sizes on the free axis:
    [i] is pushed, [j] blocks. *)
Definition push_axis (pos size : list var_id) (i j : nat) (rest : prog) : prog :=
  Look (fun d =>
    let sz := lower_bound d (handle size i) in
    let '(cur_lo, cur_hi) := bounds d (handle pos i) in
    let blk_lo := upper_bound d (handle pos j) in
    let blk_hi := lower_bound d (handle pos j) + lower_bound d (handle size j) in
    if (sz =? 0) || (blk_hi <=? blk_lo) then rest
    else if (blk_lo - sz <? cur_lo) && (cur_lo <? blk_hi) then Infer (LCond (cond_ge (handle pos i) (Z.min blk_hi (cur_hi + 1)))) rest
    else if (blk_lo - sz <? cur_hi) && (cur_hi <? blk_hi) then Infer (LCond (cond_lt (handle pos i) (Z.max (blk_lo - sz) (cur_lo - 1) + 1))) rest
    else rest).

(** The pushes for a pair, disjunctive_2d.cc:442-463. *)
Definition push_pair (xs ys ws hs : list var_id) (ij : nat * nat) (rest : prog) : prog :=
  Look (fun d =>
    let '(i, j) := ij in
    let x_overlap := mandatory_meet (mandatory d xs ws i) (mandatory d xs ws j) in
    let y_overlap := mandatory_meet (mandatory d ys hs i) (mandatory d ys hs j) in
    let push_x r := if y_overlap then push_axis xs ws i j (push_axis xs ws j i r) else r in
    if x_overlap then push_axis ys hs i j (push_axis ys hs j i (push_x rest)) else push_x rest).

(** Whether all of a rectangle is fixed, disjunctive_2d.cc:473-476. *)
Definition all_fixed (xs ys ws hs : list var_id) (d : domains) (i : nat) : bool :=
  has_single_value d (handle xs i) && has_single_value d (handle ys i) && has_single_value d (handle ws i) && has_single_value d (handle hs i).

(** Rectangles without an area that are inside another, disjunctive_2d.cc:465-499. *)
Definition inside_fails (strict : bool) (xs ys ws hs : list var_id) (active : list nat) (i : nat) : prog -> prog :=
  sequence active (fun j rest => Look (fun d =>
    let w k := lower_bound d (handle ws k) in
    let h k := lower_bound d (handle hs k) in
    let x k := lower_bound d (handle xs k) in
    let y k := lower_bound d (handle ys k) in
    if negb (all_fixed xs ys ws hs d i) || negb (strict && ((w i =? 0) || (h i =? 0))) then rest
    else if Nat.eqb j i || negb (all_fixed xs ys ws hs d j) then rest
    else infer_when (negb ((x i + w i <=? x j) || (x j + w j <=? x i) || (y i + h i <=? y j) || (y j + h j <=? y i))) LFalse rest)).

(** The propagation function, disjunctive_2d.cc:226-502. Simplification: after a
    contradiction the code returns DisableUntilBacktrack. *)
Definition rectangles_pass (strict : bool) (xs ys ws hs : list var_id) (active : list nat) : prog :=
  sequence (with_later active) (overlap_fails xs ys ws hs)
    (sequence (with_later active) (push_pair xs ys ws hs)
      (sequence active (inside_fails strict xs ys ws hs active) Stop)).

(** The rectangles that take part, disjunctive_2d.cc:106-115. *)
Definition active_rectangles (strict : bool) (ws hs : list var_id) (n : nat) (d : domains) : list nat :=
  filter (fun i => negb (negb strict && ((upper_bound d (handle ws i) =? 0) || (upper_bound d (handle hs i) =? 0)))) (seq 0 n).

(** The sizes that wake the propagator, disjunctive_2d.cc:216-221. *)
Definition if_variable (v : var_id) : list var_id := match v with VConst _ => [] | _ => [v] end.

(** Disjunctive2D{xs, ys, widths, heights}.with_strict(strict), disjunctive_2d.cc:37-50 and
    70-138, and install_propagators, lines 210-504. Simplification: prepare throws if the
    lower bound of a size is negative (lines 83-88); the model goes on. *)
Definition disjunctive_2d (strict : bool) (xs ys ws hs : list var_id) : option constraint :=
  let n := length xs in
  if negb (Nat.eqb n (length ys) && Nat.eqb n (length ws) && Nat.eqb n (length hs)) then None
  else if existsb (fun v => match v with VConst c => c <? 0 | _ => false end) (ws ++ hs) then None
  else Some (fun d =>
    let active := active_rectangles strict ws hs n d in
    if (length active <? 2)%nat then ([], [])
    else ([body_propagator (once (rectangles_pass strict xs ys ws hs active)) []
             (flat_map (fun i => [handle xs i; handle ys i] ++ if_variable (handle ws i) ++ if_variable (handle hs i)) active) []], [])).
