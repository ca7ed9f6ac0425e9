(** Sort. *)
From Coq Require Import ZArith List Bool Arith.
From Verif Require Import IntervalSet Vars State Epochs Engine Tracker AllDifferent Passes Scc.
Import ListNotations.
Local Open Scope Z_scope.

(** The running maximum from the left, and minimum from the right with [k] elements to
    come, gcs/constraints/sort/sort.cc:214-217. *)
Fixpoint highest_so_far (f : nat -> Z) (j : nat) : Z :=
  match j with O => f O | S k => Z.max (f j) (highest_so_far f k) end.

Fixpoint lowest_to_come (f : nat -> Z) (k : nat) (j : nat) : Z :=
  match k with O => f j | S k' => Z.min (f j) (lowest_to_come f k' (S j)) end.

(** The first position with the property, or [n]. Simplification: std::lower_bound and
    std::upper_bound look by bisection, which is the same as the arrays are in order. *)
Definition first_position (n : nat) (p : nat -> bool) : nat :=
  match find p (seq 0 n) with Some j => j | None => n end.

(** find_band, sort.cc:269-280: the positions from [a] up to but not including [c], and
    those that have to go there if there are too many. An empty list means none. *)
Definition in_band (n : nat) (lo hi : nat -> nat) (ac : nat * nat) : list nat :=
  filter (fun i => Nat.leb (fst ac) (lo i) && Nat.leb (hi i) (snd ac)) (seq 0 n).

Definition all_bands (n : nat) : list (nat * nat) := flat_map (fun a => map (pair a) (seq a (S n - a))) (seq 0 (S n)).

Definition find_band (n : nat) (lo hi : nat -> nat) : list nat :=
  match find (fun ac => Nat.ltb (snd ac - fst ac) (length (in_band n lo hi ac))) (all_bands n) with
  | Some ac => in_band n lo hi ac
  | None => []
  end.

(** The top of a priority queue: the first in the order [before]. *)
Fixpoint top (before : nat -> nat -> bool) (is : list nat) : option nat :=
  match is with
  | [] => None
  | i :: r => match top before r with None => Some i | Some k => Some (if before k i then k else i) end
  end.

(** The sweeps, sort.cc:334-353 and 361-377. In the queue is what may enter at this
    position and has not been taken; a position takes the first of the queue, if it fits.
    The result is what the positions took, latest first. *)
Fixpoint sweep_positions (n : nat) (enters fits : nat -> nat -> bool) (before : nat -> nat -> bool) (js : list nat) (taken : list nat) : option (list nat) :=
  match js with
  | [] => Some taken
  | j :: r =>
      match top before (filter (fun i => enters i j && negb (existsb (Nat.eqb i) taken)) (seq 0 n)) with
      | None => None
      | Some i => if fits i j then sweep_positions n enters fits before r (i :: taken) else None
      end
  end.

Section Round.
Variable n : nat.
(** The bounds at the start, sort.cc:198-209. *)
Variable lx ux oly ouy : nat -> Z.
Variable vx vy : nat -> var_id.

(** The bounds in order, sort.cc:211-217. *)
Definition ly (j : nat) : Z := highest_so_far oly j.
Definition uy (j : nat) : Z := lowest_to_come ouy (n - 1 - j) j.

(** The positions something can be at, from [lo] up to but not including [hi],
    sort.cc:249-253. *)
Definition lo (i : nat) : nat := first_position n (fun j => lx i <=? uy j).
Definition hi (i : nat) : nat := first_position n (fun j => ux i <? ly j).

(** The orders of the queues, sort.cc:336 and 362: pairs of the bound and the number, least
    first and greatest first. *)
Definition least_first (k i : nat) : bool := (ux k <? ux i) || ((ux k =? ux i) && Nat.ltb k i).
Definition greatest_first (k i : nat) : bool := (lx i <? lx k) || ((lx i =? lx k) && Nat.ltb i k).

(** phi, sort.cc:330-353. *)
Definition down_sweep : option (list nat) :=
  option_map (@rev nat) (sweep_positions n (fun i j => lx i <=? uy j) (fun i j => ly j <=? ux i) least_first (seq 0 n) []).

(** phi2, sort.cc:355-377. *)
Definition up_sweep : option (list nat) :=
  sweep_positions n (fun i j => ly j <=? ux i) (fun i j => lx i <=? uy j) greatest_first (rev (seq 0 n)) [].

(** The graph, sort.cc:386-441: vertex [i] is an unsorted handle, and leads to the
    positions it can be at; vertex [n + j] is a position, and leads to what took it in the
    down sweep. Simplification: the components are found by [find_components], which keeps
    a stack of frames where the code recurses. *)
Definition sort_graph (phi : list nat) (v : nat) : list nat :=
  if Nat.ltb v n then map (fun j => (n + j)%nat) (seq (lo v) (hi v - lo v)) else [nth (v - n) phi 0%nat].

(** jl and jh, sort.cc:461-472: the first and last position in the component, if there is
    one. If not, the code would read past the end of ly. *)
Definition component_range (comp : nat -> nat) (i : nat) : option (nat * nat) :=
  match filter (fun j => Nat.eqb (comp (n + j)%nat) (comp i)) (seq (lo i) (hi i - lo i)) with
  | [] => None
  | j :: r => Some (j, last r j)
  end.

(** In what follows [None] is an UnexpectedException, or the read past the end. *)

(** nly, and y[j] >= L, sort.cc:383 and 488-625. *)
Definition raise_y (phi2 : list nat) (j : nat) : option (list literal) :=
  let x := lx (nth j phi2 0%nat) in
  let L := Z.max x (ly j) in
  if L <=? oly j then Some []
  else
    let l := LCond (cond_ge (vy j) L) in
    if (oly j <? ly j) && (x <=? ly j) then Some [l]
    else if Nat.leb (n - j) (length (filter (fun i => L <=? lx i) (seq 0 n))) then Some [l]
    else match find_band n (fun i => if L <=? lx i then Nat.max (lo i) (S j) else lo i) hi with [] => None | _ => Some [l] end.

(** nuy, and y[j] < U + 1, sort.cc:382 and 626-826. *)
Definition lower_y (phi : list nat) (j : nat) : option (list literal) :=
  let x := ux (nth j phi 0%nat) in
  let U := Z.min x (uy j) in
  if ouy j <=? U then Some []
  else
    let l := LCond (cond_lt (vy j) (U + 1)) in
    if (uy j <? ouy j) && (uy j <=? x) then Some [l]
    else if Nat.leb (S j) (length (filter (fun i => ux i <=? U) (seq 0 n))) then Some [l]
    else match find_band n lo (fun i => if ux i <=? U then Nat.min (hi i) j else hi i) with [] => None | _ => Some [l] end.

(** nlx, and x[i] >= L, sort.cc:473 and 828-902. *)
Definition raise_x (jl : nat) (i : nat) : option (list literal) :=
  let L := Z.max (lx i) (ly jl) in
  if L <=? lx i then Some []
  else
    let l := LCond (cond_ge (vx i) L) in
    if Nat.eqb jl (lo i) then Some [l]
    else if existsb (Nat.eqb i) (find_band n lo (put hi i jl)) then Some [l] else None.

(** nux, and x[i] < U + 1, sort.cc:474 and 903-978. *)
Definition lower_x (jh : nat) (i : nat) : option (list literal) :=
  let U := Z.min (ux i) (uy jh) in
  if ux i <=? U then Some []
  else
    let l := LCond (cond_lt (vx i) (U + 1)) in
    if Nat.eqb (S jh) (hi i) then Some [l]
    else if existsb (Nat.eqb i) (find_band n (put lo i (S jh)) hi) then Some [l] else None.

Definition then_do (a b : option (list literal)) : option (list literal) :=
  match a, b with Some l, Some m => Some (l ++ m) | _, _ => None end.

Definition each (f : nat -> option (list literal)) : option (list literal) :=
  fold_right (fun k r => then_do (f k) r) (Some []) (seq 0 n).

(** fail_hall, sort.cc:282-328. *)
Definition fail_hall : option (list literal) := match find_band n lo hi with [] => None | _ => Some [LFalse] end.

(** propagate_sortedness, sort.cc:188-981, without the proof: the inferences made, in
    order. Simplification: an exception is thrown before rather than between the
    inferences. *)
Definition sort_round : option (list literal) :=
  if existsb (fun j => uy j <? ly j) (seq 0 n) then Some [LFalse]
  else
    match down_sweep with
    | None => fail_hall
    | Some phi =>
        match up_sweep with
        | None => fail_hall
        | Some phi2 =>
            let comp := tj_component (find_components (sort_graph phi) (2 * n)) in
            then_do (each (fun j => then_do (raise_y phi2 j) (lower_y phi j)))
                    (each (fun i => match component_range comp i with None => None | Some (jl, jh) => then_do (raise_x jl i) (lower_x jh i) end))
        end
    end.
End Round.

Definition sort_inferences (xs ys : list var_id) (d : domains) : option (list literal) :=
  sort_round (length xs) (fun i => lower_bound d (handle xs i)) (fun i => upper_bound d (handle xs i))
             (fun j => lower_bound d (handle ys j)) (fun j => upper_bound d (handle ys j)) (handle xs) (handle ys).

(** The propagation function, sort.cc:1104-1113. If there is an exception the model does
    nothing more, see C59. *)
Definition sort_pass (xs ys : list var_id) : prog :=
  Look (fun d => match sort_inferences xs ys d with Some ls => sequence ls Infer Stop | None => Stop end).

(** Sort{xs, ys}, sort.cc:60-75 and 1116-1119, and install_sortedness_propagator, lines
    983-1114. The initialiser only writes to the proof. *)
Definition sort (xs ys : list var_id) : option constraint :=
  if negb (Nat.eqb (length xs) (length ys)) then None
  else Some (fun _ => match xs with [] => ([], []) | _ => ([body_propagator (once (sort_pass xs ys)) [] (xs ++ ys) []], []) end).
