(** Strongly connected components.

    Models find_strongly_connected_components,
    gcs/constraints/all_different/gac_all_different.cc:587-696: Tarjan's algorithm
    with an explicit stack of frames. Vertices are numbers; an array indexed by
    vertices is a function. *)
From Coq Require Import List Bool Arith.
Import ListNotations.

(** Assignment to one element of an array. *)
Definition put {X : Type} (f : nat -> X) (k : nat) (x : X) : nat -> X := fun n => if Nat.eqb n k then x else f n.

(** The arrays and counters of the algorithm. A frame is a vertex and the
    successors of it still to be looked at (the code keeps a resume position). An
    index of zero means not visited. The head of a list is the back of the vector. *)
Record tarjan : Type := mk_tarjan
  { tj_index : nat -> nat;
    tj_low : nat -> nat;
    tj_component : nat -> nat;
    tj_on_stack : nat -> bool;
    tj_stack : list nat;
    tj_frames : list (nat * list nat);
    tj_next : nat;
    tj_count : nat }.

Section Graph.
Variable succ : nat -> list nat.

(** First arrival at a vertex, gac_all_different.cc:615-622. Simplification: this is
    done when the frame is pushed rather than when it is next looked at. *)
Definition arrive (v : nat) (s : tarjan) : tarjan :=
  mk_tarjan (put (tj_index s) v (tj_next s)) (put (tj_low s) v (tj_next s)) (tj_component s) (put (tj_on_stack s) v true)
            (v :: tj_stack s) ((v, succ v) :: tj_frames s) (S (tj_next s)) (tj_count s).

(** Look at the successors of [v] until one has not been visited,
    gac_all_different.cc:624-674. Gives that one and those after it, if any, and
    the low links. *)
Fixpoint scan (index : nat -> nat) (on_stack : nat -> bool) (v : nat) (rest : list nat) (low : nat -> nat) : option (nat * list nat) * (nat -> nat) :=
  match rest with
  | [] => (None, low)
  | w :: r =>
      if Nat.eqb (index w) 0 then (Some (w, r), low)
      else if on_stack w then scan index on_stack v r (put low v (Nat.min (low v) (low w)))
      else scan index on_stack v r low
  end.

(** Pop the stack down to [v], gac_all_different.cc:680-686. *)
Fixpoint pop_to (v : nat) (number : nat) (stack : list nat) (on_stack : nat -> bool) (component : nat -> nat)
  : list nat * (nat -> bool) * (nat -> nat) :=
  match stack with
  | [] => ([], on_stack, component)
  | w :: r =>
      let on_stack' := put on_stack w false in
      let component' := put component w number in
      if Nat.eqb w v then (r, on_stack', component') else pop_to v number r on_stack' component'
  end.

(** The vertex is the root of a component if its low link is its index,
    gac_all_different.cc:679-688. *)
Definition close (v : nat) (s : tarjan) : tarjan :=
  if Nat.eqb (tj_low s v) (tj_index s v) then
    let '(stack, on_stack, component) := pop_to v (tj_count s) (tj_stack s) (tj_on_stack s) (tj_component s) in
    mk_tarjan (tj_index s) (tj_low s) component on_stack stack (tj_frames s) (tj_next s) (S (tj_count s))
  else s.

(** One turn of the loop, gac_all_different.cc:612-692. *)
Definition step (s : tarjan) : tarjan :=
  match tj_frames s with
  | [] => s
  | (v, rest) :: frames =>
      let '(found, low) := scan (tj_index s) (tj_on_stack s) v rest (tj_low s) in
      match found with
      | Some (w, r) =>
          arrive w (mk_tarjan (tj_index s) low (tj_component s) (tj_on_stack s) (tj_stack s) ((v, r) :: frames) (tj_next s) (tj_count s))
      | None =>
          let s' := close v (mk_tarjan (tj_index s) low (tj_component s) (tj_on_stack s) (tj_stack s) frames (tj_next s) (tj_count s)) in
          match frames with
          | [] => s'
          | (p, _) :: _ =>
              mk_tarjan (tj_index s') (put (tj_low s') p (Nat.min (tj_low s' p) (tj_low s' v))) (tj_component s') (tj_on_stack s')
                        (tj_stack s') (tj_frames s') (tj_next s') (tj_count s')
          end
      end
  end.

Fixpoint steps (fuel : nat) (s : tarjan) : tarjan :=
  match fuel, tj_frames s with
  | S fuel', _ :: _ => steps fuel' (step s)
  | _, _ => s
  end.

Definition tarjan_init : tarjan := mk_tarjan (fun _ => 0) (fun _ => 0) (fun _ => 0) (fun _ => false) [] [] 1 0.

(** The loop over the roots, gac_all_different.cc:607-693. Each turn of the inner
    loop visits a vertex or leaves one, so twice the number of vertices is fuel
    enough. *)
Definition find_components (n : nat) : tarjan :=
  fold_left (fun s root => if Nat.eqb (tj_index s root) 0 then steps (2 * n) (arrive root s) else s) (seq 0 n) tarjan_init.
End Graph.
