(** Maximum flow.

    Models MaxFlow, gcs/constraints/global_cardinality/gac_global_cardinality.cc:65-150:
    Dinic's algorithm. Vertices are numbers; an array indexed by vertices is a function.

    Simplification: in the networks it is used for no two edges join the same two vertices,
    so an edge is named by its ends. The state is what each edge still takes in either
    direction, and [adj] has the neighbours of a vertex in the order in which the edges were
    added. The flow along an edge is what it takes in the other direction, lines 143-149. *)
From Coq Require Import ZArith List Bool Arith.
From Verif Require Import Scc.
Import ListNotations.
Local Open Scope Z_scope.

Definition sum_over (f : nat -> Z) (xs : list nat) : Z := fold_right (fun x a => f x + a) 0 xs.

Definition residual : Type := nat -> nat -> Z.

(** An edge: from, to, how much. *)
Definition edge : Type := nat * nat * Z.

(** add_edge, lines 89-95, for all edges. *)
Definition capacity_of (es : list edge) (u v : nat) : Z :=
  match find (fun e => Nat.eqb (fst (fst e)) u && Nat.eqb (snd (fst e)) v) es with Some e => snd e | None => 0 end.

Definition neighbours (es : list edge) (u : nat) : list nat :=
  flat_map (fun e => if Nat.eqb (fst (fst e)) u then [snd (fst e)] else if Nat.eqb (snd (fst e)) u then [fst (fst e)] else []) es.

(** ** Breadth first *)
Section Breadth.
Variable succ : nat -> list nat.

(** The loop over the edges, lines 105-109. Gives the levels and what is added to the
    queue. *)
Fixpoint look_at (l : Z) (ws : list nat) (level : nat -> Z) : (nat -> Z) * list nat :=
  match ws with
  | [] => (level, [])
  | w :: r => if level w <? 0 then let '(level', new) := look_at l r (put level w (l + 1)) in (level', w :: new) else look_at l r level
  end.

Fixpoint breadth (fuel : nat) (level : nat -> Z) (q : list nat) : nat -> Z :=
  match fuel, q with
  | S fuel', u :: r => let '(level', new) := look_at (level u) (succ u) level in breadth fuel' level' (r ++ new)
  | _, _ => level
  end.

(** bfs, lines 97-112: the levels. A vertex is in the queue once, so [n] turns are enough. *)
Definition levels (n s : nat) : nat -> Z := breadth n (put (fun _ => -1) s 0) [s].
End Breadth.

Section Flow.
Variable n : nat.
Variable adj : nat -> list nat.
Variables s t : nat.

Definition open_from (r : residual) (u : nat) : list nat := filter (fun v => 0 <? r u v) (adj u).

Definition push (r : residual) (u v : nat) (d : Z) : residual := fun a b =>
  if Nat.eqb a u && Nat.eqb b v then r a b - d else if Nat.eqb a v && Nat.eqb b u then r a b + d else r a b.

(** dfs, lines 114-130. The levels on the way increase, so [n] is deep enough. *)
Section Depth.
Variable level : nat -> Z.

Fixpoint dfs (depth : nat) (u : nat) (f : Z) (iter : nat -> nat) (r : residual) : Z * (nat -> nat) * residual :=
  match depth with
  | O => (0, iter, r)
  | S depth' =>
      if Nat.eqb u t then (f, iter, r)
      else
        (fix try (vs : list nat) (iter : nat -> nat) (r : residual) : Z * (nat -> nat) * residual :=
           match vs with
           | [] => (0, iter, r)
           | v :: vs' =>
               if (0 <? r u v) && (level u <? level v) then
                 let '(d, iter', r') := dfs depth' v (Z.min f (r u v)) iter r in
                 if 0 <? d then (d, iter', push r' u v d) else try vs' (put iter' u (S (iter' u))) r'
               else try vs' (put iter u (S (iter u))) r
           end) (skipn (iter u) (adj u)) iter r
  end.

(** The inner loop of max_flow, lines 137-138. *)
Fixpoint push_all (fuel : nat) (iter : nat -> nat) (r : residual) (flow : Z) : option (Z * residual) :=
  match fuel with
  | O => None
  | S fuel' =>
      let '(f, iter', r') := dfs n s 9223372036854775807 iter r in
      if f =? 0 then Some (flow, r') else push_all fuel' iter' r' (flow + f)
  end.
End Depth.

(** max_flow, lines 132-141. Each turn of either loop adds to the flow, so that [limit],
    the total of what leaves the source, is enough. *)
Fixpoint phases (limit : nat) (fuel : nat) (r : residual) (flow : Z) : option (Z * residual) :=
  match fuel with
  | O => None
  | S fuel' =>
      let level := levels (open_from r) n s in
      if level t <? 0 then Some (flow, r)
      else match push_all level (S limit) (fun _ => O) r flow with
           | None => None
           | Some (flow', r') => phases limit fuel' r' flow'
           end
  end.

Definition max_flow (r : residual) : option (Z * residual) :=
  let limit := Z.to_nat (sum_over (r s) (seq 0 n)) in
  phases limit (S limit) r 0.
End Flow.
