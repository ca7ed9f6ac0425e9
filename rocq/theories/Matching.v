(** Bipartite matching.

    Models augment_from and build_matching,
    gcs/constraints/all_different/gac_all_different.cc:243-376. Left vertices are
    variables and right vertices are values, both numbered from zero. An array
    indexed by vertices is a function. *)
From Coq Require Import List Bool Arith.
From Verif Require Import Scc.
Import ListNotations.

(** The arrays matching and inverse_matching. The array left_covered always says
    which entries of the first are set. *)
Record matching : Type := mk_matching
  { mt_left : nat -> option nat;
    mt_right : nat -> option nat }.

Definition is_some {X : Type} (o : option X) : bool := match o with Some _ => true | None => false end.

Definition matched_to (m : nat -> option nat) (l t : nat) : bool :=
  match m l with Some t' => Nat.eqb t' t | None => false end.

Section Graph.
(** The edges of each left vertex in order: its values and then its phantom
    (gac_all_different.cc:753-783). *)
Variable adjacent : nat -> list nat.

(** for_each_unmatched_edge_of_var, gac_all_different.cc:222-236. *)
Definition unmatched_edges (m : nat -> option nat) (l : nat) : list nat := filter (fun t => negb (matched_to m l t)) (adjacent l).

(** The arrays of the breadth-first search, its queue from the head onwards, and
    path_endpoint: gac_all_different.cc:253-262. *)
Record search : Type := mk_search
  { sr_left : nat -> bool;
    sr_right : nat -> bool;
    sr_to_right : nat -> nat;
    sr_to_left : nat -> nat;
    sr_queue : list nat;
    sr_end : option nat }.

(** One edge, gac_all_different.cc:266-278. *)
Definition look_along (m : matching) (l : nat) (s : search) (t : nat) : search :=
  if is_some (sr_end s) || sr_right s t then s
  else
    let right := put (sr_right s) t true in
    let to_right := put (sr_to_right s) t l in
    match mt_right m t with
    | Some nl =>
        if sr_left s nl then mk_search (sr_left s) right to_right (sr_to_left s) (sr_queue s) (sr_end s)
        else mk_search (put (sr_left s) nl true) right to_right (put (sr_to_left s) nl t) (sr_queue s ++ [nl]) (sr_end s)
    | None => mk_search (sr_left s) right to_right (sr_to_left s) (sr_queue s) (Some t)
    end.

(** The loop over the queue, gac_all_different.cc:263-280. No vertex is queued twice,
    so the number of left vertices is fuel enough. *)
Fixpoint explore (fuel : nat) (m : matching) (s : search) : search :=
  match fuel, sr_end s, sr_queue s with
  | S fuel', None, l :: r =>
      explore fuel' m (fold_left (look_along m l) (unmatched_edges (mt_left m) l)
                         (mk_search (sr_left s) (sr_right s) (sr_to_right s) (sr_to_left s) r (sr_end s)))
  | _, _, _ => s
  end.

Definition search_init (start : nat) : search :=
  mk_search (put (fun _ => false) start true) (fun _ => false) (fun _ => 0) (fun _ => 0) [start] None.

(** Flip the matching along the path, gac_all_different.cc:286-294. *)
Fixpoint flip (fuel : nat) (s : search) (start t : nat) (m : matching) : matching :=
  match fuel with
  | O => m
  | S fuel' =>
      let l := sr_to_right s t in
      let m' := mk_matching (put (mt_left m) l (Some t)) (put (mt_right m) t (Some l)) in
      if Nat.eqb l start then m' else flip fuel' s start (sr_to_left s l) m'
  end.

(** augment_from, gac_all_different.cc:243-297, with [n] left vertices. *)
Definition augment (n : nat) (start : nat) (m : matching) : matching :=
  let s := explore n m (search_init start) in
  match sr_end s with
  | Some t => flip n s start t m
  | None => m
  end.

(** One variable, gac_all_different.cc:347-374. *)
Definition cover (n : nat) (m : matching) (i : nat) : matching :=
  match mt_left m i with
  | Some _ => m
  | None =>
      match find (fun t => negb (is_some (mt_right m t))) (adjacent i) with
      | Some t => mk_matching (put (mt_left m) i (Some t)) (put (mt_right m) t (Some i))
      | None => augment n i m
      end
  end.

(** The previous matching, as far as it still makes sense:
    gac_all_different.cc:322-344. Simplification: a right vertex that occurs twice in
    it is dropped the second time. That does not happen to what an earlier run left,
    but private data is arbitrary here. *)
Definition revalidate (previous : nat -> option nat) (m : matching) (i : nat) : matching :=
  match previous i with
  | Some t =>
      if existsb (Nat.eqb t) (adjacent i) && negb (is_some (mt_right m t))
      then mk_matching (put (mt_left m) i (Some t)) (put (mt_right m) t (Some i)) else m
  | None => m
  end.

Definition no_matching : matching := mk_matching (fun _ => None) (fun _ => None).

(** build_matching, gac_all_different.cc:315-376. *)
Definition build_matching (n : nat) (previous : nat -> option nat) : matching :=
  fold_left (cover n) (seq 0 n) (fold_left (revalidate previous) (seq 0 n) no_matching).
End Graph.
