(** The sorted-interval set.

    Models gcs/interval_set.hh, class IntervalSet<Integer>. The vector of
    intervals is a list of pairs; an iterator is the remaining suffix. Values
    are unbounded integers (the C++ throws rather than wraps, see Integer.v). *)
From Coq Require Import ZArith List Bool.
Import ListNotations.
Local Open Scope Z_scope.

(** gcs/interval_set.hh:46-47 (Intervals). *)
Definition iset : Type := list (Z * Z).

(** gcs/interval_set.hh:70-73, the (lower, upper) constructor. *)
Definition iset_of_bounds (lower upper : Z) : iset := [(lower, upper)].

(** gcs/interval_set.hh:94-97 (empty). *)
Definition is_empty (s : iset) : bool :=
  match s with [] => true | _ => false end.

(** gcs/interval_set.hh:105-111 (size). *)
Fixpoint size (s : iset) : Z :=
  match s with
  | [] => 0
  | (l, u) :: r => (u - l + 1) + size r
  end.

(** gcs/interval_set.hh:120-123 (lower); [None] is the undefined behaviour of
    front() on an empty vector. *)
Definition lower (s : iset) : option Z :=
  match s with [] => None | (l, _) :: _ => Some l end.

(** gcs/interval_set.hh:132-135 (upper); [None] as for [lower]. *)
Fixpoint upper (s : iset) : option Z :=
  match s with
  | [] => None
  | [(_, u)] => Some u
  | _ :: r => upper r
  end.

(** gcs/interval_set.hh:142-152 (contains). *)
Fixpoint contains (v : Z) (s : iset) : bool :=
  match s with
  | [] => false
  | (l, u) :: r =>
      if (l <=? v) && (v <=? u) then true
      else if v <? u then false
      else contains v r
  end.

(** gcs/interval_set.hh:159-174 (contains_any_of): the two-cursor walk. *)
Fixpoint contains_any_of (xs : iset) : iset -> bool :=
  fix go (ys : iset) : bool :=
    match xs, ys with
    | (xl, xu) :: xs', (yl, yu) :: ys' =>
        if (xl <=? yu) && (yl <=? xu) then true
        else if xu <? yu then contains_any_of xs' ys
        else go ys'
    | _, _ => false
    end.

(** gcs/interval_set.hh:184-187 (has_holes). *)
Definition has_holes (s : iset) : bool :=
  match s with _ :: _ :: _ => true | _ => false end.

(** gcs/interval_set.hh:202-228 (erase). After trimming an end point the C++
    loop carries on to the following interval, as here. *)
Fixpoint erase (v : Z) (s : iset) : iset :=
  match s with
  | [] => []
  | (f, t) :: r =>
      if (f <=? v) && (v <=? t) then
        if f =? t then r
        else if v =? f then (f + 1, t) :: erase v r
        else if v =? t then (f, t - 1) :: erase v r
        else (f, v - 1) :: (v + 1, t) :: r
      else if v <? f then s
      else (f, t) :: erase v r
  end.

(** gcs/interval_set.hh:248-280, the loop of erase_range. *)
Fixpoint erase_range_loop (lo hi : Z) (s : iset) : iset :=
  match s with
  | [] => []
  | (f, t) :: r =>
      if t <? lo then (f, t) :: erase_range_loop lo hi r
      else if hi <? f then s
      else
        let keep_left := f <? lo in
        let keep_right := hi <? t in
        if keep_left && keep_right then (f, lo - 1) :: (hi + 1, t) :: r
        else if keep_left then (f, lo - 1) :: erase_range_loop lo hi r
        else if keep_right then (hi + 1, t) :: r
        else erase_range_loop lo hi r
  end.

(** gcs/interval_set.hh:243-281 (erase_range). *)
Definition erase_range (lo hi : Z) (s : iset) : iset :=
  if hi <? lo then s else erase_range_loop lo hi s.

(** gcs/interval_set.hh:292-303, the loop of erase_less_than: [Some] is an
    early return with that content, [None] is falling off the end. *)
Fixpoint erase_less_than_loop (v : Z) (s : iset) : option iset :=
  match s with
  | [] => None
  | (f, t) :: r =>
      if (f <=? v) && (v <=? t) then Some ((v, t) :: r)
      else if v <? f then Some s
      else erase_less_than_loop v r
  end.

(** gcs/interval_set.hh:290-308 (erase_less_than). *)
Definition erase_less_than (v : Z) (s : iset) : iset :=
  match erase_less_than_loop v s with
  | Some s' => s'
  | None =>
      match upper s with
      | Some u => if u <? v then [] else s
      | None => s
      end
  end.

(** gcs/interval_set.hh:317-331 (erase_greater_than). *)
Fixpoint erase_greater_than (v : Z) (s : iset) : iset :=
  match s with
  | [] => []
  | (f, t) :: r =>
      if (f <=? v) && (v <=? t) then [(f, v)]
      else if v <? f then []
      else (f, t) :: erase_greater_than v r
  end.

(** gcs/interval_set.hh:336-339 (clear). *)
Definition clear (_ : iset) : iset := [].

(** gcs/interval_set.hh:371-379 (insert_at_end of an interval). *)
Fixpoint insert_interval_at_end (l u : Z) (s : iset) : iset :=
  match s with
  | [] => [(l, u)]
  | [(f, t)] => if t =? l - 1 then [(f, u)] else [(f, t); (l, u)]
  | i :: r => i :: insert_interval_at_end l u r
  end.

(** gcs/interval_set.hh:351-359 (insert_at_end of a value). The merging branch
    is written there as back().second++, and the value is back().second + 1. *)
Fixpoint insert_at_end (v : Z) (s : iset) : iset :=
  match s with
  | [] => [(v, v)]
  | [(f, t)] => if t =? v - 1 then [(f, t + 1)] else [(f, t); (v, v)]
  | i :: r => i :: insert_at_end v r
  end.

(** gcs/interval_set.hh:398-399 and 565-566: skip the intervals that end below [x]. *)
Fixpoint skip_below (x : Z) (js : iset) : iset :=
  match js with
  | [] => []
  | (jl, ju) :: r => if ju <? x then skip_below x r else js
  end.

(** gcs/interval_set.hh:400-408, the inner loop of intersect_with for the
    interval [(il, iu)]: the intervals it emits and the final cursor. *)
Fixpoint intersect_inner (il iu : Z) (ks : iset) : iset * iset :=
  match ks with
  | [] => ([], [])
  | (kl, ku) :: r =>
      if kl <=? iu then
        let lo := if kl <? il then il else kl in
        let hi := if iu <? ku then iu else ku in
        if iu <? ku then ([(lo, hi)], ks)
        else let '(out, k) := intersect_inner il iu r in ((lo, hi) :: out, k)
      else ([], ks)
  end.

(** gcs/interval_set.hh:393-412 (intersect_with). *)
Fixpoint intersect_with (s other : iset) : iset :=
  match s with
  | [] => []
  | (il, iu) :: r =>
      let j := skip_below il other in
      let '(out, j') := intersect_inner il iu j in
      out ++ intersect_with r j'
  end.

(** The values from [l] upwards, [n] of them: the loop [for (i = l; i <= u; ++i)]. *)
Fixpoint zseq (l : Z) (n : nat) : list Z :=
  match n with O => [] | S n' => l :: zseq (l + 1) n' end.

Definition zrange (l u : Z) : list Z := zseq l (Z.to_nat (u - l + 1)).

(** gcs/interval_set.hh:429-436 (each) and 452-465 (for_each); the sequence of
    values yielded. *)
Definition each (s : iset) : list Z := flat_map (fun '(l, u) => zrange l u) s.

(** gcs/interval_set.hh:590-597 (each_reversed). *)
Definition each_reversed (s : iset) : list Z :=
  flat_map (fun '(l, u) => rev (zrange l u)) (rev s).

(** gcs/interval_set.hh:476-482 (each_interval). *)
Definition each_interval (s : iset) : list (Z * Z) := s.

(** gcs/interval_set.hh:524-534 (each_gap_interval): half-open pairs. *)
Fixpoint each_gap_interval (s : iset) : list (Z * Z) :=
  match s with
  | (_, u) :: (((l', _) :: _) as r) => (u + 1, l') :: each_gap_interval r
  | _ => []
  end.

(** gcs/interval_set.hh:495-506 (each_gap). The C++ loop stops when it meets the
    next lower end; for a well-formed set that is the range below. *)
Definition each_gap (s : iset) : list Z :=
  flat_map (fun '(a, b) => zrange a (b - 1)) (each_gap_interval s).

(** gcs/interval_set.hh:567-574, the inner loop of each_interval_minus for an
    interval ending at [iu]: what is yielded, the final [cur], and the cursor. *)
Fixpoint minus_inner (cur iu : Z) (js : iset) : list (Z * Z) * Z * iset :=
  match js with
  | [] => ([], cur, [])
  | (jl, ju) :: r =>
      if jl <=? iu then
        let here := if cur <? jl then [(cur, jl - 1)] else [] in
        let cur' := ju + 1 in
        if iu <? cur' then (here, cur', js)
        else let '(out, c, j) := minus_inner cur' iu r in (here ++ out, c, j)
      else ([], cur, js)
  end.

(** gcs/interval_set.hh:560-580 (each_interval_minus). *)
Fixpoint each_interval_minus (s other : iset) : list (Z * Z) :=
  match s with
  | [] => []
  | (il, iu) :: r =>
      let j := skip_below il other in
      let '(out, cur, j') := minus_inner il iu j in
      out ++ (if cur <=? iu then [(cur, iu)] else []) ++ each_interval_minus r j'
  end.

(** Running one operation of a history (dispatch only; no code of its own). *)
From Verif Require Import IntervalSetSpec.

Definition run_op (o : iset_op) (s : iset) : iset :=
  match o with
  | OpErase v => erase v s
  | OpEraseRange lo hi => erase_range lo hi s
  | OpEraseLessThan v => erase_less_than v s
  | OpEraseGreaterThan v => erase_greater_than v s
  | OpClear => clear s
  | OpIntersectWith other => intersect_with s other
  | OpInsertAtEnd v => insert_at_end v s
  | OpInsertIntervalAtEnd l u => insert_interval_at_end l u s
  end.

Definition run_ops (ops : list iset_op) (s : iset) : iset := fold_left (fun s o => run_op o s) ops s.
