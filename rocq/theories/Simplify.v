(** Model of the root simplification of difference logic, simplify_difference_graph in
    gcs/constraints/difference/difference_simplify.cc. The count of the cycles of weight zero,
    which is only reported, is left out. [None] stands for an exception, or for too little fuel
    in the two loops. *)
From Coq Require Import ZArith List Bool.
From Verif Require Import Difference.
Import ListNotations.
Local Open Scope Z_scope.

(** DifferenceSimplifyRole, difference_simplify.hh:133-146. *)
Inductive role : Type := Base | Candidate | Ignored.

Definition is_base (r : role) : bool := match r with Base => true | _ => false end.
Definition is_candidate (r : role) : bool := match r with Candidate => true | _ => false end.
Definition is_ignored (r : role) : bool := match r with Ignored => true | _ => false end.

Definition role_at (roles : list role) (e : nat) : role := nth e roles Ignored.

(** DifferenceSimplifyOutcome, difference_simplify.hh:169-193. *)
Record outcome : Type := mk_outcome {
  o_base_negative_cycle : bool; o_remove : nat -> bool; o_fix : list (nat * list nat) }.

(** dist, parent and queue, difference_simplify.cc:175-178. *)
Record search_state : Type := mk_search {
  s_dist : nat -> option Z; s_parent : nat -> option nat; s_queue : list (Z * nat) }.

(** difference_simplify.cc:144. *)
Definition reduced (arcs : list arc) (h : nat -> Z) (e : nat) : Z :=
  a_d (arc_at arcs e) + h (a_from (arc_at arcs e)) - h (a_to (arc_at arcs e)).

(** An arc out of a node that was taken from the queue, difference_simplify.cc:205-214. *)
Definition search_arc (arcs : list arc) (h : nat -> Z) (here : Z) (st : search_state) (e : nat) : search_state :=
  let w := a_to (arc_at arcs e) in
  let candidate := here + reduced arcs h e in
  if match s_dist st w with None => true | Some z => candidate <? z end then
    mk_search (set (s_dist st) w (Some candidate)) (set (s_parent st) w (Some e)) ((candidate, w) :: s_queue st)
  else st.

(** The arcs of the base graph out of a node, difference_simplify.cc:147. *)
Definition out (arcs : list arc) (roles : list role) (v : nat) : list nat :=
  filter (fun e => is_base (role_at roles e)) (adjacent true arcs v).

(** The search, difference_simplify.cc:200-216. *)
Fixpoint search (fuel : nat) (arcs : list arc) (roles : list role) (h : nat -> Z) (st : search_state) : option search_state :=
  match s_queue st with
  | [] => Some st
  | q :: r =>
      match fuel with
      | O => None
      | S k =>
          let '((here, v), rest) := pop_least q r in
          let st1 := mk_search (s_dist st) (s_parent st) rest in
          if match s_dist st v with None => true | Some z => negb (z =? here) end then search k arcs roles h st1
          else search k arcs roles h (fold_left (search_arc arcs h here) (out arcs roles v) st1)
      end
  end.

(** difference_simplify.cc:190-200. The arrays are cleared for each source. *)
Definition search_from (s : nat) : search_state :=
  mk_search (set (fun _ => None) s (Some 0)) (fun _ => None) [(0, s)].

(** real_distance, difference_simplify.cc:219. *)
Definition real_distance (h : nat -> Z) (s v : nat) (dist : Z) : Z := dist - h s + h v.

(** One arc out of the source, difference_simplify.cc:227-243; the pair is remove and tight_kept. *)
Definition judge_arc (arcs : list arc) (roles : list role) (h : nat -> Z) (s : nat) (dist : nat -> option Z)
  (st : (nat -> bool) * (nat -> bool)) (e : nat) : (nat -> bool) * (nat -> bool) :=
  let '(remove, tight_kept) := st in
  let v := a_to (arc_at arcs e) in
  match dist v with
  | None => st
  | Some z =>
      let distance := real_distance h s v z in
      if is_candidate (role_at roles e) then
        if distance <=? a_d (arc_at arcs e) then (set remove e true, tight_kept) else st
      else if distance <? a_d (arc_at arcs e) then (set remove e true, tight_kept)
      else if a_d (arc_at arcs e) =? distance then
        if tight_kept v then (set remove e true, tight_kept) else (remove, set tight_kept v true)
      else st
  end.

(** edges_from and candidates_to, difference_simplify.cc:150-164. *)
Definition edges_from (arcs : list arc) (roles : list role) (s : nat) : list nat :=
  filter (fun e => negb (is_ignored (role_at roles e))) (adjacent true arcs s).
Definition candidates_to (arcs : list arc) (roles : list role) (s : nat) : list nat :=
  filter (fun e => is_candidate (role_at roles e)) (adjacent false arcs s).

(** The witness path, difference_simplify.cc:258-266; the arcs found so far are in [path]. *)
Fixpoint walk (fuel : nat) (arcs : list arc) (parent : nat -> option nat) (s at_ : nat) (path : list nat) : option (list nat) :=
  if Nat.eqb at_ s then Some path
  else
    match fuel with
    | O => None
    | S k =>
        match parent at_ with
        | None => None
        | Some e => walk k arcs parent s (a_from (arc_at arcs e)) (e :: path)
        end
    end.

(** Conditions that must be false, difference_simplify.cc:249-268. *)
Fixpoint fix_conditions (fuel : nat) (arcs : list arc) (h : nat -> Z) (s : nat) (st : search_state) (remove : nat -> bool)
  (es : list nat) : option (list (nat * list nat)) :=
  match es with
  | [] => Some []
  | e :: rest =>
      let u := a_from (arc_at arcs e) in
      let skip := fix_conditions fuel arcs h s st remove rest in
      if remove e then skip
      else
        match s_dist st u with
        | None => skip
        | Some z =>
            if 0 <=? a_d (arc_at arcs e) + real_distance h s u z then skip
            else
              match walk fuel arcs (s_parent st) s u [] with
              | None => None
              | Some path => match skip with None => None | Some l => Some ((e, path) :: l) end
              end
        end
  end.

(** One source, difference_simplify.cc:184-269. *)
Definition one_source (fuel : nat) (arcs : list arc) (roles : list role) (h : nat -> Z)
  (remove : nat -> bool) (s : nat) : option ((nat -> bool) * list (nat * list nat)) :=
  match edges_from arcs roles s ++ candidates_to arcs roles s with
  | [] => Some (remove, [])
  | _ =>
      match search fuel arcs roles h (search_from s) with
      | None => None
      | Some st =>
          let '(remove', _) :=
            fold_left (judge_arc arcs roles h s (s_dist st)) (edges_from arcs roles s) (remove, fun _ => false) in
          match fix_conditions fuel arcs h s st remove' (candidates_to arcs roles s) with
          | None => None
          | Some l => Some (remove', l)
          end
      end
  end.

(** All sources, difference_simplify.cc:184. *)
Fixpoint all_sources (fuel : nat) (arcs : list arc) (roles : list role) (h : nat -> Z)
  (remove : nat -> bool) (sources : list nat) : option ((nat -> bool) * list (nat * list nat)) :=
  match sources with
  | [] => Some (remove, [])
  | s :: rest =>
      match one_source fuel arcs roles h remove s with
      | None => None
      | Some (remove1, l1) =>
          match all_sources fuel arcs roles h remove1 rest with
          | None => None
          | Some (remove2, l2) => Some (remove2, l1 ++ l2)
          end
      end
  end.

(** simplify_difference_graph, difference_simplify.cc:91-274. The relaxation is that of
    [initial_potential], over the base arcs in order (difference_simplify.cc:114-137). *)
Definition simplify (fuel n : nat) (arcs : list arc) (roles : list role) : option outcome :=
  if negb (Nat.eqb (length roles) (length arcs)) then None
  else if Nat.eqb n 0 || Nat.eqb (length arcs) 0 then Some (mk_outcome false (fun _ => false) [])
  else
    match initial_potential n arcs (map is_base roles) with
    | None => Some (mk_outcome true (fun _ => false) [])
    | Some h =>
        match invalid_arc arcs (map is_base roles) h with
        | Some _ => None
        | None =>
            match all_sources fuel arcs roles h (fun _ => false) (seq 0 n) with
            | None => None
            | Some (remove, l) => Some (mk_outcome false remove l)
            end
        end
    end.
