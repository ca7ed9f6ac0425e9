(* The links between the range and equality literals of one variable in the proof log:
   link_immediate_containment and its callers, /repo/gcs/innards/proofs/names_and_ids_tracker.cc.

   A literal is the interval [lo, hi]; an equality is [v, v].  A clause "not child, or parent" is the
   pair of the two.  The order clauses and definitions of the literals, the partition into cells and
   the links to views are not modelled.  A proof log with links is being written. *)
From Coq Require Import ZArith List Bool.
From Verif Require Import IntervalTree.
Import ListNotations.
Open Scope Z_scope.

Definition edge := ((Z * Z) * (Z * Z))%type.

(* std::ranges::sort, as insertion *)
Fixpoint sort_in (less : Z * Z -> Z * Z -> bool) (x : Z * Z) (l : list (Z * Z)) : list (Z * Z) :=
  match l with [] => [x] | y :: r => if less x y then x :: l else y :: sort_in less x r end.

(* std::ranges::sort *)
Definition sort_by (less : Z * Z -> Z * Z -> bool) (l : list (Z * Z)) : list (Z * Z) :=
  fold_right (sort_in less) [] l.

(* names_and_ids_tracker.cc:1226-1228: the comparison for containers *)
Definition container_before (x y : Z * Z) : bool :=
  if fst x =? fst y then snd x <? snd y else fst y <? fst x.

(* names_and_ids_tracker.cc:1243-1245: the comparison for contained literals *)
Definition contained_before (x y : Z * Z) : bool :=
  if fst x =? fst y then snd y <? snd x else fst x <? fst y.

(* names_and_ids_tracker.cc:1229-1234: the containers that are linked *)
Fixpoint minimal_from (least_hi : option Z) (found : list (Z * Z)) : list (Z * Z) :=
  match found with
  | [] => []
  | (c, d) :: rest =>
      if match least_hi with None => true | Some h => d <? h end
      then (c, d) :: minimal_from (Some d) rest else minimal_from least_hi rest
  end.

(* names_and_ids_tracker.cc:1246-1251: the contained literals that are linked *)
Fixpoint maximal_from (greatest_hi : option Z) (found : list (Z * Z)) : list (Z * Z) :=
  match found with
  | [] => []
  | (c, d) :: rest =>
      if match greatest_hi with None => true | Some h => h <? d end
      then (c, d) :: maximal_from (Some d) rest else maximal_from greatest_hi rest
  end.

(* names_and_ids_tracker.cc:1223, 1240 *)
Definition not_self (lo hi : Z) (i : Z * Z) : bool :=
  negb (fst i =? lo) || negb (snd i =? hi).

(* names_and_ids_tracker.cc:1191-1253, link_immediate_containment: the clauses, in order *)
Definition link_immediate_containment (t : tree) (lo hi : Z) : list edge :=
  map (fun p => ((lo, hi), p))
      (minimal_from None
         (sort_by container_before (filter (not_self lo hi) (visit_containing t lo hi)))) ++
  (if lo =? hi then []
   else map (fun c => (c, (lo, hi)))
            (maximal_from None
               (sort_by contained_before (filter (not_self lo hi) (visit_contained_in t lo hi))))).

(* What is kept about one variable: the equalities that exist (eq_defs), the tree, if there is one
   (containment_trees), and the clauses written so far. *)
Record literals : Type := mk_literals
  { l_atoms : list Z; l_tree : option tree; l_edges : list edge }.

(* names_and_ids_tracker.cc:300-345: nothing is defined at first *)
Definition no_literals : literals := mk_literals [] None [].

(* names_and_ids_tracker.cc:1288-1290: the first range literal seeds the tree with the equalities.
   The code goes through a map by value; the model goes through them as they were defined. *)
Fixpoint seed (t : tree) (priority : nat -> Z) (k : nat) (atoms : list Z) : option tree :=
  match atoms with
  | [] => Some t
  | v :: rest =>
      match insert_at t v v (priority k) with
      | None => None | Some t' => seed t' priority (S k) rest end
  end.

Inductive event : Type :=
| Equality (v priority : Z)
| Range (lo hi priority : Z) (seed_priority : nat -> Z).

(* names_and_ids_tracker.cc:892-897 (need_direct_encoding_for) and 1282-1293 (define_plain_invar) *)
Definition define (s : literals) (e : event) : option literals :=
  match e with
  | Equality v priority =>
      let atoms := l_atoms s ++ [v] in
      match l_tree s with
      | None => Some (mk_literals atoms None (l_edges s))
      | Some t =>
          match insert_at t v v priority with
          | None => None
          | Some t' =>
              Some (mk_literals atoms (Some t') (l_edges s ++ link_immediate_containment t v v))
          end
      end
  | Range lo hi priority seed_priority =>
      match match l_tree s with None => seed Leaf seed_priority 0 (l_atoms s) | Some t => Some t end with
      | None => None
      | Some t =>
          match insert_at t lo hi priority with
          | None => None
          | Some t' =>
              Some (mk_literals (l_atoms s) (Some t')
                      (l_edges s ++ link_immediate_containment t lo hi))
          end
      end
  end.

(* one call after another *)
Fixpoint define_all (s : literals) (events : list event) : option literals :=
  match events with
  | [] => Some s
  | e :: rest => match define s e with None => None | Some s' => define_all s' rest end
  end.
