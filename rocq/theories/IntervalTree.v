(* The set of closed intervals behind the range literals of the proof log:
   /repo/gcs/innards/interval_tree.hh.

   A null pointer is [Leaf].  Where the code dereferences a pointer that could be null, the model
   returns [None].  Integers are unbounded.  The priorities, which the code draws from a generator
   with a fixed seed, are arguments here, so that the theorems hold for all of them. *)
From Coq Require Import ZArith List Bool.
Import ListNotations.
Open Scope Z_scope.

(* interval_tree.hh:30-40, Node *)
Inductive tree : Type :=
| Leaf
| Node (lo hi min_hi max_hi priority : Z) (left right : tree).

(* interval_tree.hh:45-54, update: the body of the loop, for the least end *)
Definition child_min (m : Z) (t : tree) : Z :=
  match t with Leaf => m | Node _ _ min_hi _ _ _ _ => Z.min m min_hi end.

(* interval_tree.hh:45-54, update: the body of the loop, for the greatest end *)
Definition child_max (m : Z) (t : tree) : Z :=
  match t with Leaf => m | Node _ _ _ max_hi _ _ _ => Z.max m max_hi end.

(* interval_tree.hh:45-54, update *)
Definition update (t : tree) : tree :=
  match t with
  | Leaf => Leaf
  | Node lo hi _ _ p l r =>
      Node lo hi (child_min (child_min hi l) r) (child_max (child_max hi l) r) p l r
  end.

(* interval_tree.hh:56-64, rotate_left *)
Definition rotate_left (t : tree) : option tree :=
  match t with
  | Node lo hi mn mx p l (Node rlo rhi rmn rmx rp rl rr) =>
      Some (update (Node rlo rhi rmn rmx rp (update (Node lo hi mn mx p l rl)) rr))
  | _ => None
  end.

(* interval_tree.hh:66-74, rotate_right *)
Definition rotate_right (t : tree) : option tree :=
  match t with
  | Node lo hi mn mx p (Node llo lhi lmn lmx lp ll lr) r =>
      Some (update (Node llo lhi lmn lmx lp ll (update (Node lo hi mn mx p lr r))))
  | _ => None
  end.

(* interval_tree.hh:85, 92: n->left->priority *)
Definition priority_of (t : tree) : option Z :=
  match t with Leaf => None | Node _ _ _ _ p _ _ => Some p end.

(* interval_tree.hh:84: the comparison of pairs *)
Definition pair_less (a b : Z * Z) : bool :=
  (fst a <? fst b) || (negb (fst b <? fst a) && (snd a <? snd b)).

(* interval_tree.hh:76-97, insert_at *)
Fixpoint insert_at (t : tree) (lo hi priority : Z) : option tree :=
  match t with
  | Leaf => Some (Node lo hi hi hi priority Leaf Leaf)
  | Node nlo nhi mn mx p l r =>
      if (lo =? nlo) && (hi =? nhi) then Some t
      else if pair_less (lo, hi) (nlo, nhi) then
        match insert_at l lo hi priority with
        | None => None
        | Some l' =>
            match priority_of l' with
            | None => None
            | Some lp =>
                if lp <? p then rotate_right (Node nlo nhi mn mx p l' r)
                else Some (update (Node nlo nhi mn mx p l' r))
            end
        end
      else
        match insert_at r lo hi priority with
        | None => None
        | Some r' =>
            match priority_of r' with
            | None => None
            | Some rp =>
                if rp <? p then rotate_left (Node nlo nhi mn mx p l r')
                else Some (update (Node nlo nhi mn mx p l r'))
            end
        end
  end.

(* interval_tree.hh:99-111, visit_containing: the calls of visit, in order *)
Fixpoint visit_containing (t : tree) (lo hi : Z) : list (Z * Z) :=
  match t with
  | Leaf => []
  | Node nlo nhi _ max_hi _ l r =>
      if max_hi <? hi then []
      else visit_containing l lo hi ++
           (if lo <? nlo then []
            else (if hi <=? nhi then [(nlo, nhi)] else []) ++ visit_containing r lo hi)
  end.

(* interval_tree.hh:113-125, visit_contained_in: the calls of visit, in order *)
Fixpoint visit_contained_in (t : tree) (lo hi : Z) : list (Z * Z) :=
  match t with
  | Leaf => []
  | Node nlo nhi min_hi _ _ l r =>
      if hi <? min_hi then []
      else (if lo <=? nlo
            then visit_contained_in l lo hi ++ (if nhi <=? hi then [(nlo, nhi)] else [])
            else []) ++ visit_contained_in r lo hi
  end.

(* interval_tree.hh:132-135, insert, called for each interval in turn; each comes with the priority
   that the generator gives to that call *)
Fixpoint insert_all (t : tree) (calls : list (Z * Z * Z)) : option tree :=
  match calls with
  | [] => Some t
  | (lo, hi, priority) :: rest =>
      match insert_at t lo hi priority with None => None | Some t' => insert_all t' rest end
  end.
