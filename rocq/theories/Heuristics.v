(** Branching heuristics.

    Models gcs/search_heuristics.cc. A heuristic is a function of the node's
    number and the current domains; see Search.v. What a random number generator
    gives at each node is a parameter. *)
From Coq Require Import ZArith List Bool Arith.
From Verif Require Import IntervalSet Vars State Epochs.
Import ListNotations.
Local Open Scope Z_scope.

(** What one node gets from its generator: the result of the [n]th
    uniform_int_distribution(lo, hi) and of shuffle. *)
Record rng : Type := mk_rng
  { draw : nat -> nat -> nat -> nat;
    shuffle : list Z -> list Z }.

(** ** Choosing a variable *)

(** gcs/search_heuristics.hh: VariableComparator; true if the first handle should
    be preferred. It may consult what has been learned so far, so the node's number
    is an argument. *)
Definition comparator : Type := nat -> domains -> var_id -> var_id -> bool.

Inductive variable_order : Type :=
| RandomVariable
| InOrder
| InOrderOf (comp : comparator).

(** The test domain_size < 2. *)
Definition assigned (d : domains) (v : var_id) : bool := domain_size d v <? 2.

(** random_variable_selector, gcs/search_heuristics.cc:92-106. *)
Definition random_variable (r : rng) (vs : list var_id) (d : domains) : option var_id :=
  match filter (fun v => 2 <=? domain_size d v) vs with
  | [] => None
  | feasible => nth_error feasible (draw r 0 0 (length feasible - 1))
  end.

(** in_order_of_selector, gcs/search_heuristics.cc:108-122. *)
Definition in_order_of (comp : var_id -> var_id -> bool) (vs : list var_id) (d : domains) : option var_id :=
  fold_left (fun result v =>
               if assigned d v then result
               else match result with
                    | None => Some v
                    | Some w => if comp v w then Some v else result
                    end) vs None.

(** gcs/search_heuristics.cc:163-174. *)
Definition in_order (vs : list var_id) (d : domains) : option var_id := find (fun v => negb (assigned d v)) vs.

(** dom, gcs/search_heuristics.cc:181-187. *)
Definition smaller_domain : comparator := fun _ d a b => domain_size d a <? domain_size d b.

(** dom_then_deg, gcs/search_heuristics.cc:194-200; [degree] is
    Propagators::degree_of. *)
Definition smaller_domain_then_degree (degree : var_id -> Z) : comparator := fun _ d a b =>
  (domain_size d a <? domain_size d b) ||
  ((domain_size d a =? domain_size d b) && (- degree a <? - degree b)).

(** dom_wdeg, gcs/search_heuristics.cc:241-270, for any arithmetic on doubles and
    any weighting. The cached score of the incumbent is recomputed here. *)
Definition better_ratio {double : Type} (of_size : Z -> double) (times : double -> double -> double) (differ less : double -> double -> bool)
  (weight : nat -> domains -> var_id -> double) (degree : var_id -> Z) : comparator := fun k d a b =>
  let lhs := times (of_size (domain_size d a)) (weight k d b) in
  let rhs := times (of_size (domain_size d b)) (weight k d a) in
  if differ lhs rhs then less lhs rhs else degree b <? degree a.

(** with_smallest_value, gcs/search_heuristics.cc:279-285. *)
Definition smaller_lower_bound : comparator := fun _ d a b => lower_bound d a <? lower_bound d b.

Definition select (r : rng) (o : variable_order) (k : nat) (vs : list var_id) (d : domains) : option var_id :=
  match o with
  | RandomVariable => random_variable r vs d
  | InOrder => in_order vs d
  | InOrderOf comp => in_order_of (comp k d) vs d
  end.

(** ** Choosing a value *)

(** gcs/search_heuristics.cc:354-516: the value orders. *)
Inductive value_order : Type :=
| RandomValue | RandomOut | RejectRandomInterval
| SmallestIn | SmallestOut | SmallestFirst
| SplitSmallestFirst | SplitLargestFirst | SplitRandom
| LargestIn | LargestOut | LargestFirst
| Median.

(** gcs/search_heuristics.cc:420-421, and the same at 432-433 and 447-448: the
    value before the middle in the order of iteration. [None] stands for reading
    past the end. *)
Definition split_at (d : domains) (v : var_id) : option Z :=
  nth_error (each_value d v) (Z.to_nat (domain_size d v / 2 - 1)).

Definition both {A B : Type} (f : A -> A -> B) (x y : option A) : option B :=
  match x, y with Some x, Some y => Some (f x y) | _, _ => None end.

(** The generators, gcs/search_heuristics.cc:287-516. [None] is an exception. *)
Definition guesses (r : rng) (o : value_order) (d : domains) (v : var_id) : option (list cond) :=
  let values := each_value d v in
  match o with
  | RandomValue => Some (map (cond_eq v) (shuffle r values))
  | RandomOut => option_map (fun x => [cond_ne v x; cond_eq v x]) (nth_error values (draw r 1 0 (length values - 1)))
  | RejectRandomInterval =>
      match v, Nat.leb 3 (length values) with
      | VSimple _, true =>
          let i := draw r 1 1 (length values - 2) in
          let j := draw r 2 1 (length values - 2) in
          match nth_error values (Nat.min i j), nth_error values (Nat.max i j) with
          | Some lo, Some hi => both (fun c c' => [c; c']) (cond_not_in_range v lo hi) (cond_in_range v lo hi)
          | _, _ => None
          end
      | _, _ => option_map (fun x => [cond_ne v x; cond_eq v x]) (nth_error values (draw r 1 0 (length values - 1)))
      end
  | SmallestIn => Some [cond_eq v (lower_bound d v); cond_ne v (lower_bound d v)]
  | SmallestOut => Some [cond_ne v (lower_bound d v); cond_eq v (lower_bound d v)]
  | SmallestFirst => Some (map (cond_eq v) values)
  | SplitSmallestFirst => option_map (fun x => [cond_le v x; cond_gt v x]) (split_at d v)
  | SplitLargestFirst => option_map (fun x => [cond_gt v x; cond_le v x]) (split_at d v)
  | SplitRandom =>
      option_map (fun x => if Nat.eqb (draw r 1 0 1) 0 then [cond_le v x; cond_gt v x] else [cond_gt v x; cond_le v x]) (split_at d v)
  | LargestIn => Some [cond_eq v (upper_bound d v); cond_ne v (upper_bound d v)]
  | LargestOut => Some [cond_ne v (upper_bound d v); cond_eq v (upper_bound d v)]
  | LargestFirst => Some (map (cond_eq v) (each_reversed (copy_of_values d v)))
  | Median => option_map (fun x => [cond_eq v x; cond_ne v x]) (nth_error values (length values / 2))
  end.

(** ** Heuristics *)

(** branch_with and branch_sequence. *)
Inductive heuristic : Type :=
| BranchWith (vs : list var_id) (var : variable_order) (val : value_order)
| BranchSequence (a b : heuristic).

(** gcs/search_heuristics.cc:44-88. An exception is not distinguished from there
    being nothing to guess. [rngs] is what each node draws. *)
Fixpoint branch_of (rngs : nat -> rng) (h : heuristic) (k : nat) (d : domains) : list cond :=
  match h with
  | BranchWith vs var val =>
      match select (rngs k) var k vs d with
      | Some v => match guesses (rngs k) val d v with Some cs => cs | None => [] end
      | None => []
      end
  | BranchSequence a b =>
      match branch_of rngs a k d with
      | [] => branch_of rngs b k d
      | cs => cs
      end
  end.

(** The default, gcs/solve.cc:387-389. *)
Definition default_heuristic (degree : var_id -> Z) (vs : list var_id) : heuristic :=
  BranchWith vs (InOrderOf (smaller_domain_then_degree degree)) SmallestFirst.
