(** The modelled constraints, by name, as posted to a problem.

    Each constructor stands for a constraint class; [posting] is what its
    constructor and install do. *)
From Coq Require Import ZArith List Ascii.
From Verif Require Import Vars State Expressions Epochs Engine Tracker Search Equals Comparison Plus Nogoods Solve
  Logical Abs Member MinMax Counting Linear AllDifferent GacAllDifferent NegativeTable Table Element AllEqual Increasing NValue Parity Inverse Precede Lex Reify Tabulation Multiply DivideModulus Layered Regex Power GlobalCardinality Circuit CircuitScc Disjunctive2D Sortedness GacCardinality ArgSort Knapsack BinPacking.
From Verif Require SmartTable MinDistance.
Import ListNotations.

Inductive comparison : Type := Equal | NotEqual | Less | LessEqual | Greater | GreaterEqual.

Inductive linear_kind : Type := AtMost | AtLeast | Exactly | OtherThan.

Inductive lex_kind : Type := LexLess | LexLessEqual | LexGreater | LexGreaterEqual.

Inductive posted : Type :=
| Compare (k : comparison) (v1 v2 : var_id)
| CompareIf (k : comparison) (v1 v2 : var_id) (c : cond)
| CompareIff (k : comparison) (v1 v2 : var_id) (c : cond)
| Sum (l : level) (a b r : var_id)
| Difference (l : level) (a b r : var_id)
| Forbid (ns : list nogood)
| Conjunction (lits : list literal) (reif : literal)
| Disjunction (lits : list literal) (reif : literal)
| Absolute (v1 v2 : var_id)
| OneOf (v : var_id) (vars : list var_id) (values : list Z)
| Minimum (vars : list var_id) (result : var_id)
| Maximum (vars : list var_id) (result : var_id)
| CountOf (vars : list var_id) (value_of_interest how_many : var_id)
| AmongValues (vars : list var_id) (values_of_interest : list Z) (how_many : var_id)
| Linear (k : linear_kind) (s : sum_of var_id) (value : Z)
| LinearIf (k : linear_kind) (s : sum_of var_id) (value : Z) (c : cond)
| LinearIff (k : linear_kind) (s : sum_of var_id) (value : Z) (c : cond)
| AllDifferentVC (vars : list var_id)
| AllDifferentGAC (vars : list var_id)
| AllDifferentExcept (vars : list var_id) (excluded : list Z)
| AllowedTuples (vars : list var_id) (tuples : list tuple)
| ElementOf (bounds_only : bool) (result index : var_id) (start : Z) (array : list var_id)
| ElementOf2D (bounds_only : bool) (result index1 index2 : var_id) (start1 start2 : Z) (rows : list (list var_id))
| AllEqual (vars : list var_id)
| Ordered (strict descending : bool) (vars : list var_id)
| NumberOfValues (n_values : var_id) (vars : list var_id)
| AtMostOne (vars : list var_id) (val : var_id)
| OddParity (lits : list literal)
| InverseOf (xs ys : list var_id) (x_start y_start : Z)
| SymmetricAllDifferent (vars : list var_id) (start : Z)
| ValuesPrecede (chain : list Z) (vars : list var_id)
| SequencePrecede (vars : list var_id)
| Lexicographic (k : lex_kind) (xs ys : list var_id)
| LexicographicIf (k : lex_kind) (xs ys : list var_id) (c : cond)
| LexicographicIff (k : lex_kind) (xs ys : list var_id) (c : cond)
| LinearTabulated (s : sum_of var_id) (value : Z) (r : reif)
| Product (l : level) (a b r : var_id)
| Quotient (l : level) (x y q : var_id)
| Remainder (l : level) (x y r : var_id)
| RegularWord (vars : list var_id) (ts : list arrow) (final : list Z)
| RegularTable (vars : list var_id) (rows : list (list Z)) (final : list Z)
| DecisionDiagram (vars : list var_id) (layers : list (list (list (Z * Z)))) (nodes : list nat) (accepting : list Z)
| RegularExpression (vars : list var_id) (text : list ascii)
| Raised (l : level) (base exponent result : var_id)
| Cardinality (closed : bool) (vars : list var_id) (values : list Z) (ns : list var_id)
| CircuitPrevent (succ : list var_id)
| CircuitComponents (o : scc_options) (succ : list var_id)
| Rectangles (strict : bool) (xs ys ws hs : list var_id)
| Sorts (xs ys : list var_id)
| CardinalityGac (closed : bool) (vars : list var_id) (values : list Z) (ns : list var_id)
| ArgSorts (offset : Z) (xs ps : list var_id)
| KnapsackOf (s : knapsack_strategy) (rows : list (list Z)) (items totals : list var_id)
| BinPackingOf (level : packing_level) (items : list var_id) (sizes : list Z) (bs : bins)
| SmartTableOf (orders : list (list nat)) (vars : list var_id) (rows : list SmartTable.row)
| LexTable (orders : list (list nat)) (xs ys : list var_id)
| MinDistanceOf (level : MinDistance.distance_level) (xs : list var_id) (z : var_id) (D : list (list Z)) (R : option (list (list Z))).

(** Equals, NotEquals, LessThan and so on: gcs/constraints/equals/equals.cc,
    gcs/constraints/comparison/comparison.cc. *)
Definition compare (k : comparison) : var_id -> var_id -> option constraint :=
  match k with
  | Equal => equals
  | NotEqual => not_equals
  | Less => less_than
  | LessEqual => less_than_equal
  | Greater => greater_than
  | GreaterEqual => greater_than_equal
  end.

Definition compare_if (k : comparison) : var_id -> var_id -> cond -> option constraint :=
  match k with
  | Equal => equals_if
  | NotEqual => not_equals_if
  | Less => less_than_if
  | LessEqual => less_than_equal_if
  | Greater => greater_than_if
  | GreaterEqual => greater_than_equal_if
  end.

Definition compare_iff (k : comparison) : var_id -> var_id -> cond -> option constraint :=
  match k with
  | Equal => equals_iff
  | NotEqual => not_equals_iff
  | Less => less_than_iff
  | LessEqual => less_than_equal_iff
  | Greater => greater_than_iff
  | GreaterEqual => greater_than_equal_iff
  end.

(** LinearLessThanEqual, LinearGreaterThanEqual, LinearEquality and LinearNotEquals:
    gcs/constraints/linear/linear_less_than_equal.cc, linear_greater_than_equal.cc
    and linear_equality.cc. *)
Definition linear (k : linear_kind) (s : sum_of var_id) (value : Z) : constraint :=
  match k with
  | AtMost => linear_le s value
  | AtLeast => linear_ge s value
  | Exactly => linear_eq s value
  | OtherThan => linear_ne s value
  end.

Definition linear_if (k : linear_kind) (s : sum_of var_id) (value : Z) (c : cond) : constraint :=
  match k with
  | AtMost => linear_le_if s value c
  | AtLeast => linear_ge_if s value c
  | Exactly => linear_eq_if s value (LCond c)
  | OtherThan => linear_ne_if s value (LCond c)
  end.

Definition linear_iff (k : linear_kind) (s : sum_of var_id) (value : Z) (c : cond) : constraint :=
  match k with
  | AtMost => linear_le_iff s value c
  | AtLeast => linear_ge_iff s value c
  | Exactly => linear_eq_iff s value (LCond c)
  | OtherThan => linear_ne_iff s value (LCond c)
  end.

(** LexLessThan and so on: gcs/constraints/lex/lex.hh. *)
Definition lexicographic (k : lex_kind) : list var_id -> list var_id -> installer :=
  match k with
  | LexLess => lex_less_than
  | LexLessEqual => lex_less_than_equal
  | LexGreater => lex_greater_than
  | LexGreaterEqual => lex_greater_equal
  end.

Definition lexicographic_if (k : lex_kind) : list var_id -> list var_id -> cond -> installer :=
  match k with
  | LexLess => lex_less_than_if
  | LexLessEqual => lex_less_than_equal_if
  | LexGreater => lex_greater_than_if
  | LexGreaterEqual => lex_greater_equal_if
  end.

Definition lexicographic_iff (k : lex_kind) : list var_id -> list var_id -> cond -> installer :=
  match k with
  | LexLess => lex_less_than_iff
  | LexLessEqual => lex_less_than_equal_iff
  | LexGreater => lex_greater_than_iff
  | LexGreaterEqual => lex_greater_equal_iff
  end.

(** [None] is an exception from the constructor, or from prepare for a table with a
    tuple of the wrong length. *)
Definition posting (p : posted) : option installer :=
  match p with
  | Compare k v1 v2 => option_map simple (compare k v1 v2)
  | CompareIf k v1 v2 c => option_map simple (compare_if k v1 v2 c)
  | CompareIff k v1 v2 c => option_map simple (compare_iff k v1 v2 c)
  | Sum l a b r => Some (plus l a b r)
  | Difference l a b r => Some (minus l a b r)
  | Forbid ns => Some (simple (nogoods ns false))
  | Conjunction lits reif => Some (simple (and_lits lits reif))
  | Disjunction lits reif => Some (simple (or_lits lits reif))
  | Absolute v1 v2 => Some (simple (abs_constraint v1 v2))
  | OneOf v vars values => Some (simple (in_constraint v vars values))
  | Minimum vars r => Some (simple (array_min_max true vars r))
  | Maximum vars r => Some (simple (array_min_max false vars r))
  | CountOf vars v n => Some (simple (count_constraint vars v n))
  | AmongValues vars vs n => Some (simple (among_constraint vars vs n))
  | Linear k s value => Some (simple (linear k s value))
  | LinearIf k s value c => Some (simple (linear_if k s value c))
  | LinearIff k s value c => Some (simple (linear_iff k s value c))
  | AllDifferentVC vars => Some (all_different_vc vars)
  | AllDifferentGAC vars => Some (all_different vars)
  | AllDifferentExcept vars excluded => Some (simple (all_different_except vars excluded))
  | AllowedTuples vars tuples => table vars tuples
  | ElementOf b r i s array => Some (simple (element b r i s array))
  | ElementOf2D b r i1 i2 s1 s2 rows => option_map simple (element_2d b r i1 i2 s1 s2 rows)
  | AllEqual vars => Some (simple (all_equal vars))
  | Ordered strict descending vars => Some (simple (increasing_chain vars strict descending))
  | NumberOfValues n vars => Some (simple (n_value n vars))
  | AtMostOne vars val => Some (simple (at_most_one vars val))
  | OddParity lits => Some (simple (parity_odd lits))
  | InverseOf xs ys x_start y_start => option_map simple (inverse xs ys x_start y_start)
  | SymmetricAllDifferent vars start => Some (simple (symmetric_all_different vars start))
  | ValuesPrecede chain vars => Some (simple (value_precede chain vars))
  | SequencePrecede vars => Some (simple (seq_precede_chain vars))
  | Lexicographic k xs ys => Some (lexicographic k xs ys)
  | LexicographicIf k xs ys c => Some (lexicographic_if k xs ys c)
  | LexicographicIff k xs ys c => Some (lexicographic_iff k xs ys c)
  | LinearTabulated s value r => Some (tabulated_linear s value r)
  | Product l a b r => Some (multiply l a b r)
  | Quotient l x y q => Some (divide l x y q)
  | Remainder l x y r => Some (modulus l x y r)
  | RegularWord vars ts final => Some (regular vars ts final)
  | RegularTable vars rows final => Some (regular_table vars rows final)
  | DecisionDiagram vars layers nodes accepting => mdd vars layers nodes accepting
  | RegularExpression vars text => regular_expression vars text
  | Raised l base exponent result => Some (power l base exponent result)
  | Cardinality closed vars values ns => Some (simple (global_cardinality closed vars values ns))
  | CircuitPrevent succ => circuit_prevent succ
  | CircuitComponents o succ => circuit_scc o succ
  | Rectangles strict xs ys ws hs => option_map simple (disjunctive_2d strict xs ys ws hs)
  | Sorts xs ys => option_map simple (sort xs ys)
  | CardinalityGac closed vars values ns => Some (simple (gac_global_cardinality closed vars values ns))
  | ArgSorts offset xs ps => arg_sort offset xs ps
  | KnapsackOf s rows items totals => option_map simple (knapsack s rows items totals)
  | BinPackingOf level items sizes bs => option_map simple (bin_packing level items sizes bs)
  | SmartTableOf orders vars rows => SmartTable.smart_table orders vars rows
  | LexTable orders xs ys => SmartTable.lex_smart_table orders xs ys
  | MinDistanceOf level xs z D R => option_map simple (MinDistance.min_distance level xs z D R)
  end.

Fixpoint postings (ps : list posted) : option (list installer) :=
  match ps with
  | [] => Some []
  | p :: r =>
      match posting p, postings r with
      | Some k, Some ks => Some (k :: ks)
      | _, _ => None
      end
  end.

(** A problem with the constraints [ps]. [None] if one of the constructors throws. *)
Definition problem_of (d : domains) (ps : list posted) (minimise : option var_id) : option problem :=
  option_map (fun ks => mk_problem d ks minimise) (postings ps).
