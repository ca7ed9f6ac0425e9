(** What the modelled constraints mean. *)
From Coq Require Import ZArith List Sorted.
From Verif Require Import Vars VarsSpec State StateSpec Epochs Search SearchSpec Solve SolveSpec Expressions ExpressionsSpec LinearSpec AllDifferentSpec NegativeTable TableSpec ElementSpec GlobalsSpec ChannelSpec LexSpec Reify ReifySpec Layered LayeredSpec RegexSpec PowerSpec GlobalCardinalitySpec CircuitSpec CircuitScc Disjunctive2DSpec SortednessSpec ArgSortSpec KnapsackSpec Engine Knapsack BinPacking BinPackingSpec Catalogue.
From Verif Require SmartTableSpec MinDistanceSpec.
Import ListNotations.
Local Open Scope Z_scope.

Definition compares (k : comparison) (x y : Z) : Prop :=
  match k with
  | Equal => x = y
  | NotEqual => x <> y
  | Less => x < y
  | LessEqual => x <= y
  | Greater => x > y
  | GreaterEqual => x >= y
  end.

(** [n] of the elements of the list, counted with repetition, have the property. *)
Inductive counts (P : Z -> Prop) : list Z -> Z -> Prop :=
| counts_nil : counts P [] 0
| counts_yes x xs n : P x -> counts P xs n -> counts P (x :: xs) (n + 1)
| counts_no x xs n : ~ P x -> counts P xs n -> counts P (x :: xs) n.

Definition least (x : Z) (xs : list Z) : Prop := In x xs /\ Forall (fun y => x <= y) xs.
Definition greatest (x : Z) (xs : list Z) : Prop := In x xs /\ Forall (fun y => y <= x) xs.

Definition sum_is (k : linear_kind) (x value : Z) : Prop :=
  match k with
  | AtMost => x <= value
  | AtLeast => x >= value
  | Exactly => x = value
  | OtherThan => x <> value
  end.

(** How the sequences compare in the dictionary order. *)
Definition lex_compares (k : lex_kind) (xs ys : list Z) : Prop :=
  match k with
  | LexLess => before xs ys
  | LexLessEqual => before_or_same xs ys
  | LexGreater => before ys xs
  | LexGreaterEqual => before_or_same ys xs
  end.

(** The assignment satisfies the constraint. *)
Definition satisfies (a : assignment) (p : posted) : Prop :=
  match p with
  | Compare k v1 v2 => compares k (var_value a v1) (var_value a v2)
  | CompareIf k v1 v2 c => cond_holds a c -> compares k (var_value a v1) (var_value a v2)
  | CompareIff k v1 v2 c => cond_holds a c <-> compares k (var_value a v1) (var_value a v2)
  | Sum _ x y r => var_value a x + var_value a y = var_value a r
  | Difference _ x y r => var_value a x - var_value a y = var_value a r
  | Forbid ns => Forall (fun n => ~ nogood_holds a n) ns
  | Conjunction lits reif => lit_holds a reif <-> Forall (lit_holds a) lits
  | Disjunction lits reif => lit_holds a reif <-> Exists (lit_holds a) lits
  | Absolute v1 v2 => var_value a v2 = Z.abs (var_value a v1)
  | OneOf v vars values => In (var_value a v) (values ++ map (var_value a) vars)
  | Minimum vars r => least (var_value a r) (map (var_value a) vars)
  | Maximum vars r => greatest (var_value a r) (map (var_value a) vars)
  | CountOf vars v n => counts (fun x => x = var_value a v) (map (var_value a) vars) (var_value a n)
  | AmongValues vars vs n => counts (fun x => In x vs) (map (var_value a) vars) (var_value a n)
  | Linear k s value => sum_is k (weighted_sum s a) value
  | LinearIf k s value c => cond_holds a c -> sum_is k (weighted_sum s a) value
  | LinearIff k s value c => cond_holds a c <-> sum_is k (weighted_sum s a) value
  | AllDifferentVC vars | AllDifferentGAC vars => NoDup (map (var_value a) vars)
  | AllDifferentExcept vars excluded => ForallOrdPairs (fun x y => x = y -> In x excluded) (map (var_value a) vars)
  | AllowedTuples vars tuples => listed_in a vars tuples
  | ElementOf _ r i s array => is_entry r i s array a
  | ElementOf2D _ r i1 i2 s1 s2 rows => is_entry_2d r i1 i2 s1 s2 rows a
  | AllEqual vars => all_same vars a
  | Ordered strict descending vars => in_order (order_of strict descending) vars a
  | NumberOfValues n vars => different_values n vars a
  | AtMostOne vars val => no_two_take vars val a
  | OddParity lits => odd_number lits a
  | InverseOf xs ys x_start y_start => inverse_of xs ys x_start y_start a
  | SymmetricAllDifferent vars start => own_inverse vars start a
  | ValuesPrecede chain vars => chain_precedes chain vars a
  | SequencePrecede vars => values_in_sequence vars a
  | Lexicographic k xs ys => lex_compares k (map (var_value a) xs) (map (var_value a) ys)
  | LexicographicIf k xs ys c => cond_holds a c -> lex_compares k (map (var_value a) xs) (map (var_value a) ys)
  | LexicographicIff k xs ys c => cond_holds a c <-> lex_compares k (map (var_value a) xs) (map (var_value a) ys)
  | LinearTabulated s value r => reif_sat r (fun b => weighted_sum s b = value) a
  | Product _ x y r => var_value a x * var_value a y = var_value a r
  | Quotient _ x y q => var_value a y <> 0 /\ var_value a q = Z.quot (var_value a x) (var_value a y)
  | Remainder _ x y r => var_value a y <> 0 /\ var_value a r = Z.rem (var_value a x) (var_value a y)
  | RegularWord vars ts final => accepts (fun q v r => In (q, v, r) ts) final (map (var_value a) vars)
  | RegularTable vars rows final => accepts (table_moves rows) final (map (var_value a) vars)
  | DecisionDiagram vars layers _ accepting => diagram_accepts layers accepting (map (var_value a) vars)
  | RegularExpression vars text => exists r, written text r /\ matches (fun _ => True) r (map (var_value a) vars)
  | Raised _ base exponent result => raises (var_value a base) (var_value a exponent) (var_value a result)
  | Cardinality closed vars values ns => cardinalities closed vars values ns a
  | CircuitPrevent succ | CircuitComponents _ succ => circuit succ a
  | Rectangles strict xs ys ws hs => no_overlap strict xs ys ws hs a
  | Sorts xs ys => sorts xs ys a
  | CardinalityGac closed vars values ns => cardinalities closed vars values ns a
  | ArgSorts offset xs ps => arg_sorts offset xs ps a
  | KnapsackOf _ rows items totals => adds_up rows items totals a
  | BinPackingOf _ items sizes bs => packs items sizes bs a
  | SmartTableOf _ _ rows => SmartTableSpec.some_row rows a
  | LexTable _ xs ys => SmartTableSpec.lex_greater (map (var_value a) xs) (map (var_value a) ys)
  | MinDistanceOf _ xs z D R => MinDistanceSpec.is_min_distance xs z D R a
  end.

(** The conditions in a literal. *)
Definition lit_conditions (l : literal) : list cond := match l with LCond c => [c] | _ => [] end.

(** The handles the constraint mentions. *)
Definition mentions (p : posted) : list var_id :=
  match p with
  | Compare _ v1 v2 => [v1; v2]
  | CompareIf _ v1 v2 c | CompareIff _ v1 v2 c => [v1; v2; c_var c]
  | Sum _ a b r | Difference _ a b r | Product _ a b r | Quotient _ a b r | Remainder _ a b r | Raised _ a b r => [a; b; r]
  | Forbid ns => map c_var (concat ns)
  | Conjunction lits reif | Disjunction lits reif => map c_var (flat_map lit_conditions (lits ++ [reif]))
  | Absolute v1 v2 => [v1; v2]
  | OneOf v vars _ => v :: vars
  | Minimum vars r | Maximum vars r => r :: vars
  | CountOf vars v n => vars ++ [v; n]
  | AmongValues vars _ n => vars ++ [n]
  | Linear _ s _ => map snd s
  | LinearIf _ s _ c | LinearIff _ s _ c => map snd s ++ [c_var c]
  | AllDifferentVC vars | AllDifferentGAC vars | AllDifferentExcept vars _ | AllowedTuples vars _ | RegularWord vars _ _ | RegularTable vars _ _ | DecisionDiagram vars _ _ _ | RegularExpression vars _ => vars
  | ElementOf _ r i _ array => r :: i :: array
  | ElementOf2D _ r i1 i2 _ _ rows => r :: i1 :: i2 :: concat rows
  | AllEqual vars | Ordered _ _ vars => vars
  | NumberOfValues n vars => n :: vars
  | AtMostOne vars val => vars ++ [val]
  | OddParity lits => map c_var (flat_map lit_conditions lits)
  | InverseOf xs ys _ _ => xs ++ ys
  | SymmetricAllDifferent vars _ | ValuesPrecede _ vars | SequencePrecede vars => vars
  | Lexicographic _ xs ys => xs ++ ys
  | LexicographicIf _ xs ys c | LexicographicIff _ xs ys c => (xs ++ ys) ++ [c_var c]
  | LinearTabulated s _ r => map snd s ++ reif_scope r
  | Cardinality _ vars _ ns => vars ++ ns
  | CircuitPrevent succ | CircuitComponents _ succ => succ
  | Rectangles _ xs ys ws hs => xs ++ ys ++ ws ++ hs
  | Sorts xs ys => xs ++ ys
  | CardinalityGac _ vars _ ns => vars ++ ns
  | ArgSorts _ xs ps => xs ++ ps
  | KnapsackOf _ _ items totals => items ++ totals
  | BinPackingOf _ items _ bs => items ++ match bs with Loads loads => loads | Capacities _ => [] end
  | SmartTableOf _ vars _ => vars
  | LexTable _ xs ys => xs ++ ys
  | MinDistanceOf _ xs z _ _ => z :: xs
  end.

(** The conditions the constraint mentions. *)
Definition conditions (p : posted) : list cond :=
  match p with
  | CompareIf _ _ _ c | CompareIff _ _ _ c | LinearIf _ _ _ c | LinearIff _ _ _ c | LexicographicIf _ _ _ c | LexicographicIff _ _ _ c => [c]
  | Forbid ns => concat ns
  | Conjunction lits reif | Disjunction lits reif => flat_map lit_conditions (lits ++ [reif])
  | OddParity lits => flat_map lit_conditions lits
  | _ => []
  end.

(** Some constraints misbehave when one variable is behind several of their
    handles, or need at least one handle: see C30, and C27 for linear equalities.
    AllDifferent with value consistency does not cope with a handle that has only one
    value to start with, see C28. The tuples of a table must be of the right length,
    see C29, and so must the rows of a two-dimensional array, see C30. AllEqual can stop
    too early unless its first handle has at most two values, next to each other, see
    C40. Inverse finds no solutions unless both lists are counted from the same number,
    see C44. A decision diagram must have the right sizes, and at least one variable,
    see C52. The values of a cover must differ, and each needs a count, see C55. Rectangles
    need a position and a size each, and the sizes must not be negative, see C58. With generalised arc consistency the cover must
    be in order unless it is closed, see C60. Knapsack coefficients, items and totals must not
    be negative, and each item needs its coefficients, see C62. Sizes must not be negative and
    items can only be in bins that exist, see C63. What a SmartTable can be used for is in
    SmartTableSpec.v, see C64, and the variables of a LexSmartTable must differ. What
    distances and requirements must be like is in MinDistanceSpec.v, see C65. *)
Definition independent (d : domains) (p : posted) : Prop :=
  match p with
  | Minimum vars r | Maximum vars r => vars <> [] /\ Forall (fun v => v = r \/ unrelated v r) vars
  | AmongValues vars _ n => Forall (fun v => unrelated v n /\ Forall (fun w => v = w \/ unrelated v w) vars) vars
  | LinearIf Exactly s value _ | LinearIff Exactly s value _ | LinearIff OtherThan s value _ => workable s value
  | AllDifferentVC vars => no_clash_with_fixed d vars
  | AllowedTuples vars tuples => Forall (fun t => length t = length vars) tuples
  | ElementOf2D _ _ _ _ _ _ rows => exists n, Forall (fun row => length row = n) rows
  | AllEqual vars => NoDup (underlying_list vars) /\ forall v, hd_error vars = Some v -> upper_bound d v <= lower_bound d v + 1
  | InverseOf _ _ x_start y_start => x_start = y_start
  | DecisionDiagram vars layers nodes _ => vars <> [] /\ well_sized vars layers nodes
  | Raised _ base exponent result => within_range d base result /\ ~ cancels base exponent result
  | Cardinality _ _ values ns => NoDup values /\ length values = length ns
  | CardinalityGac closed _ values ns => NoDup values /\ (closed = false -> StronglySorted Z.lt values) /\ length values = length ns
  | KnapsackOf s rows items totals =>
      (exists width, well_filled width rows totals /\ match s with PerCall => (length items <= width)%nat | Upfront => width = length items end) /\ none_negative d (items ++ totals)
  | BinPackingOf _ items sizes bs => packable items sizes bs /\ in_bins d items bs
  | SmartTableOf _ vars rows => SmartTableSpec.table_suits vars rows
  | LexTable _ xs ys => Forall SmartTableSpec.simple (xs ++ ys) /\ NoDup (xs ++ ys)
  | MinDistanceOf _ xs _ D R => (2 <= length xs)%nat /\ MinDistanceSpec.distance_matrix D /\ MinDistanceSpec.requirement_matrix (length xs) R
  | CircuitComponents o succ => no_pruning o /\ succ <> []
  | Rectangles _ xs ys ws hs => (length ys = length xs /\ length ws = length xs /\ length hs = length xs) /\ Forall (fun v => 0 <= lower_bound d v) (ws ++ hs)
  | _ => True
  end.

(** What is mentioned exists, and the handles are independent where they must be. *)
Definition well_posed (d : domains) (p : posted) : Prop :=
  Forall (var_known d) (mentions p) /\ Forall cond_sane (conditions p) /\ independent d p.

(** An assignment that is in every domain and satisfies every constraint. *)
Definition solves (d : domains) (ps : list posted) (a : assignment) : Prop := within a d /\ Forall (satisfies a) ps.

(** The handles between them fix every variable the constraints mention. *)
Definition decides_all (vs : list var_id) (ps : list posted) : Prop := Forall (fun p => Forall (decides vs) (mentions p)) ps.
