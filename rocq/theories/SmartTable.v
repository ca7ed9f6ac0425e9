(** Model of SmartTable, gcs/constraints/smart_table/smart_table.{hh,cc}, and of
    LexSmartTable, gcs/constraints/lex/lex_smart_table.cc: tables whose rows are
    conditions rather than values. *)
From Coq Require Import ZArith List Bool.
From Verif Require Import IntervalSet Vars State Engine Epochs Tracker Passes Solve.
From Verif Require Equals.
Import ListNotations.
Local Open Scope Z_scope.

(** ** Rows *)

(** SmartEntryConstraint, smart_table.hh:15-25, for what compares. *)
Inductive test : Type := IsLess | IsLessEqual | IsEqual | IsNotEqual | IsGreater | IsGreaterEqual.

(** BinaryEntry, UnaryValueEntry and UnarySetEntry, smart_table.hh:30-50. Only what the
    functions of lines 98-168 create: a comparison, or a set that the value is in or is
    not in. *)
Inductive entry : Type :=
| Compare (v w : var_id) (t : test)
| CompareValue (v : var_id) (x : Z) (t : test)
| InSet (v : var_id) (values : list Z) (inside : bool).

Definition row : Type := list entry.

(** The handles an entry is about. *)
Definition entry_vars (e : entry) : list var_id :=
  match e with Compare v w _ => [v; w] | CompareValue v _ _ => [v] | InSet v _ _ => [v] end.

(** deview, smart_table.cc:146-154: the variable, by its number. Constants never get this
    far. *)
Definition var_number (v : var_id) : nat := match v with VSimple n => n | VView n _ _ => n | VConst _ => 0 end.

(** ** The trees of a row *)

(** adjacent_edges[x], smart_table.cc:576-601. *)
Definition touches (x : nat) (e : entry) : bool := existsb (fun v => Nat.eqb (var_number v) x) (entry_vars e).
Definition adjacent (r : row) (x : nat) : list entry := filter (touches x) r.

(** node_visited, and the entries of the tree with the levels they are at, in the order in
    which they are put there. *)
Definition growth : Type := (list nat * list (nat * entry))%type.
Definition visited (x : nat) (g : growth) : bool := mem_nat x (fst g).
Definition add_entry (level : nat) (e : entry) (g : growth) : growth := (fst g, snd g ++ [(level, e)]).

(** build_tree, smart_table.cc:542-570. *)
Fixpoint build_tree (fuel : nat) (r : row) (root level : nat) (g : growth) : growth :=
  match fuel with
  | O => g
  | S f => fold_left (fun g e =>
      match e with
      | Compare v w _ =>
          if negb (visited (var_number v) g) then build_tree f r (var_number v) (S level) (add_entry level e g)
          else if negb (visited (var_number w) g) then build_tree f r (var_number w) (S level) (add_entry level e g)
          else g
      | _ => add_entry level e g
      end) (adjacent r root) (root :: fst g, snd g)
  end.

(** The levels in the order in which they are filtered, the last one first, as in
    smart_table.cc:326-327 and 371-372. *)
Definition tree_edges (out : list (nat * entry)) : list entry :=
  map snd (flat_map (fun l => filter (fun p => Nat.eqb (fst p) l) out) (rev (seq 0 (S (list_max (map fst out)))))).

(** The variables of a row, in some order. *)
Definition row_nodes (r : row) : list nat := map var_number (flat_map entry_vars r).

(** build_forests, smart_table.cc:572-616, for one row. The order in which an
    unordered_map is gone through is not specified: here it is [order], so far as that
    says, and then the order of the row. *)
Fixpoint grow_forest (r : row) (roots seen : list nat) : list (list entry) :=
  match roots with
  | [] => []
  | x :: more =>
      if mem_nat x seen then grow_forest r more seen
      else let '(seen', out) := build_tree (S (length (row_nodes r))) r x 0 (seen, []) in tree_edges out :: grow_forest r more seen'
  end.

Definition forest (order : list nat) (r : row) : list (list entry) :=
  grow_forest r (filter (fun x => mem_nat x (row_nodes r)) order ++ row_nodes r) [].

(** ** Values *)

(** VariableDomainMap, smart_table.cc:104. What is missing is empty. *)
Definition values_of : Type := var_id -> list Z.
Definition set_at (m : values_of) (v : var_id) (l : list Z) : values_of := fun w => if Equals.var_eqb w v then l else m w.

(** get_for_actual_var, smart_table.cc:111-128. A constant is an exception, see [smart_table]. *)
Definition get_values (m : values_of) (v : var_id) : list Z :=
  match v with
  | VConst _ => []
  | VView n neg add => map (fun x => (if neg then -1 else 1) * x + add) (m (VSimple n))
  | VSimple n => m (VSimple n)
  end.

(** set_for_actual_var, smart_table.cc:130-144. For a view the new list is as long as the
    old one, and what is not filled is 0. *)
Definition set_values (m : values_of) (v : var_id) (l : list Z) : values_of :=
  match v with
  | VConst _ => m
  | VView n neg add => set_at m (VSimple n) (map (fun x => (if neg then -1 else 1) * (x - add)) l ++ repeat 0 (length (m (VSimple n)) - length l))
  | VSimple n => set_at m (VSimple n) l
  end.

(** std::ranges::sort. *)
Fixpoint insert_value (x : Z) (l : list Z) : list Z :=
  match l with [] => [x] | y :: r => if x <=? y then x :: l else y :: insert_value x r end.
Definition sort_values (l : list Z) : list Z := fold_right insert_value [] l.

(** std::ranges::set_intersection and set_difference. *)
Fixpoint meet (l : list Z) : list Z -> list Z :=
  fix inner (k : list Z) : list Z :=
    match l, k with
    | [], _ | _, [] => []
    | x :: l', y :: k' => if x <? y then meet l' k else if y <? x then inner k' else x :: meet l' k'
    end.

Fixpoint minus (l : list Z) : list Z -> list Z :=
  fix inner (k : list Z) : list Z :=
    match l, k with
    | [], _ => []
    | _, [] => l
    | x :: l', y :: k' => if x <? y then x :: minus l' k else if y <? x then inner k' else minus l' k'
    end.

(** The first and the last of a sorted list: undefined behaviour if there is none. *)
Definition first_value (l : list Z) : Z := hd 0 l.
Definition last_value (l : list Z) : Z := last l 0.

(** The comparisons of smart_table.cc:308-313. *)
Definition passes_test (t : test) (x y : Z) : bool :=
  match t with
  | IsLess => x <? y
  | IsLessEqual => x <=? y
  | IsEqual => x =? y
  | IsNotEqual => negb (x =? y)
  | IsGreater => y <? x
  | IsGreaterEqual => y <=? x
  end.

(** smart_table.cc:182-280, without the proof: the values that are left of either variable. *)
Definition filter_pair (t : test) (l k : list Z) : list Z * list Z :=
  match t with
  | IsLess => (filter (fun x => x <? last_value k) l, filter (fun y => first_value l <? y) k)
  | IsLessEqual => (filter (fun x => x <=? last_value k) l, filter (fun y => first_value l <=? y) k)
  | IsEqual => (meet l k, meet l k)
  | IsNotEqual =>
      if Nat.eqb (length l) 1 then (l, minus k l)
      else if Nat.eqb (length k) 1 then (minus l k, k)
      else (l, k)
  | IsGreater => (filter (fun x => first_value k <? x) l, filter (fun y => y <? last_value l) k)
  | IsGreaterEqual => (filter (fun x => first_value k <=? x) l, filter (fun y => y <=? last_value l) k)
  end.

(** filter_edge, smart_table.cc:167-321. *)
Definition filter_edge (e : entry) (m : values_of) : values_of :=
  match e with
  | Compare v w t =>
      let '(l, k) := filter_pair t (sort_values (get_values m v)) (sort_values (get_values m w)) in
      set_values (set_values m v l) w k
  | InSet v values inside =>
      set_values m v (if inside then meet (sort_values (get_values m v)) (sort_values values) else minus (sort_values (get_values m v)) (sort_values values))
  | CompareValue v x t => set_values m v (filter (fun y => passes_test t y x) (sort_values (get_values m v)))
  end.

(** filter_and_check_valid, smart_table.cc:323-356; [None] if it returns false. *)
Definition is_nil {X : Type} (l : list X) : bool := match l with [] => true | _ => false end.

Fixpoint filter_valid (es : list entry) (m : values_of) : option values_of :=
  match es with
  | [] => Some m
  | e :: more =>
      let m' := filter_edge e m in
      if existsb (fun v => is_nil (get_values m' v)) (entry_vars e) then None else filter_valid more m'
  end.

Definition holds_value (l : list Z) (x : Z) : bool := existsb (Z.eqb x) l.

(** remove_supported, smart_table.cc:358-366. *)
Definition remove_supported (unsupported : values_of) (v : var_id) (supported : list Z) : values_of :=
  set_at unsupported v (filter (fun x => negb (holds_value supported x)) (sort_values (nodup Z.eq_dec (unsupported v)))).

(** filter_again_and_remove_supported, smart_table.cc:368-395. *)
Fixpoint filter_again (es : list entry) (m unsupported : values_of) : values_of :=
  match es with
  | [] => unsupported
  | e :: more =>
      let m' := filter_edge e m in
      filter_again more m' (fold_left (fun u v => remove_supported u v (get_values m' v)) (entry_vars e) unsupported)
  end.

(** get_unrestricted, smart_table.cc:397-418. *)
Definition in_list (vs : list var_id) (v : var_id) : bool := existsb (Equals.var_eqb v) vs.
Definition unrestricted (vars : list var_id) (r : row) : list var_id := filter (fun v => negb (in_list (flat_map entry_vars r) v)) vars.

(** ** Propagation *)

(** smart_table.cc:424-430 and 448-452: all values, listed once for each time the variable
    is. *)
Definition all_values (d : domains) (vars : list var_id) : values_of :=
  fun v => flat_map (fun w => if Equals.var_eqb v w then each_value d w else []) vars.

Definition is_zero (d : domains) (v : var_id) : bool := match optional_single_value d v with Some x => x =? 0 | None => false end.

(** smart_table.cc:446-461: what is still unsupported, and whether every tree is valid. *)
Fixpoint try_trees (start : values_of) (trees : list (list entry)) (unsupported : values_of) : values_of * bool :=
  match trees with
  | [] => (unsupported, true)
  | es :: more =>
      match filter_valid es start with
      | None => (unsupported, false)
      | Some m => try_trees start more (filter_again es m unsupported)
      end
  end.

(** smart_table.cc:434-469: the loop over the rows, each with its selector and its trees. *)
Fixpoint try_rows (vars : list var_id) (rows : list (var_id * row * list (list entry))) (unsupported : values_of) (finish : values_of -> prog) : prog :=
  match rows with
  | [] => finish unsupported
  | (selector, r, trees) :: more => Look (fun d =>
      if is_zero d selector then try_rows vars more unsupported finish
      else
        let '(unsupported, valid) := try_trees (all_values d vars) trees unsupported in
        infer_when (negb valid) (LCond (cond_eq selector 0)) (Look (fun d =>
          try_rows vars more
            (if is_zero d selector then unsupported else fold_left (fun u v => set_at u v []) (unrestricted vars r) unsupported) finish)))
  end.

(** smart_table.cc:471-477, 499-515 and 533-539. *)
Definition remove_unsupported (vars selectors : list var_id) (unsupported : values_of) : prog :=
  Look (fun d =>
    if forallb (is_zero d) selectors then Infer LFalse Stop
    else sequence vars (fun v rest => sequence (unsupported v) (fun x rest => Infer (LCond (cond_ne v x)) rest) rest) Stop).

(** propagate_using_smart_str, smart_table.cc:420-540. *)
Definition smart_pass (vars : list var_id) (rows : list (var_id * row * list (list entry))) : prog :=
  Look (fun d => try_rows vars rows (all_values d vars) (remove_unsupported vars (map (fun x => fst (fst x)) rows))).

(** ** Posting *)

(** smart_table.cc:71-80 and 95-99. *)
Definition same_underlying (v w : var_id) : bool :=
  match v, w with
  | VConst c, VConst c' => c =? c'
  | VConst _, _ | _, VConst _ => false
  | _, _ => Nat.eqb (var_number v) (var_number w)
  end.
Definition aliased_entry (e : entry) : bool := match e with Compare v w _ => same_underlying v w | _ => false end.

(** What an entry must not be about: a constant (UnimplementedException, smart_table.cc:114
    and 133), or a variable that is not in the list (std::out_of_range, line 124). These
    are thrown when the entry is first looked at; here when the constraint is posted. A
    view of a variable that is not in the list is not caught. *)
Definition unusable (vars : list var_id) (v : var_id) : bool :=
  match v with VConst _ => true | VSimple _ => negb (in_list vars v) | VView _ _ _ => false end.

Definition table_refused (vars : list var_id) (rows : list row) : bool :=
  existsb (existsb (fun e => aliased_entry e || existsb (unusable vars) (entry_vars e))) rows.

(** SmartTable{vars, rows}, smart_table.cc:82-100, 779-786 and 868-886. *)
Definition smart_table_install (orders : list (list nat)) (vars : list var_id) (rows : list row) : installer := fun d _ =>
  mk_installation (repeat [(0, 1)] (length rows)) []
    [body_propagator (once (smart_pass vars
       (map (fun i => (VSimple (length d + i), nth i rows [], forest (nth i orders []) (nth i rows []))) (seq 0 (length rows))))) vars [] []] [].

Definition smart_table (orders : list (list nat)) (vars : list var_id) (rows : list row) : option installer :=
  if table_refused vars rows then None else Some (smart_table_install orders vars rows).

(** LexSmartTable{left, right}, lex_smart_table.cc:45-69. *)
Definition lex_row (left right : list var_id) (i : nat) : row :=
  map (fun j => Compare (nth j left (VConst 0)) (nth j right (VConst 0)) (if Nat.ltb j i then IsEqual else IsGreater)) (seq 0 (S i)).

Definition lex_smart_table (orders : list (list nat)) (left right : list var_id) : option installer :=
  smart_table orders (left ++ right) (map (lex_row left right) (seq 0 (Nat.min (length left) (length right)))).
