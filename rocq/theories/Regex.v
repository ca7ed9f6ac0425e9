(** Regular expressions, compiled to automata.

    Models gcs/constraints/regular/regex.cc, and the constructor of Regular that takes
    an expression. Text is a list of characters. Simplifications: numbers in the text
    are unbounded; a set of values is a list; what the messages of exceptions say is
    left out. *)
From Coq Require Import ZArith List Bool Arith Ascii.
From Verif Require Import IntervalSet Vars State Epochs Engine Tracker Solve Layered RegexSpec.
Import ListNotations.
Local Open Scope Z_scope.

(** ** Tokens *)

(** gcs/constraints/regular/regex.cc:72-80. *)
Definition digit_value (c : ascii) : option N :=
  let n := N_of_ascii c in if ((48 <=? n) && (n <=? 57))%N then Some (n - 48)%N else None.

(** gcs/constraints/regular/regex.cc:81-97. *)
Definition symbol_token (c : ascii) : option token :=
  match c with
  | "|" => Some TUnion | "+" => Some TPlus | "*" => Some TStar | "(" => Some TGroupOpen | ")" => Some TGroupClose | "?" => Some TOptional
  | "{" => Some TQuantOpen | "}" => Some TQuantClose | "," => Some TComma | "." => Some TAny | "[" => Some TClassOpen | "]" => Some TClassClose
  | "-" => Some TClassRange | "^" => Some TClassNeg
  | _ => None
  end%char.

Definition is_blank (c : ascii) : bool := existsb (Ascii.eqb c) [" "; "009"; "010"]%char.

Definition put_number (value : option N) (ts : list token) : list token := match value with Some n => TInteger n :: ts | None => ts end.

(** tokenize, gcs/constraints/regular/regex.cc:63-102. The loop over a run of digits
    is the parameter [value], the number read so far. The token at the end is left
    out; [None] is the exception. *)
Fixpoint tokenize (value : option N) (s : list ascii) : option (list token) :=
  match s with
  | [] => Some (put_number value [])
  | c :: r =>
      match digit_value c with
      | Some d => tokenize (Some (match value with Some n => n * 10 + d | None => d end)%N) r
      | None =>
          option_map (put_number value)
            (if is_blank c then tokenize None r
             else match symbol_token c with Some t => option_map (cons t) (tokenize None r) | None => None end)
      end
  end.

(** ** Expressions *)

(** CoreNode, gcs/constraints/regular/regex.cc:110-124. *)
Inductive core : Type :=
| CEmpty
| CSymbols (vs : list Z)
| CConcat (a b : core)
| CUnion (a b : core)
| CStar (a : core).

(** Some more copies of an expression. *)
Fixpoint append_copies (result : core) (n : nat) (x : core) : core :=
  match n with
  | O => result
  | S n => append_copies (CConcat result x) n x
  end.

(** gcs/constraints/regular/regex.cc:175-183. *)
Definition repeat_exact (x : core) (n : N) : core :=
  if (n =? 0)%N then CEmpty else append_copies x (N.to_nat (n - 1)) x.

(** gcs/constraints/regular/regex.cc:186-189. *)
Definition repeat_at_least (x : core) (n : N) : core := CConcat (repeat_exact x n) (CStar x).

(** gcs/constraints/regular/regex.cc:192-198. *)
Definition repeat_between (x : core) (n m : N) : core := append_copies (repeat_exact x n) (N.to_nat (m - n)) (CUnion x CEmpty).

(** The values from one to another. *)
Definition value_range (from to : Z) : list Z := map (fun i => from + Z.of_nat i) (seq 0 (Z.to_nat (to - from + 1))).

(** parse_set_items, gcs/constraints/regular/regex.cc:334-354: the loop. *)
Fixpoint set_items (ts : list token) : option (list Z * list token) :=
  match ts with
  | TInteger n :: TClassRange :: TInteger m :: r =>
      let '(from, to) := if (m <? n)%N then (Z.of_N m, Z.of_N n) else (Z.of_N n, Z.of_N m) in
      option_map (fun '(vs, rest) => (value_range from to ++ vs, rest)) (set_items r)
  | TInteger _ :: TClassRange :: _ => None
  | TInteger n :: r => option_map (fun '(vs, rest) => (Z.of_N n :: vs, rest)) (set_items r)
  | _ => Some ([], ts)
  end.

(** parse_quantifier, gcs/constraints/regular/regex.cc:275-293. *)
Definition parse_quantifier (x : core) (ts : list token) : option (core * list token) :=
  match ts with
  | TInteger n :: TQuantClose :: r => Some (repeat_exact x n, r)
  | TInteger n :: TComma :: TQuantClose :: r => Some (repeat_at_least x n, r)
  | TInteger n :: TComma :: TInteger m :: TQuantClose :: r => if (m <? n)%N then None else Some (repeat_between x n m, r)
  | _ => None
  end.

(** gcs/constraints/regular/regex.cc:232-235. *)
Definition starts_atom (ts : list token) : bool :=
  match ts with
  | TInteger _ :: _ | TAny :: _ | TClassOpen :: _ | TGroupOpen :: _ => true
  | _ => false
  end.

Section Parser.
  Context (alphabet : list Z).

  (** The end of parse_class, gcs/constraints/regular/regex.cc:324-331. *)
  Definition class_values (negated : bool) (vs : list Z) : list Z :=
    if negated then filter (fun v => negb (existsb (Z.eqb v) vs)) alphabet else vs.

  (** parse_class after the bracket, gcs/constraints/regular/regex.cc:316-331 and
      338-339. *)
  Definition parse_class (ts : list token) : option (core * list token) :=
    let '(negated, ts) := match ts with TClassNeg :: r => (true, r) | _ => (false, ts) end in
    match ts with
    | TInteger _ :: _ =>
        match set_items ts with
        | Some (vs, TClassClose :: r) => Some (CSymbols (class_values negated vs), r)
        | _ => None
        end
    | _ => None
    end.

  (** gcs/constraints/regular/regex.cc:237-311. The result is the expression and the
      tokens that are left; [None] is the exception. There is always enough fuel:
      what happens without any is excluded by C53. *)
  Fixpoint parse_expression (fuel : nat) (ts : list token) {struct fuel} : option (core * list token) :=
    match fuel with
    | O => None
    | S fuel =>
        match parse_term fuel ts with
        | Some (x, TUnion :: r) => option_map (fun '(y, rest) => (CUnion x y, rest)) (parse_expression fuel r)
        | other => other
        end
    end
  with parse_term (fuel : nat) (ts : list token) {struct fuel} : option (core * list token) :=
    match fuel with
    | O => None
    | S fuel =>
        match parse_factor fuel ts with
        | Some (x, r) => if starts_atom r then option_map (fun '(y, rest) => (CConcat x y, rest)) (parse_term fuel r) else Some (x, r)
        | None => None
        end
    end
  with parse_factor (fuel : nat) (ts : list token) {struct fuel} : option (core * list token) :=
    match fuel with
    | O => None
    | S fuel =>
        match parse_atom fuel ts with
        | Some (x, TStar :: r) => Some (CStar x, r)
        | Some (x, TPlus :: r) => Some (CConcat x (CStar x), r)
        | Some (x, TOptional :: r) => Some (CUnion x CEmpty, r)
        | Some (x, TQuantOpen :: r) => parse_quantifier x r
        | other => other
        end
    end
  with parse_atom (fuel : nat) (ts : list token) {struct fuel} : option (core * list token) :=
    match fuel with
    | O => None
    | S fuel =>
        match ts with
        | TInteger n :: r => Some (CSymbols [Z.of_N n], r)
        | TAny :: r => Some (CSymbols alphabet, r)
        | TClassOpen :: r => parse_class r
        | TGroupOpen :: r =>
            match parse_expression fuel r with
            | Some (x, TGroupClose :: rest) => Some (x, rest)
            | _ => None
            end
        | _ => None
        end
    end.

  (** parse_regex, gcs/constraints/regular/regex.cc:357-364. *)
  Definition parse_regex (s : list ascii) : option core :=
    match tokenize None s with
    | Some ts =>
        match parse_expression (4 * S (length ts)) ts with
        | Some (x, []) => Some x
        | _ => None
        end
    | None => None
    end.
End Parser.

(** ** Searching *)

Section Search.
  Context (next : nat -> list nat).

  Definition is_in (xs : list nat) (x : nat) : bool := existsb (Nat.eqb x) xs.

  (** Those that have not been seen, each once. *)
  Fixpoint unseen (seen ys : list nat) : list nat :=
    match ys with
    | [] => []
    | y :: r => if is_in seen y then unseen seen r else y :: unseen (y :: seen) r
    end.

  (** The loop of the searches below, with a stack or a queue of what is left to do.
      The result is in the order in which things were found. *)
  Fixpoint explore (stack : bool) (fuel : nat) (seen todo : list nat) : list nat :=
    match fuel, todo with
    | S fuel, x :: rest =>
        let new := unseen seen (next x) in
        explore stack fuel (seen ++ new) (if stack then rev new ++ rest else rest ++ new)
    | _, _ => seen
    end.
End Search.

(** ** The automaton *)

(** ThompsonBuilder, gcs/constraints/regular/regex.cc:370-387: how many states there
    are, and the transitions, which the code keeps for each state. *)
Record builder : Type := mk_builder { b_states : nat; b_eps : list (nat * nat); b_sym : list (nat * Z * nat) }.

Definition no_states : builder := mk_builder 0 [] [].

(** Adds two states. *)
Definition add_two (b : builder) : builder := mk_builder (2 + b_states b) (b_eps b) (b_sym b).
Definition add_eps (es : list (nat * nat)) (b : builder) : builder := mk_builder (b_states b) (b_eps b ++ es) (b_sym b).
Definition add_sym (es : list (nat * Z * nat)) (b : builder) : builder := mk_builder (b_states b) (b_eps b) (b_sym b ++ es).

(** build, gcs/constraints/regular/regex.cc:388-430: the start and accepting states of
    the fragment. *)
Fixpoint build (x : core) (b : builder) : builder * (nat * nat) :=
  let s := b_states b in let a := S s in
  match x with
  | CEmpty => (add_eps [(s, a)] (add_two b), (s, a))
  | CSymbols vs => (add_sym (map (fun v => (s, v, a)) vs) (add_two b), (s, a))
  | CConcat x y =>
      let '(b, (xs, xa)) := build x b in
      let '(b, (ys, ya)) := build y b in
      (add_eps [(xa, ys)] b, (xs, ya))
  | CUnion x y =>
      let '(b, (xs, xa)) := build x (add_two b) in
      let '(b, (ys, ya)) := build y b in
      (add_eps [(s, xs); (s, ys); (xa, a); (ya, a)] b, (s, a))
  | CStar x =>
      let '(b, (xs, xa)) := build x (add_two b) in
      (add_eps [(s, xs); (s, a); (xa, xs); (xa, a)] b, (s, a))
  end.

Definition eps_from (b : builder) (q : nat) : list nat := map snd (filter (fun e => Nat.eqb (fst e) q) (b_eps b)).
Definition sym_from (b : builder) (q : nat) : list (Z * nat) := map (fun '(_, v, t) => (v, t)) (filter (fun '(p, _, _) => Nat.eqb p q) (b_sym b)).

(** closure, gcs/constraints/regular/regex.cc:443-454: a set is in ascending order. *)
Definition closure (b : builder) (q : nat) : list nat :=
  let seen := explore (eps_from b) true (b_states b) [q] [q] in
  filter (is_in seen) (seq 0 (b_states b)).

(** The transitions out of a state, gcs/constraints/regular/regex.cc:467-471. *)
Definition moves_from (b : builder) (q : nat) : list (Z * nat) := flat_map (sym_from b) (closure b q).

(** old_to_new, gcs/constraints/regular/regex.cc:456-478: the states in the order in
    which they are numbered. *)
Definition kept_states (b : builder) (start : nat) : list nat :=
  explore (fun q => map snd (moves_from b q)) false (b_states b) [start] [start].

Fixpoint index_of (x : nat) (xs : list nat) : Z :=
  match xs with
  | [] => 0
  | y :: r => if Nat.eqb x y then 0 else 1 + index_of x r
  end.

(** RegexNfa, gcs/constraints/regular/regex.hh:23-28. *)
Record nfa : Type := mk_nfa { num_states : nat; nfa_arrows : list arrow; nfa_final : list Z }.

(** build_nfa, gcs/constraints/regular/regex.cc:437-493. *)
Definition build_nfa (root : core) : nfa :=
  let '(b, (start, accept)) := build root no_states in
  let states := kept_states b start in
  mk_nfa (length states)
    (flat_map (fun '(i, q) => map (fun '(v, t) => (i, v, index_of t states)) (moves_from b q)) (with_index 0 states))
    (map fst (filter (fun '(_, q) => is_in (closure b q) accept) (with_index 0 states))).

(** regex_to_nfa, gcs/constraints/regular/regex.cc:536-541. *)
Definition regex_to_nfa (s : list ascii) (alphabet : list Z) : option nfa := option_map build_nfa (parse_regex alphabet s).

(** ** The reference matcher *)

(** match_ends, gcs/constraints/regular/regex.cc:497-533. *)
Fixpoint match_ends (x : core) (w : list Z) (start : nat) : list nat :=
  match x with
  | CEmpty => [start]
  | CSymbols vs => match nth_error w start with Some v => if existsb (Z.eqb v) vs then [S start] else [] | None => [] end
  | CConcat x y => flat_map (match_ends y w) (match_ends x w start)
  | CUnion x y => match_ends x w start ++ match_ends y w start
  | CStar x => explore (match_ends x w) true (S (length w)) [start] [start]
  end.

(** regex_reference_accepts, gcs/constraints/regular/regex.cc:543-548. *)
Definition regex_reference_accepts (s : list ascii) (alphabet w : list Z) : option bool :=
  option_map (fun x => is_in (match_ends x w 0) (length w)) (parse_regex alphabet s).

(** ** The constraint *)

(** The values from the least to the greatest of the variables', regular.cc:551-563. *)
Definition regex_alphabet (d : domains) (vars : list var_id) : list Z :=
  match flat_map (each_value d) vars with
  | [] => []
  | v :: vs => value_range (fold_left Z.min vs v) (fold_left Z.max vs v)
  end.

(** Regular from an expression, regular.cc:486-490 and 550-570; [None] is the
    exception. *)
Definition regular_expression (vars : list var_id) (s : list ascii) : option installer :=
  match parse_regex [] s with
  | None => None
  | Some _ => Some (fun d cs =>
      match regex_to_nfa s (regex_alphabet d vars) with
      | Some m => regular vars (nfa_arrows m) (nfa_final m) d cs
      | None => mk_installation [] [] [] []
      end)
  end.
