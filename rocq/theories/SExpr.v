(** S-expressions, read and written.

    Models gcs/innards/s_expr.cc and gcs/innards/s_expr.hh. Text is a list of
    characters; the reader's position is the text that remains. *)
From Coq Require Import List Bool Ascii Arith.
Import ListNotations.
Local Open Scope char_scope.

Definition text : Type := list ascii.

(** gcs/innards/s_expr.hh:52-56. *)
Inductive sexpr : Type :=
| Atom (a : text)
| SList (es : list sexpr).

(** The SExprParseErrors, by where they are thrown. *)
Inductive parse_error : Type := ExpectingTerm | UnexpectedClose | Unclosed | EmptyInput | Trailing.

(** [OutOfFuel] is no behaviour of the code; it is proved impossible. *)
Inductive result (A : Type) : Type :=
| Value (a : A)
| Throws (e : parse_error)
| OutOfFuel.
Arguments Value {A}. Arguments Throws {A}. Arguments OutOfFuel {A}.

(** gcs/innards/s_expr.cc:62-65; after the space come tab, newline, carriage
    return, form feed and vertical tab. *)
Definition is_space (c : ascii) : bool :=
  existsb (Ascii.eqb c) [" "; "009"; "010"; "013"; "012"; "011"].

Definition is_open (c : ascii) : bool := Ascii.eqb c "(".
Definition is_close (c : ascii) : bool := Ascii.eqb c ")".

(** gcs/innards/s_expr.cc:76-80. *)
Fixpoint skip_whitespace (t : text) : text :=
  match t with
  | c :: r => if is_space c then skip_whitespace r else t
  | [] => []
  end.

(** gcs/innards/s_expr.cc:83-87. *)
Definition at_end (t : text) : bool := match skip_whitespace t with [] => true | _ => false end.

(** gcs/innards/s_expr.cc:113-116: the characters of an atom, and what remains. *)
Fixpoint take_atom (t : text) : text * text :=
  match t with
  | c :: r => if negb (is_space c) && negb (is_open c) && negb (is_close c) then let '(a, rest) := take_atom r in (c :: a, rest) else ([], t)
  | [] => ([], [])
  end.

(** gcs/innards/s_expr.cc:89-117; [read_children] is the loop of lines 99-109. *)
Fixpoint read_one (fuel : nat) (t : text) : result (sexpr * text) :=
  match fuel with
  | O => OutOfFuel
  | S fuel =>
      match skip_whitespace t with
      | [] => Throws ExpectingTerm
      | c :: r =>
          if is_close c then Throws UnexpectedClose
          else if is_open c then
            match read_children fuel r with
            | Value (children, rest) => Value (SList children, rest)
            | Throws e => Throws e
            | OutOfFuel => OutOfFuel
            end
          else let '(a, rest) := take_atom (c :: r) in Value (Atom a, rest)
      end
  end
with read_children (fuel : nat) (t : text) : result (list sexpr * text) :=
  match fuel with
  | O => OutOfFuel
  | S fuel =>
      match skip_whitespace t with
      | [] => Throws Unclosed
      | c :: r =>
          if is_close c then Value ([], r)
          else
            match read_one fuel (c :: r) with
            | Value (e, rest) =>
                match read_children fuel rest with
                | Value (es, rest') => Value (e :: es, rest')
                | Throws x => Throws x
                | OutOfFuel => OutOfFuel
                end
            | Throws x => Throws x
            | OutOfFuel => OutOfFuel
            end
      end
  end.

(** More than any text can need. *)
Definition enough (t : text) : nat := 2 * length t + 2.

(** gcs/innards/s_expr.cc:121-130. *)
Definition parse_s_expr (t : text) : result sexpr :=
  if at_end t then Throws EmptyInput
  else
    match read_one (enough t) t with
    | Value (e, rest) => if at_end rest then Value e else Throws Trailing
    | Throws x => Throws x
    | OutOfFuel => OutOfFuel
    end.

(** gcs/innards/s_expr.cc:132-139. *)
Fixpoint read_all (fuel : nat) (t : text) : result (list sexpr) :=
  match fuel with
  | O => OutOfFuel
  | S fuel' =>
      if at_end t then Value []
      else
        match read_one (enough t) t with
        | Value (e, rest) =>
            match read_all fuel' rest with
            | Value es => Value (e :: es)
            | Throws x => Throws x
            | OutOfFuel => OutOfFuel
            end
        | Throws x => Throws x
        | OutOfFuel => OutOfFuel
        end
  end.

Definition parse_s_expr_seq (t : text) : result (list sexpr) := read_all (S (length t)) t.

(** The children, each after the first preceded by a space:
    gcs/innards/s_expr.hh:124-129. *)
Fixpoint join (first : bool) (ts : list text) : text :=
  match ts with
  | [] => []
  | t :: r => (if first then [] else [" "]) ++ t ++ join false r
  end.

(** gcs/innards/s_expr.hh:116-133: format "{}", and format "{:#}", which leaves out
    the outermost parentheses. *)
Fixpoint render (e : sexpr) : text :=
  match e with
  | Atom a => a
  | SList es => ["("] ++ join true (map render es) ++ [")"]
  end.

Definition render_bare (e : sexpr) : text :=
  match e with
  | Atom a => a
  | SList es => join true (map render es)
  end.
