(** Regular expressions over integers: how they are written, and what they match. *)
From Coq Require Import ZArith List Ascii.
Import ListNotations.
Local Open Scope Z_scope.

(** ** What they match *)

(** A value, any value, one of a class or, if negated, any value outside it, and an
    expression repeated so many times at least and, unless there is no limit, at most. *)
Inductive regex : Type :=
| Literal (v : Z)
| AnyValue
| Class (negated : bool) (ranges : list (Z * Z))
| Then (r s : regex)
| Or (r s : regex)
| Repeat (r : regex) (least : nat) (most : option nat).

(** The ends of a range can be given in either order. *)
Definition listed_value (ranges : list (Z * Z)) (v : Z) : Prop :=
  exists a b, In (a, b) ranges /\ (a <= v <= b \/ b <= v <= a).

(** [any] is what the wildcard stands for. *)
Fixpoint matches (any : Z -> Prop) (r : regex) (w : list Z) : Prop :=
  match r with
  | Literal v => w = [v]
  | AnyValue => exists v, w = [v] /\ any v
  | Class false ranges => exists v, w = [v] /\ listed_value ranges v
  | Class true ranges => exists v, w = [v] /\ any v /\ ~ listed_value ranges v
  | Then r s => exists u v, w = u ++ v /\ matches any r u /\ matches any s v
  | Or r s => matches any r w \/ matches any s w
  | Repeat r least most => exists ws, w = concat ws /\ Forall (matches any r) ws /\ (least <= length ws)%nat /\
      match most with Some n => (length ws <= n)%nat | None => True end
  end.

(** ** How they are written *)

Inductive token : Type :=
| TInteger (n : N) | TUnion | TPlus | TStar | TGroupOpen | TGroupClose | TOptional | TQuantOpen | TQuantClose | TComma | TAny
| TClassOpen | TClassClose | TClassRange | TClassNeg.

Definition symbols : list (ascii * token) :=
  [("|", TUnion); ("+", TPlus); ("*", TStar); ("(", TGroupOpen); (")", TGroupClose); ("?", TOptional); ("{", TQuantOpen); ("}", TQuantClose); (",", TComma);
   (".", TAny); ("[", TClassOpen); ("]", TClassClose); ("-", TClassRange); ("^", TClassNeg)]%char.

(** Space, tab and newline. *)
Definition blank_char (c : ascii) : Prop := In c [" "; "009"; "010"]%char.

Definition digits : list (ascii * N) := [("0", 0); ("1", 1); ("2", 2); ("3", 3); ("4", 4); ("5", 5); ("6", 6); ("7", 7); ("8", 8); ("9", 9)]%char%N.

(** The digits are those of the number, the most significant one first. *)
Inductive decimal : list ascii -> N -> Prop :=
| decimal_one c d : In (c, d) digits -> decimal [c] d
| decimal_more cs n c d : decimal cs n -> In (c, d) digits -> decimal (cs ++ [c]) (10 * n + d).

Definition no_digit_first (s : list ascii) : Prop := forall c d r, s = c :: r -> ~ In (c, d) digits.

(** The characters make up the tokens. A number takes all the digits there are. *)
Inductive lexes : list ascii -> list token -> Prop :=
| lexes_end : lexes [] []
| lexes_blank c s ts : blank_char c -> lexes s ts -> lexes (c :: s) ts
| lexes_number cs n s ts : decimal cs n -> no_digit_first s -> lexes s ts -> lexes (cs ++ s) (TInteger n :: ts)
| lexes_symbol c t s ts : In (c, t) symbols -> lexes s ts -> lexes (c :: s) (t :: ts).

Inductive class_items : list (Z * Z) -> list token -> Prop :=
| items_end : class_items [] []
| items_value n is ts : class_items is ts -> class_items ((Z.of_N n, Z.of_N n) :: is) (TInteger n :: ts)
| items_range n m is ts : class_items is ts -> class_items ((Z.of_N n, Z.of_N m) :: is) (TInteger n :: TClassRange :: TInteger m :: ts).

(** The grammar. Repetition binds most tightly, then juxtaposition, then |. *)
Inductive expression : regex -> list token -> Prop :=
| is_term r ts : term r ts -> expression r ts
| is_either r s ts us : term r ts -> expression s us -> expression (Or r s) (ts ++ TUnion :: us)
with term : regex -> list token -> Prop :=
| is_factor r ts : factor r ts -> term r ts
| is_sequence r s ts us : factor r ts -> term s us -> term (Then r s) (ts ++ us)
with factor : regex -> list token -> Prop :=
| is_atom r ts : atom r ts -> factor r ts
| is_star r ts : atom r ts -> factor (Repeat r 0 None) (ts ++ [TStar])
| is_plus r ts : atom r ts -> factor (Repeat r 1 None) (ts ++ [TPlus])
| is_optional r ts : atom r ts -> factor (Repeat r 0 (Some 1%nat)) (ts ++ [TOptional])
| is_exactly r ts n : atom r ts -> factor (Repeat r (N.to_nat n) (Some (N.to_nat n))) (ts ++ [TQuantOpen; TInteger n; TQuantClose])
| is_at_least r ts n : atom r ts -> factor (Repeat r (N.to_nat n) None) (ts ++ [TQuantOpen; TInteger n; TComma; TQuantClose])
| is_between r ts n m : atom r ts -> (n <= m)%N -> factor (Repeat r (N.to_nat n) (Some (N.to_nat m))) (ts ++ [TQuantOpen; TInteger n; TComma; TInteger m; TQuantClose])
with atom : regex -> list token -> Prop :=
| is_literal n : atom (Literal (Z.of_N n)) [TInteger n]
| is_any : atom AnyValue [TAny]
| is_class is ts : is <> [] -> class_items is ts -> atom (Class false is) (TClassOpen :: ts ++ [TClassClose])
| is_negated is ts : is <> [] -> class_items is ts -> atom (Class true is) (TClassOpen :: TClassNeg :: ts ++ [TClassClose])
| is_group r ts : expression r ts -> atom r (TGroupOpen :: ts ++ [TGroupClose]).

(** The text is a way to write the expression. *)
Definition written (s : list ascii) (r : regex) : Prop := exists ts, lexes s ts /\ expression r ts.
