(** The properties of s-expressions. *)
From Coq Require Import List Ascii String.
From Verif Require Import SExpr SExprSpec SExprProofs.
Import ListNotations.

Definition of_string : string -> text := list_ascii_of_string.

(** (linear (1 x) (-2 y)  ()) with assorted white space. *)
Definition messy : text := of_string " (linear(1 x)(-2 y)  () )  ".
Definition tidy : text := of_string "(linear (1 x) (-2 y) ())".
Definition tree : sexpr :=
  SList [Atom (of_string "linear"); SList [Atom (of_string "1"); Atom (of_string "x")];
    SList [Atom (of_string "-2"); Atom (of_string "y")]; SList []].

(** What is written is read back as it was, exactly for the expressions whose atoms
    are not empty and contain no white space or parentheses. *)
Theorem C35_round_trip : forall e, parse_s_expr (render e) = Value e <-> writable e.
Proof. exact round_trip_iff. Qed.
Print Assumptions C35_round_trip.

Example C35_round_trip_example : writable tree /\ render tree = tidy /\ parse_s_expr tidy = Value tree.
Proof. split; [apply round_trip_iff; vm_compute; reflexivity|]. split; vm_compute; reflexivity. Qed.

(** Different expressions are written differently. *)
Theorem C35_written_apart : forall e e', writable e -> writable e' -> render e = render e' -> e = e'.
Proof. exact render_distinct. Qed.
Print Assumptions C35_written_apart.

Example C35_written_apart_example : render tree <> render (SList [tree]).
Proof. vm_compute. discriminate. Qed.

(** Exactly the texts that are an expression of the grammar, with white space before
    and after it, are accepted, and the expression is the one the text denotes. *)
Theorem C35_reads_the_grammar : forall t e,
  parse_s_expr t = Value e <-> exists before w after, t = before ++ w ++ after /\ blank before /\ denotes w e /\ blank after.
Proof. exact parse_spec. Qed.
Print Assumptions C35_reads_the_grammar.

Example C35_reads_the_grammar_example : parse_s_expr messy = Value tree.
Proof. vm_compute. reflexivity. Qed.

(** The grammar is unambiguous. *)
Theorem C35_unambiguous : forall t e e', denotes t e -> denotes t e' -> e = e'.
Proof. exact unambiguous. Qed.
Print Assumptions C35_unambiguous.

(** Reading ends, with an expression or one of the documented errors, whatever the
    text; the model's fuel is never used up. *)
Theorem C35_reading_ends : forall t,
  ((exists e, parse_s_expr t = Value e) \/ (exists x, parse_s_expr t = Throws x)) /\
  ((exists es, parse_s_expr_seq t = Value es) \/ (exists x, parse_s_expr_seq t = Throws x)).
Proof. intro t. exact (conj (parse_answers t) (parse_seq_answers t)). Qed.
Print Assumptions C35_reading_ends.

Example C35_reading_ends_example :
  parse_s_expr (of_string "(a (b c)") = Throws Unclosed /\ parse_s_expr (of_string "a)") = Throws Trailing /\
  parse_s_expr (of_string ")") = Throws UnexpectedClose /\ parse_s_expr (of_string "  ") = Throws EmptyInput.
Proof. vm_compute. repeat split. Qed.

Theorem C35_blank_is_empty : forall t, parse_s_expr t = Throws EmptyInput <-> blank t.
Proof. exact parse_empty. Qed.
Print Assumptions C35_blank_is_empty.

(** Reading what was written from what was read gives the same again. *)
Theorem C35_read_write_read : forall t e, parse_s_expr t = Value e -> parse_s_expr (render e) = Value e.
Proof. exact read_write_read. Qed.
Print Assumptions C35_read_write_read.

(** A sequence of expressions: accepted exactly when it is one, the same after being
    written without its outermost parentheses, and after being written a line each. *)
Theorem C35_sequences : forall t es, parse_s_expr_seq t = Value es <-> denotes_all t es.
Proof. exact parse_seq_spec. Qed.
Print Assumptions C35_sequences.

Theorem C35_bare_round_trip : forall es, Forall writable es -> parse_s_expr_seq (render_bare (SList es)) = Value es.
Proof. exact seq_round_trip. Qed.
Print Assumptions C35_bare_round_trip.

Theorem C35_lines_round_trip : forall es, Forall writable es ->
  parse_s_expr_seq (flat_map (fun e => render e ++ ["010"%char]) es) = Value es.
Proof. exact lines_round_trip. Qed.
Print Assumptions C35_lines_round_trip.

Example C35_sequences_example :
  parse_s_expr_seq (of_string "a(b)c d") = Value [Atom (of_string "a"); SList [Atom (of_string "b")]; Atom (of_string "c"); Atom (of_string "d")].
Proof. vm_compute. reflexivity. Qed.

(** Not every expression that can be built is written so that it can be read back: an
    empty atom vanishes, and an atom with a space in it becomes two. *)
Theorem C35_unwritable_refuted :
  (exists a b, a <> b /\ render a = render b) /\
  (exists a b, a <> b /\ parse_s_expr (render a) = Value b).
Proof.
  split.
  - exists (SList [Atom []]), (SList []). split; [discriminate|reflexivity].
  - exists (SList [Atom (of_string "a b")]), (SList [Atom (of_string "a"); Atom (of_string "b")]). split; [discriminate|vm_compute; reflexivity].
Qed.
Print Assumptions C35_unwritable_refuted.
