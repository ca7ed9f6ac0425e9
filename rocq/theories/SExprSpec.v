(** The grammar of s-expressions. *)
From Coq Require Import List Ascii.
From Verif Require Import SExpr.
Import ListNotations.
Local Open Scope char_scope.

(** Space, tab, newline, carriage return, form feed, vertical tab. *)
Definition white (c : ascii) : Prop := In c [" "; "009"; "010"; "011"; "012"; "013"].

(** Everything else, other than the parentheses, is part of an atom. *)
Definition atom_char (c : ascii) : Prop := ~ white c /\ c <> "(" /\ c <> ")".

Definition blank (t : text) : Prop := Forall white t.

(** Atoms that can be written. *)
Definition good_atom (a : text) : Prop := a <> [] /\ Forall atom_char a.

(** All the atoms in the expression can be written. *)
Fixpoint writable (e : sexpr) : Prop :=
  match e with
  | Atom a => good_atom a
  | SList es => fold_right (fun e P => writable e /\ P) True es
  end.

(** What follows an atom must not continue it. *)
Definition ends_before (t : text) : Prop := match t with [] => True | c :: _ => ~ atom_char c end.

Definition separated (e : sexpr) (following : text) : Prop := match e with Atom _ => ends_before following | SList _ => True end.

(** The text denotes the expression; the text is some expressions with white space
    before, between and after them. White space is needed only between two atoms. *)
Inductive denotes : text -> sexpr -> Prop :=
| denotes_atom a : good_atom a -> denotes a (Atom a)
| denotes_list t es : denotes_all t es -> denotes ("(" :: t ++ [")"]) (SList es)
with denotes_all : text -> list sexpr -> Prop :=
| denotes_none ws : blank ws -> denotes_all ws []
| denotes_more ws t e r es : blank ws -> denotes t e -> separated e r -> denotes_all r es -> denotes_all (ws ++ t ++ r) (e :: es).
