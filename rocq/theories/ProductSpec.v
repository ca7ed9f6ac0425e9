(** What the filtering of products is measured against. *)
From Coq Require Import ZArith.
Local Open Scope Z_scope.

(** Some number between [yl] and [yu], whole or not, times [b] is between [zl] and
    [zu]: what [b] times such numbers can be reaches from the one end to the other. *)
Definition reaches (b yl yu zl zu : Z) : Prop := Z.min (b * yl) (b * yu) <= zu /\ zl <= Z.max (b * yl) (b * yu).
