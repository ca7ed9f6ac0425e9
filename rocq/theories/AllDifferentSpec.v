(** What it takes for AllDifferent with value consistency to work. *)
From Coq Require Import ZArith List.
From Verif Require Import Vars VarsSpec State StateSpec ContractSpec.
Import ListNotations.
Local Open Scope Z_scope.

(** A handle that has only one value left shares it with no other handle, so that
    nothing remains to be done about it. In particular this is so if every handle
    has several values. *)
Definition no_clash_with_fixed (d : domains) (vars : list var_id) : Prop :=
  forall before v after w a, vars = before ++ v :: after -> fixed d v -> In w (before ++ after) -> within a d ->
    var_value a w <> var_value a v.
