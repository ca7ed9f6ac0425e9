(** What Element means. *)
From Coq Require Import ZArith List.
From Verif Require Import Vars VarsSpec.
Import ListNotations.
Local Open Scope Z_scope.

(** The result is the entry that the index selects; the first entry's index is
    [start]. *)
Definition is_entry (result index : var_id) (start : Z) (array : list var_id) (a : assignment) : Prop :=
  exists i v, nth_error array i = Some v /\ var_value a index = start + Z.of_nat i /\ var_value a result = var_value a v.

Definition is_entry_2d (result index1 index2 : var_id) (start1 start2 : Z) (rows : list (list var_id)) (a : assignment) : Prop :=
  exists i row j v, nth_error rows i = Some row /\ nth_error row j = Some v /\
    var_value a index1 = start1 + Z.of_nat i /\ var_value a index2 = start2 + Z.of_nat j /\ var_value a result = var_value a v.
