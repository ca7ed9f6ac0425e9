(** The Luby sequence, as usually defined: 1, 1, 2, 1, 1, 2, 4, ... *)
From Coq Require Import NArith.

Local Open Scope N_scope.

(** Term number [i], counting from one, is 2^k if [i] is 2^(k+1) - 1; otherwise, if
    2^k <= i < 2^(k+1) - 1, it is term number [i - (2^k - 1)]. *)
Inductive luby_is : N -> N -> Prop :=
| lu_top k : luby_is (2 ^ (k + 1) - 1) (2 ^ k)
| lu_repeat k i t : 2 ^ k <= i -> i < 2 ^ (k + 1) - 1 -> luby_is (i - (2 ^ k - 1)) t -> luby_is i t.
