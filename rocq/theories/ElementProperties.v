(** Properties of Element. *)
From Coq Require Import ZArith List Bool Lia.
From Verif Require Import IntervalSet IntervalSetSpec IntervalSetProofs Vars VarsSpec State StateSpec Epochs Engine EngineSpec
  Tracker SessionSpec ContractSpec ConsistencySpec Element ElementSpec ElementProofs.
Import ListNotations.
Local Open Scope Z_scope.

(** C30: Element, with either level of consistency, allows exactly the assignments in
    which the result is the selected entry. Any of the handles may be about the same
    variable as any other, and the array may be empty. *)
Theorem C30_element : forall d0 bounds_only result index start array, domains_ok d0 -> Forall (var_known d0) (result :: index :: array) ->
  correct_on d0 (element bounds_only result index start array) (result :: index :: array) (is_entry result index start array).
Proof. exact element_correct. Qed.
Print Assumptions C30_element.

(** C30: the same in two dimensions. Rows of different lengths are refused. *)
Theorem C30_element_2d : forall d0 bounds_only result index1 index2 start1 start2 rows k, domains_ok d0 ->
  Forall (var_known d0) (result :: index1 :: index2 :: concat rows) -> element_2d bounds_only result index1 index2 start1 start2 rows = Some k ->
  correct_on d0 k (result :: index1 :: index2 :: concat rows) (is_entry_2d result index1 index2 start1 start2 rows).
Proof. exact element_2d_correct. Qed.
Print Assumptions C30_element_2d.

Theorem C30_element_2d_accepted : forall bounds_only result index1 index2 start1 start2 rows n,
  Forall (fun row : list var_id => length row = n) rows -> element_2d bounds_only result index1 index2 start1 start2 rows <> None.
Proof. intros. unfold element_2d. rewrite (equal_lengths _ n) by assumption. discriminate. Qed.
Print Assumptions C30_element_2d_accepted.

(** The result is one of the entries and the index a view of another of them. *)
Example C30_element_example : let d0 := [[(0, 3); (5, 9)]; [(-1, 4)]; [(2, 2); (7, 8)]] in let array := [VSimple 2; VConst 7; VView 0 true 3; VSimple 0] in
  domains_ok d0 /\ Forall (var_known d0) (VSimple 0 :: VView 1 false 1 :: array) /\
  is_entry (VSimple 0) (VView 1 false 1) 1 array (fun n => nth n [7; 1; 2] 0) /\
  ~ is_entry (VSimple 0) (VView 1 false 1) 1 array (fun n => nth n [7; 0; 2] 0) /\
  is_entry_2d (VSimple 0) (VSimple 1) (VSimple 1) 0 0 [[VConst 1; VConst 2]; [VConst 3; VSimple 2]] (fun n => nth n [7; 1; 7] 0).
Proof.
  cbv zeta. split; [|split; [|split; [|split]]].
  - intros [|[|[|n]]] Hn; simpl in *; try lia; (split; [lia|]); [exists 0|exists 0|exists 2]; apply member_cons; lia.
  - repeat constructor; simpl; lia.
  - exists 1%nat, (VConst 7). repeat split.
  - intros (i & v & N & I & E). unfold var_value in I. cbn -[Z.add] in I. assert (i = 0%nat) by lia. subst i. injection N as <-. discriminate.
  - exists 1%nat, [VConst 3; VSimple 2], 1%nat, (VSimple 2). repeat split.
Qed.

(** C30: Element is domain consistent: if its propagators have nothing more to infer,
    then each value left for the result, the index or an entry is used by an
    assignment in which the result is the selected entry. This is if no variable is
    behind two of the handles. *)
Theorem C30_element_consistent : forall d0 D result index start array, domains_ok d0 -> Forall (var_known d0) (result :: index :: array) ->
  array <> [] -> NoDup (underlying_list (result :: index :: array)) -> domains_ok D -> length D = length d0 -> inside d0 D ->
  (forall p, In p (fst (element false result index start array d0)) -> rerun_is_quiet p D) ->
  domain_consistent D (result :: index :: array) (is_entry result index start array).
Proof. exact element_consistent. Qed.
Print Assumptions C30_element_consistent.

Theorem C30_element_2d_consistent : forall d0 D result index1 index2 start1 start2 rows k, domains_ok d0 ->
  Forall (var_known d0) (result :: index1 :: index2 :: concat rows) -> element_2d false result index1 index2 start1 start2 rows = Some k ->
  concat rows <> [] -> NoDup (underlying_list (result :: index1 :: index2 :: concat rows)) -> domains_ok D -> length D = length d0 -> inside d0 D ->
  (forall p, In p (fst (k d0)) -> rerun_is_quiet p D) ->
  domain_consistent D (result :: index1 :: index2 :: concat rows) (is_entry_2d result index1 index2 start1 start2 rows).
Proof. exact element_2d_consistent. Qed.
Print Assumptions C30_element_2d_consistent.

(** C30: with bounds consistency, the index has only values that can be used, and each
    bound of the result is between the bounds of an entry that can be selected. *)
Theorem C30_element_bounds_consistent : forall d0 D result index start array, domains_ok d0 -> Forall (var_known d0) (result :: index :: array) ->
  array <> [] -> NoDup (underlying_list (result :: index :: array)) -> domains_ok D -> length D = length d0 -> inside d0 D ->
  (forall p, In p (fst (element true result index start array d0)) -> rerun_is_quiet p D) ->
  domain_consistent D [index] (is_entry result index start array) /\
  forall x, x = lower_bound D result \/ x = upper_bound D result ->
    exists i v, nth_error array i = Some v /\ (exists a, within a D /\ var_value a index = start + Z.of_nat i) /\ between_bounds D v x.
Proof. exact element_bounds_consistent. Qed.
Print Assumptions C30_element_bounds_consistent.

(** Domains for which there is nothing more to infer, but that leave many values. *)
Example C30_element_consistent_example :
  let d0 := [[(0, 9)]; [(-1, 9)]; [(1, 2)]; [(4, 6)]; [(20, 25)]] in let D := [[(1, 2); (5, 7)]; [(0, 1)]; [(1, 2)]; [(4, 6)]; [(20, 25)]] in
  let result := VSimple 0 in let index := VSimple 1 in let array := [VSimple 2; VView 3 false 1; VSimple 4; VConst 30] in
  domains_ok d0 /\ Forall (var_known d0) (result :: index :: array) /\ NoDup (underlying_list (result :: index :: array)) /\
  domains_ok D /\ inside d0 D /\
  (forall p, In p (fst (element false result index 0 array d0)) -> rerun_is_quiet p D) /\
  (forall p, In p (fst (element true result index 0 array d0)) -> rerun_is_quiet p D).
Proof.
  cbv zeta. split; [|split; [|split; [|split; [|split; [|split]]]]].
  - intros [|[|[|[|[|n]]]]] Hn; simpl in *; try lia; (split; [lia|]); [exists 0|exists 0|exists 1|exists 4|exists 20]; apply member_cons; lia.
  - repeat constructor; simpl; lia.
  - repeat constructor; simpl; lia.
  - intros [|[|[|[|[|n]]]]] Hn; simpl in *; try lia; (split; [lia|]); [exists 1|exists 0|exists 1|exists 4|exists 20]; apply member_cons; lia.
  - intros a Wa [|[|[|[|[|n]]]]] Hn; specialize (Wa _ Hn); simpl in *; try lia; rewrite ?member_cons in *; intuition lia.
  - intros p Ip i E. repeat destruct Ip as [<-|Ip]; [..|destruct Ip]; destruct i as [? ? ? ? ? ?]; simpl in E; subst; vm_compute; reflexivity.
  - intros p Ip i E. repeat destruct Ip as [<-|Ip]; [..|destruct Ip]; destruct i as [? ? ? ? ? ?]; simpl in E; subst; vm_compute; reflexivity.
Qed.
