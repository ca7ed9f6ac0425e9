(** Properties of AllEqual, Increasing and its variants, NValue, AtMostOne and
    ParityOdd. *)
From Coq Require Import ZArith List Bool Lia.
From Verif Require Import IntervalSet IntervalSetSpec IntervalSetProofs Vars VarsSpec State StateSpec Epochs Engine EngineSpec
  Tracker SessionSpec ContractSpec ConsistencySpec Search Solve SolveSpec LogicalProofs AllEqual Increasing NValue Parity GlobalsSpec AllEqualProofs IncreasingProofs NValueProofs ParityProofs
  Catalogue CatalogueSpec ExampleProblem SolveExample ConstraintExample.
Import ListNotations.
Local Open Scope Z_scope.

(** C40: AllEqual loses no assignment in which all the handles have the same value,
    whatever the domains and however the handles overlap. *)
Theorem C40_all_equal_sound : forall d0 vars, Forall (var_known d0) vars ->
  forall p, In p (fst (all_equal vars d0)) -> sound_for (length d0) (fun _ _ => True) (all_same vars) p.
Proof. exact all_equal_sound. Qed.
Print Assumptions C40_all_equal_sound.

(** C40: it allows exactly those assignments if no variable is behind two of the handles
    and the first handle has at most two values, which are next to each other. *)
Theorem C40_all_equal_partial : forall d0 vars, domains_ok d0 -> Forall (var_known d0) vars -> NoDup (underlying_list vars) ->
  (forall v, hd_error vars = Some v -> upper_bound d0 v <= lower_bound d0 v + 1) ->
  correct_on d0 (all_equal vars) vars (all_same vars).
Proof. exact all_equal_correct. Qed.
Print Assumptions C40_all_equal_partial.

(** For other domains it does not: with x in {1, 5} and y in 2..9, AllEqual([x, y])
    disables itself once it has inferred that x is 5, and x = 5, y = 2 is reported. *)
Theorem C40_all_equal_gap_refuted : domains_ok gap_domains /\ Forall (var_known gap_domains) (mentions gap_equal) /\
  exists d, In d (reports (run (problem_of gap_domains [gap_equal] None) gap_handles)) /\ (exists a, within a d) /\
  forall a, within a d -> ~ satisfies a gap_equal.
Proof. exact (conj gap_ok (conj gap_known gap_violated)). Qed.
Print Assumptions C40_all_equal_gap_refuted.

(** With x in 0..2, AllEqual([x, x + 1]) has no solution, but x = 1 is reported. *)
Theorem C40_all_equal_views_refuted : domains_ok shifted_domains /\ Forall (var_known shifted_domains) (mentions shifted_equal) /\
  exists d, In d (reports (run (problem_of shifted_domains [shifted_equal] None) [VSimple 0])) /\ (exists a, within a d) /\
  forall a, within a d -> ~ satisfies a shifted_equal.
Proof. exact (conj shifted_ok (conj shifted_known shifted_violated)). Qed.
Print Assumptions C40_all_equal_views_refuted.

(** C40: if there is nothing more to infer, each value left is used by an assignment in
    which all the handles have the same value. *)
Theorem C40_all_equal_consistent : forall d0 D vars, Forall (var_known d0) vars -> NoDup (underlying_list vars) ->
  domains_ok D -> length D = length d0 -> (forall p, In p (fst (all_equal vars d0)) -> rerun_is_quiet p D) ->
  domain_consistent D vars (all_same vars).
Proof. exact all_equal_consistent. Qed.
Print Assumptions C40_all_equal_consistent.

Example C40_example : let d0 := [[(0, 1)]; [(-3, 9)]; [(-1, 0); (2, 7)]] in let vars := [VSimple 0; VSimple 1; VView 2 true 1] in
  let D := [[(0, 0); (3, 4)]; [(0, 0); (3, 4)]; [(-3, -2); (1, 1)]] in
  domains_ok d0 /\ Forall (var_known d0) vars /\ NoDup (underlying_list vars) /\ upper_bound d0 (VSimple 0) <= lower_bound d0 (VSimple 0) + 1 /\
  all_same vars (fun n => nth n [1; 1; 0] 0) /\ ~ all_same vars (fun n => nth n [1; 1; 1] 0) /\
  domains_ok D /\ (forall p, In p (fst (all_equal vars d0)) -> rerun_is_quiet p D).
Proof.
  cbv zeta. split; [|split; [|split; [|split; [|split; [|split; [|split]]]]]].
  - intros [|[|[|n]]] Hn; simpl in *; try lia; (split; [simpl; lia|]); exists 0; apply member_cons; lia.
  - repeat constructor; simpl; lia.
  - vm_compute. repeat constructor; simpl; intuition discriminate.
  - vm_compute. discriminate.
  - intros v w Iv Iw. simpl in Iv, Iw. intuition (subst; reflexivity).
  - intro H. specialize (H (VSimple 0) (VView 2 true 1) (or_introl eq_refl) (or_intror (or_intror (or_introl eq_refl)))). vm_compute in H. discriminate.
  - intros [|[|[|n]]] Hn; simpl in *; try lia; (split; [simpl; lia|]); [exists 0|exists 0|exists (-3)]; apply member_cons; lia.
  - intros p Ip i E. repeat destruct Ip as [<-|Ip]; [|destruct Ip]; destruct i as [? ? ? ? ? ?]; simpl in E; subst; vm_compute; reflexivity.
Qed.

(** C41: Increasing, StrictlyIncreasing, Decreasing and StrictlyDecreasing allow exactly
    the assignments in which each value is related to all the later ones, however the
    handles overlap. *)
Theorem C41_increasing : forall d0 vars, Forall (var_known d0) vars ->
  correct_on d0 (increasing vars) vars (in_order Z.le vars) /\ correct_on d0 (strictly_increasing vars) vars (in_order Z.lt vars) /\
  correct_on d0 (decreasing vars) vars (in_order Z.ge vars) /\ correct_on d0 (strictly_decreasing vars) vars (in_order Z.gt vars).
Proof.
  exact (fun d0 vars K => conj (increasing_correct d0 vars false false K) (conj (increasing_correct d0 vars true false K)
    (conj (increasing_correct d0 vars false true K) (increasing_correct d0 vars true true K)))).
Qed.
Print Assumptions C41_increasing.

(** C41: and they are domain consistent if no variable is behind two of the handles. *)
Theorem C41_increasing_consistent : forall d0 D vars strict descending, Forall (var_known d0) vars -> NoDup (underlying_list vars) ->
  domains_ok D -> length D = length d0 -> (forall p, In p (fst (increasing_chain vars strict descending d0)) -> rerun_is_quiet p D) ->
  domain_consistent D vars (in_order (order_of strict descending) vars).
Proof. exact increasing_consistent. Qed.
Print Assumptions C41_increasing_consistent.

Example C41_example : let d0 := [[(0, 9)]; [(0, 9)]; [(-8, 0)]] in let vars := [VSimple 0; VSimple 1; VView 2 true 0] in
  let D := [[(0, 1); (4, 6)]; [(1, 1); (5, 7)]; [(-8, -6); (-3, -2)]] in
  Forall (var_known d0) vars /\ NoDup (underlying_list vars) /\ domains_ok D /\
  in_order Z.lt vars (fun n => nth n [1; 5; -6] 0) /\ ~ in_order Z.lt vars (fun n => nth n [5; 5; -6] 0) /\
  (forall p, In p (fst (strictly_increasing vars d0)) -> rerun_is_quiet p D).
Proof.
  cbv zeta. split; [|split; [|split; [|split; [|split]]]].
  - repeat constructor; simpl; lia.
  - vm_compute. repeat constructor; simpl; intuition discriminate.
  - intros [|[|[|n]]] Hn; simpl in *; try lia; (split; [simpl; lia|]); [exists 0|exists 1|exists (-8)]; apply member_cons; lia.
  - intros i j v w L Ei Ej. destruct i as [|[|[|[|i]]]], j as [|[|[|[|j]]]]; simpl in Ei, Ej; try lia; try discriminate; injection Ei as <-; injection Ej as <-; vm_compute; reflexivity.
  - intro H. specialize (H 0%nat 1%nat (VSimple 0) (VSimple 1) (Nat.lt_0_1) eq_refl eq_refl). vm_compute in H. discriminate.
  - intros p Ip i E. repeat destruct Ip as [<-|Ip]; [|destruct Ip]; destruct i as [? ? ? ? ? ?]; simpl in E; subst; vm_compute; reflexivity.
Qed.

(** C42: NValue allows exactly the assignments in which [n] is the number of different
    values, and AtMostOne exactly those in which no two positions have the value,
    however the handles overlap. *)
Theorem C42_n_value : forall d0 n vars, Forall (var_known d0) (n :: vars) -> correct_on d0 (n_value n vars) (n :: vars) (different_values n vars).
Proof. exact n_value_correct. Qed.
Print Assumptions C42_n_value.

Theorem C42_at_most_one : forall d0 vars val, Forall (var_known d0) (vars ++ [val]) ->
  correct_on d0 (at_most_one vars val) (vars ++ [val]) (no_two_take vars val).
Proof. exact at_most_one_correct. Qed.
Print Assumptions C42_at_most_one.

(** The number of different values is one of the values, and the value that is taken
    at most once is a view of one of the others. *)
Example C42_example : let d0 := [[(0, 4)]; [(1, 3); (6, 6)]] in let vars := [VSimple 0; VSimple 1; VView 0 false 1; VSimple 1] in
  Forall (var_known d0) (VSimple 0 :: vars) /\ different_values (VSimple 0) vars (fun n => nth n [2; 3] 0) /\
  ~ different_values (VSimple 0) vars (fun n => nth n [2; 1] 0) /\
  no_two_take vars (VView 1 true 4) (fun n => nth n [3; 1] 0) /\ ~ no_two_take vars (VView 1 true 4) (fun n => nth n [1; 2] 0).
Proof.
  cbv zeta. split; [|split; [|split; [|split]]].
  - repeat constructor; simpl; lia.
  - exists [2; 3]. split; [repeat constructor; simpl; intuition discriminate|]. split; [|reflexivity]. intro x. split.
    + intros [<-|[<-|[]]]; [exists (VSimple 0)|exists (VSimple 1)]; simpl; auto.
    + intros (v & Iv & <-). simpl in Iv. intuition (subst; vm_compute; auto).
  - intros (l & ND & M & E). assert (I : incl [2; 1; 3] l).
    { intros x [<-|[<-|[<-|[]]]]; apply M; [exists (VSimple 0)|exists (VSimple 1)|exists (VView 0 false 1)]; simpl; auto. }
    apply NoDup_incl_length in I; [|repeat constructor; simpl; intuition discriminate]. cbn in E. simpl in I. lia.
  - intros i j v w Ei Ej. destruct i as [|[|[|[|[|i]]]]], j as [|[|[|[|[|j]]]]]; simpl in Ei, Ej; try discriminate; try reflexivity; injection Ei as <-; injection Ej as <-; vm_compute; intros; discriminate.
  - intro H. specialize (H 1%nat 3%nat (VSimple 1) (VSimple 1) eq_refl eq_refl eq_refl eq_refl). discriminate.
Qed.

(** C43: ParityOdd allows exactly the assignments in which an odd number of the literals
    holds, however they overlap. *)
Theorem C43_parity : forall d0 lits, Forall (lit_known d0) lits -> Forall lit_sane lits ->
  correct_on d0 (parity_odd lits) (flat_map lit_scope lits) (odd_number lits).
Proof. exact parity_correct. Qed.
Print Assumptions C43_parity.

Example C43_example : let d0 := [[(0, 4)]; [(1, 3); (6, 6)]] in let lits := [LCond (cond_ge (VSimple 0) 2); LTrue; LCond (cond_eq (VSimple 1) 3); LCond (cond_lt (VSimple 0) 3)] in
  Forall (lit_known d0) lits /\ Forall lit_sane lits /\ odd_number lits (fun n => nth n [2; 1] 0) /\ ~ odd_number lits (fun n => nth n [2; 3] 0).
Proof.
  cbv zeta. split; [|split; [|split]].
  - repeat constructor; simpl; lia.
  - repeat constructor.
  - exists 3%nat. split; [|exists 1%nat; reflexivity]. apply this_holds; [vm_compute; intro; discriminate|]. apply this_holds; [exact Logic.I|]. apply this_fails; [vm_compute; intro; discriminate|].
    apply this_holds; [vm_compute; reflexivity|]. constructor.
  - intros (n & N & O). assert (E : number_holding (fun n => nth n [2; 3] 0) [LCond (cond_ge (VSimple 0) 2); LTrue; LCond (cond_eq (VSimple 1) 3); LCond (cond_lt (VSimple 0) 3)] 4).
    { apply this_holds; [vm_compute; intro; discriminate|]. apply this_holds; [exact Logic.I|]. apply this_holds; [vm_compute; reflexivity|].
      apply this_holds; [vm_compute; reflexivity|]. constructor. }
    rewrite (number_unique _ _ _ _ N E) in O. destruct O as (m & O). lia.
Qed.
