(** Properties of Inverse, SymmetricAllDifferent, ValuePrecede and SeqPrecedeChain. *)
From Coq Require Import ZArith List Bool Lia.
From Verif Require Import Stateful IntervalSet IntervalSetSpec IntervalSetProofs Vars VarsSpec State StateSpec Epochs Engine EngineSpec
  Tracker SessionSpec ContractSpec Search SearchSpec Solve SolveSpec ConsistencySpec Inverse Precede ChannelSpec InverseProofs PrecedeProofs
  Catalogue CatalogueSpec ExampleProblem SolveExample ConstraintExample.
Import ListNotations.
Local Open Scope Z_scope.

(** C44: Inverse, with both lists counted from the same number, allows exactly the
    assignments in which each value of either list is a position of the other one that
    refers back. It throws only if there are none. *)
Theorem C44_inverse_partial : forall d0 xs ys start, domains_ok d0 -> Forall (var_known d0) (xs ++ ys) ->
  posts d0 (inverse xs ys start start) (xs ++ ys) (inverse_of xs ys start start).
Proof. exact inverse_posts. Qed.
Print Assumptions C44_inverse_partial.

(** C44: a run of its propagator leaves only values that belong to such an assignment,
    if no variable is behind two of the handles. *)
Theorem C44_inverse_domain_consistent : forall d0 xs ys start k p, domains_ok d0 -> Forall (var_known d0) (xs ++ ys) -> NoDup (underlying_list (xs ++ ys)) ->
  (forall a, within a d0 -> forall x, In x (xs ++ ys) -> start <= var_value a x <= Z.of_nat (length xs) + start - 1) ->
  inverse xs ys start start = Some k -> fst (k d0) = [p] ->
  forall D, outcome (length d0) (fun d _ => inside d0 d) p D -> domain_consistent D (xs ++ ys) (inverse_of xs ys start start).
Proof. exact inverse_consistent. Qed.
Print Assumptions C44_inverse_domain_consistent.

(** It does not work if the lists are counted from different numbers: with x in 1..2
    twice, counted from 0, and y in 0..1 twice, counted from 1, x = [2, 1] and y = [1, 0]
    is a solution, but the search reports none and says that it is complete. *)
Theorem C44_inverse_offset_refuted : domains_ok offset_domains /\ Forall (var_known offset_domains) (mentions offset_inverse) /\
  (exists a, solves offset_domains [offset_inverse] a) /\
  reports (run (problem_of offset_domains [offset_inverse] None) offset_handles) = [] /\
  oc_completed (run (problem_of offset_domains [offset_inverse] None) offset_handles) = true.
Proof.
  exact (conj offset_ok (conj offset_known (conj (ex_intro _ _ offset_solved)
    (conj (f_equal reports offset_nothing) (f_equal oc_completed offset_nothing))))).
Qed.
Print Assumptions C44_inverse_offset_refuted.

Example C44_example : let d0 := [[(1, 2)]; [(1, 2)]; [(1, 3)]; [(1, 3)]; [(2, 3)]; [(1, 3)]] in
  let xs := [VSimple 0; VSimple 1; VSimple 2] in let ys := [VSimple 3; VSimple 4; VSimple 5] in
  domains_ok d0 /\ Forall (var_known d0) (xs ++ ys) /\ NoDup (underlying_list (xs ++ ys)) /\
  (forall a, within a d0 -> forall x, In x (xs ++ ys) -> 1 <= var_value a x <= Z.of_nat (length xs) + 1 - 1) /\
  inverse_of xs ys 1 1 (fun n => nth n [1; 2; 3; 1; 2; 3] 0) /\ ~ inverse_of xs ys 1 1 (fun n => nth n [2; 1; 3; 1; 2; 3] 0) /\
  exists k p, inverse xs ys 1 1 = Some k /\ fst (k d0) = [p] /\ outcome 6 (fun d _ => inside d0 d) p [[(1, 1)]; [(2, 2)]; [(3, 3)]; [(1, 1)]; [(2, 2)]; [(3, 3)]].
Proof.
  cbv zeta. split; [|split; [|split; [|split; [|split; [|split]]]]].
  - intros [|[|[|[|[|[|n]]]]]] Hn; simpl in *; try lia; (split; [simpl; lia|]); exists 2; apply member_cons; lia.
  - repeat constructor; simpl; lia.
  - vm_compute. repeat constructor; simpl; intuition discriminate.
  - intros a W x I. repeat destruct I as [<-|I]; try destruct I; cbn [var_value length];
      [specialize (W 0%nat)|specialize (W 1%nat)|specialize (W 2%nat)|specialize (W 3%nat)|specialize (W 4%nat)|specialize (W 5%nat)]; simpl in W; destruct W as (l & h & J & X); try lia; (destruct J as [J|[]]; injection J as <- <-; lia).
  - split; intros [|[|[|i]]] x E; simpl in E; try (destruct i; discriminate); injection E as <-.
    + exists 0%nat, (VSimple 3). repeat split.
    + exists 1%nat, (VSimple 4). repeat split.
    + exists 2%nat, (VSimple 5). repeat split.
    + exists 0%nat, (VSimple 0). repeat split.
    + exists 1%nat, (VSimple 1). repeat split.
    + exists 2%nat, (VSimple 2). repeat split.
  - intros [H _]. destruct (H 0%nat _ eq_refl) as (j & y & Ej & X & Y). destruct j as [|[|[|j]]]; simpl in Ej; try (destruct j; discriminate); injection Ej as <-; vm_compute in X, Y; try discriminate.
  - set (xs := [VSimple 0; VSimple 1; VSimple 2]). set (ys := [VSimple 3; VSimple 4; VSimple 5]).
    exists (fun d => ([memo_propagator (inverse_body xs ys 1 1) (xs ++ ys) [] []], bound_all d xs 1 (length ys) ++ bound_all d ys 1 (length xs))),
      (memo_propagator (inverse_body xs ys 1 1) (xs ++ ys) [] []). split; [reflexivity|]. split; [reflexivity|].
    exists (mk_in [[(1, 2)]; [(1, 2)]; [(1, 3)]; [(1, 3)]; [(2, 3)]; [(1, 3)]] [] [] [] [] (fun _ => false)). eexists. split.
    + split; [|split; [reflexivity|intros a W; exact W]].
      intros [|[|[|[|[|[|n]]]]]] Hn; simpl in *; try lia; (split; [simpl; lia|]); exists 2; apply member_cons; lia.
    + vm_compute. reflexivity.
Qed.

(** C45: SymmetricAllDifferent allows exactly the assignments in which each value is a
    position that refers back, however the handles overlap. *)
Theorem C45_symmetric_all_different : forall d0 vars start, domains_ok d0 -> Forall (var_known d0) vars ->
  correct_on d0 (symmetric_all_different vars start) vars (own_inverse vars start).
Proof. exact symmetric_correct. Qed.
Print Assumptions C45_symmetric_all_different.

Example C45_example : let d0 := [[(0, 7)]; [(1, 3); (5, 6)]; [(2, 4)]] in let vars := [VSimple 0; VSimple 1; VSimple 2] in
  domains_ok d0 /\ Forall (var_known d0) vars /\ own_inverse vars 2 (fun n => nth n [4; 3; 2] 0) /\ ~ own_inverse vars 2 (fun n => nth n [3; 4; 2] 0).
Proof.
  cbv zeta. split; [|split; [|split]].
  - intros [|[|[|n]]] Hn; simpl in *; try lia; (split; [simpl; lia|]); exists 2; apply member_cons; lia.
  - repeat constructor; simpl; lia.
  - intros [|[|[|i]]] x E; simpl in E; try (destruct i; discriminate); injection E as <-.
    + exists 2%nat, (VSimple 2). repeat split.
    + exists 1%nat, (VSimple 1). repeat split.
    + exists 0%nat, (VSimple 0). repeat split.
  - intro H. destruct (H 0%nat _ eq_refl) as (j & y & Ej & X & Y). destruct j as [|[|[|j]]]; simpl in Ej; try (destruct j; discriminate); injection Ej as <-; vm_compute in X, Y; try discriminate.
Qed.

(** C46: ValuePrecede allows exactly the assignments in which each occurrence of a value
    of the chain comes after an occurrence of the one before it in the chain, and
    SeqPrecedeChain exactly those in which each occurrence of a value above 1 comes after
    an occurrence of the value below it. The handles may overlap, and the chain may
    repeat values. *)
Theorem C46_value_precede : forall d0 chain vars, Forall (var_known d0) vars ->
  correct_on d0 (value_precede chain vars) vars (chain_precedes chain vars).
Proof. exact value_precede_correct. Qed.
Print Assumptions C46_value_precede.

Theorem C46_seq_precede_chain : forall d0 vars, domains_ok d0 -> Forall (var_known d0) vars ->
  correct_on d0 (seq_precede_chain vars) vars (values_in_sequence vars).
Proof. exact seq_precede_chain_correct. Qed.
Print Assumptions C46_seq_precede_chain.

Example C46_example : let d0 := [[(0, 3)]; [(0, 3)]; [(1, 4)]] in let vars := [VSimple 0; VSimple 1; VView 1 false 1; VSimple 2] in
  domains_ok d0 /\ Forall (var_known d0) vars /\ chain_precedes [3; 1; 4] vars (fun n => nth n [3; 0; 4] 0) /\
  ~ chain_precedes [3; 1; 4] vars (fun n => nth n [2; 0; 4] 0) /\
  values_in_sequence vars (fun n => nth n [0; 1; 3] 0) /\ ~ values_in_sequence vars (fun n => nth n [0; 2; 1] 0).
Proof.
  cbv zeta. split; [|split; [|split; [|split; [|split]]]].
  - intros [|[|[|n]]] Hn; simpl in *; try lia; (split; [simpl; lia|]); exists 2; apply member_cons; lia.
  - repeat constructor; simpl; lia.
  - intros [|[|[|k]]] s t Es Et; simpl in Es, Et; try (destruct k; discriminate); try discriminate; injection Es as <-; injection Et as <-; intros [|[|[|[|j]]]] y Ej Ey; simpl in Ej; try (destruct j; discriminate); injection Ej as <-; vm_compute in Ey; try discriminate Ey.
    + exists 0%nat, (VSimple 0). split; [lia|]. split; reflexivity.
    + exists 2%nat, (VView 1 false 1). split; [lia|]. split; reflexivity.
  - intro H. destruct (H 0%nat 3 1 eq_refl eq_refl 2%nat (VView 1 false 1) eq_refl eq_refl) as (i & x & L & Ei & X). destruct i as [|[|i]]; [| |lia]; injection Ei as <-; vm_compute in X; discriminate.
  - intros v Lv [|[|[|[|j]]]] y Ej Ey; simpl in Ej; try (destruct j; discriminate); injection Ej as <-; cbn in Ey; subst v; try lia.
    + exists 1%nat, (VSimple 1). split; [lia|]. split; reflexivity.
    + exists 2%nat, (VView 1 false 1). split; [lia|]. split; reflexivity.
  - intro H. destruct (H 2 ltac:(lia) 1%nat (VSimple 1) eq_refl eq_refl) as (i & x & L & Ei & X). destruct i as [|i]; [|lia]; injection Ei as <-; vm_compute in X; discriminate.
Qed.
