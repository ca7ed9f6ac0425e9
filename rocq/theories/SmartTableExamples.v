(** Tables that SmartTable does not do justice to. *)
From Coq Require Import ZArith List Bool Lia.
From Verif Require Import IntervalSet IntervalSetSpec IntervalSetProofs Vars VarsSpec State StateSpec Epochs Engine EngineSpec
  Tracker SessionSpec ContractSpec ContractProofs Search Solve SolveSpec ConsistencySpec Catalogue CatalogueSpec ExampleProblem SolveExample ConstraintExample.
From Verif Require Import SmartTable SmartTableSpec SmartTableTreeProofs SmartTableValueProofs SmartTableProofs.
Import ListNotations.
Local Open Scope Z_scope.

Lemma connected_cut r (side : nat -> bool) x y : (forall v w t, In (Compare v w t) r -> side (var_number v) = side (var_number w)) -> connected r x y -> side x = side y.
Proof. intros H C. induction C as [|x y v w t C IH I z Z]; [reflexivity|]. rewrite IH. specialize (H v w t I). destruct Z as [[<- <-]|[<- <-]]; auto. Qed.

Lemma acyclic_cut r : (forall v w t, In (Compare v w t) r -> exists side : nat -> bool, side (var_number v) <> side (var_number w) /\
  forall v' w' t', In (Compare v' w' t') r -> Compare v' w' t' = Compare v w t \/ side (var_number v') = side (var_number w')) -> acyclic r.
Proof.
  intros H v w t I r' Inc Out C. destruct (H v w t I) as (side & D & S). apply D. apply (connected_cut r' side); [|assumption]. intros v' w' t' I'. destruct (S v' w' t' (Inc _ I')) as [E|E]; [|assumption]. rewrite E in I'. contradiction.
Qed.

Ltac no_row := let r := fresh in let I := fresh in let H := fresh in intros (r & I & H); simpl in I; decompose [or] I; try contradiction; subst r; rewrite ?Forall_cons_iff in H; cbn in H; lia.
Ltac one_cut k := apply acyclic_cut; intros v w t I; exists (fun n => Nat.leb n k); simpl in I; decompose [or] I; try discriminate; try contradiction;
  match goal with E : _ = Compare v w t |- _ => injection E; intros; subst end; (split; [simpl; discriminate|]); intros v' w' t' I'; simpl in I'; decompose [or] I'; try discriminate; try contradiction; left; congruence.

Lemma cycle_accepts : exists d0 vars rows pb sols s, NoDup vars /\ Forall (Forall plain_entry) rows /\ problem_of d0 [SmartTableOf [] vars rows] None = Some pb /\
  summary (solve ex_never 100 100 1 (plain_callbacks [VSimple 0; VSimple 1]) pb) = Some (sols, true) /\ In s sols /\ ~ some_row rows (fun n => nth n s 0).
Proof.
  exists [[(0, 2)]; [(0, 2)]], [VSimple 0; VSimple 1], [[Compare (VSimple 0) (VSimple 1) IsLessEqual; Compare (VSimple 0) (VSimple 1) IsNotEqual]].
  eexists. eexists. exists [1; 1; 0]. split; [repeat constructor; simpl; intuition congruence|]. split; [repeat constructor; intros v [<-|[<-|[]]]; exact Logic.I|].
  split; [reflexivity|]. split; [vm_compute; reflexivity|]. split; [simpl; tauto|]. no_row.
Qed.

Lemma repeated_accepts : exists d0 vars rows pb sols s, Forall acyclic rows /\ Forall (Forall (entry_suits vars)) rows /\ problem_of d0 [SmartTableOf [] vars rows] None = Some pb /\
  summary (solve ex_never 100 100 1 (plain_callbacks [VSimple 0; VSimple 1]) pb) = Some (sols, true) /\ In s sols /\ ~ some_row rows (fun n => nth n s 0).
Proof.
  exists [[(0, 2)]; [(0, 2)]], [VSimple 0; VSimple 0; VSimple 0; VSimple 1], [[Compare (VSimple 0) (VSimple 1) IsNotEqual]].
  eexists. eexists. exists [1; 1; 0]. split; [constructor; [one_cut O|constructor]|]. split.
  { repeat constructor; cbn; [intros v [<-|[<-|[]]]; simpl; tauto|lia]. }
  split; [reflexivity|]. split; [vm_compute; reflexivity|]. split; [simpl; tauto|]. no_row.
Qed.

Lemma view_accepts : exists d0 vars rows pb sols s, NoDup vars /\ Forall acyclic rows /\ problem_of d0 [SmartTableOf [] vars rows] None = Some pb /\
  summary (solve ex_never 100 100 1 (plain_callbacks [VSimple 0]) pb) = Some (sols, true) /\ In s sols /\ ~ some_row rows (fun n => nth n s 0).
Proof.
  exists [[(1, 4)]], [VSimple 0], [[CompareValue (VView 0 false 1) 3 IsEqual]].
  eexists. eexists. exists [4; 0]. split; [repeat constructor; simpl; tauto|]. split; [constructor; [intros v w t [E|[]]; discriminate|constructor]|].
  split; [reflexivity|]. split; [vm_compute; reflexivity|]. split; [simpl; tauto|]. no_row.
Qed.

Lemma different_view_accepts : exists d0 vars rows pb sols s, NoDup vars /\ Forall acyclic rows /\ problem_of d0 [SmartTableOf [] vars rows] None = Some pb /\
  summary (solve ex_never 100 100 1 (plain_callbacks [VSimple 0; VSimple 1]) pb) = Some (sols, true) /\ In s sols /\ ~ some_row rows (fun n => nth n s 0).
Proof.
  exists [[(0, 2)]; [(0, 2)]], [VSimple 0; VSimple 1], [[Compare (VSimple 0) (VView 1 false 1) IsNotEqual]].
  eexists. eexists. exists [2; 1; 0]. split; [repeat constructor; simpl; intuition congruence|]. split; [constructor; [one_cut O|constructor]|].
  split; [reflexivity|]. split; [vm_compute; reflexivity|]. split; [simpl; tauto|]. no_row.
Qed.

Lemma listed_view_loses : exists d0 vars rows pb a, NoDup vars /\ Forall acyclic rows /\ Forall (var_known d0) vars /\ problem_of d0 [SmartTableOf [] vars rows] None = Some pb /\
  summary (solve ex_never 100 100 1 (plain_callbacks [VSimple 0]) pb) = Some ([], true) /\ within a d0 /\ some_row rows a.
Proof.
  exists [[(1, 4)]], [VView 0 false 1], [[CompareValue (VView 0 false 1) 3 IsEqual]].
  eexists. exists (fun _ => 2). split; [repeat constructor; simpl; tauto|]. split; [constructor; [intros v w t [E|[]]; discriminate|constructor]|].
  split; [repeat constructor|]. split; [reflexivity|]. split; [vm_compute; reflexivity|]. split.
  - intros [|n] H; [|simpl in H; lia]. apply member_cons. simpl. lia.
  - eexists. split; [now left|]. repeat constructor.
Qed.

Lemma lex_shared_accepts : exists d0 left right pb sols s, NoDup left /\ NoDup right /\ problem_of d0 [LexTable [] left right] None = Some pb /\
  summary (solve ex_never 100 100 1 (plain_callbacks [VSimple 0; VSimple 1]) pb) = Some (sols, true) /\ In s sols /\
  ~ lex_greater (map (var_value (fun n => nth n s 0)) left) (map (var_value (fun n => nth n s 0)) right).
Proof.
  exists [[(0, 2)]; [(0, 2)]], [VSimple 0; VSimple 1], [VSimple 1; VSimple 0].
  eexists. eexists. exists [1; 1; 0; 0]. split; [repeat constructor; simpl; intuition congruence|]. split; [repeat constructor; simpl; intuition congruence|].
  split; [reflexivity|]. split; [vm_compute; reflexivity|]. split; [simpl; tauto|]. simpl. lia.
Qed.

Definition rest_rows : list row :=
  [[CompareValue (VSimple 0) 0 IsEqual; Compare (VSimple 0) (VSimple 1) IsEqual; Compare (VSimple 1) (VSimple 2) IsEqual; Compare (VSimple 2) (VSimple 3) IsEqual];
   [CompareValue (VSimple 0) 1 IsEqual; CompareValue (VSimple 1) 1 IsEqual; CompareValue (VSimple 2) 1 IsEqual; CompareValue (VSimple 3) 0 IsEqual]].

Lemma rest_rows_suit : table_suits [VSimple 0; VSimple 1; VSimple 2; VSimple 3] rest_rows.
Proof.
  split; [repeat constructor; simpl; intuition congruence|]. constructor; [|constructor; [|constructor]]; split.
  - apply acyclic_cut. intros v w t I. exists (fun n => Nat.leb n (var_number v)). simpl in I. decompose [or] I; try discriminate; try contradiction;
      match goal with E : _ = Compare v w t |- _ => injection E; intros; subst end; (split; [simpl; discriminate|]); intros v' w' t' I'; simpl in I'; decompose [or] I'; try discriminate; try contradiction;
      match goal with E : _ = Compare v' w' t' |- _ => injection E; intros; subst end; simpl; auto.
  - repeat constructor; cbn; try lia; intros v; simpl; intuition (subst; simpl; auto 6).
  - intros v w t I. simpl in I. decompose [or] I; try discriminate; contradiction.
  - repeat constructor; cbn; try lia; intros v; simpl; intuition (subst; simpl; auto 6).
Qed.

Lemma values_without_support : exists orders vars rows d, table_suits vars rows /\ Forall (Forall plain_entry) rows /\ Forall (var_known d) vars /\ domains_ok d /\
  Forall (fun p => rerun_is_quiet p d) (in_props (smart_table_install orders vars rows (firstn 4 d) [])) /\ ~ domain_consistent d vars (some_row rows).
Proof.
  exists [[O]], [VSimple 0; VSimple 1; VSimple 2; VSimple 3], rest_rows, [[(0, 1)]; [(0, 1)]; [(0, 1)]; [(0, 1)]; [(0, 1)]; [(0, 1)]].
  split; [exact rest_rows_suit|]. split; [repeat constructor; intros v; simpl; intuition (subst; exact Logic.I)|]. split; [repeat constructor|]. split.
  { intros n H. do 6 (destruct n as [|n]; [split; [simpl; lia|exists 0; apply member_cons; lia]|]). simpl in H. lia. }
  split.
  - constructor; [|constructor]. intros i E. cbn [p_run body_propagator]. rewrite (proj1 (body_run_out _ i)), E. vm_compute. reflexivity.
  - intro C. destruct (C (VSimple 3) 1) as (a & Wa & V & (r & I & H)).
    + simpl. tauto.
    + exists (fun _ => 1). split; [|reflexivity]. intros n Hn. do 6 (destruct n as [|n]; [apply member_cons; lia|]). simpl in Hn. lia.
    + cbn in V. simpl in I. destruct I as [<-|[<-|[]]]; rewrite ?Forall_cons_iff in H; cbn in H; lia.
Qed.
