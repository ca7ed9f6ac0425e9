(** Problems on which particular constraints go wrong. *)
From Coq Require Import ZArith List Bool Arith Lia.
From Verif Require Import IntervalSet IntervalSetSpec IntervalSetProofs Vars VarsSpec State StateSpec StateProofs Expressions ExpressionsSpec Epochs Engine EngineSpec
  SessionSpec Tracker ContractSpec Search SearchSpec Solve SolveSpec MinMax Counting Linear LinearSpec Heuristics
  Catalogue CatalogueSpec CatalogueProofs ExampleProblem SolveExample.
Import ListNotations.
Local Open Scope Z_scope.

Definition plain_callbacks (vs : list var_id) : callbacks :=
  mk_callbacks (branch_of (fun _ => plain_rng) (BranchWith vs InOrder SmallestFirst)) (fun _ => true) (fun _ _ => true) None false.

Definition run (p : option problem) (vs : list var_id) : outcome :=
  match p with
  | Some pb => match solve ex_never 100 100 1 (plain_callbacks vs) pb with Some oc => oc | None => mk_outcome [] false true end
  | None => mk_outcome [] false true
  end.

(** ** Among, with the count also among the variables counted *)

Definition self_domains : domains := [[(0, 1)]; [(1, 1)]].
Definition self_among : posted := AmongValues [VSimple 0; VSimple 1] [1] (VSimple 0).
Definition self_handles : list var_id := [VSimple 0; VSimple 1].

Lemma self_ok : domains_ok self_domains.
Proof. intros [|[|n]] Hn; simpl in *; try lia; (split; [lia|]); exists 1; apply member_cons; lia. Qed.

Lemma self_reports : reports (run (problem_of self_domains [self_among] None) self_handles) = [[[(1, 1)]; [(1, 1)]]].
Proof. vm_compute. reflexivity. Qed.

Lemma self_within a : within a [[(1, 1)]; [(1, 1)]] -> a 0%nat = 1 /\ a 1%nat = 1.
Proof.
  intro W. split; [specialize (W 0%nat)|specialize (W 1%nat)]; simpl in W; destruct W as (l & h & I & X); try lia; (destruct I as [I|[]]; injection I as <- <-; lia).
Qed.

Lemma self_violated : exists d, In d (reports (run (problem_of self_domains [self_among] None) self_handles)) /\ (exists a, within a d) /\
  forall a, within a d -> ~ satisfies a self_among.
Proof.
  rewrite self_reports. eexists. split; [left; reflexivity|]. split.
  - exists (fun _ => 1). intros [|[|n]] Hn; simpl in *; try lia; apply member_cons; lia.
  - intros a W H. apply self_within in W. destruct W as [A B]. cbn [satisfies self_among map var_value] in H. rewrite A, B in H.
    apply (counts_how_many (fun x => In x [1]) (fun _ => true) (fun _ => 1) self_handles) in H; [vm_compute in H; discriminate|]. simpl. tauto.
Qed.

(** ** Among, with two views of one variable *)

Definition views_domains : domains := [[(0, 1)]].
Definition views_among : posted := AmongValues [VSimple 0; VView 0 false 1] [1] (VConst 2).
Definition views_handles : list var_id := [VSimple 0].

Lemma views_ok : domains_ok views_domains.
Proof. intros [|n] Hn; simpl in *; try lia; (split; [lia|]); exists 1; apply member_cons; lia. Qed.

Lemma views_reports : reports (run (problem_of views_domains [views_among] None) views_handles) = [[[(1, 1)]]].
Proof. vm_compute. reflexivity. Qed.

Lemma views_violated : exists d, In d (reports (run (problem_of views_domains [views_among] None) views_handles)) /\ (exists a, within a d) /\
  forall a, within a d -> ~ satisfies a views_among.
Proof.
  rewrite views_reports. eexists. split; [left; reflexivity|]. split.
  - exists (fun _ => 1). intros [|n] Hn; simpl in *; try lia; apply member_cons; lia.
  - intros a W H. specialize (W 0%nat). simpl in W. destruct W as (l & h & I & X); [lia|]. destruct I as [I|[]]. injection I as <- <-.
    assert (A : a 0%nat = 1) by lia. cbn [satisfies views_among map var_value] in H. rewrite A in H. simpl in H.
    apply (counts_how_many (fun x => In x [1]) (fun v => match v with VSimple _ => true | _ => false end)
      (fun v => match v with VSimple _ => 1 | _ => 2 end) [VSimple 0; VView 0 false 1]) in H; [vm_compute in H; discriminate|].
    intros v [<-|[<-|[]]]; simpl; [tauto|]. split; [discriminate|]. intros [Y|[]]; discriminate.
Qed.

(** ** Maximum, with the result a view of one of the variables *)

Definition throw_domains : domains := [[(0, 1)]].
Definition throw_vars : list var_id := [VSimple 0; VConst 0].
Definition throw_result : var_id := VView 0 false 1.

Lemma throw_ok : domains_ok throw_domains.
Proof. exact views_ok. Qed.

Lemma throw_throws : minmax_throws false throw_vars throw_result throw_domains = true.
Proof. vm_compute. reflexivity. Qed.

Lemma self_known : Forall (var_known self_domains) (mentions self_among).
Proof. repeat constructor; simpl; lia. Qed.

Lemma views_known : Forall (var_known views_domains) (mentions views_among).
Proof. repeat constructor; simpl; lia. Qed.

Lemma throw_known : Forall (var_known throw_domains) (throw_result :: throw_vars).
Proof. repeat constructor; simpl; lia. Qed.

(** ** A reified linear equality whose terms cancel *)

Definition cancel_domains : domains := [[(0, 1)]; [(0, 1)]].
Definition cancel_linear : posted := LinearIf Exactly [(1, VSimple 0); (-1, VSimple 0)] 5 (cond_eq (VSimple 1) 1).
Definition cancel_force : posted := Compare Equal (VSimple 1) (VConst 1).
Definition cancel_handles : list var_id := [VSimple 0; VSimple 1].

Lemma cancel_ok : domains_ok cancel_domains.
Proof. intros [|[|n]] Hn; simpl in *; try lia; (split; [lia|]); exists 1; apply member_cons; lia. Qed.

Lemma cancel_known : Forall (var_known cancel_domains) (mentions cancel_linear ++ mentions cancel_force).
Proof. repeat constructor; simpl; lia. Qed.

Lemma cancel_violated : exists d, In d (reports (run (problem_of cancel_domains [cancel_force; cancel_linear] None) cancel_handles)) /\ (exists a, within a d) /\ forall a, within a d -> ~ satisfies a cancel_linear.
Proof.
  assert (R : reports (run (problem_of cancel_domains [cancel_force; cancel_linear] None) cancel_handles) = [[[(1, 1)]; [(1, 1)]]; [[(0, 0)]; [(1, 1)]]]) by (vm_compute; reflexivity). rewrite R. clear R.
  eexists. split; [left; reflexivity|]. split.
  - exists (fun _ => 1). intros [|[|n]] Hn; simpl in *; try lia; apply member_cons; lia.
  - intros a W H. apply self_within in W. destruct W as [A B]. unfold cancel_linear in H. cbn [satisfies sum_is] in H.
    assert (C : cond_holds a (cond_eq (VSimple 1) 1)) by exact B. apply H in C. unfold weighted_sum in C. cbn [sum_worth term_worth fst snd var_value] in C. unfold term_worth in C. cbn [fst snd var_value] in C. lia.
Qed.

(** ** A linear equality with a constant as its condition *)

Definition lit_domains : domains := [[(0, 1)]].
Definition lit_sum : sum_of var_id := [(1, VSimple 0)].
Definition lit_run (k : constraint) : outcome := run (Some (mk_problem lit_domains [simple k] None)) [VSimple 0].

Lemma lit_run_zero k : reports (lit_run k) = [[[(0, 0)]]] -> forall a, within a lit_domains -> a 0%nat = 1 -> ~ exists d, In d (reports (lit_run k)) /\ within a d.
Proof.
  intros E a W A (d & I & Wd). rewrite E in I. destruct I as [<-|[]]. specialize (Wd 0%nat). simpl in Wd. destruct Wd as (l & h & J & X); [lia|]. destruct J as [J|[]]. injection J as <- <-. lia.
Qed.

Lemma lit_unreported : exists a, within a lit_domains /\
  ~ (exists d, In d (reports (lit_run (linear_eq_if lit_sum 1 LFalse))) /\ within a d) /\ ~ (exists d, In d (reports (lit_run (linear_ne_if lit_sum 1 LFalse))) /\ within a d).
Proof.
  exists (fun _ => 1). assert (W : within (fun _ => 1) lit_domains) by (intros [|n] Hn; simpl in *; try lia; apply member_cons; lia).
  split; [assumption|]. split; (apply lit_run_zero; [vm_compute; reflexivity|assumption|reflexivity]).
Qed.

Lemma lit_violated : exists d, In d (reports (lit_run (linear_ne_if lit_sum 1 LTrue))) /\ (exists a, within a d) /\ forall a, within a d -> weighted_sum lit_sum a = 1.
Proof.
  assert (E : reports (lit_run (linear_ne_if lit_sum 1 LTrue)) = [[[(1, 1)]]]) by (vm_compute; reflexivity). rewrite E. clear E. eexists. split; [left; reflexivity|]. split.
  - exists (fun _ => 1). intros [|n] Hn; simpl in *; try lia; apply member_cons; lia.
  - intros a W. specialize (W 0%nat). simpl in W. destruct W as (l & h & J & X); [lia|]. destruct J as [J|[]]. injection J as <- <-.
    unfold weighted_sum, lit_sum. cbn [sum_worth]. unfold term_worth. cbn [fst snd var_value]. lia.
Qed.

(** ** AllDifferent with value consistency and a constant *)

Definition clash_domains : domains := [[(1, 3)]].
Definition clash_different : posted := AllDifferentVC [VSimple 0; VConst 3].

Lemma clash_ok : domains_ok clash_domains.
Proof. intros [|n] Hn; simpl in *; try lia; (split; [lia|]); exists 1; apply member_cons; lia. Qed.

Lemma clash_known : Forall (var_known clash_domains) (mentions clash_different).
Proof. repeat constructor; simpl; lia. Qed.

Lemma clash_violated : exists d, In d (reports (run (problem_of clash_domains [clash_different] None) [VSimple 0])) /\ (exists a, within a d) /\
  forall a, within a d -> ~ satisfies a clash_different.
Proof.
  assert (R : reports (run (problem_of clash_domains [clash_different] None) [VSimple 0]) = [[[(3, 3)]]; [[(2, 2)]]; [[(1, 1)]]]) by (vm_compute; reflexivity). rewrite R. clear R.
  eexists. split; [left; reflexivity|]. split.
  - exists (fun _ => 3). intros [|n] Hn; simpl in *; try lia; apply member_cons; lia.
  - intros a W H. specialize (W 0%nat). simpl in W. destruct W as (l & h & J & X); [lia|]. destruct J as [J|[]]. injection J as <- <-.
    cbn [satisfies clash_different map var_value] in H. apply NoDup_cons_iff in H. destruct H as [H _]. apply H. left. lia.
Qed.

(** ** AllEqual with a gap in the first domain *)

Definition gap_domains : domains := [[(1, 1); (5, 5)]; [(2, 9)]].
Definition gap_equal : posted := AllEqual [VSimple 0; VSimple 1].
Definition gap_handles : list var_id := [VSimple 0; VSimple 1].

Lemma gap_ok : domains_ok gap_domains.
Proof.
  intros [|[|n]] Hn; simpl in *; try lia; (split; [simpl; lia|]); [exists 1|exists 2]; apply member_cons; lia.
Qed.

Lemma gap_known : Forall (var_known gap_domains) (mentions gap_equal).
Proof. repeat constructor; simpl; lia. Qed.

Lemma gap_violated : exists d, In d (reports (run (problem_of gap_domains [gap_equal] None) gap_handles)) /\ (exists a, within a d) /\
  forall a, within a d -> ~ satisfies a gap_equal.
Proof.
  assert (R : In [[(5, 5)]; [(2, 2)]] (reports (run (problem_of gap_domains [gap_equal] None) gap_handles))) by (vm_compute; tauto).
  exists [[(5, 5)]; [(2, 2)]]. split; [exact R|clear R]. split.
  - exists (fun n => if Nat.eqb n 0 then 5 else 2). intros [|[|n]] Hn; simpl in *; try lia; apply member_cons; lia.
  - intros a W H. assert (A : a 0%nat = 5 /\ a 1%nat = 2).
    { split; [specialize (W 0%nat)|specialize (W 1%nat)]; simpl in W; destruct W as (l & h & I & X); try lia; (destruct I as [I|[]]; injection I as <- <-; lia). }
    specialize (H (VSimple 0) (VSimple 1) (or_introl eq_refl) (or_intror (or_introl eq_refl))). cbn [var_value] in H. lia.
Qed.

(** ** AllEqual with two views of a variable *)

Definition shifted_domains : domains := [[(0, 2)]].
Definition shifted_equal : posted := AllEqual [VSimple 0; VView 0 false 1].

Lemma shifted_ok : domains_ok shifted_domains.
Proof. intros [|n] Hn; simpl in *; try lia; (split; [lia|]); exists 1; apply member_cons; lia. Qed.

Lemma shifted_known : Forall (var_known shifted_domains) (mentions shifted_equal).
Proof. repeat constructor; simpl; lia. Qed.

Lemma shifted_violated : exists d, In d (reports (run (problem_of shifted_domains [shifted_equal] None) [VSimple 0])) /\ (exists a, within a d) /\
  forall a, within a d -> ~ satisfies a shifted_equal.
Proof.
  assert (R : In [[(1, 1)]] (reports (run (problem_of shifted_domains [shifted_equal] None) [VSimple 0]))) by (vm_compute; tauto).
  exists [[(1, 1)]]. split; [exact R|clear R]. split.
  - exists (fun _ => 1). intros [|n] Hn; simpl in *; try lia; apply member_cons; lia.
  - intros a W H. specialize (H (VSimple 0) (VView 0 false 1) (or_introl eq_refl) (or_intror (or_introl eq_refl))). cbn [var_value] in H. lia.
Qed.

(** ** Inverse with lists counted from different numbers *)

Definition offset_domains : domains := [[(1, 2)]; [(1, 2)]; [(0, 1)]; [(0, 1)]].
Definition offset_inverse : posted := InverseOf [VSimple 0; VSimple 1] [VSimple 2; VSimple 3] 0 1.
Definition offset_handles : list var_id := [VSimple 0; VSimple 1; VSimple 2; VSimple 3].

Lemma offset_ok : domains_ok offset_domains.
Proof. intros [|[|[|[|n]]]] Hn; simpl in *; try lia; (split; [lia|]); exists 1; apply member_cons; lia. Qed.

Lemma offset_known : Forall (var_known offset_domains) (mentions offset_inverse).
Proof. repeat constructor; simpl; lia. Qed.

Lemma offset_solved : solves offset_domains [offset_inverse] (fun n => nth n [2; 1; 1; 0] 0).
Proof.
  split.
  - intros [|[|[|[|n]]]] Hn; simpl in *; try lia; apply member_cons; lia.
  - constructor; [|constructor]. split; intros [|[|i]] x E; simpl in E; try (destruct i; discriminate); injection E as <-.
    + exists 1%nat, (VSimple 3). repeat split.
    + exists 0%nat, (VSimple 2). repeat split.
    + exists 1%nat, (VSimple 1). repeat split.
    + exists 0%nat, (VSimple 0). repeat split.
Qed.

Lemma offset_nothing : run (problem_of offset_domains [offset_inverse] None) offset_handles = mk_outcome [] true false.
Proof. vm_compute. reflexivity. Qed.
