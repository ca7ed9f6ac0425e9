(** Problems solved, used to show that the hypotheses of theorems about solving can
    be met, and two problems on which solving goes wrong. *)
From Coq Require Import ZArith List Bool Arith Lia Permutation.
From Verif Require Import IntervalSet IntervalSetSpec IntervalSetProofs Vars VarsSpec State StateSpec StateProofs Epochs Engine EngineSpec
  SessionSpec Tracker ContractSpec Search SearchSpec SearchTermProofs Plus NegativeTable TableSpec NegativeTableProofs Nogoods Solve SolveSpec LubyProofs Heuristics HeuristicsSpec
  Tabulation Catalogue CatalogueSpec CatalogueProofs SolveResults WatchExample ExampleProblem.
Import ListNotations.
Local Open Scope Z_scope.

Definition plain_rng : rng := mk_rng (fun _ lo _ => lo) (fun l => l).

Lemma plain_honest : honest plain_rng.
Proof. split; [intros n lo hi L; simpl; lia|intro l; apply Permutation_refl]. Qed.

(** ** x < y, y <> z, over 0..2 *)

Definition sm_domains : domains := [[(0, 2)]; [(0, 2)]; [(0, 2)]].
Definition sm_posted : list posted := [Compare Less (VSimple 0) (VSimple 1); Compare NotEqual (VSimple 1) (VSimple 2)].
Definition sm_vars : list var_id := [VSimple 0; VSimple 1; VSimple 2].
Definition sm_heuristic : heuristic := default_heuristic (fun _ => 0) sm_vars.
Definition sm_problem (m : option var_id) : problem :=
  match problem_of sm_domains sm_posted m with Some pb => pb | None => mk_problem [] [] None end.
Definition sm_callbacks (restarts : option (nat -> nat)) : callbacks :=
  mk_callbacks (branch_of (fun _ => plain_rng) sm_heuristic) (fun _ => true) (fun _ _ => true) restarts false.
(** Maximise y - 5, that is, minimise 5 - y. *)
Definition sm_objective : var_id := VView 1 true 5.

Lemma sm_ok : domains_ok sm_domains.
Proof. intros [|[|[|n]]] Hn; simpl in *; try lia; (split; [lia|]); exists 0; apply member_cons; lia. Qed.

Lemma sm_well_posed : Forall (well_posed sm_domains) sm_posted.
Proof. repeat constructor; simpl; lia. Qed.

Lemma sm_handles : Forall (var_known sm_domains) (handles sm_heuristic).
Proof. repeat constructor; simpl; lia. Qed.

Lemma sm_forwards : splits_forwards sm_heuristic.
Proof. simpl. intros [H|[H|H]]; discriminate H. Qed.

Lemma sm_decides : decides_all (handles sm_heuristic) sm_posted.
Proof.
  assert (D : forall n, (n < 3)%nat -> decides (handles sm_heuristic) (VSimple n)).
  { intros n L. right. exists (VSimple n). split; [|reflexivity]. destruct n as [|[|[|n]]]; simpl; auto; lia. }
  repeat (apply Forall_cons || apply Forall_nil); apply D; lia.
Qed.

Lemma sm_built m : problem_of sm_domains sm_posted m = Some (sm_problem m).
Proof. reflexivity. Qed.

(** The values of x, y and z in what is reported, newest first, and whether the
    search completed. *)
Definition summary (o : option outcome) : option (list (list Z) * bool) :=
  option_map (fun oc => (map (map set_lower) (reports oc), oc_completed oc)) o.

Lemma sm_enumerates : summary (solve ex_never 100 100 1 (sm_callbacks None) (sm_problem None)) =
  Some ([[1; 2; 1]; [1; 2; 0]; [0; 2; 1]; [0; 2; 0]; [0; 1; 2]; [0; 1; 0]], true).
Proof. vm_compute. reflexivity. Qed.

Lemma sm_optimises : summary (solve ex_never 100 100 1 (sm_callbacks None) (sm_problem (Some sm_objective))) =
  Some ([[0; 2; 0]; [0; 1; 0]], true).
Proof. vm_compute. reflexivity. Qed.

(** With a cutoff of one, then two, and so on. *)
Lemma sm_restarts : summary (solve ex_never 100 100 30 (sm_callbacks (Some (luby_cutoff 1))) (sm_problem None)) =
  Some ([[1; 2; 1]; [1; 2; 0]; [0; 2; 1]; [0; 2; 0]; [0; 1; 2]; [0; 1; 0]], true).
Proof. vm_compute. reflexivity. Qed.

Lemma sm_objective_ok : forall v, Some sm_objective = Some v -> var_known sm_domains v /\ decides (handles sm_heuristic) v.
Proof. intros v [= <-]. split; [simpl; lia|]. right. exists (VSimple 1). split; [simpl; auto|reflexivity]. Qed.

(** ** A reported assignment that violates a constraint *)

Definition gap_constraint : constraint := match negative_table gap_vars gap_tuples with Some k => k | None => gap_first end.
Definition gap_problem : problem := mk_problem gap_domains [simple gap_first; simple gap_second; simple gap_constraint] None.
Definition gap_heuristic : heuristic := BranchWith (map VSimple (seq 0 3)) InOrder SmallestFirst.
Definition gap_callbacks : callbacks := mk_callbacks (branch_of (fun _ => plain_rng) gap_heuristic) (fun _ => true) (fun _ _ => true) None true.
Definition gap_outcome : outcome := match solve gap_never 100 100 1 gap_callbacks gap_problem with Some oc => oc | None => mk_outcome [] false true end.

Lemma gap_solved : solve gap_never 100 100 1 gap_callbacks gap_problem = Some gap_outcome.
Proof. vm_compute. reflexivity. Qed.

Lemma gap_reports : reports gap_outcome = [[[(1, 1)]; [(1, 1)]; [(1, 1)]]; [[(0, 0)]; [(0, 0)]; [(0, 0)]]].
Proof. vm_compute. reflexivity. Qed.

Lemma violation_reported : exists d, In d (reports gap_outcome) /\ (exists a, within a d) /\ forall a, within a d -> agrees a gap_vars [Some 1; Some 1].
Proof.
  rewrite gap_reports. eexists. split; [left; reflexivity|]. split.
  - exists (fun _ => 1). now apply gap_within.
  - intros a W. apply gap_within in W. destruct W as (_ & A & B). repeat constructor; assumption.
Qed.

(** ** A solution reported twice because of a restart *)

(** u + v1 = x, u + v2 = w, v1 + v2 = s, over 0..1; variables w, x, u, v1, v2, s. *)
Definition twice_domains : domains := [[(0, 1)]; [(0, 1)]; [(0, 1)]; [(0, 1)]; [(0, 1)]; [(0, 1)]].
Definition twice_posted : list posted :=
  [Sum BC (VSimple 2) (VSimple 3) (VSimple 1); Sum BC (VSimple 2) (VSimple 4) (VSimple 0); Sum BC (VSimple 3) (VSimple 4) (VSimple 5)].
Definition twice_problem : problem := match problem_of twice_domains twice_posted None with Some pb => pb | None => mk_problem [] [] None end.
Definition twice_heuristic : heuristic := BranchWith (map VSimple (seq 0 6)) RandomVariable LargestFirst.
(** At node 7 u is drawn rather than the first unassigned variable. *)
Definition twice_rngs (k : nat) : rng := mk_rng (fun n lo hi => if Nat.eqb k 7 then Nat.max lo (Nat.min hi 2) else lo) (fun l => l).
Definition twice_cutoff (pass : nat) : nat := if Nat.eqb pass 1 then 1 else 1000.
Definition twice_callbacks (refined : bool) : callbacks :=
  mk_callbacks (branch_of twice_rngs twice_heuristic) (fun _ => true) (fun _ _ => true) (Some twice_cutoff) refined.
Definition twice_outcome : outcome :=
  match solve ex_never 1000 100 3 (twice_callbacks true) twice_problem with Some oc => oc | None => mk_outcome [] false true end.

Lemma twice_solved : solve ex_never 1000 100 3 (twice_callbacks true) twice_problem = Some twice_outcome.
Proof. vm_compute. reflexivity. Qed.

Lemma twice_reports : map (map set_lower) (reports twice_outcome) =
  [[0; 0; 0; 0; 0; 0]; [0; 1; 0; 1; 0; 1]; [1; 0; 0; 0; 1; 1]; [1; 1; 1; 0; 0; 0]; [1; 1; 1; 0; 0; 0]].
Proof. vm_compute. reflexivity. Qed.

Lemma twice_scanned : summary (solve ex_never 1000 100 3 (twice_callbacks false) twice_problem) =
  Some ([[0; 0; 0; 0; 0; 0]; [0; 1; 0; 1; 0; 1]; [1; 0; 0; 0; 1; 1]; [1; 1; 1; 0; 0; 0]], true).
Proof. vm_compute. reflexivity. Qed.

Lemma twice_honest : forall k, honest (twice_rngs k).
Proof. intro k. split; [|intro l; apply Permutation_refl]. intros n lo hi L. cbn [twice_rngs draw]. destruct (Nat.eqb k 7); lia. Qed.

Lemma twice_ok : domains_ok twice_domains.
Proof. intros [|[|[|[|[|[|n]]]]]] Hn; simpl in *; try lia; (split; [lia|]); exists 0; apply member_cons; lia. Qed.

Lemma twice_well_posed : Forall (well_posed twice_domains) twice_posted.
Proof. repeat (apply Forall_cons || apply Forall_nil); (split; [|constructor]); repeat constructor; simpl; lia. Qed.

Lemma twice_built : problem_of twice_domains twice_posted None = Some twice_problem.
Proof. reflexivity. Qed.

Lemma twice_handles : Forall (var_known twice_domains) (handles twice_heuristic).
Proof. repeat constructor; simpl; lia. Qed.

Lemma twice_forwards : splits_forwards twice_heuristic.
Proof. simpl. intros [H|[H|H]]; discriminate H. Qed.

(** The first report and the last but one are the same. *)
Lemma reported_twice : exists i j d, i <> j /\ nth_error (reports twice_outcome) i = Some d /\ nth_error (reports twice_outcome) j = Some d.
Proof. exists 3%nat, 4%nat. eexists. split; [discriminate|]. vm_compute. split; reflexivity. Qed.
