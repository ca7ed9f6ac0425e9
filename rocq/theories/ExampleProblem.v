(** A small problem used to show that the hypotheses of theorems about the engine
    can be met: x < y, y <> z, with x, y, z in 0..3. *)
From Coq Require Import ZArith List Lia.
From Verif Require Import IntervalSet IntervalSetSpec IntervalSetProofs Vars VarsSpec State StateSpec Epochs Engine EngineSpec Session
  SessionSpec Tracker ContractSpec ContractProofs Reify ReifySpec Equals EqualsProofs Comparison ComparisonProofs.
Import ListNotations.
Local Open Scope Z_scope.

Definition ex_domains : domains := [[(0, 3)]; [(0, 3)]; [(0, 3)]].
Definition ex_inv (d : domains) (_ : list cstate) : Prop := inside ex_domains d.
Definition ex_state : estate := mk_state [ex_domains] [[]] [[]] [].
Definition ex_less : constraint := reified_less (VSimple 0) (VSimple 1) RMustHold false.
Definition ex_differ : constraint := reified_equals (VSimple 1) (VSimple 2) RMustNotHold.
Definition ex_props : list propagator := fst (ex_less ex_domains) ++ fst (ex_differ ex_domains).
Definition ex_sol (a : assignment) : Prop := a 0%nat < a 1%nat /\ a 1%nat <> a 2%nat.

Lemma ex_ok : domains_ok ex_domains.
Proof. intros [|[|[|n]]] Hn; simpl in *; try lia; (split; [lia|]); exists 0; apply member_cons; lia. Qed.

Lemma ex_startable : startable 3 ex_inv ex_state.
Proof. constructor; simpl; auto using ex_ok; try (repeat split; discriminate). intros a W. exact W. Qed.

Lemma ex_stable : stable 3 ex_inv.
Proof. apply stable_inside. Qed.

Lemma ex_less_ok : implements 3 ex_domains ex_inv (fst (ex_less ex_domains)) (snd (ex_less ex_domains)) [VSimple 0; VSimple 1]
  (fun a => var_value a (VSimple 0) < var_value a (VSimple 1)).
Proof.
  pose proof (comparison_posts ex_domains (VSimple 0) (VSimple 1) ex_ok) as H. destruct H as [H _]; simpl; try lia.
  apply (H 3%nat ex_inv (le_n 3) ex_stable). intros d cs I. exact I.
Qed.

Lemma ex_differ_ok : implements 3 ex_domains ex_inv (fst (ex_differ ex_domains)) (snd (ex_differ ex_domains)) [VSimple 1; VSimple 2]
  (fun a => var_value a (VSimple 1) <> var_value a (VSimple 2)).
Proof.
  pose proof (equality_posts ex_domains (VSimple 1) (VSimple 2) ex_ok) as H. destruct H as [_ H]; simpl; try lia.
  apply (H 3%nat ex_inv (le_n 3) ex_stable). intros d cs I. exact I.
Qed.

Lemma implements_behaved nv d0 Inv ps is scope sat p : implements nv d0 Inv ps is scope sat -> In p ps -> well_behaved nv Inv p.
Proof.
  intros (_ & psats & isats & FP & _) I. clear -FP I. induction FP as [|x y l l' [W _] _ IH]; [destruct I|].
  destruct I as [->|I]; [exact W|]. now apply IH.
Qed.

Lemma ex_behaved : forall p, In p ex_props -> well_behaved 3 ex_inv p.
Proof.
  intros p I. unfold ex_props in I. apply in_app_or in I. destruct I as [I|I].
  - exact (implements_behaved _ _ _ _ _ _ _ p ex_less_ok I).
  - exact (implements_behaved _ _ _ _ _ _ _ p ex_differ_ok I).
Qed.

Lemma ex_sound : forall p, In p ex_props -> sound_for 3 ex_inv ex_sol p.
Proof.
  assert (I0 : forall d cs, ex_inv d cs -> inside ex_domains d) by (intros d cs I; exact I).
  intros p I. unfold ex_props in I. apply in_app_or in I. destruct I as [I|I].
  - destruct (implements_enforces _ _ _ _ _ _ _ I0 ex_less_ok) as (S & _). intros i a U W Sa.
    apply (S p I i a U W). exact (proj1 Sa).
  - destruct (implements_enforces _ _ _ _ _ _ _ I0 ex_differ_ok) as (S & _). intros i a U W Sa.
    apply (S p I i a U W). exact (proj2 Sa).
Qed.

Definition ex_guess : literal := LCond (cond_eq (VSimple 0) 2).
Definition ex_never (k : nat) : bool := false.

Lemma ex_never_set : stays_set ex_never.
Proof. intros k H. discriminate H. Qed.

(** The propagator for x < y has nothing to do on [d] in this sense: if x and y are
    fixed then x < y. *)
Definition ex_wake : domains -> Prop :=
  checked [VSimple 0; VSimple 1] (fun a => var_value a (VSimple 0) < var_value a (VSimple 1)).
Definition ex_done : domains -> Prop := entailed (fun a => var_value a (VSimple 0) < var_value a (VSimple 1)).

Lemma ex_wakeable : wakeable 3 ex_inv (nth 0 ex_props nil_propagator) ex_wake ex_done.
Proof.
  apply propagates_wakeable. change (nth 0 ex_props nil_propagator) with (body_propagator (enforce_less (VSimple 0) (VSimple 1) false) [] [VSimple 0; VSimple 1] []).
  apply (body_propagates 3 ex_domains).
  - exact ex_stable.
  - intros d cs I. exact I.
  - repeat constructor.
  - intros v x I U. right. left. exists v. auto.
  - apply (enforce_less_ok 3 ex_domains _ (VSimple 0) (VSimple 1) false); simpl; auto; unfold var_below; simpl; lia.
Qed.
