(** Lemmas about repeating a pass until nothing changes. *)
From Coq Require Import ZArith List Bool Arith Lia.
From Verif Require Import IntervalSet IntervalSetSpec IntervalSetProofs Vars VarsSpec State StateSpec StateProofs Epochs
  Engine EngineSpec EngineProofs SessionSpec SessionInvProofs Tracker ContractSpec ContractProofs RunProofs Quiet QuietProofs Settle.
Import ListNotations.

(** More has been inferred. *)
Definition extends (t t' : tracker) : Prop := exists ls, t_lits t' = ls ++ t_lits t.

Lemma extends_refl t : extends t t.
Proof. now exists []. Qed.

Lemma extends_trans t1 t2 t3 : extends t1 t2 -> extends t2 t3 -> extends t1 t3.
Proof. intros (l1 & E1) (l2 & E2). exists (l2 ++ l1). now rewrite E2, E1, app_assoc. Qed.

Lemma extends_tell l t : extends t (tell l t).
Proof. unfold tell. destruct (t_failed t); [apply extends_refl|]. destruct (infer (t_domains t) l). now exists [l]. Qed.

Lemma extends_for_each {X} (xs : list X) f : (forall x t, In x xs -> extends t (f x t)) -> forall t, extends t (for_each xs f t).
Proof.
  unfold for_each. induction xs as [|x r IH]; intros H t; simpl; [apply extends_refl|].
  apply (extends_trans t (f x t)); [apply H; now left|]. apply IH. intros y t' I. apply H. now right.
Qed.

Section Settle.
Context {M : Type}.
Variable nv : nat.
Variable d : domains.
Hypothesis Hd : domains_ok d.
Hypothesis Ld : length d = nv.
Variable pass : tracker * M -> tracker * M.
(** What is kept by the passes. *)
Variable J : tracker * M -> Prop.
Hypothesis Legit : forall s, J s -> legit nv d (fst s).
Hypothesis Step : forall s, J s -> t_failed (fst s) = false -> J (pass s) /\ extends (fst s) (fst (pass s)).

Lemma extended s s' : J s -> J s' -> t_failed (fst s) = false -> t_failed (fst s') = false -> extends (fst s) (fst s') ->
  exists ls evs, Forall (lit_known (t_domains (fst s))) ls /\ apply_lits (t_domains (fst s)) ls = (t_domains (fst s'), evs, false) /\
    count_inferences d (fst s') = (count_inferences d (fst s) + length evs)%nat.
Proof.
  intros Js Js' F F' (ls & E). pose proof (Legit _ Js) as G. pose proof (Legit _ Js') as G'.
  destruct (lg_apply _ _ _ G) as [ev A]. destruct (lg_apply _ _ _ G') as [ev' A']. rewrite F in A. rewrite F' in A'.
  exists (rev ls). rewrite E, rev_app_distr, (apply_lits_concat _ _ _ _ _ A) in A'.
  destruct (apply_lits (t_domains (fst s)) (rev ls)) as [[D2 e2] b2] eqn:Ap. injection A' as -> Ev ->. exists e2. split; [|split; [reflexivity|]].
  - apply Forall_rev. pose proof (lg_below _ _ _ G') as B. rewrite E in B. apply Forall_app in B. destruct B as [B _].
    eapply Forall_impl; [|exact B]. intros l Bl. pose proof (legit_length nv d Hd Ld _ G) as Ln. clear - Bl Ln.
    assert (X : Forall (lit_known (t_domains (fst s))) [l]); [apply (lits_known nv); auto|now inversion X].
  - unfold count_inferences. rewrite E, rev_app_distr, (apply_lits_concat _ _ _ _ _ A), Ap, A. simpl. apply app_length.
Qed.

Lemma settle_spec fuel : forall s, J s -> t_failed (fst s) = false -> (total_size (t_domains (fst s)) < fuel)%nat ->
  exists s', settle pass d fuel s = Some s' /\ J s' /\
    (t_failed (fst s') = false -> exists u, J u /\ t_failed (fst u) = false /\ pass u = s' /\ t_domains (fst u) = t_domains (fst s')).
Proof.
  induction fuel as [|k IH]; intros s Js F Fu; [lia|]. cbn [settle]. destruct (Step s Js F) as [Js' Ex]. set (s' := pass s) in *.
  destruct (t_failed (fst s')) eqn:F'.
  { exists s'. split; [reflexivity|]. split; [assumption|congruence]. }
  destruct (extended s s' Js Js' F F' Ex) as (ls & evs & K & A & C).
  pose proof (legit_ok nv d Hd Ld _ (Legit _ Js) F) as Ok.
  destruct (Nat.eqb_spec (count_inferences d (fst s')) (count_inferences d (fst s))) as [Q|Q].
  - exists s'. split; [reflexivity|]. split; [assumption|]. intros _. exists s. split; [assumption|]. split; [assumption|]. split; [reflexivity|].
    assert (evs = []) as -> by (destruct evs; [reflexivity|simpl in C; lia]). symmetry. exact (apply_lits_quiet _ _ _ Ok K A).
  - apply IH; auto. pose proof (apply_lits_size _ _ _ _ _ Ok K A eq_refl). lia.
Qed.

Lemma settle_done m : J (track d, m) ->
  exists s', settle pass d (enough_fuel d) (track d, m) = Some s' /\ J s' /\
    (t_failed (fst s') = false -> exists u, J u /\ t_failed (fst u) = false /\ pass u = s' /\ t_domains (fst u) = t_domains (fst s')).
Proof. intro J0. apply settle_spec; auto. Qed.
End Settle.
