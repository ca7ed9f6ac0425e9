(** Lemmas about reified constraints that keep a constraint state. *)
From Coq Require Import ZArith List Bool Arith Lia.
From Verif Require Import IntervalSet IntervalSetSpec IntervalSetProofs Vars VarsSpec VarsProofs State StateSpec StateProofs Epochs
  Engine EngineSpec EngineProofs EngineQueueProofs SessionSpec SessionInvProofs Tracker ContractSpec ContractProofs RunProofs
  Reify ReifySpec ReifyProofs Solve SolveSpec SolveProofs Stateful StatefulProofs StatefulReify.
Import ListNotations.

(** Only the assignments within the domains matter. *)
Lemma state_body_ok_within nv d0 Own alias f scope (sat sat' : assignment -> Prop) : (forall a, within a d0 -> (sat a <-> sat' a)) ->
  state_body_ok nv d0 Own alias f scope sat -> state_body_ok nv d0 Own alias f scope sat'.
Proof.
  intros E [Ho Ow Ch Cl En].
  assert (W : forall d t a, domains_ok d -> length d = nv -> inside d0 d -> live nv d t a -> within a d0).
  { intros d t a Hd L Id Lv. apply Id. eapply live_within; eauto. }
  constructor; auto.
  - intros d s m Hd L Id O. destruct (Ho d s m Hd L Id O) as [G K]. split; [assumption|]. intros a Wa Sa. apply K; [assumption|]. apply E; auto.
  - intros d s m a Hd L Id O F Lv. apply E; eauto.
  - intros d s m a Hd L Id O NA R Lv F. apply E; eauto.
  - intros d s m a Hd L Id O R Lv. apply E; eauto.
Qed.

Section Dispatch.
Variable nv : nat.
Variable d0 : domains.
Variable must_hold must_not_hold : state_body.
Variable when_undecided : domains -> verdict.
Variable scope : list var_id.
Variable base : assignment -> Prop.
Variable r : reif.
Variable Own : domains -> cstate -> Prop.
Hypothesis Mono : forall D D' s, domains_ok D' -> length D' = length D -> inside D D' -> Own D s -> Own D' s.
Hypothesis Kr : Forall (var_below nv) (reif_scope r).
Hypothesis Sr : reif_sane r.
Hypothesis HV : verdict_ok nv d0 when_undecided base.

Definition at_state (f : state_body) (s : cstate) (m : list Z) : body := fun d => (e_tracker (f d s m), e_result (f d s m)).

Lemma at_state_ok alias f sat d s m : domains_ok d -> length d = nv -> inside d0 d -> Own d s ->
  state_body_ok nv d0 Own alias f scope sat -> body_ok nv d alias (at_state f s m) scope sat.
Proof.
  intros Hd L Id O [Ho Ow Ch Cl En].
  assert (O' : forall D, domains_ok D -> length D = nv -> inside d D -> inside d0 D /\ Own D s).
  { intros D HD LD ID. split; [intros a Wa; apply Id, ID, Wa|]. apply (Mono d); auto. now transitivity nv. }
  apply body_ok_intro; cbn [at_state fst snd].
  - intros D HD LD ID. destruct (O' D HD LD ID). now apply Ho.
  - intros D a HD LD ID F Lv. destruct (O' D HD LD ID). eapply Ch; eauto.
  - intros D a HD LD ID NA R Lv F. destruct (O' D HD LD ID). eapply Cl; eauto.
  - intros D a HD LD ID R Lv. destruct (O' D HD LD ID). eapply En; eauto.
Qed.

Lemma state_dispatch_same d s m :
  (e_tracker (state_dispatch must_hold must_not_hold when_undecided r d s m), e_result (state_dispatch must_hold must_not_hold when_undecided r d s m)) =
  dispatch (at_state must_hold s m) (at_state must_not_hold s m) when_undecided r d.
Proof. unfold state_dispatch, dispatch, at_state. destruct (test_reif d r); try reflexivity. destruct (when_undecided d); reflexivity. Qed.

Lemma state_dispatch_ok alias alias' alias'' :
  state_body_ok nv d0 Own alias must_hold scope base -> state_body_ok nv d0 Own alias' must_not_hold scope (fun a => ~ base a) ->
  state_body_ok nv d0 Own alias'' (state_dispatch must_hold must_not_hold when_undecided r) (scope ++ reif_scope r) (reif_sat r base).
Proof.
  intros HH HN.
  assert (D : forall d s m, domains_ok d -> length d = nv -> inside d0 d -> Own d s ->
    let e := state_dispatch must_hold must_not_hold when_undecided r d s m in
    legit nv d (e_tracker e) /\ e_result e <> EnableButIdempotent /\
    (forall a, within a d -> reif_sat r base a -> keeps a (e_tracker e)) /\
    (Forall (fixed d) (scope ++ reif_scope r) -> t_failed (e_tracker e) = false -> forall a, within a (t_domains (e_tracker e)) -> reif_sat r base a) /\
    (e_result e = DisableUntilBacktrack -> t_failed (e_tracker e) = false -> forall a, within a (t_domains (e_tracker e)) -> reif_sat r base a)).
  { intros d s m Hd L Id O e.
    assert (Kr' : Forall (var_below (length d)) (reif_scope r)) by (rewrite L; exact Kr).
    assert (V : verdict_ok nv d when_undecided base) by (intros D HD LD ID; apply HV; auto; intros a Wa; apply Id, ID, Wa).
    pose proof (dispatch_cases nv d (at_state must_hold s m) (at_state must_not_hold s m) when_undecided scope base r Kr' Kr Sr V alias alias' d Hd L (fun a W => W)
      (at_state_ok alias must_hold base d s m Hd L Id O HH) (at_state_ok alias' must_not_hold (fun a => ~ base a) d s m Hd L Id O HN)) as C.
    rewrite <- state_dispatch_same in C. exact C. }
  constructor.
  - intros d s m Hd L Id O. destruct (D d s m Hd L Id O) as (A & _ & B & _). now split.
  - intros d s m Hd L Id O Ft. pose proof (so_honest _ _ _ _ _ _ _ HH d s m Hd L Id O) as G1. pose proof (so_honest _ _ _ _ _ _ _ HN d s m Hd L Id O) as G2.
    destruct (D d s m Hd L Id O) as (A & _).
    assert (Stay : e_state (state_dispatch must_hold must_not_hold when_undecided r d s m) = s ->
      Own (t_domains (e_tracker (state_dispatch must_hold must_not_hold when_undecided r d s m))) (e_state (state_dispatch must_hold must_not_hold when_undecided r d s m))).
    { intros ->. apply (Mono d); auto.
      - now apply (legit_ok nv d).
      - transitivity nv; [now apply (legit_length nv d)|now symmetry].
      - now apply (legit_inside nv d). }
    revert Ft Stay. unfold state_dispatch. destruct (test_reif d r); cbn [e_tracker e_state e_result]; intros Ft Stay.
    + now apply (so_own _ _ _ _ _ _ _ HH).
    + now apply (so_own _ _ _ _ _ _ _ HN).
    + now apply Stay.
    + destruct (when_undecided d); now apply Stay.
  - intros d s m a Hd L Id O F (_ & Ft & Wa). destruct (D d s m Hd L Id O) as (_ & _ & _ & C & _). now apply C.
  - intros d s m a Hd L Id O NA R Lv F. destruct (D d s m Hd L Id O) as (_ & N & _). contradiction.
  - intros d s m a Hd L Id O R (_ & Ft & Wa). destruct (D d s m Hd L Id O) as (_ & _ & _ & _ & C). now apply C.
Qed.
End Dispatch.

Lemma state_dispatcher_installs d (cs : list cstate) must_hold must_not_hold when_undecided r s0 on_change on_bounds on_instantiated scope base
    (Own : domains -> cstate -> Prop) :
  domains_ok d -> local (length d) (reif_sat r base) -> Forall (var_below (length d)) scope -> Forall (var_below (length d)) (reif_scope r) -> reif_sane r ->
  incl scope (on_change ++ on_bounds ++ on_instantiated) ->
  (forall D D' s, domains_ok D' -> length D' = length D -> inside D D' -> Own D s -> Own D' s) ->
  (forall more, domains_ok (d ++ more) -> Own (d ++ more) s0) ->
  (forall nv, (length d <= nv)%nat -> verdict_ok nv d when_undecided base) ->
  (forall nv, (length d <= nv)%nat -> state_body_ok nv d Own (aliased (state_propagator (length cs) must_hold on_change on_bounds on_instantiated)) must_hold scope base) ->
  (forall nv, (length d <= nv)%nat -> state_body_ok nv d Own (aliased (state_propagator (length cs) must_not_hold on_change on_bounds on_instantiated)) must_not_hold scope (fun a => ~ base a)) ->
  installs d cs
    (mk_installation [] [s0] (install_state_dispatcher must_hold must_not_hold when_undecided (length cs) (test_reif d r) r on_change on_bounds on_instantiated) [])
    (scope ++ reif_scope r) (reif_sat r base) (reif_sat r base) (owned (length cs) Own).
Proof.
  intros Hd Lo Sc Kr Sr Inc Mono Start HV HH HN.
  constructor; cbn [in_vars in_states in_props in_inits length map]; rewrite ?app_nil_r; auto.
  - intros a Wa Sa. exists a. split; [apply same_below_refl|]. auto.
  - intros D D' c c' HD' L I Sw (s & E & O). exists s. split; [|eauto]. rewrite (Sw (length cs)); [assumption|]. lia.
  - intros more states Hm. exists s0. split; [|auto]. rewrite <- app_assoc. rewrite nth_error_app2 by lia. now rewrite Nat.sub_diag.
  - intros nv Inv Ln St Id Fr. pose proof (test_reif_spec (length d) d r base Hd eq_refl Kr Sr) as T.
    assert (Up : forall l, Forall (var_below (length d)) l -> Forall (var_below nv) l) by (intros l F; eapply Forall_impl; [|exact F]; intros v B; now apply (below_more (length d))).
    assert (SU : forall f ch bo v x, In v scope -> underlying v = Some x -> subscribes (state_propagator (length cs) f (on_change ++ ch) (on_bounds ++ bo) on_instantiated) x Instantiated).
    { intros f ch bo v x Iv U. unfold subscribes. simpl. specialize (Inc v Iv). rewrite !in_app_iff in Inc. destruct Inc as [H|[H|H]].
      - left. exists v. rewrite in_app_iff. tauto.
      - right. left. exists v. rewrite in_app_iff. tauto.
      - right. right. exists v. tauto. }
    unfold install_state_dispatcher. destruct (test_reif d r) as [| | |c h n nh] eqn:E.
    + exists [reif_sat r base], []. split; [|split; [constructor|intros a _ F _; now inversion F]]. constructor; [|constructor].
      apply (propagates_supports _ _ _ scope); [apply incl_appl, incl_refl|]. apply (state_propagates nv d Inv (length cs) Own); auto.
      * intros v x Iv U. specialize (SU must_hold [] [] v x Iv U). now rewrite !app_nil_r in SU.
      * apply (state_body_ok_within nv d _ _ _ _ base); [intros a Wa; symmetry; now apply T|now apply HH].
    + exists [reif_sat r base], []. split; [|split; [constructor|intros a _ F _; now inversion F]]. constructor; [|constructor].
      apply (propagates_supports _ _ _ scope); [apply incl_appl, incl_refl|]. apply (state_propagates nv d Inv (length cs) Own); auto.
      * intros v x Iv U. specialize (SU must_not_hold [] [] v x Iv U). now rewrite !app_nil_r in SU.
      * apply (state_body_ok_within nv d _ _ _ _ (fun a => ~ base a)); [intros a Wa; symmetry; now apply T|now apply HN].
    + exists [], []. split; [constructor|]. split; [constructor|]. intros a Wa _ _. now apply T.
    + destruct T as (Ec & _). destruct (trigger_for c) as [ch bo] eqn:Tc. exists [reif_sat r base], []. split; [|split; [constructor|intros a _ F _; now inversion F]].
      constructor; [|constructor]. apply (propagates_supports _ _ _ (scope ++ reif_scope r)); [apply incl_refl|]. apply (state_propagates nv d Inv (length cs) Own); auto.
      * apply Forall_app; auto.
      * intros v x Iv U. apply in_app_or in Iv. destruct Iv as [Iv|Iv]; [now apply SU with (v := v)|].
        unfold reif_scope in Iv. rewrite Ec in Iv. destruct Iv as [<-|[]]. unfold subscribes. simpl.
        unfold trigger_for in Tc. destruct (c_op c); injection Tc as <- <-;
          try (left; exists (c_var c); rewrite in_app_iff; simpl; tauto); right; left; exists (c_var c); rewrite in_app_iff; simpl; tauto.
      * eapply state_dispatch_ok; eauto.
Qed.
