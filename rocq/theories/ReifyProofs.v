(** Lemmas about reification. *)
From Coq Require Import ZArith List Bool Arith Lia.
From Verif Require Import IntervalSet IntervalSetSpec Vars VarsSpec VarsProofs State StateSpec StateProofs Epochs
  Engine EngineSpec EngineProofs SessionSpec SessionInvProofs Tracker ContractSpec ContractProofs Reify ReifySpec.
Import ListNotations.
Local Open Scope Z_scope.

Lemma reif_known nv d r c : length d = nv -> Forall (var_below nv) (reif_scope r) -> reif_cond r = Some c -> lit_known d (LCond c).
Proof.
  intros L K E. unfold reif_scope in K. rewrite E in K. inversion K; subst. simpl. unfold cond_known. now apply (var_below_known (length d)).
Qed.

(** What the evaluated condition says about the assignments within the domains. *)
Lemma test_reif_spec nv d r base : domains_ok d -> length d = nv -> Forall (var_below nv) (reif_scope r) -> reif_sane r ->
  match test_reif d r with
  | EMustHold => forall a, within a d -> (reif_sat r base a <-> base a)
  | EMustNotHold => forall a, within a d -> (reif_sat r base a <-> ~ base a)
  | EDeactivated => forall a, within a d -> reif_sat r base a
  | EUndecided c h n nh =>
      reif_cond r = Some c /\ test_literal d (LCond c) = Undecided /\
      match r with
      | RIf _ => h = false /\ n = true /\ nh = false
      | RNotIf _ => h = false /\ n = false /\ nh = true
      | RIff _ => h = true /\ n = true /\ nh = false
      | _ => False
      end
  end.
Proof.
  intros Hd L K S.
  assert (T : forall c, reif_cond r = Some c ->
    (test_literal d (LCond c) = DefinitelyTrue <-> forall a, within a d -> cond_holds a c) /\
    (test_literal d (LCond c) = DefinitelyFalse <-> forall a, within a d -> ~ cond_holds a c)).
  { intros c E. apply (test_exact d (LCond c)); auto.
    - eapply reif_known; eauto.
    - unfold reif_sane in S. rewrite E in S. exact S. }
  destruct r as [| |c|c|c]; cbn [test_reif].
  - intros; simpl; tauto.
  - intros; simpl; tauto.
  - destruct (T c eq_refl) as [T1 T2]. destruct (test_literal d (LCond c)) eqn:Et.
    + intros a Wa. pose proof (proj1 T1 eq_refl a Wa). simpl. tauto.
    + intros a Wa. pose proof (proj1 T2 eq_refl a Wa). simpl. tauto.
    + repeat split; assumption.
  - destruct (T c eq_refl) as [T1 T2]. destruct (test_literal d (LCond c)) eqn:Et.
    + intros a Wa. pose proof (proj1 T1 eq_refl a Wa). simpl. tauto.
    + intros a Wa. pose proof (proj1 T2 eq_refl a Wa). simpl. tauto.
    + repeat split; assumption.
  - destruct (T c eq_refl) as [T1 T2]. destruct (test_literal d (LCond c)) eqn:Et.
    + intros a Wa. pose proof (proj1 T1 eq_refl a Wa). simpl. tauto.
    + intros a Wa. pose proof (proj1 T2 eq_refl a Wa). simpl. tauto.
    + repeat split; assumption.
Qed.

Lemma test_reif_fixed nv d r c h n nh : domains_ok d -> length d = nv -> Forall (var_below nv) (reif_scope r) -> reif_sane r ->
  Forall (fixed d) (reif_scope r) -> test_reif d r <> EUndecided c h n nh.
Proof.
  intros Hd L K S F E. pose proof (test_reif_spec nv d r (fun _ => True) Hd L K S) as T. rewrite E in T.
  destruct T as (Ec & Et & _). unfold reif_scope in F. rewrite Ec in F. inversion F as [|? ? (x & Fx) _]; subst.
  assert (Sc : lit_sane (LCond c)) by (unfold reif_sane in S; rewrite Ec in S; exact S).
  destruct (test_exact d (LCond c) Hd (reif_known _ d r c eq_refl K Ec) Sc) as [T1 T2].
  assert (D : (forall a, within a d -> cond_holds a c) \/ (forall a, within a d -> ~ cond_holds a c)).
  { assert (Dx : op_holds (c_op c) x (c_value c) (c_upper c) \/ ~ op_holds (c_op c) x (c_value c) (c_upper c)) by (destruct (c_op c); simpl; lia).
    destruct Dx as [H|H]; [left|right]; intros a Wa; unfold cond_holds; rewrite (Fx a Wa); assumption. }
  destruct D as [D|D]; [apply T1 in D|apply T2 in D]; congruence.
Qed.

Section Dispatch.
Variable nv : nat.
Variable d0 : domains.
Variable must_hold must_not_hold : body.
Variable when_undecided : domains -> verdict.
Variable scope : list var_id.
Variable base : assignment -> Prop.
Variable r : reif.
Hypothesis Ok0 : domains_ok d0.
Hypothesis Kr0 : Forall (var_below (length d0)) (reif_scope r).
Hypothesis Kr : Forall (var_below nv) (reif_scope r).
Hypothesis Sr : reif_sane r.

(** What the verdict function must do. *)
Definition verdict_ok : Prop := forall d, domains_ok d -> length d = nv -> inside d0 d ->
  match when_undecided d with
  | VMustHold => forall a, within a d -> base a
  | VMustNotHold => forall a, within a d -> ~ base a
  | VStillUndecided => True
  end.

Hypothesis HV : verdict_ok.

Lemma lit_below_cond c : reif_cond r = Some c -> lit_below nv (LCond c) /\ lit_below nv (LCond (cond_not c)).
Proof.
  intro E. unfold reif_scope in Kr. rewrite E in Kr. inversion Kr as [|? ? B _]; subst. unfold lit_below, var_below in *. simpl.
  split; [assumption|]. unfold cond_not. destruct (c_op c); assumption.
Qed.

Lemma dispatch_cases alias alias' d : domains_ok d -> length d = nv -> inside d0 d ->
  body_ok nv d0 alias must_hold scope base -> body_ok nv d0 alias' must_not_hold scope (fun a => ~ base a) ->
  let '(t, s) := dispatch must_hold must_not_hold when_undecided r d in
  legit nv d t /\ s <> EnableButIdempotent /\
  (forall a, within a d -> reif_sat r base a -> keeps a t) /\
  (Forall (fixed d) (scope ++ reif_scope r) -> t_failed t = false -> forall a, within a (t_domains t) -> reif_sat r base a) /\
  (s = DisableUntilBacktrack -> t_failed t = false -> forall a, within a (t_domains t) -> reif_sat r base a).
Proof.
  intros Hd L I HH HN. pose proof (test_reif_spec nv d r base Hd L Kr Sr) as T. unfold dispatch.
  destruct (test_reif d r) as [| | |c h n nh] eqn:E.
  - pose proof (bo_legit _ _ _ _ _ _ HH d Hd L I) as Lg. pose proof (bo_sound _ _ _ _ _ _ HH d) as So.
    pose proof (bo_checks _ _ _ _ _ _ HH d Hd L I) as Ch. pose proof (bo_entails _ _ _ _ _ _ HH d Hd L I) as En.
    destruct (must_hold d) as [t s]. simpl in *. split; [assumption|]. split; [destruct s; discriminate|]. split; [|split].
    + intros a Wa Sa. apply So; auto. now apply T.
    + intros F Ft a Wa. apply T.
      * apply (legit_inside nv d Hd L t Lg Ft a Wa).
      * apply Ch; auto. now apply Forall_app in F.
    + intros Rs Ft a Wa. apply T.
      * apply (legit_inside nv d Hd L t Lg Ft a Wa).
      * apply En; auto. destruct s; simpl in Rs; congruence.
  - pose proof (bo_legit _ _ _ _ _ _ HN d Hd L I) as Lg. pose proof (bo_sound _ _ _ _ _ _ HN d) as So.
    pose proof (bo_checks _ _ _ _ _ _ HN d Hd L I) as Ch. pose proof (bo_entails _ _ _ _ _ _ HN d Hd L I) as En.
    destruct (must_not_hold d) as [t s]. simpl in *. split; [assumption|]. split; [destruct s; discriminate|]. split; [|split].
    + intros a Wa Sa. apply So; auto. now apply T.
    + intros F Ft a Wa. apply T.
      * apply (legit_inside nv d Hd L t Lg Ft a Wa).
      * apply Ch; auto. now apply Forall_app in F.
    + intros Rs Ft a Wa. apply T.
      * apply (legit_inside nv d Hd L t Lg Ft a Wa).
      * apply En; auto. destruct s; simpl in Rs; congruence.
  - split; [apply legit_track|]. split; [discriminate|]. split; [intros; apply keeps_track|]. split; intros; apply T; assumption.
  - destruct T as (Ec & Et & Fl). destruct (lit_below_cond c Ec) as [B1 B2].
    assert (NF : ~ Forall (fixed d) (scope ++ reif_scope r)).
    { intro F. apply Forall_app in F. exact (test_reif_fixed nv d r c h n nh Hd L Kr Sr (proj2 F) E). }
    pose proof (HV d Hd L I) as V. destruct (when_undecided d).
    + split; [apply legit_track|]. split; [discriminate|]. split; [intros; apply keeps_track|]. split; [tauto|discriminate].
    + assert (Lg : legit nv d (tell_option (cond_if_must_hold c h nh) (track d))).
      { unfold cond_if_must_hold. destruct h, nh; simpl; try (apply legit_tell; [assumption|]); apply legit_track. }
      split; [assumption|]. split; [discriminate|]. split; [|split; [tauto|]].
      * intros a Wa Sa. pose proof (V a Wa) as Ba.
        destruct r as [| |c'|c'|c']; simpl in Ec, Fl; try tauto; injection Ec as ->; destruct Fl as (-> & -> & ->); simpl in *.
        -- apply keeps_track.
        -- apply keeps_tell; [apply keeps_track|]. intros _. simpl. apply cond_not_holds. tauto.
        -- apply keeps_tell; [apply keeps_track|]. intros _. simpl. tauto.
      * intros _ Ft a Wa.
        destruct r as [| |c'|c'|c']; simpl in Ec, Fl; try tauto; injection Ec as ->; destruct Fl as (-> & -> & ->); simpl in *.
        -- intros _. now apply V.
        -- destruct (tell_live nv d Hd L _ _ a (legit_track nv d) B2 Ft Wa) as (_ & Wd & Hl). simpl in Hl. apply cond_not_holds in Hl. tauto.
        -- destruct (tell_live nv d Hd L _ _ a (legit_track nv d) B1 Ft Wa) as (_ & Wd & Hl). simpl in Hl. pose proof (V a Wd). tauto.
    + assert (Lg : legit nv d (tell_option (cond_if_must_not_hold c n) (track d))).
      { unfold cond_if_must_not_hold. destruct n; simpl; try (apply legit_tell; [assumption|]); apply legit_track. }
      split; [assumption|]. split; [discriminate|]. split; [|split; [tauto|]].
      * intros a Wa Sa. pose proof (V a Wa) as Ba.
        destruct r as [| |c'|c'|c']; simpl in Ec, Fl; try tauto; injection Ec as ->; destruct Fl as (-> & -> & ->); simpl in *.
        -- apply keeps_tell; [apply keeps_track|]. intros _. simpl. apply cond_not_holds. tauto.
        -- apply keeps_track.
        -- apply keeps_tell; [apply keeps_track|]. intros _. simpl. apply cond_not_holds. tauto.
      * intros _ Ft a Wa.
        destruct r as [| |c'|c'|c']; simpl in Ec, Fl; try tauto; injection Ec as ->; destruct Fl as (-> & -> & ->); simpl in *.
        -- destruct (tell_live nv d Hd L _ _ a (legit_track nv d) B2 Ft Wa) as (_ & Wd & Hl). simpl in Hl. apply cond_not_holds in Hl. tauto.
        -- intros _. now apply V.
        -- destruct (tell_live nv d Hd L _ _ a (legit_track nv d) B2 Ft Wa) as (_ & Wd & Hl). simpl in Hl. apply cond_not_holds in Hl.
           pose proof (V a Wd). tauto.
Qed.

Lemma dispatch_ok alias alias' alias'' :
  body_ok nv d0 alias must_hold scope base -> body_ok nv d0 alias' must_not_hold scope (fun a => ~ base a) ->
  body_ok nv d0 alias'' (dispatch must_hold must_not_hold when_undecided r) (scope ++ reif_scope r) (reif_sat r base).
Proof.
  intros HH HN.
  constructor; intros d; intros;
    pose proof (dispatch_cases alias alias' d) as D; destruct (dispatch must_hold must_not_hold when_undecided r d) as [t s];
    simpl in *; edestruct D as (A & B & C & E & F); eauto; congruence.
Qed.

(** Installing through the dispatcher. *)
Lemma install_dispatcher_implements Inv oc ob oi alias alias' :
  stable nv Inv -> (forall d cs, Inv d cs -> inside d0 d) -> Forall (var_below nv) scope ->
  (forall v, In v scope -> In v oc \/ In v ob \/ In v oi) ->
  (aliased (body_propagator must_hold oc ob oi) <-> alias) ->
  (aliased (body_propagator must_not_hold oc ob oi) <-> alias') ->
  body_ok nv d0 alias must_hold scope base -> body_ok nv d0 alias' must_not_hold scope (fun a => ~ base a) ->
  implements nv d0 Inv (install_dispatcher must_hold must_not_hold when_undecided (test_reif d0 r) r oc ob oi) []
    (scope ++ reif_scope r) (reif_sat r base).
Proof.
  intros St In0 Ks Tr A1 A2 HH HN. pose proof (test_reif_spec (length d0) d0 r base Ok0 eq_refl Kr0 Sr) as T. unfold install_dispatcher.
  split; [now apply Forall_app|].
  assert (SU : forall f ch bo v x, In v scope -> underlying v = Some x -> subscribes (body_propagator f (oc ++ ch) (ob ++ bo) oi) x Instantiated).
  { intros f ch bo v x Iv U. unfold subscribes. simpl. destruct (Tr v Iv) as [H|[H|H]].
    - left. exists v. rewrite in_app_iff. tauto.
    - right. left. exists v. rewrite in_app_iff. tauto.
    - right. right. exists v. tauto. }
  destruct (test_reif d0 r) as [| | |c h n nh] eqn:E.
  - exists [reif_sat r base], []. split; [|split; [constructor|]].
    + constructor; [|constructor]. apply (propagates_supports nv Inv _ scope); [apply incl_appl, incl_refl|].
      apply (body_propagates nv d0); auto.
      * intros v x Iv U. specialize (SU must_hold [] [] v x Iv U). now rewrite !app_nil_r in SU.
      * apply (body_ok_ext nv d0 _ _ _ base); [intros a Wa; symmetry; now apply T|].
        apply (body_ok_alias nv d0 alias); tauto.
    + intros a Wa H _. now inversion H.
  - exists [reif_sat r base], []. split; [|split; [constructor|]].
    + constructor; [|constructor]. apply (propagates_supports nv Inv _ scope); [apply incl_appl, incl_refl|].
      apply (body_propagates nv d0); auto.
      * intros v x Iv U. specialize (SU must_not_hold [] [] v x Iv U). now rewrite !app_nil_r in SU.
      * apply (body_ok_ext nv d0 _ _ _ (fun a => ~ base a)); [intros a Wa; symmetry; now apply T|].
        apply (body_ok_alias nv d0 alias'); tauto.
    + intros a Wa H _. now inversion H.
  - exists [], []. split; [constructor|]. split; [constructor|]. intros a Wa _ _. now apply T.
  - destruct T as (Ec & _). destruct (trigger_for c) as [ch bo] eqn:Tc. exists [reif_sat r base], []. split; [|split; [constructor|]].
    + constructor; [|constructor]. apply (propagates_supports nv Inv _ (scope ++ reif_scope r)); [apply incl_refl|].
      apply (body_propagates nv d0); auto.
      * apply Forall_app; auto.
      * intros v x Iv U. apply in_app_or in Iv. destruct Iv as [Iv|Iv]; [now apply SU with (v := v)|].
        unfold reif_scope in Iv. rewrite Ec in Iv. destruct Iv as [<-|[]]. unfold subscribes. simpl.
        unfold trigger_for in Tc. destruct (c_op c); injection Tc as <- <-;
          try (left; exists (c_var c); rewrite in_app_iff; simpl; tauto); right; left; exists (c_var c); rewrite in_app_iff; simpl; tauto.
      * eapply dispatch_ok; eauto.
    + intros a Wa H _. now inversion H.
Qed.

End Dispatch.
