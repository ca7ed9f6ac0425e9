(** Lemmas about repeating a pass until it infers nothing new. *)
From Coq Require Import ZArith List Bool Arith Lia.
From Verif Require Import IntervalSet IntervalSetSpec IntervalSetProofs Vars VarsSpec State StateSpec StateProofs Epochs
  Engine EngineSpec EngineProofs SessionSpec SessionInvProofs Tracker ContractSpec ContractProofs Quiet.
Import ListNotations.
Local Open Scope Z_scope.

Lemma apply_lits_concat xs ls : forall d D evs, apply_lits d xs = (D, evs, false) ->
  apply_lits d (xs ++ ls) = let '(D', e2, b) := apply_lits D ls in (D', evs ++ e2, b).
Proof.
  induction xs as [|x r IH]; intros d D evs E; simpl in *.
  - injection E as <- <-. destruct (apply_lits d ls) as [[? ?] ?]. reflexivity.
  - destruct (infer d x) as [i d1]. destruct i; try discriminate.
    + exact (IH _ _ _ E).
    + destruct (apply_lits d1 r) as [[D1 e1] b1] eqn:A. injection E as <- <- ->. rewrite (IH _ _ _ A).
      destruct (apply_lits D1 ls) as [[? ?] ?]. destruct (lit_underlying x); reflexivity.
    + destruct (apply_lits d1 r) as [[D1 e1] b1] eqn:A. injection E as <- <- ->. rewrite (IH _ _ _ A).
      destruct (apply_lits D1 ls) as [[? ?] ?]. destruct (lit_underlying x); reflexivity.
    + destruct (apply_lits d1 r) as [[D1 e1] b1] eqn:A. injection E as <- <- ->. rewrite (IH _ _ _ A).
      destruct (apply_lits D1 ls) as [[? ?] ?]. destruct (lit_underlying x); reflexivity.
Qed.

Lemma tell_all_cons l ls t : tell_all (l :: ls) t = tell_all ls (tell l t).
Proof. reflexivity. Qed.

Lemma tell_all_failed ls t : t_failed t = true -> tell_all ls t = t.
Proof. intro F. induction ls as [|l r IH]; [reflexivity|]. rewrite tell_all_cons, tell_failed; assumption. Qed.

Lemma tell_all_live ls : forall t, t_failed (tell_all ls t) = false ->
  t_failed t = false /\ t_lits (tell_all ls t) = rev ls ++ t_lits t.
Proof.
  induction ls as [|l r IH]; intros t F; [auto|]. rewrite tell_all_cons in *. destruct (IH _ F) as [F1 E].
  destruct (t_failed t) eqn:Ft; [rewrite tell_failed in F1 by assumption; congruence|]. split; [reflexivity|]. cbn [rev].
  rewrite <- app_assoc. simpl. unfold tell in *. rewrite Ft in *. destruct (infer (t_domains t) l) as [i d']. simpl in E |- *. exact E.
Qed.

Lemma tell_all_keeps a ls : forall t, keeps a t -> Forall (lit_holds a) ls -> keeps a (tell_all ls t).
Proof.
  induction ls as [|l r IH]; intros t K F; [assumption|]. inversion F; subst. rewrite tell_all_cons. apply IH; auto.
  now apply keeps_tell.
Qed.

Lemma apply_lits_quiet ls : forall d d', domains_ok d -> Forall (lit_known d) ls -> apply_lits d ls = (d', [], false) -> d' = d.
Proof.
  intros d d' Hd K E. assert (G : forall bad evs, apply_lits d ls = (d', evs, bad) -> bad = false -> evs = [] -> d' = d).
  { clear E. intros bad evs E. revert d d' evs bad Hd K E.
    apply (apply_lits_ind (fun d ls d' evs bad => bad = false -> evs = [] -> d' = d)); auto; try discriminate. }
  eapply G; eauto.
Qed.

(** Inferring what already holds changes nothing. *)
Lemma apply_lits_implied ls : forall d, domains_ok d -> Forall (lit_known d) ls ->
  (forall a, within a d -> Forall (lit_holds a) ls) -> apply_lits d ls = (d, [], false).
Proof.
  induction ls as [|l r IH]; intros d Hd K H; [reflexivity|]. inversion K as [|? ? Kl Kr]; subst. simpl.
  assert (B : lit_below (length d) l) by (revert Kl; unfold lit_known, lit_below, cond_known, var_known; destruct l as [c| |]; simpl; auto; destruct (c_var c); simpl; auto).
  destruct (tell_keeps_all (length d) d Hd eq_refl l (track d) (legit_track _ d) B eq_refl) as [A1 A2].
  { intros a Wa. specialize (H a Wa). now inversion H. }
  unfold tell in A1, A2. simpl in A1, A2. destruct (infer d l) as [i d1] eqn:I. simpl in A1, A2. subst d1.
  assert (R : apply_lits d r = (d, [], false)). { apply IH; auto. intros a Wa. specialize (H a Wa). now inversion H. }
  assert (N : i = NoChange).
  { pose proof (infer_accurate d l i d Hd Kl I) as A. destruct (lit_underlying l) as [v|] eqn:U.
    - destruct i; simpl in A; try reflexivity; try discriminate; exfalso; tauto.
    - destruct A as [A|A]; [assumption|]. subst. discriminate. }
  subst. exact R.
Qed.

Section Quiet.
Variable nv : nat.
Variable d : domains.
Hypothesis Hd : domains_ok d.
Hypothesis L : length d = nv.
Variable pass : domains -> list literal.
Hypothesis Pass : forall d', domains_ok d' -> length d' = nv -> Forall (lit_below nv) (pass d').

(** One pass, when it succeeds. *)
Lemma pass_step t : legit nv d t -> t_failed t = false -> let t' := tell_all (pass (t_domains t)) t in
  legit nv d t' /\
  (t_failed t' = false ->
   exists evs, apply_lits (t_domains t) (pass (t_domains t)) = (t_domains t', evs, false) /\
     count_inferences d t' = (count_inferences d t + length evs)%nat).
Proof.
  intros G F t'. pose proof (legit_ok nv d Hd L t G F) as Ok. pose proof (legit_length nv d Hd L t G) as Ln.
  assert (G' : legit nv d t') by (apply legit_tell_all; auto). split; [assumption|]. intro F'.
  destruct (tell_all_live _ _ F') as [_ E]. fold t' in E.
  destruct (lg_apply _ _ _ G) as [ev A]. destruct (lg_apply _ _ _ G') as [ev' A']. rewrite F in A. rewrite F' in A'.
  rewrite E, rev_app_distr, rev_involutive, (apply_lits_concat _ _ _ _ _ A) in A'.
  destruct (apply_lits (t_domains t) (pass (t_domains t))) as [[D2 e2] b2] eqn:Ap. injection A' as -> Ev ->.
  exists e2. split; [reflexivity|]. unfold count_inferences. rewrite E, rev_app_distr, rev_involutive, (apply_lits_concat _ _ _ _ _ A), Ap, A. simpl.
  apply app_length.
Qed.

(** Running a pass again from the domains of [t] infers nothing. *)
Definition at_rest (D : domains) : Prop := forall a, within a D -> Forall (lit_holds a) (pass D).

Lemma until_quiet_spec fuel : forall t, legit nv d t -> t_failed t = false -> (total_size (t_domains t) < fuel)%nat ->
  exists t', until_quiet pass d fuel t = Some t' /\ legit nv d t' /\ (t_failed t' = false -> at_rest (t_domains t')).
Proof.
  induction fuel as [|k IH]; intros t G F Fu; [lia|]. simpl. destruct (pass_step t G F) as [G' S]. cbv zeta in *.
  set (t' := tell_all (pass (t_domains t)) t) in *. destruct (t_failed t') eqn:F'.
  { exists t'. split; [reflexivity|]. split; [assumption|congruence]. }
  pose proof (legit_ok nv d Hd L t G F) as Ok. pose proof (legit_length nv d Hd L t G) as Ln.
  destruct (S eq_refl) as (evs & A & C).
  assert (K : Forall (lit_known (t_domains t)) (pass (t_domains t))) by (apply (lits_known nv); auto).
  destruct (Nat.eqb_spec (count_inferences d t') (count_inferences d t)) as [Q|Q].
  - exists t'. split; [reflexivity|]. split; [assumption|]. intros _.
    assert (evs = []) as -> by (destruct evs; [reflexivity|simpl in C; lia]).
    pose proof (apply_lits_quiet _ _ _ Ok K A) as E. unfold at_rest. rewrite E. intros a Wa.
    pose proof (apply_lits_within _ _ _ _ _ Ok K A a) as W. rewrite E in W. apply W in Wa. tauto.
  - apply IH; auto. pose proof (apply_lits_size _ _ _ _ _ Ok K A eq_refl). lia.
Qed.

Lemma until_quiet_keeps a : (forall D, domains_ok D -> length D = nv -> within a D -> Forall (lit_holds a) (pass D)) -> within a d ->
  forall fuel t t', legit nv d t -> keeps a t -> until_quiet pass d fuel t = Some t' -> keeps a t'.
Proof.
  intros H Wa. induction fuel as [|k IH]; intros t t' G K E; [discriminate|]. simpl in E.
  destruct (keeps_alive nv d Hd L t a G Wa K) as [F W].
  assert (K' : keeps a (tell_all (pass (t_domains t)) t)).
  { apply tell_all_keeps; [assumption|]. apply H; [now apply (legit_ok nv d)|now apply (legit_length nv d)|assumption]. }
  destruct (t_failed (tell_all _ _)); [injection E as <-; assumption|].
  destruct (Nat.eqb _ _); [injection E as <-; assumption|].
  eapply IH; [|exact K'|exact E]. apply legit_tell_all; auto. apply Pass; [now apply (legit_ok nv d)|now apply (legit_length nv d)].
Qed.

Lemma quiet_body_spec : legit nv d (fst (quiet_body pass d)) /\ snd (quiet_body pass d) = EnableButIdempotent /\
  (t_failed (fst (quiet_body pass d)) = false -> at_rest (t_domains (fst (quiet_body pass d)))).
Proof.
  unfold quiet_body. destruct (until_quiet_spec (enough_fuel d) (track d) (legit_track _ _) eq_refl) as (t & E & G & R).
  { unfold enough_fuel. apply Nat.lt_succ_diag_r. }
  rewrite E. auto.
Qed.

Lemma quiet_body_keeps a : (forall D, domains_ok D -> length D = nv -> within a D -> Forall (lit_holds a) (pass D)) -> within a d ->
  keeps a (fst (quiet_body pass d)).
Proof.
  intros H Wa. unfold quiet_body. destruct (until_quiet pass d (enough_fuel d) (track d)) eqn:E; [|apply keeps_track].
  eapply until_quiet_keeps; eauto; [apply legit_track|apply keeps_track].
Qed.

(** On domains at rest, the function infers nothing new. *)
Lemma quiet_body_again : at_rest d -> t_failed (fst (quiet_body pass d)) = false /\ t_domains (fst (quiet_body pass d)) = d.
Proof.
  intro R. unfold quiet_body. unfold enough_fuel. simpl until_quiet.
  assert (K : Forall (lit_known d) (pass d)) by (apply (lits_known nv); auto).
  pose proof (apply_lits_implied _ d Hd K R) as A.
  destruct (pass_step (track d) (legit_track _ _) eq_refl) as [G' S]. cbv zeta in *. simpl in G', S |- *.
  assert (F' : t_failed (tell_all (pass d) (track d)) = false).
  { destruct (within_exists d Hd) as [a Wa]. apply (keeps_alive nv d Hd L _ a G' Wa). apply tell_all_keeps; auto. apply keeps_track. }
  rewrite F'. destruct (S F') as (evs & A' & C). rewrite A in A'. injection A' as E1 <-.
  replace (count_inferences d (tell_all (pass d) (track d))) with 0%nat by (rewrite C; reflexivity).
  simpl. auto.
Qed.

End Quiet.
