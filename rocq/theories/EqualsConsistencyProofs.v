(** Lemmas about what equality leaves when it infers nothing new. *)
From Coq Require Import ZArith List Bool Arith Lia.
From Verif Require Import IntervalSet IntervalSetSpec IntervalSetProofs Vars VarsSpec VarsProofs State StateSpec StateProofs Epochs
  Engine EngineSpec EngineProofs SessionSpec SessionInvProofs Tracker ContractSpec ContractProofs RunProofs Reify ReifySpec ReifyProofs Equals EqualsProofs
  ConsistencySpec QuietProofs ChoiceProofs.
Import ListNotations.
Local Open Scope Z_scope.

(** A run that infers nothing new keeps every assignment. *)
Lemma quiet_live nv d f on_change on_bounds on_instantiated a : domains_ok d -> length d = nv -> legit nv d (fst (f d)) ->
  rerun_is_quiet (body_propagator f on_change on_bounds on_instantiated) d -> within a d -> live nv d (fst (f d)) a.
Proof.
  intros Hd Ld G Q Wa. specialize (Q (mk_in d [] [] [] [] (fun _ => false)) eq_refl). cbn [body_propagator p_run] in Q.
  rewrite (proj1 (body_run_out f (mk_in d [] [] [] [] (fun _ => false)))) in Q. cbn [i_domains] in Q. destruct (lg_apply _ _ _ G) as (evs & A). rewrite A in Q.
  injection Q as E _ F. split; [assumption|]. split; [assumption|]. now rewrite E.
Qed.

Lemma no_holes d v : domains_ok d -> var_known d v -> domain_has_holes d v = false -> forall x, lower_bound d v <= x <= upper_bound d v -> view_member d v x.
Proof.
  intros Hd Kv H x Bx. destruct (lower_bound_spec d v Hd Kv) as [Lm _]. destruct (upper_bound_spec d v Hd Kv) as [Um _].
  destruct (in_domain d v x) eqn:E; [now apply in_domain_spec|exfalso].
  assert (N : ~ view_member d v x) by (rewrite <- in_domain_spec by assumption; congruence).
  assert (x <> lower_bound d v) by congruence. assert (x <> upper_bound d v) by congruence.
  assert (T : domain_has_holes d v = true); [|congruence]. apply domain_has_holes_spec; auto. exists (lower_bound d v), x, (upper_bound d v). repeat split; auto; lia.
Qed.

Section Equals.
Variable nv : nat.
Variable d : domains.
Hypothesis Hd : domains_ok d.
Hypothesis Ld : length d = nv.

Lemma prune_later b v s1 s2 t : var_below nv v -> later nv d t (prune_minus b v s1 s2 t).
Proof.
  intros B. unfold prune_minus. apply later_for_each. intros [lo hi] t' _. destruct b; [apply later_not_in_range; auto|].
  apply later_for_each. intros x t2 _. apply later_tell; auto.
Qed.

Lemma prune_back b v s1 s2 t a : var_below nv v -> well_formed s1 -> well_formed s2 -> legit nv d t -> live nv d (prune_minus b v s1 s2 t) a ->
  live nv d t a /\ (member (var_value a v) s1 -> member (var_value a v) s2).
Proof.
  intros B W1 W2 G Lv. unfold prune_minus in Lv.
  apply (for_each_later nv d (fun p => ~ (fst p <= var_value a v <= snd p))) in Lv; [destruct Lv as [Lv F]; split; [exact Lv|]| | |exact G].
  - intro M. destruct (contains (var_value a v) s2) eqn:Cn; [now apply contains_spec|exfalso].
    assert (N2 : ~ member (var_value a v) s2) by (rewrite <- contains_spec by assumption; congruence).
    destruct (each_interval_minus_spec s1 s2 W1 W2) as [_ R]. destruct (proj2 (R (var_value a v)) (conj M N2)) as (lo & hi & I & Bd).
    rewrite Forall_forall in F. exact (F (lo, hi) I Bd).
  - intros [lo hi] t' _. destruct b; [apply later_not_in_range; auto|]. apply later_for_each. intros x t2 _. apply later_tell; auto.
  - intros [lo hi] t' _ Gt L1 L2 Bd. cbn [fst snd] in Bd. destruct b.
    + apply (not_in_range_back nv d Hd Ld) in L1; auto. now apply (proj2 L1).
    + apply (for_each_later nv d (fun x => var_value a v <> x)) in L1; [destruct L1 as [_ F]| | |exact Gt].
      * rewrite Forall_forall in F. apply (F (var_value a v)); [|reflexivity]. apply zrange_In. assumption.
      * intros x t2 _. apply later_tell; auto.
      * intros x t2 _ G2 L1' _. apply (tell_back nv d Hd Ld) in L1'; auto. exact (proj2 L1').
Qed.

(** What is left after a run has its value in the other domain. *)
Lemma equality_back v1 v2 a : var_below nv v1 -> var_below nv v2 -> live nv d (fst (enforce_equality v1 v2 d)) a ->
  view_member d v1 (var_value a v2) /\ view_member d v2 (var_value a v1).
Proof.
  intros B1 B2 Lv. pose proof (live_within nv d Hd Ld _ a Lv) as Wa.
  pose proof (var_below_known nv d v1 Ld B1) as K1. pose proof (var_below_known nv d v2 Ld B2) as K2.
  assert (M1 : view_member d v1 (var_value a v1)) by now apply value_possible. assert (M2 : view_member d v2 (var_value a v2)) by now apply value_possible.
  revert Lv. unfold enforce_equality.
  destruct (optional_single_value d v1) as [x1|] eqn:O1.
  { cbn [fst]. intro Lv. apply (tell_back nv d Hd Ld) in Lv; auto using legit_track. destruct Lv as [_ E]. unfold lit_holds, cond_holds in E; cbn in E.
    pose proof (osv_value d v1 x1 Hd K1 O1 a Wa). assert (var_value a v2 = var_value a v1) as E' by congruence. rewrite E'. rewrite E' in M2. auto. }
  destruct (optional_single_value d v2) as [x2|] eqn:O2.
  { cbn [fst]. intro Lv. apply (tell_back nv d Hd Ld) in Lv; auto using legit_track. destruct Lv as [_ E]. unfold lit_holds, cond_holds in E; cbn in E.
    pose proof (osv_value d v2 x2 Hd K2 O2 a Wa). assert (var_value a v1 = var_value a v2) as E' by congruence. rewrite E'. rewrite E' in M1. auto. }
  destruct (copy_of_values_spec d v1 Hd K1) as [C1 D1]. destruct (copy_of_values_spec d v2 Hd K2) as [C2 D2].
  destruct (domain_has_holes d v1 || domain_has_holes d v2) eqn:Ho.
  - cbn [fst]. intro Lv. apply prune_back in Lv; auto; [|apply legit_prune_minus; auto using legit_track]. destruct Lv as [Lv X2].
    apply prune_back in Lv; auto using legit_track. destruct Lv as [_ X1]. rewrite !D1, !D2 in *. auto.
  - apply orb_false_iff in Ho. destruct Ho as [Ho1 Ho2].
    assert (R1 : forall x, lower_bound d v1 <= x <= upper_bound d v1 -> view_member d v1 x) by now apply no_holes.
    assert (R2 : forall x, lower_bound d v2 <= x <= upper_bound d v2 -> view_member d v2 x) by now apply no_holes.
    pose proof (value_bounds d v1 a Hd K1 Wa). pose proof (value_bounds d v2 a Hd K2 Wa).
    rewrite !bounds_spec. destruct ((lower_bound d v1 =? lower_bound d v2) && (upper_bound d v1 =? upper_bound d v2)) eqn:Eb.
    + apply andb_true_iff in Eb. rewrite !Z.eqb_eq in Eb. intros _. split; [apply R1|apply R2]; lia.
    + cbn [fst]. intro Lv. assert (G : forall t, legit nv d t -> forall l, lit_below nv l -> legit nv d (tell l t)) by (intros; now apply legit_tell).
      apply (tell_back nv d Hd Ld) in Lv; [|assumption|repeat (apply G; [|assumption]); apply legit_track]. destruct Lv as [Lv E1].
      apply (tell_back nv d Hd Ld) in Lv; [|assumption|repeat (apply G; [|assumption]); apply legit_track]. destruct Lv as [Lv E2].
      apply (tell_back nv d Hd Ld) in Lv; [|assumption|repeat (apply G; [|assumption]); apply legit_track]. destruct Lv as [Lv E3].
      apply (tell_back nv d Hd Ld) in Lv; [|assumption|repeat (apply G; [|assumption]); apply legit_track]. destruct Lv as [Lv E4].
      unfold lit_holds, cond_holds in E1, E2, E3, E4; cbn in E1, E2, E3, E4. split; [apply R1|apply R2]; lia.
Qed.
End Equals.

(** Equality between unrelated handles is domain consistent. *)
Lemma equals_consistent d0 D v1 v2 k : var_known d0 v1 -> var_known d0 v2 -> unrelated v1 v2 -> equals v1 v2 = Some k ->
  domains_ok D -> length D = length d0 -> (forall p, In p (fst (k d0)) -> rerun_is_quiet p D) ->
  domain_consistent D [v1; v2] (fun a => var_value a v1 = var_value a v2).
Proof.
  intros K1 K2 U E HD LD Q. injection E as <-. specialize (Q _ (or_introl eq_refl)).
  assert (B1 : var_below (length D) v1) by (rewrite LD; now apply known_below). assert (B2 : var_below (length D) v2) by (rewrite LD; now apply known_below).
  assert (KD : Forall (var_known D) [v1; v2]) by (repeat constructor; now apply (var_below_known (length D))).
  assert (ND : NoDup (underlying_list [v1; v2])).
  { change [v1; v2] with ([v1] ++ [v2]). rewrite underlying_list_app. unfold underlying_list. simpl. destruct (underlying v1) as [n|] eqn:U1, (underlying v2) as [m|] eqn:U2; simpl; repeat constructor; simpl; try tauto.
    intros [->|[]]. now apply (U n U1). }
  assert (Both : forall z, view_member D v1 z -> view_member D v2 z -> exists a, within a D /\ var_value a v1 = z /\ var_value a v2 = z).
  { intros z M1 M2. destruct (choose_list D [v1; v2] [z; z] HD KD ND) as (a & Wa & E); [repeat constructor; assumption|]. injection E as E1 E2. eauto. }
  intros v x Iv (a & Wa & Ea).
  assert (Lv : live (length D) D (fst (enforce_equality v1 v2 D)) a) by (eapply quiet_live; eauto; now apply equality_legit).
  apply (equality_back (length D) D HD eq_refl) in Lv; auto. destruct Lv as [M1 M2]. rewrite Forall_forall in KD.
  destruct Iv as [<-|[<-|[]]].
  - destruct (Both x) as (b & Wb & E1 & E2); [rewrite <- Ea; apply value_possible; auto; apply KD; simpl; auto|congruence|]. exists b. split; [assumption|]. split; congruence.
  - destruct (Both x) as (b & Wb & E1 & E2); [congruence|rewrite <- Ea; apply value_possible; auto; apply KD; simpl; auto|]. exists b. split; [assumption|]. split; congruence.
Qed.
