(** Lemmas about comparison. *)
From Coq Require Import ZArith List Bool Arith Lia.
From Verif Require Import IntervalSet IntervalSetSpec IntervalSetProofs Vars VarsSpec VarsProofs State StateSpec StateProofs Epochs
  Engine EngineSpec EngineProofs SessionSpec SessionInvProofs Tracker ContractSpec ContractProofs Reify ReifySpec ReifyProofs
  Equals EqualsProofs Comparison.
Import ListNotations.
Local Open Scope Z_scope.

Definition less_rel (v1 v2 : var_id) (or_equal : bool) (a : assignment) : Prop :=
  if or_equal then var_value a v1 <= var_value a v2 else var_value a v1 < var_value a v2.

Lemma less_rel_not v1 v2 b a : ~ less_rel v1 v2 b a <-> less_rel v2 v1 (negb b) a.
Proof. unfold less_rel. destruct b; simpl; lia. Qed.

Lemma enforce_less_ok nv d0 alias v1 v2 b scope : var_below nv v1 -> var_below nv v2 -> In v1 scope -> In v2 scope ->
  body_ok nv d0 alias (enforce_less v1 v2 b) scope (less_rel v1 v2 b).
Proof.
  intros B1 B2 S1 S2.
  assert (LG : forall d, legit nv d (fst (enforce_less v1 v2 b d))).
  { intro d. unfold enforce_less. destruct (bounds d v1) as [l1 u1], (bounds d v2) as [l2 u2].
    assert (G1 : legit nv d (tell_lt v1 (u2 + one_if b) (track d))) by (apply legit_tell; [assumption|apply legit_track]).
    destruct (t_failed _); [exact G1|].
    assert (G2 : legit nv d (tell_ge v2 (l1 + one_if (negb b)) (tell_lt v1 (u2 + one_if b) (track d)))) by (apply legit_tell; assumption).
    destruct (t_failed _); exact G2. }
  assert (RES : forall d a, domains_ok d -> length d = nv -> t_failed (fst (enforce_less v1 v2 b d)) = false ->
    within a (t_domains (fst (enforce_less v1 v2 b d))) ->
    within a d /\ var_value a v1 < upper_bound d v2 + one_if b /\ var_value a v2 >= lower_bound d v1 + one_if (negb b) /\
    snd (enforce_less v1 v2 b d) = if upper_bound d v1 <? lower_bound d v2 + one_if b then DisableUntilBacktrack else Enable).
  { intros d a Hd L. unfold enforce_less. rewrite !bounds_spec.
    set (t1 := tell_lt v1 (upper_bound d v2 + one_if b) (track d)).
    assert (G1 : legit nv d t1) by (apply legit_tell; [assumption|apply legit_track]).
    destruct (t_failed t1) eqn:F1; [simpl; congruence|].
    set (t2 := tell_ge v2 (lower_bound d v1 + one_if (negb b)) t1).
    destruct (t_failed t2) eqn:F2; [simpl; congruence|]. simpl. intros _ W.
    destruct (tell_ge_spec nv d t1 v2 _ a Hd L G1 B2 F2 W) as (_ & W1 & E2).
    destruct (tell_lt_spec nv d (track d) v1 _ a Hd L (legit_track nv d) B1 F1 W1) as (_ & W0 & E1). auto. }
  constructor.
  - intros d _ _ _. apply LG.
  - intros d a Hd L I Wa Sa. unfold less_rel in Sa.
    pose proof (value_bounds d v1 a Hd (var_below_known nv d v1 L B1) Wa) as V1.
    pose proof (value_bounds d v2 a Hd (var_below_known nv d v2 L B2) Wa) as V2.
    unfold enforce_less. rewrite !bounds_spec.
    assert (G1 : keeps a (tell_lt v1 (upper_bound d v2 + one_if b) (track d))).
    { apply keeps_tell; [apply keeps_track|]. intros _. simpl. unfold cond_holds. simpl. destruct b; simpl; lia. }
    destruct (t_failed _); [exact G1|].
    assert (G2 : keeps a (tell_ge v2 (lower_bound d v1 + one_if (negb b)) (tell_lt v1 (upper_bound d v2 + one_if b) (track d)))).
    { apply keeps_tell; [assumption|]. intros _. simpl. unfold cond_holds. simpl. destruct b; simpl; lia. }
    destruct (t_failed _); exact G2.
  - intros d Hd L I F Ft a Wa. rewrite Forall_forall in F. destruct (RES d a Hd L Ft Wa) as (W & E1 & E2 & _).
    destruct (fixed_bounds d v1 a Hd (var_below_known nv d v1 L B1) (F v1 S1) W).
    destruct (fixed_bounds d v2 a Hd (var_below_known nv d v2 L B2) (F v2 S2) W).
    unfold less_rel. destruct b; simpl in *; lia.
  - intros d Hd L I NA R Ft F a Wa. destruct (RES d a Hd L Ft Wa) as (_ & _ & _ & E). rewrite E in R.
    destruct (_ <? _); discriminate.
  - intros d Hd L I R Ft a Wa. destruct (RES d a Hd L Ft Wa) as (W & _ & _ & E). rewrite E in R.
    destruct (Z.ltb_spec (upper_bound d v1) (lower_bound d v2 + one_if b)); [|discriminate].
    pose proof (value_bounds d v1 a Hd (var_below_known nv d v1 L B1) W) as V1.
    pose proof (value_bounds d v2 a Hd (var_below_known nv d v2 L B2) W) as V2.
    unfold less_rel. destruct b; simpl in *; lia.
Qed.

Section Less.
Variable nv : nat.
Variable v1 v2 : var_id.
Variable b : bool.
Hypothesis B1 : var_below nv v1.
Hypothesis B2 : var_below nv v2.

Lemma less_verdict_ok d0 : verdict_ok nv d0 (less_verdict v1 v2 b) (less_rel v1 v2 b).
Proof.
  intros d Hd L I. pose proof (var_below_known nv d v1 L B1) as K1. pose proof (var_below_known nv d v2 L B2) as K2.
  unfold less_verdict. destruct (var_eqb v1 v2 && negb (is_constant v1)) eqn:A.
  { apply andb_true_iff in A. destruct A as [A _]. apply var_eqb_spec in A. subst. unfold less_rel. destruct b; intros a _; lia. }
  rewrite !bounds_spec.
  assert (G : forall a, within a d -> lower_bound d v1 <= var_value a v1 <= upper_bound d v1 /\ lower_bound d v2 <= var_value a v2 <= upper_bound d v2).
  { intros a Wa. split; now apply value_bounds. }
  unfold less_rel. destruct b.
  - destruct (Z.leb_spec (upper_bound d v1) (lower_bound d v2)).
    + intros a Wa. specialize (G a Wa). lia.
    + destruct (Z.ltb_spec (upper_bound d v2) (lower_bound d v1)); [|exact Logic.I]. intros a Wa. specialize (G a Wa). lia.
  - destruct (Z.ltb_spec (upper_bound d v1) (lower_bound d v2)).
    + intros a Wa. specialize (G a Wa). lia.
    + destruct (Z.leb_spec (upper_bound d v2) (lower_bound d v1)); [|exact Logic.I]. intros a Wa. specialize (G a Wa). lia.
Qed.

(** An initialiser that infers one literal. *)
Lemma tell_initialises d0 Inv l (sat : assignment -> Prop) : stable nv Inv -> (forall d cs, Inv d cs -> inside d0 d) -> lit_below nv l ->
  (forall a, within a d0 -> (sat a <-> lit_holds a l)) ->
  initialises nv Inv (body_initialiser (fun d => tell l (track d))) sat sat.
Proof.
  intros St In0 B H. apply (body_initialises nv d0); auto.
  - intros. apply legit_tell; [assumption|apply legit_track].
  - intros d a Hd L I Wa Sa. apply keeps_tell; [apply keeps_track|]. intros _. apply H; auto.
  - intros d a Hd L I F W. destruct (tell_live nv d Hd L _ _ a (legit_track nv d) B F W) as (_ & W' & Hl). apply H; auto.
Qed.

Lemma reified_less_implements d0 Inv r : domains_ok d0 -> var_known d0 v1 -> var_known d0 v2 -> stable nv Inv -> (forall d cs, Inv d cs -> inside d0 d) ->
  Forall (var_below (length d0)) (reif_scope r) ->
  Forall (var_below nv) (reif_scope r) -> reif_sane r ->
  implements nv d0 Inv (fst (reified_less v1 v2 r b d0)) (snd (reified_less v1 v2 r b d0))
    ([v1; v2] ++ reif_scope r) (reif_sat r (less_rel v1 v2 b)).
Proof.
  intros Hd K1 K2 St In0 Kr0 Kr Sr.
  assert (GEN : implements nv d0 Inv (install_dispatcher (enforce_less v1 v2 b) (enforce_less v2 v1 (negb b)) (less_verdict v1 v2 b)
         (test_reif d0 r) r [] [v1; v2] []) [] ([v1; v2] ++ reif_scope r) (reif_sat r (less_rel v1 v2 b))).
  { apply (install_dispatcher_implements nv d0 _ _ _ [v1; v2] (less_rel v1 v2 b) r Hd Kr0 Kr Sr (less_verdict_ok d0) Inv [] [v1; v2] []
      (aliased (body_propagator (enforce_less v1 v2 b) [] [v1; v2] []))
      (aliased (body_propagator (enforce_less v2 v1 (negb b)) [] [v1; v2] []))); auto; try tauto.
    - apply enforce_less_ok; simpl; auto.
    - apply (body_ok_ext nv d0 _ _ _ (less_rel v2 v1 (negb b))); [intros a _; symmetry; apply less_rel_not|].
      apply enforce_less_ok; simpl; auto. }
  unfold reified_less. destruct (optional_single_value d0 v1) as [x1|] eqn:O1; [|exact GEN].
  destruct (optional_single_value d0 v2) as [x2|] eqn:O2; [|exact GEN]. clear GEN.
  pose proof (test_reif_spec (length d0) d0 r (less_rel v1 v2 b) Hd eq_refl Kr0 Sr) as T.
  set (holds := if b then x1 <=? x2 else x1 <? x2).
  assert (HB : forall a, within a d0 -> (less_rel v1 v2 b a <-> holds = true)).
  { intros a Wa. unfold less_rel, holds. rewrite (osv_value d0 v1 x1 Hd K1 O1 a Wa).
    rewrite (osv_value d0 v2 x2 Hd K2 O2 a Wa). destruct b; lia. }
  assert (NONE : (forall a, within a d0 -> reif_sat r (less_rel v1 v2 b) a) ->
    implements nv d0 Inv [] [] ([v1; v2] ++ reif_scope r) (reif_sat r (less_rel v1 v2 b))).
  { intro H. split; [apply Forall_app; auto|]. exists [], []. split; [constructor|]. split; [constructor|]. auto. }
  assert (ONE : forall l, lit_below nv l -> (forall a, within a d0 -> (reif_sat r (less_rel v1 v2 b) a <-> lit_holds a l)) ->
    implements nv d0 Inv [] [body_initialiser (fun d => tell l (track d))] ([v1; v2] ++ reif_scope r) (reif_sat r (less_rel v1 v2 b))).
  { intros l Bl H. split; [apply Forall_app; auto|]. exists [], [reif_sat r (less_rel v1 v2 b)]. split; [constructor|]. split.
    - constructor; [|constructor]. now apply (tell_initialises d0).
    - intros a Wa _ F. now inversion F. }
  assert (LB : forall c, reif_cond r = Some c -> lit_below nv (LCond c) /\ lit_below nv (LCond (cond_not c)) /\ lit_below nv (LCond (cond_not (cond_not c)))).
  { intros c E. unfold reif_scope in Kr. rewrite E in Kr. inversion Kr as [|? ? Bc _]; subst. unfold lit_below, var_below in *. simpl.
    unfold cond_not. destruct (c_op c); simpl; auto. }
  assert (LT : forall c, reif_cond r = Some c ->
    (test_literal d0 (LCond c) = DefinitelyTrue <-> forall a, within a d0 -> cond_holds a c) /\
    (test_literal d0 (LCond c) = DefinitelyFalse <-> forall a, within a d0 -> ~ cond_holds a c)).
  { intros c E. apply (test_exact d0 (LCond c)); auto.
    - eapply reif_known; eauto.
    - unfold reif_sane in Sr. rewrite E in Sr. exact Sr. }
  (* the evaluated literal holds wherever the condition is decided *)
  assert (EV : test_reif d0 r = EMustHold \/ test_reif d0 r = EMustNotHold ->
     lit_below nv (lit_not (evaluated_literal d0 r)) /\ forall a, within a d0 -> ~ lit_holds a (lit_not (evaluated_literal d0 r))).
  { intro H. unfold evaluated_literal. destruct r as [| |c|c|c]; cbn [test_reif lit_not] in H |- *.
    - split; [exact Logic.I|tauto].
    - split; [exact Logic.I|tauto].
    - destruct (LB c eq_refl) as (_ & Bn & _). split; [exact Bn|]. destruct (LT c eq_refl) as [T1 _].
      destruct (test_literal d0 (LCond c)); try (destruct H; discriminate). intros a Wa. simpl. rewrite cond_not_holds. pose proof (proj1 T1 eq_refl a Wa). tauto.
    - destruct (LB c eq_refl) as (_ & Bn & _). split; [exact Bn|]. destruct (LT c eq_refl) as [T1 _].
      destruct (test_literal d0 (LCond c)); try (destruct H; discriminate). intros a Wa. simpl. rewrite cond_not_holds. pose proof (proj1 T1 eq_refl a Wa). tauto.
    - destruct (LB c eq_refl) as (_ & Bn & Bnn). destruct (LT c eq_refl) as [T1 T2].
      destruct (test_literal d0 (LCond c)); simpl.
      + split; [exact Bn|]. intros a Wa. simpl. rewrite cond_not_holds. pose proof (proj1 T1 eq_refl a Wa). tauto.
      + split; [exact Bnn|]. intros a Wa. simpl. rewrite !cond_not_holds. pose proof (proj1 T2 eq_refl a Wa). tauto.
      + destruct H; discriminate. }
  cbn [fst snd]. destruct (test_reif d0 r) as [| | |c h n nh] eqn:E.
  - destruct holds eqn:Hh.
    + apply NONE. intros a Wa. apply T; auto. now apply HB.
    + destruct (EV (or_introl eq_refl)) as [Bl Nl]. apply ONE; auto. intros a Wa. rewrite (T a Wa), (HB a Wa). split; [discriminate|].
      intro. exfalso. eapply Nl; eauto.
  - destruct holds eqn:Hh.
    + destruct (EV (or_intror eq_refl)) as [Bl Nl]. apply ONE; auto. intros a Wa. rewrite (T a Wa), (HB a Wa). split; [tauto|].
      intro. exfalso. eapply Nl; eauto.
    + apply NONE. intros a Wa. apply T; auto. rewrite (HB a Wa). discriminate.
  - now apply NONE.
  - destruct T as (Ec & _ & Fl). destruct (LB c Ec) as (Bc & Bn & _).
    destruct r as [| |c'|c'|c']; simpl in Ec, Fl; try tauto; injection Ec as ->; destruct Fl as (-> & -> & ->); destruct holds eqn:Hh; simpl;
      first [apply NONE; simpl; intros a Wa; rewrite (HB a Wa); auto; discriminate
            |apply ONE; auto; simpl; intros a Wa; rewrite ?cond_not_holds, (HB a Wa); intuition congruence].
Qed.

End Less.

Lemma reified_less_correct d0 v1 v2 r b (sat : assignment -> Prop) : domains_ok d0 -> var_known d0 v1 -> var_known d0 v2 ->
  Forall (var_known d0) (reif_scope r) -> reif_sane r -> (forall a, sat a <-> reif_sat r (less_rel v1 v2 b) a) ->
  correct_on d0 (reified_less v1 v2 r b) ([v1; v2] ++ reif_scope r) sat.
Proof.
  intros Hd K1 K2 Kr Sr E. apply (correct_intro _ _ _ _ _ E). intros nv Inv Ln St In0. pose proof (known_below_more _ _ _ Ln K1) as B1. pose proof (known_below_more _ _ _ Ln K2) as B2. apply known_below_all in Kr.
  exact (reified_less_implements nv v1 v2 b B1 B2 d0 Inv r Hd K1 K2 St In0 Kr (below_more_all _ _ _ Ln Kr) Sr).
Qed.

Lemma same_variable_eq v1 v2 : same_variable v1 v2 = true -> v1 = v2.
Proof. unfold same_variable. intro E. apply andb_true_iff in E. now apply var_eqb_spec. Qed.

Lemma comparison_posts d0 v1 v2 : domains_ok d0 -> var_known d0 v1 -> var_known d0 v2 ->
  posts d0 (less_than v1 v2) [v1; v2] (fun a => var_value a v1 < var_value a v2) /\
  posts d0 (less_than_equal v1 v2) [v1; v2] (fun a => var_value a v1 <= var_value a v2) /\
  posts d0 (greater_than v1 v2) [v2; v1] (fun a => var_value a v1 > var_value a v2) /\
  posts d0 (greater_than_equal v1 v2) [v2; v1] (fun a => var_value a v1 >= var_value a v2).
Proof.
  intros Hd K1 K2. split; [|split; [|split]].
  - unfold less_than. destruct (same_variable v1 v2) eqn:E.
    + apply same_variable_eq in E. subst. intros a H. lia.
    + apply (reified_less_correct d0 v1 v2 RMustHold false); auto; unfold reif_sat, less_rel; try lia; try exact Logic.I; constructor.
  - apply (reified_less_correct d0 v1 v2 RMustHold true); auto; unfold reif_sat, less_rel; try lia; try exact Logic.I; constructor.
  - unfold greater_than. destruct (same_variable v1 v2) eqn:E.
    + apply same_variable_eq in E. subst. intros a H. lia.
    + apply (reified_less_correct d0 v2 v1 RMustHold false); auto; unfold reif_sat, less_rel; try lia; try exact Logic.I; constructor.
  - apply (reified_less_correct d0 v2 v1 RMustHold true); auto; unfold reif_sat, less_rel; try lia; try exact Logic.I; constructor.
Qed.

Lemma reified_comparison_posts d0 v1 v2 c : domains_ok d0 -> var_known d0 v1 -> var_known d0 v2 -> cond_known d0 c -> cond_sane c ->
  (posts d0 (less_than_if v1 v2 c) [v1; v2; c_var c] (fun a => cond_holds a c -> var_value a v1 < var_value a v2) /\
   posts d0 (less_than_equal_if v1 v2 c) [v1; v2; c_var c] (fun a => cond_holds a c -> var_value a v1 <= var_value a v2) /\
   posts d0 (greater_than_if v1 v2 c) [v2; v1; c_var c] (fun a => cond_holds a c -> var_value a v1 > var_value a v2) /\
   posts d0 (greater_than_equal_if v1 v2 c) [v2; v1; c_var c] (fun a => cond_holds a c -> var_value a v1 >= var_value a v2)) /\
  (posts d0 (less_than_iff v1 v2 c) [v1; v2; c_var c] (fun a => cond_holds a c <-> var_value a v1 < var_value a v2) /\
   posts d0 (less_than_equal_iff v1 v2 c) [v1; v2; c_var c] (fun a => cond_holds a c <-> var_value a v1 <= var_value a v2) /\
   posts d0 (greater_than_iff v1 v2 c) [v2; v1; c_var c] (fun a => cond_holds a c <-> var_value a v1 > var_value a v2) /\
   posts d0 (greater_than_equal_iff v1 v2 c) [v2; v1; c_var c] (fun a => cond_holds a c <-> var_value a v1 >= var_value a v2)).
Proof.
  intros Hd K1 K2 Kc Sc.
  assert (F : forall d x, var_known d x -> Forall (var_known d) [x]) by (intros; constructor; auto).
  split; (split; [|split; [|split]]).
  - apply (reified_less_correct d0 v1 v2 (RIf c) false); auto; [apply F, Kc|]. intro a. unfold reif_sat, less_rel. tauto.
  - apply (reified_less_correct d0 v1 v2 (RIf c) true); auto; [apply F, Kc|]. intro a. unfold reif_sat, less_rel. tauto.
  - apply (reified_less_correct d0 v2 v1 (RIf c) false); auto; [apply F, Kc|]. intro a. unfold reif_sat, less_rel. rewrite Z.gt_lt_iff. tauto.
  - apply (reified_less_correct d0 v2 v1 (RIf c) true); auto; [apply F, Kc|]. intro a. unfold reif_sat, less_rel. rewrite Z.ge_le_iff. tauto.
  - apply (reified_less_correct d0 v1 v2 (RIff c) false); auto; [apply F, Kc|]. intro a. unfold reif_sat, less_rel. tauto.
  - apply (reified_less_correct d0 v1 v2 (RIff c) true); auto; [apply F, Kc|]. intro a. unfold reif_sat, less_rel. tauto.
  - apply (reified_less_correct d0 v2 v1 (RIff c) false); auto; [apply F, Kc|]. intro a. unfold reif_sat, less_rel. rewrite Z.gt_lt_iff. tauto.
  - apply (reified_less_correct d0 v2 v1 (RIff c) true); auto; [apply F, Kc|]. intro a. unfold reif_sat, less_rel. rewrite Z.ge_le_iff. tauto.
Qed.
