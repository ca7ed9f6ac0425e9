(** Lemmas about equality and disequality. *)
From Coq Require Import ZArith List Bool Arith Lia.
From Verif Require Import IntervalSet IntervalSetSpec IntervalSetProofs Vars VarsSpec VarsProofs State StateSpec StateProofs Epochs
  Engine EngineSpec EngineProofs SessionSpec SessionInvProofs Tracker ContractSpec ContractProofs Reify ReifySpec ReifyProofs Equals.
Import ListNotations.
Local Open Scope Z_scope.

Lemma var_eqb_spec v w : var_eqb v w = true <-> v = w.
Proof.
  destruct v as [n|n neg add|c], w as [m|m neg' add'|c']; simpl; try (split; discriminate).
  - rewrite Nat.eqb_eq. split; congruence.
  - rewrite !andb_true_iff, Nat.eqb_eq, Bool.eqb_true_iff, Z.eqb_eq. split; [intros [[-> ->] ->]; reflexivity|intros [= -> -> ->]; auto].
  - rewrite Z.eqb_eq. split; congruence.
Qed.

(** ** Pruning by another set *)

Lemma legit_prune_minus nv d b v s1 s2 t : var_below nv v -> legit nv d t -> legit nv d (prune_minus b v s1 s2 t).
Proof.
  intros B. unfold prune_minus. apply legit_for_each. intros [lo hi] t' _ L. destruct b; [now apply legit_tell_not_in_range|].
  apply legit_for_each; [|assumption]. intros. now apply legit_tell.
Qed.

Lemma keeps_prune_minus a b v s1 s2 t : well_formed s1 -> well_formed s2 -> member (var_value a v) s2 -> keeps a t ->
  keeps a (prune_minus b v s1 s2 t).
Proof.
  intros W1 W2 M. unfold prune_minus. apply keeps_for_each. intros [lo hi] t' I K.
  assert (N : ~ (lo <= var_value a v <= hi)).
  { intro H. destruct (each_interval_minus_spec s1 s2 W1 W2) as [_ R]. apply (R (var_value a v)); [|assumption].
    unfold member. exists lo, hi. auto. }
  destruct b; [now apply keeps_tell_not_in_range|]. apply keeps_for_each; [|assumption].
  intros x t2 Ix K2. apply keeps_tell; [assumption|]. intros _. apply zrange_In in Ix. simpl. unfold cond_holds; simpl. lia.
Qed.

Section Equals.
Variable nv : nat.
Variable v1 v2 : var_id.
Hypothesis B1 : var_below nv v1.
Hypothesis B2 : var_below nv v2.

Definition eq_rel (a : assignment) : Prop := var_value a v1 = var_value a v2.

Lemma equality_legit d : domains_ok d -> length d = nv -> legit nv d (fst (enforce_equality v1 v2 d)).
Proof.
  intros Hd L. unfold enforce_equality.
  destruct (optional_single_value d v1); [apply legit_tell; [assumption|apply legit_track]|].
  destruct (optional_single_value d v2); [apply legit_tell; [assumption|apply legit_track]|].
  destruct (domain_has_holes d v1 || domain_has_holes d v2).
  - simpl. repeat apply legit_prune_minus; auto using legit_track.
  - destruct (bounds d v1) as [l1 u1], (bounds d v2) as [l2 u2]. destruct ((l1 =? l2) && (u1 =? u2)); [apply legit_track|].
    simpl. repeat (apply legit_tell; [assumption|]). apply legit_track.
Qed.

Lemma equality_sound d a : domains_ok d -> length d = nv -> within a d -> eq_rel a -> keeps a (fst (enforce_equality v1 v2 d)).
Proof.
  intros Hd L Wa E. unfold eq_rel in E.
  pose proof (var_below_known nv d v1 L B1) as K1. pose proof (var_below_known nv d v2 L B2) as K2. unfold enforce_equality.
  destruct (optional_single_value d v1) as [x1|] eqn:O1.
  { apply keeps_tell; [apply keeps_track|]. intros _. simpl. unfold cond_holds. simpl. rewrite <- E. exact (osv_value d v1 x1 Hd K1 O1 a Wa). }
  destruct (optional_single_value d v2) as [x2|] eqn:O2.
  { apply keeps_tell; [apply keeps_track|]. intros _. simpl. unfold cond_holds. simpl. rewrite E. exact (osv_value d v2 x2 Hd K2 O2 a Wa). }
  assert (M1 : view_member d v1 (var_value a v1)) by (apply view_member_iff; eauto).
  assert (M2 : view_member d v2 (var_value a v2)) by (apply view_member_iff; eauto).
  destruct (copy_of_values_spec d v1 Hd K1) as [C1 D1]. destruct (copy_of_values_spec d v2 Hd K2) as [C2 D2].
  destruct (domain_has_holes d v1 || domain_has_holes d v2).
  - simpl. apply keeps_prune_minus; auto; [apply D1; rewrite <- E; assumption|].
    apply keeps_prune_minus; auto using keeps_track. apply D2. rewrite E. assumption.
  - rewrite !bounds_spec. destruct ((lower_bound d v1 =? lower_bound d v2) && (upper_bound d v1 =? upper_bound d v2)); [apply keeps_track|].
    pose proof (value_bounds d v1 a Hd K1 Wa). pose proof (value_bounds d v2 a Hd K2 Wa).
    simpl. repeat (apply keeps_tell; [|intros _; simpl; unfold cond_holds; simpl; lia]). apply keeps_track.
Qed.

Lemma equality_single d : domains_ok d -> length d = nv ->
  (exists x, optional_single_value d v1 = Some x) \/ (exists x, optional_single_value d v2 = Some x) ->
  t_failed (fst (enforce_equality v1 v2 d)) = false -> forall a, within a (t_domains (fst (enforce_equality v1 v2 d))) -> eq_rel a.
Proof.
  intros Hd L H F a Wa. unfold eq_rel.
  pose proof (var_below_known nv d v1 L B1) as K1. pose proof (var_below_known nv d v2 L B2) as K2. unfold enforce_equality in *.
  destruct (optional_single_value d v1) as [x1|] eqn:O1.
  { destruct (tell_eq_spec nv d _ _ _ a Hd L (legit_track nv d) B2 F Wa) as (_ & W & E). simpl in W. rewrite E.
    exact (osv_value d v1 x1 Hd K1 O1 a W). }
  destruct (optional_single_value d v2) as [x2|] eqn:O2.
  { destruct (tell_eq_spec nv d _ _ _ a Hd L (legit_track nv d) B1 F Wa) as (_ & W & E). simpl in W. rewrite E. symmetry.
    exact (osv_value d v2 x2 Hd K2 O2 a W). }
  destruct H as [[x H]|[x H]]; discriminate.
Qed.

Lemma equality_ok d0 alias : body_ok nv d0 alias (enforce_equality v1 v2) [v1; v2] eq_rel.
Proof.
  constructor.
  - intros; now apply equality_legit.
  - intros; now apply equality_sound.
  - intros d Hd L I F. apply equality_single; auto. left. inversion F; subst. apply fixed_osv; auto. now apply (var_below_known (length d)).
  - intros d Hd L I NA R. exfalso. revert R. unfold enforce_equality.
    destruct (optional_single_value d v1); [discriminate|]. destruct (optional_single_value d v2); [discriminate|].
    destruct (domain_has_holes d v1 || domain_has_holes d v2); [discriminate|].
    destruct (bounds d v1) as [l1 u1], (bounds d v2) as [l2 u2]. destruct ((l1 =? l2) && (u1 =? u2)); discriminate.
  - intros d Hd L I R. apply equality_single; auto. revert R. unfold enforce_equality.
    destruct (optional_single_value d v1); [eauto|]. destruct (optional_single_value d v2); [eauto|].
    destruct (domain_has_holes d v1 || domain_has_holes d v2); [discriminate|].
    destruct (bounds d v1) as [l1 u1], (bounds d v2) as [l2 u2]. destruct ((l1 =? l2) && (u1 =? u2)); discriminate.
Qed.

Lemma disequality_ok d0 alias : body_ok nv d0 alias (enforce_disequality v1 v2) [v1; v2] (fun a => ~ eq_rel a).
Proof.
  assert (S : forall d, domains_ok d -> length d = nv ->
    (exists x, optional_single_value d v1 = Some x) \/ (exists x, optional_single_value d v2 = Some x) ->
    t_failed (fst (enforce_disequality v1 v2 d)) = false ->
    forall a, within a (t_domains (fst (enforce_disequality v1 v2 d))) -> ~ eq_rel a).
  { intros d Hd L H F a Wa. unfold eq_rel.
    pose proof (var_below_known nv d v1 L B1) as K1. pose proof (var_below_known nv d v2 L B2) as K2. unfold enforce_disequality in *.
    destruct (optional_single_value d v1) as [x1|] eqn:O1.
    { destruct (tell_ne_spec nv d _ _ _ a Hd L (legit_track nv d) B2 F Wa) as (_ & W & E). simpl in W.
      rewrite (osv_value d v1 x1 Hd K1 O1 a W). congruence. }
    destruct (optional_single_value d v2) as [x2|] eqn:O2.
    { destruct (tell_ne_spec nv d _ _ _ a Hd L (legit_track nv d) B1 F Wa) as (_ & W & E). simpl in W.
      rewrite (osv_value d v2 x2 Hd K2 O2 a W). congruence. }
    destruct H as [[x H]|[x H]]; discriminate. }
  constructor.
  - intros d Hd L I. unfold enforce_disequality.
    destruct (optional_single_value d v1); [apply legit_tell; [assumption|apply legit_track]|].
    destruct (optional_single_value d v2); [apply legit_tell; [assumption|apply legit_track]|]. apply legit_track.
  - intros d a Hd L I Wa Sa. unfold eq_rel in Sa.
    pose proof (var_below_known nv d v1 L B1) as K1. pose proof (var_below_known nv d v2 L B2) as K2. unfold enforce_disequality.
    destruct (optional_single_value d v1) as [x1|] eqn:O1.
    { apply keeps_tell; [apply keeps_track|]. intros _. simpl. unfold cond_holds. simpl. rewrite <- (osv_value d v1 x1 Hd K1 O1 a Wa). congruence. }
    destruct (optional_single_value d v2) as [x2|] eqn:O2.
    { apply keeps_tell; [apply keeps_track|]. intros _. simpl. unfold cond_holds. simpl. rewrite <- (osv_value d v2 x2 Hd K2 O2 a Wa). congruence. }
    apply keeps_track.
  - intros d Hd L I F. apply S; auto. left. inversion F; subst. apply fixed_osv; auto. now apply (var_below_known (length d)).
  - intros d Hd L I NA R. exfalso. revert R. unfold enforce_disequality.
    destruct (optional_single_value d v1); [simpl; destruct (t_failed _); discriminate|].
    destruct (optional_single_value d v2); [simpl; destruct (t_failed _); discriminate|]. discriminate.
  - intros d Hd L I R. apply S; auto. revert R. unfold enforce_disequality.
    destruct (optional_single_value d v1); [eauto|]. destruct (optional_single_value d v2); [eauto|]. discriminate.
Qed.

Lemma equals_verdict_ok d0 : verdict_ok nv d0 (equals_verdict v1 v2) eq_rel.
Proof.
  intros d Hd L I. unfold eq_rel. pose proof (var_below_known nv d v1 L B1) as K1. pose proof (var_below_known nv d v2 L B2) as K2.
  unfold equals_verdict. destruct (var_eqb v1 v2 && negb (is_constant v1)) eqn:A.
  { apply andb_true_iff in A. destruct A as [A _]. apply var_eqb_spec in A. intros a _. now rewrite A. }
  destruct (optional_single_value d v1) as [x1|] eqn:O1, (optional_single_value d v2) as [x2|] eqn:O2.
  - destruct (Z.eqb_spec x1 x2); intros a Wa; rewrite (osv_value d v1 x1 Hd K1 O1 a Wa), (osv_value d v2 x2 Hd K2 O2 a Wa); auto.
  - destruct (in_domain d v2 x1) eqn:D; [exact Logic.I|]. intros a Wa E.
    enough (in_domain d v2 x1 = true) by congruence. apply in_domain_spec; auto. apply view_member_iff; auto. exists a. split; auto.
    rewrite <- E. exact (osv_value d v1 x1 Hd K1 O1 a Wa).
  - destruct (in_domain d v1 x2) eqn:D; [exact Logic.I|]. intros a Wa E.
    enough (in_domain d v1 x2 = true) by congruence. apply in_domain_spec; auto. apply view_member_iff; auto. exists a. split; auto.
    rewrite E. exact (osv_value d v2 x2 Hd K2 O2 a Wa).
  - destruct (domains_intersect d v1 v2) eqn:D; [exact Logic.I|]. intros a Wa E.
    enough (domains_intersect d v1 v2 = true) by congruence. apply domains_intersect_spec; auto. exists (var_value a v1).
    split; apply view_member_iff; eauto.
Qed.

Lemma reified_equals_implements d0 Inv r : domains_ok d0 -> stable nv Inv -> (forall d cs, Inv d cs -> inside d0 d) ->
  Forall (var_below (length d0)) (reif_scope r) ->
  Forall (var_below nv) (reif_scope r) -> reif_sane r ->
  implements nv d0 Inv (fst (reified_equals v1 v2 r d0)) (snd (reified_equals v1 v2 r d0)) ([v1; v2] ++ reif_scope r) (reif_sat r eq_rel).
Proof.
  intros Hd St In0 Kr0 Kr Sr. unfold reified_equals. cbn [fst snd].
  apply (install_dispatcher_implements nv d0 _ _ _ [v1; v2] eq_rel r Hd Kr0 Kr Sr (equals_verdict_ok d0) Inv [v1; v2] [] []
    (aliased (body_propagator (enforce_equality v1 v2) [v1; v2] [] []))
    (aliased (body_propagator (enforce_disequality v1 v2) [v1; v2] [] []))); auto; try tauto.
  - apply equality_ok.
  - apply disequality_ok.
Qed.

End Equals.

Lemma reified_equals_correct d0 v1 v2 r (sat : assignment -> Prop) : domains_ok d0 -> var_known d0 v1 -> var_known d0 v2 ->
  Forall (var_known d0) (reif_scope r) -> reif_sane r ->
  (forall a, sat a <-> reif_sat r (fun a => var_value a v1 = var_value a v2) a) ->
  correct_on d0 (reified_equals v1 v2 r) ([v1; v2] ++ reif_scope r) sat.
Proof.
  intros Hd K1 K2 Kr Sr E. apply (correct_intro _ _ _ _ _ E). intros nv Inv Ln St In0.
  apply (known_below_more _ _ _ Ln) in K1, K2. apply known_below_all in Kr.
  exact (reified_equals_implements nv v1 v2 K1 K2 d0 Inv r Hd St In0 Kr (below_more_all _ _ _ Ln Kr) Sr).
Qed.

Lemma equality_posts d0 v1 v2 : domains_ok d0 -> var_known d0 v1 -> var_known d0 v2 ->
  posts d0 (equals v1 v2) [v1; v2] (fun a => var_value a v1 = var_value a v2) /\
  posts d0 (not_equals v1 v2) [v1; v2] (fun a => var_value a v1 <> var_value a v2).
Proof.
  intros Hd K1 K2. split.
  - apply (reified_equals_correct d0 v1 v2 RMustHold); auto; try exact Logic.I; try constructor; simpl; tauto.
  - unfold not_equals. destruct (var_eqb v1 v2 && negb (is_constant v1)) eqn:E.
    + apply andb_true_iff in E. destruct E as [E _]. apply var_eqb_spec in E. subst. intros a H. now apply H.
    + apply (reified_equals_correct d0 v1 v2 RMustNotHold); auto; try exact Logic.I; try constructor; simpl; tauto.
Qed.

Lemma reified_equality_posts d0 v1 v2 c : domains_ok d0 -> var_known d0 v1 -> var_known d0 v2 -> cond_known d0 c -> cond_sane c ->
  posts d0 (equals_if v1 v2 c) [v1; v2; c_var c] (fun a => cond_holds a c -> var_value a v1 = var_value a v2) /\
  posts d0 (equals_iff v1 v2 c) [v1; v2; c_var c] (fun a => cond_holds a c <-> var_value a v1 = var_value a v2) /\
  posts d0 (not_equals_if v1 v2 c) [v1; v2; c_var c] (fun a => cond_holds a c -> var_value a v1 <> var_value a v2) /\
  posts d0 (not_equals_iff v1 v2 c) [v1; v2; c_var c] (fun a => cond_holds a c <-> var_value a v1 <> var_value a v2).
Proof.
  intros Hd K1 K2 Kc Sc. unfold cond_known in Kc.
  assert (F : Forall (var_known d0) [c_var c]) by (constructor; auto).
  split; [|split; [|split]].
  - apply (reified_equals_correct d0 v1 v2 (RIf c)); auto. intro a. simpl. tauto.
  - apply (reified_equals_correct d0 v1 v2 (RIff c)); auto. intro a. simpl. tauto.
  - apply (reified_equals_correct d0 v1 v2 (RNotIf c)); auto. intro a. simpl. tauto.
  - unfold not_equals_iff, posts. assert (EV : c_var (cond_not c) = c_var c) by (destruct c as [v [] ? ?]; reflexivity).
    rewrite <- EV in F |- *. apply (reified_equals_correct d0 v1 v2 (RIff (cond_not c))); auto.
    + destruct c as [v [] ? ?]; exact Sc.
    + intro a. simpl. rewrite cond_not_holds. pose proof (Z.eq_dec (var_value a v1) (var_value a v2)).
      destruct (cond_holds_dec a c); tauto.
Qed.
