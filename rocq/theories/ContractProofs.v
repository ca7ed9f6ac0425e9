(** Lemmas about runs of propagation functions and the contract they meet. *)
From Coq Require Import ZArith List Bool Arith Lia.
From Verif Require Import IntervalSet IntervalSetSpec IntervalSetProofs Vars VarsSpec VarsProofs State StateSpec StateProofs Epochs
  Engine EngineSpec EngineProofs SessionSpec SessionInvProofs Tracker ContractSpec.
Import ListNotations.
Local Open Scope Z_scope.

(** ** Fixed handles *)

Lemma var_below_known nv d v : length d = nv -> var_below nv v -> var_known d v.
Proof. intros L. unfold var_below, var_known, underlying. destruct v; auto; rewrite L; auto. Qed.

Lemma fixed_single d v : domains_ok d -> var_known d v ->
  (fixed d v <-> match underlying v with Some n => singleton (nth n d []) | None => True end).
Proof.
  intros Hd Hk. split.
  - intros (x & H). destruct (underlying v) as [n|] eqn:U; [|exact Logic.I].
    assert (Hn : (n < length d)%nat) by (destruct v; simpl in *; congruence).
    destruct (Hd n Hn) as [_ (y & My)]. exists y. intro w. split; [|intros ->; assumption].
    intro Mw. destruct (within_exists_at d n y Hd My) as (a & Wa & Ea).
    destruct (within_exists_at d n w Hd Mw) as (b & Wb & Eb).
    pose proof (H a Wa) as A. pose proof (H b Wb) as B.
    destruct v as [m|m neg add|c]; simpl in *; try discriminate; injection U as ->; [lia|destruct neg; lia].
  - intro H. destruct v as [n|n neg add|c]; simpl in *.
    + destruct H as (x & Hx). exists x. intros a Wa. apply Hx. now apply Wa.
    + destruct H as (x & Hx). exists ((if neg then - x else x) + add). intros a Wa.
      assert (E : a n = x) by (apply Hx; now apply Wa). simpl. now rewrite E.
    + exists c. reflexivity.
Qed.

Lemma fixed_mono d d' v : inside d d' -> fixed d v -> fixed d' v.
Proof. intros I (x & H). exists x. auto. Qed.

Lemma fixed_osv d v : domains_ok d -> var_known d v -> (fixed d v <-> exists x, optional_single_value d v = Some x).
Proof.
  intros Hd Hk. split.
  - intros (x & H). exists x. apply optional_single_value_spec; auto. intro y. rewrite view_member_iff by assumption. split.
    + intros (a & Wa & <-). auto.
    + intros ->. destruct (within_exists d Hd) as [a Wa]. exists a. auto.
  - intros (x & H). exists x. intros a Wa. rewrite optional_single_value_spec in H by assumption. apply H.
    apply view_member_iff; eauto.
Qed.

Lemma osv_value d v x : domains_ok d -> var_known d v -> optional_single_value d v = Some x ->
  forall a, within a d -> var_value a v = x.
Proof.
  intros Hd Hk H a Wa. rewrite optional_single_value_spec in H by assumption. apply H. apply view_member_iff; eauto.
Qed.

Lemma fixed_back d l k d' v : domains_ok d -> var_known d v -> lit_known d l -> infer d l = (k, d') -> k <> Contradiction ->
  (forall x, underlying v = Some x -> lit_underlying l = Some x -> k <> Instantiated) -> fixed d' v -> fixed d v.
Proof.
  intros Hd Hv Hl E N H F.
  pose proof (infer_ok _ _ _ _ Hd Hl E N) as Hd'. pose proof (infer_length _ _ _ _ Hd Hl E) as L.
  assert (Hv' : var_known d' v) by (revert Hv; unfold var_known; destruct v; auto; intro; unfold domains, iset in *; lia).
  rewrite fixed_single in * by assumption. destruct (underlying v) as [n|] eqn:U; [|exact Logic.I].
  destruct (infer_exact d l _ _ Hd Hl E) as (_ & _ & _ & O).
  pose proof (infer_accurate d l _ _ Hd Hl E) as A.
  destruct (lit_underlying l) as [m|] eqn:Ul.
  - destruct (Nat.eq_dec m n) as [->|Ne].
    + specialize (H n eq_refl eq_refl). destruct k; simpl in A; try congruence.
      * rewrite <- A. assumption.
      * tauto.
      * tauto.
    + rewrite <- O by congruence. assumption.
  - rewrite <- O by congruence. assumption.
Qed.

(** ** Implementing a relation is enough for the engine *)

Section Contract.
Variable nv : nat.
Variable Inv : domains -> list cstate -> Prop.
Variable p : propagator.
Variable scope : list var_id.
Variable sat : assignment -> Prop.

Lemma fixed_all_back d l k d' : domains_ok d -> length d = nv -> Forall (var_below nv) scope ->
  (forall v x, In v scope -> underlying v = Some x -> subscribes p x Instantiated) ->
  lit_known d l -> infer d l = (k, d') -> k <> Contradiction ->
  (forall v, lit_underlying l = Some v -> ~ subscribes p v k) -> Forall (fixed d') scope -> Forall (fixed d) scope.
Proof.
  intros Hd L K S Hl E N NS F. rewrite Forall_forall in *. intros v Iv.
  apply (fixed_back d l k d'); auto.
  - apply (var_below_known nv); auto.
  - intros x Ux Ul ->. apply (NS x Ul). eauto.
Qed.

Lemma fixed_all_back_lits ls d d' evs : domains_ok d -> length d = nv -> Forall (var_below nv) scope ->
  (forall v x, In v scope -> underlying v = Some x -> subscribes p x Instantiated) ->
  Forall (lit_known d) ls -> apply_lits d ls = (d', evs, false) ->
  (forall v k, In (v, k) evs -> ~ subscribes p v k) -> Forall (fixed d') scope -> Forall (fixed d) scope.
Proof.
  intros Hd L K S Kl E NS F.
  enough (~ ~ Forall (fixed d) scope) as NN.
  { (* being fixed is decidable for known handles *)
    assert (D : forall v, In v scope -> fixed d v \/ ~ fixed d v).
    { intros v Iv. rewrite Forall_forall in K. specialize (K v Iv). pose proof (var_below_known nv d v L K) as Kv.
      rewrite fixed_osv by assumption. destruct (optional_single_value d v); [left; eauto|right; intros (x & Hx); discriminate]. }
    clear - NN D. induction scope as [|v r IH]; [constructor|]. constructor.
    - destruct (D v (or_introl eq_refl)) as [H|H]; [assumption|]. exfalso. apply NN. intro G. inversion G. contradiction.
    - apply IH.
      + intro H. apply NN. intro G. inversion G. contradiction.
      + intros. apply D. now right. }
  intro NF. revert F.
  apply (apply_lits_kept (fun d => ~ Forall (fixed d) scope) (subscribes p) nv ls d d' evs false); auto.
  clear - K S. intros d l k d' Hd L Hl ND E N NS F. apply ND. eapply fixed_all_back; eauto.
Qed.

Lemma propagates_wakeable : propagates nv Inv p scope sat -> wakeable nv Inv p (checked scope sat) (entailed sat).
Proof.
  intros [Kn [WK WI] So Su Ch Cl En]. constructor.
  - intros i d evs U E NS _ F a Wa. apply (Ch i d evs U); auto. pose proof (WK i U) as Kl. destruct U as (Hd & L & _).
    exact (fixed_all_back_lits _ _ _ _ Hd L Kn Su Kl E NS F).
  - intros i d evs U NA E R F. exact (Cl i d evs U NA E R F).
  - intros i d evs U E R. exact (En i d evs U E R).
  - intros d l k d' Hd L Kl Ok E N NS F a Wa. apply Ok.
    + eapply fixed_all_back; eauto.
    + now apply (infer_within _ _ _ _ a Hd Kl E N) in Wa.
  - intros d l k d' Hd L Kl Ok E N a Wa. apply Ok. now apply (infer_within _ _ _ _ a Hd Kl E N) in Wa.
Qed.

End Contract.

(** ** Runs *)

(** The tracker is one that a run starting from [d] can reach. *)
Record legit (nv : nat) (d : domains) (t : tracker) : Prop :=
  { lg_apply : exists evs, apply_lits d (rev (t_lits t)) = (t_domains t, evs, t_failed t);
    lg_below : Forall (lit_below nv) (t_lits t) }.

(** Everything inferred so far holds. *)
Definition keeps (a : assignment) (t : tracker) : Prop := Forall (lit_holds a) (t_lits t).

Lemma apply_lits_app d ls l : forall d1 evs, apply_lits d ls = (d1, evs, false) ->
  exists evs', apply_lits d (ls ++ [l]) = (snd (infer d1 l), evs', is_contradiction (fst (infer d1 l))).
Proof.
  revert d. induction ls as [|x r IH]; intros d d1 evs E.
  - simpl in E. injection E as <- <-. simpl. destruct (infer d l) as [i d'] eqn:I. simpl. destruct i; eauto.
  - simpl app. simpl in E |- *. destruct (infer d x) as [i d'] eqn:I.
    destruct i; try (injection E as _ _ X; discriminate X); [eauto| | |];
      destruct (apply_lits d' r) as [[d2 ev2] b2] eqn:A; injection E as -> _ ->;
      destruct (IH d' d1 ev2 A) as (ev3 & E3); rewrite E3; eauto.
Qed.

Lemma legit_track nv d : legit nv d (track d).
Proof. split; [exists []; reflexivity|constructor]. Qed.

Lemma legit_tell nv d l t : lit_below nv l -> legit nv d t -> legit nv d (tell l t).
Proof.
  intros B [(evs & A) F]. unfold tell. destruct (t_failed t) eqn:Ft.
  - split; [exists evs; rewrite A, Ft; reflexivity|assumption].
  - destruct (infer (t_domains t) l) as [i d'] eqn:I. destruct (apply_lits_app d _ l _ _ A) as (ev' & E). rewrite I in E. simpl in E.
    split; [exists ev'; simpl; assumption|constructor; assumption].
Qed.

Lemma legit_for_each {X} nv d (xs : list X) f : (forall x t, In x xs -> legit nv d t -> legit nv d (f x t)) ->
  forall t, legit nv d t -> legit nv d (for_each xs f t).
Proof.
  unfold for_each. induction xs as [|x r IH]; intros H t L; simpl; [assumption|].
  apply IH; [intros; apply H; [now right|assumption]|]. apply H; [now left|assumption].
Qed.

Lemma legit_tell_all nv d ls : Forall (lit_below nv) ls -> forall t, legit nv d t -> legit nv d (tell_all ls t).
Proof.
  intros F t. apply (legit_for_each nv d ls tell). rewrite Forall_forall in F. intros. apply legit_tell; auto.
Qed.

Section Legit.
Variable nv : nat.
Variable d : domains.
Hypothesis Hd : domains_ok d.
Hypothesis Ld : length d = nv.

Lemma lits_known ls : Forall (lit_below nv) ls -> Forall (lit_known d) ls.
Proof. apply Forall_impl. intros l. now apply lit_below_known. Qed.

Lemma legit_facts t : legit nv d t ->
  length (t_domains t) = nv /\
  (t_failed t = false -> domains_ok (t_domains t)) /\
  (if t_failed t then forall a, within a d -> ~ keeps a t
   else forall a, within a (t_domains t) <-> within a d /\ keeps a t).
Proof.
  intros [(evs & A) B]. assert (K : Forall (lit_known d) (rev (t_lits t))) by (apply lits_known, Forall_rev; assumption).
  split; [rewrite <- Ld; exact (apply_lits_length _ _ _ _ _ Hd K A)|]. split.
  - intro F. rewrite F in A. exact (apply_lits_ok _ _ _ _ Hd K A).
  - pose proof (apply_lits_within _ _ _ _ _ Hd K A) as W. unfold keeps. destruct (t_failed t).
    + intros a Wa Fa. apply (W a Wa). now apply Forall_rev.
    + intro a. rewrite (W a). split; intros [? ?]; (split; [assumption|]).
      * rewrite <- (rev_involutive (t_lits t)). now apply Forall_rev.
      * now apply Forall_rev.
Qed.

Lemma legit_length t : legit nv d t -> length (t_domains t) = nv.
Proof. intro L. apply (legit_facts t L). Qed.

Lemma legit_ok t : legit nv d t -> t_failed t = false -> domains_ok (t_domains t).
Proof. intro L. apply (legit_facts t L). Qed.

Lemma legit_within t a : legit nv d t -> t_failed t = false -> (within a (t_domains t) <-> within a d /\ keeps a t).
Proof. intros L F. destruct (legit_facts t L) as (_ & _ & W). rewrite F in W. apply W. Qed.

Lemma legit_inside t : legit nv d t -> t_failed t = false -> inside d (t_domains t).
Proof. intros L F a Wa. now apply (legit_within t a L F) in Wa. Qed.

Lemma keeps_alive t a : legit nv d t -> within a d -> keeps a t -> t_failed t = false /\ within a (t_domains t).
Proof.
  intros L Wa Ka. destruct (legit_facts t L) as (_ & _ & W). destruct (t_failed t) eqn:F.
  - exfalso. exact (W a Wa Ka).
  - split; [reflexivity|]. now apply W.
Qed.

(** A live tracker after a [tell] was live before, and the literal holds. *)
Lemma tell_live l t a : legit nv d t -> lit_below nv l -> t_failed (tell l t) = false -> within a (t_domains (tell l t)) ->
  t_failed t = false /\ within a (t_domains t) /\ lit_holds a l.
Proof.
  intros L B F W. pose proof (legit_tell nv d l t B L) as L'. pose proof F as F0. unfold tell in F0.
  destruct (t_failed t) eqn:Ft; [congruence|]. split; [reflexivity|].
  apply (legit_within _ a L' F) in W. destruct W as [Wa Ka].
  assert (keeps a t /\ lit_holds a l) as [K H].
  { unfold tell in Ka. rewrite Ft in Ka. destruct (infer (t_domains t) l). inversion Ka; subst. split; assumption. }
  split; [|assumption]. apply (legit_within t a L Ft). auto.
Qed.

Lemma tell_keeps_all l t : legit nv d t -> lit_below nv l -> t_failed t = false -> (forall a, within a (t_domains t) -> lit_holds a l) ->
  t_failed (tell l t) = false /\ t_domains (tell l t) = t_domains t.
Proof.
  intros L B F H. unfold tell. rewrite F. destruct (infer (t_domains t) l) as [i d'] eqn:I. simpl.
  pose proof (legit_ok t L F) as Ok. assert (Kl : lit_known (t_domains t) l) by (apply (lit_below_known nv); [apply legit_length|]; assumption).
  destruct (infer_exact _ _ _ _ Ok Kl I) as (C & N & Len & O).
  destruct (within_exists _ Ok) as [a0 W0].
  assert (Ni : i <> Contradiction) by (intros ->; apply (proj1 C eq_refl a0 W0); auto).
  split; [destruct i; simpl; congruence|].
  destruct (N Ni) as [Ok' [_ W']].
  apply (nth_ext _ _ [] []); [assumption|]. intros n Hn. apply wf_ext.
  - now apply Ok'.
  - apply Ok. unfold domains, iset in *. lia.
  - intro x. assert (Hn' : (n < length (t_domains t))%nat) by (unfold domains, iset in *; lia). split; intro M.
    + destruct (within_exists_at _ n x Ok' M) as (a & Wa & <-). apply W' in Wa. now apply Wa.
    + destruct (within_exists_at _ n x Ok M) as (a & Wa & <-). assert (within a d') by (apply W'; auto). auto.
Qed.

End Legit.

Lemma keeps_track a d : keeps a (track d).
Proof. constructor. Qed.

Lemma keeps_tell a l t : keeps a t -> (t_failed t = false -> lit_holds a l) -> keeps a (tell l t).
Proof.
  intros K H. unfold tell. destruct (t_failed t); [assumption|]. destruct (infer (t_domains t) l). constructor; auto.
Qed.

Lemma keeps_for_each {X} a (xs : list X) f : (forall x t, In x xs -> keeps a t -> keeps a (f x t)) ->
  forall t, keeps a t -> keeps a (for_each xs f t).
Proof.
  unfold for_each. induction xs as [|x r IH]; intros H t L; simpl; [assumption|].
  apply IH; [intros; apply H; [now right|assumption]|]. apply H; [now left|assumption].
Qed.

Lemma for_each_ind {X} (P : tracker -> Prop) (xs : list X) f : (forall x t, In x xs -> P t -> P (f x t)) ->
  forall t, P t -> P (for_each xs f t).
Proof.
  unfold for_each. induction xs as [|x r IH]; intros H t L; simpl; [assumption|].
  apply IH; [intros; apply H; [now right|assumption]|]. apply H; [now left|assumption].
Qed.

Lemma tell_failed l t : t_failed t = true -> tell l t = t.
Proof. intro F. unfold tell. now rewrite F. Qed.

Lemma for_each_failed {X} (xs : list X) f : (forall x t, t_failed t = true -> f x t = t) -> forall t, t_failed t = true -> for_each xs f t = t.
Proof.
  intro H. unfold for_each. induction xs as [|x r IH]; intros t F; simpl; [reflexivity|]. rewrite H by assumption. auto.
Qed.

(** Literals about one handle. *)
Lemma lit_below_var nv v op x y : var_below nv v -> lit_below nv (LCond (mk_cond v op x y)).
Proof. intro H. exact H. Qed.

(** What a live tell says. *)
Lemma tell_eq_spec nv d t v x a : domains_ok d -> length d = nv -> legit nv d t -> var_below nv v ->
  t_failed (tell_eq v x t) = false -> within a (t_domains (tell_eq v x t)) ->
  t_failed t = false /\ within a (t_domains t) /\ var_value a v = x.
Proof. intros Hd L Lg B F W. exact (tell_live nv d Hd L (LCond (cond_eq v x)) t a Lg B F W). Qed.

Lemma tell_ne_spec nv d t v x a : domains_ok d -> length d = nv -> legit nv d t -> var_below nv v ->
  t_failed (tell_ne v x t) = false -> within a (t_domains (tell_ne v x t)) ->
  t_failed t = false /\ within a (t_domains t) /\ var_value a v <> x.
Proof. intros Hd L Lg B F W. exact (tell_live nv d Hd L (LCond (cond_ne v x)) t a Lg B F W). Qed.

Lemma tell_lt_spec nv d t v x a : domains_ok d -> length d = nv -> legit nv d t -> var_below nv v ->
  t_failed (tell_lt v x t) = false -> within a (t_domains (tell_lt v x t)) ->
  t_failed t = false /\ within a (t_domains t) /\ var_value a v < x.
Proof. intros Hd L Lg B F W. exact (tell_live nv d Hd L (LCond (cond_lt v x)) t a Lg B F W). Qed.

Lemma tell_ge_spec nv d t v x a : domains_ok d -> length d = nv -> legit nv d t -> var_below nv v ->
  t_failed (tell_ge v x t) = false -> within a (t_domains (tell_ge v x t)) ->
  t_failed t = false /\ within a (t_domains t) /\ var_value a v >= x.
Proof. intros Hd L Lg B F W. exact (tell_live nv d Hd L (LCond (cond_ge v x)) t a Lg B F W). Qed.

Lemma legit_tell_not_in_range nv d t v lo hi : var_below nv v -> legit nv d t -> legit nv d (tell_not_in_range v lo hi t).
Proof. intros B L. unfold tell_not_in_range. destruct (hi <? lo); [assumption|]. now apply legit_tell. Qed.

Lemma keeps_tell_not_in_range a t v lo hi : keeps a t -> ~ (lo <= var_value a v <= hi) -> keeps a (tell_not_in_range v lo hi t).
Proof.
  intros K N. unfold tell_not_in_range. destruct (hi <? lo); [assumption|]. apply keeps_tell; [assumption|]. intros _. exact N.
Qed.

(** Bounds of a handle. *)
Lemma value_bounds d v a : domains_ok d -> var_known d v -> within a d -> lower_bound d v <= var_value a v <= upper_bound d v.
Proof.
  intros Hd Hk Wa. assert (M : view_member d v (var_value a v)) by (apply view_member_iff; eauto).
  destruct (lower_bound_spec d v Hd Hk) as [_ A]. destruct (upper_bound_spec d v Hd Hk) as [_ B]. split; auto.
Qed.

Lemma fixed_bounds d v a : domains_ok d -> var_known d v -> fixed d v -> within a d ->
  lower_bound d v = var_value a v /\ upper_bound d v = var_value a v.
Proof.
  intros Hd Hk (x & F) Wa. destruct (lower_bound_spec d v Hd Hk) as [A _]. destruct (upper_bound_spec d v Hd Hk) as [B _].
  rewrite (F a Wa). rewrite view_member_iff in A, B by assumption. destruct A as (b & Wb & <-), B as (c & Wc & <-). auto.
Qed.

(** ** Stateless propagation functions *)

(** What the body of a stateless propagation function must do; [alias] says that
    idempotence claims will be ignored. *)
Record body_ok (nv : nat) (d0 : domains) (alias : Prop) (f : body) (scope : list var_id) (sat : assignment -> Prop) : Prop :=
  { bo_legit : forall d, domains_ok d -> length d = nv -> inside d0 d -> legit nv d (fst (f d));
    bo_sound : forall d a, domains_ok d -> length d = nv -> inside d0 d -> within a d -> sat a -> keeps a (fst (f d));
    bo_checks : forall d, domains_ok d -> length d = nv -> inside d0 d -> Forall (fixed d) scope ->
      t_failed (fst (f d)) = false -> forall a, within a (t_domains (fst (f d))) -> sat a;
    bo_claims : forall d, domains_ok d -> length d = nv -> inside d0 d -> ~ alias -> snd (f d) = EnableButIdempotent ->
      t_failed (fst (f d)) = false -> Forall (fixed (t_domains (fst (f d)))) scope ->
      forall a, within a (t_domains (fst (f d))) -> sat a;
    bo_entails : forall d, domains_ok d -> length d = nv -> inside d0 d -> snd (f d) = DisableUntilBacktrack ->
      t_failed (fst (f d)) = false -> forall a, within a (t_domains (fst (f d))) -> sat a }.

Lemma body_run_out f i : o_infer (body_run f i) = rev (t_lits (fst (f (i_domains i)))) /\
  o_result (body_run f i) = snd (f (i_domains i)) /\ o_cstates (body_run f i) = i_cstates i /\ o_edits (body_run f i) = [].
Proof. unfold body_run. destruct (f (i_domains i)) as [t r]. simpl. auto. Qed.

(** Inferences alone preserve a stable invariant. *)
Lemma stable_lits nv Inv cs ls d d' evs : stable nv Inv -> domains_ok d -> length d = nv -> Forall (lit_known d) ls ->
  Inv d cs -> apply_lits d ls = (d', evs, false) -> Inv d' cs.
Proof.
  intros S Hd L K I E.
  apply (apply_lits_kept (fun d => Inv d cs) (fun _ _ => False) nv ls d d' evs false); auto.
  intros. eapply S; eauto.
Qed.

Lemma body_propagates nv d0 Inv f scope sat on_change on_bounds on_instantiated :
  let p := body_propagator f on_change on_bounds on_instantiated in
  stable nv Inv -> (forall d cs, Inv d cs -> inside d0 d) ->
  Forall (var_below nv) scope ->
  (forall v x, In v scope -> underlying v = Some x -> subscribes p x Instantiated) ->
  body_ok nv d0 (aliased p) f scope sat ->
  propagates nv Inv p scope sat.
Proof.
  intros p St In0 Kn Su [Lg So Ch Cl En].
  assert (KN : forall i, usable nv Inv i -> Forall (lit_known (i_domains i)) (o_infer (p_run p i))).
  { intros i (Hd & L & I). simpl. destruct (body_run_out f i) as (-> & _). apply Forall_rev.
    apply (lits_known nv); auto. apply (lg_below _ _ _ (Lg (i_domains i) Hd L (In0 _ _ I))). }
  assert (RUN : forall i d evs, usable nv Inv i -> apply_lits (i_domains i) (o_infer (p_run p i)) = (d, evs, false) ->
     t_failed (fst (f (i_domains i))) = false /\ t_domains (fst (f (i_domains i))) = d).
  { intros i d evs (Hd & L & I) E. simpl in E. destruct (body_run_out f i) as (Eo & _). rewrite Eo in E.
    destruct (lg_apply _ _ _ (Lg (i_domains i) Hd L (In0 _ _ I))) as (ev & A). rewrite A in E. injection E as E1 _ E2. auto. }
  constructor; auto.
  - constructor; [exact KN|]. intros i d evs U E. simpl. destruct (body_run_out f i) as (_ & _ & -> & _).
    pose proof (KN i U) as K. destruct U as (Hd & L & I). eapply stable_lits; eauto.
  - intros i a (Hd & L & I) Wa Sa. simpl. destruct (body_run_out f i) as (-> & _). apply Forall_rev.
    apply (So (i_domains i) a Hd L (In0 _ _ I) Wa Sa).
  - intros i d evs U F E a Wa. destruct (RUN i d evs U E) as [Ff <-]. destruct U as (Hd & L & I).
    apply (Ch (i_domains i)); auto. eauto.
  - intros i d evs U NA E R F a Wa. destruct (RUN i d evs U E) as [Ff Ed]. subst d. destruct U as (Hd & L & I).
    simpl in R. destruct (body_run_out f i) as (_ & R' & _). rewrite R' in R. apply (Cl (i_domains i)); auto. eauto.
  - intros i d evs U E R a Wa. destruct (RUN i d evs U E) as [Ff Ed]. subst d. destruct U as (Hd & L & I).
    simpl in R. destruct (body_run_out f i) as (_ & R' & _). rewrite R' in R. apply (En (i_domains i)); auto. eauto.
Qed.

Lemma checked_incl scope scope' sat d : incl scope scope' -> checked scope sat d -> checked scope' sat d.
Proof.
  intros I C F. apply C. rewrite Forall_forall in *. auto.
Qed.

Lemma propagates_supports nv Inv p scope scope' sat : incl scope scope' -> propagates nv Inv p scope sat -> supports nv Inv p scope' sat sat.
Proof.
  intros I P. split; [exact (pr_behaved _ _ _ _ _ P)|]. split; [exact (pr_sound _ _ _ _ _ P)|].
  exists (checked scope sat), (entailed sat). split; [now apply propagates_wakeable|].
  intros d _ _ [C|E]; [now apply (checked_incl scope)|]. intros _. exact E.
Qed.

(** A propagator whose only duty is to remove nothing. *)
Lemma supports_redundant nv (Inv : domains -> list cstate -> Prop) p scope sat : well_behaved nv Inv p -> sound_for nv Inv sat p ->
  supports nv Inv p scope sat (fun _ => True).
Proof.
  intros W So. split; [assumption|]. split; [assumption|]. exists (fun _ => True), (fun _ => True).
  split; [constructor; auto|]. intros d _ _ _ _ a _. exact Logic.I.
Qed.

(** A relation that agrees on [d0] can be used instead. *)
Lemma body_ok_ext nv d0 alias f scope sat sat' : (forall a, within a d0 -> (sat a <-> sat' a)) ->
  body_ok nv d0 alias f scope sat -> body_ok nv d0 alias f scope sat'.
Proof.
  intros H [Lg So Ch Cl En].
  assert (W : forall d a, domains_ok d -> length d = nv -> inside d0 d -> t_failed (fst (f d)) = false ->
     within a (t_domains (fst (f d))) -> within a d0).
  { intros d a Hd L I F Wa. apply I. apply (legit_inside nv d Hd L _ (Lg d Hd L I) F _ Wa). }
  constructor; auto.
  - intros d a Hd L I Wa Sa. apply So; auto. apply H; auto.
  - intros d Hd L I F Ff a Wa. apply H; eauto.
  - intros d Hd L I NA R Ff F a Wa. apply H; eauto.
  - intros d Hd L I R Ff a Wa. apply H; eauto.
Qed.

(** The same for a larger scope. *)
Lemma body_ok_incl nv d0 alias f scope scope' sat : incl scope scope' ->
  body_ok nv d0 alias f scope sat -> body_ok nv d0 alias f scope' sat.
Proof.
  intros H [Lg So Ch Cl En].
  assert (G : forall d, Forall (fixed d) scope' -> Forall (fixed d) scope) by (intros d F; rewrite Forall_forall in *; auto).
  constructor; auto.
  - intros d Hd L I F. apply Ch; auto.
  - intros d Hd L I NA R Ff F. apply Cl; auto.
Qed.

Lemma body_ok_alias nv d0 (alias alias' : Prop) f scope sat : (alias -> alias') ->
  body_ok nv d0 alias f scope sat -> body_ok nv d0 alias' f scope sat.
Proof. intros H [Lg So Ch Cl En]. constructor; auto. intros d Hd L I NA. apply Cl; auto. Qed.

Lemma body_initialises nv (d0 : domains) Inv (f : domains -> tracker) (sat part : assignment -> Prop) : stable nv Inv -> (forall d cs, Inv d cs -> inside d0 d) ->
  (forall d, domains_ok d -> length d = nv -> inside d0 d -> legit nv d (f d)) ->
  (forall d a, domains_ok d -> length d = nv -> inside d0 d -> within a d -> sat a -> keeps a (f d)) ->
  (forall d a, domains_ok d -> length d = nv -> inside d0 d -> t_failed (f d) = false -> within a (t_domains (f d)) -> part a) ->
  initialises nv Inv (body_initialiser f) sat part.
Proof.
  intros St In0 Lg So Es d cs t cs' Hd L I [= <- <-]. pose proof (In0 _ _ I) as Id. pose proof (Lg d Hd L Id) as G.
  split; [exact (lg_below _ _ _ G)|]. split; [exact (lg_apply _ _ _ G)|]. split.
  - intros a Wa Sa. now apply So.
  - intro F. split; [|intros; now apply (Es d)]. destruct (lg_apply _ _ _ G) as (evs & A). rewrite F in A.
    apply (stable_lits nv Inv cs (rev (t_lits (f d))) d _ evs St Hd L); auto. apply Forall_rev. apply (lits_known nv); auto. exact (lg_below _ _ _ G).
Qed.

(** ** Implementing a relation means enforcing it exactly *)

Lemma all_fixed_handle nv d v : domains_ok d -> length d = nv -> all_fixed nv d -> var_below nv v -> fixed d v.
Proof.
  intros Hd L F B. destruct v as [n|n neg add|c]; simpl in B.
  - now apply F.
  - destruct (F n B) as (x & Hx). exists ((if neg then - x else x) + add). intros a Wa. simpl. specialize (Hx a Wa). simpl in Hx. now rewrite Hx.
  - exists c. reflexivity.
Qed.

Lemma all_fixed_infer nv d l k d' : domains_ok d -> length d = nv -> all_fixed nv d -> lit_known d l -> infer d l = (k, d') ->
  k = NoChange \/ k = Contradiction.
Proof.
  intros Hd L F Kl E. destruct (infer_exact _ _ _ _ Hd Kl E) as (_ & N & Len & O). pose proof (infer_accurate _ _ _ _ Hd Kl E) as A.
  destruct (lit_underlying l) as [n|] eqn:U; [|assumption].
  pose proof (lit_underlying_known d l n Kl U) as Hn.
  assert (Same : k <> Contradiction -> nth n d' [] = nth n d []).
  { intro Nk. destruct (N Nk) as [Ok' [_ W]]. apply wf_ext; [apply Ok'; unfold domains, iset in *; lia|now apply Hd|].
    assert (Fn : singleton (nth n d [])). { apply (fixed_single d (VSimple n) Hd Hn). apply F. unfold domains, iset in *; lia. }
    destruct Fn as (x & Fx). intro w. split; intro M.
    - destruct (within_exists_at d' n w Ok' M) as (a & Wa & <-). apply W in Wa. now apply Wa.
    - apply Fx in M. subst w. destruct (Ok' n) as [_ (y & My)]; [unfold domains, iset in *; lia|].
      destruct (within_exists_at d' n y Ok' My) as (a & Wa & Ea). apply W in Wa. destruct Wa as [Wa _].
      assert (Ex : a n = x) by (apply Fx; now apply Wa). rewrite <- Ex, Ea. exact My. }
  destruct k; simpl in A; auto; exfalso; destruct A as [A _]; apply A; apply Same; discriminate.
Qed.

Lemma all_fixed_lits nv ls : forall d, domains_ok d -> length d = nv -> all_fixed nv d -> Forall (lit_known d) ls ->
  forall d' evs, apply_lits d ls = (d', evs, false) -> d' = d /\ evs = [].
Proof.
  induction ls as [|l r IH]; intros d Hd L F K d' evs E; simpl in E.
  - injection E as <- <-. auto.
  - inversion K as [|? ? Kl Kr]; subst. destruct (infer d l) as [k d1] eqn:I. destruct (all_fixed_infer _ d l k d1 Hd eq_refl F Kl I) as [->| ->].
    + pose proof (infer_nochange _ _ _ Hd Kl I) as ->. apply (IH d); auto.
    + injection E as _ _ X. discriminate X.
Qed.

Lemma implements_enforces nv d0 (Inv : domains -> list cstate -> Prop) ps is scope sat : (forall d cs, Inv d cs -> inside d0 d) ->
  implements nv d0 Inv ps is scope sat -> enforces nv Inv ps is sat.
Proof.
  intros In0 (Ks & psats & isats & FP & FI & Eq).
  assert (PS : forall p, In p ps -> exists s, supports nv Inv p scope sat s).
  { clear FI Eq. intros p Ip. induction FP as [|q s ps' ss Hq FP IH]; [destruct Ip|]. destruct Ip as [->|Ip]; eauto. }
  assert (IS : forall init, In init is -> exists s, initialises nv Inv init sat s).
  { clear FP Eq PS. intros p Ip. induction FI as [|q s ps' ss Hq FI IH]; [destruct Ip|]. destruct Ip as [->|Ip]; eauto. }
  split; [|split].
  - intros p Ip i a U Wa Sa. destruct (PS p Ip) as (s & (_ & So & _)). apply So; auto.
  - intros init d cs a Ii Hd L I Wa Sa. destruct (IS init Ii) as (s & Hi). destruct (init d cs) as [t cs'] eqn:E.
    destruct (Hi d cs t cs' Hd L I E) as (_ & _ & H & _). simpl. apply H; auto.
  - intros d cs a Hd L I F Wa. pose proof (In0 _ _ I _ Wa) as W0. split.
    + intros [AP AI]. apply Eq; [assumption| |].
      * clear FI Eq PS IS AI. induction FP as [|p s ps' ss Hp FP IH]; constructor.
        -- set (i := mk_in d cs [] [] [] (fun _ => false)). assert (U : usable nv Inv i) by (split; auto).
           destruct (AP p i (or_introl eq_refl) U eq_refl) as (d' & evs & A). destruct Hp as ([WK WI] & So & ok & dead & Wk & Chk).
           destruct (all_fixed_lits nv _ d Hd L F (WK i U) d' evs A) as [-> ->].
           assert (Fs : Forall (fixed d) scope) by (revert Ks; apply Forall_impl; intros v B; now apply (all_fixed_handle nv)).
           assert (OD : ok d \/ dead d).
           { destruct (o_result (p_run p i)) eqn:R.
             - left. apply (wk_run _ _ _ _ _ Wk i d [] U A); [intros ? ? []|congruence].
             - left. apply (wk_run _ _ _ _ _ Wk i d [] U A); [intros ? ? []|congruence].
             - right. exact (wk_disable _ _ _ _ _ Wk i d [] U A R). }
           exact (Chk d Hd L OD Fs a Wa).
        -- apply IH. intros. apply (AP p0 i); auto. now right.
      * clear FP Eq PS IS AP. induction FI as [|p s ps' ss Hp FI IH]; constructor.
        -- destruct (p d cs) as [t cs'] eqn:E. destruct (Hp d cs t cs' Hd L I E) as (Bl & (evs & A) & _ & H).
           pose proof (AI p cs (or_introl eq_refl) I) as Ft. rewrite E in Ft. simpl in Ft. destruct (H Ft) as [_ H']. apply H'.
           rewrite Ft in A. destruct (all_fixed_lits nv _ d Hd L F (Forall_rev (lits_known nv d L _ Bl)) _ _ A) as [-> _]. assumption.
        -- apply IH. intros. apply AI; auto. now right.
    + intro Sa. split.
      * intros p i Ip U Ei. destruct (PS p Ip) as (s & ([WK WI] & So & _)). subst d.
        assert (H : Forall (lit_holds a) (o_infer (p_run p i))) by (apply So; auto).
        destruct (apply_lits (i_domains i) (o_infer (p_run p i))) as [[d' evs] bad] eqn:A. exists d', evs.
        pose proof (apply_lits_within _ _ _ _ _ Hd (WK i U) A) as W. destruct bad; [exfalso; exact (W a Wa H)|reflexivity].
      * intros init cs' Ii I'. destruct (IS init Ii) as (s & Hi). destruct (init d cs') as [t cs2] eqn:E. simpl.
        destruct (Hi d cs' t cs2 Hd L I' E) as (Bl & (evs & A) & H & _).
        pose proof (apply_lits_within _ _ _ _ _ Hd (Forall_rev (lits_known nv d L _ Bl)) A) as W.
        destruct (t_failed t); [exfalso|reflexivity]. apply (W a Wa). apply Forall_rev. apply H; auto.
Qed.

(** The plainest invariant. *)
Lemma stable_inside nv d0 : stable nv (fun d _ => inside d0 d).
Proof.
  intros d cs l k d' Hd L K I E Nc a Wa. apply I. now apply (infer_within d l k d' a Hd K E Nc).
Qed.

Lemma Forall2_weaken {X Y : Type} (P Q : X -> Y -> Prop) xs ys : (forall x y, P x y -> Q x y) -> Forall2 P xs ys -> Forall2 Q xs ys.
Proof. intros H F. induction F; constructor; auto. Qed.

Lemma implements_ext nv d0 Inv ps is scope (sat sat' : assignment -> Prop) : (forall a, sat' a <-> sat a) ->
  implements nv d0 Inv ps is scope sat -> implements nv d0 Inv ps is scope sat'.
Proof.
  intros E (Ks & pp & ip & FP & FI & Eq). split; [assumption|]. exists pp, ip. split; [|split].
  - eapply Forall2_weaken; [|exact FP]. intros p s (W & So & R). split; [assumption|]. split; [|assumption].
    intros i a U Wa Sa. apply So; auto. now apply E.
  - eapply Forall2_weaken; [|exact FI]. intros p s H d cs t cs' Hd L I Ei. destruct (H d cs t cs' Hd L I Ei) as (A & B & C & D).
    repeat (split; [assumption|]). split; [|assumption]. intros a Wa Sa. apply C; auto. now apply E.
  - intros a Wa F1 F2. apply E. now apply Eq.
Qed.

Lemma correct_intro d0 (k : constraint) scope (sat sat' : assignment -> Prop) : (forall a, sat' a <-> sat a) ->
  (forall nv Inv, (length d0 <= nv)%nat -> stable nv Inv -> (forall d cs, Inv d cs -> inside d0 d) ->
     implements nv d0 Inv (fst (k d0)) (snd (k d0)) scope sat) -> correct_on d0 k scope sat'.
Proof.
  intros E H nv Inv Ln St In0. pose proof (H nv Inv Ln St In0) as I0.
  assert (I : implements nv d0 Inv (fst (k d0)) (snd (k d0)) scope sat') by (apply (implements_ext _ _ _ _ _ _ sat); auto).
  split; [|assumption]. eapply implements_enforces; eauto.
Qed.

Lemma known_below d v : var_known d v <-> var_below (length d) v.
Proof. destruct v; reflexivity. Qed.

Lemma below_more n m v : (n <= m)%nat -> var_below n v -> var_below m v.
Proof. unfold var_below. destruct (underlying v); [lia|auto]. Qed.

Lemma below_more_all n m vs : (n <= m)%nat -> Forall (var_below n) vs -> Forall (var_below m) vs.
Proof. intros L. apply Forall_impl. intro v. now apply below_more. Qed.

Lemma known_below_more d nv v : (length d <= nv)%nat -> var_known d v -> var_below nv v.
Proof. intros L K. apply (below_more (length d)); [assumption|]. now apply known_below. Qed.

Lemma known_below_all d vs : Forall (var_known d) vs <-> Forall (var_below (length d)) vs.
Proof. rewrite !Forall_forall. split; intros H v I; apply known_below, H, I. Qed.

Lemma cond_holds_dec a c : {cond_holds a c} + {~ cond_holds a c}.
Proof.
  unfold cond_holds. destruct c as [v op x hi]; destruct op; simpl.
  - apply Z.eq_dec.
  - destruct (Z.eq_dec (var_value a v) x); [right; tauto|left; assumption].
  - destruct (Z_ge_dec (var_value a v) x); auto.
  - destruct (Z_lt_dec (var_value a v) x); auto.
  - destruct (Z_le_dec x (var_value a v)), (Z_le_dec (var_value a v) hi); auto; right; lia.
  - destruct (Z_le_dec x (var_value a v)), (Z_le_dec (var_value a v) hi); auto; try (left; lia); right; lia.
Qed.
