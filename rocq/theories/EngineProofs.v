(** Lemmas about propagation. *)
From Coq Require Import ZArith List Bool Arith Lia Permutation.
From Verif Require Import IntervalSet IntervalSetSpec IntervalSetProofs Vars VarsSpec State StateSpec StateProofs
  Epochs Engine EngineSpec EngineQueueProofs.
Import ListNotations.

(** ** Applying inferences *)

Lemma lit_known_length d d' l : length d' = length d -> lit_known d l -> lit_known d' l.
Proof.
  intros E. destruct l as [c| |]; simpl; auto. unfold cond_known, var_known. destruct (c_var c); auto; rewrite E; auto.
Qed.

Lemma infer_nochange d l d' : domains_ok d -> lit_known d l -> infer d l = (NoChange, d') -> d' = d.
Proof.
  intros Hd Hk E. destruct (infer_exact d l _ _ Hd Hk E) as (_ & _ & L & O).
  pose proof (infer_accurate d l _ _ Hd Hk E) as A.
  apply (nth_ext _ _ [] []); [assumption|]. intros n Hn.
  destruct (lit_underlying l) as [m|] eqn:U.
  - destruct (Nat.eq_dec n m) as [->|N]; [exact A|]. apply O. congruence.
  - apply O. congruence.
Qed.

Lemma infer_length d l i d' : domains_ok d -> lit_known d l -> infer d l = (i, d') -> length d' = length d.
Proof. intros Hd Hk E. now destruct (infer_exact d l _ _ Hd Hk E) as (_ & _ & L & O). Qed.

Lemma infer_ok d l i d' : domains_ok d -> lit_known d l -> infer d l = (i, d') -> i <> Contradiction -> domains_ok d'.
Proof. intros Hd Hk E N. destruct (infer_exact d l _ _ Hd Hk E) as (_ & B & _ & _). now destruct (B N). Qed.

Lemma infer_within d l i d' a : domains_ok d -> lit_known d l -> infer d l = (i, d') -> i <> Contradiction ->
  (within a d' <-> within a d /\ lit_holds a l).
Proof. intros Hd Hk E N. destruct (infer_exact d l _ _ Hd Hk E) as (_ & B & _ & _). destruct (B N) as [_ [_ C]]. apply C. Qed.

Lemma infer_contradiction d l d' a : domains_ok d -> lit_known d l -> infer d l = (Contradiction, d') ->
  within a d -> ~ lit_holds a l.
Proof. intros Hd Hk E. destruct (infer_exact d l _ _ Hd Hk E) as (A & _). now apply A. Qed.

(** What [apply_lits] does, by cases on the first literal. *)
Lemma apply_lits_cons d l r : apply_lits d (l :: r) =
  let '(i, d') := infer d l in
  match i with
  | Contradiction => (d', [], true)
  | NoChange => apply_lits d' r
  | _ => let '(d2, evs, bad) := apply_lits d' r in
         (d2, match lit_underlying l with Some v => (v, i) :: evs | None => evs end, bad)
  end.
Proof. reflexivity. Qed.

Section ApplyLits.

(** Induction principle: a relation between the domains before, the literals, and
    the result. *)
Variable R : domains -> list literal -> domains -> list event -> bool -> Prop.
Hypothesis Rnil : forall d, domains_ok d -> R d [] d [] false.
Hypothesis Rbad : forall d l r d', domains_ok d -> lit_known d l -> Forall (lit_known d) r ->
  infer d l = (Contradiction, d') -> R d (l :: r) d' [] true.
Hypothesis Rno : forall d l r d2 evs bad, domains_ok d -> lit_known d l -> Forall (lit_known d) r ->
  infer d l = (NoChange, d) -> R d r d2 evs bad -> R d (l :: r) d2 evs bad.
Hypothesis Rchange : forall d l r i v d' d2 evs bad, domains_ok d -> lit_known d l -> Forall (lit_known d) r ->
  infer d l = (i, d') -> i <> Contradiction -> i <> NoChange -> lit_underlying l = Some v ->
  domains_ok d' -> length d' = length d ->
  apply_lits d' r = (d2, evs, bad) -> R d' r d2 evs bad -> R d (l :: r) d2 ((v, i) :: evs) bad.

Lemma apply_lits_ind ls : forall d d' evs bad, domains_ok d -> Forall (lit_known d) ls ->
  apply_lits d ls = (d', evs, bad) -> R d ls d' evs bad.
Proof.
  induction ls as [|l r IH]; intros d d' evs bad Hd Hk E.
  - simpl in E. injection E as <- <- <-. now apply Rnil.
  - inversion Hk as [|? ? Kl Kr]; subst. rewrite apply_lits_cons in E.
    destruct (infer d l) as [i d1] eqn:Ei.
    assert (CH : i <> Contradiction -> i <> NoChange ->
       (let '(d2, evs, bad) := apply_lits d1 r in
         (d2, match lit_underlying l with Some v => (v, i) :: evs | None => evs end, bad)) = (d', evs, bad) ->
       R d (l :: r) d' evs bad).
    { intros N1 N2 E'. destruct (apply_lits d1 r) as [[d2 evs2] bad2] eqn:Er. injection E' as <- <- <-.
      pose proof (infer_accurate d l i d1 Hd Kl Ei) as A.
      pose proof (infer_ok d l i d1 Hd Kl Ei N1) as Hd1. pose proof (infer_length d l i d1 Hd Kl Ei) as L1.
      destruct (lit_underlying l) as [v|] eqn:U; [|destruct A; congruence].
      eapply Rchange; eauto. apply IH; auto.
      eapply Forall_impl; [|exact Kr]. intros x Hx. now apply (lit_known_length d). }
    destruct i; try (apply CH; [discriminate|discriminate|exact E]).
    + pose proof (infer_nochange d l d1 Hd Kl Ei). subst d1. apply Rno; auto.
    + injection E as <- <- <-. now apply Rbad.
Qed.

End ApplyLits.

Lemma apply_lits_length d ls d' evs bad : domains_ok d -> Forall (lit_known d) ls ->
  apply_lits d ls = (d', evs, bad) -> length d' = length d.
Proof.
  revert d d' evs bad. apply (apply_lits_ind (fun d ls d' evs bad => length d' = length d)); auto.
  - intros. eapply infer_length; eauto.
  - intros. etransitivity; eassumption.
Qed.

Lemma apply_lits_ok d ls d' evs : domains_ok d -> Forall (lit_known d) ls ->
  apply_lits d ls = (d', evs, false) -> domains_ok d'.
Proof.
  intros Hd Hk E. revert Hd Hk E.
  enough (G : domains_ok d -> Forall (lit_known d) ls -> forall bad, apply_lits d ls = (d', evs, bad) -> bad = false -> domains_ok d')
    by (intros; eapply G; eauto).
  intros Hd Hk bad E. revert d d' evs bad Hd Hk E.
  apply (apply_lits_ind (fun d ls d' evs bad => bad = false -> domains_ok d')); auto. discriminate.
Qed.

Lemma apply_lits_within d ls d' evs bad : domains_ok d -> Forall (lit_known d) ls ->
  apply_lits d ls = (d', evs, bad) ->
  if bad then forall a, within a d -> ~ Forall (lit_holds a) ls
  else forall a, within a d' <-> within a d /\ Forall (lit_holds a) ls.
Proof.
  revert d d' evs bad.
  apply (apply_lits_ind (fun d ls d' evs bad =>
    if bad then forall a, within a d -> ~ Forall (lit_holds a) ls
    else forall a, within a d' <-> within a d /\ Forall (lit_holds a) ls)).
  - intros d Hd a. split; [|tauto]. auto.
  - intros d l r d' Hd Kl Kr E a W F. inversion F; subst. eapply infer_contradiction; eauto.
  - intros d l r d2 evs bad Hd Kl Kr E H. destruct bad; intros a.
    + intros W F. inversion F; subst. now apply (H a).
    + rewrite H. pose proof (infer_within d l _ _ a Hd Kl E ltac:(discriminate)) as G.
      split; [intros [W F]; split; [assumption|]; constructor; tauto|]. intros [W F]. inversion F; subst. tauto.
  - intros d l r i v d' d2 evs bad Hd Kl Kr E N1 N2 U Hd' L' Er H.
    destruct bad; intros a; pose proof (infer_within d l _ _ a Hd Kl E N1) as G.
    + intros W F. inversion F; subst. apply (H a); tauto.
    + rewrite H, G. split; [intros [[W Hl] F]; split; [assumption|]; constructor; assumption|].
      intros [W F]. inversion F; subst. tauto.
Qed.

(** ** The number of values left *)

Lemma each_strict s s' : well_formed s -> well_formed s' -> (forall x, member x s' -> member x s) -> s' <> s ->
  (length (each s') < length (each s))%nat.
Proof.
  intros W W' I N. destruct (le_lt_dec (length (each s)) (length (each s'))) as [L|L]; [|assumption]. exfalso.
  apply N. apply wf_ext; auto. intro x. split; [apply I|].
  assert (ND : NoDup (each s')) by now apply incr_NoDup, each_incr.
  assert (Inc : incl (each s') (each s)) by (intros y Hy; apply each_In; apply I; now apply each_In in Hy).
  pose proof (NoDup_length_incl ND L Inc) as Back.
  intro Hx. apply each_In, Back, each_In. assumption.
Qed.

Lemma total_size_strict d d' v : length d' = length d -> (forall n, n <> v -> nth n d' [] = nth n d []) ->
  (v < length d)%nat -> (length (each (nth v d' [])) < length (each (nth v d [])))%nat -> (total_size d' < total_size d)%nat.
Proof.
  unfold total_size, domains in *. revert d' v. induction d as [|s r IH]; intros d' v L O Hv S; [simpl in Hv; lia|].
  destruct d' as [|s' r']; [discriminate|]. simpl in L. destruct v; simpl in S.
  - assert (r' = r) as ->. { apply (nth_ext _ _ [] []); [lia|]. intros n Hn. apply (O (Datatypes.S n)). lia. }
    simpl. lia.
  - assert (s' = s) as -> by (apply (O 0%nat); lia). specialize (IH r' v).
    cbn [map list_sum fold_right] in *. simpl in Hv.
    assert (list_sum (map (fun s0 => length (each s0)) r') < list_sum (map (fun s0 => length (each s0)) r)); [|unfold list_sum in *; lia].
    apply IH; try lia; auto. intros n Hn. apply (O (Datatypes.S n)). lia.
Qed.

Lemma lit_underlying_known d l v : lit_known d l -> lit_underlying l = Some v -> (v < length d)%nat.
Proof.
  destruct l as [c| |]; simpl; try discriminate. unfold cond_known, var_known, underlying.
  destruct (c_var c); intros H E; try discriminate; congruence.
Qed.

Lemma within_pointwise d d' v x : domains_ok d -> domains_ok d' -> length d' = length d ->
  (forall a, within a d' -> within a d) -> (v < length d)%nat -> member x (nth v d' []) -> member x (nth v d []).
Proof.
  intros Hd Hd' L W Hv Hx. destruct (within_exists_at d' v x Hd' Hx) as (a & Wa & Ea).
  rewrite <- Ea. apply (W a Wa v Hv).
Qed.

Lemma infer_shrinks d l i d' v : domains_ok d -> lit_known d l -> infer d l = (i, d') ->
  i <> Contradiction -> i <> NoChange -> lit_underlying l = Some v -> (total_size d' < total_size d)%nat.
Proof.
  intros Hd Kl E N1 N2 U. destruct (infer_exact d l _ _ Hd Kl E) as (_ & B & L & O).
  destruct (B N1) as [Hd' [_ W]]. pose proof (infer_accurate d l _ _ Hd Kl E) as A. rewrite U in A.
  pose proof (lit_underlying_known d l v Kl U) as Hv.
  apply (total_size_strict d d' v); auto.
  - intros n Hn. apply O. congruence.
  - apply each_strict.
    + now apply Hd.
    + apply Hd'. unfold domains, iset in *. lia.
    + intros x. apply within_pointwise; auto. intros a Wa. now apply W.
    + destruct i; simpl in A; congruence || tauto.
Qed.

Lemma apply_lits_size d ls d' evs bad : domains_ok d -> Forall (lit_known d) ls ->
  apply_lits d ls = (d', evs, bad) -> bad = false -> (total_size d' + length evs <= total_size d)%nat.
Proof.
  revert d d' evs bad.
  apply (apply_lits_ind (fun d ls d' evs bad => bad = false -> (total_size d' + length evs <= total_size d)%nat)).
  - simpl. lia.
  - discriminate.
  - auto.
  - intros d l r i v d' d2 evs bad Hd Kl Kr E N1 N2 U Hd' L' Er H Eb. specialize (H Eb).
    pose proof (infer_shrinks d l i d' v Hd Kl E N1 N2 U). simpl. lia.
Qed.

(** A property kept by each unsubscribed change is kept by a run. *)
Lemma apply_lits_kept (P : domains -> Prop) (sub : nat -> inference -> Prop) nv ls d d' evs bad :
  (forall d l k d', domains_ok d -> length d = nv -> lit_known d l -> P d -> infer d l = (k, d') -> k <> Contradiction ->
     (forall v, lit_underlying l = Some v -> ~ sub v k) -> P d') ->
  domains_ok d -> Forall (lit_known d) ls -> apply_lits d ls = (d', evs, bad) ->
  length d = nv -> bad = false -> P d -> (forall v k, In (v, k) evs -> ~ sub v k) -> P d'.
Proof.
  intro K. revert d d' evs bad.
  apply (apply_lits_ind (fun d ls d' evs bad =>
    length d = nv -> bad = false -> P d -> (forall v k, In (v, k) evs -> ~ sub v k) -> P d')); auto.
  - discriminate.
  - intros d l r i v d' d2 evs bad Hd Kl Kr E N1 N2 U Hd' L' Er H Ln Eb Pd S. apply H; auto; [etransitivity; eassumption| |].
    + refine (K d l i d' Hd Ln Kl Pd E N1 _). intros w Ew. rewrite U in Ew. injection Ew as <-. apply S. now left.
    + intros w k I. apply S. now right.
Qed.

(** ** Waking *)

Lemma mem_nat_In n l : mem_nat n l = true <-> In n l.
Proof.
  induction l; simpl; [split; [discriminate|tauto]|].
  rewrite orb_true_iff, Nat.eqb_eq, IHl. intuition.
Qed.

Lemma has_duplicate_spec l : has_duplicate l = false <-> NoDup l.
Proof.
  induction l; simpl; [split; [constructor|reflexivity]|].
  rewrite orb_false_iff, IHl. split.
  - intros [A B]. constructor; auto. intro I. apply mem_nat_In in I. congruence.
  - intro H. inversion H; subst. split; auto. destruct (mem_nat a l) eqn:E; auto. apply mem_nat_In in E. contradiction.
Qed.

Lemma underlying_list_app a b : underlying_list (a ++ b) = underlying_list a ++ underlying_list b.
Proof. unfold underlying_list. apply flat_map_app. Qed.

Lemma in_underlying_list n vs : In n (underlying_list vs) <-> exists x, In x vs /\ underlying x = Some n.
Proof.
  unfold underlying_list. rewrite in_flat_map. split; intros (x & I & H); exists x; split; auto;
    destruct (underlying x); simpl in *; intuition congruence.
Qed.

Lemma claims_ignored_spec p : claims_ignored p = true <-> aliased p.
Proof.
  unfold claims_ignored, aliased, positions. rewrite !underlying_list_app.
  set (l := underlying_list _ ++ _). destruct (has_duplicate l) eqn:E.
  - split; auto. intros _ N. apply has_duplicate_spec in N. congruence.
  - split; [discriminate|]. intro N. exfalso. apply N. now apply has_duplicate_spec.
Qed.

Lemma mask_change i : mask_has OnChange i = true <-> (i = InteriorValuesChanged \/ i = BoundsChanged \/ i = Instantiated).
Proof. destruct i; simpl; intuition congruence. Qed.
Lemma mask_bounds i : mask_has OnBounds i = true <-> (i = BoundsChanged \/ i = Instantiated).
Proof. destruct i; simpl; intuition congruence. Qed.
Lemma mask_inst i : mask_has OnInstantiated i = true <-> i = Instantiated.
Proof. destruct i; simpl; intuition congruence. Qed.

Section Engine.
Variable props : list propagator.

Notation n := (length props).
Notation the := (the_prop props).

Lemma coarse_woken_spec v i p : In p (coarse_woken props v i) <-> (p < n)%nat /\ subscribes (the p) v i.
Proof.
  unfold coarse_woken. rewrite in_flat_map.
  assert (W : forall p', In p (woken_by props v i p') <-> p = p' /\ subscribes (the p') v i).
  { intro p'. unfold woken_by. rewrite in_flat_map. unfold wiring, subscribes. split.
    - intros ((w & t) & I & H). cbn [fst snd] in H.
      destruct (Nat.eqb_spec w v) as [->|]; simpl in H; [|tauto].
      destruct (mask_has t i) eqn:M; simpl in H; [|tauto]. destruct H as [<-|[]]. split; [reflexivity|].
      rewrite !in_app_iff, !in_map_iff in I.
      destruct I as [(m & E & I)|[(m & E & I)|(m & E & I)]]; injection E as -> <-; apply in_underlying_list in I;
        destruct I as (x & I & U).
      + left. exists x. apply mask_change in M. tauto.
      + right; left. exists x. apply mask_bounds in M. tauto.
      + right; right. exists x. apply mask_inst in M. tauto.
    - intros [-> [(x & I & U & M)|[(x & I & U & M)|(x & I & U & M)]]].
      + apply mask_change in M. exists (v, OnChange). cbn [fst snd]. rewrite Nat.eqb_refl, M. split; [|simpl; auto].
        apply in_app_iff; left. apply (in_map (fun m => (m, OnChange))). apply in_underlying_list. eauto.
      + apply mask_bounds in M. exists (v, OnBounds). cbn [fst snd]. rewrite Nat.eqb_refl, M. split; [|simpl; auto].
        apply in_app_iff; right. apply in_app_iff; left. apply (in_map (fun m => (m, OnBounds))). apply in_underlying_list. eauto.
      + apply mask_inst in M. exists (v, OnInstantiated). cbn [fst snd]. rewrite Nat.eqb_refl, M. split; [|simpl; auto].
        apply in_app_iff; right. apply in_app_iff; right. apply (in_map (fun m => (m, OnInstantiated))). apply in_underlying_list. eauto. }
  split.
  - intros (p' & I & H). apply W in H. destruct H as [<- H]. apply in_seq in I. split; [lia|assumption].
  - intros [L H]. exists p. rewrite in_seq, W. split; [lia|]. auto.
Qed.

Lemma coarse_woken_lt v i : Forall (fun p => (p < n)%nat) (coarse_woken props v i).
Proof. apply Forall_forall. intros p H. now apply coarse_woken_spec in H. Qed.

Definition subs (p : nat) (ev : event) : Prop := subscribes (the p) (fst ev) (snd ev).

End Engine.
