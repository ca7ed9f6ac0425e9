(** Lemmas about the In constraint. *)
From Coq Require Import ZArith List Bool Arith Lia.
From Verif Require Import IntervalSet IntervalSetSpec IntervalSetProofs Vars VarsSpec VarsProofs State StateSpec StateProofs Epochs
  Engine EngineSpec EngineProofs SessionSpec SessionInvProofs Tracker ContractSpec ContractProofs RunProofs Equals Abs AbsProofs Member.
Import ListNotations.
Local Open Scope Z_scope.

Lemma listed_In vals x : listed vals x = true <-> In x vals.
Proof.
  unfold listed. rewrite existsb_exists. split.
  - intros (y & I & E). apply Z.eqb_eq in E. now subst.
  - intro I. exists x. split; [assumption|apply Z.eqb_refl].
Qed.

(** ** The runs cover exactly the values that are not listed *)

Definition proper (l : list (Z * Z)) : Prop := Forall (fun p => fst p <= snd p) l.

Lemma add_to_runs_covered vals runs v x : proper runs ->
  proper (add_to_runs vals runs v) /\ (covered x (add_to_runs vals runs v) <-> covered x runs \/ (x = v /\ ~ In v vals)).
Proof.
  intro Pr. unfold add_to_runs. destruct (listed vals v) eqn:E.
  - apply listed_In in E. split; [assumption|]. split; [tauto|]. intros [?|[_ N]]; [assumption|contradiction].
  - assert (N : ~ In v vals) by (intro I; apply listed_In in I; congruence). clear E. destruct runs as [|[lo hi] r].
    + split; [constructor; [simpl; lia|constructor]|]. rewrite covered_cons. simpl.
      split; [intros [?|(? & ? & [] & _)]|intros [(? & ? & [] & _)|[-> _]]]; [right; split; [lia|assumption]|left; lia].
    + inversion_clear Pr as [|? ? P1 P2]. simpl in P1. destruct (Z.eqb_spec (hi + 1) v) as [Ev|Nv]; rewrite !covered_cons; simpl.
      * split; [constructor; [simpl; lia|assumption]|]. split.
        -- intros [H|H]; [|tauto]. destruct (Z.eq_dec x v); [right; auto|left; left; lia].
        -- intros [[H|H]|[-> _]]; [left; lia|tauto|left; lia].
      * split; [constructor; [simpl; lia|constructor; assumption]|]. split.
        -- intros [H|H]; [right; split; [lia|assumption]|tauto].
        -- intros [H|[-> _]]; [tauto|left; lia].
Qed.

Lemma runs_covered vals l : forall runs, proper runs -> forall x,
  covered x (fold_left (add_to_runs vals) l runs) <-> covered x runs \/ (In x l /\ ~ In x vals).
Proof.
  induction l as [|v r IH]; intros runs Pr x; simpl; [tauto|].
  destruct (add_to_runs_covered vals runs v x Pr) as [P' C]. rewrite IH by assumption. rewrite C. split.
  - intros [[?|[-> ?]]|[? ?]]; auto.
  - intros [?|[[->|?] ?]]; auto.
Qed.

Lemma in_filter_cases var var_vals vals t :
  (var_vals = [] /\ in_filter var var_vals vals t =
     for_each (rev (fold_left (add_to_runs vals) (each_value (t_domains t) var) [])) (fun '(lo, hi) t => tell_not_in_range var lo hi t) t) \/
  in_filter var var_vals vals t =
      for_each (each_value (t_domains t) var) (fun v t =>
        if listed vals v then t
        else if existsb (fun V => in_domain (t_domains t) V v) var_vals then t
        else tell_ne var v t) t.
Proof. destruct var_vals; auto. Qed.

Section In.
Variable nv : nat.
Variable var : var_id.
Variable var_vals : list var_id.
Variable vals : list Z.
Hypothesis B : var_below nv var.
Hypothesis Bs : Forall (var_below nv) var_vals.

Definition in_sat (a : assignment) : Prop := In (var_value a var) vals \/ exists V, In V var_vals /\ var_value a var = var_value a V.

Lemma below_in V : In V var_vals -> var_below nv V.
Proof. rewrite Forall_forall in Bs. apply Bs. Qed.

Section At.
Variable d : domains.
Hypothesis Hd : domains_ok d.
Hypothesis Ld : length d = nv.

Lemma filter_honest : honest nv d in_sat (in_filter var var_vals vals (track d)).
Proof.
  destruct (in_filter_cases var var_vals vals (track d)) as [[Er Ef]|Ef]; rewrite Ef; clear Ef.
  - apply honest_for_each; [|apply honest_track]. intros [lo hi] t I H. apply honest_not_in_range; auto.
    intros F Ok L a Wa Wt Sa Hx.
    assert (C : covered (var_value a var) (fold_left (add_to_runs vals) (each_value (t_domains (track d)) var) [])).
    { exists lo, hi. split; [|assumption]. now apply in_rev in I. }
    apply runs_covered in C; [|constructor]. destruct C as [(? & ? & [] & _)|[_ N]]. destruct Sa as [Sa|(V & Iv & _)]; [contradiction|]. rewrite Er in Iv. contradiction.
  - apply honest_for_each; [|apply honest_track]. intros v t I H. destruct (listed vals v) eqn:E1; [assumption|].
    destruct (existsb (fun V => in_domain (t_domains t) V v) var_vals) eqn:E2; [assumption|]. apply honest_tell; auto.
    intros F Ok L a Wa Wt Sa Hx. unfold cond_ne in Hx; simpl in Hx. destruct Sa as [Sa|(V & Iv & E)].
    + rewrite Hx in Sa. apply listed_In in Sa. congruence.
    + assert (X : existsb (fun V => in_domain (t_domains t) V v) var_vals = true); [|congruence].
      apply existsb_exists. exists V. split; [assumption|]. rewrite <- Hx, E. apply value_in_domain; auto.
      apply (var_below_known nv); auto. now apply below_in.
Qed.

Lemma only_support_honest t : honest nv d in_sat t -> honest nv d in_sat (in_only_support var var_vals vals t).
Proof.
  intro H. unfold in_only_support. destruct (existsb (in_domain (t_domains t) var) vals) eqn:E1; [assumption|].
  destruct (in_supports var var_vals (t_domains t)) as [|V [|? ?]] eqn:E2; try assumption.
  assert (IV : In V var_vals). { assert (X : In V (in_supports var var_vals (t_domains t))) by (rewrite E2; now left). now apply filter_In in X. }
  apply honest_for_each; [|assumption]. intros val t' I H'. destruct (in_domain (t_domains t') var val) eqn:E3; [assumption|].
  apply honest_tell; auto. { now apply below_in. }
  intros F Ok L a Wa Wt Sa. destruct (honest_within nv d Hd Ld in_sat t a H Wa Sa) as [F0 W0]. pose proof H as [G0 _].
  assert (Ok0 : domains_ok (t_domains t)) by now apply (legit_ok nv d). assert (L0 : length (t_domains t) = nv) by now apply (legit_length nv d).
  assert (Kv : var_known (t_domains t) var) by now apply (var_below_known nv).
  simpl. unfold cond_holds; simpl. intro Ev. apply (not_in_domain (t_domains t') var a Ok (var_below_known nv _ _ L B) Wt val E3).
  destruct Sa as [Sa|(V' & Iv & E)].
  - exfalso. assert (X : existsb (in_domain (t_domains t) var) vals = true); [|congruence]. apply existsb_exists. exists (var_value a var).
    split; [assumption|]. now apply value_in_domain.
  - assert (X : In V' (in_supports var var_vals (t_domains t))).
    { apply filter_In. split; [assumption|]. apply existsb_exists. exists (var_value a V'). split.
      - apply value_listed; auto. apply (var_below_known nv); auto. now apply below_in.
      - rewrite <- E. now apply value_in_domain. }
    rewrite E2 in X. destruct X as [->|[]]. congruence.
Qed.

Lemma in_honest : honest nv d in_sat (fst (in_body var var_vals vals d)).
Proof. unfold in_body. cbn [fst]. apply only_support_honest, filter_honest. Qed.

Lemma only_support_back t a : legit nv d t -> live nv d (in_only_support var var_vals vals t) a -> live nv d t a.
Proof.
  intros G. unfold in_only_support. destruct (existsb (in_domain (t_domains t) var) vals); auto.
  destruct (in_supports var var_vals (t_domains t)) as [|V [|? ?]] eqn:E2; auto.
  assert (IV : In V var_vals). { assert (X : In V (in_supports var var_vals (t_domains t))) by (rewrite E2; now left). now apply filter_In in X. }
  intro Lv. apply (for_each_back nv d (fun _ => True)) in Lv; auto; [now destruct Lv| |].
  - intros val t' I G'. destruct (in_domain (t_domains t') var val); [assumption|]. apply legit_tell; [now apply below_in|assumption].
  - intros val t' I G'. destruct (in_domain (t_domains t') var val); [auto|]. intro Lv'. apply tell_back in Lv'; auto; [now destruct Lv'|now apply below_in].
Qed.

Lemma in_checks a : Forall (fixed d) (var :: var_vals) -> live nv d (fst (in_body var var_vals vals d)) a -> in_sat a.
Proof.
  intros F Lv. inversion_clear F as [|? ? F1 Fs]. rewrite Forall_forall in Fs. unfold in_body in Lv. cbn [fst] in Lv.
  apply only_support_back in Lv; [|apply filter_honest]. pose proof (live_within nv d Hd Ld _ _ Lv) as Wa.
  pose proof (value_listed d var a Hd (var_below_known nv _ _ Ld B) Wa) as Il.
  destruct (in_filter_cases var var_vals vals (track d)) as [[Er Ef]|Ef]; rewrite Ef in Lv; clear Ef.
  - apply (for_each_back nv d (fun p => ~ (fst p <= var_value a var <= snd p))) in Lv; auto; [| | |apply legit_track].
    + destruct Lv as [_ F]. rewrite Forall_forall in F. left. destruct (listed vals (var_value a var)) eqn:El; [now apply listed_In|]. exfalso.
      assert (C : covered (var_value a var) (fold_left (add_to_runs vals) (each_value d var) [])).
      { apply runs_covered; [constructor|]. right. split; [assumption|]. intro X. apply listed_In in X. congruence. }
      destruct C as (lo & hi & I & H). apply (F (lo, hi)); [apply -> in_rev; exact I|exact H].
    + intros [lo hi] t I G. unfold tell_not_in_range. destruct (hi <? lo); [assumption|]. now apply legit_tell.
    + intros [lo hi] t I G. now apply not_in_range_back.
  - apply (for_each_back nv d (fun v => var_value a var <> v \/ In v vals \/ exists V, In V var_vals /\ v = var_value a V)) in Lv; auto; [| | |apply legit_track].
    + destruct Lv as [_ F]. rewrite Forall_forall in F. specialize (F _ Il). unfold in_sat. destruct F as [F|[F|F]]; [congruence|auto|auto].
    + intros v t I G. destruct (listed vals v); [assumption|]. destruct (existsb _ _); [assumption|]. now apply legit_tell.
    + intros v t I G Lv'. destruct (listed vals v) eqn:E1; [split; [assumption|]; right; left; now apply listed_In|].
      destruct (existsb (fun V => in_domain (t_domains t) V v) var_vals) eqn:E2.
      * split; [assumption|]. right; right. apply existsb_exists in E2. destruct E2 as (V & IV & E).  exists V. split; [assumption|].
        pose proof (live_ok nv d Hd Ld _ _ Lv') as Ok. pose proof (live_length nv d Hd Ld _ _ Lv') as L. destruct Lv' as (G' & F' & W).
        rewrite (fixed_in_domain (t_domains t) V a) in E; auto.
        -- now apply Z.eqb_eq in E.
        -- apply (var_below_known nv); auto. now apply below_in.
        -- apply (live_fixed nv d Hd Ld t a); [now split|]. now apply Fs.
      * apply tell_back in Lv'; auto. destruct Lv' as [Lv' H]. auto.
Qed.

Lemma in_disables a : snd (in_body var var_vals vals d) = DisableUntilBacktrack -> live nv d (fst (in_body var var_vals vals d)) a -> in_sat a.
Proof.
  unfold in_body. cbn [fst snd]. set (t := in_only_support _ _ _ _). intros R Lv.
  destruct (optional_single_value (t_domains t) var) as [x|] eqn:E; [|discriminate]. destruct (listed vals x) eqn:El; [|discriminate].
  pose proof (live_ok nv d Hd Ld _ _ Lv) as Ok. pose proof (live_length nv d Hd Ld _ _ Lv) as L. destruct Lv as (G' & F' & W).
  pose proof (var_below_known nv _ _ L B) as Kv.
  pose proof (proj1 (optional_single_value_spec _ _ _ Ok Kv) E) as E1. pose proof (value_possible (t_domains t) var a Ok Kv W) as P. apply E1 in P.
  left. rewrite P. now apply listed_In.
Qed.

End At.
End In.

Lemma constants_of_In vars a x : In x (constants_of vars) <-> exists V, In V vars /\ is_constant V = true /\ x = var_value a V.
Proof.
  unfold constants_of. rewrite in_flat_map. split.
  - intros (V & I & J). exists V. split; [assumption|]. destruct V; simpl in *; try contradiction. destruct J as [->|[]]. auto.
  - intros (V & I & C & ->). exists V. split; [assumption|]. destruct V; try discriminate. simpl. auto.
Qed.

Lemma in_correct d0 var vars values : Forall (var_known d0) (var :: vars) ->
  correct_on d0 (in_constraint var vars values) (var :: vars)
    (fun a => In (var_value a var) values \/ exists V, In V vars /\ var_value a var = var_value a V).
Proof.
  intro K. inversion_clear K as [|? ? Kv Ks].
  set (var_vals := non_constants vars). set (vals := values ++ constants_of vars).
  assert (Eq : forall a, (In (var_value a var) values \/ exists V, In V vars /\ var_value a var = var_value a V) <-> in_sat var var_vals vals a).
  { intro a. unfold in_sat, var_vals, vals, non_constants. rewrite in_app_iff, (constants_of_In vars a). split.
    - intros [?|(V & I & E)]; [auto|]. destruct (is_constant V) eqn:C; [left; right; eauto|right]. exists V. split; [|assumption]. apply filter_In. now rewrite C.
    - intros [[?|(V & I & _ & E)]|(V & I & E)]; [auto|eauto|]. apply filter_In in I. destruct I. eauto. }
  assert (Ks' : Forall (var_known d0) var_vals).
  { rewrite Forall_forall in *. intros V I. apply filter_In in I. now apply Ks. }
  assert (Sc : incl (var :: var_vals) (var :: vars)).
  { intros v [->|I]; [now left|right]. now apply filter_In in I. }
  assert (D : (var_vals = [] /\ vals = []) \/ in_constraint var vars values d0 = ([body_propagator (in_body var var_vals vals) (var :: var_vals) [] []], [])).
  { unfold in_constraint. fold var_vals vals. destruct var_vals; [destruct vals; auto|auto]. }
  destruct D as [[E1 E2]|D].
  - assert (N : forall a, ~ in_sat var var_vals vals a).
    { intro a. rewrite E1, E2. intros [[]|(V & [] & _)]. }
    apply (initialiser_correct d0 _ (fun d => tell_false (track d)) _ (in_sat var var_vals vals)); auto.
    + unfold in_constraint. fold var_vals vals. rewrite E1, E2. reflexivity.
    + intros nv d Ln Hd L I. split.
      * apply honest_tell; auto; [exact Logic.I|apply honest_track|]. intros _ _ _ a _ _ Sa. now apply N in Sa.
      * intros a Lv. apply (tell_back nv d Hd L) in Lv; [now destruct Lv|exact Logic.I|apply legit_track].
  - apply (scope_more d0 _ (var :: var_vals)); auto.
    apply (one_propagator_correct d0 _ (in_body var var_vals vals) (var :: var_vals) [] [] [] _ (in_sat var var_vals vals)); auto.
    + rewrite app_nil_r. apply incl_refl.
    + intros nv Ln. pose proof (known_below_more _ _ _ Ln Kv) as B.
      assert (Bs : Forall (var_below nv) var_vals) by (eapply Forall_impl; [|exact Ks']; intros v Kn; now apply (known_below_more d0)).
      apply body_ok_intro.
      * intros. now apply in_honest.
      * intros d a Hd L _ F Lv. now apply (in_checks nv var var_vals vals B Bs d).
      * intros d a Hd L _ _ R. exfalso. revert R. unfold in_body. cbn [snd]. destruct (optional_single_value _ _); [destruct (listed _ _)|]; discriminate.
      * intros d a Hd L _ R Lv. now apply (in_disables nv var var_vals vals B d).
    + intros nv g d Ln [].
Qed.
