(** Lemmas about NValue and AtMostOne. *)
From Coq Require Import ZArith List Bool Arith Lia.
From Verif Require Import IntervalSet IntervalSetSpec IntervalSetProofs Vars VarsSpec VarsProofs State StateSpec StateProofs Epochs
  Engine EngineSpec EngineProofs SessionSpec SessionInvProofs Tracker ContractSpec ContractProofs RunProofs Counting CountingProofs IncreasingProofs NValue GlobalsSpec.
Import ListNotations.
Local Open Scope Z_scope.

Lemma distinct_le xs l : (forall x, In x xs -> In x l) -> distinct xs <= Z.of_nat (length l).
Proof. intro H. unfold distinct. apply inj_le. apply NoDup_incl_length; [apply NoDup_nodup|]. intros x I. apply nodup_In in I. auto. Qed.

Lemma distinct_ge xs l : NoDup l -> (forall x, In x l -> In x xs) -> Z.of_nat (length l) <= distinct xs.
Proof. intros N H. unfold distinct. apply inj_le. apply NoDup_incl_length; [assumption|]. intros x I. apply nodup_In. auto. Qed.

Section NValue.
Variable nv : nat.
Variable n : var_id.
Variable vars : list var_id.
Hypothesis Bn : var_below nv n.
Hypothesis Bs : Forall (var_below nv) vars.

Section At.
Variable d : domains.
Hypothesis Hd : domains_ok d.
Hypothesis Ld : length d = nv.

Lemma var_known_at dd v : length dd = nv -> In v vars -> var_known dd v.
Proof. intros L I. apply (var_below_known nv); auto. rewrite Forall_forall in Bs. auto. Qed.

Lemma values_among dd a x : domains_ok dd -> length dd = nv -> within a dd -> (exists v, In v vars /\ var_value a v = x) -> In x (flat_map (each_value dd) vars).
Proof. intros Ok L W (v & I & <-). apply in_flat_map. exists v. split; [assumption|]. apply value_listed; auto. now apply var_known_at. Qed.

Lemma singles_among dd a x : domains_ok dd -> length dd = nv -> within a dd -> In x (flat_map (single_values dd) vars) -> exists v, In v vars /\ var_value a v = x.
Proof.
  intros Ok L W I. apply in_flat_map in I. destruct I as (v & I & J). exists v. split; [assumption|]. unfold single_values in J.
  destruct (optional_single_value dd v) as [y|] eqn:E; [|contradiction]. destruct J as [<-|[]]. apply (osv_value dd v); auto. now apply var_known_at.
Qed.

Lemma n_value_honest : honest nv d (different_values n vars) (fst (n_value_body n vars d)).
Proof.
  unfold n_value_body. cbn [fst]. apply honest_tell; auto.
  - apply honest_tell; auto; [apply honest_track|]. intros _ _ _ a Wa _ (l & N & M & E). unfold lit_holds, cond_holds; cbn.
    enough (Z.of_nat (length l) <= distinct (flat_map (each_value d) vars)) by lia. apply distinct_ge; auto. intros x I. apply (values_among d a); auto. now apply M.
  - intros F Ok L a Wa Wt (l & N & M & E). set (t1 := tell_lt _ _ _) in *. clearbody t1. unfold lit_holds, cond_holds; cbn.
    assert (distinct (flat_map (single_values (t_domains t1)) vars) <= Z.of_nat (length l)).
    { apply distinct_le. intros x I. apply M. now apply (singles_among (t_domains t1) a). }
    assert (match vars with [] => 0 | _ => 1 end <= Z.of_nat (length l)).
    { destruct vars as [|v r]; [lia|]. assert (In (var_value a v) l) by (apply M; exists v; simpl; auto). destruct l; [contradiction|]. cbn [length]. lia. }
    destruct vars; lia.
Qed.

Lemma n_value_checks a : Forall (fixed d) (n :: vars) -> live nv d (fst (n_value_body n vars d)) a -> different_values n vars a.
Proof.
  intros Fx Lv. inversion_clear Fx as [|? ? Fn Fv]. rewrite Forall_forall in Fv. unfold n_value_body in Lv. cbn [fst] in Lv. set (t1 := tell_lt _ _ _) in Lv.
  assert (G1 : legit nv d t1) by (apply legit_tell; [assumption|apply legit_track]). apply (tell_back nv d Hd Ld) in Lv; auto. destruct Lv as [L1 E2]. pose proof L1 as L1'.
  unfold t1 in L1. apply (tell_back nv d Hd Ld) in L1; auto using legit_track. destruct L1 as [L0 E1]. pose proof (live_within nv d Hd Ld _ a L0) as Wa.
  change (var_value a n < distinct (flat_map (each_value d) vars) + 1) in E1.
  change (var_value a n >= Z.max (match vars with [] => 0 | _ => 1 end) (distinct (flat_map (single_values (t_domains t1)) vars))) in E2.
  pose proof (live_ok nv d Hd Ld t1 a L1') as Ok. pose proof (live_length nv d Hd Ld t1 a L1') as L. assert (W1 : within a (t_domains t1)) by apply L1'.
  assert (U1 : forall x, In x (flat_map (each_value d) vars) <-> exists v, In v vars /\ var_value a v = x).
  { intro x. split; [|now apply values_among]. intro I. apply in_flat_map in I. destruct I as (v & I & J). exists v. split; [assumption|].
    rewrite (fixed_each_value d v a) in J; auto; [|now apply var_known_at]. destruct J as [J|[]]; auto. }
  assert (U2 : forall x, In x (flat_map (single_values (t_domains t1)) vars) <-> exists v, In v vars /\ var_value a v = x).
  { intro x. split; [intro I; now apply (singles_among (t_domains t1) a)|]. intros (v & I & <-). apply in_flat_map. exists v. split; [assumption|]. unfold single_values.
    rewrite (fixed_single_value (t_domains t1) v a); [now left|assumption|now apply var_known_at|assumption|apply (live_fixed nv d Hd Ld t1 a); auto]. }
  exists (nodup Z.eq_dec (flat_map (each_value d) vars)). split; [apply NoDup_nodup|]. split; [intro x; rewrite nodup_In; apply U1|]. fold (distinct (flat_map (each_value d) vars)).
  assert (distinct (flat_map (single_values (t_domains t1)) vars) = distinct (flat_map (each_value d) vars)).
  { apply Z.le_antisymm; apply distinct_le; intros x I; apply nodup_In; [apply U1, U2, I|apply U2, U1, I]. }
  clearbody t1. set (fl := match vars with [] => 0 | _ => 1 end) in *. lia.
Qed.
End At.

Lemma n_value_ok d0 alias : body_ok nv d0 alias (n_value_body n vars) (n :: vars) (different_values n vars).
Proof.
  apply body_ok_intro.
  - intros. now apply n_value_honest.
  - intros d a Hd L _ F Lv. now apply (n_value_checks d Hd L).
  - intros d a Hd L _ _ R. discriminate R.
  - intros d a Hd L _ R. discriminate R.
Qed.
End NValue.

Lemma n_value_correct d0 n vars : Forall (var_known d0) (n :: vars) -> correct_on d0 (n_value n vars) (n :: vars) (different_values n vars).
Proof.
  intro K. apply (one_propagator_correct d0 _ (n_value_body n vars) vars [n] [] [] _ (different_values n vars)); auto; try reflexivity.
  - intros v [<-|I]; apply in_or_app; simpl; auto.
  - intros nv Ln. inversion_clear K as [|? ? Kn Ks]. apply n_value_ok; [now apply (known_below_more d0)|]. eapply Forall_impl; [|exact Ks]. intros v Kv. now apply (known_below_more d0).
  - intros nv g d Ln [].
Qed.

(** ** AtMostOne *)

Lemma two_of f vars : 2 <= how_many_of f vars <->
  exists i j v w, i <> j /\ nth_error vars i = Some v /\ nth_error vars j = Some w /\ f v = true /\ f w = true.
Proof.
  unfold how_many_of. split.
  - induction vars as [|x r IH]; simpl; [lia|]. destruct (f x) eqn:Fx.
    + intro H. cbn [length] in H. destruct (filter f r) as [|w q] eqn:E; [simpl in H; lia|]. assert (I : In w (filter f r)) by (rewrite E; now left). apply filter_In in I. destruct I as [I Fw].
      apply In_nth_error in I. destruct I as (j & J). exists 0%nat, (S j), x, w. repeat split; auto.
    + intro H. destruct (IH H) as (i & j & v & w & N & Ei & Ej & Fv & Fw). exists (S i), (S j), v, w. repeat split; auto.
  - intros (i & j & v & w & N & Ei & Ej & Fv & Fw).
    assert (P : forall i j v w, (i < j)%nat -> nth_error vars i = Some v -> nth_error vars j = Some w -> f v = true -> f w = true -> 2 <= Z.of_nat (length (filter f vars))).
    { clear. induction vars as [|x r IH]; intros i j v w L Ei Ej Fv Fw; [destruct i; discriminate|]. destruct j as [|j]; [lia|]. simpl in Ej. destruct i as [|i].
      - injection Ei as <-. simpl. rewrite Fv. assert (I : In w (filter f r)) by (apply filter_In; split; [now apply nth_error_In in Ej|assumption]). destruct (filter f r); [contradiction|]. cbn [length]. lia.
      - simpl in Ei. specialize (IH i j v w ltac:(lia) Ei Ej Fv Fw). simpl. destruct (f x); cbn [length]; lia. }
    destruct (Nat.lt_total i j) as [Lt|[Eq|Gt]]; [now apply (P i j v w)|contradiction|now apply (P j i w v)].
Qed.

Lemma combine_seq_nth {X} (vs : list X) i v : In (i, v) (combine (seq 0 (length vs)) vs) <-> nth_error vs i = Some v.
Proof.
  assert (G : forall (vs : list X) k, In (i, v) (combine (seq k (length vs)) vs) <-> (k <= i)%nat /\ nth_error vs (i - k) = Some v).
  { clear vs. induction vs as [|x r IH]; intro k; simpl.
    - split; [intros []|]. intros [_ H]. destruct (i - k)%nat; discriminate.
    - rewrite IH. split.
      + intros [[= <- <-]|[L H]]; [split; [lia|]; now rewrite Nat.sub_diag|]. split; [lia|]. replace (i - k)%nat with (S (i - S k)) by lia. exact H.
      + intros [L H]. destruct (Nat.eq_dec k i) as [->|N].
        * left. rewrite Nat.sub_diag in H. injection H as <-. reflexivity.
        * right. split; [lia|]. replace (i - k)%nat with (S (i - S k)) in H by lia. exact H. }
  rewrite G, Nat.sub_0_r. split; [tauto|]. intro H. split; [lia|assumption].
Qed.

Section AtMostOne.
Variable nv : nat.
Variable vars : list var_id.
Variable val : var_id.
Hypothesis Bv : var_below nv val.
Hypothesis Bs : Forall (var_below nv) vars.

Section At.
Variable d : domains.
Hypothesis Hd : domains_ok d.
Hypothesis Ld : length d = nv.

Lemma set_to_value dd a x v : domains_ok dd -> length dd = nv -> within a dd -> In v vars -> is_set_to dd x v = true -> var_value a v = x.
Proof.
  intros Ok L W I. unfold is_set_to. destruct (optional_single_value dd v) as [y|] eqn:E; [|discriminate]. rewrite Z.eqb_eq. intros <-.
  apply (osv_value dd v); auto. now apply (var_known_at nv vars).
Qed.

Lemma only_fixed_spec dd x k : only_fixed dd x vars = Some k -> exists v, nth_error vars k = Some v /\ is_set_to dd x v = true.
Proof.
  unfold only_fixed. destruct (filter _ _) as [|[i v] [|? ?]] eqn:E; try discriminate. intros [= <-].
  assert (I : In (i, v) (filter (fun '(_, w) => is_set_to dd x w) (combine (seq 0 (length vars)) vars))) by (rewrite E; now left). apply filter_In in I. destruct I as [I F].
  exists v. split; [now apply combine_seq_nth|assumption].
Qed.

Lemma at_most_one_honest : honest nv d (no_two_take vars val) (fst (at_most_one_body vars val d)).
Proof.
  unfold at_most_one_body. cbn [fst]. set (t1 := for_each _ _ _).
  assert (H1 : honest nv d (no_two_take vars val) t1).
  { apply honest_for_each; [|apply honest_track]. intros x t _ H. destruct (Z.leb_spec 2 (how_many_of (is_set_to (t_domains t) x) vars)) as [Le|]; [|assumption].
    apply honest_tell; auto. intros F Ok L a Wa Wt S. unfold lit_holds, cond_holds; cbn. intro E. apply two_of in Le. destruct Le as (i & j & v & w & N & Ei & Ej & Sv & Sw).
    apply N. apply (S i j v w); auto; rewrite E; [apply (set_to_value (t_domains t) a x v)|apply (set_to_value (t_domains t) a x w)]; auto; eapply nth_error_In; eauto. }
  destruct (optional_single_value (t_domains t1) val) as [x|] eqn:Ex; [|assumption]. destruct (only_fixed (t_domains t1) x vars) as [k|] eqn:Ek; [|assumption].
  destruct (only_fixed_spec _ _ _ Ek) as (u & Eu & Su).
  apply honest_for_each; [|assumption]. intros [i v] t I H. apply combine_seq_nth in I. destruct (Nat.eqb_spec i k) as [E|N]; [assumption|]. pose proof (proj1 (Forall_forall _ _) Bs) as Bs'. apply honest_tell; auto.
  - apply Bs'. eapply nth_error_In; eauto.
  - intros F Ok L a Wa Wt S. unfold lit_holds, cond_holds; cbn. intro E. destruct (honest_within nv d Hd Ld _ t1 a H1 Wa S) as [F1 W1]. pose proof H1 as [G1 _].
    pose proof (legit_ok nv d Hd Ld t1 G1 F1) as Ok1. pose proof (legit_length nv d Hd Ld t1 G1) as L1.
    assert (Ev : var_value a val = x) by (apply (osv_value (t_domains t1) val); auto; now apply (var_below_known nv)).
    apply N. apply (S i k v u); auto; [congruence|]. rewrite Ev. apply (set_to_value (t_domains t1) a x u); auto. eapply nth_error_In; eauto.
Qed.

Lemma at_most_one_checks a : Forall (fixed d) (vars ++ [val]) -> live nv d (fst (at_most_one_body vars val d)) a -> no_two_take vars val a.
Proof.
  intros Fx Lv. apply Forall_app in Fx. destruct Fx as [Fv Fx]. inversion_clear Fx as [|? ? Fval _]. rewrite Forall_forall in Fv.
  unfold at_most_one_body in Lv. cbn [fst] in Lv. set (t1 := for_each _ _ _) in Lv.
  assert (St : forall x t, In x (each_value d val) -> later nv d t (if 2 <=? how_many_of (is_set_to (t_domains t) x) vars then tell_ne val x t else t)).
  { intros x t _. destruct (2 <=? _); [apply later_tell; auto|apply later_refl]. }
  assert (L1 : live nv d t1 a).
  { destruct (later_for_each nv d _ _ St (track d) (legit_track nv d)) as [G1 _]. fold t1 in G1.
    destruct (optional_single_value (t_domains t1) val) as [x|]; [|assumption]. destruct (only_fixed (t_domains t1) x vars) as [k|]; [|assumption].
    assert (Lt : later nv d t1 (for_each (combine (seq 0 (length vars)) vars) (fun '(i, v) t => if Nat.eqb i k then t else tell_ne v x t) t1)).
    { apply later_for_each. intros [i v] t I. apply combine_seq_nth in I. destruct (Nat.eqb i k); [apply later_refl|]. apply later_tell; auto. rewrite Forall_forall in Bs. apply Bs. eapply nth_error_In; eauto. }
    now apply (Lt G1). }
  clear Lv. unfold t1 in L1.
  apply (for_each_later nv d (fun x => x = var_value a val -> no_two_take vars val a)) in L1; [destruct L1 as [L0 F]|exact St| |apply legit_track].
  - rewrite Forall_forall in F. apply (F (var_value a val)); auto. apply value_listed; auto; [now apply (var_below_known nv)|]. apply L0.
  - intros x t _ G Lf Lt -> i j v w Ei Ej Vv Vw. destruct (Nat.eq_dec i j) as [|N]; [assumption|exfalso].
    assert (Two : 2 <= how_many_of (is_set_to (t_domains t) (var_value a val)) vars).
    { pose proof (live_ok nv d Hd Ld t a Lt) as Ok. pose proof (live_length nv d Hd Ld t a Lt) as L.
      assert (Set1 : forall u, In u vars -> var_value a u = var_value a val -> is_set_to (t_domains t) (var_value a val) u = true).
      { intros u Iu Eu. unfold is_set_to. rewrite (fixed_single_value (t_domains t) u a); [now apply Z.eqb_eq|assumption|now apply (var_known_at nv vars)|apply Lt|]. apply (live_fixed nv d Hd Ld t a); auto. }
      apply two_of. exists i, j, v, w. repeat split; auto; apply Set1; auto; eapply nth_error_In; eauto. }
    rewrite (proj2 (Z.leb_le _ _) Two) in Lf. apply (tell_back nv d Hd Ld) in Lf; auto. destruct Lf as [_ Ne]. unfold lit_holds, cond_holds in Ne; cbn in Ne. congruence.
Qed.
End At.

Lemma at_most_one_ok d0 alias : body_ok nv d0 alias (at_most_one_body vars val) (vars ++ [val]) (no_two_take vars val).
Proof.
  apply body_ok_intro.
  - intros. now apply at_most_one_honest.
  - intros d a Hd L _ F Lv. now apply (at_most_one_checks d Hd L).
  - intros d a Hd L _ _ R. discriminate R.
  - intros d a Hd L _ R. discriminate R.
Qed.
End AtMostOne.

Lemma at_most_one_correct d0 vars val : Forall (var_known d0) (vars ++ [val]) -> correct_on d0 (at_most_one vars val) (vars ++ [val]) (no_two_take vars val).
Proof.
  intro K. destruct (Nat.leb_spec 2 (length vars)) as [Ge|Lt].
  - apply (one_propagator_correct d0 _ (at_most_one_body vars val) (vars ++ [val]) [] [] [] _ (no_two_take vars val)); auto; try reflexivity.
    + unfold at_most_one. now rewrite (proj2 (Nat.leb_le _ _) Ge).
    + rewrite !app_nil_r. apply incl_refl.
    + intros nv Ln. apply Forall_app in K. destruct K as [Ks K]. inversion_clear K as [|? ? Kv _]. apply at_most_one_ok; [now apply (known_below_more d0)|].
      eapply Forall_impl; [|exact Ks]. intros v Kn. now apply (known_below_more d0).
    + intros nv g d Ln [].
  - apply trivial_correct; auto; [unfold at_most_one; now rewrite (proj2 (Nat.leb_gt _ _) Lt)|].
    intros a i j v w Ei Ej _ _. assert (i < length vars)%nat by (apply nth_error_Some; congruence). assert (j < length vars)%nat by (apply nth_error_Some; congruence). lia.
Qed.
