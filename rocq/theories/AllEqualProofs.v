(** Lemmas about AllEqual. *)
From Coq Require Import ZArith List Bool Arith Lia.
From Verif Require Import IntervalSet IntervalSetSpec IntervalSetProofs Vars VarsSpec VarsProofs State StateSpec StateProofs Epochs
  Engine EngineSpec EngineProofs SessionSpec SessionInvProofs Tracker ContractSpec ContractProofs RunProofs Equals EqualsProofs ConsistencySpec QuietProofs ChoiceProofs
  EqualsConsistencyProofs IncreasingProofs AllEqual GlobalsSpec.
Import ListNotations.
Local Open Scope Z_scope.

(** The greatest lower bound and the least upper bound. *)
Lemma tightest_spec d vars : forall best lo hi, fold_left (tightest d) vars best = (lo, hi) ->
  fst best <= lo /\ hi <= snd best /\ (forall v, In v vars -> lower_bound d v <= lo /\ hi <= upper_bound d v) /\
  (lo = fst best \/ exists v, In v vars /\ lo = lower_bound d v) /\ (hi = snd best \/ exists v, In v vars /\ hi = upper_bound d v).
Proof.
  induction vars as [|v r IH]; intros [l0 h0] lo hi E; cbn [fold_left] in E.
  - injection E as <- <-. simpl. repeat split; auto; try lia; contradiction.
  - unfold tightest at 2 in E. rewrite bounds_spec in E. apply IH in E. cbn [fst snd] in *. destruct E as (A & B & C & D & F).
    assert (X : l0 <= lo /\ lower_bound d v <= lo) by (destruct (Z.ltb_spec l0 (lower_bound d v)); lia).
    assert (Y : hi <= h0 /\ hi <= upper_bound d v) by (destruct (Z.ltb_spec (upper_bound d v) h0); lia).
    split; [tauto|]. split; [tauto|]. split; [intros w [<-|I]; [tauto|auto]|]. split.
    + destruct D as [->|(w & I & ->)]; [|right; exists w; simpl; auto]. destruct (l0 <? lower_bound d v); [right; exists v; simpl; auto|now left].
    + destruct F as [->|(w & I & ->)]; [|right; exists w; simpl; auto]. destruct (upper_bound d v <? h0); [right; exists v; simpl; auto|now left].
Qed.

Lemma common_spec d vars : domains_ok d -> Forall (var_known d) vars -> forall s, well_formed s ->
  represents (fold_left (fun s v => intersect_with s (copy_of_values d v)) vars s) (fun x => member x s /\ forall v, In v vars -> view_member d v x).
Proof.
  intros Hd K. induction vars as [|v r IH]; intros s Ws; cbn [fold_left].
  - split; [assumption|]. intro x. simpl. firstorder.
  - inversion_clear K as [|? ? Kv Kr]. destruct (copy_of_values_spec d v Hd Kv) as [Wc Mc]. destruct (intersect_with_spec s (copy_of_values d v) Ws Wc) as [Wi Mi].
    destruct (IH Kr _ Wi) as [W M]. split; [assumption|]. intro x. rewrite M, Mi, Mc. split.
    + intros [[A B] C]. split; [assumption|]. intros w [<-|I]; auto.
    + intros [A B]. split; [split; [assumption|apply B; now left]|]. intros w I. apply B. now right.
Qed.

Section Body.
Variable nv : nat.
Variable v0 : var_id.
Variable rest : list var_id.
Hypothesis Bs : Forall (var_below nv) (v0 :: rest).

Section At.
Variable d : domains.
Hypothesis Hd : domains_ok d.
Hypothesis Ld : length d = nv.

Lemma below_of v : In v (v0 :: rest) -> var_below nv v.
Proof. pose proof (proj1 (Forall_forall _ _) Bs) as F. apply F. Qed.

Lemma known_of dd v : length dd = nv -> In v (v0 :: rest) -> var_known dd v.
Proof. intros L I. apply (var_below_known nv); auto. now apply below_of. Qed.

Lemma known_all dd : length dd = nv -> Forall (var_known dd) rest.
Proof. intro L. apply Forall_forall. intros v I. apply known_of; auto. now right. Qed.

Definition limits : Z * Z := fold_left (tightest d) rest (bounds d v0).

Lemma limits_spec lo hi : limits = (lo, hi) -> forall v, In v (v0 :: rest) -> lower_bound d v <= lo /\ hi <= upper_bound d v.
Proof.
  intro E. unfold limits in E. rewrite bounds_spec in E. apply tightest_spec in E. cbn [fst snd] in E. destruct E as (A & B & C & _). intros v [<-|I]; auto.
Qed.

Lemma limits_hold lo hi a : limits = (lo, hi) -> within a d -> all_same (v0 :: rest) a -> forall v, In v (v0 :: rest) -> lo <= var_value a v <= hi.
Proof.
  intros E Wa S v I. unfold limits in E. rewrite bounds_spec in E. apply tightest_spec in E. cbn [fst snd] in E. destruct E as (_ & _ & _ & D & F).
  assert (V : forall w, In w (v0 :: rest) -> lower_bound d w <= var_value a v <= upper_bound d w).
  { intros w Iw. rewrite (S v w I Iw). apply value_bounds; auto. now apply known_of. }
  split.
  - destruct D as [->|(w & Iw & ->)]; apply V; simpl; auto.
  - destruct F as [->|(w & Iw & ->)]; apply V; simpl; auto.
Qed.

Lemma tighten_later lo hi v t : var_below nv v -> later nv d t (tighten lo hi v t).
Proof.
  intro B. unfold tighten. set (t' := if lower_bound (t_domains t) v <? lo then tell_ge v lo t else t).
  apply (later_trans nv d t t'); [unfold t'; destruct (_ <? _); [apply later_tell; auto|apply later_refl]|]. clearbody t'. destruct (_ <? _); [apply later_tell; auto|apply later_refl].
Qed.

Lemma tighten_back lo hi v t a : In v (v0 :: rest) -> legit nv d t -> live nv d (tighten lo hi v t) a -> lo <= var_value a v <= hi.
Proof.
  intros I G Lv. pose proof (below_of v I) as B. unfold tighten in Lv. set (t' := if lower_bound (t_domains t) v <? lo then tell_ge v lo t else t) in Lv.
  assert (Lt : later nv d t t') by (unfold t'; destruct (_ <? _); [apply later_tell; auto|apply later_refl]). destruct (Lt G) as [G' Bk].
  assert (L' : live nv d t' a /\ var_value a v <= hi).
  { destruct (Z.ltb_spec hi (upper_bound (t_domains t') v)) as [Gt|Le].
    - apply (tell_back nv d Hd Ld) in Lv; auto. destruct Lv as [Lv E]. unfold lit_holds, cond_holds in E; cbn in E. split; [assumption|lia].
    - split; [assumption|]. assert (var_value a v <= upper_bound (t_domains t') v); [|lia]. apply value_bounds; [now apply (live_ok nv d Hd Ld t' a)|apply known_of; auto; now apply (live_length nv d Hd Ld t' a)|apply Lv]. }
  destruct L' as [L' Hi]. split; [|assumption]. unfold t' in L'. destruct (Z.ltb_spec (lower_bound (t_domains t) v) lo) as [Lt'|Ge].
  - apply (tell_back nv d Hd Ld) in L'; auto. destruct L' as [_ E]. unfold lit_holds, cond_holds in E; cbn in E. lia.
  - assert (lower_bound (t_domains t) v <= var_value a v); [|lia]. apply value_bounds; [now apply (live_ok nv d Hd Ld t a)|apply known_of; auto; now apply (live_length nv d Hd Ld t a)|apply L'].
Qed.

Definition first_pass (lo hi : Z) : tracker := for_each (v0 :: rest) (tighten lo hi) (track d).

Lemma first_later lo hi : later nv d (track d) (first_pass lo hi).
Proof. apply later_for_each. intros v t I. apply tighten_later. now apply below_of. Qed.

Lemma first_legit lo hi : legit nv d (first_pass lo hi).
Proof. apply (first_later lo hi). apply legit_track. Qed.

Lemma first_back lo hi a : live nv d (first_pass lo hi) a -> within a d /\ forall v, In v (v0 :: rest) -> lo <= var_value a v <= hi.
Proof.
  intro Lv. unfold first_pass in Lv. apply (for_each_later nv d (fun v => lo <= var_value a v <= hi)) in Lv; [destruct Lv as [L0 F]| | |apply legit_track].
  - split; [apply L0|]. now rewrite Forall_forall in F.
  - intros v t I. apply tighten_later. now apply below_of.
  - intros v t I G L1 _. now apply (tighten_back lo hi v t).
Qed.

Lemma first_honest lo hi : limits = (lo, hi) -> honest nv d (all_same (v0 :: rest)) (first_pass lo hi).
Proof.
  intro E. apply honest_for_each; [|apply honest_track]. intros v t I H. pose proof (below_of v I) as B. unfold tighten.
  assert (H' : honest nv d (all_same (v0 :: rest)) (if lower_bound (t_domains t) v <? lo then tell_ge v lo t else t)).
  { destruct (_ <? _); [|assumption]. apply honest_tell; auto. intros _ _ _ a Wa _ S. pose proof (limits_hold lo hi a E Wa S v I). unfold lit_holds, cond_holds; cbn. lia. }
  revert H'. generalize (if lower_bound (t_domains t) v <? lo then tell_ge v lo t else t). intros t' H'. destruct (_ <? _); [|assumption]. apply honest_tell; auto. intros _ _ _ a Wa _ S. pose proof (limits_hold lo hi a E Wa S v I). unfold lit_holds, cond_holds; cbn. lia.
Qed.

(** The second pass, given the domains after the first. *)
Definition common (d1 : domains) : iset := fold_left (fun s v => intersect_with s (copy_of_values d1 v)) rest (copy_of_values d1 v0).

Lemma common_ok d1 : domains_ok d1 -> length d1 = nv -> represents (common d1) (fun x => forall v, In v (v0 :: rest) -> view_member d1 v x).
Proof.
  intros Ok L. destruct (copy_of_values_spec d1 v0 Ok (known_of d1 v0 L (or_introl eq_refl))) as [W0 M0]. destruct (common_spec d1 rest Ok (known_all d1 L) _ W0) as [W M].
  split; [exact W|]. intro x. unfold common. rewrite M, M0. split.
  - intros [A B] v [<-|I]; auto.
  - intro H. split; [apply H; now left|]. intros v I. apply H. now right.
Qed.

Definition second_pass (t1 : tracker) : tracker :=
  for_each (v0 :: rest) (fun v t => prune_minus false v (copy_of_values (t_domains t) v) (common (t_domains t1)) t) t1.

Lemma second_later t1 : later nv d t1 (second_pass t1).
Proof. apply later_for_each. intros v t I. apply prune_later; auto. now apply below_of. Qed.

Lemma second_back t1 a : legit nv d t1 -> live nv d (second_pass t1) a -> forall v w, In v (v0 :: rest) -> In w (v0 :: rest) -> view_member (t_domains t1) w (var_value a v).
Proof.
  intros G1 Lv. destruct (second_later t1 G1) as [_ Bk]. pose proof (Bk a Lv) as L1. pose proof (live_ok nv d Hd Ld t1 a L1) as Ok. pose proof (live_length nv d Hd Ld t1 a L1) as L.
  destruct (common_ok (t_domains t1) Ok L) as [Wc Mc]. unfold second_pass in Lv.
  apply (for_each_later nv d (fun v => member (var_value a v) (common (t_domains t1)))) in Lv; [destruct Lv as [_ F]| | |exact G1].
  - intros v w Iv Iw. rewrite Forall_forall in F. now apply (Mc (var_value a v)); [apply F|].
  - intros v t I. apply prune_later; auto. now apply below_of.
  - intros v t I G Lf Lt. pose proof (live_ok nv d Hd Ld t a Lt) as Okt. pose proof (live_length nv d Hd Ld t a Lt) as Lnt. pose proof (known_of (t_domains t) v Lnt I) as K.
    destruct (copy_of_values_spec (t_domains t) v Okt K) as [Ws Ms]. apply (prune_back nv d Hd Ld) in Lf; auto; [|now apply below_of]. apply Lf. apply Ms. apply value_possible; auto. apply Lt.
Qed.

Lemma second_honest t1 : honest nv d (all_same (v0 :: rest)) t1 -> honest nv d (all_same (v0 :: rest)) (second_pass t1).
Proof.
  intro H1. apply honest_for_each; [|assumption]. intros v t I H. unfold prune_minus. apply honest_for_each; [|assumption]. intros [l u] t2 Il H2.
  apply honest_for_each; [|assumption]. intros x t3 Ix H3. apply honest_tell; auto; [now apply below_of|]. intros F3 Ok3 L3 a Wa W3 S. unfold lit_holds, cond_holds; cbn. intros E.
  destruct (honest_within nv d Hd Ld _ t1 a H1 Wa S) as [F1 W1]. pose proof H1 as [G1 _]. pose proof (legit_ok nv d Hd Ld t1 G1 F1) as Ok1. pose proof (legit_length nv d Hd Ld t1 G1) as L1.
  destruct (honest_within nv d Hd Ld _ t a H Wa S) as [F W]. pose proof H as [G _]. pose proof (legit_ok nv d Hd Ld t G F) as Ok. pose proof (legit_length nv d Hd Ld t G) as L.
  destruct (common_ok (t_domains t1) Ok1 L1) as [Wc Mc]. destruct (copy_of_values_spec (t_domains t) v Ok (known_of _ v L I)) as [Ws Ms].
  destruct (each_interval_minus_spec (copy_of_values (t_domains t) v) (common (t_domains t1)) Ws Wc) as [_ R]. apply zrange_In in Ix.
  destruct (proj1 (R x)) as [_ N]; [unfold member; eauto|]. apply N. apply Mc. intros w Iw. rewrite <- E, (S v w I Iw). apply value_possible; auto. now apply known_of.
Qed.

Lemma body_cases lo hi : limits = (lo, hi) -> exists b : bool, b = existsb (domain_has_holes (t_domains (first_pass lo hi))) (v0 :: rest) /\
  let t2 := if b then second_pass (first_pass lo hi) else first_pass lo hi in
  all_equal_body (v0 :: rest) d = (t2, if has_single_value (t_domains t2) v0 then DisableUntilBacktrack else Enable).
Proof. intro E. eexists. split; [reflexivity|]. unfold all_equal_body. fold limits. rewrite E. reflexivity. Qed.

Lemma all_equal_honest : honest nv d (all_same (v0 :: rest)) (fst (all_equal_body (v0 :: rest) d)).
Proof.
  destruct limits as [lo hi] eqn:E. destruct (body_cases lo hi E) as (b & _ & ->). cbn [fst]. destruct b; [apply second_honest|]; now apply first_honest.
Qed.

(** What a run leaves. *)
Lemma body_back lo hi a : limits = (lo, hi) -> live nv d (fst (all_equal_body (v0 :: rest) d)) a -> live nv d (first_pass lo hi) a.
Proof.
  intros E. destruct (body_cases lo hi E) as (b & _ & ->). cbn [fst]. destruct b; [|auto]. apply (second_later _ (first_legit lo hi)).
Qed.

Lemma all_equal_checks a : fixed d v0 -> live nv d (fst (all_equal_body (v0 :: rest) d)) a -> all_same (v0 :: rest) a.
Proof.
  intros Fx Lv. destruct limits as [lo hi] eqn:E. apply (body_back lo hi a E) in Lv. apply first_back in Lv. destruct Lv as [Wa B].
  pose proof (limits_spec lo hi E v0 (or_introl eq_refl)) as Li. pose proof (known_of d v0 Ld (or_introl eq_refl)) as K.
  rewrite (fixed_lower d v0 a), (fixed_upper d v0 a) in Li by assumption. intros v w Iv Iw. pose proof (B v Iv). pose proof (B w Iw). lia.
Qed.

(** If the first has at most two values, next to each other, then when it has one the
    others do too. *)
Lemma two_values a : upper_bound d v0 <= lower_bound d v0 + 1 -> NoDup (underlying_list (v0 :: rest)) ->
  snd (all_equal_body (v0 :: rest) d) = DisableUntilBacktrack -> live nv d (fst (all_equal_body (v0 :: rest) d)) a -> all_same (v0 :: rest) a.
Proof.
  intros Two ND R Lv. destruct limits as [lo hi] eqn:E. pose proof (body_back lo hi a E Lv) as L1. pose proof (first_back lo hi a L1) as [Wa B].
  pose proof (limits_spec lo hi E v0 (or_introl eq_refl)) as Li. pose proof (known_of d v0 Ld (or_introl eq_refl)) as K.
  destruct (Z.le_gt_cases hi lo) as [Le|Gt]; [intros v w Iv Iw; pose proof (B v Iv); pose proof (B w Iw); lia|].
  assert (Elo : lower_bound d v0 = lo) by lia. assert (Ehi : upper_bound d v0 = hi) by lia. assert (Nx : hi = lo + 1) by lia. clear Two Li.
  assert (U : forall w, In w rest -> unrelated v0 w).
  { intros w Iw n Un Uw. unfold underlying_list in ND. simpl in ND. rewrite Un in ND. simpl in ND. inversion_clear ND as [|? ? N _]. apply N. apply in_flat_map. exists w. split; [assumption|]. rewrite Uw. now left. }
  assert (S1 : forall x, view_member (t_domains (first_pass lo hi)) v0 x <-> view_member d v0 x).
  { assert (T0 : tighten lo hi v0 (track d) = track d). { unfold tighten. cbn [t_domains track]. rewrite Elo, Z.ltb_irrefl. cbn [t_domains track]. now rewrite Ehi, Z.ltb_irrefl. }
    intro x. unfold first_pass, for_each. cbn [fold_left]. rewrite T0. fold (for_each rest (tighten lo hi) (track d)).
    assert (Gen : forall t, legit nv d t /\ (view_member (t_domains t) v0 x <-> view_member d v0 x) -> (legit nv d (for_each rest (tighten lo hi) t) /\ (view_member (t_domains (for_each rest (tighten lo hi) t)) v0 x <-> view_member d v0 x))).
    { apply (for_each_ind (fun t => legit nv d t /\ (view_member (t_domains t) v0 x <-> view_member d v0 x))). intros w t Iw [G M]. pose proof (below_of w (or_intror Iw)) as Bw.
      split; [now apply tighten_later|]. unfold tighten. set (t' := if lower_bound (t_domains t) w <? lo then tell_ge w lo t else t).
      assert (M' : legit nv d t' /\ (view_member (t_domains t') v0 x <-> view_member d v0 x)).
      { unfold t'. destruct (_ <? _); [|auto]. split; [apply legit_tell; auto|]. unfold tell_ge, cond_ge. rewrite (tell_elsewhere nv d Hd Ld); auto. }
      clearbody t'. destruct (_ <? _); [|apply M']. unfold tell_lt, cond_lt. rewrite (tell_elsewhere nv d Hd Ld); try apply M'; auto. }
    apply Gen. split; [apply legit_track|reflexivity]. }
  pose proof (live_ok nv d Hd Ld _ a L1) as Ok1. pose proof (live_length nv d Hd Ld _ a L1) as Ln1.
  destruct (lower_bound_spec d v0 Hd K) as [Mlo _]. destruct (upper_bound_spec d v0 Hd K) as [Mhi _]. rewrite Elo in Mlo. rewrite Ehi in Mhi.
  destruct (body_cases lo hi E) as (b & Eb & X). rewrite X in R, Lv. clear X. cbn [fst snd] in R, Lv. destruct b.
  - (* inside two neighbouring values there is no hole *)
    exfalso. symmetry in Eb. apply existsb_exists in Eb. destruct Eb as (w & Iw & Hw). pose proof (known_of _ w Ln1 Iw) as Kw. apply domain_has_holes_spec in Hw; auto.
    destruct Hw as (p & q & r & (Hp & Hr) & Mp & _ & Mr).
    assert (Bd : forall x, view_member (t_domains (first_pass lo hi)) w x -> lo <= x <= hi).
    { intros x Mx. apply view_member_iff in Mx; auto. destruct Mx as (c & Wc & <-). apply (first_back lo hi c); [|assumption]. destruct L1 as (G1 & F1 & _). split; [assumption|split; assumption]. }
    pose proof (Bd p Mp). pose proof (Bd r Mr). lia.
  - exfalso. destruct (has_single_value (t_domains (first_pass lo hi)) v0) eqn:Hs; [|discriminate]. apply has_single_value_spec in Hs; auto; [|apply known_of; simpl; auto].
    destruct (lower_bound_spec (t_domains (first_pass lo hi)) v0 Ok1 (known_of _ v0 Ln1 (or_introl eq_refl))) as [_ Le]. destruct (upper_bound_spec (t_domains (first_pass lo hi)) v0 Ok1 (known_of _ v0 Ln1 (or_introl eq_refl))) as [_ Ge].
    pose proof (Le lo (proj2 (S1 lo) Mlo)). pose proof (Ge hi (proj2 (S1 hi) Mhi)). lia.
Qed.

(** When nothing new is inferred, every value of one is a value of all. *)
Lemma all_equal_back a : (forall b, within b d -> live nv d (fst (all_equal_body (v0 :: rest) d)) b) -> within a d ->
  forall v w, In v (v0 :: rest) -> In w (v0 :: rest) -> view_member d w (var_value a v).
Proof.
  intros Q Wa. destruct limits as [lo hi] eqn:E. pose proof (first_legit lo hi) as G1.
  assert (Q1 : forall b, within b d -> live nv d (first_pass lo hi) b) by (intros b Wb; apply (body_back lo hi b E), Q, Wb).
  pose proof (live_ok nv d Hd Ld _ a (Q1 a Wa)) as Ok1. pose proof (live_length nv d Hd Ld _ a (Q1 a Wa)) as Ln1.
  assert (F1 : t_failed (first_pass lo hi) = false) by apply (Q1 a Wa).
  assert (Down : forall w x, In w (v0 :: rest) -> view_member (t_domains (first_pass lo hi)) w x -> view_member d w x).
  { intros w x Iw M. apply view_member_iff in M; auto; [|now apply known_of]. destruct M as (b & Wb & <-). apply view_member_iff; auto; [now apply known_of|].
    exists b. split; [|reflexivity]. apply (live_within nv d Hd Ld (first_pass lo hi)). split; [assumption|split; assumption]. }
  assert (Up : forall w x, In w (v0 :: rest) -> view_member d w x -> view_member (t_domains (first_pass lo hi)) w x).
  { intros w x Iw M. apply view_member_iff in M; auto; [|now apply known_of]. destruct M as (b & Wb & <-). apply view_member_iff; auto; [now apply known_of|]. exists b. split; [|reflexivity]. apply (Q1 b Wb). }
  intros v w Iv Iw. apply Down; auto. pose proof (Q a Wa) as Lv. destruct (body_cases lo hi E) as (b & Eb & X). rewrite X in Lv. cbn [fst] in Lv. clear X. destruct b.
  - now apply (second_back (first_pass lo hi) a G1 Lv).
  - symmetry in Eb. assert (Nh : domain_has_holes (t_domains (first_pass lo hi)) w = false).
    { destruct (domain_has_holes (t_domains (first_pass lo hi)) w) eqn:Hw; [|reflexivity]. rewrite <- Eb. symmetry. apply existsb_exists. eauto. }
    pose proof (known_of _ w Ln1 Iw) as K1. pose proof (known_of d w Ld Iw) as Kd. apply no_holes; auto.
    pose proof (proj2 (first_back lo hi a (Q1 a Wa)) v Iv) as Bv. pose proof (limits_spec lo hi E w Iw) as Li.
    destruct (lower_bound_spec d w Hd Kd) as [Lm _]. destruct (upper_bound_spec d w Hd Kd) as [Um _].
    destruct (lower_bound_spec _ w Ok1 K1) as [_ Le]. destruct (upper_bound_spec _ w Ok1 K1) as [_ Ge].
    pose proof (Le _ (Up w _ Iw Lm)). pose proof (Ge _ (Up w _ Iw Um)). lia.
Qed.
End At.

(** The contract holds when the first has at most two values, next to each other. *)
Lemma all_equal_ok d0 alias : upper_bound d0 v0 <= lower_bound d0 v0 + 1 -> domains_ok d0 -> var_known d0 v0 -> NoDup (underlying_list (v0 :: rest)) ->
  body_ok nv d0 alias (all_equal_body (v0 :: rest)) (v0 :: rest) (all_same (v0 :: rest)).
Proof.
  intros Two H0 K0 ND. apply body_ok_intro.
  - intros d Hd Ld _. now apply all_equal_honest.
  - intros d a Hd Ld _ F Lv. apply (all_equal_checks d Hd Ld a); [|assumption]. now inversion_clear F.
  - intros d a Hd Ld _ _ R. destruct (limits d) as [lo hi] eqn:E. destruct (body_cases d lo hi E) as (b & _ & X). rewrite X in R. cbn [snd] in R. destruct (has_single_value _ _); discriminate.
  - intros d a Hd Ld In0 R Lv. apply (two_values d Hd Ld a); auto. pose proof (known_of d v0 Ld (or_introl eq_refl)) as K.
    destruct (lower_bound_spec d v0 Hd K) as [Lm _]. destruct (upper_bound_spec d v0 Hd K) as [Um _].
    apply view_member_iff in Lm, Um; auto. destruct Lm as (b & Wb & Eb). destruct Um as (c & Wc & Ec).
    pose proof (value_bounds d0 v0 b H0 K0 (In0 b Wb)). pose proof (value_bounds d0 v0 c H0 K0 (In0 c Wc)). lia.
Qed.
End Body.

Lemma all_same_trivial vars a : (length vars <= 1)%nat -> all_same vars a.
Proof. intros L v w Iv Iw. destruct vars as [|x [|y r]]; simpl in L; [destruct Iv| |lia]. destruct Iv as [<-|[]], Iw as [<-|[]]. reflexivity. Qed.

Lemma all_equal_correct d0 vars : domains_ok d0 -> Forall (var_known d0) vars -> NoDup (underlying_list vars) ->
  (forall v, hd_error vars = Some v -> upper_bound d0 v <= lower_bound d0 v + 1) ->
  correct_on d0 (all_equal vars) vars (all_same vars).
Proof.
  intros H0 K ND Two. destruct (Nat.leb_spec (length vars) 1) as [Le|Gt].
  - apply trivial_correct; auto; [|intro a; now apply all_same_trivial]. unfold all_equal. now rewrite (proj2 (Nat.leb_le _ _) Le).
  - destruct vars as [|v0 rest]; [simpl in Gt; lia|].
    apply (one_propagator_correct d0 _ (all_equal_body (v0 :: rest)) (v0 :: rest) [] [] [] _ (all_same (v0 :: rest))).
    + unfold all_equal. now rewrite (proj2 (Nat.leb_gt _ _) Gt).
    + tauto.
    + assumption.
    + rewrite !app_nil_r. apply incl_refl.
    + intros nv Ln. apply all_equal_ok; auto; [|now inversion_clear K]. eapply Forall_impl; [|exact K]. intros v Kn. now apply (known_below_more d0).
    + intros nv g d Ln [].
Qed.

(** Whatever the domains and however the handles overlap, no solution is lost. *)
Lemma all_equal_sound d0 vars : Forall (var_known d0) vars ->
  forall p, In p (fst (all_equal vars d0)) -> sound_for (length d0) (fun _ _ => True) (all_same vars) p.
Proof.
  intros K p Ip i a (Hd & L & _) Wa S. unfold all_equal in Ip. destruct (Nat.leb (length vars) 1); [destruct Ip|]. destruct Ip as [<-|[]].
  cbn [body_propagator p_run]. rewrite (proj1 (body_run_out (all_equal_body vars) i)). apply Forall_rev. destruct vars as [|v0 rest]; [constructor|].
  apply (all_equal_honest (length d0) v0 rest); auto. eapply Forall_impl; [|exact K]. intros v Kn. now apply known_below.
Qed.

(** AllEqual is domain consistent when it infers nothing. *)
Lemma all_equal_consistent d0 D vars : Forall (var_known d0) vars -> NoDup (underlying_list vars) ->
  domains_ok D -> length D = length d0 -> (forall p, In p (fst (all_equal vars d0)) -> rerun_is_quiet p D) ->
  domain_consistent D vars (all_same vars).
Proof.
  intros K ND HD LD Q v x Iv (a & Wa & Ea). destruct (Nat.leb_spec (length vars) 1) as [Le|Gt].
  - exists a. split; [assumption|]. split; [assumption|]. now apply all_same_trivial.
  - assert (Bs : Forall (var_below (length D)) vars) by (rewrite LD; eapply Forall_impl; [|exact K]; intros w Kw; now apply known_below).
    unfold all_equal in Q. rewrite (proj2 (Nat.leb_gt _ _) Gt) in Q. destruct vars as [|v0 rest]; [destruct Iv|].
    assert (L : forall b, within b D -> live (length D) D (fst (all_equal_body (v0 :: rest) D)) b).
    { intros b Wb. eapply quiet_live; auto; [apply (all_equal_honest (length D) v0 rest Bs D HD eq_refl)|]. apply Q. left. reflexivity. }
    destruct (choose_list D (v0 :: rest) (map (fun _ => x) (v0 :: rest))) as (b & Wb & Eb); auto.
    + eapply Forall_impl; [|exact Bs]. intros w Bw. now apply (var_below_known (length D)).
    + assert (M : forall w, In w (v0 :: rest) -> view_member D w x) by (intros w Iw; rewrite <- Ea; now apply (all_equal_back (length D) v0 rest Bs D HD eq_refl a L Wa)).
      clear - M. revert M. generalize (v0 :: rest). intros l M. induction l as [|w l IH]; simpl; constructor; [apply M; now left|]. apply IH. intros u Iu. apply M. now right.
    + assert (V : forall w, In w (v0 :: rest) -> var_value b w = x).
      { clear - Eb. revert Eb. generalize (v0 :: rest). induction l as [|u l IH]; intros E w Iw; [destruct Iw|]. simpl in E. injection E as E1 E2. destruct Iw as [<-|Iw]; auto. }
      exists b. split; [assumption|]. split; [now apply V|]. intros u w Iu Iw. rewrite (V u Iu), (V w Iw). reflexivity.
Qed.
