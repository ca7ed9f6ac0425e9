(** Lemmas about Increasing and its variants. *)
From Coq Require Import ZArith List Bool Arith Lia.
From Verif Require Import IntervalSet IntervalSetSpec IntervalSetProofs Vars VarsSpec VarsProofs State StateSpec StateProofs Epochs
  Engine EngineSpec EngineProofs SessionSpec SessionInvProofs Tracker ContractSpec ContractProofs RunProofs ConsistencySpec QuietProofs ChoiceProofs
  GacAllDifferentProofs EqualsConsistencyProofs Increasing GlobalsSpec.
Import ListNotations.
Local Open Scope Z_scope.

(** Neighbours are in order. *)
Fixpoint chain (step : Z) (xs : list Z) : Prop :=
  match xs with
  | x :: (y :: _) as r => x + step <= y /\ chain step r
  | _ => True
  end.

Lemma chain_cons step x y r : chain step (x :: y :: r) <-> x + step <= y /\ chain step (y :: r).
Proof. reflexivity. Qed.

Lemma chain_tail step x r : chain step (x :: r) -> chain step r.
Proof. destruct r; simpl; tauto. Qed.

Lemma chain_app step l x r : chain step (l ++ [x]) -> chain step (x :: r) -> chain step (l ++ x :: r).
Proof.
  induction l as [|y l IH]; intros A B; [assumption|]. destruct l as [|z l]; simpl app in *.
  - apply chain_cons. split; [apply A|exact B].
  - apply chain_cons in A. apply chain_cons. split; [apply A|]. apply IH; [apply A|exact B].
Qed.

Lemma chain_front step l r : chain step (l ++ r) -> chain step l.
Proof.
  induction l as [|x l IH]; [reflexivity|]. destruct l as [|y l]; intro H; [exact Logic.I|]. simpl app in *. apply chain_cons in H. apply chain_cons. split; [apply H|apply IH; apply H].
Qed.

Lemma chain_back step l r : chain step (l ++ r) -> chain step r.
Proof. induction l as [|x l IH]; intro H; [assumption|]. apply IH. simpl in H. now apply chain_tail in H. Qed.

(** In terms of any two. *)
Lemma chain_pairs step xs : 0 <= step -> (chain step xs <-> forall i j x y, (i < j)%nat -> nth_error xs i = Some x -> nth_error xs j = Some y -> x + step <= y).
Proof.
  intro Sp. split.
  - induction xs as [|x r IH]; intros C i j p q L P Q; [destruct i; discriminate|].
    destruct j as [|j]; [lia|]. simpl in Q. specialize (IH (chain_tail _ _ _ C)). destruct i as [|i].
    + injection P as <-. destruct r as [|y r]; [destruct j; discriminate|]. apply chain_cons in C. destruct C as [C _]. destruct j as [|j]; [injection Q as <-; exact C|].
      assert (y + step <= q) by (apply (IH 0%nat (S j)); auto; lia). lia.
    + apply (IH i j); auto. lia.
  - induction xs as [|x r IH]; intro H; [exact Logic.I|]. destruct r as [|y r]; [exact Logic.I|]. apply chain_cons. split.
    + apply (H 0%nat 1%nat); auto.
    + apply IH. intros i j p q L P Q. apply (H (S i) (S j)); auto. lia.
Qed.

Lemma nth_error_rev {X} (l : list X) i : (i < length l)%nat -> nth_error (rev l) i = nth_error l (length l - S i).
Proof.
  intro L. destruct (nth_error l (length l - S i)) as [x|] eqn:E; [|apply nth_error_None in E; lia].
  rewrite (nth_error_nth' _ x) by (now rewrite rev_length). rewrite rev_nth by assumption. f_equal. now apply nth_error_nth.
Qed.

Lemma chain_rev step xs : 0 <= step -> (chain step (rev xs) <-> forall i j x y, (i < j)%nat -> nth_error xs i = Some x -> nth_error xs j = Some y -> y + step <= x).
Proof.
  intro Sp. rewrite chain_pairs by assumption. split; intros H i j x y L P Q.
  - assert (Li : (i < length xs)%nat) by (apply nth_error_Some; congruence). assert (Lj : (j < length xs)%nat) by (apply nth_error_Some; congruence).
    apply (H (length xs - S j)%nat (length xs - S i)%nat); [lia| |]; rewrite nth_error_rev by lia; rewrite <- ?P, <- ?Q; f_equal; lia.
  - assert (Li : (i < length (rev xs))%nat) by (apply nth_error_Some; congruence). assert (Lj : (j < length (rev xs))%nat) by (apply nth_error_Some; congruence).
    rewrite rev_length in *. rewrite nth_error_rev in P, Q by lia. apply (H (length xs - S j)%nat (length xs - S i)%nat); auto. lia.
Qed.

Section Body.
Variable nv : nat.
Variable step : Z.
Variable vars : list var_id.
Hypothesis Bs : Forall (var_below nv) vars.

Definition chained (vs : list var_id) (a : assignment) : Prop := chain step (map (var_value a) vs).

Section At.
Variable d : domains.
Hypothesis Hd : domains_ok d.
Hypothesis Ld : length d = nv.

Lemma raise_honest sat vs : forall v prev t, Forall (var_below nv) vs -> honest nv d sat t -> (forall a, within a d -> sat a -> prev <= var_value a v) ->
  (forall a, sat a -> chained (v :: vs) a) -> honest nv d sat (raise_bounds step prev vs t).
Proof.
  induction vs as [|w r IH]; intros v prev t B H P C; simpl; [assumption|]. inversion_clear B as [|? ? Bw Br].
  assert (Pw : forall a, within a d -> sat a -> prev + step <= var_value a w).
  { intros a Wa Sa. specialize (P a Wa Sa). destruct (proj1 (chain_cons _ _ _ _) (C a Sa)). lia. }
  assert (Cw : forall a, sat a -> chained (w :: r) a) by (intros a Sa; exact (chain_tail _ _ _ (C a Sa))).
  destruct (Z.ltb_spec (lower_bound (t_domains t) w) (prev + step)) as [Lt|Ge].
  - apply (IH w); auto. apply honest_tell; auto. intros _ _ _ a Wa _ Sa. specialize (Pw a Wa Sa). unfold lit_holds, cond_holds; cbn. lia.
  - apply (IH w); auto. intros a Wa Sa. destruct (honest_within nv d Hd Ld sat t a H Wa Sa) as [F W]. pose proof H as [G _].
    apply value_bounds; auto; [now apply (legit_ok nv d)|]. apply (var_below_known nv); auto. now apply (legit_length nv d).
Qed.

Lemma drop_honest sat vs : forall v prev t, Forall (var_below nv) vs -> honest nv d sat t -> (forall a, within a d -> sat a -> var_value a v <= prev) ->
  (forall a, sat a -> chained (rev (v :: vs)) a) -> honest nv d sat (drop_bounds step prev vs t).
Proof.
  induction vs as [|w r IH]; intros v prev t B H P C; simpl; [assumption|]. inversion_clear B as [|? ? Bw Br].
  assert (Pw : forall a, within a d -> sat a -> var_value a w <= prev - step).
  { intros a Wa Sa. specialize (P a Wa Sa). specialize (C a Sa). unfold chained in C. simpl rev in C. rewrite !map_app, <- app_assoc in C. apply chain_back in C. simpl in C. lia. }
  assert (Cw : forall a, sat a -> chained (rev (w :: r)) a).
  { intros a Sa. specialize (C a Sa). unfold chained in *. simpl rev in *. rewrite map_app in C. now apply chain_front in C. }
  destruct (Z.ltb_spec (prev - step) (upper_bound (t_domains t) w)) as [Lt|Ge].
  - apply (IH w); auto. apply honest_tell; auto. intros _ _ _ a Wa _ Sa. specialize (Pw a Wa Sa). unfold lit_holds, cond_holds; cbn. lia.
  - apply (IH w); auto. intros a Wa Sa. destruct (honest_within nv d Hd Ld sat t a H Wa Sa) as [F W]. pose proof H as [G _].
    apply value_bounds; auto; [now apply (legit_ok nv d)|]. apply (var_below_known nv); auto. now apply (legit_length nv d).
Qed.

Lemma raise_later vs : forall prev t, Forall (var_below nv) vs -> later nv d t (raise_bounds step prev vs t).
Proof.
  induction vs as [|w r IH]; intros prev t B; simpl; [apply later_refl|]. inversion_clear B as [|? ? Bw Br].
  destruct (_ <? _); [|now apply IH]. eapply later_trans; [|now apply IH]. apply later_tell; auto.
Qed.

Lemma drop_later vs : forall prev t, Forall (var_below nv) vs -> later nv d t (drop_bounds step prev vs t).
Proof.
  induction vs as [|w r IH]; intros prev t B; simpl; [apply later_refl|]. inversion_clear B as [|? ? Bw Br].
  destruct (_ <? _); [|now apply IH]. eapply later_trans; [|now apply IH]. apply later_tell; auto.
Qed.

Lemma raise_checks vs a : forall v t, Forall (var_below nv) vs -> Forall (fixed d) vs -> legit nv d t -> live nv d (raise_bounds step (var_value a v) vs t) a -> chained (v :: vs) a.
Proof.
  induction vs as [|w r IH]; intros v t B Fx G Lv; [exact Logic.I|]. inversion_clear B as [|? ? Bw Br]. inversion_clear Fx as [|? ? Fw Fr]. cbn [raise_bounds] in Lv.
  apply chain_cons. destruct (Z.ltb_spec (lower_bound (t_domains t) w) (var_value a v + step)) as [Lt|Ge].
  - exfalso. destruct (raise_later r (var_value a v + step) (tell_ge w (var_value a v + step) t) Br (legit_tell nv d (LCond (cond_ge w (var_value a v + step))) t Bw G)) as [_ Bk]. apply Bk in Lv.
    apply (tell_back nv d Hd Ld) in Lv; auto. destruct Lv as [Lv E]. unfold lit_holds, cond_holds in E; cbn in E.
    rewrite (fixed_lower (t_domains t) w a) in Lt; [lia|now apply (live_ok nv d Hd Ld t a)|apply (var_below_known nv); auto; now apply (live_length nv d Hd Ld t a)|apply Lv|now apply (live_fixed nv d Hd Ld t a)].
  - pose proof (raise_later r (lower_bound (t_domains t) w) t Br G) as [_ Bk]. pose proof (Bk a Lv) as Lt.
    assert (E : lower_bound (t_domains t) w = var_value a w).
    { apply fixed_lower; [now apply (live_ok nv d Hd Ld t a)|apply (var_below_known nv); auto; now apply (live_length nv d Hd Ld t a)|apply Lt|now apply (live_fixed nv d Hd Ld t a)]. }
    rewrite E in *. split; [assumption|]. now apply (IH w t).
Qed.

(** The two sweeps, for a chain that is not empty. *)
Lemma body_unfold v r : vars = v :: r -> exists w s, rev vars = w :: s /\ let t1 := raise_bounds step (lower_bound d v) r (track d) in
  let t2 := drop_bounds step (upper_bound (t_domains t1) w) s t1 in
  increasing_body step vars d = (t2, if separated (t_domains t2) step vars then DisableUntilBacktrack else Enable).
Proof.
  intros E. destruct (rev vars) as [|w s] eqn:R; [apply (f_equal (@rev _)) in R; rewrite rev_involutive in R; simpl in R; congruence|].
  exists w, s. split; [reflexivity|]. unfold increasing_body. rewrite R. rewrite E. reflexivity.
Qed.

Lemma below_in v : In v vars -> var_below nv v.
Proof. rewrite Forall_forall in Bs. auto. Qed.

Lemma increasing_honest : honest nv d (chained vars) (fst (increasing_body step vars d)).
Proof.
  destruct vars as [|v r] eqn:Ev; [apply honest_track|]. destruct (body_unfold v r) as (w & s & R & E); [assumption|]. rewrite Ev in *. cbv zeta in E. rewrite E. cbn [fst].
  inversion_clear Bs as [|? ? Bv Br]. assert (Kv : var_known d v) by now apply (var_below_known nv).
  assert (H1 : honest nv d (chained (v :: r)) (raise_bounds step (lower_bound d v) r (track d))).
  { apply (raise_honest _ _ v); auto using honest_track. intros a Wa _. now apply value_bounds. }
  assert (Bw : Forall (var_below nv) (w :: s)). { rewrite <- R. apply Forall_rev. constructor; auto. }
  inversion_clear Bw as [|? ? Bw' Bs']. apply (drop_honest _ _ w); auto.
  - intros a Wa Sa. destruct (honest_within nv d Hd Ld _ _ a H1 Wa Sa) as [F W]. pose proof H1 as [G _].
    apply value_bounds; auto; [now apply (legit_ok nv d)|]. apply (var_below_known nv); auto. now apply (legit_length nv d).
  - intros a Sa. rewrite <- R, rev_involutive. exact Sa.
Qed.

Lemma increasing_checks a : Forall (fixed d) vars -> live nv d (fst (increasing_body step vars d)) a -> chained vars a.
Proof.
  intro Fx. destruct vars as [|v r] eqn:Ev; [intros; exact Logic.I|]. destruct (body_unfold v r) as (w & s & R & E); [assumption|]. rewrite Ev in *. cbv zeta in E. rewrite E. cbn [fst].
  inversion_clear Bs as [|? ? Bv Br]. inversion_clear Fx as [|? ? Fv Fr]. assert (Kv : var_known d v) by now apply (var_below_known nv). intro Lv.
  assert (Bw : Forall (var_below nv) (w :: s)). { rewrite <- R. apply Forall_rev. constructor; auto. } inversion_clear Bw as [|? ? Bw' Bs'].
  destruct (raise_later r (lower_bound d v) (track d) Br (legit_track nv d)) as [G1 _].
  destruct (drop_later s (upper_bound (t_domains (raise_bounds step (lower_bound d v) r (track d))) w) _ Bs' G1) as [_ Bk]. apply Bk in Lv. clear Bk.
  pose proof (live_within nv d Hd Ld _ a Lv) as Wa. rewrite (fixed_lower d v a) in Lv by assumption. apply (raise_checks r a v (track d)); auto using legit_track.
Qed.

End At.

Lemma separated_chained d vs a : domains_ok d -> length d = nv -> Forall (var_below nv) vs -> within a d -> separated d step vs = true -> chained vs a.
Proof.
  intros Hd Ld B Wa. induction vs as [|v r IH]; intro S; [exact Logic.I|]. inversion_clear B as [|? ? Bv Br]. destruct r as [|w r]; [exact Logic.I|]. cbn [separated] in S.
  destruct (Z.ltb_spec (lower_bound d w) (upper_bound d v + step)) as [Lt|Ge]; [discriminate|]. apply chain_cons. split; [|now apply IH].
  inversion_clear Br as [|? ? Bw _]. pose proof (value_bounds d v a Hd (var_below_known nv d v Ld Bv) Wa). pose proof (value_bounds d w a Hd (var_below_known nv d w Ld Bw) Wa). lia.
Qed.

Lemma increasing_legit d : domains_ok d -> length d = nv -> legit nv d (fst (increasing_body step vars d)).
Proof. intros Hd L. now apply increasing_honest. Qed.

Lemma increasing_ok d0 alias : body_ok nv d0 alias (increasing_body step vars) vars (chained vars).
Proof.
  apply body_ok_intro.
  - intros. now apply increasing_honest.
  - intros d a Hd L _ F Lv. now apply (increasing_checks d Hd L).
  - intros d a Hd L _ _ R. exfalso. unfold increasing_body in R. cbn [snd] in R. destruct (separated _ _ _) in R; discriminate R.
  - intros d a Hd L _ R Lv. pose proof (live_ok nv d Hd L _ a Lv) as Ok. pose proof (live_length nv d Hd L _ a Lv) as L'.
    apply (separated_chained (t_domains (fst (increasing_body step vars d)))); auto; [apply Lv|]. unfold increasing_body in R |- *. cbn [snd fst] in *. destruct (separated _ _ _) in R |- *; [reflexivity|discriminate R].
Qed.

(** A run that infers nothing finds the bounds in order. *)
Section Quiet.
Variable D : domains.
Hypothesis HD : domains_ok D.
Hypothesis LD : length D = nv.

Definition untouched (t : tracker) : Prop := forall a, within a D -> live nv D t a.

Lemma untouched_lower t v : var_below nv v -> untouched t -> lower_bound (t_domains t) v = lower_bound D v.
Proof.
  intros B U. destruct (within_exists D HD) as [a0 W0]. pose proof (live_ok nv D HD LD t a0 (U a0 W0)) as Ok. pose proof (live_length nv D HD LD t a0 (U a0 W0)) as L.
  pose proof (var_below_known nv D v LD B) as K. pose proof (var_below_known nv _ v L B) as Kt.
  destruct (lower_bound_spec D v HD K) as [M1 N1]. destruct (lower_bound_spec _ v Ok Kt) as [M2 N2]. apply Z.le_antisymm.
  - apply N2. apply view_member_iff in M1; auto. destruct M1 as (a & Wa & E). apply view_member_iff; auto. exists a. split; [apply (U a Wa)|assumption].
  - apply N1. apply (member_before nv D HD LD t); auto; apply (U a0 W0).
Qed.

Lemma untouched_upper t v : var_below nv v -> untouched t -> upper_bound (t_domains t) v = upper_bound D v.
Proof.
  intros B U. destruct (within_exists D HD) as [a0 W0]. pose proof (live_ok nv D HD LD t a0 (U a0 W0)) as Ok. pose proof (live_length nv D HD LD t a0 (U a0 W0)) as L.
  pose proof (var_below_known nv D v LD B) as K. pose proof (var_below_known nv _ v L B) as Kt.
  destruct (upper_bound_spec D v HD K) as [M1 N1]. destruct (upper_bound_spec _ v Ok Kt) as [M2 N2]. apply Z.le_antisymm.
  - apply N1. apply (member_before nv D HD LD t); auto; apply (U a0 W0).
  - apply N2. apply view_member_iff in M1; auto. destruct M1 as (a & Wa & E). apply view_member_iff; auto. exists a. split; [apply (U a Wa)|assumption].
Qed.

Lemma raise_quiet vs : forall v t, Forall (var_below nv) (v :: vs) -> legit nv D t -> untouched (raise_bounds step (lower_bound D v) vs t) ->
  untouched t /\ chain step (map (lower_bound D) (v :: vs)).
Proof.
  induction vs as [|w r IH]; intros v t B G U; [split; [assumption|exact Logic.I]|]. inversion_clear B as [|? ? Bv Br]. inversion_clear Br as [|? ? Bw Br']. cbn [raise_bounds] in U.
  assert (Ut : untouched t).
  { intros a Wa. specialize (U a Wa). destruct (_ <? _).
    - destruct (raise_later D HD LD r (lower_bound D v + step) (tell_ge w (lower_bound D v + step) t) Br' (legit_tell nv D (LCond (cond_ge w (lower_bound D v + step))) t Bw G)) as [_ Bk]. apply Bk in U.
      apply (tell_back nv D HD LD) in U; auto. tauto.
    - destruct (raise_later D HD LD r (lower_bound (t_domains t) w) t Br' G) as [_ Bk]. auto. }
  split; [assumption|]. rewrite (untouched_lower t w Bw Ut) in U. cbn [map]. apply chain_cons.
  destruct (Z.ltb_spec (lower_bound D w) (lower_bound D v + step)) as [Lt|Ge].
  - exfalso. destruct (lower_bound_spec D w HD (var_below_known nv D w LD Bw)) as [M _]. apply view_member_iff in M; auto; [|now apply (var_below_known nv)].
    destruct M as (a & Wa & E). specialize (U a Wa).
    destruct (raise_later D HD LD r (lower_bound D v + step) (tell_ge w (lower_bound D v + step) t) Br' (legit_tell nv D (LCond (cond_ge w (lower_bound D v + step))) t Bw G)) as [_ Bk]. apply Bk in U.
    apply (tell_back nv D HD LD) in U; auto. destruct U as [_ X]. unfold lit_holds, cond_holds in X; cbn in X. lia.
  - split; [assumption|]. apply (IH w t); auto.
Qed.

Lemma drop_quiet vs : forall v t, Forall (var_below nv) (v :: vs) -> legit nv D t -> untouched (drop_bounds step (upper_bound D v) vs t) ->
  untouched t /\ chain step (map (upper_bound D) (rev (v :: vs))).
Proof.
  induction vs as [|w r IH]; intros v t B G U; [split; [assumption|exact Logic.I]|]. inversion_clear B as [|? ? Bv Br]. inversion_clear Br as [|? ? Bw Br']. cbn [drop_bounds] in U.
  assert (Ut : untouched t).
  { intros a Wa. specialize (U a Wa). destruct (_ <? _).
    - destruct (drop_later D HD LD r (upper_bound D v - step) (tell_lt w (upper_bound D v - step + 1) t) Br' (legit_tell nv D (LCond (cond_lt w (upper_bound D v - step + 1))) t Bw G)) as [_ Bk]. apply Bk in U.
      apply (tell_back nv D HD LD) in U; auto. tauto.
    - destruct (drop_later D HD LD r (upper_bound (t_domains t) w) t Br' G) as [_ Bk]. auto. }
  split; [assumption|]. rewrite (untouched_upper t w Bw Ut) in U.
  destruct (Z.ltb_spec (upper_bound D v - step) (upper_bound D w)) as [Lt|Ge].
  - exfalso. destruct (upper_bound_spec D w HD (var_below_known nv D w LD Bw)) as [M _]. apply view_member_iff in M; auto; [|now apply (var_below_known nv)].
    destruct M as (a & Wa & E). specialize (U a Wa).
    destruct (drop_later D HD LD r (upper_bound D v - step) (tell_lt w (upper_bound D v - step + 1) t) Br' (legit_tell nv D (LCond (cond_lt w (upper_bound D v - step + 1))) t Bw G)) as [_ Bk]. apply Bk in U.
    apply (tell_back nv D HD LD) in U; auto. destruct U as [_ X]. unfold lit_holds, cond_holds in X; cbn in X. lia.
  - destruct (IH w t) as [_ C]; auto. simpl rev in *. rewrite !map_app in *. rewrite <- app_assoc. cbn [map app] in *. apply chain_app; [assumption|]. split; [lia|exact Logic.I].
Qed.

Lemma increasing_quiet : untouched (fst (increasing_body step vars D)) -> chain step (map (lower_bound D) vars) /\ chain step (map (upper_bound D) vars).
Proof.
  destruct vars as [|v r] eqn:Ev; [intros; split; exact Logic.I|]. destruct (body_unfold D v r) as (w & s & R & E); [assumption|]. rewrite Ev in *. cbv zeta in E. rewrite E. cbn [fst]. intro U.
  assert (Bw : Forall (var_below nv) (w :: s)) by (rewrite <- R; now apply Forall_rev). inversion_clear Bs as [|? ? Bv Br].
  assert (G1 : legit nv D (raise_bounds step (lower_bound D v) r (track D))).
  { destruct (raise_later D HD LD r (lower_bound D v) (track D) Br (legit_track nv D)) as [G1 _]. exact G1. }
  assert (U1 : untouched (raise_bounds step (lower_bound D v) r (track D))).
  { intros a Wa. inversion_clear Bw as [|? ? Bw' Bs']. specialize (U a Wa). destruct (drop_later D HD LD s (upper_bound (t_domains (raise_bounds step (lower_bound D v) r (track D))) w) _ Bs' G1) as [_ Bk]. auto. }
  rewrite (untouched_upper _ w) in U; auto; [|now inversion_clear Bw].
  destruct (drop_quiet s w _ Bw G1 U) as [_ C2]. destruct (raise_quiet r v (track D)) as [_ C1]; auto using legit_track. rewrite <- R, rev_involutive in C2. auto.
Qed.
End Quiet.
End Body.

(** ** The constraints *)

Definition direction (descending : bool) (vars : list var_id) : list var_id := if descending then rev vars else vars.

Lemma chained_order strict descending vars a :
  in_order (order_of strict descending) vars a <-> chained (if strict then 1 else 0) (direction descending vars) a.
Proof.
  unfold chained, direction. assert (S : 0 <= (if strict then 1 else 0)) by (destruct strict; lia). unfold in_order. destruct descending; [rewrite map_rev, chain_rev by assumption|rewrite chain_pairs by assumption].
  - split; intro H.
    + intros i j x y L P Q. rewrite nth_error_map in P, Q. destruct (nth_error vars i) as [v|] eqn:Ei; [|discriminate]. destruct (nth_error vars j) as [w|] eqn:Ej; [|discriminate].
      injection P as <-. injection Q as <-. specialize (H i j v w L Ei Ej). unfold order_of in H. destruct strict; lia.
    + intros i j v w L Ei Ej. specialize (H i j (var_value a v) (var_value a w) L). rewrite !nth_error_map, Ei, Ej in H. specialize (H eq_refl eq_refl). unfold order_of. destruct strict; lia.
  - split; intro H.
    + intros i j x y L P Q. rewrite nth_error_map in P, Q. destruct (nth_error vars i) as [v|] eqn:Ei; [|discriminate]. destruct (nth_error vars j) as [w|] eqn:Ej; [|discriminate].
      injection P as <-. injection Q as <-. specialize (H i j v w L Ei Ej). unfold order_of in H. destruct strict; lia.
    + intros i j v w L Ei Ej. specialize (H i j (var_value a v) (var_value a w) L). rewrite !nth_error_map, Ei, Ej in H. specialize (H eq_refl eq_refl). unfold order_of. destruct strict; lia.
Qed.

Lemma trivial_correct d0 (k : constraint) scope (sat : assignment -> Prop) : k d0 = ([], []) -> Forall (var_known d0) scope -> (forall a, sat a) -> correct_on d0 k scope sat.
Proof.
  intros E K T. apply (correct_intro d0 k scope (fun _ => True)); [intro a; split; auto|]. intros nv Inv Ln St I0. rewrite E. split.
  - eapply Forall_impl; [|exact K]. intros v Kv. now apply (known_below_more d0).
  - exists [], []. split; [constructor|]. split; [constructor|]. auto.
Qed.

Lemma increasing_correct d0 vars strict descending : Forall (var_known d0) vars ->
  correct_on d0 (increasing_chain vars strict descending) vars (in_order (order_of strict descending) vars).
Proof.
  intro K. destruct (Nat.leb_spec (length (direction descending vars)) 1) as [Le|Gt].
  - apply trivial_correct; auto.
    + unfold increasing_chain. fold (direction descending vars). now rewrite (proj2 (Nat.leb_le _ _) Le).
    + intros a i j v w L Ei Ej. assert (j < length vars)%nat by (apply nth_error_Some; congruence). unfold direction in Le. destruct descending; rewrite ?rev_length in Le; lia.
  - apply (one_propagator_correct d0 _ (increasing_body (if strict then 1 else 0) (direction descending vars)) [] (direction descending vars) [] [] _
      (chained (if strict then 1 else 0) (direction descending vars))).
    + unfold increasing_chain. fold (direction descending vars). now rewrite (proj2 (Nat.leb_gt _ _) Gt).
    + intro a. apply chained_order.
    + assumption.
    + rewrite app_nil_r. simpl app. unfold direction. destruct descending; [intros v I; now apply in_rev in I|apply incl_refl].
    + intros nv Ln. assert (B : Forall (var_below nv) (direction descending vars)).
      { unfold direction. assert (Forall (var_below nv) vars) by (eapply Forall_impl; [|exact K]; intros v Kn; now apply (known_below_more d0)). destruct descending; [now apply Forall_rev|assumption]. }
      apply (body_ok_incl nv d0 _ _ (direction descending vars)); [|now apply increasing_ok]. unfold direction. destruct descending; [intros v I; now apply in_rev|apply incl_refl].
    + intros nv g d Ln [].
Qed.

(** ** Consistency *)

Lemma chain_raise_last step l x y : chain step (l ++ [x]) -> x <= y -> chain step (l ++ [y]).
Proof.
  induction l as [|z l IH]; intros C L; [exact Logic.I|]. destruct l as [|z' l]; simpl app in *.
  - apply chain_cons in C. apply chain_cons. destruct C. split; [lia|exact Logic.I].
  - apply chain_cons in C. apply chain_cons. split; [apply C|]. apply IH; [apply C|assumption].
Qed.

Lemma chain_drop_first step x y r : chain step (x :: r) -> y <= x -> chain step (y :: r).
Proof. destruct r as [|z r]; intros C L; [exact Logic.I|]. apply chain_cons in C. apply chain_cons. destruct C as [C1 C2]. split; [lia|exact C2]. Qed.

Lemma increasing_consistent d0 D vars strict descending : Forall (var_known d0) vars -> NoDup (underlying_list vars) ->
  domains_ok D -> length D = length d0 -> (forall p, In p (fst (increasing_chain vars strict descending d0)) -> rerun_is_quiet p D) ->
  domain_consistent D vars (in_order (order_of strict descending) vars).
Proof.
  intros K ND HD LD Q v x Iv (a & Wa & Ea).
  assert (Bs : Forall (var_below (length D)) vars) by (rewrite LD; eapply Forall_impl; [|exact K]; intros w Kw; now apply known_below).
  set (ov := direction descending vars). set (step := if strict then 1 else 0).
  assert (Bo : Forall (var_below (length D)) ov) by (unfold ov, direction; destruct descending; [now apply Forall_rev|assumption]).
  assert (Nd : NoDup (underlying_list ov)).
  { unfold ov, direction. destruct descending; [|assumption]. eapply Permutation.Permutation_NoDup; [|exact ND]. apply underlying_list_perm, Permutation.Permutation_rev. }
  assert (C : chain step (map (lower_bound D) ov) /\ chain step (map (upper_bound D) ov)).
  { unfold increasing_chain in Q. fold (direction descending vars) in Q. fold ov step in Q. destruct (Nat.leb_spec (length ov) 1) as [Le|Gt].
    - destruct ov as [|w [|w' r]]; simpl in Le; [split; exact Logic.I|split; exact Logic.I|lia].
    - apply (increasing_quiet (length D)); auto. intros b Wb. eapply quiet_live; auto; [now apply increasing_legit|]. apply Q. left. reflexivity. }
  destruct C as [C1 C2]. assert (Io : In v ov) by (unfold ov, direction; destruct descending; [now apply in_rev in Iv|assumption]).
  destruct (in_split _ _ Io) as (l & r & E). rewrite E, map_app in C1, C2. cbn [map] in C1, C2.
  assert (Kv : forall w, In w ov -> var_known D w) by (intros w Iw; apply (var_below_known (length D)); auto; rewrite Forall_forall in Bo; auto).
  pose proof (value_bounds D v a HD (Kv v Io) Wa) as Bv.
  destruct (choose_list D ov (map (lower_bound D) l ++ x :: map (upper_bound D) r)) as (b & Wb & Eb); auto.
  - rewrite Forall_forall. exact Kv.
  - rewrite E in Kv |- *. apply Forall2_app; [|constructor].
    + clear - HD Kv. induction l as [|w l IH]; simpl; constructor; [apply lower_bound_spec; auto; apply Kv; now left|]. apply IH. intros u Iu. apply Kv. now right.
    + rewrite <- Ea. apply value_possible; auto. apply Kv. apply in_or_app. simpl. auto.
    + assert (Kr : forall w, In w r -> var_known D w) by (intros w Iw; apply Kv, in_or_app; simpl; auto). clear - HD Kr. induction r as [|w r IH]; simpl; constructor; [apply upper_bound_spec; auto; apply Kr; now left|]. apply IH. intros u Iu. apply Kr. now right.
  - exists b. split; [assumption|]. split.
    + rewrite E, map_app in Eb. cbn [map] in Eb. assert (L : length (map (var_value b) l) = length (map (lower_bound D) l)) by now rewrite !map_length.
      apply (f_equal (fun q => nth (length l) q 0)) in Eb. rewrite !app_nth2 in Eb by (rewrite map_length; lia). rewrite !map_length, Nat.sub_diag in Eb. exact Eb.
    + apply chained_order. fold ov step. unfold chained. rewrite Eb. apply chain_app.
      * apply (chain_raise_last step _ (lower_bound D v)); [|lia]. change (lower_bound D v :: map (lower_bound D) r) with ([lower_bound D v] ++ map (lower_bound D) r) in C1. rewrite app_assoc in C1. now apply chain_front in C1.
      * apply (chain_drop_first step (upper_bound D v)); [|lia]. now apply chain_back in C2.
Qed.
