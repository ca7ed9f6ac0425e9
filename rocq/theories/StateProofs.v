(** Lemmas about domains and inference. *)
From Coq Require Import ZArith List Bool Lia.
From Verif Require Import IntervalSet IntervalSetSpec IntervalSetProofs Vars VarsSpec VarsProofs State StateSpec.
Import ListNotations.
Local Open Scope Z_scope.

(** ** Sets *)

Definition set_ok (s : iset) : Prop := well_formed s /\ exists v, member v s.

Lemma set_lower_least s : set_ok s -> least s (set_lower s).
Proof.
  intros [Hw [v Hv]]. unfold set_lower. destruct (lower s) as [l|] eqn:E.
  - now apply lower_spec.
  - destruct s as [|[? ?] ?]; [apply member_nil in Hv; tauto|discriminate].
Qed.

Lemma set_upper_greatest s : set_ok s -> greatest s (set_upper s).
Proof.
  intros [Hw [v Hv]]. unfold set_upper. destruct (upper s) as [l|] eqn:E.
  - now apply upper_spec.
  - destruct (upper_some_nonempty s) as [u Hu]; [|congruence].
    intros ->. apply member_nil in Hv. tauto.
Qed.

Lemma least_unique s a b : least s a -> least s b -> a = b.
Proof. intros [A B] [C D]. specialize (B _ C). specialize (D _ A). lia. Qed.

Lemma greatest_unique s a b : greatest s a -> greatest s b -> a = b.
Proof. intros [A B] [C D]. specialize (B _ C). specialize (D _ A). lia. Qed.

Lemma bounds_member s v : set_ok s -> member v s -> set_lower s <= v <= set_upper s.
Proof.
  intros H Hv. destruct (set_lower_least s H) as [_ A]. destruct (set_upper_greatest s H) as [_ B].
  split; auto.
Qed.

Lemma is_single_spec s : set_ok s -> (is_single s = true <-> singleton s).
Proof.
  intro H. unfold is_single. rewrite Z.eqb_eq. split.
  - intro E. exists (set_lower s). intro w. split.
    + intro Hw. pose proof (bounds_member s w H Hw). lia.
    + intros ->. apply (set_lower_least s H).
  - intros [v Hv]. pose proof (proj1 (set_lower_least s H)) as A. pose proof (proj1 (set_upper_greatest s H)) as B.
    apply Hv in A. apply Hv in B. congruence.
Qed.

Lemma single_values s : set_ok s -> is_single s = true -> forall w, member w s <-> w = set_lower s.
Proof.
  intros H E w. unfold is_single in E. apply Z.eqb_eq in E. split.
  - intro Hw. pose proof (bounds_member s w H Hw). lia.
  - intros ->. apply (set_lower_least s H).
Qed.

Lemma not_single_two s : set_ok s -> is_single s = false -> set_lower s < set_upper s.
Proof.
  intros H E. unfold is_single in E. apply Z.eqb_neq in E.
  pose proof (bounds_member s _ H (proj1 (set_lower_least s H))). lia.
Qed.

Lemma same_bounds_iff s s' : set_ok s -> set_ok s' ->
  (same_bounds s s' <-> set_lower s = set_lower s' /\ set_upper s = set_upper s').
Proof.
  intros H H'. split.
  - intros [A B]. split.
    + apply (least_unique s'); [apply A|]; now apply set_lower_least.
    + apply (greatest_unique s'); [apply B|]; now apply set_upper_greatest.
  - intros [A B]. split; intro v; split; intro X.
    + rewrite (least_unique s v (set_lower s) X (set_lower_least s H)), A. now apply set_lower_least.
    + rewrite (least_unique s' v (set_lower s') X (set_lower_least s' H')), <- A. now apply set_lower_least.
    + rewrite (greatest_unique s v (set_upper s) X (set_upper_greatest s H)), B. now apply set_upper_greatest.
    + rewrite (greatest_unique s' v (set_upper s') X (set_upper_greatest s' H')), <- B. now apply set_upper_greatest.
Qed.

(** What every change_state_for function guarantees, for the condition [P]. *)
Definition change_spec (s : iset) (P : Z -> Prop) (r : inference * iset) : Prop :=
  well_formed (snd r) /\
  (forall w, member w (snd r) -> member w s) /\
  (fst r = Contradiction <-> forall w, member w s -> ~ P w) /\
  (fst r <> Contradiction -> forall w, member w (snd r) <-> member w s /\ P w) /\
  accurate (fst r) s (snd r).

Lemma neq_of_missing s s' w : member w s -> ~ member w s' -> s' <> s.
Proof. intros A B ->. tauto. Qed.

Lemma change_equal_spec s x : set_ok s -> change_spec s (fun w => w = x) (change_state_for_equal s x).
Proof.
  intro H. pose proof H as [Hw _]. unfold change_state_for_equal.
  destruct (contains x s) eqn:C; simpl.
  - apply contains_spec in C; [|assumption]. destruct (is_single s) eqn:S.
    + pose proof (single_values s H S) as V. unfold change_spec; simpl.
      split; [assumption|]. split; [tauto|]. split.
      { split; [discriminate|]. intro N. exfalso. apply (N x C eq_refl). }
      split; [|reflexivity]. intros _ w. apply V in C. subst x. rewrite V. tauto.
    + pose proof (not_single_two s H S) as L. unfold change_spec; simpl.
      split; [lia|]. assert (M : forall w, member w [(x, x)] <-> w = x).
      { intro w. rewrite member_cons, member_nil. split; [intros [?|[]]; lia|lia]. }
      split; [intros w Hm; apply M in Hm; now subst|]. split.
      { split; [discriminate|]. intro N. exfalso. apply (N x C eq_refl). }
      split; [intros _ w; rewrite M; split; [intros ->; tauto|tauto]|].
      split; [|exists x; assumption].
      destruct (Z.eq_dec x (set_lower s)) as [->|].
      * apply (neq_of_missing s _ (set_upper s)); [apply (set_upper_greatest s H)|]. rewrite M. lia.
      * apply (neq_of_missing s _ (set_lower s)); [apply (set_lower_least s H)|]. rewrite M. lia.
  - assert (N : ~ member x s) by (rewrite <- contains_spec by assumption; congruence).
    unfold change_spec; simpl. split; [assumption|]. split; [tauto|]. split.
    { split; [|reflexivity]. intros _ w Hm ->. tauto. }
    split; [tauto|exact I].
Qed.

Lemma set_ok_of s w : well_formed s -> member w s -> set_ok s.
Proof. intros. split; [assumption|eauto]. Qed.

Lemma change_not_equal_spec s x : set_ok s -> change_spec s (fun w => w <> x) (change_state_for_not_equal s x).
Proof.
  intro H. pose proof H as [Hw _]. unfold change_state_for_not_equal.
  destruct (contains x s) eqn:C; simpl.
  - apply contains_spec in C; [|assumption]. destruct (is_single s) eqn:S.
    + pose proof (single_values s H S) as V. unfold change_spec; simpl.
      split; [assumption|]. split; [tauto|]. split.
      { split; [|reflexivity]. intros _ w Hm N. apply V in C. apply V in Hm. congruence. }
      split; [tauto|exact I].
    + pose proof (not_single_two s H S) as L.
      destruct (erase_spec x s Hw) as [Ew Em].
      assert (Hok' : set_ok (erase x s)).
      { split; [assumption|]. destruct (Z.eq_dec x (set_lower s)) as [->|N].
        - exists (set_upper s). apply Em. split; [apply (set_upper_greatest s H)|lia].
        - exists (set_lower s). apply Em. split; [apply (set_lower_least s H)|lia]. }
      assert (Hne : erase x s <> s) by (apply (neq_of_missing s _ x C); rewrite Em; tauto).
      assert (G : forall i, i <> Contradiction -> accurate i s (erase x s) ->
                change_spec s (fun w => w <> x) (i, erase x s)).
      { intros i Hi Ha. unfold change_spec; simpl. split; [assumption|].
        split; [intros w Hm; apply Em in Hm; tauto|]. split.
        - split; [tauto|]. intro N. exfalso. destruct Hok' as [_ [w Hm]]. apply Em in Hm. apply (N w); tauto.
        - split; [intros _ w; apply Em|assumption]. }
      destruct (is_single (erase x s)) eqn:S'.
      * apply G; [discriminate|]. simpl. split; [assumption|]. now apply is_single_spec.
      * assert (Hns : ~ singleton (erase x s)) by (rewrite <- is_single_spec by assumption; congruence).
        pose proof (bounds_member s x H C).
        destruct ((x =? set_lower s) || (x =? set_upper s)) eqn:B.
        -- apply G; [discriminate|]. simpl. split; [assumption|]. split; [assumption|].
           rewrite same_bounds_iff by assumption. intros [A1 A2].
           pose proof (proj1 (set_lower_least _ Hok')) as M1. pose proof (proj1 (set_upper_greatest _ Hok')) as M2.
           apply Em in M1. apply Em in M2. apply orb_true_iff in B. rewrite !Z.eqb_eq in B. destruct B; subst; lia.
        -- apply G; [discriminate|]. simpl. split; [assumption|]. split; [assumption|].
           apply orb_false_iff in B. rewrite !Z.eqb_neq in B.
           rewrite same_bounds_iff by assumption. split.
           ++ apply (least_unique (erase x s)); [|now apply set_lower_least].
              split; [apply Em; split; [apply (set_lower_least s H)|lia]|].
              intros w Hm. apply Em in Hm. apply (set_lower_least s H). tauto.
           ++ apply (greatest_unique (erase x s)); [|now apply set_upper_greatest].
              split; [apply Em; split; [apply (set_upper_greatest s H)|lia]|].
              intros w Hm. apply Em in Hm. apply (set_upper_greatest s H). tauto.
  - assert (N : ~ member x s) by (rewrite <- contains_spec by assumption; congruence).
    unfold change_spec; simpl. split; [assumption|]. split; [tauto|]. split.
    { split; [discriminate|]. intro Q. exfalso. destruct H as [_ [w Hm]]. apply (Q w Hm). intros ->. tauto. }
    split; [|reflexivity]. intros _ w. split; [|tauto]. intro Hm. split; [assumption|]. intros ->. tauto.
Qed.

(** The common tail "empty? single? else" of the bound and range changes. *)
Lemma change_tail s (P : Z -> Prop) s' (other : inference) : set_ok s ->
  represents s' (fun w => member w s /\ P w) -> s' <> s ->
  (set_ok s' -> is_single s' = false -> other <> Contradiction /\ accurate other s s') ->
  change_spec s P (if is_empty s' then (Contradiction, s')
                   else if is_single s' then (Instantiated, s') else (other, s')).
Proof.
  intros H [Rw Rm] Hne Ho. destruct (is_empty s') eqn:E.
  - pose proof (proj1 (is_empty_spec s' Rw) E) as N. unfold change_spec; simpl.
    split; [assumption|]. split; [intros w Hm; apply Rm in Hm; tauto|]. split.
    { split; [|reflexivity]. intros _ w Hm Hp. apply (N w). apply Rm. tauto. }
    split; [tauto|exact I].
  - assert (Hok' : set_ok s').
    { split; [assumption|]. destruct s' as [|[l u] r]; [discriminate|]. exists l.
      apply member_cons. apply wf_inv in Rw. lia. }
    assert (NC : ~ forall w, member w s -> ~ P w).
    { intro N. destruct Hok' as [_ [w Hm]]. apply Rm in Hm. apply (N w); tauto. }
    destruct (is_single s') eqn:S.
    + unfold change_spec; simpl. split; [assumption|]. split; [intros w Hm; apply Rm in Hm; tauto|].
      split; [split; [discriminate|tauto]|]. split; [intros _ w; apply Rm|].
      split; [assumption|]. now apply is_single_spec.
    + destruct (Ho Hok' eq_refl) as [Ho1 Ho2]. unfold change_spec; simpl. split; [assumption|].
      split; [intros w Hm; apply Rm in Hm; tauto|]. split; [split; [tauto|tauto]|].
      split; [intros _ w; apply Rm|assumption].
Qed.

Lemma change_less_than_spec s x : set_ok s -> change_spec s (fun w => w < x) (change_state_for_less_than s x).
Proof.
  intro H. pose proof H as [Hw _]. unfold change_state_for_less_than.
  destruct (Z.ltb_spec (set_upper s) x).
  - unfold change_spec; simpl. split; [assumption|]. split; [tauto|]. split.
    { split; [discriminate|]. intro N. exfalso. apply (N (set_upper s)); [apply (set_upper_greatest s H)|assumption]. }
    split; [|reflexivity]. intros _ w. split; [|tauto]. intro Hm. split; [assumption|].
    pose proof (bounds_member s w H Hm). lia.
  - destruct (erase_greater_than_spec (x - 1) s Hw) as [Ew Em].
    assert (R : represents (erase_greater_than (x - 1) s) (fun w => member w s /\ w < x)).
    { split; [assumption|]. intro w. rewrite Em. intuition lia. }
    assert (Hne : erase_greater_than (x - 1) s <> s).
    { apply (neq_of_missing s _ (set_upper s)); [apply (set_upper_greatest s H)|]. rewrite Em. lia. }
    apply change_tail; try assumption. intros Hok' S. split; [discriminate|]. simpl.
    split; [assumption|]. split; [rewrite <- is_single_spec by assumption; congruence|].
    rewrite same_bounds_iff by assumption. intros [_ A].
    pose proof (proj1 (set_upper_greatest _ Hok')) as M. apply Em in M. lia.
Qed.

Lemma change_ge_spec s x : set_ok s -> change_spec s (fun w => w >= x) (change_state_for_greater_than_or_equal s x).
Proof.
  intro H. pose proof H as [Hw _]. unfold change_state_for_greater_than_or_equal.
  destruct (Z.leb_spec x (set_lower s)).
  - unfold change_spec; simpl. split; [assumption|]. split; [tauto|]. split.
    { split; [discriminate|]. intro N. exfalso. apply (N (set_lower s)); [apply (set_lower_least s H)|lia]. }
    split; [|reflexivity]. intros _ w. split; [|tauto]. intro Hm. split; [assumption|].
    pose proof (bounds_member s w H Hm). lia.
  - destruct (erase_less_than_spec x s Hw) as [Ew Em].
    assert (R : represents (erase_less_than x s) (fun w => member w s /\ w >= x)).
    { split; [assumption|]. intro w. rewrite Em. intuition lia. }
    assert (Hne : erase_less_than x s <> s).
    { apply (neq_of_missing s _ (set_lower s)); [apply (set_lower_least s H)|]. rewrite Em. lia. }
    apply change_tail; try assumption. intros Hok' S. split; [discriminate|]. simpl.
    split; [assumption|]. split; [rewrite <- is_single_spec by assumption; congruence|].
    rewrite same_bounds_iff by assumption. intros [A _].
    pose proof (proj1 (set_lower_least _ Hok')) as M. apply Em in M. lia.
Qed.

Lemma change_nochange s (P : Z -> Prop) : set_ok s -> (forall w, member w s -> P w) -> change_spec s P (NoChange, s).
Proof.
  intros H A. unfold change_spec; simpl. split; [apply H|]. split; [tauto|]. split.
  { split; [discriminate|]. intro N. exfalso. destruct H as [_ [w Hm]]. apply (N w Hm). auto. }
  split; [|reflexivity]. intros _ w. split; [|tauto]. auto.
Qed.

Lemma change_contradiction s (P : Z -> Prop) s' : well_formed s' -> (forall w, member w s' -> member w s) ->
  (forall w, member w s -> ~ P w) -> change_spec s P (Contradiction, s').
Proof.
  intros Hw' Hs A. unfold change_spec; simpl. split; [assumption|]. split; [assumption|].
  split; [split; auto|]. split; [tauto|exact I].
Qed.

Lemma change_not_in_range_spec s lo hi : set_ok s ->
  change_spec s (fun w => ~ (lo <= w <= hi)) (change_state_for_not_in_range s lo hi).
Proof.
  intro H. pose proof H as [Hw _]. unfold change_state_for_not_in_range.
  destruct (Z.ltb_spec hi lo). { apply change_nochange; [assumption|]. intros; lia. }
  destruct ((hi <? set_lower s) || (set_upper s <? lo)) eqn:E.
  { apply change_nochange; [assumption|]. intros w Hm. pose proof (bounds_member s w H Hm).
    apply orb_true_iff in E. rewrite !Z.ltb_lt in E. lia. }
  assert (Hwb : well_formed (iset_of_bounds lo hi)) by (simpl; lia).
  destruct (contains_any_of s (iset_of_bounds lo hi)) eqn:C; simpl negb; cbv iota.
  - apply contains_any_of_spec in C; try assumption. destruct C as (w & Hm & Hb).
    unfold iset_of_bounds in Hb. rewrite member_cons, member_nil in Hb.
    destruct (erase_range_spec lo hi s Hw) as [Ew Em].
    assert (Hne : erase_range lo hi s <> s) by (apply (neq_of_missing s _ w Hm); rewrite Em; tauto).
    apply change_tail; try assumption; [split; assumption|]. intros Hok' S.
    assert (Hns : ~ singleton (erase_range lo hi s)) by (rewrite <- is_single_spec by assumption; congruence).
    destruct (Z.eqb_spec (set_lower (erase_range lo hi s)) (set_lower s));
      destruct (Z.eqb_spec (set_upper (erase_range lo hi s)) (set_upper s)); simpl;
      (split; [discriminate|]); (split; [assumption|]); (split; [assumption|]);
      rewrite same_bounds_iff by assumption; lia.
  - apply change_nochange; [assumption|]. intros w Hm Hr.
    assert (contains_any_of s (iset_of_bounds lo hi) = true); [|congruence].
    apply contains_any_of_spec; try assumption. exists w. split; [assumption|].
    unfold iset_of_bounds. rewrite member_cons. tauto.
Qed.

Lemma change_in_range_spec s lo hi : set_ok s ->
  change_spec s (fun w => lo <= w <= hi) (change_state_for_in_range s lo hi).
Proof.
  intro H. pose proof H as [Hw _]. unfold change_state_for_in_range.
  destruct (Z.ltb_spec hi lo). { apply change_contradiction; [assumption|tauto|]. intros; lia. }
  destruct ((lo <=? set_lower s) && (set_upper s <=? hi)) eqn:E.
  { apply change_nochange; [assumption|]. intros w Hm. pose proof (bounds_member s w H Hm).
    apply andb_true_iff in E. rewrite !Z.leb_le in E. lia. }
  apply andb_false_iff in E. rewrite !Z.leb_gt in E.
  destruct (erase_less_than_spec lo s Hw) as [Ew Em].
  set (s1 := erase_less_than lo s) in *.
  set (s' := if is_empty s1 then s1 else erase_greater_than hi s1).
  assert (R : represents s' (fun w => member w s /\ lo <= w <= hi)).
  { unfold s'. split; [|intro w]; destruct (is_empty s1) eqn:E1; try assumption.
    - apply erase_greater_than_spec. assumption.
    - pose proof (proj1 (is_empty_spec s1 Ew) E1) as N. split; [intro Hm; exfalso; apply (N w Hm)|].
      intros [Hm ?]. exfalso. apply (N w). apply Em. split; [assumption|lia].
    - destruct (erase_greater_than_spec hi s1 Ew) as [Ew2 Em2]. rewrite Em2, Em. tauto. }
  clearbody s'.
  destruct R as [Rw Rm].
  assert (Hne : s' <> s).
  { destruct E.
    - apply (neq_of_missing s _ (set_lower s)); [apply (set_lower_least s H)|]. rewrite Rm. lia.
    - apply (neq_of_missing s _ (set_upper s)); [apply (set_upper_greatest s H)|]. rewrite Rm. lia. }
  apply change_tail; try assumption; [split; assumption|]. intros Hok' S. split; [discriminate|]. simpl.
  split; [assumption|]. split; [rewrite <- is_single_spec by assumption; congruence|].
  rewrite same_bounds_iff by assumption. intros [A B].
  pose proof (proj1 (set_lower_least _ Hok')) as M1. apply Rm in M1.
  pose proof (proj1 (set_upper_greatest _ Hok')) as M2. apply Rm in M2. lia.
Qed.

(** ** Domains *)

Lemma set_dom_length d n s : length (set_dom d n s) = length d.
Proof. revert n; induction d as [|x d IH]; intros [|n]; simpl; auto. Qed.

Lemma dom_set_dom_same d n s : (n < length d)%nat -> dom (set_dom d n s) n = s.
Proof. unfold dom. revert n; induction d as [|x d IH]; intros [|n]; simpl; intros; try lia; auto. apply IH. lia. Qed.

Lemma dom_set_dom_other d n m s : m <> n -> dom (set_dom d n s) m = dom d m.
Proof.
  unfold dom. revert n m; induction d as [|x d IH]; intros [|n] [|m]; simpl; intros; auto; try lia.
Qed.

Lemma dom_ok d n : domains_ok d -> (n < length d)%nat -> set_ok (dom d n).
Proof. intros H Hn. apply (H n Hn). Qed.

Lemma within_dom a d n : within a d -> (n < length d)%nat -> member (a n) (dom d n).
Proof. intros H Hn. apply (H n Hn). Qed.

(** An assignment exists inside any non-empty domains, with any one value chosen. *)
Lemma within_exists d : domains_ok d -> exists a, within a d.
Proof.
  intro H. exists (fun n => set_lower (dom d n)). intros n Hn.
  apply (set_lower_least (dom d n)). now apply dom_ok.
Qed.

Lemma within_exists_at d n x : domains_ok d -> member x (dom d n) -> exists a, within a d /\ a n = x.
Proof.
  intros H Hx. exists (fun m => if Nat.eqb m n then x else set_lower (dom d m)). split.
  - intros m Hm. fold (dom d m). destruct (Nat.eqb_spec m n) as [->|N]; [assumption|].
    apply (set_lower_least (dom d m)). now apply dom_ok.
  - now rewrite Nat.eqb_refl.
Qed.

Lemma within_ext_on d n s' (P : Z -> Prop) : (n < length d)%nat ->
  (forall w, member w s' <-> member w (dom d n) /\ P w) ->
  narrowed_to (set_dom d n s') d (fun a => P (a n)).
Proof.
  intros Hn Hs. split; [apply set_dom_length|]. intro a. unfold within. rewrite set_dom_length. split.
  - intro H. split.
    + intros m Hm. specialize (H m Hm). fold (dom (set_dom d n s') m) in H. fold (dom d m).
      destruct (Nat.eq_dec m n) as [->|N].
      * rewrite dom_set_dom_same in H by assumption. apply Hs in H. tauto.
      * rewrite dom_set_dom_other in H by assumption. assumption.
    + specialize (H n Hn). fold (dom (set_dom d n s') n) in H. rewrite dom_set_dom_same in H by assumption.
      apply Hs in H. tauto.
  - intros [H Hp] m Hm. fold (dom (set_dom d n s') m). destruct (Nat.eq_dec m n) as [->|N].
    + rewrite dom_set_dom_same by assumption. apply Hs. split; [apply (H n Hm)|assumption].
    + rewrite dom_set_dom_other by assumption. apply (H m Hm).
Qed.

Lemma set_dom_ok d n s' : domains_ok d -> set_ok s' -> domains_ok (set_dom d n s').
Proof.
  intros H Hs m Hm. rewrite set_dom_length in Hm. fold (dom (set_dom d n s') m).
  destruct (Nat.eq_dec m n) as [->|N].
  - rewrite dom_set_dom_same by assumption. assumption.
  - rewrite dom_set_dom_other by assumption. apply H; assumption.
Qed.

(** What an inference guarantees, for the predicate [P] on assignments and the
    underlying variable [u]. *)
Definition infer_spec (d : domains) (P : assignment -> Prop) (u : option nat) (r : inference * domains) : Prop :=
  length (snd r) = length d /\
  (fst r = Contradiction <-> forall a, within a d -> ~ P a) /\
  (fst r <> Contradiction -> domains_ok (snd r) /\ narrowed_to (snd r) d P) /\
  (forall m, u <> Some m -> dom (snd r) m = dom d m) /\
  match u with
  | Some n => accurate (fst r) (dom d n) (dom (snd r) n)
  | None => fst r = NoChange \/ fst r = Contradiction
  end.

Lemma on_simple_spec d n f (Q : Z -> Prop) (P : assignment -> Prop) : domains_ok d -> (n < length d)%nat ->
  (forall a, P a <-> Q (a n)) -> change_spec (dom d n) Q (f (dom d n)) ->
  infer_spec d P (Some n) (on_simple d n f).
Proof.
  intros Hd Hn HP. unfold on_simple. destruct (f (dom d n)) as [i s'] eqn:E.
  intros (A & Ams & B & C & D). simpl in *. unfold infer_spec; simpl.
  split; [apply set_dom_length|]. split.
  { rewrite B. split.
    - intros N a Ha Hp. apply HP in Hp. apply (N (a n)); [now apply within_dom|assumption].
    - intros N w Hm Hq. destruct (within_exists_at d n w Hd Hm) as (a & Ha & <-).
      apply (N a Ha). now apply HP. }
  split.
  { intro Hi. specialize (C Hi). split.
    - apply set_dom_ok; [assumption|]. split; [assumption|].
      destruct (in_dec Z.eq_dec (set_lower s') (each s')) as [Hin|Hnin].
      + exists (set_lower s'). now apply each_In.
      + destruct s' as [|[l u] r].
        * exfalso. apply Hi, B. intros w Hm Hq. assert (member w []) by (apply C; tauto). now apply member_nil in H.
        * exists l. apply member_cons. apply wf_inv in A. lia.
    - destruct (within_ext_on d n s' Q Hn C) as [L M]. split; [assumption|]. intro a. rewrite M, HP. tauto. }
  split.
  { intros m Hm. apply dom_set_dom_other. congruence. }
  rewrite dom_set_dom_same by assumption. assumption.
Qed.

Lemma on_constant_spec d b (P : assignment -> Prop) : domains_ok d ->
  (forall a, P a <-> b = true) -> infer_spec d P None (on_constant d b).
Proof.
  intros Hd HP. unfold on_constant, infer_spec; simpl. split; [reflexivity|].
  destruct (within_exists d Hd) as [a0 Ha0]. split.
  { destruct b; split; try discriminate; try reflexivity.
    - intro N. exfalso. apply (N a0 Ha0). now apply HP.
    - intros _ a _ Hp. apply HP in Hp. discriminate. }
  split.
  { destruct b; [|tauto]. intros _. split; [assumption|]. split; [reflexivity|]. intro a.
    specialize (HP a). tauto. }
  split; [reflexivity|]. destruct b; tauto.
Qed.

Ltac view_arith := intros; unfold var_value; lia.

Lemma infer_cond_spec d c : domains_ok d -> cond_known d c ->
  infer_spec d (fun a => cond_holds a c) (underlying (c_var c)) (infer_cond d c).
Proof.
  intros Hd Hk. destruct c as [v op x hi]. unfold cond_known in Hk. simpl in Hk.
  unfold infer_cond, cond_holds; simpl.
  destruct op; simpl.
  - (* Equal *) unfold infer_equal. destruct v as [n|n neg add|c]; simpl in *.
    + eapply on_simple_spec; [assumption|assumption| |apply change_equal_spec, dom_ok; assumption]. intro a; simpl. lia.
    + eapply on_simple_spec; [assumption|assumption| |apply change_equal_spec, dom_ok; assumption]. intro a; simpl. destruct neg; lia.
    + apply on_constant_spec; [assumption|]. intro a. rewrite Z.eqb_eq. lia.
  - unfold infer_not_equal. destruct v as [n|n neg add|c]; simpl in *.
    + eapply on_simple_spec; [assumption|assumption| |apply change_not_equal_spec, dom_ok; assumption]. intro a; simpl. lia.
    + eapply on_simple_spec; [assumption|assumption| |apply change_not_equal_spec, dom_ok; assumption]. intro a; simpl. destruct neg; lia.
    + apply on_constant_spec; [assumption|]. intro a. rewrite negb_true_iff, Z.eqb_neq. lia.
  - unfold infer_greater_than_or_equal. destruct v as [n|n neg add|c]; simpl in *.
    + eapply on_simple_spec; [assumption|assumption| |apply change_ge_spec, dom_ok; assumption]. intro a; simpl. lia.
    + destruct neg.
      * eapply on_simple_spec; [assumption|assumption| |apply change_less_than_spec, dom_ok; assumption]. intro a; simpl. lia.
      * eapply on_simple_spec; [assumption|assumption| |apply change_ge_spec, dom_ok; assumption]. intro a; simpl. lia.
    + apply on_constant_spec; [assumption|]. intro a. rewrite Z.leb_le. lia.
  - unfold infer_less_than. destruct v as [n|n neg add|c]; simpl in *.
    + eapply on_simple_spec; [assumption|assumption| |apply change_less_than_spec, dom_ok; assumption]. intro a; simpl. lia.
    + destruct neg.
      * eapply on_simple_spec; [assumption|assumption| |apply change_ge_spec, dom_ok; assumption]. intro a; simpl. lia.
      * eapply on_simple_spec; [assumption|assumption| |apply change_less_than_spec, dom_ok; assumption]. intro a; simpl. lia.
    + apply on_constant_spec; [assumption|]. intro a. rewrite Z.ltb_lt. lia.
  - unfold infer_in_range. destruct (Z.ltb_spec hi x).
    { unfold infer_spec; simpl. split; [reflexivity|]. split; [split; [|reflexivity]; intros; lia|].
      split; [tauto|]. split; [reflexivity|]. destruct (underlying v); simpl; tauto. }
    destruct v as [n|n neg add|c]; simpl in *.
    + eapply on_simple_spec; [assumption|assumption| |apply change_in_range_spec, dom_ok; assumption]. intro a; simpl. lia.
    + eapply on_simple_spec; [assumption|assumption| |apply change_in_range_spec, dom_ok; assumption]. intro a; simpl. destruct neg; lia.
    + apply on_constant_spec; [assumption|]. intro a. rewrite andb_true_iff, !Z.leb_le. lia.
  - unfold infer_not_in_range. destruct (Z.ltb_spec hi x).
    { unfold infer_spec; simpl. split; [reflexivity|]. destruct (within_exists d Hd) as [a0 Ha0].
      split; [split; [discriminate|]; intro N; exfalso; apply (N a0 Ha0); lia|].
      split; [intros _; split; [assumption|]; split; [reflexivity|]; intro a; intuition lia|].
      split; [reflexivity|]. destruct (underlying v); simpl; tauto. }
    destruct v as [n|n neg add|c]; simpl in *.
    + eapply on_simple_spec; [assumption|assumption| |apply change_not_in_range_spec, dom_ok; assumption]. intro a; simpl. lia.
    + eapply on_simple_spec; [assumption|assumption| |apply change_not_in_range_spec, dom_ok; assumption]. intro a; simpl. destruct neg; lia.
    + apply on_constant_spec; [assumption|]. intro a. rewrite negb_true_iff, andb_false_iff, !Z.leb_gt. lia.
Qed.

Lemma infer_lit_spec d l : domains_ok d -> lit_known d l ->
  infer_spec d (fun a => lit_holds a l) (lit_underlying l) (infer d l).
Proof.
  intros Hd Hk. destruct l as [c| |]; simpl.
  - now apply infer_cond_spec.
  - unfold infer_spec; simpl. destruct (within_exists d Hd) as [a0 Ha0].
    split; [reflexivity|]. split; [split; [discriminate|]; intro N; exfalso; exact (N a0 Ha0 I)|].
    split; [intros _; split; [assumption|]; split; [reflexivity|]; intro; tauto|]. split; [reflexivity|tauto].
  - unfold infer_spec; simpl. split; [reflexivity|]. split; [split; [|reflexivity]; tauto|].
    split; [tauto|]. split; [reflexivity|tauto].
Qed.

(** ** Reading domains through handles *)

Lemma view_member_iff d v x : domains_ok d -> var_known d v ->
  (view_member d v x <-> exists a, within a d /\ var_value a v = x).
Proof.
  intros Hd Hk. destruct v as [n|n neg add|c]; simpl in *.
  - split.
    + intro H. now apply within_exists_at.
    + intros (a & Ha & <-). now apply within_dom.
  - split.
    + intros (y & Hy & ->). destruct (within_exists_at d n y Hd Hy) as (a & Ha & <-). eauto.
    + intros (a & Ha & <-). exists (a n). split; [now apply within_dom|reflexivity].
  - split; [intros ->|intros (a & _ & ->); reflexivity].
    destruct (within_exists d Hd) as [a Ha]. eauto.
Qed.

Lemma view_member_nonempty d v : domains_ok d -> var_known d v -> exists x, view_member d v x.
Proof.
  intros Hd Hk. destruct (within_exists d Hd) as [a Ha]. exists (var_value a v).
  apply view_member_iff; eauto.
Qed.

Lemma lower_bound_spec d v : domains_ok d -> var_known d v ->
  view_member d v (lower_bound d v) /\ forall x, view_member d v x -> lower_bound d v <= x.
Proof.
  intros Hd Hk. destruct v as [n|n neg add|c]; simpl in *.
  - apply (set_lower_least (dom d n)). now apply dom_ok.
  - pose proof (dom_ok d n Hd Hk) as H. destruct (set_lower_least _ H), (set_upper_greatest _ H).
    destruct neg; (split; [eexists; split; [|reflexivity]; assumption|]); intros x (y & Hy & ->).
    + specialize (H3 y Hy). lia.
    + specialize (H1 y Hy). lia.
  - split; intros; lia.
Qed.

Lemma upper_bound_spec d v : domains_ok d -> var_known d v ->
  view_member d v (upper_bound d v) /\ forall x, view_member d v x -> x <= upper_bound d v.
Proof.
  intros Hd Hk. destruct v as [n|n neg add|c]; simpl in *.
  - apply (set_upper_greatest (dom d n)). now apply dom_ok.
  - pose proof (dom_ok d n Hd Hk) as H. destruct (set_lower_least _ H), (set_upper_greatest _ H).
    destruct neg; (split; [eexists; split; [|reflexivity]; assumption|]); intros x (y & Hy & ->).
    + specialize (H1 y Hy). lia.
    + specialize (H3 y Hy). lia.
  - split; intros; lia.
Qed.

Lemma bounds_spec d v : bounds d v = (lower_bound d v, upper_bound d v).
Proof. destruct v as [n|n neg add|c]; simpl; try reflexivity. destruct neg; reflexivity. Qed.

Lemma in_domain_spec d v x : domains_ok d -> var_known d v -> (in_domain d v x = true <-> view_member d v x).
Proof.
  intros Hd Hk. destruct v as [n|n neg add|c]; simpl in *.
  - apply contains_spec. now apply dom_ok.
  - rewrite contains_spec by now apply dom_ok. destruct neg.
    + split.
      * intro H. exists (- x + add). split; [assumption|lia].
      * intros (y & Hy & ->). replace (- (- y + add) + add) with y by lia. assumption.
    + split.
      * intro H. exists (x - add). split; [assumption|lia].
      * intros (y & Hy & ->). replace (y + add - add) with y by lia. assumption.
  - rewrite Z.eqb_eq. lia.
Qed.

Lemma has_single_value_spec d v : domains_ok d -> var_known d v ->
  (has_single_value d v = true <-> lower_bound d v = upper_bound d v).
Proof.
  intros Hd Hk. destruct v as [n|n neg add|c]; unfold has_single_value; simpl; unfold is_single.
  - apply Z.eqb_eq.
  - rewrite Z.eqb_eq. destruct neg; lia.
  - tauto.
Qed.

Lemma single_iff_bounds d v : domains_ok d -> var_known d v -> forall x,
  ((forall y, view_member d v y <-> y = x) <-> lower_bound d v = x /\ upper_bound d v = x).
Proof.
  intros Hd Hk x. destruct (lower_bound_spec d v Hd Hk) as [L1 L2]. destruct (upper_bound_spec d v Hd Hk) as [U1 U2].
  split.
  - intro H. split; apply H; assumption.
  - intros [A B] y. split.
    + intro Hy. specialize (L2 y Hy). specialize (U2 y Hy). lia.
    + intros ->. congruence.
Qed.

Lemma optional_single_value_bounds d v : optional_single_value d v =
  if has_single_value d v then Some (lower_bound d v) else None.
Proof.
  destruct v as [n|n neg add|c]; unfold has_single_value; simpl; try reflexivity.
  - destruct (is_single (dom d n)) eqn:E; [|reflexivity]. simpl. unfold apply_view.
    unfold is_single in E. apply Z.eqb_eq in E. destruct neg; do 2 f_equal; lia.
Qed.

Lemma optional_single_value_spec d v x : domains_ok d -> var_known d v ->
  (optional_single_value d v = Some x <-> forall y, view_member d v y <-> y = x).
Proof.
  intros Hd Hk. rewrite single_iff_bounds by assumption. rewrite optional_single_value_bounds.
  pose proof (has_single_value_spec d v Hd Hk) as H. destruct (has_single_value d v).
  - assert (lower_bound d v = upper_bound d v) by now apply H. split; [intros [= <-]; auto|intros [<- _]; reflexivity].
  - split; [discriminate|]. intros [A B]. assert (false = true) by (apply H; congruence). discriminate.
Qed.

Lemma each_value_In d v x : In x (each_value d v) <-> view_member d v x.
Proof.
  destruct v as [n|n neg add|c]; unfold each_value; simpl.
  - rewrite in_map_iff. split.
    + intros (y & <- & Hy). unfold apply_view; simpl. rewrite Z.add_0_r. now apply each_In.
    + intro H. exists x. split; [unfold apply_view; lia|now apply each_In].
  - rewrite in_map_iff. split.
    + intros (y & <- & Hy). exists y. split; [now apply each_In|reflexivity].
    + intros (y & Hy & ->). exists y. split; [reflexivity|now apply each_In].
  - unfold apply_view. rewrite Z.add_0_r. split; [intros [<-|[]]; reflexivity|intros ->; tauto].
Qed.

Lemma NoDup_map_inj {A B} (f : A -> B) l : (forall x y, f x = f y -> x = y) -> NoDup l -> NoDup (map f l).
Proof.
  intro Hf. induction 1; simpl; constructor; auto.
  rewrite in_map_iff. intros (y & E & Hy). apply Hf in E. now subst.
Qed.

Lemma each_value_NoDup d v : domains_ok d -> var_known d v -> NoDup (each_value d v).
Proof.
  intros Hd Hk. destruct v as [n|n neg add|c]; unfold each_value; simpl in *.
  - apply NoDup_map_inj; [unfold apply_view; lia|]. apply incr_NoDup, each_incr. now apply dom_ok.
  - apply NoDup_map_inj; [unfold apply_view; intros; destruct neg; lia|]. apply incr_NoDup, each_incr. now apply dom_ok.
  - constructor; [simpl; tauto|constructor].
Qed.

Lemma each_value_length d v : domains_ok d -> var_known d v ->
  Z.of_nat (length (each_value d v)) = domain_size d v.
Proof.
  intros Hd Hk. destruct v as [n|n neg add|c]; unfold each_value, domain_size; simpl in *; try reflexivity;
    rewrite map_length; apply each_length; now apply dom_ok.
Qed.

Lemma domain_has_holes_spec d v : domains_ok d -> var_known d v ->
  (domain_has_holes d v = true <->
   exists a b c, a < b < c /\ view_member d v a /\ ~ view_member d v b /\ view_member d v c).
Proof.
  intros Hd Hk. destruct v as [n|n neg add|c]; unfold domain_has_holes; simpl in *.
  - apply has_holes_spec. now apply dom_ok.
  - rewrite has_holes_spec by now apply dom_ok. destruct neg.
    + split.
      * intros (a & b & c & ? & Ha & Hb & Hc). exists (- c + add), (- b + add), (- a + add).
        split; [lia|]. split; [eauto|]. split; [|eauto].
        intros (y & Hy & E). replace y with b in Hy by lia. tauto.
      * intros (a & b & c & ? & (a' & Ha & ->) & Hb & (c' & Hc & ->)). exists c', (- b + add), a'.
        split; [lia|]. split; [assumption|]. split; [|assumption].
        intro H'. apply Hb. exists (- b + add). split; [assumption|lia].
    + split.
      * intros (a & b & c & ? & Ha & Hb & Hc). exists (a + add), (b + add), (c + add).
        split; [lia|]. split; [eauto|]. split; [|eauto].
        intros (y & Hy & E). replace y with b in Hy by lia. tauto.
      * intros (a & b & c & ? & (a' & Ha & ->) & Hb & (c' & Hc & ->)). exists a', (b - add), c'.
        split; [lia|]. split; [assumption|]. split; [|assumption].
        intro H'. apply Hb. exists (b - add). split; [assumption|lia].
  - split; [discriminate|]. intros (a & b & e & ? & -> & ? & ->). lia.
Qed.

Lemma append_all_spec (t : iset) : forall acc, well_formed acc -> well_formed t ->
  (forall x y, member x acc -> member y t -> x < y) ->
  represents (fold_left (fun r (p : Z * Z) => insert_interval_at_end (fst p) (snd p) r) t acc)
             (fun w => member w acc \/ member w t).
Proof.
  induction t as [|[l u] t IH]; intros acc Ha Ht Hlt; simpl.
  - split; [assumption|]. intro w. rewrite member_nil. tauto.
  - pose proof (fun w => wf_tail_gt l u t w Ht) as G. pose proof Ht as Ht'. apply wf_inv in Ht'. destruct Ht' as (Hlu & Htw & _).
    destruct (insert_interval_at_end_spec l u acc Ha Hlu) as [Iw Im].
    { intros v Hv. apply Hlt; [assumption|]. apply member_cons. lia. }
    destruct (IH _ Iw Htw) as [Jw Jm].
    { intros x y Hx Hy. apply Im in Hx. destruct Hx as [Hx|Hx].
      - apply Hlt; [assumption|]. apply member_cons. tauto.
      - specialize (G y Hy). lia. }
    split; [assumption|]. intro w. rewrite Jm, Im, member_cons. tauto.
Qed.

Lemma shift_spec add (s : iset) : well_formed s ->
  represents (map (fun p : Z * Z => (fst p + add, snd p + add)) s) (fun w => member (w - add) s).
Proof.
  induction s as [|[l u] s IH]; simpl map; intro H.
  - split; [constructor|]. intro w. rewrite !member_nil. tauto.
  - pose proof (fun w => wf_tail_gt l u s w H) as G. apply wf_inv in H. destruct H as (Hlu & Hs & _).
    destruct (IH Hs) as [A B]. simpl fst; simpl snd. split.
    + apply wf_cons_mem; [lia|assumption|]. intros v Hv. apply B in Hv. specialize (G _ Hv). lia.
    + intro w. rewrite !member_cons, B. assert (l + add <= w <= u + add <-> l <= w - add <= u) by lia. tauto.
Qed.

Lemma negate_spec add (s : iset) : well_formed s ->
  represents (map (fun p : Z * Z => (- snd p + add, - fst p + add)) (rev s)) (fun w => member (- w + add) s).
Proof.
  induction s as [|[l u] s IH]; simpl; intro H.
  - split; [constructor|]. intro w. rewrite !member_nil. tauto.
  - pose proof (fun w => wf_tail_gt l u s w H) as G. apply wf_inv in H. destruct H as (Hlu & Hs & _).
    destruct (IH Hs) as [A B]. rewrite map_app. simpl. split.
    + apply wf_app; [assumption|simpl; lia|].
      intros x y Hx Hy. apply B in Hx. specialize (G _ Hx). rewrite member_cons, member_nil in Hy. lia.
    + intro w. rewrite member_app, B, !member_cons, member_nil.
      assert (- u + add <= w <= - l + add <-> l <= - w + add <= u) by lia. tauto.
Qed.

Lemma fold_left_map {A B C} (f : C -> B -> C) (g : A -> B) l : forall acc,
  fold_left f (map g l) acc = fold_left (fun c a => f c (g a)) l acc.
Proof. induction l; simpl; auto. Qed.

Lemma fold_left_ext {A B} (f g : B -> A -> B) l : (forall b a, f b a = g b a) -> forall acc,
  fold_left f l acc = fold_left g l acc.
Proof. intro H. induction l; simpl; intros; auto. rewrite H. auto. Qed.

Lemma copy_view_spec (raw : iset) neg add : well_formed raw ->
  represents (if negb neg && (add =? 0) then raw
              else if (neg : bool) then
                fold_left (fun result '(l, u) => insert_interval_at_end (- u + add) (- l + add) result) (rev raw) []
              else fold_left (fun result '(l, u) => insert_interval_at_end (l + add) (u + add) result) raw [])
             (fun x => exists y, member y raw /\ x = (if neg then - y else y) + add).
Proof.
  intro Hw. destruct neg; simpl.
  - destruct (negate_spec add raw Hw) as [A B].
    destruct (append_all_spec _ [] (wf_nil) A) as [C D]; [intros x y Hx; apply member_nil in Hx; tauto|].
    rewrite fold_left_map in C, D. unfold represents.
    rewrite (fold_left_ext _ (fun c a => insert_interval_at_end (fst (- snd a + add, - fst a + add)) (snd (- snd a + add, - fst a + add)) c))
      by (intros b [? ?]; reflexivity).
    split; [exact C|]. intro w. rewrite D, member_nil, B. split.
    + intros [[]|H]. exists (- w + add). split; [assumption|lia].
    + intros (y & Hy & ->). right. replace (- (- y + add) + add) with y by lia. assumption.
  - destruct (Z.eqb_spec add 0) as [->|].
    + split; [assumption|]. intro w. split; [intro H; exists w; split; [assumption|lia]|].
      intros (y & Hy & ->). now rewrite Z.add_0_r.
    + destruct (shift_spec add raw Hw) as [A B].
      destruct (append_all_spec _ [] (wf_nil) A) as [C D]; [intros x y Hx; apply member_nil in Hx; tauto|].
      rewrite fold_left_map in C, D. unfold represents.
      rewrite (fold_left_ext _ (fun c a => insert_interval_at_end (fst (fst a + add, snd a + add)) (snd (fst a + add, snd a + add)) c))
        by (intros b [? ?]; reflexivity).
      split; [exact C|]. intro w. rewrite D, member_nil, B. split.
      * intros [[]|H]. exists (w - add). split; [assumption|lia].
      * intros (y & Hy & ->). right. replace (y + add - add) with y by lia. assumption.
Qed.

Lemma copy_of_values_spec d v : domains_ok d -> var_known d v ->
  represents (copy_of_values d v) (view_member d v).
Proof.
  intros Hd Hk. unfold copy_of_values. destruct v as [n|n neg add|c]; simpl deview; cbv iota beta.
  - destruct (copy_view_spec (dom d n) false 0) as [A B]; [apply dom_ok; assumption|]. split; [assumption|].
    intro w. rewrite B. simpl. split.
    + intros (y & Hy & ->). now rewrite Z.add_0_r.
    + intro H. exists w. split; [assumption|lia].
  - apply copy_view_spec. apply dom_ok; assumption.
  - destruct (copy_view_spec (iset_of_bounds c c) false 0) as [A B]; [simpl; lia|]. split; [assumption|].
    intro w. rewrite B. simpl. unfold iset_of_bounds. split.
    + intros (y & Hy & ->). rewrite member_cons, member_nil in Hy. lia.
    + intros ->. exists c. rewrite member_cons. lia.
Qed.

Lemma domain_intersects_with_spec d v s : domains_ok d -> var_known d v -> well_formed s ->
  (domain_intersects_with d v s = true <-> exists x, view_member d v x /\ member x s).
Proof.
  intros Hd Hk Hs. destruct (copy_of_values_spec d v Hd Hk) as [Cw Cm].
  assert (G : contains_any_of (copy_of_values d v) s = true <-> exists x, view_member d v x /\ member x s).
  { rewrite contains_any_of_spec by assumption. split; intros (x & A & B); exists x; (split; [|assumption]); now apply Cm. }
  unfold domain_intersects_with. destruct v as [n|n neg add|c]; simpl deview; cbv iota beta.
  - simpl. apply contains_any_of_spec; [apply dom_ok; assumption|assumption].
  - destruct neg; [exact G|]. destruct (Z.eqb_spec add 0) as [->|]; [|exact G].
    rewrite contains_any_of_spec by (try apply dom_ok; assumption). simpl. split.
    + intros (x & A & B). exists x. split; [exists x; split; [assumption|lia]|assumption].
    + intros (x & (y & A & ->) & B). rewrite Z.add_0_r in B. eauto.
  - simpl. rewrite contains_spec by assumption. rewrite Z.add_0_r. split; [eauto|].
    intros (x & -> & H). assumption.
Qed.

Lemma domains_intersect_spec d v1 v2 : domains_ok d -> var_known d v1 -> var_known d v2 ->
  (domains_intersect d v1 v2 = true <-> exists x, view_member d v1 x /\ view_member d v2 x).
Proof.
  intros Hd H1 H2.
  assert (S1 : forall a b, var_known d a -> var_known d b ->
    (domain_intersects_with d a (copy_of_values d b) = true <-> exists x, view_member d a x /\ view_member d b x)).
  { intros a b Ka Kb. destruct (copy_of_values_spec d b Hd Kb) as [Cw Cm].
    rewrite domain_intersects_with_spec by assumption. split; intros (x & A & B); exists x; (split; [assumption|]); now apply Cm. }
  assert (S2 : forall a b, var_known d a -> var_known d b ->
    (domain_intersects_with d b (copy_of_values d a) = true <-> exists x, view_member d a x /\ view_member d b x)).
  { intros a b Ka Kb. rewrite S1 by assumption. split; intros (x & A & B); eauto. }
  assert (I : forall v c, var_known d v -> (in_domain d v c = true <-> view_member d v c)).
  { intros. now apply in_domain_spec. }
  destruct v1 as [n1|n1 neg1 add1|c1], v2 as [n2|n2 neg2 add2|c2]; unfold domains_intersect; simpl deview; cbv iota beta;
    simpl orb; cbv iota.
  - apply contains_any_of_spec; apply dom_ok; assumption.
  - destruct neg2; [apply S1; assumption|]. destruct (Z.eqb_spec add2 0) as [->|]; simpl; [|apply S1; assumption].
    rewrite contains_any_of_spec by (apply dom_ok; assumption). simpl. split.
    + intros (x & A & B). exists x. split; [assumption|]. exists x. split; [assumption|lia].
    + intros (x & A & (y & B & ->)). rewrite Z.add_0_r in A. eauto.
  - rewrite I by assumption. rewrite Z.add_0_r. simpl. split; [eauto|]. intros (x & A & ->). assumption.
  - destruct neg1; simpl; [apply S2; assumption|]. destruct (Z.eqb_spec add1 0) as [->|]; simpl; [|apply S1; assumption].
    rewrite contains_any_of_spec by (apply dom_ok; assumption). simpl. split.
    + intros (x & A & B). exists x. split; [|assumption]. exists x. split; [assumption|lia].
    + intros (x & (y & A & ->) & B). rewrite Z.add_0_r in B. eauto.
  - destruct neg1; simpl; [apply S2; assumption|]. destruct neg2; [apply S1; assumption|].
    destruct (Z.eqb_spec add1 0) as [->|], (Z.eqb_spec add2 0) as [->|]; simpl; try (apply S1; assumption).
    rewrite contains_any_of_spec by (apply dom_ok; assumption). simpl. split.
    + intros (x & A & B). exists x. split; exists x; (split; [assumption|lia]).
    + intros (x & (y & A & ->) & (z & B & E)). replace z with y in B by lia. eauto.
  - destruct neg1; simpl orb; cbv iota; [apply S2; assumption|].
    rewrite I by assumption. rewrite Z.add_0_r. split; [intro H; exists c2; split; [assumption|reflexivity]|].
    intros (x & A & E). simpl in E. subst. assumption.
  - rewrite I by assumption. rewrite Z.add_0_r. simpl. split; [eauto|]. intros (x & -> & A). assumption.
  - destruct neg2; [apply S1; assumption|].
    rewrite I by assumption. rewrite Z.add_0_r. split; [intro H; exists c1; split; [reflexivity|assumption]|].
    intros (x & E & A). simpl in E. subst. assumption.
  - rewrite I by exact Logic.I. simpl. rewrite Z.add_0_r. split; [intros ->; eauto|]. intros (x & -> & ->). reflexivity.
Qed.

(** ** Testing literals *)

Definition test_means (d : domains) (P : assignment -> Prop) (r : literal_is) : Prop :=
  (r = DefinitelyTrue <-> forall a, within a d -> P a) /\
  (r = DefinitelyFalse <-> forall a, within a d -> ~ P a).

Lemma test_means_view d v (Q : Z -> Prop) (P : assignment -> Prop) r : domains_ok d -> var_known d v ->
  (forall a, P a <-> Q (var_value a v)) ->
  (r = DefinitelyTrue <-> forall x, view_member d v x -> Q x) ->
  (r = DefinitelyFalse <-> forall x, view_member d v x -> ~ Q x) ->
  test_means d P r.
Proof.
  intros Hd Hk HP HT HF. split.
  - rewrite HT. split.
    + intros H a Ha. apply HP, H, view_member_iff; eauto.
    + intros H x Hx. apply view_member_iff in Hx; try assumption. destruct Hx as (a & Ha & <-). now apply HP, H.
  - rewrite HF. split.
    + intros H a Ha Hp. apply HP in Hp. revert Hp. apply H, view_member_iff; eauto.
    + intros H x Hx Hq. apply view_member_iff in Hx; try assumption. destruct Hx as (a & Ha & <-). apply (H a Ha). now apply HP.
Qed.

Lemma test_cond_spec d c : domains_ok d -> cond_known d c -> cond_sane c ->
  test_means d (fun a => cond_holds a c) (test_cond d c).
Proof.
  intros Hd Hk Hs. destruct c as [v op x hi]. unfold cond_known in Hk; simpl in Hk. unfold cond_sane in Hs; simpl in Hs.
  destruct (lower_bound_spec d v Hd Hk) as [L1 L2]. destruct (upper_bound_spec d v Hd Hk) as [U1 U2].
  pose proof (has_single_value_spec d v Hd Hk) as SV.
  pose proof (in_domain_spec d v x Hd Hk) as ID.
  assert (One : has_single_value d v = true -> forall y, view_member d v y -> y = lower_bound d v).
  { intros E y Hy. apply SV in E. specialize (L2 y Hy). specialize (U2 y Hy). lia. }
  assert (Two : has_single_value d v = false -> lower_bound d v <> upper_bound d v).
  { intros E Q. apply SV in Q. congruence. }
  unfold test_cond, cond_holds; simpl.
  destruct op; simpl in *.
  - apply (test_means_view d v (fun y => y = x)); try assumption; [intro; tauto| |].
    + destruct (in_domain d v x); simpl; [destruct (has_single_value d v)|].
      * split; [|reflexivity]. intros _ y Hy. assert (Hx : view_member d v x) by (apply ID; reflexivity).
        apply One in Hy; [|reflexivity]. apply One in Hx; [|reflexivity]. congruence.
      * split; [discriminate|]. intro H. exfalso. apply (Two eq_refl). rewrite (H _ L1), (H _ U1). reflexivity.
      * split; [discriminate|]. intro H. assert (view_member d v x) by (rewrite <- (H _ L1); assumption).
        apply ID in H0. discriminate.
    + destruct (in_domain d v x); simpl; [destruct (has_single_value d v)|].
      * split; [discriminate|]. intro H. exfalso. apply (H x); [|reflexivity]. now apply ID.
      * split; [discriminate|]. intro H. exfalso. apply (H x); [|reflexivity]. now apply ID.
      * split; [|reflexivity]. intros _ y Hy ->. apply ID in Hy. discriminate.
  - apply (test_means_view d v (fun y => y <> x)); try assumption; [intro; tauto| |].
    + destruct (in_domain d v x); simpl; [destruct (has_single_value d v)|].
      * split; [discriminate|]. intro H. exfalso. apply (H x); [|reflexivity]. now apply ID.
      * split; [discriminate|]. intro H. exfalso. apply (H x); [|reflexivity]. now apply ID.
      * split; [|reflexivity]. intros _ y Hy ->. apply ID in Hy. discriminate.
    + destruct (in_domain d v x); simpl; [destruct (has_single_value d v)|].
      * split; [|reflexivity]. intros _ y Hy N. apply N. assert (Hx : view_member d v x) by (apply ID; reflexivity).
        apply One in Hy; [|reflexivity]. apply One in Hx; [|reflexivity]. congruence.
      * split; [discriminate|]. intro H. exfalso. apply (Two eq_refl).
        pose proof (H _ L1). pose proof (H _ U1). lia.
      * split; [discriminate|]. intro H. pose proof (H _ L1) as A.
        assert (E : lower_bound d v = x) by lia. rewrite E in L1. apply ID in L1. discriminate.
  - apply (test_means_view d v (fun y => y >= x)); try assumption; [intro; tauto| |].
    + destruct (Z.leb_spec x (upper_bound d v)); [destruct (Z.leb_spec x (lower_bound d v))|].
      * split; [|reflexivity]. intros _ y Hy. specialize (L2 y Hy). lia.
      * split; [discriminate|]. intro Q. specialize (Q _ L1). lia.
      * split; [discriminate|]. intro Q. specialize (Q _ U1). lia.
    + destruct (Z.leb_spec x (upper_bound d v)); [destruct (Z.leb_spec x (lower_bound d v))|].
      * split; [discriminate|]. intro Q. specialize (Q _ U1). lia.
      * split; [discriminate|]. intro Q. specialize (Q _ U1). lia.
      * split; [|reflexivity]. intros _ y Hy. specialize (U2 y Hy). lia.
  - apply (test_means_view d v (fun y => y < x)); try assumption; [intro; tauto| |].
    + destruct (Z.ltb_spec (lower_bound d v) x); [destruct (Z.ltb_spec (upper_bound d v) x)|].
      * split; [|reflexivity]. intros _ y Hy. specialize (U2 y Hy). lia.
      * split; [discriminate|]. intro Q. specialize (Q _ U1). lia.
      * split; [discriminate|]. intro Q. specialize (Q _ L1). lia.
    + destruct (Z.ltb_spec (lower_bound d v) x); [destruct (Z.ltb_spec (upper_bound d v) x)|].
      * split; [discriminate|]. intro Q. specialize (Q _ L1). lia.
      * split; [discriminate|]. intro Q. specialize (Q _ L1). lia.
      * split; [|reflexivity]. intros _ y Hy. specialize (L2 y Hy). lia.
  - assert (Hw : well_formed (iset_of_bounds x hi)) by (simpl; lia).
    pose proof (domain_intersects_with_spec d v (iset_of_bounds x hi) Hd Hk Hw) as DI.
    assert (DI' : domain_intersects_with d v (iset_of_bounds x hi) = true <-> exists y, view_member d v y /\ x <= y <= hi).
    { rewrite DI. unfold iset_of_bounds. split; intros (y & A & B); exists y; (split; [assumption|]);
        rewrite member_cons, member_nil in *; lia. }
    apply (test_means_view d v (fun y => x <= y <= hi)); try assumption; [intro; tauto| |];
      destruct (Z.leb_spec x (lower_bound d v)), (Z.leb_spec (upper_bound d v) hi); simpl;
      try (destruct (domain_intersects_with d v (iset_of_bounds x hi)); simpl).
    all: try (split; [|reflexivity]; intros _ y Hy; specialize (L2 y Hy); specialize (U2 y Hy); lia).
    all: try (split; [discriminate|]; intro Q; pose proof (Q _ L1); pose proof (Q _ U1); pose proof (L2 _ U1); lia).
    all: try (split; [discriminate|]; intro Q; exfalso; destruct (proj1 DI' eq_refl) as (y & A & B); apply (Q y A B)).
    all: split; [|reflexivity]; intros _ y Hy B; assert (false = true) by (apply DI'; eauto); discriminate.
  - assert (Hw : well_formed (iset_of_bounds x hi)) by (simpl; lia).
    pose proof (domain_intersects_with_spec d v (iset_of_bounds x hi) Hd Hk Hw) as DI.
    assert (DI' : domain_intersects_with d v (iset_of_bounds x hi) = true <-> exists y, view_member d v y /\ x <= y <= hi).
    { rewrite DI. unfold iset_of_bounds. split; intros (y & A & B); exists y; (split; [assumption|]);
        rewrite member_cons, member_nil in *; lia. }
    apply (test_means_view d v (fun y => ~ (x <= y <= hi))); try assumption; [intro; tauto| |];
      destruct (domain_intersects_with d v (iset_of_bounds x hi)); simpl;
      try (destruct (Z.leb_spec x (lower_bound d v)), (Z.leb_spec (upper_bound d v) hi); simpl).
    all: try (split; [discriminate|]; intro Q; exfalso; destruct (proj1 DI' eq_refl) as (y & A & B); apply (Q y A B)).
    all: try (split; [|reflexivity]; intros _ y Hy N; apply N; specialize (L2 y Hy); specialize (U2 y Hy); lia).
    all: try (split; [discriminate|]; intro Q; pose proof (Q _ L1); pose proof (Q _ U1); pose proof (L2 _ U1); lia).
    all: try (split; [|reflexivity]; intros _ y Hy B; assert (false = true) by (apply DI'; eauto); discriminate).
    all: split; [discriminate|]; intro Q; exfalso; pose proof (Q _ L1) as N; apply N; intro B;
      assert (false = true) by (apply DI'; eauto); discriminate.
Qed.

Lemma test_literal_spec d l : domains_ok d -> lit_known d l -> lit_sane l ->
  test_means d (fun a => lit_holds a l) (test_literal d l).
Proof.
  intros Hd Hk Hs. destruct (within_exists d Hd) as [a0 Ha0]. destruct l as [c| |]; simpl.
  - now apply test_cond_spec.
  - split; split; try discriminate; try tauto; try reflexivity. intro H. exfalso. exact (H a0 Ha0 I).
  - split; split; try discriminate; try tauto; try reflexivity. intro H. exfalso. exact (H a0 Ha0).
Qed.

(** ** Statements in the form of the properties *)

Lemma possible_iff d v x : domains_ok d -> var_known d v -> (view_member d v x <-> possible d v x).
Proof. apply view_member_iff. Qed.

Lemma handle_build_value a h : var_value a (handle_build h) = handle_value a h.
Proof.
  induction h; simpl; rewrite ?var_plus_value, ?var_minus_value, ?var_neg_value; congruence.
Qed.

Lemma view_accessors d v : domains_ok d -> var_known d v ->
  (possible d v (lower_bound d v) /\ forall x, possible d v x -> lower_bound d v <= x) /\
  (possible d v (upper_bound d v) /\ forall x, possible d v x -> x <= upper_bound d v) /\
  bounds d v = (lower_bound d v, upper_bound d v) /\
  (forall x, in_domain d v x = true <-> possible d v x) /\
  (forall x, optional_single_value d v = Some x <-> (forall y, possible d v y <-> y = x)) /\
  (has_single_value d v = true <-> exists x, forall y, possible d v y <-> y = x) /\
  (domain_has_holes d v = true <-> exists a b c, a < b < c /\ possible d v a /\ ~ possible d v b /\ possible d v c) /\
  ((forall x, In x (each_value d v) <-> possible d v x) /\ NoDup (each_value d v) /\
    Z.of_nat (length (each_value d v)) = domain_size d v) /\
  represents (copy_of_values d v) (possible d v).
Proof.
  intros Hd Hk. pose proof (fun x => possible_iff d v x Hd Hk) as P.
  destruct (lower_bound_spec d v Hd Hk) as [L1 L2]. destruct (upper_bound_spec d v Hd Hk) as [U1 U2].
  assert (S : forall x, optional_single_value d v = Some x <-> (forall y, possible d v y <-> y = x)).
  { intro x. rewrite optional_single_value_spec by assumption. split; intros H y.
    - rewrite <- P. apply H.
    - rewrite P. apply H. }
  split; [split; [now apply P|intros x Hx; apply L2; now apply P]|].
  split; [split; [now apply P|intros x Hx; apply U2; now apply P]|].
  split; [apply bounds_spec|].
  split; [intro x; rewrite in_domain_spec by assumption; apply P|].
  split; [exact S|].
  split.
  { rewrite optional_single_value_bounds in S. destruct (has_single_value d v).
    - split; [|reflexivity]. intros _. exists (lower_bound d v). now apply S.
    - split; [discriminate|]. intros (x & H). apply S in H. discriminate. }
  split.
  { rewrite domain_has_holes_spec by assumption.
    split; intros (a & b & c & ? & A & B & C); exists a, b, c;
      (split; [assumption|]; split; [now apply P|]; split; [|now apply P]; intro X; apply B; now apply P). }
  split.
  { split; [intro x; rewrite each_value_In; apply P|]. split; [now apply each_value_NoDup|now apply each_value_length]. }
  destruct (copy_of_values_spec d v Hd Hk) as [A B]. split; [assumption|]. intro x. rewrite B. apply P.
Qed.

Lemma intersect_accessors d v : domains_ok d -> var_known d v ->
  (forall s, well_formed s -> (domain_intersects_with d v s = true <-> exists x, possible d v x /\ member x s)) /\
  (forall w, var_known d w -> (domains_intersect d v w = true <-> exists x, possible d v x /\ possible d w x)).
Proof.
  intros Hd Hk. split.
  - intros s Hs. rewrite domain_intersects_with_spec by assumption.
    split; intros (x & A & B); exists x; (split; [|assumption]); apply possible_iff; assumption.
  - intros w Hw. rewrite domains_intersect_spec by assumption.
    split; intros (x & A & B); exists x; split; apply possible_iff; assumption.
Qed.

Lemma infer_exact d l i d' : domains_ok d -> lit_known d l -> infer d l = (i, d') ->
  (i = Contradiction <-> forall a, within a d -> ~ lit_holds a l) /\
  (i <> Contradiction -> domains_ok d' /\ narrowed_to d' d (fun a => lit_holds a l)) /\
  length d' = length d /\
  forall n, lit_underlying l <> Some n -> nth n d' [] = nth n d [].
Proof.
  intros Hd Hk E. pose proof (infer_lit_spec d l Hd Hk) as H. rewrite E in H.
  destruct H as (A & B & C & D & _). simpl in *. auto.
Qed.

Lemma infer_accurate d l i d' : domains_ok d -> lit_known d l -> infer d l = (i, d') ->
  match lit_underlying l with
  | Some n => accurate i (nth n d []) (nth n d' [])
  | None => i = NoChange \/ i = Contradiction
  end.
Proof.
  intros Hd Hk E. pose proof (infer_lit_spec d l Hd Hk) as H. rewrite E in H.
  destruct H as (_ & _ & _ & _ & F). simpl in *. destruct (lit_underlying l); exact F.
Qed.

(** Classification, read as "exactly when". *)
Lemma accurate_exact i s s' : i <> Contradiction -> accurate i s s' ->
  (i = NoChange <-> s' = s) /\
  (i = Instantiated <-> s' <> s /\ singleton s') /\
  (i = BoundsChanged <-> s' <> s /\ ~ singleton s' /\ ~ same_bounds s s') /\
  (i = InteriorValuesChanged <-> s' <> s /\ ~ singleton s' /\ same_bounds s s').
Proof. intros Hc H. destruct i; simpl in H; try congruence; clear Hc; intuition congruence. Qed.

Lemma test_exact d l : domains_ok d -> lit_known d l -> lit_sane l ->
  (test_literal d l = DefinitelyTrue <-> forall a, within a d -> lit_holds a l) /\
  (test_literal d l = DefinitelyFalse <-> forall a, within a d -> ~ lit_holds a l).
Proof. apply test_literal_spec. Qed.

Lemma test_swap d l : domains_ok d -> lit_known d l -> lit_sane l ->
  (test_literal d (lit_not l) = DefinitelyTrue <-> test_literal d l = DefinitelyFalse) /\
  (test_literal d (lit_not l) = DefinitelyFalse <-> test_literal d l = DefinitelyTrue).
Proof.
  intros Hd Hk Hs.
  assert (Hk' : lit_known d (lit_not l)) by (destruct l as [[v op x hi]| |]; try exact I; destruct op; exact Hk).
  assert (Hs' : lit_sane (lit_not l)) by (destruct l as [[v op x hi]| |]; try exact I; destruct op; exact Hs).
  destruct (test_literal_spec d l Hd Hk Hs) as [A B]. destruct (test_literal_spec d _ Hd Hk' Hs') as [A' B'].
  rewrite A', B', A, B. split.
  - split; intros H a Ha; specialize (H a Ha); rewrite lit_not_holds in *; assumption.
  - split; intros H a Ha; specialize (H a Ha).
    + destruct l as [c| |]; simpl in *; try tauto. unfold cond_holds in *.
      destruct c as [v op x hi]; destruct op; simpl in *; lia.
    + rewrite lit_not_holds. tauto.
Qed.

Lemma test_empty_range_refuted : exists d c, domains_ok d /\ cond_known d c /\
  (forall a, within a d -> ~ cond_holds a c) /\ test_literal d (LCond c) <> DefinitelyFalse.
Proof.
  exists [iset_of_bounds 1 10], (mk_cond (VSimple 0) OpInRange 5 4). split; [|split; [|split]].
  - intros n Hn. destruct n; [|simpl in Hn; lia]. simpl. split; [lia|]. exists 1. apply member_cons. lia.
  - unfold cond_known. simpl. lia.
  - intros a _. unfold cond_holds. simpl. lia.
  - vm_compute. discriminate.
Qed.
