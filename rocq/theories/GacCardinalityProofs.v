(** Lemmas about generalised arc consistency for global cardinality. *)
From Coq Require Import ZArith List Bool Arith Lia Permutation Sorted.
From Verif Require Import IntervalSet IntervalSetSpec IntervalSetProofs Vars VarsSpec VarsProofs State StateSpec StateProofs Epochs
  Engine EngineSpec EngineProofs SessionSpec SessionInvProofs Tracker ContractSpec ContractProofs RunProofs PartsProofs ConsistencySpec
  QuietProofs Passes PassesProofs OnceProofs MultiplyProofs GlobalCardinalitySpec GlobalCardinality GlobalCardinalityProofs
  MaxFlow MaxFlowProofs GacCardinalitySpec GacCardinality.
From Verif Require GacNetworkProofs GacFlowProofs GacCutProofs.
Import ListNotations.
Local Open Scope Z_scope.

(** ** Looking for a value in the cover *)
Lemma bisect_true values x fuel : forall first len, (len <= fuel)%nat -> (first + len <= length values)%nat -> ((first + len < length values)%nat -> x <= nth (first + len) values 0) ->
  bisect fuel values x first len = true -> In x values.
Proof.
  assert (Last : forall first, ((first < length values)%nat -> x <= nth first values 0) -> match nth_error values first with Some y => negb (x <? y) | None => false end = true -> In x values).
  { intros first H E. destruct (nth_error values first) as [y|] eqn:N; [|discriminate]. apply nth_error_In in N as I. assert (first < length values)%nat by (apply nth_error_Some; congruence). apply (nth_error_nth _ _ 0) in N. rewrite N in H. apply negb_true_iff, Z.ltb_ge in E.
    replace x with y by (specialize (H ltac:(assumption)); lia). assumption. }
  induction fuel as [|fuel IH]; intros first len Lf Ll H E; cbn [bisect] in E.
  - assert (len = O) by lia. subst len. rewrite Nat.add_0_r in H. now apply (Last first).
  - destruct (Nat.eqb_spec len 0) as [->|N0]; [rewrite Nat.add_0_r in H; now apply (Last first)|]. set (half := Nat.div2 len) in *. assert (half < len)%nat by (apply Nat.lt_div2; lia).
    destruct (Z.ltb_spec (nth (first + half) values 0) x) as [L|L].
    + apply (IH (first + half + 1) (len - half - 1))%nat; [lia|lia| |assumption]. replace (first + half + 1 + (len - half - 1))%nat with (first + len)%nat by lia. assumption.
    + apply (IH first half); [lia|lia| |assumption]. intros _. lia.
Qed.

Lemma in_cover_true values x : in_cover values x = true -> In x values.
Proof. unfold in_cover. apply bisect_true; simpl; lia. Qed.

Lemma sorted_nth values i j : StronglySorted Z.lt values -> (i < j)%nat -> (j < length values)%nat -> nth i values 0 < nth j values 0.
Proof.
  intro S. revert i j. induction S as [|y r S IH F]; intros i j Lij Lj; [simpl in Lj; lia|]. simpl in Lj. destruct j as [|j]; [lia|]. destruct i as [|i]; cbn [nth].
  - rewrite Forall_forall in F. apply F. apply nth_In. lia.
  - apply IH; lia.
Qed.

Lemma bisect_sorted values x p : StronglySorted Z.lt values -> (p < length values)%nat -> nth p values 0 = x -> forall fuel first len, (len <= fuel)%nat -> (first <= p)%nat -> (first + len <= length values)%nat -> ((first + len < length values)%nat -> x <= nth (first + len) values 0) ->
  bisect fuel values x first len = true.
Proof.
  intros S Lp Ep.
  assert (Last : forall first, (first <= p)%nat -> match nth_error values first with Some y => negb (x <? y) | None => false end = true).
  { intros first L. destruct (nth_error values first) as [y|] eqn:N; [|apply nth_error_None in N; lia]. apply (nth_error_nth _ _ 0) in N. apply negb_true_iff, Z.ltb_ge.
    destruct (Nat.eq_dec first p) as [->|Ne]; [lia|]. pose proof (sorted_nth values first p S ltac:(lia) Lp). lia. }
  induction fuel as [|fuel IH]; intros first len Lf L1 L2 H; cbn [bisect]; [now apply Last|]. destruct (Nat.eqb_spec len 0) as [->|N0]; [now apply Last|].
  set (half := Nat.div2 len) in *. assert (half < len)%nat by (apply Nat.lt_div2; lia). destruct (Z.ltb_spec (nth (first + half) values 0) x) as [L|L].
  - apply IH; try lia.
    + destruct (Nat.ltb_spec p (first + half + 1)); [exfalso|lia]. destruct (Nat.eq_dec p (first + half)) as [E|Ne]; [rewrite <- E in L; lia|]. pose proof (sorted_nth values p (first + half) S ltac:(lia) ltac:(lia)). lia.
    + replace (first + half + 1 + (len - half - 1))%nat with (first + len)%nat by lia. assumption.
  - apply IH; try lia.
Qed.

Lemma in_cover_sorted values x : StronglySorted Z.lt values -> in_cover values x = true <-> In x values.
Proof.
  intro S. split; [apply in_cover_true|]. intro I. apply (In_nth _ _ 0) in I. destruct I as (p & Lp & Ep). unfold in_cover. apply (bisect_sorted values x p); auto; simpl; lia.
Qed.

Lemma sorted_NoDup values : StronglySorted Z.lt values -> NoDup values.
Proof. induction 1 as [|y r S IH F]; constructor; [|assumption]. intro I. rewrite Forall_forall in F. specialize (F y I). lia. Qed.

(** ** Counting by position *)
Lemma sum_how_many {X} (p : X -> bool) (d : X) l : sum_over (fun i => if p (nth i l d) then 1 else 0) (seq 0 (length l)) = how_many p l.
Proof.
  induction l as [|x l IH]; [reflexivity|]. rewrite how_many_cons, <- IH. cbn [length seq]. rewrite <- seq_shift. unfold sum_over at 1. cbn [fold_right]. rewrite <- (sum_map S (fun i => if p (nth i (x :: l) d) then 1 else 0)). reflexivity.
Qed.

Section Gac.
Variable nv : nat.
Variable closed : bool.
Variables (vars : list var_id) (values : list Z) (counts : list var_id).
Hypothesis Bv : Forall (var_below nv) vars.
Hypothesis Bc : Forall (var_below nv) counts.
Hypothesis Len : length values = length counts.

Local Notation m := (length values).
Local Notation n := (length vars).
Local Notation var := (the_var vars).
Local Notation value := (the_value values).
Local Notation count := (the_count counts).
Local Notation c := (combine values counts).

Lemma var_In i : (i < n)%nat -> In (var i) vars.
Proof. apply nth_In. Qed.

Lemma count_In j : (j < m)%nat -> In (count j) counts.
Proof. intro H. apply nth_In. lia. Qed.

Lemma value_In j : (j < m)%nat -> In (value j) values.
Proof. apply nth_In. Qed.

Lemma value_at x : In x values -> exists j, (j < m)%nat /\ value j = x.
Proof. intro I. now apply (In_nth _ _ 0) in I. Qed.

Lemma pair_In j : (j < m)%nat -> In (value j, count j) c.
Proof. intro H. unfold the_value, the_count. rewrite <- combine_nth by assumption. apply nth_In. rewrite combine_length, <- Len, Nat.min_id. assumption. Qed.

Lemma count_below' e : In e c -> var_below nv (snd e).
Proof. intro I. destruct e as [x k]. apply in_combine_r in I. rewrite Forall_forall in Bc. now apply Bc. Qed.

Lemma var_below' i : (i < n)%nat -> var_below nv (var i).
Proof. intro H. rewrite Forall_forall in Bv. apply Bv. now apply var_In. Qed.

Lemma right_counts_direct a : Forall2 (fun x k => var_value a k = times_taken vars a x) values counts -> right_counts vars c a.
Proof. unfold right_counts. clear. induction 1 as [|x k xs ks E _ IH]; [constructor|]. cbn [combine]. constructor; [exact E|exact IH]. Qed.

(** ** The counts *)
Lemma pin_count_goes D (P : assignment -> Prop) e : In e c -> (forall a, P a -> right_counts vars c a) -> goes nv D P (pin_count vars e).
Proof.
  intros Ie HP. pose proof (count_below' e Ie) as Be. unfold pin_count. apply goes_look. intros d Hd Ld Id. destruct e as [x k]. rewrite bounds_spec. cbn [snd] in Be.
  assert (T : forall a, P a /\ within a d -> var_value a k = how_many (fun v => var_value a v =? x) vars) by (intros a [Pa _]; apply (count_fact vars c a (x, k)); auto).
  assert (U : forall a, P a /\ within a d -> how_many (fun v => in_domain d v x && has_single_value d v) vars <= var_value a k <= how_many (fun v => in_domain d v x) vars).
  { intros a Pa. rewrite (T a Pa). destruct Pa as [_ Wa]. split; [now apply (must_count nv)|now apply (can_count nv)]. }
  apply (goes_then nv d (fun a => P a /\ within a d) (infer_when _ _)); apply goes_when; intros _; (split; [exact Be|]); intros a Pa; [apply lit_ge|apply lit_le]; apply U in Pa; lia.
Qed.

Lemma pin_count_passes a e : passes nv a (pin_count vars e) (fun d =>
    (lower_bound d (snd e) < how_many (fun v => in_domain d v (fst e) && has_single_value d v) vars -> how_many (fun v => in_domain d v (fst e) && has_single_value d v) vars <= var_value a (snd e)) /\
    (how_many (fun v => in_domain d v (fst e)) vars < upper_bound d (snd e) -> var_value a (snd e) <= how_many (fun v => in_domain d v (fst e)) vars)).
Proof.
  destruct e as [x k]. cbn [fst snd]. unfold pin_count.
  apply (passes_look nv a _ (fun d _ => (lower_bound d k < how_many (fun v => in_domain d v x && has_single_value d v) vars -> how_many (fun v => in_domain d v x && has_single_value d v) vars <= var_value a k) /\
      (how_many (fun v => in_domain d v x) vars < upper_bound d k -> var_value a k <= how_many (fun v => in_domain d v x) vars))).
  intros d Hd Ld. rewrite bounds_spec. set (can := how_many (fun v => in_domain d v x) vars). set (must := how_many (fun v => in_domain d v x && has_single_value d v) vars).
  pose proof (passes_then nv a _ _ _ _ (passes_when nv a (lower_bound d k <? must) (LCond (cond_ge k must))) (passes_when nv a (can <? upper_bound d k) (LCond (cond_le k can)))) as T. cbv beta in T.
  eapply passes_weaken; [|exact T]. intros d' _ _ _ (A & d2 & _ & _ & _ & _ & B). split; intro C; [apply Z.ltb_lt in C; specialize (A C); now apply lit_ge in A|apply Z.ltb_lt in C; specialize (B C); now apply lit_le in B].
Qed.

Lemma pin_count_fixed a e : var_below nv (snd e) -> passes nv a (pin_count vars e) (fun d => Forall (fixed d) vars -> fixed d (snd e) -> var_value a (snd e) = times_taken vars a (fst e)).
Proof.
  intro Be. eapply passes_weaken; [|apply pin_count_passes]. destruct e as [x k]. cbn [fst snd] in *. intros d Hd Ld Wa [A B] F Fc. rewrite times_taken_spec. rewrite Forall_forall in F.
  rewrite (how_many_ext (fun v => in_domain d v x && has_single_value d v) (fun v => var_value a v =? x) vars) in A by (intros v Iv; destruct (fixed_value nv vars Bv d v a Hd Ld Iv (F v Iv) Wa x) as [E1 E2]; rewrite E1, E2; apply andb_true_r).
  rewrite (how_many_ext (fun v => in_domain d v x) (fun v => var_value a v =? x) vars) in B by (intros v Iv; now destruct (fixed_value nv vars Bv d v a Hd Ld Iv (F v Iv) Wa x) as [E1 _]).
  assert (Kc : var_known d k) by (apply (known_here nv); auto). destruct (fixed_bounds d k a Hd Kc Fc Wa) as [L U]. lia.
Qed.

Lemma pin_count_nonneg a e : var_below nv (snd e) -> passes nv a (pin_count vars e) (fun _ => 0 <= var_value a (snd e)).
Proof.
  intro Be. eapply passes_weaken; [|apply pin_count_passes]. destruct e as [x k]. cbn [fst snd] in *. intros d Hd Ld Wa [A _]. pose proof (how_many_nonneg (fun v => in_domain d v x && has_single_value d v) vars).
  assert (Kc : var_known d k) by (apply (known_here nv); auto). destruct (value_bounds d k a Hd Kc Wa). destruct (Z.ltb_spec (lower_bound d k) (how_many (fun v => in_domain d v x && has_single_value d v) vars)); lia.
Qed.

(** ** Assignments *)
Section At.
Variable d : domains.
Hypothesis Hd : domains_ok d.
Hypothesis Ld : length d = nv.

Local Notation dom := (fun j i => in_domain d (var i) (value j)).
Local Notation free := (fun i => existsb (fun x => negb (in_cover values x)) (each_value d (var i))).
Local Notation low := (fun j => lower_bound d (count j)).
Local Notation high := (fun j => upper_bound d (count j)).
Local Notation confined := (fun hall i => forallb (fun x => existsb (fun j => hall j && (value j =? x)) (seq 0 m)) (each_value d (var i))).
Local Notation allowed := (GacFlowProofs.allowed m n dom free closed low high).
Local Notation loose := (GacNetworkProofs.loose free closed).

Lemma var_known' i : (i < n)%nat -> var_known d (var i).
Proof. intro H. apply (known_here nv); auto. now apply var_below'. Qed.

Lemma count_known j : (j < m)%nat -> var_known d (count j).
Proof. intro H. apply (known_here nv); auto. rewrite Forall_forall in Bc. apply Bc. now apply count_In. Qed.

Lemma dom_member j i : (i < n)%nat -> dom j i = true <-> view_member d (var i) (value j).
Proof. intro H. apply in_domain_spec; auto. now apply var_known'. Qed.

Definition of_assignment (a : assignment) (i : nat) : option nat := find (fun j => value j =? var_value a (var i)) (seq 0 m).

Lemma of_assignment_some a i j : of_assignment a i = Some j -> (j < m)%nat /\ value j = var_value a (var i).
Proof. intro E. apply find_some in E. destruct E as [J E]. apply in_seq in J. apply Z.eqb_eq in E. split; [lia|assumption]. Qed.

Lemma of_assignment_none a i : of_assignment a i = None -> ~ In (var_value a (var i)) values.
Proof.
  intros E I. apply value_at in I. destruct I as (j & Hj & Ej). pose proof (find_none _ _ E j ltac:(apply in_seq; lia)) as N. cbn beta in N. rewrite Ej, Z.eqb_refl in N. discriminate.
Qed.

Lemma value_inj j j' : NoDup values -> (j < m)%nat -> (j' < m)%nat -> value j = value j' -> j = j'.
Proof. intros ND Hj Hj' E. apply (proj1 (NoDup_nth values 0) ND); auto. Qed.

Lemma of_assignment_takes a i j : NoDup values -> (j < m)%nat -> GacFlowProofs.takes (of_assignment a) j i = (var_value a (var i) =? value j).
Proof.
  intros ND Hj. unfold GacFlowProofs.takes. destruct (of_assignment a i) as [j'|] eqn:E.
  - destruct (of_assignment_some a i j' E) as [Hj' Ev]. rewrite <- Ev. destruct (Nat.eqb_spec j' j) as [->|Ne]; [now rewrite Z.eqb_refl|]. symmetry. apply Z.eqb_neq. intro K. apply Ne. now apply value_inj.
  - apply of_assignment_none in E. symmetry. apply Z.eqb_neq. intro K. apply E. rewrite K. now apply value_In.
Qed.

Lemma of_assignment_allowed a : NoDup values -> within a d -> cardinalities closed vars values counts a -> allowed (of_assignment a).
Proof.
  intros ND Wa [R Cl]. split.
  - intros i Hi. pose proof (value_listed d (var i) a Hd (var_known' i Hi) Wa) as Iv. destruct (of_assignment a i) as [j|] eqn:E.
    + destruct (of_assignment_some a i j E) as [Hj Ev]. split; [assumption|]. apply dom_member; [assumption|]. rewrite Ev. now apply each_value_In.
    + apply of_assignment_none in E. unfold GacNetworkProofs.loose. destruct closed.
      * exfalso. specialize (Cl eq_refl). rewrite Forall_forall in Cl. apply E, Cl. now apply var_In.
      * cbn [negb andb]. apply existsb_exists. exists (var_value a (var i)). split; [assumption|]. destruct (in_cover values (var_value a (var i))) eqn:C; [|reflexivity]. apply in_cover_true in C. contradiction.
  - intros j Hj. assert (E : GacFlowProofs.taken n (of_assignment a) j = var_value a (count j)).
    { apply right_counts_direct in R. pose proof (count_fact vars c a (value j, count j) R (pair_In j Hj)) as F. cbn [fst snd] in F. rewrite F. unfold GacFlowProofs.taken.
      rewrite <- (sum_how_many (fun v => var_value a v =? value j) (VConst 0) vars). apply sum_ext. intros i _. now rewrite of_assignment_takes. }
    rewrite E. apply value_bounds; auto. now apply count_known.
Qed.

Lemma verdict_sound a : NoDup values -> (closed = false -> StronglySorted Z.lt values) -> within a d -> cardinalities closed vars values counts a ->
  exists pairs dummies, gac_verdict closed vars values counts d = Prunes pairs dummies /\
  (forall j i, In (j, i) pairs -> (i < n)%nat /\ var_value a (var i) <> value j) /\ (forall i x, In i dummies -> (i < n)%nat /\ (in_cover values x = false -> var_value a (var i) <> x)).
Proof.
  intros ND Srt Wa S. pose proof (of_assignment_allowed a ND Wa S) as Al. unfold gac_verdict.
  destruct (GacCutProofs.judge_sound m n dom free closed low high confined _ Al) as (pairs & dummies & E & E1 & E2). exists pairs, dummies. split; [exact E|].
  assert (Rng : (forall j i, In (j, i) pairs -> (j < m)%nat /\ (i < n)%nat) /\ forall i, In i dummies -> (i < n)%nat /\ closed = false).
  { unfold judge in E. destruct (run_flow m n dom free closed low high) as [[f r]|]; [|discriminate]. destruct (f =? need m n dom free closed low high); [|destruct (explain_no_flow _ _ _ _ _ _ _ _ _); discriminate].
    injection E as <- <-. split; [intros j i J; apply GacFlowProofs.crossing_In in J; tauto|]. intros i J. apply GacFlowProofs.crossing_dummy_In in J. destruct J as (Hi & L & _). split; [assumption|]. unfold GacNetworkProofs.loose in L. destruct closed; [discriminate|reflexivity]. }
  split.
  - intros j i J. destruct (proj1 Rng j i J) as [Hj Hi]. split; [assumption|]. intro Ev. apply (E1 j i J). unfold of_assignment. destruct (find _ _) as [j'|] eqn:F.
    + destruct (of_assignment_some a i j' F) as [Hj' Ej]. f_equal. apply value_inj; auto. congruence.
    + apply of_assignment_none in F. exfalso. apply F. rewrite Ev. now apply value_In.
  - intros i x J. destruct (proj2 Rng i J) as [Hi Cl]. split; [assumption|]. intros C Ev. specialize (E2 i J). destruct (of_assignment a i) as [j|] eqn:F; [|contradiction]. destruct (of_assignment_some a i j F) as [Hj Ej].
    assert (in_cover values x = true); [|congruence]. apply in_cover_sorted; [now apply Srt|]. rewrite <- Ev, <- Ej. now apply value_In.
Qed.

(** *** What the variables can take *)
Lemma confined_covered : closed = false \/ Forall (takes_only d values) vars -> GacCutProofs.covered m n dom free closed confined.
Proof.
  intros H i Hi. pose proof (var_known' i Hi) as K.
  assert (IN : loose i = false -> forall x, view_member d (var i) x -> exists j, (j < m)%nat /\ value j = x /\ dom j i = true).
  { intros Lo x Vx. assert (I : In x values).
    { destruct H as [Cl|T]; [|rewrite Forall_forall in T; apply (T (var i)); [now apply var_In|assumption]]. apply in_cover_true. destruct (in_cover values x) eqn:C; [reflexivity|exfalso].
      unfold GacNetworkProofs.loose in Lo. rewrite Cl in Lo. cbn [negb andb] in Lo. rewrite <- not_true_iff_false in Lo. apply Lo. apply existsb_exists. exists x. split; [now apply each_value_In|now rewrite C]. }
    apply value_at in I. destruct I as (j & Hj & Ej). exists j. repeat split; auto. apply dom_member; [assumption|]. now rewrite Ej. }
  split.
  - destruct (loose i) eqn:Lo; [now left|]. right. destruct (lower_bound_spec d (var i) Hd K) as [L _]. destruct (IN eq_refl _ L) as (j & Hj & _ & Dj). now exists j.
  - intros hv Lo Hv. apply forallb_forall. intros x Ix. apply each_value_In in Ix. destruct (IN Lo x Ix) as (j & Hj & Ej & Dj). apply existsb_exists. exists j. split; [apply in_seq; lia|]. rewrite (Hv j Hj Dj), Ej. cbn [andb]. apply Z.eqb_refl.
Qed.

Lemma verdict_never_throws : (forall j, (j < m)%nat -> 0 <= low j) -> gac_verdict closed vars values counts d <> Throws.
Proof.
  intro Hl. unfold gac_verdict. apply GacCutProofs.judge_never_throws.
  - intros j Hj. split; [now apply Hl|]. apply lower_le_upper; auto. now apply count_known.
  - destruct closed eqn:Cl; [now left|right]. rewrite <- Cl. apply confined_covered. now left.
Qed.

(** *** Values for an allowed assignment *)
Definition values_of (asg : nat -> option nat) (k : nat) (x : Z) (i : nat) : Z :=
  match asg i with
  | Some j => value j
  | None => if Nat.eqb i k then x else match find (fun y => negb (in_cover values y)) (each_value d (var i)) with Some y => y | None => 0 end
  end.

Lemma values_of_member asg k x i : allowed asg -> (i < n)%nat -> (i = k -> view_member d (var i) x) -> view_member d (var i) (values_of asg k x i).
Proof.
  intros [Al _] Hi Hx. specialize (Al i Hi). unfold values_of. destruct (asg i) as [j|]; [apply dom_member; tauto|]. destruct (Nat.eqb_spec i k) as [E|_]; [now apply Hx|].
  unfold GacNetworkProofs.loose in Al. apply andb_prop in Al. destruct Al as [_ Al]. apply existsb_exists in Al. destruct Al as (y & Iy & Cy). destruct (find _ _) as [z|] eqn:F.
  - apply find_some in F. destruct F as [Iz _]. now apply each_value_In.
  - pose proof (find_none _ _ F y Iy). cbn beta in *. congruence.
Qed.

Lemma values_of_outside asg k x i : (closed = false -> StronglySorted Z.lt values) -> allowed asg -> (i < n)%nat -> asg i = None -> (i = k -> ~ In x values) -> ~ In (values_of asg k x i) values.
Proof.
  intros Srt [Al _] Hi E Hx. specialize (Al i Hi). unfold values_of. rewrite E in *. destruct (Nat.eqb_spec i k) as [Ek|_]; [now apply Hx|].
  unfold GacNetworkProofs.loose in Al. apply andb_prop in Al. destruct Al as [Cl Al]. apply negb_true_iff in Cl. apply existsb_exists in Al. destruct Al as (y & Iy & Cy). destruct (find _ _) as [z|] eqn:F.
  - apply find_some in F. destruct F as [_ Cz]. apply negb_true_iff in Cz. intro I. apply (in_cover_sorted values z (Srt Cl)) in I. congruence.
  - pose proof (find_none _ _ F y Iy). cbn beta in *. congruence.
Qed.

Lemma count_occ_how_many ys x : Z.of_nat (count_occ Z.eq_dec ys x) = how_many (fun y => y =? x) ys.
Proof. induction ys as [|y ys IH]; [reflexivity|]. rewrite how_many_cons, <- IH. cbn [count_occ]. destruct (Z.eq_dec y x) as [->|N]; [rewrite Z.eqb_refl; lia|]. apply Z.eqb_neq in N. rewrite N. lia. Qed.

Lemma Forall2_nth_intro {X Y} (R : X -> Y -> Prop) dx dy l l' : length l = length l' -> (forall i, (i < length l)%nat -> R (nth i l dx) (nth i l' dy)) -> Forall2 R l l'.
Proof.
  revert l'. induction l as [|x l IH]; intros [|y l'] E H; try discriminate; constructor; [exact (H O ltac:(simpl; lia))|]. apply IH; [now injection E|]. intros i Hi. exact (H (S i) ltac:(simpl; lia)).
Qed.

Lemma allowed_support asg k x : NoDup values -> (closed = false -> StronglySorted Z.lt values) -> allowed asg -> (k < n)%nat -> view_member d (var k) x ->
  match asg k with Some j => value j = x | None => ~ In x values end ->
  exists ys, cardinality_support d closed vars values counts ys /\ nth_error ys k = Some x.
Proof.
  intros ND Srt Al Hk Vx Ax. set (y := values_of asg k x). exists (map y (seq 0 n)).
  assert (Ey : forall i, (i < n)%nat -> nth i (map y (seq 0 n)) 0 = y i). { intros i Hi. rewrite (nth_indep _ 0 (y O)) by (rewrite map_length, seq_length; assumption). rewrite map_nth, seq_nth by assumption. reflexivity. }
  assert (Out : forall i, (i < n)%nat -> asg i = None -> ~ In (y i) values).
  { intros i Hi E. apply (values_of_outside asg k x i Srt Al Hi E). intros ->. now rewrite E in Ax. }
  split; [split; [|split]|].
  - apply (Forall2_nth_intro _ (VConst 0) 0); [now rewrite map_length, seq_length|]. intros i Hi. rewrite Ey by assumption. apply values_of_member; auto. intros ->. assumption.
  - apply (Forall2_nth_intro _ 0 (VConst 0)); [assumption|]. intros j Hj. fold (value j) (count j). rewrite count_occ_how_many.
    assert (E : how_many (fun z => z =? value j) (map y (seq 0 n)) = GacFlowProofs.taken n asg j).
    { rewrite <- (sum_how_many _ 0). rewrite map_length, seq_length. unfold GacFlowProofs.taken. apply sum_ext. intros i J. apply in_seq in J. rewrite Ey by lia. unfold GacFlowProofs.takes.
      destruct (asg i) as [j'|] eqn:Ea.
      - unfold y, values_of. rewrite Ea. destruct Al as [Al _]. specialize (Al i ltac:(lia)). rewrite Ea in Al. destruct Al as [Hj' _]. destruct (Nat.eqb_spec j' j) as [->|Ne]; [now rewrite Z.eqb_refl|].
        destruct (Z.eqb_spec (value j') (value j)) as [K|]; [|reflexivity]. exfalso. apply Ne. now apply value_inj.
      - destruct (Z.eqb_spec (y i) (value j)) as [K|]; [|reflexivity]. exfalso. apply (Out i ltac:(lia) Ea). rewrite K. now apply value_In. }
    rewrite E. apply Al. assumption.
  - intro Cl. apply Forall_forall. intros z Iz. apply in_map_iff in Iz. destruct Iz as (i & <- & J). apply in_seq in J. destruct Al as [Al _]. specialize (Al i ltac:(lia)). unfold y, values_of. destruct (asg i) as [j|]; [apply value_In; tauto|].
    unfold GacNetworkProofs.loose in Al. rewrite Cl in Al. discriminate.
  - rewrite nth_error_map. rewrite (nth_error_nth' (seq 0 n) O) by (rewrite seq_length; assumption). rewrite seq_nth by assumption. cbn [option_map Nat.add]. f_equal. unfold y, values_of. destruct (asg k) as [j|]; [assumption|]. now rewrite Nat.eqb_refl.
Qed.
End At.

(** ** The flow *)
Lemma flow_pass_tells D (P : assignment -> Prop) : NoDup values -> (closed = false -> StronglySorted Z.lt values) -> (forall a, P a -> cardinalities closed vars values counts a) -> tells nv D P (flow_pass closed vars values counts).
Proof.
  intros ND Srt HP. unfold flow_pass. cbn [tells]. intros d Hd Ld Id.
  pose proof (fun a (H : P a /\ within a d) => verdict_sound d Hd Ld a ND Srt (proj2 H) (HP a (proj1 H))) as VS.
  destruct (gac_verdict closed vars values counts d) as [| | |pairs dummies] eqn:V; [|exact Logic.I|exact Logic.I|].
  - cbn [tells]. split; [exact Logic.I|]. split; [|exact Logic.I]. intros a H. destruct (VS a H) as (p & q & E & _). discriminate.
  - assert (VS' : forall a, P a /\ within a d -> (forall j i, In (j, i) pairs -> var_value a (var i) <> value j) /\ (forall i x, In i dummies -> in_cover values x = false -> var_value a (var i) <> x)).
    { intros a H. destruct (VS a H) as (p & q & E & E1 & E2). injection E as <- <-. split; [intros j i J; now apply (E1 j i J)|]. intros i x J C. now apply (E2 i x J). }
    assert (Rng : (forall j i, In (j, i) pairs -> (i < n)%nat) /\ forall i, In i dummies -> (i < n)%nat).
    { unfold gac_verdict, judge in V. destruct (run_flow _ _ _ _ _ _ _) as [[f r]|]; [|discriminate]. destruct (f =? need _ _ _ _ _ _ _); [|destruct (explain_no_flow _ _ _ _ _ _ _ _ _); discriminate].
      injection V as <- <-. split; [intros j i J; apply GacFlowProofs.crossing_In in J; tauto|]. intros i J. apply GacFlowProofs.crossing_dummy_In in J. tauto. }
    assert (G : goes nv d (fun a => P a /\ within a d) (fun rest => sequence pairs (fun p => Infer (LCond (cond_ne (var (snd p)) (value (fst p)))))
          (sequence dummies (fun i rest => Look (fun d => sequence (each_value d (var i)) (fun x => infer_when (negb (in_cover values x)) (LCond (cond_ne (var i) x))) rest)) rest))).
    { apply (goes_then nv d _ (sequence pairs _) (sequence dummies _)).
      - apply goes_sequence. intros [j i] J. cbn [fst snd]. apply goes_infer; [apply var_below'; now apply (proj1 Rng j)|]. intros a H. apply lit_ne. now apply (proj1 (VS' a H)).
      - apply goes_sequence. intros i J. apply goes_look. intros d' Hd' Ld' Id'. apply goes_sequence. intros x Ix. apply goes_when. intro C. apply negb_true_iff in C. split; [apply var_below'; now apply (proj2 Rng)|].
        intros a [H _]. apply lit_ne. now apply (proj2 (VS' a H)). }
    apply (G d _ Stop); auto; [apply inside_refl|]. intros F _. exact Logic.I.
Qed.

Lemma gac_pass_tells D (P : assignment -> Prop) : NoDup values -> (closed = false -> StronglySorted Z.lt values) -> (forall a, P a -> cardinalities closed vars values counts a) -> tells nv D P (gac_pass closed vars values counts).
Proof.
  intros ND Srt HP. unfold gac_pass.
  assert (G : goes nv D P (sequence c (pin_count vars))) by (apply goes_sequence; intros e Ie; apply pin_count_goes; auto; intros a Pa; apply right_counts_direct; now apply HP).
  apply (G D P); auto; [apply inside_refl|]. intros F _. now apply flow_pass_tells.
Qed.

Lemma gac_pass_meets d0 alias (sat : assignment -> Prop) : NoDup values -> (closed = false -> StronglySorted Z.lt values) -> (forall a, sat a -> cardinalities closed vars values counts a) ->
  meets nv d0 alias (once (gac_pass closed vars values counts)) (vars ++ counts) sat (right_counts vars c).
Proof.
  intros ND Srt HS. apply once_meets.
  - intros d Hd Ld Id. apply gac_pass_tells; auto. intros a [Sa _]. auto.
  - intros d a Hd Ld Id F Wa O. apply Forall_app in F. destruct F as [Fv Fc]. unfold gac_pass in O.
    destruct (passes_sequence nv a (pin_count vars) (fun e d => Forall (fixed d) vars -> fixed d (snd e) -> var_value a (snd e) = times_taken vars a (fst e)) c) with (rest := flow_pass closed vars values counts) (d := d) as [X _]; auto.
    { intros e Ie. apply pin_count_fixed. now apply count_below'. }
    apply Forall_forall. intros e Ie. destruct (X e Ie) as (d' & Hd' & Ld' & Wa' & Id' & Q). apply Q.
    + apply Forall_forall. intros v Iv. rewrite Forall_forall in Fv, Bv. apply (fixed_mono d d'); auto; try (apply (known_here nv); auto).
    + rewrite Forall_forall in Fc. apply (fixed_mono d d'); auto; try (apply (known_here nv); auto; now apply count_below'). apply Fc. destruct e as [x k]. now apply in_combine_r in Ie.
Qed.

(** ** No exception *)
Lemma after_counts d : domains_ok d -> length d = nv -> let t := exec (sequence c (pin_count vars) Stop) (track d) in t_failed t = false -> gac_verdict closed vars values counts (t_domains t) <> Throws.
Proof.
  intros Hd Ld t F.
  assert (T : tells nv d (right_counts vars c) (sequence c (pin_count vars) Stop)).
  { assert (G : goes nv d (right_counts vars c) (sequence c (pin_count vars))) by (apply goes_sequence; intros e Ie; apply pin_count_goes; auto).
    apply (G d _ Stop); auto; [apply inside_refl|]. intros E _. exact Logic.I. }
  destruct (exec_size_tells nv d Hd Ld _ _ _ (track d) (fun _ => inside_refl _) T (legit_track _ _)) as [G _]. fold t in G.
  pose proof (legit_ok _ _ Hd Ld _ G F) as Ok. pose proof (legit_length _ _ Hd Ld _ G) as Ln.
  apply verdict_never_throws; auto. intros j Hj. pose proof (count_known (t_domains t) Ln j Hj) as K. destruct (lower_at (t_domains t) (count j) Ok K) as (a & Wa & <-).
  destruct (exec_obeys nv d Hd Ld a _ _ _ (track d) (fun _ => inside_refl _) T (legit_track _ _)) as (_ & Wi & O); [split; [assumption|]; split; [assumption|]; assumption|].
  destruct (passes_sequence nv a (pin_count vars) (fun e _ => 0 <= var_value a (snd e)) c) with (rest := Stop) (d := d) as [X _]; auto.
  { intros e Ie. apply pin_count_nonneg. now apply count_below'. }
  destruct (X _ (pair_In j Hj)) as (_ & _ & _ & _ & _ & Q). exact Q.
Qed.

(** ** At rest *)
Section Rest.
Variable d : domains.
Hypothesis Hd : domains_ok d.
Hypothesis Ld : length d = nv.

Lemma pin_count_rests e : In e c -> rests d (pin_count vars e) (0 <= lower_bound d (snd e)).
Proof.
  intros Ie. pose proof (count_below' e Ie) as Be. destruct e as [x k]. cbn [snd] in *. unfold pin_count. apply rests_look. rewrite bounds_spec.
  eapply rests_weaken; [|exact (rests_then d _ _ _ _ (rests_ge nv d Hd Ld k _ _ Be eq_refl) (rests_le nv d Hd Ld k _ _ Be eq_refl))].
  intros [A _]. pose proof (how_many_nonneg (fun v => in_domain d v x && has_single_value d v) vars). lia.
Qed.

Lemma closed_pass_rests xs : still (closed_pass vars xs) d -> Forall (takes_only d xs) vars.
Proof.
  intro S. unfold closed_pass in S.
  assert (R : rests d (sequence vars (fun v rest => Look (fun d => sequence (uncovered_runs xs d v) (fun run => Infer (LCond (mk_cond v OpNotInRange (fst run) (snd run)))) rest))) (forall v, In v vars -> takes_only d xs v)).
  { apply rests_sequence. intros v Iv. apply rests_look. eapply rests_weaken; [|apply (rests_sequence d _ (fun run : Z * Z => forall a, within a d -> lit_holds a (LCond (mk_cond v OpNotInRange (fst run) (snd run)))))]; [|intros run _; apply rests_infer].
    intros H x Vx. destruct (in_dec Z.eq_dec x xs) as [I|N]; [assumption|exfalso]. destruct (uncovered_runs_spec xs d v) as [_ C]. specialize (C x ltac:(now apply each_value_In) N). unfold covered in C. apply Exists_exists in C. destruct C as (run & Ir & Hr).
    apply view_member_iff in Vx; auto; [|apply (known_here nv); auto; rewrite Forall_forall in Bv; auto]. destruct Vx as (a & Wa & <-). exact (H run Ir a Wa Hr). }
  apply Forall_forall. now apply (R Stop).
Qed.

Lemma gac_pass_rests : NoDup values -> (closed = false -> StronglySorted Z.lt values) -> (closed = true -> Forall (takes_only d values) vars) -> still (gac_pass closed vars values counts) d ->
  forall k x, (k < n)%nat -> view_member d (var k) x -> exists ys, cardinality_support d closed vars values counts ys /\ nth_error ys k = Some x.
Proof.
  intros ND Srt Cov S k x Hk Vx. unfold gac_pass in S.
  assert (R1 : rests d (sequence c (pin_count vars)) (forall e, In e c -> 0 <= lower_bound d (snd e))) by (apply rests_sequence; intros e Ie; now apply pin_count_rests).
  destruct (R1 _ S) as [L0 S2]. clear R1 S.
  assert (Hb : forall j, (j < m)%nat -> 0 <= lower_bound d (count j) <= upper_bound d (count j)).
  { intros j Hj. split; [exact (L0 _ (pair_In j Hj))|]. apply lower_le_upper; auto. now apply count_known. }
  assert (Cv : closed = false \/ Forall (takes_only d values) vars) by (destruct closed; auto).
  destruct (within_exists d Hd) as (a0 & W0).
  unfold flow_pass in S2. change (still (match gac_verdict closed vars values counts d with
    | Fails => Infer LFalse Stop | Leaves | Throws => Stop
    | Prunes pairs dummies => sequence pairs (fun p => Infer (LCond (cond_ne (var (snd p)) (value (fst p)))))
          (sequence dummies (fun i rest => Look (fun d => sequence (each_value d (var i)) (fun x => infer_when (negb (in_cover values x)) (LCond (cond_ne (var i) x))) rest)) Stop) end) d) in S2.
  destruct (GacCutProofs.judge_covered m n _ _ closed _ _ _ Hb (confined_covered d Hd Ld Cv)) as [E|(pairs & dummies & E)]; fold (gac_verdict closed vars values counts d) in E; rewrite E in S2.
  { destruct (rests_infer d LFalse Stop S2) as [H _]. destruct (H a0 W0). }
  pose proof (GacCutProofs.judge_complete m n _ _ closed _ _ _ pairs dummies Hb E) as [Full Loose].
  assert (R2 : rests d (sequence pairs (fun p => Infer (LCond (cond_ne (var (snd p)) (value (fst p)))))) (forall p, In p pairs -> forall a, within a d -> lit_holds a (LCond (cond_ne (var (snd p)) (value (fst p)))))) by (apply rests_sequence; intros p _; apply rests_infer).
  destruct (R2 _ S2) as [P1 S3].
  assert (R3 : rests d (sequence dummies (fun i rest => Look (fun d => sequence (each_value d (var i)) (fun x => infer_when (negb (in_cover values x)) (LCond (cond_ne (var i) x))) rest)))
    (forall i, In i dummies -> forall x, In x (each_value d (var i)) -> negb (in_cover values x) = true -> forall a, within a d -> lit_holds a (LCond (cond_ne (var i) x)))).
  { apply rests_sequence. intros i _. apply (rests_look d (fun d => sequence (each_value d (var i)) (fun x => infer_when (negb (in_cover values x)) (LCond (cond_ne (var i) x))))). apply rests_sequence. intros z _. apply rests_when. }
  destruct (R3 _ S3) as [P2 _]. destruct (in_dec Z.eq_dec x values) as [I|N].
  - apply value_at in I. destruct I as (j & Hj & Ej). assert (Dj : in_domain d (var k) (value j) = true) by (apply (dom_member d Hd Ld); [assumption|now rewrite Ej]).
    destruct (Full j k Hj Hk Dj) as (asg & Al & Ea).
    { intro J. specialize (P1 _ J). cbn [fst snd] in P1. apply (not_taken nv d Hd Ld (var k) (value j)); [now apply var_below'|assumption|now rewrite Ej]. }
    apply (allowed_support d Hd Ld asg k x); auto. now rewrite Ea.
  - assert (C : in_cover values x = false) by (destruct (in_cover values x) eqn:C; [apply in_cover_true in C; contradiction|reflexivity]).
    assert (Cl : closed = false). { destruct closed; [|reflexivity]. exfalso. specialize (Cov eq_refl). rewrite Forall_forall in Cov. apply N. apply (Cov (var k)); [now apply var_In|assumption]. }
    assert (Ix : In x (each_value d (var k))) by now apply each_value_In.
    destruct (Loose k Hk) as (asg & Al & Ea).
    { unfold GacNetworkProofs.loose. rewrite Cl. cbn [negb andb]. apply existsb_exists. exists x. split; [assumption|now rewrite C]. }
    { intro J. apply (not_taken nv d Hd Ld (var k) x); [now apply var_below'| |assumption]. apply P2; auto. now rewrite C. }
    apply (allowed_support d Hd Ld asg k x); auto. now rewrite Ea.
Qed.
End Rest.
End Gac.

(** ** The constraint *)
Lemma gac_correct d0 closed vars values counts : NoDup values -> (closed = false -> StronglySorted Z.lt values) -> length values = length counts -> Forall (var_known d0) (vars ++ counts) ->
  correct_on d0 (gac_global_cardinality closed vars values counts) (vars ++ counts) (cardinalities closed vars values counts).
Proof.
  intros ND Srt E K. destruct (cover_parts values counts E) as [P1 P2]. set (c := sort_cover (combine values counts)) in *.
  assert (Bl : forall nv, (length d0 <= nv)%nat -> Forall (var_below nv) vars /\ Forall (var_below nv) counts).
  { intros nv Ln. assert (X : Forall (var_below nv) (vars ++ counts)) by (eapply Forall_impl; [|exact K]; intros v Kv; now apply (known_below_more d0)). now apply Forall_app in X. }
  apply (parts_correct d0 _ _ _ (fun a => (closed = true -> Forall (fun v => In (var_value a v) (map fst c)) vars) /\ right_counts vars (combine values counts) a) (fun _ => True)); auto; unfold gac_global_cardinality; fold c; cbn [fst snd].
  - apply carried_app.
    + unfold closed_propagators. destruct closed; [|eapply carried_ext; [|apply carried_nil]; intros a _ _; discriminate].
      eapply carried_ext; [|apply (carried_body d0 _ vars _ (fun a => Forall (fun v => In (var_value a v) (map fst c)) vars)); auto].
      * intros a _ H _. exact H.
      * intros v I. apply in_app_iff. auto.
      * rewrite !app_nil_r. apply incl_refl.
      * intros nv Ln. apply closed_pass_meets; [now apply Bl|]. intros a v [_ S] Iv. specialize (S eq_refl). rewrite Forall_forall in S. apply (Permutation_in _ P1). now apply S.
    + apply (carried_body d0 _ (vars ++ counts)); auto.
      * apply incl_refl.
      * rewrite app_nil_r. apply incl_refl.
      * intros nv Ln. destruct (Bl nv Ln) as [B1 B2]. apply gac_pass_meets; auto.
  - apply established_nil.
  - intros a _ [A B] _. split.
    + apply right_counts_iff; [assumption|]. unfold right_counts in *. rewrite Forall_forall in *. intros e I. apply B. now apply (Permutation_in _ (Permutation_sym (sort_cover_perm (combine values counts)))).
    + intro C. specialize (A C). rewrite Forall_forall in *. intros v Iv. apply (Permutation_in _ (Permutation_sym P1)). now apply A.
Qed.

Lemma gac_consistent d0 closed vars values counts : NoDup values -> (closed = false -> StronglySorted Z.lt values) -> length values = length counts -> Forall (var_known d0) (vars ++ counts) ->
  forall d, domains_ok d -> length d = length d0 -> Forall (fun p => rerun_is_quiet p d) (fst (gac_global_cardinality closed vars values counts d0)) ->
  forall k v x, nth_error vars k = Some v -> view_member d v x -> exists ys, cardinality_support d closed vars values counts ys /\ nth_error ys k = Some x.
Proof.
  intros ND Srt E K d Hd Ld Q k v x Ek Vx. destruct (cover_parts values counts E) as [P1 P2].
  assert (X : Forall (var_below (length d0)) (vars ++ counts)) by (eapply Forall_impl; [|exact K]; intros w Kw; now apply known_below). apply Forall_app in X. destruct X as [Bv Bc].
  unfold gac_global_cardinality in Q. cbv zeta in Q. cbn [fst] in Q. set (c := sort_cover (combine values counts)) in *. apply Forall_app in Q. destruct Q as [Q1 Q2].
  apply Forall_cons_iff in Q2. destruct Q2 as [Q2 _]. apply (quiet_still (length d0) d Hd Ld _ (cardinalities closed vars values counts)) in Q2; [|now apply gac_pass_tells].
  assert (Hk : (k < length vars)%nat) by (apply nth_error_Some; congruence). apply (nth_error_nth _ _ (VConst 0)) in Ek.
  apply (gac_pass_rests (length d0) closed vars values counts Bv Bc E d Hd Ld ND Srt); auto.
  - intro Cl. rewrite Cl in Q1. cbn [closed_propagators] in Q1. apply Forall_cons_iff in Q1. destruct Q1 as [Q1 _].
    apply (quiet_still (length d0) d Hd Ld _ (fun a => forall v, In v vars -> In (var_value a v) (map fst c))) in Q1; [|apply closed_pass_tells; auto; intros a w H I; now apply H].
    apply (closed_pass_rests (length d0) vars Bv d Hd Ld) in Q1. eapply Forall_impl; [|exact Q1]. intros w T y Vy. apply (Permutation_in _ (Permutation_sym P1)). now apply T.
  - unfold the_var. now rewrite Ek.
Qed.

Lemma gac_never_throws d0 closed vars values counts : length values = length counts -> Forall (var_known d0) (vars ++ counts) ->
  forall d, domains_ok d -> length d = length d0 -> let t := exec (sequence (combine values counts) (pin_count vars) Stop) (track d) in
  t_failed t = false -> gac_verdict closed vars values counts (t_domains t) <> Throws.
Proof.
  intros E K d Hd Ld. assert (X : Forall (var_below (length d0)) (vars ++ counts)) by (eapply Forall_impl; [|exact K]; intros w Kw; now apply known_below). apply Forall_app in X. destruct X as [Bv Bc].
  now apply (after_counts (length d0)).
Qed.

(** ** Maximum flow *)
Lemma sum_over_map f xs : fold_right Z.add 0 (map f xs) = sum_over f xs.
Proof. induction xs as [|x xs IH]; [reflexivity|]. cbn [map fold_right]. rewrite IH. reflexivity. Qed.

Lemma max_flow_best n adj s t c : (forall u v, (u < n)%nat -> In v (adj u) -> (v < n)%nat) -> (s < n)%nat -> (t < n)%nat -> s <> t -> (forall u v, 0 <= c u v) ->
  (forall u v, (u < n)%nat -> (v < n)%nat -> 0 < c u v + c v u -> In v (adj u)) ->
  exists amount r, max_flow n adj s t c = Some (amount, r) /\ is_flow n s t c amount (fun u v => c u v - r u v) /\
  forall amount' f, is_flow n s t c amount' f -> amount' <= amount.
Proof.
  intros Ha Hs Ht Ne Hc Hcov. destruct (max_flow_spec n adj Ha s t Hs Ht Ne c Hc Hcov) as (flow & r & R & E & L & C). exists flow, r. split; [assumption|]. split.
  - destruct L as (A & B & D). split; [intros u v; specialize (A u v); lia|]. split; [intros u v; specialize (B u v); lia|]. intros x Hx. rewrite sum_over_map, (D x Hx).
    destruct (Nat.eqb_spec x t), (Nat.eqb_spec x s); lia.
  - intros amount f (A & B & D). apply (cut_off_best n s t Hs Ht Ne c R r flow L C amount (fun u v => c u v - f u v)). split; [intros u v; specialize (A u v); lia|]. split; [intros u v; specialize (B u v); lia|].
    intros x Hx. rewrite (sum_ext _ (fun v => f v x)) by (intros; lia). rewrite <- sum_over_map, (D x Hx). destruct (Nat.eqb_spec x t), (Nat.eqb_spec x s); lia.
Qed.
