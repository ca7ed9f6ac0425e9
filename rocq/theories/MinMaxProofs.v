(** Lemmas about minimum and maximum. *)
From Coq Require Import ZArith List Bool Arith Lia.
From Verif Require Import IntervalSet IntervalSetSpec IntervalSetProofs Vars VarsSpec VarsProofs State StateSpec StateProofs Epochs
  Engine EngineSpec EngineProofs SessionSpec SessionInvProofs Tracker ContractSpec ContractProofs RunProofs Equals EqualsProofs MinMax.
Import ListNotations.
Local Open Scope Z_scope.

(** ** Optionals that keep the best so far *)

Definition pick (mn : bool) (acc : option Z) (x : Z) : option Z :=
  Some (match acc with None => x | Some o => if mn then Z.min o x else Z.max o x end).

(** [y] is at least as good as [x]. *)
Definition as_good (mn : bool) (y x : Z) : Prop := if mn then y <= x else x <= y.

Lemma pick_fold mn xs : forall acc, match fold_left (pick mn) xs acc with
  | None => acc = None /\ xs = []
  | Some y => (forall x, In x xs \/ acc = Some x -> as_good mn y x) /\ (In y xs \/ acc = Some y)
  end.
Proof.
  induction xs as [|x r IH]; intro acc; simpl.
  - destruct acc as [y|]; [|auto]. split; [|auto]. intros x [[]|[= <-]]. unfold as_good. destruct mn; lia.
  - specialize (IH (pick mn acc x)). destruct (fold_left (pick mn) r (pick mn acc x)) as [y|]; [|destruct IH as [IH _]; discriminate].
    destruct IH as [A B]. unfold pick in *. split.
    + intros z [[<-|I]| ->]; [|apply A; auto|]; (eassert (G : as_good mn y _) by (apply A; right; reflexivity)); unfold as_good in *; destruct mn; try destruct acc; simpl in *; lia.
    + destruct B as [B|B]; [auto|]. injection B as <-. destruct acc as [o|]; [|auto]. destruct mn; [destruct (Z.min_spec o x) as [[_ ->]|[_ ->]]|destruct (Z.max_spec o x) as [[_ ->]|[_ ->]]]; auto.
Qed.

Lemma best_of_spec mn xs : match best_of mn xs with
  | None => xs = []
  | Some y => (forall x, In x xs -> as_good mn y x) /\ In y xs
  end.
Proof.
  pose proof (pick_fold mn xs None) as H. unfold best_of. change (fun acc x => Some match acc with None => x | Some o => if mn then Z.min o x else Z.max o x end) with (pick mn).
  destruct (fold_left (pick mn) xs None) as [y|]; [|now destruct H]. destruct H as [A [B|B]]; [|discriminate]. split; auto.
Qed.

Lemma with_others_spec vars : forall before v others, In (v, others) (with_others before vars) ->
  exists pre post, vars = pre ++ v :: post /\ others = rev before ++ pre ++ post.
Proof.
  induction vars as [|w r IH]; intros before v others I; simpl in I; [contradiction|]. destruct I as [[= <- <-]|I].
  - exists [], r. auto.
  - destruct (IH _ _ _ I) as (pre & post & -> & ->). exists (w :: pre), post. split; [reflexivity|]. simpl. rewrite <- app_assoc. reflexivity.
Qed.

Lemma existsb_ext_in {X} (f g : X -> bool) l : (forall x, In x l -> f x = g x) -> existsb f l = existsb g l.
Proof. induction l as [|x r IH]; intro H; simpl; [reflexivity|]. rewrite (H x (or_introl eq_refl)), IH; [reflexivity|]. intros y I. apply H. now right. Qed.

(** ** The propagator *)

Section MinMax.
Variable nv : nat.
Variable mn : bool.
Variable vars : list var_id.
Variable result : var_id.
Hypothesis Br : var_below nv result.
Hypothesis Bs : Forall (var_below nv) vars.

Definition extremum (a : assignment) : Prop :=
  (exists v, In v vars /\ var_value a result = var_value a v) /\ forall v, In v vars -> as_good mn (var_value a result) (var_value a v).

Lemma below_in v : In v vars -> var_below nv v.
Proof. pose proof (proj1 (Forall_forall _ _) Bs) as F. apply F. Qed.

Section At.
Variable d : domains.
Hypothesis Hd : domains_ok d.
Hypothesis Ld : length d = nv.

Lemma known t v : length (t_domains t) = nv -> In v vars -> var_known (t_domains t) v.
Proof. intros L I. apply (var_below_known nv); auto. now apply below_in. Qed.

Lemma known_result t : length (t_domains t) = nv -> var_known (t_domains t) result.
Proof. intros L. now apply (var_below_known nv). Qed.

Lemma bound_result_honest t : honest nv d extremum t -> honest nv d extremum (bound_result mn vars result t).
Proof.
  intro H. apply honest_for_each; [|assumption]. intros v t' I H'. destruct mn eqn:Em; (apply honest_tell; [auto..|exact Br|exact H'|]);
    intros F Ok L a Wa Wt [_ S]; specialize (S v I); rewrite Em in S; unfold as_good in S;
    pose proof (value_bounds (t_domains t') v a Ok (known t' v L I) Wt); simpl; unfold cond_holds; simpl; lia.
Qed.

Lemma bound_vars_honest t : honest nv d extremum t -> honest nv d extremum (bound_vars mn vars result t).
Proof.
  intro H. unfold bound_vars. apply honest_for_each; [|assumption]. intros v t' I H'. destruct mn eqn:Em;
    (apply honest_tell; [auto..|now apply below_in|exact H'|]); intros F Ok L a Wa Wt Sa; pose proof Sa as [_ S]; specialize (S v I); rewrite Em in S; unfold as_good in S.
  - destruct (honest_within nv d Hd Ld extremum t a H Wa Sa) as [F0 W0]. pose proof H as [G0 _].
    assert (L0 : length (t_domains t) = nv) by now apply (legit_length nv d).
    pose proof (value_bounds (t_domains t) result a (legit_ok nv d Hd Ld t G0 F0) (known_result t L0) W0). simpl; unfold cond_holds; simpl; lia.
  - pose proof (value_bounds (t_domains t') result a Ok (known_result t' L) Wt). simpl; unfold cond_holds; simpl; lia.
Qed.

Lemma result_in_union_honest t : honest nv d extremum t -> honest nv d extremum (result_in_union vars result t).
Proof.
  intro H. unfold result_in_union. apply honest_for_each; [|assumption]. intros x t' I H'.
  destruct (existsb (fun var => in_domain (t_domains t') var x) vars) eqn:E; [assumption|]. apply honest_tell; auto.
  intros F Ok L a Wa Wt [(v & Iv & Ev) _]. simpl; unfold cond_holds; simpl. intros <-.
  assert (X : existsb (fun var => in_domain (t_domains t') var (var_value a result)) vars = true); [|congruence].
  apply existsb_exists. exists v. split; [assumption|]. rewrite Ev. apply value_in_domain; auto. now apply known.
Qed.

Lemma support_of t a : domains_ok (t_domains t) -> length (t_domains t) = nv -> within a (t_domains t) -> forall v, In v vars ->
  var_value a result = var_value a v -> In v (minmax_supports vars result (t_domains t)).
Proof.
  intros Ok L W v Iv Ev. apply filter_In. split; [assumption|]. apply existsb_exists. exists (var_value a v). split.
  - rewrite <- Ev. apply value_listed; auto. now apply known_result.
  - apply value_in_domain; auto. now apply known.
Qed.

Lemma single_support_honest t : honest nv d extremum t -> honest nv d extremum (single_support vars result t).
Proof.
  intro H. pose proof H as [G K]. unfold single_support.
  assert (Sup : forall a, within a d -> extremum a -> t_failed t = false /\ exists v, In v (minmax_supports vars result (t_domains t)) /\ var_value a result = var_value a v).
  { intros a Wa Sa. destruct (honest_within nv d Hd Ld extremum t a H Wa Sa) as [F W]. split; [assumption|]. destruct Sa as [(v & Iv & Ev) _]. exists v. split; [|assumption].
    apply (support_of t a); auto; [now apply (legit_ok nv d)|now apply (legit_length nv d)]. }
  destruct (minmax_supports vars result (t_domains t)) as [|v [|? ?]] eqn:E; [| |assumption].
  - apply honest_tell; auto; [exact Logic.I|]. intros _ _ _ a Wa _ Sa. destruct (Sup a Wa Sa) as (_ & v & [] & _).
  - assert (Iv : In v vars). { assert (X : In v (minmax_supports vars result (t_domains t))) by (rewrite E; now left). now apply filter_In in X. }
    apply (honest_later nv d extremum t); auto; [apply legit_prune_minus; now apply below_in|].
    intros a Wa Sa Ka. destruct (Sup a Wa Sa) as (F & v' & [<-|[]] & Ev). destruct (honest_within nv d Hd Ld extremum t a H Wa Sa) as [_ W].
    assert (Ok : domains_ok (t_domains t)) by now apply (legit_ok nv d). assert (L : length (t_domains t) = nv) by now apply (legit_length nv d).
    apply keeps_prune_minus; auto.
    + apply copy_of_values_spec; auto. now apply known.
    + apply copy_of_values_spec; auto. now apply known_result.
    + rewrite <- Ev. apply value_copied; auto. now apply known_result.
Qed.

Lemma gac_honest t : honest nv d extremum t -> honest nv d extremum (minmax_gac mn vars result t).
Proof.
  intro H. unfold minmax_gac. apply honest_for_each; [|assumption]. intros [v others] t1 I H1. clear H t.
  destruct (with_others_spec _ _ _ _ I) as (pre & post & Ev & Eo). simpl in Eo. subst others. clear I.
  assert (Iv : In v vars) by (rewrite Ev; apply in_elt).
  assert (Io : forall w, In w (pre ++ post) -> In w vars) by (intros w Iw; rewrite Ev; apply in_app_or in Iw; apply in_or_app; simpl; tauto).
  assert (Iw : forall w, In w vars -> w = v \/ In w (pre ++ post)) by (intros w Iw; rewrite Ev in Iw; apply in_app_or in Iw; rewrite in_app_iff; simpl in Iw; destruct Iw as [?|[?|?]]; auto).
  apply honest_for_each; [|assumption]. intros x t I H.
  set (limit := others_limit mn (pre ++ post) (t_domains t1)). set (extreme := other_extreme mn (pre ++ post) result (t_domains t1)).
  destruct (in_domain (t_domains t) result x && within_limit mn limit x || match extreme with None => false | Some e => if mn then e <? x else x <? e end) eqn:E; [assumption|].
  apply honest_tell; auto; [now apply below_in|]. intros F Ok L a Wa Wt Sa. simpl; unfold cond_holds; simpl. intros <-.
  apply orb_false_iff in E. destruct E as [E1 E2].
  destruct (honest_within nv d Hd Ld extremum t1 a H1 Wa Sa) as [F1 W1]. pose proof H1 as [G1 _].
  assert (Ok1 : domains_ok (t_domains t1)) by now apply (legit_ok nv d). assert (L1 : length (t_domains t1) = nv) by now apply (legit_length nv d).
  destruct Sa as [(w & Iww & Ew) Bst].
  (* the result is within the limit the others set *)
  assert (Lim : within_limit mn limit (var_value a result) = true).
  { unfold limit, others_limit. pose proof (best_of_spec mn (map (fun var => if mn then upper_bound (t_domains t1) var else lower_bound (t_domains t1) var) (pre ++ post))) as S.
    destruct (best_of mn _) as [y|]; [|reflexivity]. destruct S as [_ Iy]. apply in_map_iff in Iy. destruct Iy as (u & Ey & Iu).
    specialize (Bst u (Io u Iu)). pose proof (value_bounds (t_domains t1) u a Ok1 (known t1 u L1 (Io u Iu)) W1) as Vb. unfold as_good in Bst. unfold within_limit.
    destruct mn; subst y; apply Z.leb_le; lia. }
  pose proof (Bst v Iv) as Bv. destruct (Z.eq_dec (var_value a result) (var_value a v)) as [E|N].
  - rewrite <- E, Lim, (value_in_domain (t_domains t) result a Ok (known_result t L) Wt) in E1. discriminate.
  - destruct (Iw w Iww) as [->|Iw']; [contradiction|].
    assert (Ir : In (var_value a result) (filter (fun r => within_limit mn (others_limit mn (pre ++ post) (t_domains t1)) r && existsb (fun var => in_domain (t_domains t1) var r) (pre ++ post)) (each_value (t_domains t1) result))).
    { apply filter_In. split; [apply value_listed; auto; now apply known_result|]. apply andb_true_intro. split; [exact Lim|].
      apply existsb_exists. exists w. split; [assumption|]. rewrite Ew. apply value_in_domain; auto. apply known; auto. }
    revert E2. unfold extreme, other_extreme. match goal with |- context [best_of mn ?l] => pose proof (best_of_spec mn l) as S; set (fl := l) in * end.
    destruct (best_of mn fl) as [e|]; [|rewrite S in Ir; contradiction]. destruct S as [S _]. specialize (S _ Ir).
    unfold as_good in *. destruct mn; intro E2; apply Z.ltb_ge in E2; lia.
Qed.

Lemma minmax_honest : honest nv d extremum (fst (minmax_body mn vars result d)).
Proof.
  unfold minmax_body, minmax_start. cbn [fst]. apply gac_honest, single_support_honest, result_in_union_honest, bound_vars_honest, bound_result_honest, honest_track.
Qed.

Lemma bound_result_later t : later nv d t (bound_result mn vars result t).
Proof. apply later_for_each; auto. intros v t' I. destruct mn; now apply later_tell. Qed.

Lemma bound_vars_later t : later nv d t (bound_vars mn vars result t).
Proof. apply later_for_each; auto. intros v t' I. destruct mn; (apply later_tell; auto; now apply below_in). Qed.

Lemma result_in_union_later t : later nv d t (result_in_union vars result t).
Proof. apply later_for_each; auto. intros x t' I. destruct (existsb _ _); [apply later_refl|now apply later_tell]. Qed.

Lemma single_support_later t : later nv d t (single_support vars result t).
Proof.
  unfold single_support. destruct (minmax_supports vars result (t_domains t)) as [|v [|? ?]] eqn:E; [now apply later_tell| |apply later_refl].
  assert (Iv : In v vars). { assert (X : In v (minmax_supports vars result (t_domains t))) by (rewrite E; now left). now apply filter_In in X. }
  unfold prune_minus. apply later_for_each; auto. intros [lo hi] t' I. destruct (is_simple v && is_simple result).
  - apply later_not_in_range; auto. now apply below_in.
  - apply later_for_each; auto. intros x t2 I2. apply later_tell; auto. now apply below_in.
Qed.

Lemma gac_later t : later nv d t (minmax_gac mn vars result t).
Proof.
  apply later_for_each; auto. intros [v others] t1 I. destruct (with_others_spec _ _ _ _ I) as (pre & post & Ev & Eo).
  assert (Iv : In v vars) by (rewrite Ev; apply in_elt).
  apply later_for_each; auto. intros x t2 I2. cbv zeta. match goal with |- later _ _ _ (if ?b then _ else _) => destruct b end; [apply later_refl|]. apply later_tell; auto. now apply below_in.
Qed.

Lemma minmax_checks a : Forall (fixed d) (result :: vars) -> live nv d (fst (minmax_body mn vars result d)) a -> extremum a.
Proof.
  intros Fx Lv. inversion_clear Fx as [|? ? Fr Fv]. rewrite Forall_forall in Fv. revert Lv. unfold minmax_body, minmax_start. cbn [fst].
  set (t1 := bound_result mn vars result (track d)). set (t2 := bound_vars mn vars result t1). set (t3 := result_in_union vars result t2). set (t4 := single_support vars result t3).
  intro Lv. assert (G1 : legit nv d t1) by (apply bound_result_later, legit_track). assert (G2 : legit nv d t2) by (apply bound_vars_later, G1).
  assert (G3 : legit nv d t3) by (apply result_in_union_later, G2). assert (G4 : legit nv d t4) by (apply single_support_later, G3).
  apply (proj2 (gac_later t4 G4)) in Lv. apply (proj2 (single_support_later t3 G3)) in Lv.
  pose proof (proj2 (result_in_union_later t2 G2) a Lv) as Lv2. pose proof (proj2 (bound_vars_later t1 G1) a Lv2) as Lv1.
  (* a value read from a fixed variable *)
  assert (Rd : forall t v, live nv d t a -> In v vars -> lower_bound (t_domains t) v = var_value a v /\ upper_bound (t_domains t) v = var_value a v /\
     forall x, in_domain (t_domains t) v x = (x =? var_value a v)).
  { intros t v Lt Iv. pose proof (live_ok nv d Hd Ld t a Lt) as Ok. pose proof (live_length nv d Hd Ld t a Lt) as L.
    pose proof (known t v L Iv) as Kv. pose proof (live_fixed nv d Hd Ld t a v Lt (Fv v Iv)) as Fx. destruct Lt as (_ & _ & W).
    split; [now apply fixed_lower|]. split; [now apply fixed_upper|]. intro x. now apply fixed_in_domain. }
  split.
  - unfold t3, result_in_union in Lv.
    apply (for_each_later nv d (fun x => var_value a result <> x \/ exists v, In v vars /\ x = var_value a v)) in Lv; auto.
    + destruct Lv as [_ F]. rewrite Forall_forall in F. destruct (F (var_value a result)) as [X|X]; [|contradiction|assumption].
      pose proof (live_ok nv d Hd Ld t2 a Lv2) as Ok. pose proof (live_length nv d Hd Ld t2 a Lv2) as L. apply value_listed; auto; [now apply known_result|apply Lv2].
    + intros x t I. destruct (existsb _ _); [apply later_refl|now apply later_tell].
    + intros x t I G Lt' Lt. destruct (existsb (fun var => in_domain (t_domains t) var x) vars) eqn:E.
      * right. apply existsb_exists in E. destruct E as (v & Iv & E). exists v. split; [assumption|]. destruct (Rd t v Lt Iv) as (_ & _ & R). rewrite R in E. now apply Z.eqb_eq in E.
      * left. apply tell_back in Lt'; auto. apply Lt'.
  - unfold t1, bound_result in Lv1.
    apply (for_each_later nv d (fun v => as_good mn (var_value a result) (var_value a v))) in Lv1; auto; [| | |apply legit_track].
    + destruct Lv1 as [_ F]. rewrite Forall_forall in F. exact F.
    + intros v t I. destruct mn; now apply later_tell.
    + intros v t I G Lt' Lt. destruct (Rd t v Lt I) as (R1 & R2 & _). destruct mn; apply tell_back in Lt'; auto; destruct Lt' as [_ Ht]; simpl in Ht; unfold cond_holds in Ht; simpl in Ht; simpl; lia.
Qed.

(** *** The exception *)

(** Nothing but the result has been touched. *)
Definition only_result (t0 t : tracker) : Prop := legit nv d t /\ forall n, underlying result <> Some n -> nth n (t_domains t) [] = nth n (t_domains t0) [].

Lemma only_result_tell t0 t x : only_result t0 t -> only_result t0 (tell_ne result x t).
Proof.
  intros [G O]. split; [now apply legit_tell|]. intros n N. rewrite <- (O n N). unfold tell_ne, tell. destruct (t_failed t) eqn:F; [reflexivity|].
  destruct (infer (t_domains t) (LCond (cond_ne result x))) as [i d'] eqn:E. simpl.
  destruct (infer_exact (t_domains t) (LCond (cond_ne result x)) _ _ (legit_ok nv d Hd Ld t G F) (var_below_known nv _ _ (legit_length nv d Hd Ld t G) Br) E) as (_ & _ & _ & U). now apply U.
Qed.

Lemma in_domain_same d1 d2 v x : (forall n, underlying v = Some n -> nth n d1 [] = nth n d2 []) -> in_domain d1 v x = in_domain d2 v x.
Proof. intro H. destruct v as [n|n neg add|c]; simpl in *; unfold dom; try rewrite (H n eq_refl); reflexivity. Qed.

Lemma minmax_no_throw : vars <> [] -> (forall v, In v vars -> v = result \/ unrelated v result) -> minmax_throws mn vars result d = false.
Proof.
  intros Ne Un. unfold minmax_throws, minmax_start.
  set (t1 := bound_result mn vars result (track d)). set (t2 := bound_vars mn vars result t1). set (t3 := result_in_union vars result t2).
  assert (G1 : legit nv d t1) by (apply bound_result_later, legit_track). assert (G2 : legit nv d t2) by (apply bound_vars_later, G1).
  assert (G3 : legit nv d t3) by (apply result_in_union_later, G2).
  destruct (t_failed t3) eqn:F; [reflexivity|]. simpl. pose proof (legit_ok nv d Hd Ld t3 G3 F) as Ok3. pose proof (legit_length nv d Hd Ld t3 G3) as L3.
  destruct (within_exists (t_domains t3) Ok3) as [a W]. assert (Lv : live nv d t3 a) by (split; auto).
  destruct (minmax_supports vars result (t_domains t3)) as [|v r] eqn:E; [|reflexivity]. exfalso.
  assert (No : forall v, In v vars -> in_domain (t_domains t3) v (var_value a result) = false).
  { intros v Iv. destruct (in_domain (t_domains t3) v (var_value a result)) eqn:D; [|reflexivity]. exfalso.
    assert (X : In v (minmax_supports vars result (t_domains t3))); [|rewrite E in X; contradiction].
    apply filter_In. split; [assumption|]. apply existsb_exists. exists (var_value a result). split; [|assumption]. apply value_listed; auto. now apply known_result. }
  assert (Un' : forall v, In v vars -> unrelated v result).
  { intros v Iv. destruct (Un v Iv) as [->|U]; [|assumption]. exfalso. specialize (No result Iv).
    rewrite (value_in_domain (t_domains t3) result a Ok3 (known_result t3 L3) W) in No. discriminate. }
  (* the value was looked at, and found in a variable that has not changed since *)
  assert (O : forall xs t, only_result t2 t -> only_result t2 (for_each xs (fun value t => if existsb (fun var => in_domain (t_domains t) var value) vars then t else tell_ne result value t) t)).
  { intros xs t H. apply for_each_ind; [|assumption]. intros x t' _ H'. destruct (existsb _ _); [assumption|now apply only_result_tell]. }
  assert (Lk : forall xs t, only_result t2 t -> legit nv d t -> live nv d (for_each xs (fun value t => if existsb (fun var => in_domain (t_domains t) var value) vars then t else tell_ne result value t) t) a ->
    Forall (fun x => var_value a result <> x \/ existsb (fun var => in_domain (t_domains t2) var x) vars = true) xs).
  { induction xs as [|x xs IH]; intros t Ot Gt Lt; [constructor|]. unfold for_each in Lt. simpl in Lt. fold (@for_each Z xs) in Lt.
    assert (Sm : existsb (fun var => in_domain (t_domains t) var x) vars = existsb (fun var => in_domain (t_domains t2) var x) vars).
    { apply existsb_ext_in. intros v Iv. apply in_domain_same. intros n En. apply (proj2 Ot). intro X. exact (Un' v Iv n En X). }
    rewrite Sm in Lt. destruct (existsb (fun var => in_domain (t_domains t2) var x) vars) eqn:Ex.
    - constructor; [auto|]. apply (IH t); auto.
    - pose proof (only_result_tell t2 t x Ot) as Ot'. assert (Gt' : legit nv d (tell_ne result x t)) by now apply legit_tell.
      constructor; [|apply (IH (tell_ne result x t)); auto]. left.
      assert (Lt2 : live nv d (tell_ne result x t) a).
      { refine (proj2 (later_for_each nv d xs (fun value t => if existsb (fun var => in_domain (t_domains t) var value) vars then t else tell_ne result value t) _ _ Gt') a Lt).
        intros y t' _. destruct (existsb (fun var => in_domain (t_domains t') var y) vars); [apply later_refl|now apply later_tell]. }
      apply tell_back in Lt2; auto. apply Lt2. }
  pose proof (proj2 (result_in_union_later t2 G2) a Lv) as Lv2.
  specialize (Lk (each_value (t_domains t2) result) t2 (conj G2 (fun _ _ => eq_refl)) G2 Lv). rewrite Forall_forall in Lk.
  destruct (Lk (var_value a result)) as [X|X]; [|contradiction|].
  - apply value_listed; [now apply (live_ok nv d) with a|apply known_result; now apply (live_length nv d) with a|apply Lv2].
  - apply existsb_exists in X. destruct X as (v & Iv & X). specialize (No v Iv).
    assert (O3 : only_result t2 t3) by (apply O; split; auto).
    rewrite (in_domain_same (t_domains t3) (t_domains t2)) in No; [congruence|]. intros n En. apply (proj2 O3). intro Y. exact (Un' v Iv n En Y).
Qed.

End At.
End MinMax.

Lemma minmax_correct d0 mn vars result : Forall (var_known d0) (result :: vars) ->
  correct_on d0 (array_min_max mn vars result) (result :: vars) (extremum mn vars result).
Proof.
  intro K. inversion_clear K as [|? ? Kr Kv].
  apply (one_propagator_correct d0 _ (minmax_body mn vars result) (result :: vars) [] [] [] _ (extremum mn vars result)); auto.
  - reflexivity.
  - rewrite app_nil_r. apply incl_refl.
  - intros nv Ln. pose proof (known_below_more _ _ _ Ln Kr) as B.
    assert (Bs : Forall (var_below nv) vars) by (eapply Forall_impl; [|exact Kv]; intros v Kn; now apply (known_below_more d0)).
    apply body_ok_intro.
    + intros. now apply minmax_honest.
    + intros d a Hd L _ F Lv. now apply (minmax_checks nv mn vars result B Bs d).
    + intros d a Hd L _ _ R. discriminate R.
    + intros d a Hd L _ R. discriminate R.
  - intros nv g d Ln [].
Qed.
