(** Lemmas about global cardinality. *)
From Coq Require Import ZArith List Bool Arith Lia Permutation.
From Verif Require Import IntervalSet IntervalSetSpec IntervalSetProofs Vars VarsSpec VarsProofs State StateSpec StateProofs Epochs
  Engine EngineSpec EngineProofs SessionSpec SessionInvProofs Tracker ContractSpec ContractProofs RunProofs PartsProofs ConsistencySpec
  QuietProofs Passes PassesProofs OnceProofs MultiplyProofs GlobalCardinalitySpec GlobalCardinality.
Import ListNotations.
Local Open Scope Z_scope.

(** ** Counting *)
Lemma how_many_cons {X} (f : X -> bool) x l : how_many f (x :: l) = (if f x then 1 else 0) + how_many f l.
Proof. unfold how_many. cbn [filter]. destruct (f x); cbn [length]; lia. Qed.

Lemma how_many_nonneg {X} (f : X -> bool) l : 0 <= how_many f l.
Proof. unfold how_many. lia. Qed.

Lemma how_many_le {X} (f g : X -> bool) l : (forall x, In x l -> f x = true -> g x = true) -> how_many f l <= how_many g l.
Proof.
  induction l as [|x r IH]; intro H; [unfold how_many; simpl; lia|]. rewrite !how_many_cons. specialize (IH (fun y Iy => H y (or_intror Iy))).
  specialize (H x (or_introl eq_refl)). destruct (f x); [rewrite H by reflexivity; lia|]. destruct (g x); lia.
Qed.

Lemma how_many_lt {X} (f g : X -> bool) l y : (forall x, In x l -> f x = true -> g x = true) -> In y l -> f y = false -> g y = true -> how_many f l < how_many g l.
Proof.
  induction l as [|x r IH]; intros H Iy Fy Gy; [destruct Iy|]. rewrite !how_many_cons. destruct Iy as [->|Iy].
  - rewrite Fy, Gy. pose proof (how_many_le f g r (fun z Iz => H z (or_intror Iz))). lia.
  - specialize (IH (fun z Iz => H z (or_intror Iz)) Iy Fy Gy). specialize (H x (or_introl eq_refl)). destruct (f x); [rewrite H by reflexivity; lia|]. destruct (g x); lia.
Qed.

Lemma how_many_ext {X} (f g : X -> bool) l : (forall x, In x l -> f x = g x) -> how_many f l = how_many g l.
Proof. intro H. unfold how_many. now rewrite (filter_ext_in f g l). Qed.

Lemma listed_In values x : listed values x = true <-> In x values.
Proof. unfold listed. rewrite existsb_exists. split; [intros (y & I & E); apply Z.eqb_eq in E; now subst y|intro I; exists x; split; [assumption|apply Z.eqb_refl]]. Qed.

Lemma times_taken_cons v vars a x : times_taken (v :: vars) a x = (if var_value a v =? x then 1 else 0) + times_taken vars a x.
Proof. unfold times_taken. cbn [map count_occ]. destruct (Z.eq_dec (var_value a v) x) as [E|E]; [rewrite (proj2 (Z.eqb_eq _ _) E); lia|rewrite (proj2 (Z.eqb_neq _ _) E); lia]. Qed.

Lemma times_taken_spec vars a x : times_taken vars a x = how_many (fun v => var_value a v =? x) vars.
Proof. induction vars as [|v r IH]; [reflexivity|]. now rewrite times_taken_cons, how_many_cons, IH. Qed.

Definition taken_in (a : assignment) (hall : list Z) (vars : list var_id) : Z := how_many (fun v => listed hall (var_value a v)) vars.

Definition total (f : Z -> Z) (xs : list Z) : Z := fold_right (fun x s => f x + s) 0 xs.

Lemma total_nonneg f xs : (forall x, 0 <= f x) -> 0 <= total f xs.
Proof. intro H. induction xs as [|x r IH]; cbn [total fold_right]; [lia|]. fold (total f r). specialize (H x). lia. Qed.

Lemma total_split vars v a hall : total (times_taken (v :: vars) a) hall = total (fun x => if var_value a v =? x then 1 else 0) hall + total (times_taken vars a) hall.
Proof.
  induction hall as [|x r IH]; [reflexivity|]. cbn [total fold_right]. fold (total (times_taken (v :: vars) a) r) (total (fun x => if var_value a v =? x then 1 else 0) r) (total (times_taken vars a) r).
  rewrite IH, times_taken_cons. lia.
Qed.

Lemma total_one (y : Z) hall : (if listed hall y then 1 else 0) <= total (fun x => if y =? x then 1 else 0) hall.
Proof.
  induction hall as [|x r IH]; [simpl; lia|]. cbn [total fold_right listed existsb]. fold (total (fun x => if y =? x then 1 else 0) r) (listed r y).
  pose proof (total_nonneg (fun x => if y =? x then 1 else 0) r) as N. destruct (Z.eqb_spec y x); cbn [orb]; [|destruct (listed r y); lia].
  assert (0 <= total (fun x => if y =? x then 1 else 0) r) by (apply N; intro z; destruct (y =? z); lia). lia.
Qed.

Lemma total_one_exactly (y : Z) hall : NoDup hall -> total (fun x => if y =? x then 1 else 0) hall = (if listed hall y then 1 else 0).
Proof.
  induction hall as [|x r IH]; intro ND; [reflexivity|]. apply NoDup_cons_iff in ND. destruct ND as [Nx ND]. specialize (IH ND).
  cbn [total fold_right listed existsb]. fold (total (fun x => if y =? x then 1 else 0) r) (listed r y). rewrite IH.
  destruct (Z.eqb_spec y x) as [->|N]; cbn [orb]; [|reflexivity]. destruct (listed r x) eqn:E; [apply listed_In in E; contradiction|reflexivity].
Qed.

Lemma taken_total a hall vars : taken_in a hall vars <= total (times_taken vars a) hall.
Proof.
  unfold taken_in. induction vars as [|v r IH]; [unfold how_many; simpl; induction hall as [|x h IHh]; cbn [total fold_right]; [lia|unfold total in IHh; unfold times_taken at 1; simpl; assumption]|].
  rewrite how_many_cons, total_split. pose proof (total_one (var_value a v) hall). lia.
Qed.

Lemma taken_total_exactly a hall vars : NoDup hall -> taken_in a hall vars = total (times_taken vars a) hall.
Proof.
  intro ND. unfold taken_in. induction vars as [|v r IH]; [unfold how_many; simpl; clear ND; induction hall as [|x h IHh]; cbn [total fold_right]; [reflexivity|unfold total in IHh; unfold times_taken at 1; simpl; assumption]|].
  now rewrite how_many_cons, total_split, total_one_exactly, IH.
Qed.

(** ** The counts in a run *)
Definition tallies (a : assignment) (run : cover) : Z := fold_right (fun e s => var_value a (snd e) + s) 0 run.

Definition right_counts (vars : list var_id) (c : cover) (a : assignment) : Prop := Forall (fun e => var_value a (snd e) = times_taken vars a (fst e)) c.

Lemma tallies_total vars run a : right_counts vars run a -> tallies a run = total (times_taken vars a) (map fst run).
Proof. induction 1 as [|e r E _ IH]; [reflexivity|]. cbn [tallies total fold_right map]. fold (tallies a r) (total (times_taken vars a) (map fst r)). lia. Qed.

(** What is remembered of the bounds of the counts. *)
Inductive remembers (D : domains) : cover -> Z -> Z -> Prop :=
| remembers_nil : remembers D [] 0 0
| remembers_snoc run e cap demand lo hi : remembers D run cap demand -> (forall a, within a D -> lo <= var_value a (snd e) <= hi) -> remembers D (run ++ [e]) (cap + hi) (demand + lo).

Lemma remembers_inside D E run cap demand : inside D E -> remembers D run cap demand -> remembers E run cap demand.
Proof. intro I. induction 1; constructor; auto. Qed.

Lemma tallies_app a r r' : tallies a (r ++ r') = tallies a r + tallies a r'.
Proof. induction r as [|e r IH]; [reflexivity|]. cbn [app tallies fold_right]. fold (tallies a (r ++ r')) (tallies a r). lia. Qed.

Lemma remembers_total D run cap demand a : remembers D run cap demand -> within a D -> demand <= tallies a run <= cap.
Proof.
  intros R Wa. induction R as [|run e cap demand lo hi R IH H]; [simpl; lia|]. rewrite tallies_app. cbn [tallies fold_right]. specialize (H a Wa). lia.
Qed.

Lemma remembers_one D run cap demand e : remembers D run cap demand -> In e run -> exists lo hi, forall a, within a D ->
  lo <= var_value a (snd e) <= hi /\ demand - lo <= tallies a run - var_value a (snd e) <= cap - hi.
Proof.
  intros R. induction R as [|run e' cap demand lo hi R IH H]; intro I; [destruct I|]. apply in_app_iff in I. destruct I as [I|[->|[]]].
  - destruct (IH I) as (lo' & hi' & K). exists lo', hi'. intros a Wa. destruct (K a Wa) as [K1 K2]. split; [assumption|]. rewrite tallies_app. cbn [tallies fold_right]. specialize (H a Wa). lia.
  - exists lo, hi. intros a Wa. split; [auto|]. rewrite tallies_app. cbn [tallies fold_right]. pose proof (remembers_total _ _ _ _ _ R Wa). lia.
Qed.

Section Cardinality.
Variable nv : nat.
Variable vars : list var_id.
Hypothesis Bv : Forall (var_below nv) vars.

Section Sound.
Variable c : cover.
Hypothesis Bc : Forall (var_below nv) (map snd c).
Hypothesis ND : NoDup (map fst c).

Lemma below v : In v vars -> var_below nv v.
Proof. intro I. rewrite Forall_forall in Bv. auto. Qed.

Lemma count_below e : In e c -> var_below nv (snd e).
Proof. intro I. rewrite Forall_forall in Bc. apply Bc. now apply in_map. Qed.

Lemma value_in d v a : domains_ok d -> length d = nv -> In v vars -> within a d -> in_domain d v (var_value a v) = true.
Proof. intros Hd L I W. assert (K : var_known d v) by (apply (known_here nv); auto using below). apply in_domain_spec; auto. now apply value_possible. Qed.

Lemma single_is d v a x : domains_ok d -> length d = nv -> In v vars -> within a d -> in_domain d v x = true -> has_single_value d v = true -> var_value a v = x.
Proof.
  intros Hd L I W Dx S. assert (K : var_known d v) by (apply (known_here nv); auto using below). apply has_single_value_spec in S; auto.
  destruct (value_bounds d v a Hd K W). apply in_domain_spec in Dx; auto. apply lower_bound_spec in Dx as A; auto. apply upper_bound_spec in Dx as B; auto. lia.
Qed.

Lemma count_fact a e : right_counts vars c a -> In e c -> var_value a (snd e) = how_many (fun v => var_value a v =? fst e) vars.
Proof. intros R I. unfold right_counts in R. rewrite Forall_forall in R. rewrite (R e I). apply times_taken_spec. Qed.

Lemma can_count d a x : domains_ok d -> length d = nv -> within a d -> how_many (fun v => var_value a v =? x) vars <= how_many (fun v => in_domain d v x) vars.
Proof. intros Hd L W. apply how_many_le. intros v I E. apply Z.eqb_eq in E. subst x. now apply value_in. Qed.

Lemma must_count d a x : domains_ok d -> length d = nv -> within a d -> how_many (fun v => in_domain d v x && has_single_value d v) vars <= how_many (fun v => var_value a v =? x) vars.
Proof. intros Hd L W. apply how_many_le. intros v I E. apply andb_prop in E. destruct E as [E S]. apply Z.eqb_eq. now apply (single_is d). Qed.

Lemma single_later d d' v : domains_ok d -> domains_ok d' -> length d = nv -> length d' = nv -> In v vars -> inside d d' -> has_single_value d v = true -> has_single_value d' v = true.
Proof.
  intros Hd Hd' L L' I Ins S. assert (K : var_known d v) by (apply (known_here nv); auto using below). assert (K' : var_known d' v) by (apply (known_here nv); auto using below).
  apply has_single_value_spec in S; auto. apply has_single_value_spec; auto. destruct (lower_at d' v Hd' K') as (a & Wa & <-). destruct (upper_at d' v Hd' K') as (b & Wb & <-).
  destruct (value_bounds d v a Hd K (Ins a Wa)), (value_bounds d v b Hd K (Ins b Wb)). lia.
Qed.

Lemma member_earlier d d' v x : domains_ok d -> domains_ok d' -> length d = nv -> length d' = nv -> In v vars -> inside d d' -> In x (each_value d' v) -> In x (each_value d v).
Proof.
  intros Hd Hd' L L' I Ins H. assert (K : var_known d v) by (apply (known_here nv); auto using below). assert (K' : var_known d' v) by (apply (known_here nv); auto using below).
  apply each_value_In in H. apply view_member_iff in H; auto. destruct H as (a & Wa & <-). apply value_listed; auto.
Qed.

Lemma in_domain_earlier d d' v x : domains_ok d -> domains_ok d' -> length d = nv -> length d' = nv -> In v vars -> inside d d' -> in_domain d' v x = true -> in_domain d v x = true.
Proof.
  intros Hd Hd' L L' I Ins H. assert (K : var_known d v) by (apply (known_here nv); auto using below). assert (K' : var_known d' v) by (apply (known_here nv); auto using below).
  apply in_domain_spec in H; auto. apply in_domain_spec; auto. apply each_value_In. apply (member_earlier d d'); auto. now apply each_value_In.
Qed.

Lemma lit_ne a v x : lit_holds a (LCond (cond_ne v x)) <-> var_value a v <> x.
Proof. reflexivity. Qed.

Lemma value_pass_goes D (P : assignment -> Prop) e : In e c -> (forall a, P a -> right_counts vars c a) -> goes nv D P (value_pass vars e).
Proof.
  intros Ie HP. pose proof (count_below e Ie) as Be. unfold value_pass. apply goes_look. intros d Hd Ld Id. destruct e as [value count]. rewrite bounds_spec. cbn [snd] in Be.
  pose proof (known_here nv d count Ld Be) as Kc.
  assert (T : forall a, P a /\ within a d -> var_value a count = how_many (fun v => var_value a v =? value) vars) by (intros a [Pa _]; apply (count_fact a (value, count)); auto).
  set (can := how_many (fun v => in_domain d v value) vars). set (must := how_many (fun v => in_domain d v value && has_single_value d v) vars).
  assert (U : forall a, P a /\ within a d -> must <= var_value a count <= can /\ lower_bound d count <= var_value a count <= upper_bound d count).
  { intros a Pa. rewrite (T a Pa) at 1 2. destruct Pa as [_ Wa]. split; [split; [now apply must_count|now apply can_count]|]. now apply value_bounds. }
  apply (goes_then nv d (fun a => P a /\ within a d) (infer_when _ _)); [apply goes_when; intros _; split; [exact Be|]; intros a Pa; apply lit_ge; apply U in Pa; lia|].
  apply (goes_then nv d (fun a => P a /\ within a d) (infer_when _ _)); [apply goes_when; intros _; split; [exact Be|]; intros a Pa; apply lit_le; apply U in Pa; lia|].
  apply (goes_then nv d (fun a => P a /\ within a d) (if must =? upper_bound d count then _ else _)).
  - destruct (Z.eqb_spec must (upper_bound d count)) as [E|_]; [|apply goes_id]. apply goes_sequence. intros v Iv. apply goes_look. intros d' Hd' Ld' Id'. apply goes_when. intro C.
    apply andb_prop in C. destruct C as [_ C]. apply negb_true_iff in C. split; [exact (below v Iv)|]. intros a [Pa _]. apply lit_ne. intro Ev. pose proof (U a Pa) as Ua. pose proof (T a Pa) as Ta. destruct Pa as [Pa Wa].
    assert (must < how_many (fun v => var_value a v =? value) vars); [|lia].
    apply (how_many_lt _ _ _ v); [|assumption| |now apply Z.eqb_eq].
    + intros w Iw X. apply andb_prop in X. destruct X as [X Y]. apply Z.eqb_eq. now apply (single_is d).
    + apply andb_false_iff. right. destruct (has_single_value d v) eqn:S; [|reflexivity]. rewrite (single_later d d') in C; auto.
  - destruct ((can =? lower_bound d count) && (0 <? can)) eqn:E; [|apply goes_id]. apply andb_prop in E. destruct E as [E _]. apply Z.eqb_eq in E.
    apply goes_sequence. intros v Iv. apply goes_look. intros d' Hd' Ld' Id'. destruct (in_domain d' v value && negb (has_single_value d' v)) eqn:C; [|apply goes_id]. apply andb_prop in C. destruct C as [C _].
    apply goes_sequence. intros w Iw. apply goes_when. intro N. apply negb_true_iff, Z.eqb_neq in N. split; [exact (below v Iv)|]. intros a [Pa _]. apply lit_ne. intro Ev. pose proof (U a Pa) as Ua. pose proof (T a Pa) as Ta. destruct Pa as [Pa Wa].
    assert (how_many (fun v => var_value a v =? value) vars < can); [|lia].
    apply (how_many_lt _ _ _ v); [|assumption|apply Z.eqb_neq; congruence|now apply (in_domain_earlier d d')].
    intros u Iu X. apply Z.eqb_eq in X. subst value. now apply value_in.
Qed.

(** ** Runs *)
Lemma confined_value d hall v a : domains_ok d -> length d = nv -> In v vars -> within a d -> confined_to d hall v = true -> In (var_value a v) hall.
Proof.
  intros Hd L I Wa C. unfold confined_to in C. rewrite forallb_forall in C. apply listed_In, C. apply value_listed; auto. apply (known_here nv); auto using below.
Qed.

Lemma meets_value d hall v a : domains_ok d -> length d = nv -> In v vars -> within a d -> In (var_value a v) hall -> may_meet d hall v = true.
Proof. intros Hd L I Wa H. unfold may_meet. apply existsb_exists. exists (var_value a v). split; [assumption|]. now apply value_in. Qed.

Lemma confined_later d d' hall v : domains_ok d -> domains_ok d' -> length d = nv -> length d' = nv -> In v vars -> inside d d' -> confined_to d hall v = true -> confined_to d' hall v = true.
Proof. intros Hd Hd' L L' I Ins C. unfold confined_to in *. rewrite forallb_forall in *. intros x Ix. apply C. now apply (member_earlier d d'). Qed.

Lemma hall_pass_goes D (P : assignment -> Prop) run cap demand : incl run c -> NoDup (map fst run) -> remembers D run cap demand -> (forall a, P a -> right_counts vars c a) -> (forall a, P a -> within a D) ->
  goes nv D P (hall_pass vars run cap demand).
Proof.
  intros Ir NDr Rem HP HW. unfold hall_pass. apply goes_look. intros d Hd Ld Id. set (hall := map fst run). set (confined := how_many (confined_to d hall) vars).
  set (potential := filter (may_meet d hall) vars). set (n := Z.of_nat (length potential)). set (Q := fun a => P a /\ within a d).
  assert (Tk : forall a, Q a -> confined <= tallies a run <= n /\ demand <= tallies a run <= cap /\ taken_in a hall vars = tallies a run).
  { intros a [Pa Wa]. assert (E : taken_in a hall vars = tallies a run).
    { rewrite (tallies_total vars); [now apply taken_total_exactly|]. specialize (HP a Pa). unfold right_counts in *. rewrite Forall_forall in *. intros e I. apply HP. now apply Ir. }
    split; [|split; [apply (remembers_total D); auto|assumption]]. rewrite <- E. unfold taken_in. split.
    - apply how_many_le. intros v Iv C. apply listed_In. now apply (confined_value d).
    - apply (how_many_le _ (may_meet d hall)). intros v Iv C. apply listed_In in C. now apply (meets_value d hall v a). }
  apply (goes_then nv d Q (sequence run (count_pass confined n cap demand))).
  { apply goes_sequence. intros e Ie. unfold count_pass. apply goes_look. intros d' Hd' Ld' Id'. rewrite bounds_spec. pose proof (count_below e (Ir e Ie)) as Be.
    pose proof (known_here nv d' (snd e) Ld' Be) as Ke. destruct (remembers_one D run cap demand e Rem Ie) as (lo & hi & B).
    assert (I1 : inside D d') by now apply (inside_trans D d).
    apply (goes_then nv d' (fun a => Q a /\ within a d') (infer_when _ _)); apply goes_when; intros _; (split; [exact Be|]); intros a [Qa Wa]; destruct (Tk a Qa) as (A1 & A2 & A3); destruct (B a (I1 a Wa)) as [B1 B2].
    - apply lit_ge. destruct (upper_at d' (snd e) Hd' Ke) as (u & Wu & <-). destruct (B u (I1 u Wu)) as [B3 _]. lia.
    - apply lit_le. destruct (lower_at d' (snd e) Hd' Ke) as (u & Wu & <-). destruct (B u (I1 u Wu)) as [B3 _]. lia. }
  apply (goes_then nv d Q (if cap <? confined then _ else _)).
  - destruct (Z.ltb_spec cap confined) as [E|_]; [apply goes_infer; [exact Logic.I|]; intros a Qa; exfalso; apply Tk in Qa; lia|].
    destruct (Z.eqb_spec confined cap) as [E|_]; [|apply goes_id]. apply goes_sequence. intros v Iv. apply goes_look. intros d' Hd' Ld' Id'.
    destruct (confined_to d' hall v) eqn:C; [apply goes_id|]. apply goes_sequence. intros x Ix. apply goes_look. intros d2 Hd2 Ld2 Id2. apply goes_when. intros _. split; [exact (below v Iv)|].
    intros a [[Qa _] _]. apply lit_ne. intro Ev. destruct (Tk a Qa) as (A1 & A2 & A3). assert (confined < taken_in a hall vars); [|lia].
    destruct Qa as [Pa Wa]. apply (how_many_lt _ _ _ v); [|assumption| |apply listed_In; now rewrite Ev].
    + intros w Iw X. apply listed_In. now apply (confined_value d).
    + destruct (confined_to d hall v) eqn:C'; [|reflexivity]. rewrite (confined_later d d') in C; auto.
  - destruct (Z.ltb_spec n demand) as [E|_]; [apply goes_infer; [exact Logic.I|]; intros a Qa; exfalso; apply Tk in Qa; lia|].
    destruct (Z.eqb_spec n demand) as [E|_]; [|apply goes_id]. apply goes_sequence. intros v Iv. unfold potential in Iv. apply filter_In in Iv. destruct Iv as [Iv M]. apply goes_look. intros d' Hd' Ld' Id'.
    apply goes_sequence. intros x Ix. apply goes_when. intro N. apply negb_true_iff in N. split; [exact (below v Iv)|].
    intros a [Qa _]. apply lit_ne. intro Ev. destruct (Tk a Qa) as (A1 & A2 & A3). assert (taken_in a hall vars < n); [|lia].
    destruct Qa as [Pa Wa]. apply (how_many_lt _ (may_meet d hall) _ v); [|assumption|now rewrite Ev|assumption].
    intros w Iw X. apply listed_In in X. now apply (meets_value d hall w a).
Qed.

Lemma NoDup_left {X} (l r : list X) : NoDup (l ++ r) -> NoDup l.
Proof. induction l as [|x l IH]; intro N; [constructor|]. simpl in N. apply NoDup_cons_iff in N. destruct N as [A B]. constructor; [|auto]. intro I. apply A. apply in_app_iff. auto. Qed.

Lemma remembers_grows D d run cap demand e : domains_ok d -> length d = nv -> In e c -> inside D d -> remembers D run cap demand ->
  remembers d (run ++ [e]) (cap + upper_bound d (snd e)) (demand + lower_bound d (snd e)).
Proof.
  intros Hd L Ie I R. constructor; [now apply (remembers_inside D)|]. intros a Wa. apply value_bounds; auto. apply (known_here nv); auto using count_below.
Qed.

Lemma longer_runs_goes more : forall D (P : assignment -> Prop) run cap demand, incl (run ++ more) c -> NoDup (map fst (run ++ more)) -> remembers D run cap demand ->
  (forall a, P a -> right_counts vars c a) -> goes nv D P (longer_runs vars run cap demand more).
Proof.
  induction more as [|e r IH]; intros D P run cap demand Ir NDr Rem HP; [apply goes_id|]. cbn [longer_runs]. apply goes_look. intros d Hd Ld Id. rewrite bounds_spec.
  assert (Ie : In e c) by (apply Ir, in_app_iff; right; now left). pose proof (remembers_grows D d run cap demand e Hd Ld Ie Id Rem) as R'.
  assert (X : (run ++ [e]) ++ r = run ++ e :: r) by (rewrite <- app_assoc; reflexivity).
  apply (goes_then nv d (fun a => P a /\ within a d) (hall_pass vars _ _ _)).
  - apply hall_pass_goes; auto; [intros x Ix; apply Ir; rewrite <- X; apply in_app_iff; auto| |intros a [Pa _]; auto|intros a [_ Wa]; assumption].
    rewrite <- X, map_app in NDr. now apply NoDup_left in NDr.
  - apply IH; [now rewrite X|now rewrite X|assumption|intros a [Pa _]; auto].
Qed.

Lemma all_runs_goes c' : forall D (P : assignment -> Prop), incl c' c -> NoDup (map fst c') -> (forall a, P a -> right_counts vars c a) -> goes nv D P (all_runs vars c').
Proof.
  induction c' as [|e r IH]; intros D P Ic N HP; [apply goes_id|]. cbn [all_runs]. apply goes_look. intros d Hd Ld Id. rewrite bounds_spec.
  assert (Ie : In e c) by (apply Ic; now left). pose proof (remembers_grows d d [] 0 0 e Hd Ld Ie (inside_refl d) (remembers_nil d)) as R'. cbn [app] in R'. rewrite !Z.add_0_l in R'.
  apply (goes_then nv d (fun a => P a /\ within a d) (longer_runs vars _ _ _ _)).
  - apply longer_runs_goes; auto. intros a [Pa _]. auto.
  - apply IH; [intros x Ix; apply Ic; now right|cbn [map] in N; now apply NoDup_cons_iff in N|intros a [Pa _]; auto].
Qed.

Lemma bounds_pass_tells D (P : assignment -> Prop) : (forall a, P a -> right_counts vars c a) -> tells nv D P (bounds_pass vars c).
Proof.
  intro HP. unfold bounds_pass. assert (G : goes nv D P (fun rest => sequence c (value_pass vars) (all_runs vars c rest))).
  { apply (goes_then nv D P (sequence c (value_pass vars))); [apply goes_sequence; intros e Ie; now apply value_pass_goes|apply all_runs_goes; auto; apply incl_refl]. }
  apply (G D P Stop); auto; [apply inside_refl|]. intros F _. exact Logic.I.
Qed.
End Sound.


(** ** When everything is fixed *)
Lemma fixed_value d v a : domains_ok d -> length d = nv -> In v vars -> fixed d v -> within a d -> forall x, in_domain d v x = (var_value a v =? x) /\ has_single_value d v = true.
Proof.
  intros Hd L I F Wa x. assert (K : var_known d v) by (apply (known_here nv); auto using below). destruct (fixed_bounds d v a Hd K F Wa) as [A B].
  split; [|apply has_single_value_spec; auto; congruence]. destruct (Z.eqb_spec (var_value a v) x) as [<-|N].
  - now apply value_in.
  - destruct (in_domain d v x) eqn:E; [|reflexivity]. exfalso. apply N. apply (single_is d); auto. apply has_single_value_spec; auto. congruence.
Qed.

Lemma value_pass_passes a e : var_below nv (snd e) -> passes nv a (value_pass vars e) (fun d => Forall (fixed d) vars -> fixed d (snd e) -> var_value a (snd e) = times_taken vars a (fst e)).
Proof.
  intros Be. destruct e as [value count]. cbn [fst snd] in *.
  assert (P : passes nv a (value_pass vars (value, count)) (fun d =>
    (lower_bound d count < how_many (fun v => in_domain d v value && has_single_value d v) vars -> how_many (fun v => in_domain d v value && has_single_value d v) vars <= var_value a count) /\
    (how_many (fun v => in_domain d v value) vars < upper_bound d count -> var_value a count <= how_many (fun v => in_domain d v value) vars))).
  { unfold value_pass. apply (passes_look nv a _ (fun d _ => (lower_bound d count < how_many (fun v => in_domain d v value && has_single_value d v) vars -> how_many (fun v => in_domain d v value && has_single_value d v) vars <= var_value a count) /\
      (how_many (fun v => in_domain d v value) vars < upper_bound d count -> var_value a count <= how_many (fun v => in_domain d v value) vars))).
    intros d Hd Ld. rewrite bounds_spec. set (can := how_many (fun v => in_domain d v value) vars). set (must := how_many (fun v => in_domain d v value && has_single_value d v) vars).
    set (tail1 := if must =? upper_bound d count then remove_from_others vars value else fun r => r). set (tail2 := if (can =? lower_bound d count) && (0 <? can) then force_others vars value else fun r => r).
    assert (T1 : passes nv a tail1 (fun _ => True)).
    { unfold tail1. destruct (must =? upper_bound d count); [|apply passes_id]. eapply passes_weaken; [|apply (passes_sequence nv a _ (fun _ _ => True))]; [auto|]. intros v Iv.
      eapply passes_weaken; [|apply (passes_look nv a _ (fun _ _ => True))]; [auto|]. intros d' _ _. eapply passes_weaken; [|apply passes_when]. auto. }
    assert (T2 : passes nv a tail2 (fun _ => True)).
    { unfold tail2. destruct ((can =? lower_bound d count) && (0 <? can)); [|apply passes_id]. eapply passes_weaken; [|apply (passes_sequence nv a _ (fun _ _ => True))]; [auto|]. intros v Iv.
      eapply passes_weaken; [|apply (passes_look nv a _ (fun _ _ => True))]; [auto|]. intros d' _ _. destruct (in_domain d' v value && negb (has_single_value d' v)); [|apply passes_id].
      eapply passes_weaken; [|apply (passes_sequence nv a _ (fun _ _ => True))]; [auto|]. intros w _. eapply passes_weaken; [|apply passes_when]. auto. }
    pose proof (passes_then nv a _ _ _ _ T1 T2) as T3. pose proof (passes_then nv a _ _ _ _ (passes_when nv a (can <? upper_bound d count) (LCond (cond_le count can))) T3) as T4.
    pose proof (passes_then nv a _ _ _ _ (passes_when nv a (lower_bound d count <? must) (LCond (cond_ge count must))) T4) as T5. cbv beta in T5.
    eapply passes_weaken; [|exact T5]. intros d' _ _ _ (A & d2 & _ & _ & _ & _ & B & _). split; intro C; [apply Z.ltb_lt in C; specialize (A C); now apply lit_ge in A|apply Z.ltb_lt in C; specialize (B C); now apply lit_le in B]. }
  eapply passes_weaken; [|exact P]. intros d Hd Ld Wa [A B] F Fc. rewrite times_taken_spec. rewrite Forall_forall in F.
  rewrite (how_many_ext (fun v => in_domain d v value && has_single_value d v) (fun v => var_value a v =? value) vars) in A by (intros v Iv; destruct (fixed_value d v a Hd Ld Iv (F v Iv) Wa value) as [E1 E2]; rewrite E1, E2; apply andb_true_r).
  rewrite (how_many_ext (fun v => in_domain d v value) (fun v => var_value a v =? value) vars) in B by (intros v Iv; now destruct (fixed_value d v a Hd Ld Iv (F v Iv) Wa value) as [E1 _]).
  assert (Kc : var_known d count) by (apply (known_here nv); auto). destruct (fixed_bounds d count a Hd Kc Fc Wa) as [L U]. lia.
Qed.

Lemma bounds_pass_meets d0 alias c (sat : assignment -> Prop) : Forall (var_below nv) (map snd c) -> NoDup (map fst c) -> (forall a, sat a -> right_counts vars c a) ->
  meets nv d0 alias (once (bounds_pass vars c)) (vars ++ map snd c) sat (right_counts vars c).
Proof.
  intros Bc ND HS. apply once_meets.
  - intros d Hd Ld Id. apply bounds_pass_tells; auto. intros a [Sa _]. auto.
  - intros d a Hd Ld Id F Wa O. apply Forall_app in F. destruct F as [Fv Fc]. unfold bounds_pass in O.
    destruct (passes_sequence nv a (value_pass vars) (fun e d => Forall (fixed d) vars -> fixed d (snd e) -> var_value a (snd e) = times_taken vars a (fst e)) c) with (rest := all_runs vars c Stop) (d := d) as [X _]; auto.
    { intros e Ie. apply value_pass_passes. now apply (count_below c). }
    apply Forall_forall. intros e Ie. destruct (X e Ie) as (d' & Hd' & Ld' & Wa' & Id' & Q). apply Q.
    + apply Forall_forall. intros v Iv. rewrite Forall_forall in Fv. apply (fixed_mono d d'); auto; try (apply (known_here nv); auto using below).
    + rewrite Forall_forall in Fc. apply (fixed_mono d d'); auto; try (apply (known_here nv); auto; now apply (count_below c)). apply Fc. now apply in_map.
Qed.

(** ** Closed *)
Definition covered (x : Z) (runs : list (Z * Z)) : Prop := Exists (fun r => fst r <= x <= snd r) runs.
Definition outside (values : list Z) (runs : list (Z * Z)) : Prop := Forall (fun r => fst r <= snd r /\ forall x, fst r <= x <= snd r -> ~ In x values) runs.

Lemma add_to_runs_spec values runs v : outside values runs -> outside values (add_to_runs values runs v) /\ (forall x, covered x runs -> covered x (add_to_runs values runs v)) /\ (~ In v values -> covered v (add_to_runs values runs v)).
Proof.
  intro O. unfold add_to_runs. destruct (listed values v) eqn:E; [apply listed_In in E; auto; split; [assumption|]; split; [auto|tauto]|].
  assert (N : ~ In v values) by (intro I; apply listed_In in I; congruence).
  assert (One : fst (v, v) <= snd (v, v) /\ forall x, fst (v, v) <= x <= snd (v, v) -> ~ In x values) by (cbn [fst snd]; split; [lia|]; intros x Hx; replace x with v by lia; assumption).
  destruct runs as [|[lo hi] r].
  - split; [constructor; [assumption|constructor]|]. split; [intros x C; inversion C|]. intros _. left. simpl. lia.
  - destruct (Z.eqb_spec (hi + 1) v) as [<-|Nv].
    + unfold outside in *. apply Forall_cons_iff in O. destruct O as [[Le O1] O]. cbn [fst snd] in Le, O1. split; [constructor; [|assumption]|].
      * cbn [fst snd]. split; [lia|]. intros x Hx. destruct (Z.eq_dec x (hi + 1)) as [->|]; [assumption|apply O1; lia].
      * split; [|intros _; left; simpl; lia]. intros x C. inversion C as [? ? H|? ? H]; subst; [left; simpl in *; lia|now right].
    + split; [now constructor|]. split; [intros x C; now right|]. intros _. left. simpl. lia.
Qed.

Lemma uncovered_runs_spec values d v : outside values (uncovered_runs values d v) /\ forall x, In x (each_value d v) -> ~ In x values -> covered x (uncovered_runs values d v).
Proof.
  unfold uncovered_runs. assert (G : forall l runs, outside values runs -> outside values (fold_left (add_to_runs values) l runs) /\ (forall x, covered x runs -> covered x (fold_left (add_to_runs values) l runs)) /\
    forall x, In x l -> ~ In x values -> covered x (fold_left (add_to_runs values) l runs)).
  { induction l as [|y l IH]; intros runs O; cbn [fold_left]; [split; [assumption|]; split; [auto|intros x []]|]. destruct (add_to_runs_spec values runs y O) as (O1 & C1 & N1). destruct (IH _ O1) as (O2 & C2 & N2).
    split; [assumption|]. split; [auto|]. intros x [<-|I] N; auto. }
  destruct (G (each_value d v) []) as (O & _ & C); [constructor|]. split.
  - unfold outside in *. rewrite Forall_forall in *. intros r I. apply O. now apply in_rev.
  - intros x I N. specialize (C x I N). unfold covered in *. rewrite Exists_exists in *. destruct C as (r & Ir & Hr). exists r. split; [now apply -> in_rev|assumption].
Qed.

Lemma closed_pass_tells D (P : assignment -> Prop) values : (forall a v, P a -> In v vars -> In (var_value a v) values) -> tells nv D P (closed_pass vars values).
Proof.
  intro HP. unfold closed_pass. assert (G : goes nv D P (sequence vars (fun v rest => Look (fun d => sequence (uncovered_runs values d v) (fun run => Infer (LCond (mk_cond v OpNotInRange (fst run) (snd run)))) rest)))).
  { apply goes_sequence. intros v Iv. apply goes_look. intros d Hd Ld Id. apply goes_sequence. intros run Ir. apply goes_infer; [exact (below v Iv)|]. intros a [Pa _].
    destruct (uncovered_runs_spec values d v) as [O _]. unfold outside in O. rewrite Forall_forall in O. destruct (O run Ir) as [_ N]. intro B. apply (N _ B). now apply HP. }
  apply (G D P Stop); auto; [apply inside_refl|]. intros F _. exact Logic.I.
Qed.

Lemma closed_obeyed values d a : domains_ok d -> length d = nv -> within a d -> obeys nv a (closed_pass vars values) d -> Forall (fun v => In (var_value a v) values) vars.
Proof.
  intros Hd Ld Wa O. unfold closed_pass in O.
  destruct (passes_sequence nv a (fun v rest => Look (fun d => sequence (uncovered_runs values d v) (fun run => Infer (LCond (mk_cond v OpNotInRange (fst run) (snd run)))) rest)) (fun v _ => In (var_value a v) values) vars) with (rest := Stop) (d := d) as [X _]; auto.
  - intros v Iv. eapply passes_weaken; [|apply (passes_look nv a _ (fun d _ => forall run, In run (uncovered_runs values d v) -> lit_holds a (LCond (mk_cond v OpNotInRange (fst run) (snd run)))))].
    + intros D HD LD WD H. cbv beta in H. destruct (in_dec Z.eq_dec (var_value a v) values) as [I|N]; [assumption|exfalso]. destruct (uncovered_runs_spec values D v) as [_ C].
      assert (I : In (var_value a v) (each_value D v)) by (apply value_listed; auto; apply (known_here nv); auto using below). specialize (C _ I N). unfold covered in C. apply Exists_exists in C.
      destruct C as (r & Ir & Hr). apply (H r Ir). exact Hr.
    + intros D HD LD. eapply passes_weaken; [|apply (passes_sequence nv a _ (fun run _ => lit_holds a (LCond (mk_cond v OpNotInRange (fst run) (snd run)))))].
      * intros D' _ _ _ H run Ir. now destruct (H run Ir) as (_ & _ & _ & _ & _ & L).
      * intros run Ir. apply passes_infer.
  - apply Forall_forall. intros v Iv. now destruct (X v Iv) as (_ & _ & _ & _ & _ & L).
Qed.

Lemma closed_pass_meets d0 alias scope values (sat : assignment -> Prop) : (forall a v, sat a -> In v vars -> In (var_value a v) values) ->
  meets nv d0 alias (once (closed_pass vars values)) scope sat (fun a => Forall (fun v => In (var_value a v) values) vars).
Proof.
  intro HS. apply once_meets.
  - intros d Hd Ld Id. apply closed_pass_tells. intros a v [Sa _] Iv. now apply HS.
  - intros d a Hd Ld Id _ Wa O. now apply (closed_obeyed values d).
Qed.


(** ** At rest *)
Section Rests.
Variable d : domains.
Hypothesis Hd : domains_ok d.
Hypothesis Ld : length d = nv.

Lemma known v : var_below nv v -> var_known d v.
Proof. intro B. now apply (known_here nv). Qed.

Lemma rests_ge v b x : var_below nv v -> b = (lower_bound d v <? x) -> rests d (infer_when b (LCond (cond_ge v x))) (x <= lower_bound d v).
Proof.
  intros B E. eapply rests_weaken; [|apply rests_when]. intro H. destruct (Z.ltb_spec (lower_bound d v) x) as [N|N]; [|assumption].
  destruct (lower_at d v Hd (known v B)) as (a & Wa & Ea). specialize (H E a Wa). apply lit_ge in H. lia.
Qed.

Lemma rests_le v b x : var_below nv v -> b = (x <? upper_bound d v) -> rests d (infer_when b (LCond (cond_le v x))) (upper_bound d v <= x).
Proof.
  intros B E. eapply rests_weaken; [|apply rests_when]. intro H. destruct (Z.ltb_spec x (upper_bound d v)) as [N|N]; [|assumption].
  destruct (upper_at d v Hd (known v B)) as (a & Wa & Ea). specialize (H E a Wa). apply lit_le in H. lia.
Qed.

Lemma not_taken v x : var_below nv v -> (forall a, within a d -> lit_holds a (LCond (cond_ne v x))) -> ~ view_member d v x.
Proof. intros B H V. apply view_member_iff in V; auto; [|now apply known]. destruct V as (a & Wa & E). apply (H a Wa). exact E. Qed.

Lemma have_bounds' v : var_below nv v -> lower_bound d v <= upper_bound d v.
Proof. intro B. destruct (within_exists d Hd) as (a & Wa). destruct (value_bounds d v a Hd (known v B) Wa). lia. Qed.

Definition solo (v : var_id) (x : Z) : Prop := view_member d v x -> forall y, view_member d v y -> y = x.

Lemma single_solo v x : var_below nv v -> has_single_value d v = true -> solo v x.
Proof.
  intros B S Vx y Vy. apply has_single_value_spec in S; auto; [|now apply known]. destruct (lower_bound_spec d v Hd (known v B)) as [_ L], (upper_bound_spec d v Hd (known v B)) as [_ U].
  pose proof (L x Vx). pose proof (L y Vy). pose proof (U x Vx). pose proof (U y Vy). lia.
Qed.

Lemma value_pass_rests e : var_below nv (snd e) -> rests d (value_pass vars e) (
  let can := how_many (fun v => in_domain d v (fst e)) vars in let must := how_many (fun v => in_domain d v (fst e) && has_single_value d v) vars in
  must <= lower_bound d (snd e) /\ upper_bound d (snd e) <= can /\ (must = upper_bound d (snd e) -> forall v, In v vars -> solo v (fst e)) /\ (can = lower_bound d (snd e) -> forall v, In v vars -> solo v (fst e))).
Proof.
  intros Be. destruct e as [value count]. cbn [fst snd] in *. cbv zeta. unfold value_pass. apply rests_look. rewrite bounds_spec.
  set (can := how_many (fun v => in_domain d v value) vars). set (must := how_many (fun v => in_domain d v value && has_single_value d v) vars).
  pose proof (rests_ge count _ must Be eq_refl) as R1. pose proof (rests_le count _ can Be eq_refl) as R2.
  assert (R3 : rests d (if must =? upper_bound d count then remove_from_others vars value else fun r => r) (must = upper_bound d count -> forall v, In v vars -> solo v value)).
  { destruct (Z.eqb_spec must (upper_bound d count)) as [E|N]; [|apply (rests_weaken d _ True); [contradiction|apply rests_id]]. eapply rests_weaken; [intros H _; exact H|]. apply rests_sequence. intros v Iv. apply rests_look.
    eapply rests_weaken; [|apply rests_when]. intro H. destruct (has_single_value d v) eqn:S; [apply single_solo; auto using below|]. rewrite andb_true_r in H. intros Vx. exfalso.
    apply (not_taken v value); auto using below. apply H. apply in_domain_spec; auto. apply known; auto using below. }
  assert (R4 : rests d (if (can =? lower_bound d count) && (0 <? can) then force_others vars value else fun r => r) (can = lower_bound d count -> forall v, In v vars -> solo v value)).
  { destruct (Z.eqb_spec can (lower_bound d count)) as [E|N]; [|apply (rests_weaken d _ True); [contradiction|apply rests_id]]. cbn [andb]. destruct (Z.ltb_spec 0 can) as [Pos|NP].
    - eapply rests_weaken; [intros H _; exact H|]. apply rests_sequence. intros v Iv. apply rests_look.
      destruct (has_single_value d v) eqn:S; [rewrite andb_false_r; apply (rests_weaken d _ True); [intros _; apply single_solo; auto using below|apply rests_id]|]. rewrite andb_true_r.
      destruct (in_domain d v value) eqn:I.
      + eapply rests_weaken; [|apply (rests_sequence d _ (fun w => negb (w =? value) = true -> forall a, within a d -> lit_holds a (LCond (cond_ne v w))))]; [|intros w _; apply rests_when].
        intros H Vx y Vy. destruct (Z.eq_dec y value) as [->|N]; [reflexivity|]. exfalso. apply (not_taken v y); auto using below. apply H; [now apply each_value_In|]. apply negb_true_iff. now apply Z.eqb_neq.
      + apply (rests_weaken d _ True); [|apply rests_id]. intros _ Vx. exfalso. apply in_domain_spec in Vx; auto; [congruence|]. apply known; auto using below.
    - apply (rests_weaken d _ True); [|apply rests_id]. intros _ _ v Iv Vx. exfalso.
      assert (0 < can); [|lia]. assert (Z0 : how_many (fun _ : var_id => false) vars = 0) by (clear; induction vars as [|v r IH]; [reflexivity|now rewrite how_many_cons]).
      rewrite <- Z0. apply (how_many_lt _ _ _ v); auto; [discriminate|]. apply in_domain_spec; auto. apply known; auto using below. }
  pose proof (rests_then d _ _ _ _ R3 R4) as R5. pose proof (rests_then d _ _ _ _ R2 R5) as R6. exact (rests_then d _ _ _ _ R1 R6).
Qed.

Lemma confined_iff hall v : confined_to d hall v = true <-> takes_only d hall v.
Proof. unfold confined_to, takes_only. rewrite forallb_forall. setoid_rewrite listed_In. setoid_rewrite each_value_In. tauto. Qed.

Lemma meet_iff hall v : In v vars -> may_meet d hall v = true <-> can_take d hall v.
Proof.
  intro I. unfold may_meet, can_take. rewrite existsb_exists. split; intros (x & Ix & H); exists x; (split; [assumption|]); apply in_domain_spec in H; auto; apply known; auto using below.
Qed.

Lemma number_how_many (f : var_id -> bool) (P : var_id -> Prop) l n : (forall v, In v l -> f v = true <-> P v) -> number P l n -> n = how_many f l.
Proof.
  intros H N. induction N as [|v vs n Pv N IH|v vs n Pv N IH]; [reflexivity| |]; rewrite how_many_cons; specialize (IH (fun w I => H w (or_intror I))); specialize (H v (or_introl eq_refl)).
  - rewrite (proj2 H Pv). lia.
  - destruct (f v); [exfalso; now apply Pv, H|lia].
Qed.

Definition capacity (run : cover) : Z := fold_right (fun e s => upper_bound d (snd e) + s) 0 run.
Definition needs (run : cover) : Z := fold_right (fun e s => lower_bound d (snd e) + s) 0 run.

Lemma hall_pass_rests run : Forall (var_below nv) (map snd run) -> rests d (hall_pass vars run (capacity run) (needs run)) (in_balance d vars run).
Proof.
  intros Br. unfold hall_pass. apply rests_look. set (hall := map fst run). set (cap := capacity run). set (demand := needs run). set (confined := how_many (confined_to d hall) vars).
  set (potential := filter (may_meet d hall) vars). set (n := Z.of_nat (length potential)).
  assert (R1 : rests d (sequence run (count_pass confined n cap demand)) (forall e, In e run -> confined - (cap - upper_bound d (snd e)) <= lower_bound d (snd e) /\ upper_bound d (snd e) <= n - (demand - lower_bound d (snd e)))).
  { apply rests_sequence. intros e Ie. assert (Be : var_below nv (snd e)) by (rewrite Forall_forall in Br; apply Br; now apply in_map). unfold count_pass. apply rests_look. rewrite bounds_spec.
    exact (rests_then d _ _ _ _ (rests_ge (snd e) _ _ Be eq_refl) (rests_le (snd e) _ _ Be eq_refl)). }
  destruct (within_exists d Hd) as (a0 & W0).
  assert (R2 : rests d (if cap <? confined then Infer LFalse else if confined =? cap then outsiders_leave vars hall else fun r => r) (confined <= cap /\ (confined = cap -> forall v, In v vars -> can_take d hall v -> takes_only d hall v))).
  { destruct (Z.ltb_spec cap confined) as [E|N]; [eapply rests_weaken; [|apply rests_infer]; intro H; destruct (H a0 W0)|].
    destruct (Z.eqb_spec confined cap) as [E|N']; [|apply (rests_weaken d _ True); [intros _; split; [assumption|contradiction]|apply rests_id]].
    eapply (rests_weaken d _ (forall v, In v vars -> can_take d hall v -> takes_only d hall v)); [tauto|]. apply rests_sequence. intros v Iv. apply rests_look.
    destruct (confined_to d hall v) eqn:C; [apply (rests_weaken d _ True); [intros _ _; now apply confined_iff|apply rests_id]|].
    eapply rests_weaken; [|apply (rests_sequence d _ (fun x => in_domain d v x = true -> forall a, within a d -> lit_holds a (LCond (cond_ne v x))))].
    - intros H (x & Ix & Vx). exfalso. apply (not_taken v x); auto using below. apply H; [assumption|]. apply in_domain_spec; auto. apply known; auto using below.
    - intros x Ix. apply (rests_look d (fun d rest => infer_when (in_domain d v x) (LCond (cond_ne v x)) rest)). apply rests_when. }
  assert (R3 : rests d (if n <? demand then Infer LFalse else if n =? demand then insiders_stay potential hall else fun r => r) (demand <= n /\ (n = demand -> forall v, In v vars -> can_take d hall v -> takes_only d hall v))).
  { destruct (Z.ltb_spec n demand) as [E|N]; [eapply rests_weaken; [|apply rests_infer]; intro H; destruct (H a0 W0)|].
    destruct (Z.eqb_spec n demand) as [E|N']; [|apply (rests_weaken d _ True); [intros _; split; [assumption|contradiction]|apply rests_id]].
    eapply (rests_weaken d _ (forall v, In v potential -> takes_only d hall v)); [intro H; split; [lia|]; intros _ v Iv C; apply H; unfold potential; apply filter_In; split; [assumption|now apply meet_iff]|].
    apply rests_sequence. intros v Iv. unfold potential in Iv. apply filter_In in Iv. destruct Iv as [Iv _]. apply rests_look.
    eapply rests_weaken; [|apply (rests_sequence d _ (fun x => negb (listed hall x) = true -> forall a, within a d -> lit_holds a (LCond (cond_ne v x))))]; [|intros x Ix; apply rests_when].
    intros H x Vx. destruct (listed hall x) eqn:C; [now apply listed_In|]. exfalso. apply (not_taken v x); auto using below. apply H; [now apply each_value_In|]. now rewrite C. }
  pose proof (rests_then d _ _ _ _ R1 (rests_then d _ _ _ _ R2 R3)) as R. eapply rests_weaken; [|exact R]. clear R R1 R2 R3.
  intros (A & [B1 B2] & C1 & C2). unfold in_balance. fold hall. fold (capacity run) (needs run). fold cap demand. intros k q Nk Nq.
  apply (number_how_many (confined_to d hall)) in Nk; [|intros v _; apply confined_iff]. apply (number_how_many (may_meet d hall)) in Nq; [|intros v Iv; now apply meet_iff]. fold confined in Nk. change (q = n) in Nq. subst k q. auto.
Qed.

Lemma value_balance e : var_below nv (snd e) -> rests d (value_pass vars e) (in_balance d vars [e]).
Proof.
  intros Be. eapply rests_weaken; [|apply (value_pass_rests e Be)]. cbv zeta. intros (A & B & C1 & C2) k q Nk Nq. cbn [map fold_right]. rewrite !Z.add_0_r.
  apply (number_how_many (fun v => in_domain d v (fst e) && has_single_value d v)) in Nk.
  2:{ intros v Iv. pose proof (known v (below v Iv)) as K. split.
    - intros X. apply andb_prop in X. destruct X as [X Y]. apply in_domain_spec in X; auto. intros y Vy. left. symmetry. exact (single_solo v (fst e) (below v Iv) Y X y Vy).
    - intro T. assert (Eq : forall y, view_member d v y -> y = fst e) by (intros y Vy; destruct (T y Vy) as [Ey|[]]; auto).
      destruct (lower_bound_spec d v Hd K) as [L _], (upper_bound_spec d v Hd K) as [U _]. apply andb_true_iff. split; [apply in_domain_spec; auto; now rewrite <- (Eq _ L)|]. apply has_single_value_spec; auto. rewrite (Eq _ L), (Eq _ U). reflexivity. }
  apply (number_how_many (fun v => in_domain d v (fst e))) in Nq.
  2:{ intros v Iv. pose proof (known v (below v Iv)) as K. split; [intro X; apply in_domain_spec in X; auto; exists (fst e); split; [now left|assumption]|]. intros (x & [<-|[]] & Vx). now apply in_domain_spec. }
  subst k q. pose proof (have_bounds' (snd e) Be) as LU. split; [lia|]. split; [lia|]. split; [intros e' [<-|[]]; lia|]. split; intros E v Iv (x & [<-|[]] & Vx) y Vy; left; symmetry; [now apply (C1 E v Iv)|]. now apply (C2 E v Iv).
Qed.

Lemma capacity_snoc run e : capacity (run ++ [e]) = capacity run + upper_bound d (snd e).
Proof. unfold capacity. induction run as [|x r IH]; cbn [app fold_right]; [lia|]. rewrite IH. lia. Qed.

Lemma needs_snoc run e : needs (run ++ [e]) = needs run + lower_bound d (snd e).
Proof. unfold needs. induction run as [|x r IH]; cbn [app fold_right]; [lia|]. rewrite IH. lia. Qed.

Lemma longer_runs_rests more : forall run, Forall (var_below nv) (map snd (run ++ more)) ->
  rests d (longer_runs vars run (capacity run) (needs run) more) (forall m1 m2, more = m1 ++ m2 -> m1 <> [] -> in_balance d vars (run ++ m1)).
Proof.
  induction more as [|e r IH]; intros run B.
  - apply (rests_weaken d _ True); [|apply rests_id]. intros _ m1 m2 E N. destruct m1; [now destruct N|discriminate].
  - cbn [longer_runs]. apply rests_look. rewrite bounds_spec. assert (X : (run ++ [e]) ++ r = run ++ e :: r) by (rewrite <- app_assoc; reflexivity).
    rewrite <- X in B. assert (B1 : Forall (var_below nv) (map snd (run ++ [e]))) by (rewrite map_app in B; apply Forall_app in B; tauto).
    rewrite <- capacity_snoc, <- needs_snoc. pose proof (rests_then d _ _ _ _ (hall_pass_rests (run ++ [e]) B1) (IH (run ++ [e]) B)) as R. eapply rests_weaken; [|exact R].
    intros [A C] m1 m2 E N. destruct m1 as [|e' m1]; [now destruct N|]. simpl in E. injection E as <- E. destruct m1 as [|e2 m1]; [assumption|].
    change (run ++ e :: e2 :: m1) with (run ++ [e] ++ e2 :: m1). rewrite app_assoc. apply (C _ m2); [assumption|discriminate].
Qed.

Lemma all_runs_rests c : Forall (var_below nv) (map snd c) -> rests d (all_runs vars c) (forall pre run post, c = pre ++ run ++ post -> (2 <= length run)%nat -> in_balance d vars run).
Proof.
  induction c as [|e r IH]; intro B.
  - apply (rests_weaken d _ True); [|apply rests_id]. intros _ pre run post E N. destruct pre; [|discriminate]. destruct run; [simpl in N; lia|discriminate].
  - cbn [all_runs]. apply rests_look. rewrite bounds_spec. assert (B' : Forall (var_below nv) (map snd ([e] ++ r))) by exact B.
    assert (C1 : upper_bound d (snd e) = capacity [e]) by (unfold capacity; simpl; lia). assert (C2 : lower_bound d (snd e) = needs [e]) by (unfold needs; simpl; lia). rewrite C1, C2.
    cbn [map] in B. apply Forall_cons_iff in B. destruct B as [_ B]. pose proof (rests_then d _ _ _ _ (longer_runs_rests r [e] B') (IH B)) as R. eapply rests_weaken; [|exact R].
    intros [A C] pre run post E N. destruct pre as [|e' pre].
    + destruct run as [|e1 run]; [simpl in N; lia|]. simpl in E. injection E as <- E. apply (A run post); [assumption|]. destruct run; [simpl in N; lia|discriminate].
    + simpl in E. injection E as <- E. now apply (C pre run post).
Qed.

Lemma bounds_pass_rests c : Forall (var_below nv) (map snd c) -> still (bounds_pass vars c) d -> forall pre run post, c = pre ++ run ++ post -> run <> [] -> in_balance d vars run.
Proof.
  intros B S. unfold bounds_pass in S.
  assert (R1 : rests d (sequence c (value_pass vars)) (forall e, In e c -> in_balance d vars [e])).
  { apply rests_sequence. intros e Ie. apply value_balance. rewrite Forall_forall in B. apply B. now apply in_map. }
  destruct (R1 _ S) as [A S2]. destruct (all_runs_rests c B _ S2) as [A2 _]. intros pre run post E N. destruct run as [|e [|e2 r]]; [contradiction| |].
  - apply A. rewrite E. apply in_app_iff. right. now left.
  - apply (A2 pre _ post); [assumption|]. simpl. lia.
Qed.
End Rests.
End Cardinality.

(** ** The constraint *)
Lemma insert_cover_perm e l : Permutation (e :: l) (insert_cover e l).
Proof.
  induction l as [|e' r IH]; [apply Permutation_refl|]. cbn [insert_cover]. destruct (fst e <=? fst e'); [apply Permutation_refl|].
  eapply perm_trans; [apply perm_swap|]. now constructor.
Qed.

Lemma sort_cover_perm l : Permutation l (sort_cover l).
Proof. induction l as [|e r IH]; [constructor|]. unfold sort_cover. cbn [fold_right]. eapply perm_trans; [constructor; exact IH|]. apply insert_cover_perm. Qed.

Lemma cover_parts (values : list Z) (counts : list var_id) : length values = length counts ->
  let c := sort_cover (combine values counts) in Permutation values (map fst c) /\ Permutation counts (map snd c).
Proof.
  intros E c. pose proof (sort_cover_perm (combine values counts)) as P. assert (X : map fst (combine values counts) = values /\ map snd (combine values counts) = counts).
  { clear c P. revert counts E. induction values as [|x r IH]; intros [|k s] E; try discriminate; [split; reflexivity|]. injection E as E. destruct (IH s E). simpl. split; congruence. }
  destruct X as [X Y]. split; [rewrite <- X at 1|rewrite <- Y at 1]; now apply Permutation_map.
Qed.

Lemma right_counts_iff vars (values : list Z) (counts : list var_id) a : length values = length counts ->
  right_counts vars (sort_cover (combine values counts)) a <-> Forall2 (fun x c => var_value a c = times_taken vars a x) values counts.
Proof.
  intro E. unfold right_counts. assert (X : Forall (fun e => var_value a (snd e) = times_taken vars a (fst e)) (combine values counts) <-> Forall2 (fun x c => var_value a c = times_taken vars a x) values counts).
  { revert counts E. induction values as [|x r IH]; intros [|k s] E; try discriminate; [split; constructor|]. injection E as E. specialize (IH s E). cbn [combine]. split; intro H.
    - apply Forall_cons_iff in H. destruct H as [A B]. constructor; [exact A|now apply IH].
    - inversion H; subst. constructor; [assumption|now apply IH]. }
  rewrite <- X. rewrite !Forall_forall. pose proof (sort_cover_perm (combine values counts)) as P. split; intros H e I; apply H; [now apply (Permutation_in _ P)|now apply (Permutation_in _ (Permutation_sym P))].
Qed.

Lemma gcc_correct d0 closed vars values counts : NoDup values -> length values = length counts -> Forall (var_known d0) (vars ++ counts) ->
  correct_on d0 (global_cardinality closed vars values counts) (vars ++ counts) (cardinalities closed vars values counts).
Proof.
  intros ND E K. destruct (cover_parts values counts E) as [P1 P2]. set (c := sort_cover (combine values counts)) in *.
  assert (Bl : forall nv, (length d0 <= nv)%nat -> Forall (var_below nv) vars /\ Forall (var_below nv) (map snd c)).
  { intros nv Ln. assert (X : Forall (var_below nv) (vars ++ counts)) by (eapply Forall_impl; [|exact K]; intros v Kv; now apply (known_below_more d0)).
    apply Forall_app in X. destruct X as [X Y]. split; [assumption|]. rewrite Forall_forall in *. intros v Iv. apply Y. now apply (Permutation_in _ (Permutation_sym P2)). }
  apply (parts_correct d0 _ _ _ (fun a => (closed = true -> Forall (fun v => In (var_value a v) (map fst c)) vars) /\ right_counts vars c a) (fun _ => True)); auto; unfold global_cardinality; fold c; cbn [fst snd].
  - apply carried_app.
    + unfold closed_propagators. destruct closed; [|eapply carried_ext; [|apply carried_nil]; intros a _ _; discriminate].
      eapply carried_ext; [|apply (carried_body d0 _ vars _ (fun a => Forall (fun v => In (var_value a v) (map fst c)) vars)); auto].
      * intros a _ H _. exact H.
      * intros v I. apply in_app_iff. auto.
      * rewrite !app_nil_r. apply incl_refl.
      * intros nv Ln. apply closed_pass_meets; [now apply Bl|]. intros a v [_ S] Iv. specialize (S eq_refl). rewrite Forall_forall in S. apply (Permutation_in _ P1). now apply S.
    + apply (carried_body d0 _ (vars ++ map snd c)); auto.
      * intros v I. apply in_app_iff in I. apply in_app_iff. destruct I as [I|I]; [auto|]. right. now apply (Permutation_in _ (Permutation_sym P2)).
      * rewrite app_nil_r. apply incl_refl.
      * intros nv Ln. destruct (Bl nv Ln) as [B1 B2]. apply bounds_pass_meets; auto; [now apply (Permutation_NoDup P1)|]. intros a [S _]. now apply right_counts_iff.
  - apply established_nil.
  - intros a _ [A B] _. split; [now apply right_counts_iff|]. intro C. specialize (A C). rewrite Forall_forall in *. intros v Iv. apply (Permutation_in _ (Permutation_sym P1)). now apply A.
Qed.

(** ** Intervals of values *)
Definition sorted_cover (l : cover) : Prop := forall l1 e l2, l = l1 ++ e :: l2 -> Forall (fun e' => fst e <= fst e') l2.

Lemma sorted_cover_cons e l : Forall (fun e' => fst e <= fst e') l -> sorted_cover l -> sorted_cover (e :: l).
Proof. intros F S [|x l1] y l2 E; injection E as <- E; [now subst l2|]. now apply (S l1 y l2). Qed.

Lemma sorted_cover_tail e l : sorted_cover (e :: l) -> Forall (fun e' => fst e <= fst e') l /\ sorted_cover l.
Proof. intro S. split; [now apply (S [] e l)|]. intros l1 y l2 E. apply (S (e :: l1) y l2). now rewrite E. Qed.

Lemma insert_cover_sorted e l : sorted_cover l -> sorted_cover (insert_cover e l).
Proof.
  induction l as [|x r IH]; intro S; cbn [insert_cover]; [apply sorted_cover_cons; [constructor|assumption]|]. destruct (sorted_cover_tail x r S) as [F S']. destruct (Z.leb_spec (fst e) (fst x)) as [L|L].
  - apply sorted_cover_cons; [|assumption]. constructor; [assumption|]. eapply Forall_impl; [|exact F]. simpl. intros. lia.
  - apply sorted_cover_cons; [|now apply IH]. rewrite Forall_forall. intros y Iy. apply (Permutation_in _ (Permutation_sym (insert_cover_perm e r))) in Iy. destruct Iy as [<-|Iy]; [lia|]. rewrite Forall_forall in F. now apply F.
Qed.

Lemma sort_cover_sorted l : sorted_cover (sort_cover l).
Proof. induction l as [|e r IH]; [intros [|] e l2 E; discriminate|]. now apply insert_cover_sorted. Qed.

Definition between (lo hi : Z) (e : Z * var_id) : bool := (lo <=? fst e) && (fst e <=? hi).

(** The values in an interval are next to each other in the sorted cover. *)
Lemma interval_segment lo hi l : sorted_cover l -> exists pre post, l = pre ++ filter (between lo hi) l ++ post.
Proof.
  assert (None_ : forall l, Forall (fun e => hi < fst e) l -> filter (between lo hi) l = []).
  { induction 1 as [|e r H _ IH]; [reflexivity|]. cbn [filter]. unfold between at 1. destruct (Z.leb_spec (fst e) hi); [lia|]. rewrite andb_false_r. exact IH. }
  assert (Tail : forall l, sorted_cover l -> Forall (fun e => lo <= fst e) l -> exists post, l = filter (between lo hi) l ++ post).
  { induction l0 as [|e r IH]; intros S F; [exists []; reflexivity|]. destruct (sorted_cover_tail e r S) as [Fe S']. apply Forall_cons_iff in F. destruct F as [Le F]. cbn [filter]. unfold between at 1.
    destruct (Z.leb_spec lo (fst e)); [|lia]. destruct (Z.leb_spec (fst e) hi) as [L|L]; cbn [andb].
    - destruct (IH S' F) as (post & E). exists post. cbn [app]. now rewrite <- E.
    - exists (e :: r). rewrite None_; [reflexivity|]. eapply Forall_impl; [|exact Fe]. simpl. intros. lia. }
  induction l as [|e r IH]; intro S; [exists [], []; reflexivity|]. destruct (Z.leb_spec lo (fst e)) as [L|L].
  - destruct (Tail (e :: r) S) as (post & E); [|exists [], post; exact E]. destruct (sorted_cover_tail e r S) as [Fe S']. constructor; [assumption|]. eapply Forall_impl; [|exact Fe]. simpl. intros. lia.
  - destruct (IH (proj2 (sorted_cover_tail e r S))) as (pre & post & E). exists (e :: pre), post. cbn [filter]. unfold between at 1. destruct (Z.leb_spec lo (fst e)); [lia|]. cbn [andb app]. now rewrite <- E.
Qed.

Lemma filter_perm {X} (f : X -> bool) l l' : Permutation l l' -> Permutation (filter f l) (filter f l').
Proof.
  induction 1 as [|x l l' P IH|x y l|l1 l2 l3 P1 IH1 P2 IH2]; cbn [filter]; [constructor| | |now apply (perm_trans IH1)].
  - destruct (f x); [now constructor|assumption].
  - destruct (f y), (f x); try apply Permutation_refl. apply perm_swap.
Qed.

Lemma sum_perm (f : Z * var_id -> Z) l l' : Permutation l l' -> fold_right (fun e s => f e + s) 0 l = fold_right (fun e s => f e + s) 0 l'.
Proof. induction 1; cbn [fold_right]; lia. Qed.

Lemma number_iff (P Q : var_id -> Prop) vs n : (forall v, P v <-> Q v) -> number P vs n -> number Q vs n.
Proof. intro H. induction 1 as [|v vs n Pv _ IH|v vs n Pv _ IH]; [constructor| |]; [apply number_yes; [now apply H|assumption]|apply number_no; [intro X; now apply Pv, H|assumption]]. Qed.

Lemma in_balance_perm d vars run run' : Permutation run run' -> in_balance d vars run -> in_balance d vars run'.
Proof.
  intros P B k q Nk Nq. pose proof (Permutation_map fst P) as Pf.
  assert (T : forall v, takes_only d (map fst run') v <-> takes_only d (map fst run) v).
  { intro v. split; intros H x Vx; specialize (H x Vx); [now apply (Permutation_in _ (Permutation_sym Pf))|now apply (Permutation_in _ Pf)]. }
  assert (C : forall v, can_take d (map fst run') v <-> can_take d (map fst run) v).
  { intro v. split; intros (x & Ix & Vx); exists x; (split; [|assumption]); [now apply (Permutation_in _ (Permutation_sym Pf))|now apply (Permutation_in _ Pf)]. }
  destruct (B k q) as (A1 & A2 & A3 & A4 & A5); [now apply (number_iff _ _ _ _ T)|now apply (number_iff _ _ _ _ C)|].
  rewrite <- (sum_perm (fun e => upper_bound d (snd e)) _ _ P), <- (sum_perm (fun e => lower_bound d (snd e)) _ _ P).
  split; [assumption|]. split; [assumption|]. split; [intros e Ie; apply A3; now apply (Permutation_in _ (Permutation_sym P))|].
  split; intros E v Iv X; apply T; [apply A4|apply A5]; auto; now apply C.
Qed.

Lemma in_balance_nil d vars nv : domains_ok d -> length d = nv -> Forall (var_below nv) vars -> in_balance d vars [].
Proof.
  intros Hd Ld B k q Nk Nq. cbn [map fold_right].
  assert (k = 0).
  { clear q Nq. induction Nk as [|v vs n T _ IH|v vs n T _ IH]; apply Forall_cons_iff in B || reflexivity; [|now apply IH]. exfalso. destruct B as [Bv _]. destruct (lower_bound_spec d v Hd (known_here nv d v Ld Bv)) as [V _]. destruct (T _ V). }
  assert (q = 0).
  { clear k Nk H. induction Nq as [|v vs n T _ IH|v vs n T _ IH]; apply Forall_cons_iff in B || reflexivity; [|now apply IH]. destruct T as (x & [] & _). }
  subst. split; [lia|]. split; [lia|]. split; [intros e []|]. split; intros _ v _ (x & [] & _).
Qed.

(** When the propagator of the counts infers nothing more, every interval is in balance. *)
Lemma gcc_balanced d0 closed vars values counts : NoDup values -> length values = length counts -> Forall (var_known d0) (vars ++ counts) ->
  exists ps p, fst (global_cardinality closed vars values counts d0) = ps ++ [p] /\
  forall d, domains_ok d -> length d = length d0 -> rerun_is_quiet p d -> forall lo hi, in_balance d vars (filter (between lo hi) (combine values counts)).
Proof.
  intros ND E K. destruct (cover_parts values counts E) as [P1 P2]. unfold global_cardinality. cbv zeta. set (c := sort_cover (combine values counts)) in *.
  exists (closed_propagators closed vars (map fst c)). eexists. split; [reflexivity|]. intros d Hd Ld Q lo hi.
  assert (X : Forall (var_below (length d0)) (vars ++ counts)) by (eapply Forall_impl; [|exact K]; intros v Kv; now apply known_below).
  apply Forall_app in X. destruct X as [Bv Bc]. assert (Bc' : Forall (var_below (length d0)) (map snd c)) by (rewrite Forall_forall in *; intros v Iv; apply Bc; now apply (Permutation_in _ (Permutation_sym P2))).
  apply (quiet_still (length d0) d Hd Ld _ (right_counts vars c)) in Q; [|apply bounds_pass_tells; auto; now apply (Permutation_NoDup P1)].
  apply (in_balance_perm d vars (filter (between lo hi) c)); [apply filter_perm, Permutation_sym, sort_cover_perm|].
  destruct (interval_segment lo hi c (sort_cover_sorted _)) as (pre & post & Es). destruct (filter (between lo hi) c) as [|e run] eqn:R; [now apply (in_balance_nil d vars (length d0))|].
  apply (bounds_pass_rests (length d0) vars Bv d Hd Ld c Bc' Q pre _ post); [assumption|discriminate].
Qed.

(** After the other propagator, only values in the cover are left. *)
Lemma gcc_closed d0 vars values counts : length values = length counts -> Forall (var_known d0) (vars ++ counts) ->
  exists p ps, fst (global_cardinality true vars values counts d0) = p :: ps /\
  forall Inv d, ConsistencySpec.outcome (length d0) Inv p d -> Forall (takes_only d values) vars.
Proof.
  intros E K. destruct (cover_parts values counts E) as [P1 P2]. unfold global_cardinality. cbv zeta. set (c := sort_cover (combine values counts)) in *. cbn [closed_propagators app fst].
  eexists. eexists. split; [reflexivity|]. intros Inv d (i & evs & (Hd & Ld & _) & A).
  assert (X : Forall (var_below (length d0)) (vars ++ counts)) by (eapply Forall_impl; [|exact K]; intros v Kv; now apply known_below). apply Forall_app in X. destruct X as [Bv _].
  set (p := closed_pass vars (map fst c)) in *. destruct (body_run_out (once p) i) as (Eo & _). cbn [p_run body_propagator] in A. rewrite Eo in A. cbn [once fst] in A.
  pose proof (closed_pass_tells (length d0) vars Bv (i_domains i) (fun a => forall v, In v vars -> In (var_value a v) (map fst c)) (map fst c) (fun a v H I => H v I)) as T. fold p in T.
  destruct (exec_size_tells (length d0) (i_domains i) Hd Ld p _ _ (track (i_domains i)) (fun _ => inside_refl _) T (legit_track _ _)) as [G _].
  destruct (lg_apply _ _ _ G) as [ev A']. rewrite A' in A. injection A as Ed _ F. subst d. pose proof (legit_ok _ _ Hd Ld _ G F) as Ok. pose proof (legit_length _ _ Hd Ld _ G) as Ln.
  apply Forall_forall. intros v Iv x Vx. rewrite Forall_forall in Bv. apply view_member_iff in Vx; auto; [|now apply (known_here (length d0)); auto]. destruct Vx as (a & Wa & <-).
  destruct (exec_obeys (length d0) (i_domains i) Hd Ld a p _ _ (track (i_domains i)) (fun _ => inside_refl _) T (legit_track _ _)) as (_ & Wi & O).
  - split; [assumption|]. split; [assumption|]. assumption.
  - rewrite <- Forall_forall in Bv. pose proof (closed_obeyed (length d0) vars Bv (map fst c) (i_domains i) a Hd Ld Wi O) as R. rewrite Forall_forall in R. apply (Permutation_in _ (Permutation_sym P1)). now apply R.
Qed.

Lemma cardinalities_ext closed vars values counts a a' : (forall v, In v (vars ++ counts) -> var_value a v = var_value a' v) -> cardinalities closed vars values counts a -> cardinalities closed vars values counts a'.
Proof.
  intros E [H C]. assert (Ev : map (var_value a) vars = map (var_value a') vars) by (apply map_ext_in; intros v I; apply E, in_app_iff; auto). split.
  - assert (Ec : forall c, In c counts -> var_value a c = var_value a' c) by (intros c I; apply E, in_app_iff; auto). clear E C. induction H as [|x c xs cs H F IH]; constructor.
    + rewrite <- Ec by now left. rewrite H. unfold times_taken. now rewrite Ev.
    + apply IH. intros d I. apply Ec. now right.
  - intro Cl. specialize (C Cl). rewrite Forall_forall in *. intros v I. rewrite <- E by (apply in_app_iff; auto). now apply C.
Qed.
