(** Lemmas about lexicographic comparison. *)
From Coq Require Import ZArith List Bool Arith Lia.
From Verif Require Import IntervalSet IntervalSetSpec IntervalSetProofs Vars VarsSpec VarsProofs State StateSpec StateProofs Epochs
  Engine EngineSpec EngineProofs EngineQueueProofs SessionSpec SessionInvProofs Tracker ContractSpec ContractProofs RunProofs ChoiceProofs
  Reify ReifySpec ReifyProofs Solve SolveSpec SolveProofs QuietProofs ElementProofs ConsistencySpec
  Stateful StatefulSpec StatefulProofs StatefulReify StatefulReifyProofs Lex LexSpec.
Import ListNotations.
Local Open Scope Z_scope.

(** ** The order, pair by pair *)

Fixpoint above (eps : bool) (a : assignment) (ps : list (var_id * var_id)) : Prop :=
  match ps with
  | [] => eps = true
  | (x, y) :: r => var_value a y < var_value a x \/ var_value a y = var_value a x /\ above eps a r
  end.

Lemma above_dec eps a ps : above eps a ps \/ ~ above eps a ps.
Proof.
  induction ps as [|[x y] r IH]; cbn [above]; [destruct eps; [now left|right; discriminate]|].
  destruct (Z.lt_trichotomy (var_value a y) (var_value a x)) as [H|[H|H]]; [tauto| |right; intros [X|[X _]]; lia].
  destruct IH as [IH|IH]; [tauto|]. right. intros [X|[_ X]]; [lia|tauto].
Qed.

Lemma before_cons x y xs ys : before (x :: xs) (y :: ys) <-> x < y \/ x = y /\ before xs ys.
Proof.
  split.
  - intros [(same & u & v & xs' & ys' & E1 & E2 & L)|(v & ys' & E)].
    + destruct same as [|c same]; simpl in *; injection E1 as -> ->; injection E2 as -> ->; [now left|]. right. split; [reflexivity|]. left. exists same, u, v, xs', ys'. auto.
    + injection E as -> ->. right. split; [reflexivity|]. right. eauto.
  - intros [L|[-> [(same & u & v & xs' & ys' & -> & -> & L)|(v & ys' & ->)]]].
    + left. exists [], x, y, xs, ys. auto.
    + left. exists (y :: same), u, v, xs', ys'. auto.
    + right. exists v, ys'. reflexivity.
Qed.

Lemma before_nil xs : ~ before xs [].
Proof. intros [(same & u & v & xs' & ys' & _ & E & _)|(v & ys' & E)]; [destruct same|destruct xs]; discriminate E. Qed.

Lemma nil_before y ys : before [] (y :: ys).
Proof. right. exists y, ys. reflexivity. Qed.

Definition ordered (or_equal : bool) (xs ys : list Z) : Prop := if or_equal then before_or_same xs ys else before xs ys.

Lemma ordered_cons o x y xs ys : ordered o (x :: xs) (y :: ys) <-> x < y \/ x = y /\ ordered o xs ys.
Proof.
  destruct o; simpl; [|apply before_cons]. unfold before_or_same. rewrite before_cons. split.
  - intros [[H|[-> H]]|E]; [tauto|tauto|]. injection E as -> ->. tauto.
  - intros [H|[-> [H|E]]]; [tauto|tauto|]. right. now subst.
Qed.

Lemma above_ordered o a vars_1 vars_2 :
  above (equal_prefix_satisfies vars_1 vars_2 o) a (lex_pairs vars_1 vars_2) <-> ordered o (map (var_value a) vars_2) (map (var_value a) vars_1).
Proof.
  unfold lex_pairs. revert vars_2. induction vars_1 as [|x v1 IH]; intros [|y v2]; cbn [combine map above].
  - unfold equal_prefix_satisfies. simpl. destruct o; simpl; [|split; [discriminate|intro H; destruct (before_nil _ H)]].
    split; [intros _; right; reflexivity|reflexivity].
  - unfold equal_prefix_satisfies. cbn [length]. replace (S (length v2) <? 0)%nat with false by reflexivity. rewrite andb_comm. cbn. split; [discriminate|].
    intro H. exfalso. destruct o; simpl in H; [destruct H as [H|H]; [|discriminate H]|]; now apply before_nil in H.
  - unfold equal_prefix_satisfies. simpl. split; [intros _|reflexivity]. destruct o; simpl; [left|]; apply nil_before.
  - rewrite ordered_cons. rewrite <- IH. replace (equal_prefix_satisfies (x :: v1) (y :: v2) o) with (equal_prefix_satisfies v1 v2 o) by reflexivity. tauto.
Qed.

(** The other way round. *)
Lemma prefix_other o vars_1 vars_2 : equal_prefix_satisfies vars_2 vars_1 (negb o) = negb (equal_prefix_satisfies vars_1 vars_2 o).
Proof.
  unfold equal_prefix_satisfies. destruct (Nat.ltb_spec (length vars_1) (length vars_2)), (Nat.ltb_spec (length vars_2) (length vars_1)),
    (Nat.eqb_spec (length vars_1) (length vars_2)), (Nat.eqb_spec (length vars_2) (length vars_1)), o; simpl; try reflexivity; lia.
Qed.

Lemma above_other eps a vars_1 vars_2 : above (negb eps) a (lex_pairs vars_2 vars_1) <-> ~ above eps a (lex_pairs vars_1 vars_2).
Proof.
  unfold lex_pairs. revert vars_2. induction vars_1 as [|x v1 IH]; intros [|y v2]; cbn [combine above]; try (destruct eps; simpl; split; congruence).
  rewrite IH. split.
  - intros [H|[H N]] [X|[X Y]]; try lia. exact (N Y).
  - intro N. destruct (Z.lt_trichotomy (var_value a x) (var_value a y)) as [H|[H|H]]; [now left| |exfalso; tauto].
    right. split; [assumption|]. intro C. apply N. right. split; [now symmetry|assumption].
Qed.

(** ** What the pass relies on *)

Definition tied (d : domains) (xy : var_id * var_id) : Prop := forall a, within a d -> var_value a (snd xy) = var_value a (fst xy).

Lemma above_skip eps a d n ps : within a d -> Forall (tied d) (firstn n ps) -> (above eps a ps <-> above eps a (skipn n ps)).
Proof.
  intros Wa. revert ps. induction n as [|n IH]; intros ps F; [simpl; tauto|]. destruct ps as [|[x y] r]; [simpl; tauto|].
  cbn [firstn] in F. apply Forall_cons_iff in F. destruct F as [T F]. cbn [skipn above]. rewrite <- (IH r F). specialize (T a Wa). simpl in T. intuition lia.
Qed.

Definition lex_own (ps : list (var_id * var_id)) (d : domains) (s : cstate) : Prop :=
  exists alpha, s = [Z.of_nat alpha] /\ Forall (tied d) (firstn alpha ps).

Lemma tied_inside D D' ps : inside D D' -> Forall (tied D) ps -> Forall (tied D') ps.
Proof. intros I F. eapply Forall_impl; [|exact F]. intros xy T a Wa. apply T. now apply I. Qed.

Lemma lex_own_inside ps D D' s : inside D D' -> lex_own ps D s -> lex_own ps D' s.
Proof. intros I (alpha & E & F). exists alpha. split; [assumption|]. now apply (tied_inside D). Qed.

Lemma combine_swap {X Y} (l : list X) (m : list Y) : combine m l = map (fun xy => (snd xy, fst xy)) (combine l m).
Proof. revert m. induction l as [|x l IH]; intros [|y m]; simpl; try reflexivity. now rewrite IH. Qed.

Lemma lex_own_swap vars_1 vars_2 D s : lex_own (lex_pairs vars_1 vars_2) D s -> lex_own (lex_pairs vars_2 vars_1) D s.
Proof.
  intros (alpha & E & F). exists alpha. split; [assumption|]. unfold lex_pairs in *. rewrite combine_swap, firstn_map. apply Forall_map. eapply Forall_impl; [|exact F].
  intros xy T a Wa. simpl. symmetry. now apply T.
Qed.

Lemma forced_tied d x y : domains_ok d -> var_known d x -> var_known d y -> forced_equal d (x, y) = true -> tied d (x, y).
Proof.
  intros Hd Kx Ky E a Wa. simpl. unfold forced_equal in E. cbn [fst snd] in E. rewrite !bounds_spec in E by assumption.
  rewrite !andb_true_iff, !Z.eqb_eq in E. pose proof (value_bounds d x a Hd Kx Wa). pose proof (value_bounds d y a Hd Ky Wa). lia.
Qed.

Lemma run_of_equal_tied d ps : domains_ok d -> Forall (fun xy => var_known d (fst xy) /\ var_known d (snd xy)) ps -> Forall (tied d) (firstn (run_of_equal d ps) ps).
Proof.
  intros Hd. induction ps as [|[x y] r IH]; intro K; [constructor|]. apply Forall_cons_iff in K. destruct K as [[Kx Ky] K]. cbn [run_of_equal].
  destruct (forced_equal d (x, y)) eqn:E; [|constructor]. cbn [firstn]. constructor; [now apply forced_tied|auto].
Qed.

Lemma run_of_equal_next d ps xy : nth_error ps (run_of_equal d ps) = Some xy -> forced_equal d xy = false.
Proof.
  induction ps as [|p r IH]; [discriminate|]. cbn [run_of_equal]. destruct (forced_equal d p) eqn:E; [exact IH|]. cbn. intro X. injection X as <-. exact E.
Qed.

Lemma firstn_add {X} n m (l : list X) : firstn (n + m) l = firstn n l ++ firstn m (skipn n l).
Proof. revert l. induction n as [|n IH]; intros [|x l]; simpl; rewrite ?firstn_nil; try reflexivity. now rewrite IH. Qed.

Lemma nth_error_skip {X} n m (l : list X) : nth_error l (n + m) = nth_error (skipn n l) m.
Proof. revert l. induction n as [|n IH]; intros [|x l]; simpl; try reflexivity; [now destruct m|apply IH]. Qed.

Lemma skipn_at {X} n (l : list X) x : nth_error l n = Some x -> skipn n l = x :: skipn (S n) l.
Proof. revert l. induction n as [|n IH]; intros [|y l] E; try discriminate; [injection E as ->; reflexivity|]. simpl in *. now apply IH. Qed.

(** ** The scan *)

Lemma scan_blocks eps d a ps : domains_ok d -> Forall (fun xy => var_known d (fst xy) /\ var_known d (snd xy)) ps -> within a d ->
  must_force_strict (scan d ps) eps = true -> ~ above eps a ps.
Proof.
  intros Hd K Wa. induction ps as [|[x y] r IH]; cbn [scan above must_force_strict]; [destruct eps; simpl; congruence|].
  apply Forall_cons_iff in K. destruct K as [[Kx Ky] K]. cbn [fst snd] in *.
  pose proof (value_bounds d x a Hd Kx Wa) as Bx. pose proof (value_bounds d y a Hd Ky Wa) as By.
  destruct (Z.ltb_spec (lower_bound d y) (upper_bound d x)) as [H|H]; [discriminate|].
  destruct (Z.ltb_spec (upper_bound d x) (lower_bound d y)) as [H'|H'].
  - intros _ [X|[X _]]; lia.
  - intros M [X|[_ X]]; [lia|]. exact (IH K M X).
Qed.

Lemma scan_allows eps d a ps : Forall (fun xy => var_value a (fst xy) = upper_bound d (fst xy) /\ var_value a (snd xy) = lower_bound d (snd xy)) ps ->
  must_force_strict (scan d ps) eps = false -> above eps a ps.
Proof.
  induction ps as [|[x y] r IH]; cbn [scan above must_force_strict]; intros F; [destruct eps; simpl; congruence|].
  apply Forall_cons_iff in F. destruct F as [[Ex Ey] F]. cbn [fst snd] in *. rewrite Ex, Ey.
  destruct (Z.ltb_spec (lower_bound d y) (upper_bound d x)) as [H|H]; [now left|].
  destruct (Z.ltb_spec (upper_bound d x) (lower_bound d y)) as [H'|H']; [discriminate|]. intro M. right. split; [lia|auto].
Qed.

(** ** The pass *)

Section Pass.
Variable nv : nat.
Variable vars_1 vars_2 : list var_id.
Variable or_equal : bool.
Hypothesis B1 : Forall (var_below nv) vars_1.
Hypothesis B2 : Forall (var_below nv) vars_2.

Let ps := lex_pairs vars_1 vars_2.
Let eps := equal_prefix_satisfies vars_1 vars_2 or_equal.

Lemma pair_below x y : In (x, y) ps -> var_below nv x /\ var_below nv y.
Proof.
  intro I. split.
  - apply (proj1 (Forall_forall _ _) B1). now apply in_combine_l in I.
  - apply (proj1 (Forall_forall _ _) B2). now apply in_combine_r in I.
Qed.

Lemma pairs_known d l : length d = nv -> incl l ps -> Forall (fun xy => var_known d (fst xy) /\ var_known d (snd xy)) l.
Proof.
  intros L I. apply Forall_forall. intros [x y] Ixy. destruct (pair_below x y (I _ Ixy)). split; now apply (var_below_known nv).
Qed.

Lemma incl_skipn {X} n (l : list X) : incl (skipn n l) l.
Proof. intros x I. rewrite <- (firstn_skipn n l). apply in_app_iff. now right. Qed.

Section Run.
Variable d : domains.
Variable saved : nat.
Hypothesis Hd : domains_ok d.
Hypothesis Ld : length d = nv.
Hypothesis Tied : Forall (tied d) (firstn saved ps).

Let alpha := (saved + run_of_equal d (skipn saved ps))%nat.

Lemma alpha_tied : Forall (tied d) (firstn alpha ps).
Proof.
  unfold alpha. rewrite firstn_add. apply Forall_app. split; [assumption|]. apply run_of_equal_tied; [assumption|]. apply pairs_known; [assumption|apply incl_skipn].
Qed.

Lemma alpha_end a : nth_error ps alpha = None -> within a d -> (above eps a ps <-> eps = true).
Proof.
  intros E Wa. rewrite (above_skip eps a d alpha ps Wa alpha_tied). apply nth_error_None in E. now rewrite skipn_all2.
Qed.

Lemma alpha_at a x y : nth_error ps alpha = Some (x, y) -> within a d ->
  (above eps a ps <-> var_value a y < var_value a x \/ var_value a y = var_value a x /\ above eps a (skipn (S alpha) ps)).
Proof. intros E Wa. rewrite (above_skip eps a d alpha ps Wa alpha_tied). rewrite (skipn_at _ _ _ E). reflexivity. Qed.

Lemma alpha_open x y : nth_error ps alpha = Some (x, y) -> forced_equal d (x, y) = false.
Proof. unfold alpha. rewrite nth_error_skip. apply run_of_equal_next. Qed.

(** Everything there is to know about a run. *)
Lemma lex_pass_cases : let '(t, alpha', r) := lex_pass vars_1 vars_2 or_equal d saved in
  honest nv d (fun a => above eps a ps) t /\ r <> EnableButIdempotent /\
  (t_failed t = false -> alpha' = alpha) /\
  (Forall (fixed d) (vars_1 ++ vars_2) -> forall a, live nv d t a -> above eps a ps) /\
  (r = DisableUntilBacktrack -> forall a, live nv d t a -> above eps a ps).
Proof.
  unfold lex_pass. fold ps eps alpha. pose proof (alpha_open) as Op. pose proof alpha_at as At. pose proof alpha_end as En.
  destruct (nth_error ps alpha) as [[x y]|] eqn:E.
  - destruct (pair_below x y (nth_error_In _ _ E)) as [Bx By].
    assert (Kx : forall D : domains, length D = nv -> var_known D x) by (intros; now apply (var_below_known nv)).
    assert (Ky : forall D : domains, length D = nv -> var_known D y) by (intros; now apply (var_below_known nv)).
    set (ls1 := [LCond (cond_ge x (lower_bound d y)); LCond (cond_lt y (upper_bound d x + 1))]). set (t1 := tell_all ls1 (track d)).
    assert (Bl1 : Forall (lit_below nv) ls1) by (repeat constructor; assumption).
    assert (H1 : honest nv d (fun a => above eps a ps) t1).
    { apply honest_tell_all; auto; [apply honest_track|]. intros a Wa Sa. apply (At a x y eq_refl Wa) in Sa.
      pose proof (value_bounds d x a Hd (Kx d Ld) Wa). pose proof (value_bounds d y a Hd (Ky d Ld) Wa).
      repeat constructor; unfold lit_holds, cond_holds; cbn; lia. }
    assert (Back1 : forall a, live nv d t1 a -> within a d /\ lower_bound d y <= var_value a x /\ var_value a y <= upper_bound d x).
    { intros a Lv. pose proof (live_within nv d Hd Ld _ _ Lv) as Wa. split; [assumption|]. apply (tell_all_back nv d Hd Ld) in Lv; [|exact Bl1|apply legit_track].
      destruct Lv as [_ F]. unfold ls1 in F. rewrite !Forall_cons_iff in F. destruct F as (F1 & F2 & _). unfold lit_holds, cond_holds in F1, F2; cbn in F1, F2. lia. }
    assert (Fix : Forall (fixed d) (vars_1 ++ vars_2) -> forall a, live nv d t1 a -> above eps a ps).
    { intros F a Lv. destruct (Back1 a Lv) as (Wa & G & _). apply (At a x y eq_refl Wa).
      assert (Fx : fixed d x) by (apply (proj1 (Forall_forall _ _) F), in_app_iff; left; now apply nth_error_In, in_combine_l in E).
      assert (Fy : fixed d y) by (apply (proj1 (Forall_forall _ _) F), in_app_iff; right; now apply nth_error_In, in_combine_r in E).
      specialize (Op x y eq_refl). unfold forced_equal in Op. cbn [fst snd] in Op. rewrite !bounds_spec in Op by auto.
      destruct (fixed_bounds d x a Hd (Kx d Ld) Fx Wa) as [X1 X2]. destruct (fixed_bounds d y a Hd (Ky d Ld) Fy Wa) as [Y1 Y2].
      rewrite X1, X2, Y1, Y2, !Z.eqb_refl in Op. cbn in Op. apply Z.eqb_neq in Op. left. lia. }
    destruct (t_failed t1) eqn:F1.
    { split; [assumption|]. split; [discriminate|]. split; [congruence|]. split; [assumption|discriminate]. }
    set (d1 := t_domains t1).
    assert (Hd1 : domains_ok d1) by (apply (legit_ok nv d Hd Ld); [apply H1|assumption]).
    assert (Ld1 : length d1 = nv) by (apply (legit_length nv d Hd Ld); apply H1).
    destruct (Z.ltb_spec (upper_bound d1 y) (lower_bound d1 x)) as [Str|NStr].
    { split; [assumption|]. split; [discriminate|]. split; [reflexivity|]. split; [assumption|]. intros _ a Lv. destruct (Back1 a Lv) as (Wa & _). apply (At a x y eq_refl Wa). left.
      destruct Lv as (_ & _ & W1). pose proof (value_bounds d1 x a Hd1 (Kx d1 Ld1) W1). pose proof (value_bounds d1 y a Hd1 (Ky d1 Ld1) W1). lia. }
    destruct (must_force_strict (scan d1 (skipn (S alpha) ps)) eps) eqn:M.
    + assert (Strict : forall a, within a d -> within a d1 -> above eps a ps -> var_value a y < var_value a x).
      { intros a Wa W1 Sa. apply (At a x y eq_refl Wa) in Sa. destruct Sa as [Sa|[_ Sa]]; [assumption|]. exfalso.
        apply (scan_blocks eps d1 a (skipn (S alpha) ps)); auto. apply pairs_known; [assumption|apply incl_skipn]. }
      assert (Val : forall a, within a d1 -> (lower_bound d1 x <= var_value a x <= upper_bound d1 x) /\ (lower_bound d1 y <= var_value a y <= upper_bound d1 y)).
      { intros a W1. split; apply value_bounds; auto. }
      destruct (Z.ltb_spec (lower_bound d1 y) (upper_bound d1 x)) as [C|NC].
      * set (ls2 := [LCond (cond_ge x (lower_bound d1 y + 1)); LCond (cond_lt y (upper_bound d1 x))]). set (t2 := tell_all ls2 t1).
        assert (Bl2 : Forall (lit_below nv) ls2) by (repeat constructor; assumption).
        assert (H2 : honest nv d (fun a => above eps a ps) t2).
        { apply honest_tell_all; auto. intros a Wa Sa. destruct (honest_within nv d Hd Ld _ t1 a H1 Wa Sa) as [_ W1]. fold d1 in W1. pose proof (Strict a Wa W1 Sa). pose proof (Val a W1).
          repeat constructor; unfold lit_holds, cond_holds; cbn; lia. }
        assert (Back2 : forall a, live nv d t2 a -> live nv d t1 a) by (intros a Lv; apply (tell_all_back nv d Hd Ld) in Lv; [tauto|exact Bl2|apply H1]).
        assert (Fix2 : Forall (fixed d) (vars_1 ++ vars_2) -> forall a, live nv d t2 a -> above eps a ps) by (intros F a Lv; apply Fix; auto).
        destruct (t_failed t2) eqn:F2.
        { split; [assumption|]. split; [discriminate|]. split; [congruence|]. split; [assumption|discriminate]. }
        split; [assumption|]. split; [destruct (_ <? _); discriminate|]. split; [reflexivity|]. split; [assumption|].
        intros R a Lv. destruct (Z.ltb_spec (upper_bound (t_domains t2) y) (lower_bound (t_domains t2) x)) as [S2|S2]; [|discriminate R].
        destruct (Back1 a (Back2 a Lv)) as (Wa & _). apply (At a x y eq_refl Wa). left.
        pose proof (live_ok nv d Hd Ld _ _ Lv) as Hd2. pose proof (live_length nv d Hd Ld _ _ Lv) as Ld2. destruct Lv as (_ & _ & W2).
        pose proof (value_bounds (t_domains t2) x a Hd2 (Kx _ Ld2) W2). pose proof (value_bounds (t_domains t2) y a Hd2 (Ky _ Ld2) W2). lia.
      * assert (H2 : honest nv d (fun a => above eps a ps) (tell_false t1)).
        { apply honest_tell; auto; [exact Logic.I|]. intros _ _ _ a Wa W1 Sa. fold d1 in W1. pose proof (Strict a Wa W1 Sa). pose proof (Val a W1). simpl. lia. }
        split; [assumption|]. split; [discriminate|]. split; [|split; [|discriminate]].
        -- intro F. exfalso. unfold tell_false, tell in F. rewrite F1 in F. discriminate F.
        -- intros _ a Lv. apply (tell_back nv d Hd Ld) in Lv; [|exact Logic.I|apply H1]. destruct Lv as [_ []].
    + split; [assumption|]. split; [discriminate|]. split; [reflexivity|]. split; [assumption|discriminate].
  - destruct eps eqn:Ee.
    + split; [apply honest_track|]. split; [discriminate|]. split; [reflexivity|]. split; [intros _|intros _]; intros a Lv; apply En; auto; now apply (live_within nv d Hd Ld) in Lv.
    + split; [|split; [discriminate|split; [reflexivity|split; [|discriminate]]]].
      * apply honest_tell; auto; [exact Logic.I|apply honest_track|]. intros _ _ _ a Wa _ Sa. apply En in Sa; auto. discriminate.
      * intros _ a Lv. apply (tell_back nv d Hd Ld) in Lv; [|exact Logic.I|apply legit_track]. destruct Lv as [_ []].
Qed.
End Run.

Lemma lex_body_ok d0 alias : state_body_ok nv d0 (lex_own ps) alias (lex_body vars_1 vars_2 or_equal) (vars_1 ++ vars_2) (fun a => above eps a ps).
Proof.
  assert (C : forall d s m, domains_ok d -> length d = nv -> lex_own ps d s -> exists saved, s = [Z.of_nat saved] /\ Forall (tied d) (firstn saved ps) /\
    lex_body vars_1 vars_2 or_equal d s m = (let '(t, alpha, r) := lex_pass vars_1 vars_2 or_equal d saved in mk_effect t [Z.of_nat alpha] m r)).
  { intros d s m Hd L (saved & -> & T). exists saved. split; [reflexivity|]. split; [assumption|]. unfold lex_body. cbn [hd]. now rewrite Nat2Z.id. }
  constructor.
  - intros d s m Hd L _ O. destruct (C d s m Hd L O) as (saved & _ & T & ->). pose proof (lex_pass_cases d saved Hd L T) as P.
    destruct (lex_pass vars_1 vars_2 or_equal d saved) as [[t alpha] r]. cbn [e_tracker]. apply P.
  - intros d s m Hd L _ O. destruct (C d s m Hd L O) as (saved & _ & T & ->). pose proof (lex_pass_cases d saved Hd L T) as P.
    destruct (lex_pass vars_1 vars_2 or_equal d saved) as [[t alpha] r]. cbn [e_tracker e_state]. destruct P as ((G & _) & _ & A & _). intro F. exists alpha. split; [reflexivity|].
    rewrite (A F). apply (tied_inside d); [now apply (legit_inside nv d)|]. now apply alpha_tied.
  - intros d s m a Hd L _ O. destruct (C d s m Hd L O) as (saved & _ & T & ->). pose proof (lex_pass_cases d saved Hd L T) as P.
    destruct (lex_pass vars_1 vars_2 or_equal d saved) as [[t alpha] r]. cbn [e_tracker]. destruct P as (_ & _ & _ & P & _). intros F Lv. now apply P.
  - intros d s m a Hd L _ O. destruct (C d s m Hd L O) as (saved & _ & T & ->). pose proof (lex_pass_cases d saved Hd L T) as P.
    destruct (lex_pass vars_1 vars_2 or_equal d saved) as [[t alpha] r]. cbn [e_tracker e_result]. destruct P as (_ & N & _). congruence.
  - intros d s m a Hd L _ O. destruct (C d s m Hd L O) as (saved & _ & T & ->). pose proof (lex_pass_cases d saved Hd L T) as P.
    destruct (lex_pass vars_1 vars_2 or_equal d saved) as [[t alpha] r]. cbn [e_tracker e_result]. destruct P as (_ & _ & _ & _ & P). intros R Lv. now apply P.
Qed.

Lemma lex_verdict_ok d0 : verdict_ok nv d0 (lex_verdict vars_1 vars_2 or_equal) (fun a => above eps a ps).
Proof.
  intros d Hd L _. unfold lex_verdict. fold ps eps.
  assert (T : Forall (tied d) (firstn 0 ps)) by constructor.
  pose proof (fun a => alpha_at d 0 Hd L T a) as At. pose proof (fun a => alpha_end d 0 Hd L T a) as En. cbn [plus skipn] in At, En.
  destruct (nth_error ps (run_of_equal d ps)) as [[x y]|] eqn:E.
  - destruct (pair_below x y (nth_error_In _ _ E)) as [Bx By].
    assert (Kx : var_known d x) by now apply (var_below_known nv). assert (Ky : var_known d y) by now apply (var_below_known nv).
    assert (Val : forall a, within a d -> (lower_bound d x <= var_value a x <= upper_bound d x) /\ (lower_bound d y <= var_value a y <= upper_bound d y)).
    { intros a W1. split; apply value_bounds; auto. }
    destruct (Z.ltb_spec (upper_bound d y) (lower_bound d x)) as [H|H].
    + intros a Wa. apply (At a x y eq_refl Wa). left. specialize (Val a Wa). lia.
    + destruct (Z.ltb_spec (upper_bound d x) (lower_bound d y)) as [H'|H']; [|exact Logic.I]. intros a Wa Sa. apply (At a x y eq_refl Wa) in Sa. specialize (Val a Wa). lia.
  - destruct eps eqn:Ee.
    + intros a Wa. apply En; auto.
    + intros a Wa Sa. apply En in Sa; auto. discriminate.
Qed.
End Pass.

(** ** The constraint *)

Lemma reif_sat_ext r (P Q : assignment -> Prop) a : (P a <-> Q a) -> (reif_sat r P a <-> reif_sat r Q a).
Proof. intro E. destruct r; simpl; tauto. Qed.

Lemma map_value_same n a a' vs : same_below n a a' -> Forall (var_below n) vs -> map (var_value a) vs = map (var_value a') vs.
Proof. intros S B. apply map_ext_in. intros v I. apply (same_below_value n); [assumption|]. now apply (proj1 (Forall_forall _ _) B). Qed.

Lemma reif_local n r (base : assignment -> Prop) : local n base -> Forall (var_below n) (reif_scope r) -> local n (reif_sat r base).
Proof.
  intros Lo Kr a a' S. assert (S' : same_below n a' a) by (intros x Hx; symmetry; now apply S).
  assert (Bs : base a <-> base a') by (split; now apply Lo). unfold reif_scope in Kr.
  destruct r as [| |c|c|c]; simpl in *; try tauto; apply Forall_inv in Kr; pose proof (same_below_value n a a' (c_var c) S Kr) as E; unfold cond_holds; rewrite E; tauto.
Qed.

Lemma ordered_local n o vars_1 vars_2 : Forall (var_below n) vars_1 -> Forall (var_below n) vars_2 ->
  local n (fun a => ordered o (map (var_value a) vars_2) (map (var_value a) vars_1)).
Proof. intros B1 B2 a a' S. now rewrite (map_value_same n a a' vars_1), (map_value_same n a a' vars_2). Qed.

Lemma reified_lex_means d0 vars_1 vars_2 r o : domains_ok d0 -> Forall (var_known d0) (vars_1 ++ vars_2) -> Forall (var_known d0) (reif_scope r) -> reif_sane r ->
  means d0 (reified_lex vars_1 vars_2 r o) ((vars_1 ++ vars_2) ++ reif_scope r)
    (reif_sat r (fun a => ordered o (map (var_value a) vars_2) (map (var_value a) vars_1))).
Proof.
  intros Hd0 K Kr Sr. apply known_below_all in K, Kr. pose proof K as K'. apply Forall_app in K'. destruct K' as [B1 B2].
  split; [now apply Forall_app|]. split; [apply reif_local; [now apply ordered_local|assumption]|].
  intros hidden cs Hd. assert (Le : (length d0 <= length (d0 ++ hidden))%nat) by (unfold domains, iset in *; rewrite app_length; lia).
  assert (Up : forall nv l, (length d0 <= nv)%nat -> Forall (var_below (length d0)) l -> Forall (var_below nv) l) by (intros nv l Ln F; eapply Forall_impl; [|exact F]; intros v; now apply below_more).
  set (base := fun a => ordered o (map (var_value a) vars_2) (map (var_value a) vars_1)).
  exists (reif_sat r base), (owned (length cs) (lex_own (lex_pairs vars_1 vars_2))). unfold reified_lex.
  apply state_dispatcher_installs; auto.
  - apply reif_local; [apply ordered_local|]; now apply Up.
  - cbn [app]. rewrite app_nil_r. apply incl_refl.
  - intros D D' s _ _ I. now apply lex_own_inside.
  - intros more Hm. exists 0%nat. split; [reflexivity|]. constructor.
  - intros nv Ln. assert (Ln' : (length d0 <= nv)%nat) by now apply (Nat.le_trans _ _ _ Le). intros d Hd' Ld Id.
    pose proof (lex_verdict_ok nv vars_1 vars_2 o (Up nv _ Ln' B1) (Up nv _ Ln' B2) (d0 ++ hidden) d Hd' Ld Id) as V.
    destruct (lex_verdict vars_1 vars_2 o d); [exact Logic.I| |]; intros a Wa; specialize (V a Wa); unfold base; rewrite <- above_ordered; assumption.
  - intros nv Ln. assert (Ln' : (length d0 <= nv)%nat) by now apply (Nat.le_trans _ _ _ Le).
    apply (state_body_ok_within nv (d0 ++ hidden) _ _ _ _ (fun a => above (equal_prefix_satisfies vars_1 vars_2 o) a (lex_pairs vars_1 vars_2))).
    + intros a _. apply above_ordered.
    + apply lex_body_ok; now apply Up.
  - intros nv Ln. assert (Ln' : (length d0 <= nv)%nat) by now apply (Nat.le_trans _ _ _ Le).
    apply (state_body_ok_within nv (d0 ++ hidden) _ _ _ _ (fun a => above (equal_prefix_satisfies vars_2 vars_1 (negb o)) a (lex_pairs vars_2 vars_1))).
    + intros a _. rewrite prefix_other, above_other. unfold base. now rewrite <- above_ordered.
    + destruct (lex_body_ok nv vars_2 vars_1 (negb o) (Up nv _ Ln' B2) (Up nv _ Ln' B1) (d0 ++ hidden)
        (aliased (state_propagator (length cs) (lex_body vars_2 vars_1 (negb o)) [] (vars_1 ++ vars_2) []))) as [Ho Ow Ch Cl En].
      assert (Sw : forall d s, lex_own (lex_pairs vars_1 vars_2) d s <-> lex_own (lex_pairs vars_2 vars_1) d s) by (intros d s; split; apply lex_own_swap).
      assert (Sc : forall D, Forall (fixed D) (vars_1 ++ vars_2) -> Forall (fixed D) (vars_2 ++ vars_1)) by (intros D F; rewrite Forall_app in *; tauto).
      constructor; intros *; rewrite ?Sw; eauto.
Qed.

(** ** Consistency *)

Lemma combine_at {X Y} (l : list X) (m : list Y) n x y : nth_error (combine l m) n = Some (x, y) ->
  l = firstn n l ++ x :: skipn (S n) l /\ m = firstn n m ++ y :: skipn (S n) m /\ skipn (S n) (combine l m) = combine (skipn (S n) l) (skipn (S n) m) /\
  firstn n (combine l m) = combine (firstn n l) (firstn n m).
Proof.
  revert n m. induction l as [|u l IH]; intros [|n] [|v m] E; try discriminate.
  - injection E as -> ->. auto.
  - destruct (IH n m E) as (E1 & E2 & E3 & E4). cbn [firstn skipn app combine]. split; [now f_equal|]. split; [now f_equal|]. split; [exact E3|now f_equal].
Qed.

Lemma map_app_inv2 {X Y} (f : X -> Y) l1 l2 m1 m2 : length l1 = length m1 -> map f (l1 ++ l2) = m1 ++ m2 -> map f l1 = m1 /\ map f l2 = m2.
Proof. intros L E. rewrite map_app in E. apply app_inj_len in E; [assumption|]. now rewrite map_length. Qed.

Lemma domains_ext (D D' : domains) : domains_ok D -> domains_ok D' -> length D = length D' -> (forall a, within a D <-> within a D') -> D = D'.
Proof.
  intros H H' L W. apply (nth_ext _ _ [] []); [assumption|]. intros n Hn. destruct (H n Hn) as [F _]. assert (Hn' : (n < length D')%nat) by (unfold domains, iset in *; lia). destruct (H' n Hn') as [F' _].
  apply wf_ext; [assumption|assumption|]. intro x. split; intro M.
  - destruct (within_exists_at D n x H M) as (a & Wa & <-). apply W in Wa. now apply Wa.
  - destruct (within_exists_at D' n x H' M) as (a & Wa & <-). apply W in Wa. now apply Wa.
Qed.

Section Consistent.
Variable vars_1 vars_2 : list var_id.
Variable or_equal : bool.
Variable d : domains.
Variable saved : nat.
Hypothesis Hd : domains_ok d.
Hypothesis K1 : Forall (var_known d) vars_1.
Hypothesis K2 : Forall (var_known d) vars_2.
Hypothesis ND : NoDup (underlying_list (vars_1 ++ vars_2)).

Let ps := lex_pairs vars_1 vars_2.
Let eps := equal_prefix_satisfies vars_1 vars_2 or_equal.
Hypothesis Tied : Forall (tied d) (firstn saved ps).

Lemma lex_quiet_consistent : let '(t, _, _) := lex_pass vars_1 vars_2 or_equal d saved in
  t_failed t = false -> t_domains t = d -> domain_consistent d (vars_1 ++ vars_2) (fun a => above eps a ps).
Proof.
  assert (B1 : Forall (var_below (length d)) vars_1) by now apply known_below_all. assert (B2 : Forall (var_below (length d)) vars_2) by now apply known_below_all.
  pose proof (alpha_at (length d) vars_1 vars_2 or_equal B1 B2 d saved Hd eq_refl Tied) as At. pose proof (alpha_end (length d) vars_1 vars_2 or_equal B1 B2 d saved Hd eq_refl Tied) as En.
  pose proof (alpha_open vars_1 vars_2 d saved) as Op. cbn zeta in *.
  assert (Easy : (forall a, within a d -> above eps a ps) -> domain_consistent d (vars_1 ++ vars_2) (fun a => above eps a ps)).
  { intros H v z _ (a & Wa & E). exists a. auto. }
  unfold lex_pass. fold ps eps in At, En, Op |- *. set (alpha := (saved + run_of_equal d (skipn saved ps))%nat) in *.
  destruct (nth_error ps alpha) as [[x y]|] eqn:E.
  2:{ destruct eps eqn:Ee.
      - intros _ _. apply Easy. intros a Wa. apply En; auto.
      - intros F. discriminate F. }
  destruct (combine_at _ _ _ _ _ E) as (E1 & E2 & E3 & _).
  set (pre1 := firstn alpha vars_1) in *. set (pre2 := firstn alpha vars_2) in *. set (post1 := skipn (S alpha) vars_1) in *. set (post2 := skipn (S alpha) vars_2) in *.
  assert (Kx : var_known d x) by (apply (proj1 (Forall_forall _ _) K1); rewrite E1; apply in_elt).
  assert (Ky : var_known d y) by (apply (proj1 (Forall_forall _ _) K2); rewrite E2; apply in_elt).
  (* choosing values *)
  assert (Choose : forall a zx zy f1 f2, within a d -> view_member d x zx -> view_member d y zy ->
    (forall v, In v post1 -> view_member d v (f1 v)) -> (forall v, In v post2 -> view_member d v (f2 v)) ->
    exists b, within b d /\ var_value b x = zx /\ var_value b y = zy /\ map (var_value b) pre1 = map (var_value a) pre1 /\ map (var_value b) pre2 = map (var_value a) pre2 /\
      map (var_value b) post1 = map f1 post1 /\ map (var_value b) post2 = map f2 post2).
  { intros a zx zy f1 f2 Wa Mx My M1 M2.
    assert (Ks : Forall (var_known d) (vars_1 ++ vars_2)) by now apply Forall_app.
    assert (Mem : forall (f : var_id -> Z) l, (forall v, In v l -> view_member d v (f v)) -> Forall2 (view_member d) l (map f l)).
    { intros f l H. induction l as [|v l IH]; [constructor|]. simpl. constructor; [apply H; now left|apply IH; intros; apply H; now right]. }
    assert (Pa : forall l, incl l (vars_1 ++ vars_2) -> forall v, In v l -> view_member d v (var_value a v)).
    { intros l I v Iv. apply value_possible; auto. apply (proj1 (Forall_forall _ _) Ks). now apply I. }
    assert (I1 : incl pre1 (vars_1 ++ vars_2)) by (rewrite E1; intros v I; rewrite !in_app_iff; tauto).
    assert (I2 : incl pre2 (vars_1 ++ vars_2)) by (rewrite E2; intros v I; rewrite !in_app_iff; tauto).
    destruct (choose_list d (vars_1 ++ vars_2) ((map (var_value a) pre1 ++ zx :: map f1 post1) ++ (map (var_value a) pre2 ++ zy :: map f2 post2)) Hd Ks ND) as (b & Wb & Eb).
    - rewrite E1, E2. repeat (apply Forall2_app || apply Forall2_cons); auto; apply Mem; eauto.
    - exists b. split; [assumption|].
      assert (Eb' : map (var_value b) ((pre1 ++ x :: post1) ++ (pre2 ++ y :: post2)) = (map (var_value a) pre1 ++ zx :: map f1 post1) ++ (map (var_value a) pre2 ++ zy :: map f2 post2))
        by (rewrite <- Eb; f_equal; rewrite <- E1, <- E2; reflexivity).
      clear Eb. apply map_app_inv2 in Eb'; [|rewrite !app_length; simpl; now rewrite !map_length]. destruct Eb' as [Ea Eb].
      apply map_app_inv2 in Ea; [|now rewrite map_length]. apply map_app_inv2 in Eb; [|now rewrite map_length]. destruct Ea as [Ea1 Ea2], Eb as [Eb1 Eb2].
      cbn [map] in Ea2, Eb2. injection Ea2 as Ex Ep1. injection Eb2 as Ey Ep2. auto 10. }
  set (ls1 := [LCond (cond_ge x (lower_bound d y)); LCond (cond_lt y (upper_bound d x + 1))]). set (t1 := tell_all ls1 (track d)).
  assert (Bx : var_below (length d) x) by now apply known_below. assert (By : var_below (length d) y) by now apply known_below.
  assert (Bl1 : Forall (lit_below (length d)) ls1) by (repeat constructor; assumption).
  assert (G1 : legit (length d) d t1) by (apply legit_tell_all; [assumption|apply legit_track]).
  (* what follows once nothing changes *)
  assert (Rest : t_failed t1 = false -> (forall a, within a d -> within a (t_domains t1)) -> upper_bound d y >= lower_bound d x ->
    (must_force_strict (scan d (skipn (S alpha) ps)) eps = true -> forall a, within a d -> lower_bound d y + 1 <= var_value a x /\ var_value a y < upper_bound d x) ->
    domain_consistent d (vars_1 ++ vars_2) (fun a => above eps a ps)).
  { intros F1 W1 NS St.
    assert (Val : forall a, within a d -> lower_bound d y <= var_value a x /\ var_value a y <= upper_bound d x).
    { intros a Wa. assert (Lv : live (length d) d t1 a) by (split; [assumption|]; split; [assumption|auto]).
      apply (tell_all_back (length d) d Hd eq_refl) in Lv; [|exact Bl1|apply legit_track].
      destruct Lv as [_ Fl]. unfold ls1 in Fl. rewrite !Forall_cons_iff in Fl. destruct Fl as (Fl1 & Fl2 & _). unfold lit_holds, cond_holds in Fl1, Fl2; cbn in Fl1, Fl2. lia. }
    destruct (lower_bound_spec d x Hd Kx) as [Lx _]. destruct (upper_bound_spec d x Hd Kx) as [Ux _].
    destruct (lower_bound_spec d y Hd Ky) as [Ly _]. destruct (upper_bound_spec d y Hd Ky) as [Uy _].
    assert (Gap : lower_bound d y < upper_bound d x).
    { specialize (Op x y eq_refl). unfold forced_equal in Op. cbn [fst snd] in Op. rewrite !bounds_spec in Op by auto.
      assert (A1 : lower_bound d y <= lower_bound d x) by (apply view_member_iff in Lx; auto; destruct Lx as (b & Wb & <-); now apply Val).
      assert (A2 : upper_bound d y <= upper_bound d x) by (apply view_member_iff in Uy; auto; destruct Uy as (b & Wb & Eb); rewrite <- Eb at 1; now apply Val).
      destruct (within_exists d Hd) as (b & Wb). pose proof (value_bounds d x b Hd Kx Wb). pose proof (value_bounds d y b Hd Ky Wb).
      rewrite !andb_false_iff, !Z.eqb_neq in Op. lia. }
    assert (Mu : forall l v, incl l (vars_1 ++ vars_2) -> In v l -> view_member d v (upper_bound d v)).
    { intros l v I Iv. apply upper_bound_spec; auto. apply I in Iv. apply (proj1 (Forall_forall (var_known d) (vars_1 ++ vars_2))); [now apply Forall_app|assumption]. }
    assert (Ml : forall l v, incl l (vars_1 ++ vars_2) -> In v l -> view_member d v (lower_bound d v)).
    { intros l v I Iv. apply lower_bound_spec; auto. apply I in Iv. apply (proj1 (Forall_forall (var_known d) (vars_1 ++ vars_2))); [now apply Forall_app|assumption]. }
    assert (Ma : forall a l v, within a d -> incl l (vars_1 ++ vars_2) -> In v l -> view_member d v (var_value a v)).
    { intros a l v Wa I Iv. apply value_possible; auto. apply I in Iv. apply (proj1 (Forall_forall (var_known d) (vars_1 ++ vars_2))); [now apply Forall_app|assumption]. }
    assert (Ip1 : incl post1 (vars_1 ++ vars_2)) by (rewrite E1; intros v I; rewrite !in_app_iff; simpl; tauto).
    assert (Ip2 : incl post2 (vars_1 ++ vars_2)) by (rewrite E2; intros v I; rewrite !in_app_iff; simpl; tauto).
    (* the tie has to be broken later on *)
    assert (Later : must_force_strict (scan d (skipn (S alpha) ps)) eps = false -> forall b, map (var_value b) post1 = map (upper_bound d) post1 ->
      map (var_value b) post2 = map (lower_bound d) post2 -> above eps b (skipn (S alpha) ps)).
    { intros M b Eb1 Eb2. apply (scan_allows eps d); [|assumption]. unfold ps, lex_pairs. rewrite E3. apply Forall_forall. intros [p q] I. cbn [fst snd]. split.
      - apply in_combine_l in I. exact (ext_in_map Eb1 p I).
      - apply in_combine_r in I. exact (ext_in_map Eb2 q I). }
    intros v z Iv (a & Wa & Ea).
    assert (Cv : v = x \/ v = y \/ In v pre1 \/ In v pre2 \/ In v post1 \/ In v post2).
    { rewrite E1, E2 in Iv. rewrite !in_app_iff in Iv. simpl in Iv. rewrite !or_assoc in Iv. intuition. }
    assert (Other : (In v pre1 \/ In v pre2 \/ In v post1 \/ In v post2) -> exists b, within b d /\ var_value b v = z /\ above eps b ps).
    { intro C. destruct (Choose a (upper_bound d x) (lower_bound d y) (var_value a) (var_value a) Wa Ux Ly (fun v => Ma a post1 v Wa Ip1) (fun v => Ma a post2 v Wa Ip2))
        as (b & Wb & Ebx & Eby & P1 & P2 & Q1 & Q2). exists b. split; [assumption|]. split; [|apply (At b x y eq_refl Wb); left; lia].
      rewrite <- Ea. destruct C as [C|[C|[C|C]]]; [exact (ext_in_map P1 v C)|exact (ext_in_map P2 v C)|exact (ext_in_map Q1 v C)|exact (ext_in_map Q2 v C)]. }
    destruct Cv as [Cv|[Cv|Cv]]; [| |now apply Other]; clear Other; rewrite Cv in *; clear Cv.
    - pose proof (proj1 (Val a Wa)) as Zx. rewrite Ea in Zx.
      assert (Mx : view_member d x z) by (rewrite <- Ea; now apply value_possible).
      destruct (Z.eq_dec z (lower_bound d y)) as [Ez|Nz].
      + destruct (must_force_strict (scan d (skipn (S alpha) ps)) eps) eqn:M; [specialize (St eq_refl a Wa); lia|].
        destruct (Choose a z (lower_bound d y) (upper_bound d) (lower_bound d) Wa Mx Ly (fun v => Mu post1 v Ip1) (fun v => Ml post2 v Ip2)) as (b & Wb & Ebx & Eby & _ & _ & Q1 & Q2).
        exists b. split; [assumption|]. split; [assumption|]. apply (At b x y eq_refl Wb). right. split; [lia|]. now apply Later.
      + destruct (Choose a z (lower_bound d y) (var_value a) (var_value a) Wa Mx Ly (fun v => Ma a post1 v Wa Ip1) (fun v => Ma a post2 v Wa Ip2)) as (b & Wb & Ebx & Eby & _).
        exists b. split; [assumption|]. split; [assumption|]. apply (At b x y eq_refl Wb). left. lia.
    - pose proof (proj2 (Val a Wa)) as Zy. rewrite Ea in Zy.
      assert (My : view_member d y z) by (rewrite <- Ea; now apply value_possible).
      destruct (Z.eq_dec z (upper_bound d x)) as [Ez|Nz].
      + destruct (must_force_strict (scan d (skipn (S alpha) ps)) eps) eqn:M; [specialize (St eq_refl a Wa); lia|].
        destruct (Choose a (upper_bound d x) z (upper_bound d) (lower_bound d) Wa Ux My (fun v => Mu post1 v Ip1) (fun v => Ml post2 v Ip2)) as (b & Wb & Ebx & Eby & _ & _ & Q1 & Q2).
        exists b. split; [assumption|]. split; [assumption|]. apply (At b x y eq_refl Wb). right. split; [lia|]. now apply Later.
      + destruct (Choose a (upper_bound d x) z (var_value a) (var_value a) Wa Ux My (fun v => Ma a post1 v Wa Ip1) (fun v => Ma a post2 v Wa Ip2)) as (b & Wb & Ebx & Eby & _).
        exists b. split; [assumption|]. split; [assumption|]. apply (At b x y eq_refl Wb). left. lia. }
  destruct (t_failed t1) eqn:F1; [congruence|].
  set (d1 := t_domains t1) in *.
  assert (Hd1 : domains_ok d1) by now apply (legit_ok (length d) d). 
  destruct (Z.ltb_spec (upper_bound d1 y) (lower_bound d1 x)) as [S1|S1].
  { intros _ Ed. apply Easy. intros a Wa. apply (At a x y eq_refl Wa). left. fold d1 in Ed. rewrite Ed in S1.
    pose proof (value_bounds d x a Hd Kx Wa). pose proof (value_bounds d y a Hd Ky Wa). lia. }
  destruct (must_force_strict (scan d1 (skipn (S alpha) ps)) eps) eqn:M.
  - destruct (Z.ltb_spec (lower_bound d1 y) (upper_bound d1 x)) as [C|C].
    + set (ls2 := [LCond (cond_ge x (lower_bound d1 y + 1)); LCond (cond_lt y (upper_bound d1 x))]). set (t2 := tell_all ls2 t1).
      assert (Bl2 : Forall (lit_below (length d)) ls2) by (repeat constructor; assumption).
      assert (G2 : legit (length d) d t2) by (apply legit_tell_all; assumption).
      assert (Bk : t_failed t2 = false -> t_domains t2 = d -> forall a, within a d -> within a d1 /\ lower_bound d1 y + 1 <= var_value a x /\ var_value a y < upper_bound d1 x).
      { intros F2 Ed a Wa. assert (Lv : live (length d) d t2 a) by (split; [assumption|]; split; [assumption|]; now rewrite Ed).
        apply (tell_all_back (length d) d Hd eq_refl) in Lv; [|exact Bl2|assumption]. destruct Lv as [(_ & _ & Lw) Fl]. split; [exact Lw|].
        unfold ls2 in Fl. rewrite !Forall_cons_iff in Fl. destruct Fl as (Fl1 & Fl2 & _). unfold lit_holds, cond_holds in Fl1, Fl2; cbn in Fl1, Fl2. lia. }
      destruct (t_failed t2) eqn:F2; [congruence|]. intros _ Ed. specialize (Bk eq_refl Ed).
      assert (Same : d1 = d).
      { apply domains_ext; auto; [now apply (legit_length (length d) d)|]. intro a. split; [now apply (legit_inside (length d) d Hd eq_refl t1 G1)|]. intro Wa. now apply Bk. }
      clearbody d1. subst d1. apply Rest; auto; [lia|]. intros _ a Wa. now apply Bk.
    + intro F. exfalso. unfold tell_false, tell in F. rewrite F1 in F. discriminate F.
  - intros _ Ed. fold d1 in Ed. clearbody d1. subst d1. apply Rest; auto; [lia|congruence].
Qed.
End Consistent.

Lemma lex_consistent d0 cs vars_1 vars_2 o : domains_ok d0 -> Forall (var_known d0) (vars_1 ++ vars_2) -> NoDup (underlying_list (vars_1 ++ vars_2)) ->
  exists p s0, in_props (reified_lex vars_1 vars_2 RMustHold o d0 cs) = [p] /\ in_states (reified_lex vars_1 vars_2 RMustHold o d0 cs) = [s0] /\
  forall i s D, lives p (length cs) d0 s0 (i_domains i) s -> nth_error (i_cstates i) (length cs) = Some s ->
    apply_lits (i_domains i) (o_infer (p_run p i)) = (D, [], false) ->
    domain_consistent D (vars_1 ++ vars_2) (fun a => ordered o (map (var_value a) vars_2) (map (var_value a) vars_1)).
Proof.
  intros Hd0 K ND. eexists. eexists. split; [reflexivity|]. split; [reflexivity|]. intros i s D Lv Es A.
  apply known_below_all in K. pose proof K as K'. apply Forall_app in K'. destruct K' as [B1 B2].
  pose proof (lex_body_ok (length d0) vars_1 vars_2 o B1 B2 d0 True) as Ok.
  destruct (lives_own (length d0) d0 _ [0] (length cs) (lex_own (lex_pairs vars_1 vars_2)) _ _ _ _ _ _ Hd0 eq_refl
    (fun D D' s _ _ I => lex_own_inside _ D D' s I) (ex_intro _ 0%nat (conj eq_refl (Forall_nil _))) Ok _ _ Lv) as (Hd & Ld & Id & O).
  pose proof O as (saved & -> & T). cbn [state_propagator p_run state_run o_infer] in A. rewrite (nth_error_nth _ _ _ Es) in A.
  pose proof (so_honest _ _ _ _ _ _ _ Ok (i_domains i) [Z.of_nat saved] (i_memo i) Hd Ld Id O) as [G _].
  assert (ED : D = i_domains i).
  { apply (apply_lits_quiet _ _ _ Hd) in A; [assumption|]. apply Forall_rev. apply (lits_known (length d0)); auto. apply (lg_below _ _ _ G). }
  destruct (lg_apply _ _ _ G) as (evs & A'). rewrite A' in A. injection A as A1 _ A2. rewrite ED in *. clear ED.
  revert A1 A2. unfold lex_body. cbn [hd]. rewrite Nat2Z.id.
  assert (Ks : Forall (var_known (i_domains i)) (vars_1 ++ vars_2)).
  { eapply Forall_impl; [|exact K]. intros v Bv. apply (var_below_known (length d0)); assumption. }
  apply Forall_app in Ks. destruct Ks as [K1 K2].
  pose proof (lex_quiet_consistent vars_1 vars_2 o (i_domains i) saved Hd K1 K2 ND T) as Q.
  destruct (lex_pass vars_1 vars_2 o (i_domains i) saved) as [[t alpha] r]. cbn [e_tracker] in *. intros A1 A2. rewrite A1 in *.
  intros v x Iv Ex. destruct (Q A2 eq_refl v x Iv Ex) as (a & Wa & Ea & Sa). exists a. split; [assumption|]. split; [assumption|]. now apply above_ordered.
Qed.

(** The same constraint, said differently. *)
Lemma means_ext d0 k scope scope' (sat sat' : assignment -> Prop) : (forall a, sat a <-> sat' a) -> incl scope scope' -> Forall (var_below (length d0)) scope' ->
  means d0 k scope sat -> means d0 k scope' sat'.
Proof.
  intros E I B (_ & Lo & M). split; [assumption|]. split; [intros a a' Sm Sa; apply E; apply (Lo a a' Sm); now apply E|]. intros hidden cs Hd.
  destruct (M hidden cs Hd) as (sol & Own & [A1 A2 A3 A4 A5 A6 A7]). exists sol, Own. constructor; auto.
  - intros a Wa Sa. apply A4; [assumption|]. now apply E.
  - intros nv Inv Ln St Id Fr. destruct (A7 nv Inv Ln St Id Fr) as (pp & ip & FP & FI & Con). exists pp, ip. split; [|split; [assumption|]].
    + eapply Forall2_weaken; [|exact FP]. intros p s (W & So & ok & dead & Wk & Ck). split; [assumption|]. split; [assumption|].
      exists ok, dead. split; [assumption|]. intros d Hd' Ld O Fx. apply (Ck d Hd' Ld O). rewrite Forall_forall in *. auto.
    + intros a Wa F1 F2. apply E. now apply Con.
Qed.
