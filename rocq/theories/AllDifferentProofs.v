(** Lemmas about AllDifferent with value consistency. *)
From Coq Require Import ZArith List Bool Arith Lia Permutation.
From Verif Require Import IntervalSet IntervalSetSpec IntervalSetProofs Vars VarsSpec VarsProofs State StateSpec StateProofs Epochs
  Engine EngineSpec EngineProofs SessionSpec SessionInvProofs Tracker ContractSpec ContractProofs RunProofs Equals EqualsProofs Solve SolveSpec SolveProofs
  Stateful StatefulSpec StatefulProofs AllDifferent AllDifferentSpec.
Import ListNotations.
Local Open Scope Z_scope.

(** ** Sorting *)

Lemma insert_var_perm v l : Permutation (insert_var v l) (v :: l).
Proof.
  induction l as [|w r IH]; simpl; [reflexivity|]. destruct (var_leb v w); [reflexivity|]. rewrite IH. apply perm_swap.
Qed.

Lemma sort_vars_perm l : Permutation (sort_vars l) l.
Proof. induction l as [|v r IH]; [reflexivity|]. simpl. rewrite insert_var_perm. now constructor. Qed.

Lemma var_leb_total v w : var_leb v w = true \/ var_leb w v = true.
Proof.
  destruct v as [n|n b x|x], w as [m|m c y|y]; simpl; auto.
  - destruct (Nat.leb_spec n m); [now left|right]. apply Nat.leb_le. lia.
  - rewrite (Nat.eqb_sym m n). destruct (Nat.eqb_spec n m) as [->|N].
    + destruct b, c; simpl; auto; destruct (Z.leb_spec x y); [now left|right; apply Z.leb_le; lia|now left|right; apply Z.leb_le; lia].
    + destruct (Nat.leb_spec n m); [now left|right]. apply Nat.leb_le. lia.
  - destruct (Z.leb_spec x y); [now left|right]. apply Z.leb_le. lia.
Qed.

Lemma var_leb_trans u v w : var_leb u v = true -> var_leb v w = true -> var_leb u w = true.
Proof.
  destruct u as [n|n b x|x], v as [m|m c y|y], w as [k|k e z|z]; simpl; try discriminate; auto.
  - rewrite !Nat.leb_le. lia.
  - destruct (Nat.eqb_spec n m) as [->|N1], (Nat.eqb_spec m k) as [->|N2]; rewrite ?Nat.eqb_refl.
    + destruct b, c, e; simpl; try discriminate; auto; rewrite !Z.leb_le; lia.
    + intros _. destruct (Nat.eqb_spec m k) as [->|_]; [congruence|auto].
    + intros H _. destruct (Nat.eqb_spec n k) as [->|_]; [congruence|auto].
    + rewrite !Nat.leb_le. intros. destruct (Nat.eqb_spec n k) as [->|_]; [lia|]. apply Nat.leb_le. lia.
  - rewrite !Z.leb_le. lia.
Qed.

Lemma var_leb_antisym v w : var_leb v w = true -> var_leb w v = true -> v = w.
Proof.
  destruct v as [n|n b x|x], w as [m|m c y|y]; simpl; try discriminate.
  - rewrite !Nat.leb_le. intros. f_equal. lia.
  - rewrite (Nat.eqb_sym m n). destruct (Nat.eqb_spec n m) as [->|N].
    + destruct b, c; simpl; try discriminate; rewrite !Z.leb_le; intros; f_equal; lia.
    + rewrite !Nat.leb_le. lia.
  - rewrite !Z.leb_le. intros. f_equal. lia.
Qed.

Inductive ascending : list var_id -> Prop :=
| ascending_nil : ascending []
| ascending_cons v l : Forall (fun w => var_leb v w = true) l -> ascending l -> ascending (v :: l).

Lemma insert_var_ascending v l : ascending l -> ascending (insert_var v l).
Proof.
  induction l as [|w r IH]; intro A; simpl; [now constructor|]. pose proof A as A'. inversion A as [|? ? F Ar]; subst. destruct (var_leb v w) eqn:E.
  - constructor; [|assumption]. constructor; [assumption|]. eapply Forall_impl; [|exact F]. intros u H. eapply var_leb_trans; eauto.
  - constructor; [|now apply IH]. apply (Permutation_Forall (Permutation_sym (insert_var_perm v r))). constructor; [|assumption].
    destruct (var_leb_total w v) as [H|H]; [assumption|congruence].
Qed.

Lemma sort_vars_ascending l : ascending (sort_vars l).
Proof. induction l as [|v r IH]; [constructor|]. simpl. now apply insert_var_ascending. Qed.

Lemma adjacent_equal_spec l : ascending l -> (adjacent_equal l = false <-> NoDup l).
Proof.
  induction l as [|v r IH]; intro A; [simpl; split; [constructor|reflexivity]|]. inversion A as [|? ? F Ar]; subst. specialize (IH Ar).
  destruct r as [|w r']; [simpl; split; [intros _; constructor; [tauto|constructor]|reflexivity]|].
  change (adjacent_equal (v :: w :: r')) with (var_eqb v w || adjacent_equal (w :: r')). rewrite orb_false_iff, IH. split.
  - intros [E N]. constructor; [|assumption]. intro I.
    assert (Eq : v = w).
    { apply var_leb_antisym; [now apply Forall_inv in F|]. destruct I as [->|I].
      + destruct (var_leb_total v v); assumption.
      + inversion Ar as [|? ? F' ?]; subst. rewrite Forall_forall in F'. now apply F'. }
    subst. assert (var_eqb w w = true) by now apply var_eqb_spec. congruence.
  - intro N. apply NoDup_cons_iff in N. destruct N as [N1 N2]. split; [|assumption]. destruct (var_eqb v w) eqn:E; [|reflexivity]. apply var_eqb_spec in E. subst. exfalso. apply N1. now left.
Qed.

Lemma duplicates_found l : adjacent_equal (sort_vars l) = false <-> NoDup l.
Proof.
  rewrite adjacent_equal_spec by apply sort_vars_ascending. split; intro N; (eapply Permutation_NoDup; [|exact N]); [apply sort_vars_perm|symmetry; apply sort_vars_perm].
Qed.

(** ** Positions *)

Lemma swap_pop_perm r : Permutation (swap_pop r) r.
Proof.
  destruct r as [|x r]; [reflexivity|]. unfold swap_pop. rewrite (app_removelast_last O (l := x :: r)) at 3 by discriminate. apply Permutation_cons_append.
Qed.

Lemma swap_pop_length r : length (swap_pop r) = length r.
Proof. apply Permutation_length, swap_pop_perm. Qed.

(** [a] gives every position of [vars] a different value. *)
Definition pairwise (vars : list var_id) (a : assignment) : Prop :=
  forall i j, (i < length vars)%nat -> (j < length vars)%nat -> i <> j -> var_value a (handle vars i) <> var_value a (handle vars j).

Lemma pairwise_NoDup vars a : pairwise vars a <-> NoDup (map (var_value a) vars).
Proof.
  rewrite (NoDup_nth _ (var_value a (VConst 0))). rewrite map_length. unfold pairwise, handle. split.
  - intros H i j Hi Hj E. rewrite !map_nth in E. destruct (Nat.eq_dec i j) as [|N]; [assumption|]. exfalso. apply (H i j); auto.
  - intros H i j Hi Hj N E. apply N. apply H; auto. now rewrite !map_nth.
Qed.

Section Pass.
Variable nv : nat.
Variable vars : list var_id.
Hypothesis Bs : Forall (var_below nv) vars.
Let n := length vars.

Lemma handle_below i : var_below nv (handle vars i).
Proof.
  unfold handle. destruct (Nat.lt_ge_cases i (length vars)) as [H|H].
  - rewrite Forall_forall in Bs. apply Bs. now apply nth_In.
  - rewrite nth_overflow by assumption. exact Logic.I.
Qed.

(** No assignment left gives the position the same value as another. *)
Definition covered (D : domains) (i : nat) : Prop :=
  forall a j, within a D -> (j < n)%nat -> j <> i -> var_value a (handle vars j) <> var_value a (handle vars i).

Lemma covered_inside D D' i : inside D D' -> covered D i -> covered D' i.
Proof. intros I C a j Wa. apply C. now apply I. Qed.

(** What is true of the state of the propagator between runs. *)
Definition vc_own (D : domains) (s : cstate) : Prop :=
  exists U, s = map Z.of_nat U /\ NoDup U /\ Forall (fun i => i < n)%nat U /\ forall i, (i < n)%nat -> ~ In i U -> covered D i.

Lemma vc_own_inside D D' s : inside D D' -> vc_own D s -> vc_own D' s.
Proof. intros I (U & E & N & B & C). exists U. repeat (split; [assumption|]). intros i Hi Ni. eapply covered_inside; eauto. Qed.

Section At.
Variable d : domains.
Hypothesis Hd : domains_ok d.
Hypothesis Ld : length d = nv.

Lemma handle_known t i : legit nv d t -> var_known (t_domains t) (handle vars i).
Proof. intro G. apply (var_below_known nv); [now apply (legit_length nv d)|apply handle_below]. Qed.

Lemma alive_single t i x : legit nv d t -> t_failed t = false -> optional_single_value (t_domains t) (handle vars i) = Some x ->
  forall a, within a (t_domains t) -> var_value a (handle vars i) = x.
Proof. intros G F E. apply osv_value; [now apply (legit_ok nv d)|now apply handle_known|assumption]. Qed.

Lemma alive_fixed t i : legit nv d t -> t_failed t = false -> (fixed (t_domains t) (handle vars i) <-> exists x, optional_single_value (t_domains t) (handle vars i) = Some x).
Proof. intros G F. apply fixed_osv; [now apply (legit_ok nv d)|now apply handle_known]. Qed.

(** *** Collecting *)

Lemma collect_spec D fuel : forall kept rest work U W, (length rest <= fuel)%nat -> collect fuel D vars kept rest work = (U, W) ->
  Permutation (U ++ map fst W) (rev kept ++ rest ++ map fst work) /\
  (forall i, In i U -> In i kept \/ optional_single_value D (handle vars i) = None) /\
  (forall i x, In (i, x) W -> In (i, x) work \/ optional_single_value D (handle vars i) = Some x).
Proof.
  induction fuel as [|fuel IH]; intros kept rest work U W Le E.
  - destruct rest; [|simpl in Le; lia]. simpl in E. injection E as <- <-. rewrite app_nil_r. split; [reflexivity|]. split; [|auto]. intros i I. left. now apply in_rev.
  - destruct rest as [|s r]; simpl in E.
    { injection E as <- <-. rewrite app_nil_r. split; [reflexivity|]. split; [|auto]. intros i I. left. now apply in_rev. }
    simpl in Le. destruct (optional_single_value D (handle vars s)) as [x|] eqn:O.
    + apply IH in E; [|rewrite swap_pop_length; lia]. destruct E as (P & A & B). split; [|split].
      * rewrite P, swap_pop_perm. simpl. apply Permutation_app_head. symmetry. apply Permutation_middle.
      * assumption.
      * intros i y I. apply B in I. destruct I as [[[= <- <-]|I]|I]; auto.
    + apply IH in E; [|lia]. destruct E as (P & A & B). split; [|split; [|assumption]].
      * rewrite P. simpl. now rewrite <- app_assoc.
      * intros i I. apply A in I. destruct I as [[<-|I]|I]; auto.
Qed.

(** *** Taking a value away *)

(** What the run must keep. *)
Variable sat : assignment -> Prop.
Hypothesis Sp : forall a, sat a -> pairwise vars a.

Lemma take_away_spec s x fuel : forall kept rest work t U W t', (length rest <= fuel)%nat -> (s < n)%nat ->
  Forall (fun i => i < n /\ i <> s)%nat rest ->
  honest nv d sat t -> t_failed t = false -> (forall a, within a (t_domains t) -> var_value a (handle vars s) = x) ->
  take_away fuel vars x kept rest work t = (U, W, t') ->
  honest nv d sat t' /\ (forall a, live nv d t' a -> live nv d t a) /\ Permutation (U ++ map fst W) (rev kept ++ rest ++ map fst work) /\
  forall a, live nv d t' a ->
    (forall i y, In (i, y) W -> In (i, y) work \/ var_value a (handle vars i) = y) /\ (forall i, In i rest -> var_value a (handle vars i) <> x).
Proof.
  induction fuel as [|fuel IH]; intros kept rest work t U W t' Le Hs Fr H F V E.
  - destruct rest; [|simpl in Le; lia]. simpl in E. injection E as <- <- <-. rewrite app_nil_r. split; [assumption|]. split; [auto|]. split; [reflexivity|]. intros a _. split; [auto|intros i []].
  - destruct rest as [|r rest]; cbn [take_away] in E.
    { injection E as <- <- <-. rewrite app_nil_r. split; [assumption|]. split; [auto|]. split; [reflexivity|]. intros a _. split; [auto|intros i []]. }
    apply Forall_cons_iff in Fr. destruct Fr as [[Hr Nr] Fr]. simpl in Le. set (t1 := tell_ne (handle vars r) x t) in *.
    assert (H1 : honest nv d sat t1).
    { apply honest_tell; auto. { apply handle_below. } intros _ _ _ a Wa Wt Sa. simpl. unfold cond_holds; simpl. rewrite <- (V a Wt). now apply (Sp a Sa). }
    assert (B1 : forall a, live nv d t1 a -> live nv d t a /\ var_value a (handle vars r) <> x).
    { intros a Lv. apply (tell_back nv d Hd Ld) in Lv; [|apply handle_below|apply H]. exact Lv. }
    destruct (t_failed t1) eqn:F1.
    + injection E as <- <- <-. split; [assumption|]. split; [intros a Lv; now apply B1|]. split; [now rewrite <- app_assoc|]. intros a Lv. split; [auto|].
      intros i I. destruct Lv as (_ & X & _). congruence.
    + assert (V1 : forall a, within a (t_domains t1) -> var_value a (handle vars s) = x).
      { intros a Wa. apply V. apply (B1 a). split; [apply H1|]. auto. }
      destruct (optional_single_value (t_domains t1) (handle vars r)) as [y|] eqn:O.
      * apply IH in E; auto; [|rewrite swap_pop_length; lia|apply (Permutation_Forall (Permutation_sym (swap_pop_perm rest))); assumption].
        destruct E as (H2 & Lt & P & C). split; [assumption|]. split; [intros a Lv; now apply B1, Lt|]. split.
        -- rewrite P, swap_pop_perm. simpl. apply Permutation_app_head. symmetry. apply Permutation_middle.
        -- intros a Lv. destruct (C a Lv) as [C1 C2]. split.
           ++ intros i z I. apply C1 in I. destruct I as [[[= <- <-]|I]|I]; auto. right. apply (alive_single t1 r y (proj1 H1) F1 O). now apply Lt.
           ++ intros i [<-|I]; [now apply B1, Lt|]. apply C2. apply (Permutation_in _ (Permutation_sym (swap_pop_perm rest))). assumption.
      * apply IH in E; auto; [|lia]. destruct E as (H2 & Lt & P & C). split; [assumption|]. split; [intros a Lv; now apply B1, Lt|]. split.
        -- rewrite P. simpl. now rewrite <- app_assoc.
        -- intros a Lv. destruct (C a Lv) as [C1 C2]. split; [assumption|]. intros i [<-|I]; [now apply B1, Lt|auto].
Qed.

(** A handle only becomes fixed along with the handle the inference is about. *)
Lemma tell_ne_fixes v x w t : var_below nv v -> var_below nv w -> legit nv d t -> t_failed t = false -> t_failed (tell_ne v x t) = false ->
  fixed (t_domains (tell_ne v x t)) w -> ~ fixed (t_domains t) w -> fixed (t_domains (tell_ne v x t)) v.
Proof.
  intros Bv Bw G F F1 Fx Nf. set (t1 := tell_ne v x t) in *.
  assert (G1 : legit nv d t1) by (apply legit_tell; auto).
  pose proof (legit_ok nv d Hd Ld t G F) as Ok. pose proof (legit_ok nv d Hd Ld t1 G1 F1) as Ok1.
  pose proof (var_below_known nv _ _ (legit_length nv d Hd Ld t G) Bw) as Kw. pose proof (var_below_known nv _ _ (legit_length nv d Hd Ld t1 G1) Bw) as Kw1.
  pose proof (var_below_known nv _ _ (legit_length nv d Hd Ld t1 G1) Bv) as Kv1.
  assert (Dec : unrelated w v \/ exists k, underlying w = Some k /\ underlying v = Some k).
  { unfold unrelated. destruct (underlying w) as [k|]; [|left; discriminate]. destruct (underlying v) as [m|]; [|left; discriminate].
    destruct (Nat.eq_dec k m) as [->|N]; [right; eauto|]. left. intros q [= <-] [= <-]. congruence. }
  destruct Dec as [Un|(k & Ew & Ev)].
  - exfalso. apply Nf. destruct Fx as (z & Hz). exists z. intros a Wa. pose proof (value_possible (t_domains t) w a Ok Kw Wa) as M.
    assert (Vm : view_member (t_domains t1) w (var_value a w)) by (apply (tell_elsewhere nv d Hd Ld v OpNotEqual x _ t w); auto).
    apply view_member_iff in Vm; auto. destruct Vm as (a' & Wa' & <-). now apply Hz.
  - destruct Fx as (z & Hz).
    assert (Same : forall a a', within a (t_domains t1) -> within a' (t_domains t1) -> var_value a v = var_value a' v).
    { intros a a' Wa Wa'. pose proof (Hz a Wa) as E1. pose proof (Hz a' Wa') as E2. destruct w as [p|p b y|y], v as [q|q c y'|y']; try discriminate; injection Ew as ->; injection Ev as ->; simpl in *;
      try destruct b; try destruct c; lia. }
    destruct (within_exists (t_domains t1) Ok1) as (a0 & W0). exists (var_value a0 v). intros a Wa. now apply Same.
Qed.

Lemma take_away_quiet x fuel : forall kept rest work t U W t', (length rest <= fuel)%nat -> legit nv d t -> t_failed t = false ->
  (work <> [] \/ forall i, In i kept -> ~ fixed (t_domains t) (handle vars i)) ->
  take_away fuel vars x kept rest work t = (U, W, t') -> t_failed t' = false ->
  W <> [] \/ forall i, In i U -> ~ fixed (t_domains t') (handle vars i).
Proof.
  induction fuel as [|fuel IH]; intros kept rest work t U W t' Le G F Q E F'.
  - destruct rest; [|simpl in Le; lia]. simpl in E. injection E as <- <- <-. rewrite app_nil_r. destruct Q as [Q|Q]; [now left|right]. intros i I. apply Q. now apply in_rev.
  - destruct rest as [|r rest]; cbn [take_away] in E.
    { injection E as <- <- <-. rewrite app_nil_r. destruct Q as [Q|Q]; [now left|right]. intros i I. apply Q. now apply in_rev. }
    simpl in Le. set (t1 := tell_ne (handle vars r) x t) in *.
    assert (G1 : legit nv d t1) by (apply legit_tell; auto; apply handle_below).
    destruct (t_failed t1) eqn:F1; [injection E as <- <- <-; congruence|].
    destruct (optional_single_value (t_domains t1) (handle vars r)) as [y|] eqn:O.
    + eapply IH; [| | | |exact E|]; auto; [rewrite swap_pop_length; lia|]. left. discriminate.
    + assert (Nr : ~ fixed (t_domains t1) (handle vars r)) by (rewrite (alive_fixed t1) by assumption; intros (z & Z); congruence).
      eapply IH; [| | | |exact E|]; auto; [lia|]. destruct Q as [Q|Q]; [now left|right]. intros i [<-|I]; [assumption|]. intro Fx. apply Nr.
      apply (tell_ne_fixes (handle vars r) x (handle vars i) t); auto; apply handle_below.
Qed.

(** *** The worklist *)

(** Whether the positions that the propagator does not look at are covered to start
    with. *)
Variable tidy : Prop.

Definition in_progress (U : list nat) (W : list (nat * Z)) (t : tracker) : Prop :=
  honest nv d sat t /\ NoDup (U ++ map fst W) /\ Forall (fun i => i < n)%nat (U ++ map fst W) /\
  forall a, live nv d t a -> (forall i x, In (i, x) W -> var_value a (handle vars i) = x) /\
    (tidy -> forall i j, (i < n)%nat -> (j < n)%nat -> ~ In i (U ++ map fst W) -> j <> i -> var_value a (handle vars j) <> var_value a (handle vars i)).

Definition finished (U : list nat) (t : tracker) : Prop :=
  honest nv d sat t /\ (t_failed t = false -> NoDup U /\ Forall (fun i => i < n)%nat U /\ (tidy -> forall i, (i < n)%nat -> ~ In i U -> covered (t_domains t) i)).

Lemma drain_spec fuel : forall U W t U' t', (length U + length W <= fuel)%nat -> t_failed t = false -> in_progress U W t ->
  (W <> [] \/ forall i, In i U -> ~ fixed (t_domains t) (handle vars i)) ->
  drain fuel vars U W t = (U', t') ->
  finished U' t' /\ (t_failed t' = false -> forall i, In i U' -> ~ fixed (t_domains t') (handle vars i)).
Proof.
  induction fuel as [|fuel IH]; intros U W t U' t' Le F (H & ND & B & A) Q E.
  - destruct U; [|simpl in Le; lia]. destruct W; [|simpl in Le; lia]. simpl in E. injection E as <- <-. split.
    + split; [assumption|]. intros _. split; [constructor|]. split; [constructor|]. intros Ti i Hi Ni a j Wa Hj Nj. apply (A a); auto. split; [apply H|auto].
    + intros _ i [].
  - destruct W as [|[s x] W]; cbn [drain] in E.
    + injection E as <- <-. rewrite app_nil_r in *. split.
      * split; [assumption|]. intros _. split; [assumption|]. split; [assumption|]. intros Ti i Hi Ni a j Wa Hj Nj. apply (A a); auto. split; [apply H|auto].
      * intros _. destruct Q as [Q|Q]; [congruence|assumption].
    + set (f := fun '(_, y) t => if y =? x then tell_ne (handle vars s) x t else t) in E. set (t1 := for_each (rev W) f t) in *.
      cbn [map fst] in ND, B. pose proof (NoDup_remove _ _ _ ND) as [ND' Ns]. assert (Hs : (s < n)%nat) by (rewrite Forall_forall in B; apply B; rewrite in_app_iff; right; now left).
      assert (B' : Forall (fun i => i < n)%nat (U ++ map fst W)).
      { rewrite Forall_forall in *. intros i I. apply B. rewrite in_app_iff in *. destruct I; [now left|right; now right]. }
      assert (Vs : forall a, live nv d t a -> var_value a (handle vars s) = x) by (intros a Lv; apply (proj1 (A a Lv)); now left).
      assert (VW : forall a, live nv d t a -> forall i y, In (i, y) W -> var_value a (handle vars i) = y) by (intros a Lv i y I; apply (proj1 (A a Lv)); now right).
      assert (Lt1 : later nv d t t1) by (apply later_for_each; auto; intros [i y] u _; unfold f; destruct (y =? x); [apply later_tell; auto; apply handle_below|apply later_refl; auto]).
      assert (H1 : honest nv d sat t1).
      { assert (K : forall ys u, (forall y, In y ys -> In y W) -> honest nv d sat u -> (forall a, live nv d u a -> live nv d t a) -> honest nv d sat (for_each ys f u)).
        { induction ys as [|[i y] ys IHy]; intros u Iy Hu Lu; simpl; [assumption|].
          assert (Hu' : honest nv d sat (f (i, y) u) /\ forall a, live nv d (f (i, y) u) a -> live nv d t a).
          { unfold f. destruct (Z.eqb_spec y x) as [->|_]; [|auto]. split.
            - apply honest_tell; auto; [apply handle_below|]. intros Fu _ _ a Wa Wu Sa. exfalso.
              assert (Lv : live nv d t a) by (apply Lu; split; [apply Hu|auto]).
              assert (Ii : In (i, x) W) by (apply Iy; now left).
              assert (In_ : In i (map fst W)) by (apply in_map_iff; exists (i, x); auto).
              assert (Ni : i <> s) by (intros ->; apply Ns; rewrite in_app_iff; now right).
              assert (Hi : (i < n)%nat) by (rewrite Forall_forall in B'; apply B'; rewrite in_app_iff; now right).
              apply (Sp a Sa i s Hi Hs Ni). rewrite (Vs a Lv). now apply (VW a Lv).
            - intros a Lv. apply Lu. eapply tell_back; [..|exact Lv]; auto; [apply handle_below|apply Hu]. }
          destruct Hu' as [Hu' Lu']. apply IHy; auto. intros z Iz. apply Iy. now right. }
        apply K; auto. intros y I. now apply in_rev. }
      assert (Back : forall a, live nv d t1 a -> live nv d t a /\ forall i y, In (i, y) W -> y <> x).
      { intros a Lv. assert (P : live nv d t a /\ Forall (fun '(i, y) => y <> x) (rev W)).
        { refine (for_each_later_inv nv d (fun u => forall b, live nv d u b -> live nv d t b) _ a (rev W) f _ _ _ t (proj1 H) (fun b Lb => Lb) Lv).
          - intros [i y] u _. unfold f. destruct (y =? x); [apply later_tell; auto; apply handle_below|apply later_refl; auto].
          - intros [i y] u _ Gu Ju b. unfold f. destruct (y =? x); [|apply Ju]. intro Lb. apply Ju. eapply tell_back; [..|exact Lb]; auto; apply handle_below.
          - intros [i y] u Iy Gu Ju Lf Lu Ey. unfold f in Lf. subst y. rewrite Z.eqb_refl in Lf. apply (tell_back nv d Hd Ld) in Lf; [|apply handle_below|assumption].
            destruct Lf as [_ Nh]. apply Nh. simpl. unfold cond_holds; simpl. now apply Vs, Ju. }
        destruct P as [P1 P2]. split; [assumption|]. rewrite Forall_forall in P2. intros i y I. apply in_rev in I. apply (P2 _ I). }
      destruct (t_failed t1) eqn:F1.
      { injection E as <- <-. split; [split; [assumption|congruence]|congruence]. }
      destruct (take_away (length U) vars x [] U W t1) as [[U2 W2] t2] eqn:T.
      assert (Fr : Forall (fun i => i < n /\ i <> s)%nat U).
      { rewrite Forall_forall in *. intros i I. split; [apply B'; rewrite in_app_iff; now left|]. intros ->. apply Ns. rewrite in_app_iff. now left. }
      assert (V1 : forall a, within a (t_domains t1) -> var_value a (handle vars s) = x).
      { intros a Wa. apply Vs. apply Back. split; [apply H1|auto]. }
      destruct (take_away_spec s x _ _ _ _ _ _ _ _ (le_n _) Hs Fr H1 F1 V1 T) as (H2 & Lt2 & P & C). simpl in P.
      destruct (t_failed t2) eqn:F2.
      { injection E as <- <-. split; [split; [assumption|congruence]|congruence]. }
      assert (Pr : in_progress U2 W2 t2).
      { split; [assumption|]. split; [apply (Permutation_NoDup (Permutation_sym P)); assumption|]. split; [apply (Permutation_Forall (Permutation_sym P)); assumption|].
        intros a Lv. destruct (C a Lv) as [C1 C2]. pose proof (Lt2 a Lv) as Lv1. destruct (Back a Lv1) as [Lv0 NW]. destruct (A a Lv0) as [A1 A2]. split.
        - intros i y I. apply C1 in I. destruct I as [I|I]; [|assumption]. apply A1. now right.
        - intros Ti i j Hi Hj Ni Nj. assert (Ni' : ~ In i (U ++ map fst W)) by (intro I; apply Ni; apply (Permutation_in _ (Permutation_sym P)); assumption).
          destruct (Nat.eq_dec i s) as [->|Nis].
          + rewrite (Vs a Lv0). destruct (in_dec Nat.eq_dec j (U ++ map fst W)) as [I|Nij].
            * apply in_app_or in I. destruct I as [I|I]; [now apply C2|]. apply in_map_iff in I. destruct I as ([j' y] & Ej & I). simpl in Ej. subst j'.
              rewrite (A1 j y) by now right. apply (NW j y I).
            * rewrite <- (Vs a Lv0). apply not_eq_sym. apply A2; auto. cbn [map fst]. rewrite in_app_iff. rewrite in_app_iff in Nij. intros [I|[I|I]]; [tauto|congruence|tauto].
          + apply A2; auto. cbn [map fst]. rewrite in_app_iff. rewrite in_app_iff in Ni'. intros [I|[I|I]]; [tauto|congruence|tauto]. }
      assert (Q2 : W2 <> [] \/ forall i, In i U2 -> ~ fixed (t_domains t2) (handle vars i)).
      { refine (take_away_quiet x _ _ _ _ _ _ _ _ (le_n _) (proj1 H1) F1 _ T F2). right. intros i []. }
      assert (Le2 : (length U2 + length W2 <= fuel)%nat).
      { apply Permutation_length in P. rewrite !app_length, !map_length in P. simpl in Le. lia. }
      exact (IH U2 W2 t2 U' t' Le2 F2 Pr Q2 E).
Qed.

Lemma continue_spec U0 U t0 t : honest nv d sat t0 -> t_failed t0 = false -> NoDup U0 -> Forall (fun i => i < n)%nat U0 ->
  (tidy -> forall i, (i < n)%nat -> ~ In i U0 -> covered (t_domains t0) i) -> continue_different vars U0 t0 = (U, t) ->
  finished U t /\ (t_failed t = false -> forall i, In i U -> ~ fixed (t_domains t) (handle vars i)).
Proof.
  intros H0 F0 ND B C E. unfold continue_different in E. destruct (collect (length U0) (t_domains t0) vars [] U0 []) as [U1 W] eqn:Co.
  destruct (collect_spec _ _ _ _ _ _ _ (le_n _) Co) as (P & N1 & S1). simpl in P. rewrite app_nil_r in P.
  assert (Le : (length U1 + length W <= length U0)%nat) by (apply Permutation_length in P; rewrite app_length, map_length in P; lia).
  refine (drain_spec _ U1 W t0 U t Le F0 _ _ E).
  - split; [assumption|]. split; [apply (Permutation_NoDup (Permutation_sym P)); assumption|]. split; [apply (Permutation_Forall (Permutation_sym P)); assumption|].
    intros a Lv. split.
    + intros i x I. apply S1 in I. destruct I as [[]|O]. apply (alive_single t0 i x); [apply H0|assumption|exact O|apply Lv].
    + intros Ti i j Hi Hj Ni Nj. apply (C Ti); auto; [|apply Lv]. intro I. apply Ni. apply (Permutation_in _ (Permutation_sym P)). assumption.
  - right. intros i I Fx. apply N1 in I. destruct I as [[]|O]. apply (alive_fixed t0) in Fx; [|apply H0|assumption]. destruct Fx as (x & Ex). congruence.
Qed.

Lemma continue_later U0 t0 U t : legit nv d t0 -> continue_different vars U0 t0 = (U, t) -> later nv d t0 t.
Proof.
  intros _ E. unfold continue_different in E. destruct (collect (length U0) (t_domains t0) vars [] U0 []) as [U1 W]. revert U1 W t0 E.
  assert (Ta : forall x fuel kept rest work u V Y u', take_away fuel vars x kept rest work u = (V, Y, u') -> later nv d u u').
  { intros x. induction fuel as [|fuel IH]; intros kept rest work u V Y u' E; cbn [take_away] in E.
    - injection E as <- <- <-. apply later_refl; auto.
    - destruct rest as [|r rest]; [injection E as <- <- <-; apply later_refl; auto|].
      assert (L1 : later nv d u (tell_ne (handle vars r) x u)) by (apply later_tell; auto; apply handle_below).
      destruct (t_failed _); [injection E as <- <- <-; assumption|]. destruct (optional_single_value _ _); (eapply later_trans; [..|eapply IH; exact E]; eauto). }
  induction (length U0) as [|fuel IH]; intros U1 W t0 E; cbn [drain] in E; [injection E as <- <-; apply later_refl; auto|].
  destruct W as [|[s x] W]; [injection E as <- <-; apply later_refl; auto|].
  match type of E with context [for_each (rev W) ?f t0] => set (t1 := for_each (rev W) f t0) in E; assert (L1 : later nv d t0 t1) end.
  { apply later_for_each; auto. intros [i y] u _. destruct (y =? x); [apply later_tell; auto; apply handle_below|apply later_refl; auto]. }
  destruct (t_failed t1); [injection E as <- <-; assumption|]. destruct (take_away (length U1) vars x [] U1 W t1) as [[U2 W2] t2] eqn:T. apply Ta in T.
  assert (L2 : later nv d t0 t2) by (eapply later_trans; eauto). destruct (t_failed t2); [injection E as <- <-; assumption|]. eapply later_trans; eauto.
Qed.

Lemma value_consistency_spec U0 U t : NoDup U0 -> Forall (fun i => i < n)%nat U0 -> (tidy -> forall i, (i < n)%nat -> ~ In i U0 -> covered d i) ->
  value_consistency vars d U0 = (U, t) ->
  finished U t /\ (t_failed t = false -> forall i, In i U -> ~ fixed (t_domains t) (handle vars i)).
Proof. intros ND B C E. apply (continue_spec U0 U (track d) t); auto. now apply honest_track. Qed.
End At.

Lemma to_of_nat U : map Z.to_nat (map Z.of_nat U) = U.
Proof. rewrite map_map. rewrite <- map_id. apply map_ext. apply Nat2Z.id. Qed.

Lemma vc_body_ok d0 alias : state_body_ok nv d0 vc_own alias (vc_body vars) vars (pairwise vars).
Proof.
  assert (K : forall d s m, domains_ok d -> length d = nv -> vc_own d s ->
     exists U t, vc_body vars d s m = mk_effect t (map Z.of_nat U) m (if t_failed t then Enable else EnableButIdempotent) /\ finished d (pairwise vars) True U t /\
       (t_failed t = false -> forall i, In i U -> ~ fixed (t_domains t) (handle vars i))).
  { intros d s m Hd Ld (U0 & -> & ND & B & C). unfold vc_body. rewrite to_of_nat. destruct (value_consistency vars d U0) as [U t] eqn:E. exists U, t. split; [reflexivity|].
    apply (value_consistency_spec d Hd Ld (pairwise vars) (fun _ H => H) True U0); auto. }
  assert (All : forall d U t a, finished d (pairwise vars) True U t -> (t_failed t = false -> forall i, In i U -> ~ fixed (t_domains t) (handle vars i)) -> live nv d t a ->
     Forall (fixed (t_domains t)) vars -> pairwise vars a).
  { intros d U t a [H Fi] Nf (G & F & Wa) Fx i j Hi Hj N. specialize (Fi F). destruct Fi as (_ & _ & C). apply not_eq_sym. apply (C Logic.I i); auto. intro I. apply (Nf F i I).
    rewrite Forall_forall in Fx. apply Fx. now apply nth_In. }
  constructor.
  - intros d s m Hd Ld _ O. destruct (K d s m Hd Ld O) as (U & t & -> & (H & _) & _). exact H.
  - intros d s m Hd Ld _ O. destruct (K d s m Hd Ld O) as (U & t & -> & (_ & Fi) & _). cbn [e_tracker e_state]. intro F. destruct (Fi F) as (ND & B & C). exists U. repeat (split; [auto|]). exact (C Logic.I).
  - intros d s m a Hd Ld _ O Fx Lv. destruct (K d s m Hd Ld O) as (U & t & E & Fi & Nf). rewrite E in Lv. cbn [e_tracker] in Lv. apply (All d U t a Fi Nf Lv).
    eapply Forall_impl; [|exact Fx]. intros v. apply (live_fixed nv d Hd Ld t a v Lv).
  - intros d s m a Hd Ld _ O _ _ Lv Fx. destruct (K d s m Hd Ld O) as (U & t & E & Fi & Nf). rewrite E in Lv, Fx. exact (All d U t a Fi Nf Lv Fx).
  - intros d s m a Hd Ld _ O R. destruct (K d s m Hd Ld O) as (U & t & E & _ & _). rewrite E in R. cbn [e_result] in R. destruct (t_failed t); discriminate.
Qed.
End Pass.

(** ** Posting *)

Lemma sorted_pairwise vars a : pairwise (sort_vars vars) a <-> NoDup (map (var_value a) vars).
Proof.
  rewrite pairwise_NoDup. split; apply Permutation_NoDup; apply Permutation_map; [|symmetry]; apply sort_vars_perm.
Qed.

Lemma different_local vars n : Forall (var_below n) vars -> local n (fun a => NoDup (map (var_value a) vars)).
Proof.
  intros B a a' S. rewrite (map_ext_in (var_value a) (var_value a') vars); [auto|]. intros v I. apply (same_below_value n); [assumption|]. rewrite Forall_forall in B. now apply B.
Qed.

Lemma within_prefix a (d more : domains) : within a (d ++ more) -> within a d.
Proof. intros W n Hn. specialize (W n). rewrite app_length in W. rewrite app_nth1 in W by assumption. apply W. unfold domains, iset in *. lia. Qed.

(** Whether a handle is fixed does not depend on later variables. *)
Lemma fixed_prefix d more v : domains_ok (d ++ more) -> var_below (length d) v -> fixed (d ++ more) v -> fixed d v.
Proof.
  intros Hd B (x & F). exists x. intros a Wa. destruct (within_exists _ Hd) as (b & Wb).
  set (c := fun n => if (n <? length d)%nat then a n else b n).
  assert (Wc : within c (d ++ more)).
  { intros n Hn. unfold c. destruct (Nat.ltb_spec n (length d)) as [L|L]; [rewrite app_nth1 by assumption; now apply Wa|now apply Wb]. }
  rewrite <- (F c Wc). apply (same_below_value (length d)); [|assumption]. intros n Hn. unfold c. destruct (Nat.ltb_spec n (length d)); [reflexivity|lia].
Qed.

Lemma duplicate_means d0 vars : Forall (var_known d0) vars -> ~ NoDup vars ->
  means d0 (simple_at 0 (fun _ => ([], [body_initialiser (fun d => tell_false (track d))]))) vars (fun a => NoDup (map (var_value a) vars)).
Proof.
  intros K N. assert (B : Forall (var_below (length d0)) vars) by now apply known_below_all. apply simple_means; [lia|now apply different_local|assumption|].
  intros hidden Hd. apply (initialiser_correct _ _ (fun d => tell_false (track d)) vars (fun a => NoDup (map (var_value a) vars))); [reflexivity|reflexivity| |].
  - eapply Forall_impl; [|exact B]. intros v Bv. apply (var_below_known (length (d0 ++ hidden))); [reflexivity|]. apply (below_more (length d0)); [|assumption]. unfold domains, iset in *. rewrite app_length. lia.
  - intros nv d Ln Hd' Ld Id. assert (No : forall a, ~ NoDup (map (var_value a) vars)) by (intros a X; apply N; now apply NoDup_map_inv in X). split.
    + apply honest_tell; auto; [exact Logic.I|now apply honest_track|]. intros _ _ _ a _ _ X. destruct (No a X).
    + intros a Lv. apply (tell_back nv d Hd' Ld) in Lv; [|exact Logic.I|now apply legit_track]. destruct Lv as [_ []].
Qed.

Lemma no_clash_positions d vars i : no_clash_with_fixed d vars -> (i < length vars)%nat -> fixed d (handle vars i) -> covered vars d i.
Proof.
  intros C Hi Fx a j Wa Hj N. destruct (nth_split vars (VConst 0) Hi) as (l1 & l2 & E & L). apply (C l1 (handle vars i) l2); auto.
  unfold handle. assert (I : In (nth j vars (VConst 0)) (l1 ++ l2)); [|exact I]. rewrite in_app_iff. set (x := nth i vars (VConst 0)) in E. replace (nth j vars (VConst 0)) with (nth j (l1 ++ x :: l2) (VConst 0)) by now rewrite E.
  destruct (Nat.lt_ge_cases j i) as [H|H].
  - left. rewrite app_nth1 by lia. apply nth_In. lia.
  - right. rewrite app_nth2 by lia. rewrite L. destruct (j - i)%nat as [|k] eqn:Ek; [lia|]. simpl. apply nth_In. apply (f_equal (@length _)) in E. rewrite app_length in E. simpl in E. lia.
Qed.

Lemma no_clash_perm d vars vars' : Permutation vars' vars -> no_clash_with_fixed d vars -> no_clash_with_fixed d vars'.
Proof.
  intros P C b v r w a E Fx I Wa. subst vars'. assert (Iv : In v vars) by (apply (Permutation_in _ P); rewrite in_app_iff; right; now left).
  apply in_split in Iv. destruct Iv as (b' & r' & ->). apply (C b' v r'); auto. apply (Permutation_in (l := b ++ r)); [|assumption].
  apply Permutation_app_inv with (a := v). assumption.
Qed.

Lemma all_different_vc_means d0 vars : domains_ok d0 -> Forall (var_known d0) vars -> no_clash_with_fixed d0 vars ->
  means d0 (all_different_vc vars) vars (fun a => NoDup (map (var_value a) vars)).
Proof.
  intros Hd0 K C. assert (B : Forall (var_below (length d0)) vars) by now apply known_below_all.
  destruct (adjacent_equal (sort_vars vars)) eqn:Dup.
  - assert (N : ~ NoDup vars) by (intro N; apply duplicates_found in N; congruence).
    destruct (duplicate_means d0 vars K N) as (M1 & M2 & M3). split; [assumption|]. split; [assumption|]. intros hidden cs Hd. destruct (M3 hidden cs Hd) as (sol & Own & M).
    exists sol, Own. unfold all_different_vc. rewrite Dup. exact M.
  - split; [assumption|]. split; [now apply different_local|]. intros hidden cs Hd.
    set (sv := sort_vars vars) in *. assert (P : Permutation sv vars) by apply sort_vars_perm.
    assert (Bs : Forall (var_below (length d0)) sv) by now apply (Permutation_Forall (Permutation_sym P)).
    assert (Le : (length d0 <= length (d0 ++ hidden))%nat) by (unfold domains, iset in *; rewrite app_length; lia).
    assert (Bh : forall nv, (length (d0 ++ hidden) <= nv)%nat -> Forall (var_below nv) sv).
    { intros nv Ln. eapply Forall_impl; [|exact Bs]. intros v. apply below_more. lia. }
    exists (fun a => NoDup (map (var_value a) vars)), (owned (length cs) (vc_own sv)). unfold all_different_vc. fold sv. rewrite Dup.
    apply state_installs; auto.
    + apply different_local. eapply Forall_impl; [|exact B]. intros v. now apply below_more.
    + eapply Forall_impl; [|exact B]. intros v. now apply below_more.
    + cbn [app]. rewrite app_nil_r. intros v I. now apply (Permutation_in _ (Permutation_sym P)).
    + intros D D' s _ _ I. now apply vc_own_inside.
    + intros more Hm. exists (initially_unassigned sv (d0 ++ hidden)). split; [reflexivity|]. unfold initially_unassigned. split; [apply NoDup_filter, seq_NoDup|]. split.
      * apply Forall_forall. intros i I. apply filter_In in I. destruct I as [I _]. apply in_seq in I. lia.
      * intros i Hi N. apply (covered_inside sv d0). { intros a Wa. now apply within_prefix, within_prefix in Wa. }
        apply no_clash_positions; auto; [now apply (no_clash_perm d0 vars)|]. apply (fixed_prefix d0 hidden); auto.
        { rewrite Forall_forall in Bs. apply Bs. now apply nth_In. }
        destruct (has_single_value (d0 ++ hidden) (handle sv i)) eqn:S.
        -- apply fixed_osv; [assumption| |rewrite optional_single_value_bounds, S; eauto]. apply (var_below_known (length (d0 ++ hidden))); [reflexivity|]. apply handle_below. now apply Bh.
        -- exfalso. apply N. apply filter_In. split; [apply in_seq; lia|]. now rewrite S.
    + intros nv Ln. apply (state_body_ok_ext _ _ _ _ _ sv vars (pairwise sv)).
      * intro a. apply sorted_pairwise.
      * intros v I. now apply (Permutation_in _ P).
      * apply vc_body_ok. now apply Bh.
Qed.

Lemma positions_no_clash d vars : (forall i, (i < length vars)%nat -> fixed d (handle vars i) -> covered vars d i) -> no_clash_with_fixed d vars.
Proof.
  intros C b v r w a E Fx I Wa. assert (Hv : handle vars (length b) = v) by (unfold handle; rewrite E, app_nth2, Nat.sub_diag by lia; reflexivity).
  assert (Hb : (length b < length vars)%nat) by (rewrite E, app_length; simpl; lia).
  assert (J : exists j, (j < length vars)%nat /\ j <> length b /\ handle vars j = w).
  { unfold handle. apply in_app_or in I. destruct I as [I|I]; apply (In_nth _ _ (VConst 0)) in I; destruct I as (j & Hj & Ej).
    - exists j. split; [lia|]. split; [lia|]. now rewrite E, app_nth1.
    - exists (S (length b + j)). split; [rewrite E, app_length; simpl; lia|]. split; [lia|]. rewrite E, app_nth2 by lia. now replace (S (length b + j) - length b)%nat with (S j) by lia. }
  destruct J as (j & Hj & Nj & <-). rewrite <- Hv. apply C; auto. now rewrite Hv.
Qed.

(** Value consistency. *)
Lemma all_different_vc_consistent d0 cs vars : domains_ok d0 -> Forall (var_known d0) vars -> NoDup vars -> no_clash_with_fixed d0 vars ->
  exists p s0, in_props (all_different_vc vars d0 cs) = [p] /\ in_states (all_different_vc vars d0 cs) = [s0] /\
  forall i s d evs, lives p (length cs) d0 s0 (i_domains i) s -> nth_error (i_cstates i) (length cs) = Some s ->
    apply_lits (i_domains i) (o_infer (p_run p i)) = (d, evs, false) -> no_clash_with_fixed d vars.
Proof.
  intros Hd0 K N C. assert (B : Forall (var_below (length d0)) vars) by now apply known_below_all. set (sv := sort_vars vars).
  assert (P : Permutation sv vars) by apply sort_vars_perm. assert (Bs : Forall (var_below (length d0)) sv) by now apply (Permutation_Forall (Permutation_sym P)).
  assert (Dup : adjacent_equal sv = false) by now apply duplicates_found. unfold all_different_vc. fold sv. rewrite Dup. eexists. eexists. split; [reflexivity|]. split; [reflexivity|].
  intros i s d evs L E A. apply (no_clash_perm d sv vars); [now apply Permutation_sym|].
  pose proof (vc_body_ok (length d0) sv Bs d0 False) as Ok.
  destruct (lives_own (length d0) d0 (vc_body sv) (map Z.of_nat (initially_unassigned sv d0)) (length cs) (vc_own sv) False sv (pairwise sv) sv [] [] Hd0 eq_refl) with (D := i_domains i) (s := s)
    as (H1 & H2 & _ & U0 & -> & ND & Bo & Co); auto.
  - intros D D' s' _ _ I. now apply vc_own_inside.
  - exists (initially_unassigned sv d0). split; [reflexivity|]. unfold initially_unassigned. split; [apply NoDup_filter, seq_NoDup|]. split.
    + apply Forall_forall. intros k I. apply filter_In in I. destruct I as [I _]. apply in_seq in I. lia.
    + intros k Hk Nk. apply no_clash_positions; auto; [now apply (no_clash_perm d0 vars)|].
      destruct (has_single_value d0 (handle sv k)) eqn:S.
      * apply fixed_osv; [assumption| |rewrite optional_single_value_bounds, S; eauto]. apply (var_below_known (length d0)); [reflexivity|]. now apply handle_below.
      * exfalso. apply Nk. apply filter_In. split; [apply in_seq; lia|]. now rewrite S.
  - cbn [state_propagator p_run state_run o_infer] in A. rewrite (nth_error_nth _ _ _ E) in A. unfold vc_body in A. rewrite to_of_nat in A.
    destruct (value_consistency sv (i_domains i) U0) as [U t] eqn:V. cbn [e_tracker] in A.
    destruct (value_consistency_spec (length d0) sv Bs (i_domains i) H1 H2 (pairwise sv) (fun _ H => H) True U0 U t ND Bo (fun _ => Co) V) as ((Ho & Fi) & Nf).
    destruct (lg_apply _ _ _ (proj1 Ho)) as (ev & A'). rewrite A' in A. injection A as <- _ F. destruct (Fi F) as (_ & _ & Cv). specialize (Nf F).
    apply positions_no_clash. intros k Hk Fx. apply (Cv Logic.I); [assumption|]. intro I. now apply (Nf k).
Qed.
