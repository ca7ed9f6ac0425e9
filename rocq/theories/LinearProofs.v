(** Lemmas about linear equalities and inequalities. *)
From Coq Require Import ZArith List Bool Arith Lia Sorted Permutation.
From Verif Require Import IntervalSet IntervalSetSpec IntervalSetProofs Vars VarsSpec VarsProofs State StateSpec StateProofs Epochs
  Engine EngineSpec EngineProofs SessionSpec SessionInvProofs Tracker ContractSpec ContractProofs RunProofs Quiet QuietProofs
  Reify ReifySpec ReifyProofs Expressions ExpressionsSpec ExpressionsProofs ConsistencySpec PlusProofs Linear LinearSpec.
Import ListNotations.
Local Open Scope Z_scope.

(** ** Tidying up *)

(** The value of the tidied terms. *)
Fixpoint lin (a : assignment) (ts : list (Z * nat)) : Z :=
  match ts with [] => 0 | (c, n) :: r => c * a n + lin a r end.

Lemma lin_perm a ts us : Permutation ts us -> lin a ts = lin a us.
Proof. induction 1 as [|[c n] ? ? _ IH|[c n] [c' n']|]; simpl; try lia. Qed.

Lemma strip_views_sum s : forall ts m, strip_views s = (ts, m) -> forall a, weighted_sum s a = lin a ts - m.
Proof.
  unfold weighted_sum. induction s as [|[c v] r IH]; intros ts m E a; simpl in E.
  - injection E as <- <-. reflexivity.
  - destruct (strip_views r) as [us k]. specialize (IH us k eq_refl a).
    destruct v as [n|n neg add|x]; injection E as <- <-; cbn [sum_worth lin]; unfold term_worth; simpl; rewrite IH; [|destruct neg|]; lia.
Qed.

Lemma strip_views_vars s : forall ts m, strip_views s = (ts, m) -> forall n, In n (map snd ts) -> exists v, In v (map snd s) /\ underlying v = Some n.
Proof.
  induction s as [|[c v] r IH]; intros ts m E n I; simpl in E.
  - injection E as <- <-. destruct I.
  - destruct (strip_views r) as [us k]. assert (J : In n (map snd us) -> exists v0, In v0 (map snd ((c, v) :: r)) /\ underlying v0 = Some n).
    { intro I'. destruct (IH us k eq_refl n I') as (w & Iw & U). exists w. simpl. auto. }
    destruct v as [n'|n' neg add|x]; injection E as <- <-; simpl in I; try (destruct I as [<-|I]); auto; eexists; (split; [now left|reflexivity]).
Qed.

Lemma insert_perm t ts : Permutation (insert_term t ts) (t :: ts).
Proof. induction ts as [|u r IH]; simpl; [reflexivity|]. destruct (Nat.leb _ _); [reflexivity|]. rewrite IH. apply perm_swap. Qed.

Lemma sort_perm ts : Permutation (sort_terms ts) ts.
Proof. induction ts as [|t r IH]; simpl; [reflexivity|]. rewrite insert_perm. now constructor. Qed.

Definition term_le (t u : Z * nat) : Prop := (snd t <= snd u)%nat.
Definition term_lt (t u : Z * nat) : Prop := (snd t < snd u)%nat.

Lemma insert_sorted t ts : StronglySorted term_le ts -> StronglySorted term_le (insert_term t ts).
Proof.
  induction 1 as [|u r S IH F]; simpl; [repeat constructor|]. destruct (Nat.leb_spec (snd t) (snd u)) as [L|L].
  - constructor; [now constructor|]. constructor; [assumption|]. eapply Forall_impl; [|exact F]. unfold term_le. intros. lia.
  - constructor; [assumption|]. apply Forall_forall. intros x I. apply (Permutation_in _ (insert_perm t r)) in I. destruct I as [<-|I].
    + unfold term_le. lia.
    + rewrite Forall_forall in F. auto.
Qed.

Lemma sort_sorted ts : StronglySorted term_le (sort_terms ts).
Proof. induction ts as [|t r IH]; simpl; [constructor|]. now apply insert_sorted. Qed.

Lemma merge_from_sum a ts : forall k n, lin a (merge_from k n ts) = k * a n + lin a ts.
Proof.
  induction ts as [|[c m] r IH]; intros k n; [reflexivity|]. cbn [merge_from]. destruct (Nat.eqb_spec m n) as [->|_].
  - rewrite IH. simpl. lia.
  - cbn [lin]. rewrite IH. lia.
Qed.

Lemma merge_from_vars ts : forall k n m, In m (map snd (merge_from k n ts)) -> m = n \/ In m (map snd ts).
Proof.
  induction ts as [|[c x] r IH]; intros k n m; simpl; [intuition|]. destruct (Nat.eqb_spec x n) as [->|_].
  - intro I. apply IH in I. tauto.
  - simpl. intros [<-|I]; [tauto|]. apply IH in I. intuition.
Qed.

Lemma merge_from_sorted ts : forall k n, StronglySorted term_le ts -> Forall (fun t => (n <= snd t)%nat) ts ->
  StronglySorted term_lt (merge_from k n ts).
Proof.
  induction ts as [|[c x] r IH]; intros k n S F; [repeat constructor|]. cbn [merge_from]. inversion S as [|? ? S' F']; subst. inversion F as [|? ? L F0]; subst. cbn [snd] in L.
  destruct (Nat.eqb_spec x n) as [->|N]; [now apply IH|]. constructor; [now apply IH|]. apply Forall_forall. intros [c' m] I.
  apply (in_map snd) in I. apply merge_from_vars in I. unfold term_lt. cbn [snd] in *. destruct I as [->|I]; [lia|].
  apply in_map_iff in I. destruct I as ((c'' & m') & <- & I). rewrite Forall_forall in F'. specialize (F' _ I). unfold term_le in F'. simpl in *. lia.
Qed.

Lemma sorted_filter f ts : StronglySorted term_lt ts -> StronglySorted term_lt (filter f ts).
Proof.
  induction 1 as [|t r S IH F]; simpl; [constructor|]. destruct (f t); [|assumption]. constructor; [assumption|].
  rewrite Forall_forall in *. intros u I. apply filter_In in I. now apply F.
Qed.

Lemma sorted_nodup ts : StronglySorted term_lt ts -> NoDup (map snd ts).
Proof.
  induction 1 as [|t r S IH F]; simpl; constructor; [|assumption]. intro I. apply in_map_iff in I. destruct I as (u & E & I).
  rewrite Forall_forall in F. specialize (F u I). unfold term_lt in F. lia.
Qed.

Lemma filter_sum a ts : lin a (filter (fun t => negb (fst t =? 0)) ts) = lin a ts.
Proof. induction ts as [|[c n] r IH]; simpl; [reflexivity|]. destruct (Z.eqb_spec c 0) as [->|_]; simpl; rewrite IH; lia. Qed.

(** What the rest relies on. *)
Record tidy (s : tidied) : Prop :=
  { td_nodup : NoDup (map snd (terms s));
    td_nonzero : Forall (fun t => fst t <> 0) (terms s);
    td_units : units s = true -> Forall (fun t => fst t = 1 \/ fst t = -1) (terms s) }.

Lemma tidy_up_spec cv s m : tidy_up_linear cv = (s, m) ->
  tidy s /\ (forall a, weighted_sum cv a = lin a (terms s) - m) /\
  (forall n, In n (map snd (terms s)) -> exists v, In v (map snd cv) /\ underlying v = Some n).
Proof.
  unfold tidy_up_linear. destruct (strip_views cv) as [ts k] eqn:E. intro H. injection H as <- <-.
  set (us := filter _ _). assert (Sg : StronglySorted term_lt us).
  { apply sorted_filter. pose proof (sort_sorted ts) as S. unfold merge_terms. destruct (sort_terms ts) as [|[c n] r]; [constructor|].
    inversion S; subst. apply merge_from_sorted; auto. }
  split; [constructor; cbn [terms units]|split; cbn [terms]].
  - now apply sorted_nodup.
  - apply Forall_forall. intros t I. unfold us in I. apply filter_In in I. destruct I as [_ I]. lia.
  - intro U. apply Forall_forall. intros t I. rewrite forallb_forall in U. specialize (U t I). lia.
  - intro a. rewrite (strip_views_sum _ _ _ E a). unfold us. rewrite filter_sum. f_equal. rewrite <- (lin_perm a _ _ (sort_perm ts)).
    unfold merge_terms. destruct (sort_terms ts) as [|[c n] r]; [reflexivity|]. now rewrite merge_from_sum.
  - intros n I. apply (strip_views_vars _ _ _ E). unfold us in I. apply in_map_iff in I. destruct I as (t & <- & I). apply filter_In in I. destruct I as [I _].
    apply (in_map snd) in I. apply (Permutation_in _ (Permutation_map snd (sort_perm ts))).
    unfold merge_terms in I. destruct (sort_terms ts) as [|[c m] r]; [destruct I|]. apply merge_from_vars in I. simpl. intuition.
Qed.

(** ** One inference *)

Definition step_lits (n : nat) (s : term_step) : list literal :=
  match s with
  | StepNone => []
  | StepBelow x => [LCond (cond_lt (VSimple n) x)]
  | StepAtLeast x => [LCond (cond_ge (VSimple n) x)]
  end.

Definition step_ok (c r : Z) (b : Z * Z) (s : term_step) : Prop :=
  match s with
  | StepNone => (0 < c -> c * snd b <= r) /\ (c < 0 -> c * fst b <= r)
  | StepBelow x => 0 < c /\ (forall z, z < x <-> c * z <= r) /\ r < c * snd b
  | StepAtLeast x => c < 0 /\ (forall z, z >= x <-> c * z <= r) /\ r < c * fst b
  end.

Lemma quot_floor r c : 0 < c -> 0 <= r -> forall z, z < 1 + Z.quot r c <-> c * z <= r.
Proof.
  intros Hc Hr z. rewrite Z.quot_div_nonneg by lia. pose proof (Z.div_mod r c ltac:(lia)) as E. pose proof (Z.mod_pos_bound r c Hc) as M.
  set (q := r / c) in *. set (m := r mod c) in *. clearbody q m. nia.
Qed.

Lemma quot_ceil r c : 0 < c -> 0 < r -> forall z, z >= Z.quot (r + c - 1) c <-> c * z >= r.
Proof.
  intros Hc Hr z. pose proof (quot_floor (r + c - 1) c Hc ltac:(lia) (z + 1)) as Q.
  replace (c * (z + 1)) with (c * z + c) in Q by lia. set (q := Z.quot (r + c - 1) c) in *. set (p := c * z) in *. clearbody q p. lia.
Qed.

Lemma weighted_step_ok c r b : c <> 0 -> exists s, weighted_step c r b = Some s /\ step_ok c r b s.
Proof.
  intro N. unfold weighted_step. destruct b as [l u]. cbn [fst snd].
  destruct (Z.ltb_spec 0 c) as [Hc|Hc]; [destruct (Z.leb_spec 0 r) as [Hr|Hr]; cbn [andb]|].
  - eexists; split; [reflexivity|]. pose proof (quot_floor r c Hc Hr) as Q. destruct (Z.leb_spec (1 + Z.quot r c) u) as [L|L]; simpl.
    + split; [assumption|]. split; [assumption|]. apply Z.nle_gt. rewrite <- Q. lia.
    + split; [|lia]. intros _. apply Q. lia.
  - destruct (Z.ltb_spec r 0); [|lia]. cbn [andb]. eexists; split; [reflexivity|].
    assert (Q : forall z, z < 1 + - Z.quot (- r + c - 1) c <-> c * z <= r).
    { intro z. pose proof (quot_ceil (- r) c Hc ltac:(lia) (- z)) as Q. replace (c * - z) with (- (c * z)) in Q by lia. lia. }
    destruct (Z.leb_spec (1 + - Z.quot (- r + c - 1) c) u) as [L|L]; simpl.
    + split; [assumption|]. split; [assumption|]. apply Z.nle_gt. rewrite <- Q. lia.
    + split; [|lia]. intros _. apply Q. lia.
  - cbn [andb]. destruct (Z.ltb_spec c 0) as [Hn|Hn]; [|lia]. destruct (Z.leb_spec 0 r) as [Hr|Hr]; cbn [andb].
    + eexists; split; [reflexivity|]. assert (Q : forall z, z >= Z.quot r c <-> c * z <= r).
      { intro z. replace c with (- (- c)) by lia. rewrite Z.quot_opp_r by lia. pose proof (quot_floor r (- c) ltac:(lia) Hr (- z)) as Q. replace (- c * - z) with (c * z) in Q by lia. replace (- - c * z) with (c * z) by lia. lia. }
      destruct (Z.ltb_spec l (Z.quot r c)) as [L|L]; simpl.
      * split; [assumption|]. split; [assumption|]. apply Z.nle_gt. rewrite <- Q. lia.
      * split; [lia|]. intros _. apply Q. lia.
    + destruct (Z.ltb_spec r 0); [|lia]. cbn [andb]. eexists; split; [reflexivity|].
      assert (Q : forall z, z >= Z.quot (- r + - c - 1) (- c) <-> c * z <= r).
      { intro z. pose proof (quot_ceil (- r) (- c) ltac:(lia) ltac:(lia) z) as Q. replace (- c * z) with (- (c * z)) in Q by lia. lia. }
      destruct (Z.ltb_spec l (Z.quot (- r + - c - 1) (- c))) as [L|L]; simpl.
      * split; [assumption|]. split; [assumption|]. apply Z.nle_gt. rewrite <- Q. lia.
      * split; [lia|]. intros _. apply Q. lia.
Qed.

Lemma unit_step_ok c r b : c = 1 \/ c = -1 -> step_ok c r b (unit_step (0 <? c) r b).
Proof.
  intros [->| ->]; unfold unit_step; destruct b as [l u]; cbn [fst snd].
  - change (0 <? 1) with true. cbv iota. destruct (Z.leb_spec (1 + r) u); unfold step_ok; cbn [fst snd]; repeat split; intros; lia.
  - change (0 <? -1) with false. cbv iota. destruct (Z.ltb_spec l (- r)); unfold step_ok; cbn [fst snd]; repeat split; intros; lia.
Qed.

Lemma step_for_ok u c r b : c <> 0 -> (u = true -> c = 1 \/ c = -1) -> step_ok c r b (step_for u c r b).
Proof.
  intros N U. unfold step_for. destruct u; [apply unit_step_ok; auto|]. destruct (weighted_step_ok c r b N) as (s & -> & S). exact S.
Qed.

(** A zero coefficient is the only thing that throws. *)
Lemma step_for_some c r b : c <> 0 -> weighted_step c r b <> None.
Proof. intro N. destruct (weighted_step_ok c r b N) as (s & -> & _). discriminate. Qed.

Lemma take_step_tracker n s t b : fst (take_step n s t b) = tell_all (step_lits n s) t.
Proof. destruct s; reflexivity. Qed.

Lemma step_contribution u c r n t b : c <> 0 -> (u = true -> c = 1 \/ c = -1) ->
  contribution c (snd (take_step n (step_for u c r b) t b)) = contribution c b.
Proof.
  intros N U. pose proof (step_for_ok u c r b N U) as S. destruct (step_for u c r b); simpl in *; unfold contribution; destruct (Z.leb_spec 0 c); simpl; try reflexivity; lia.
Qed.

(** ** Sweeps *)

Definition negated (ts : list (Z * nat)) : list (Z * nat) := map (fun t => (- fst t, snd t)) ts.

Definition usable_terms (u : bool) (ts : list (Z * nat)) : Prop := Forall (fun t => fst t <> 0 /\ (u = true -> fst t = 1 \/ fst t = -1)) ts.

Lemma tidy_usable s : tidy s -> usable_terms (units s) (terms s).
Proof.
  intros [_ N U]. apply Forall_forall. intros t I. split; [apply (proj1 (Forall_forall _ _) N t I)|]. intro E. apply (proj1 (Forall_forall _ _) (U E) t I).
Qed.

Lemma usable_negated u ts : usable_terms u ts -> usable_terms u (negated ts).
Proof. unfold usable_terms, negated. rewrite !Forall_forall. intros H t I. apply in_map_iff in I. destruct I as (t' & <- & I). destruct (H t' I) as [A B]. simpl. split; [lia|]. intro E. specialize (B E). lia. Qed.

Lemma inverse_is_forward u value ts : usable_terms u ts -> forall sum bs t,
  inverse_sweep u value sum ts bs t = forward_sweep u (- value) sum (negated ts) bs t.
Proof.
  induction 1 as [|[c n] r [N U] F IH]; intros sum bs t; [reflexivity|]. destruct bs as [|b bs]; [reflexivity|].
  cbn [inverse_sweep forward_sweep negated map fst snd]. simpl in N, U.
  assert (E := step_contribution u (- c) (- value - (sum - contribution (- c) b)) n t b ltac:(lia) ltac:(intro X; specialize (U X); lia)).
  destruct (take_step n _ t b) as [t1 b1]. simpl in E. destruct (t_failed t1); [reflexivity|].
  rewrite IH, E. replace (sum - contribution (- c) b + contribution (- c) b) with sum by lia. reflexivity.
Qed.

Lemma lower_sum_negated ts : forall bs, lower_sum (-1) ts bs = lower_sum 1 (negated ts) bs.
Proof.
  induction ts as [|[c n] r IH]; intro bs; [reflexivity|]. destruct bs as [|b bs]; [reflexivity|]. cbn [lower_sum negated map fst snd].
  change (map (fun t => (- fst t, snd t)) r) with (negated r). rewrite IH. f_equal. f_equal. lia.
Qed.

Lemma lin_negated a ts : lin a (negated ts) = - lin a ts.
Proof. induction ts as [|[c n] r IH]; [reflexivity|]. cbn [negated map lin fst snd]. change (map (fun t => (- fst t, snd t)) r) with (negated r). rewrite IH. lia. Qed.

Lemma vars_negated ts : map snd (negated ts) = map snd ts.
Proof. unfold negated. rewrite map_map. reflexivity. Qed.

(** What a sweep tells, computed from the bounds at its start. *)
Fixpoint sweep_lits (u : bool) (value sum : Z) (ts : list (Z * nat)) (bs : list (Z * Z)) : list literal :=
  match ts, bs with
  | (c, n) :: ts', b :: bs' => step_lits n (step_for u c (value - (sum - contribution c b)) b) ++ sweep_lits u value sum ts' bs'
  | _, _ => []
  end.

Lemma tell_all_app xs ys t : tell_all (xs ++ ys) t = tell_all ys (tell_all xs t).
Proof. unfold tell_all. apply fold_left_app. Qed.

Lemma sweep_tracker u value sum ts : forall bs t, fst (forward_sweep u value sum ts bs t) = tell_all (sweep_lits u value sum ts bs) t.
Proof.
  induction ts as [|[c n] r IH]; intros bs t; [reflexivity|]. destruct bs as [|b bs]; [reflexivity|]. cbn [forward_sweep sweep_lits].
  rewrite tell_all_app. pose proof (take_step_tracker n (step_for u c (value - (sum - contribution c b)) b) t b) as E.
  destruct (take_step n _ t b) as [t1 b1]. simpl in E. subst t1. destruct (t_failed _) eqn:F.
  - cbn [fst]. now rewrite (tell_all_failed _ _ F).
  - rewrite <- IH. destruct (forward_sweep u value sum r bs _). reflexivity.
Qed.

(** Everything about domains is in terms of one bounds lookup per variable. *)
Definition look (d : domains) (n : nat) : Z * Z := bounds d (VSimple n).
Definition looks (d : domains) (ts : list (Z * nat)) : list (Z * Z) := map (fun t => look d (snd t)) ts.

Lemma looks_vars d s : map (bounds d) (term_vars s) = looks d (terms s).
Proof. unfold term_vars, looks. rewrite map_map. reflexivity. Qed.

Definition least_sum (d : domains) (ts : list (Z * nat)) : Z := lower_sum 1 ts (looks d ts).

Lemma least_sum_cons d c n r : least_sum d ((c, n) :: r) = contribution c (look d n) + least_sum d r.
Proof. unfold least_sum. cbn [looks map lower_sum snd]. f_equal. f_equal. lia. Qed.

Lemma looks_negated d ts : looks d (negated ts) = looks d ts.
Proof. unfold looks, negated. rewrite map_map. reflexivity. Qed.

(** The condition a sweep imposes on the value of each term. *)
Definition swept (d : domains) (ts : list (Z * nat)) (value : Z) (a : assignment) : Prop :=
  Forall (fun t => fst t * a (snd t) <= value - (least_sum d ts - contribution (fst t) (look d (snd t)))) ts.

Section Sweep.
Variable nv : nat.
Variable d : domains.
Hypothesis Hd : domains_ok d.
Hypothesis Ld : length d = nv.

Definition below (ts : list (Z * nat)) : Prop := Forall (fun n => (n < nv)%nat) (map snd ts).

Lemma step_lits_below n s : (n < nv)%nat -> Forall (lit_below nv) (step_lits n s).
Proof. clear Hd Ld d. intro B. destruct s; simpl; repeat constructor; exact B. Qed.

Lemma sweep_lits_below u value sum ts : below ts -> forall bs, Forall (lit_below nv) (sweep_lits u value sum ts bs).
Proof. clear Hd Ld d.
  unfold below. induction ts as [|[c n] r IH]; intros B bs; [constructor|]. destruct bs as [|b bs]; [constructor|]. apply Forall_cons_iff in B. destruct B.
  cbn [sweep_lits]. apply Forall_app. split; [now apply step_lits_below|auto].
Qed.

Lemma tell_all_within ls t a : Forall (lit_below nv) ls -> legit nv d t -> t_failed (tell_all ls t) = false ->
  (within a (t_domains (tell_all ls t)) <-> within a (t_domains t) /\ Forall (lit_holds a) ls).
Proof.
  intros B G F. pose proof (legit_tell_all nv d ls B t G) as G'. split.
  - intro W. destruct (tell_all_back nv d Hd Ld a ls t B G) as [(_ & _ & W') H]; [split; auto|]. auto.
  - intros [W H]. assert (Ft : t_failed t = false) by (destruct (t_failed t) eqn:E; [rewrite tell_all_failed in F by assumption; congruence|reflexivity]).
    apply (legit_within nv d Hd Ld t a G Ft) in W. apply (legit_within nv d Hd Ld _ a G' F). split; [apply W|]. apply tell_all_keeps; [apply W|assumption].
Qed.

(** The bounds of a simple variable, over the assignments. *)
Lemma look_bounds D n a : domains_ok D -> (n < length D)%nat -> within a D -> fst (look D n) <= a n <= snd (look D n).
Proof. clear Hd Ld d. intros Ok B W. unfold look. rewrite bounds_spec. apply (value_bounds D (VSimple n) a); auto. Qed.

Lemma look_attained D n : domains_ok D -> (n < length D)%nat -> (exists a, within a D /\ a n = fst (look D n)) /\ (exists a, within a D /\ a n = snd (look D n)).
Proof. clear Hd Ld d.
  intros Ok B. unfold look. rewrite bounds_spec. split; [apply (bound_attained D (VSimple n)); auto|apply (bound_attained D (VSimple n)); auto].
Qed.

Lemma contribution_least D c n a : domains_ok D -> (n < length D)%nat -> within a D -> contribution c (look D n) <= c * a n.
Proof. clear Hd Ld d. intros Ok B W. pose proof (look_bounds D n a Ok B W) as H. unfold contribution. destruct (Z.leb_spec 0 c); nia. Qed.

Lemma contribution_attained D c n : domains_ok D -> (n < length D)%nat -> exists a, within a D /\ c * a n = contribution c (look D n).
Proof. clear Hd Ld d.
  intros Ok B. destruct (look_attained D n Ok B) as [(a & W & E) (a' & W' & E')]. unfold contribution. destruct (0 <=? c).
  - exists a. now rewrite E.
  - exists a'. now rewrite E'.
Qed.

(** The literals of one step hold exactly when the term is small enough. *)
Lemma step_lits_hold D c n r s a : domains_ok D -> (n < length D)%nat -> within a D -> c <> 0 -> step_ok c r (look D n) s ->
  (Forall (lit_holds a) (step_lits n s) <-> c * a n <= r).
Proof. clear Hd Ld d.
  intros Ok B W N S. pose proof (look_bounds D n a Ok B W) as H. set (b := look D n) in *. clearbody b. destruct s as [|x|x]; simpl in S |- *.
  - split; [|constructor]. intros _. destruct (Z.lt_trichotomy c 0) as [L|[L|L]]; [|lia|]; [destruct S as [_ S]; specialize (S L)|destruct S as [S _]; specialize (S L)]; nia.
  - destruct S as (_ & S & _). rewrite <- S. rewrite Forall_cons_iff. unfold cond_holds. simpl. intuition.
  - destruct S as (_ & S & _). rewrite <- S. rewrite Forall_cons_iff. unfold cond_holds. simpl. intuition.
Qed.

Lemma sweep_lits_hold u D value sum ts a : domains_ok D -> length D = nv -> below ts -> usable_terms u ts -> within a D ->
  (Forall (lit_holds a) (sweep_lits u value sum ts (looks D ts)) <->
   Forall (fun t => fst t * a (snd t) <= value - (sum - contribution (fst t) (look D (snd t)))) ts).
Proof. clear Hd Ld d.
  intros Ok L B U W. unfold below in B. induction ts as [|[c n] r IH]; [simpl; split; constructor|]. cbn [looks map snd sweep_lits].
  change (map (fun t => look D (snd t)) r) with (looks D r). cbn [map snd] in B. apply Forall_cons_iff in B. destruct B as [Bn B']. apply Forall_cons_iff in U. destruct U as [[Nz Un] U']. simpl in Nz, Un. rewrite <- L in Bn.
  rewrite Forall_app, Forall_cons_iff, (IH B' U'). cbn [fst snd].
  rewrite (step_lits_hold D c n (value - (sum - contribution c (look D n))) _ a Ok Bn W Nz); [tauto|]. now apply step_for_ok.
Qed.

(** What a sweep that does not fail leaves. *)
Lemma sweep_within u value ts t a : below ts -> usable_terms u ts -> legit nv d t -> t_failed t = false ->
  let D := t_domains t in let t' := fst (forward_sweep u value (least_sum D ts) ts (looks D ts) t) in
  t_failed t' = false -> (within a (t_domains t') <-> within a D /\ swept D ts value a).
Proof.
  intros B U G F D t' F'. unfold t' in *. rewrite sweep_tracker in *. pose proof (legit_ok nv d Hd Ld t G F) as Ok. pose proof (legit_length nv d Hd Ld t G) as L.
  rewrite tell_all_within; auto; [|now apply sweep_lits_below]. split; intros [W H]; (split; [assumption|]); now apply (sweep_lits_hold u D value (least_sum D ts) ts a).
Qed.

Lemma sweep_legit u value sum ts bs t : below ts -> legit nv d t -> legit nv d (fst (forward_sweep u value sum ts bs t)).
Proof. intros B G. rewrite sweep_tracker. apply legit_tell_all; auto. now apply sweep_lits_below. Qed.

(** The bounds as refreshed are the bounds as they are. *)
Lemma look_elsewhere n m op x y t : (n < nv)%nat -> (m < nv)%nat -> n <> m -> legit nv d t ->
  t_failed (tell (LCond (mk_cond (VSimple m) op x y)) t) = false -> look (t_domains (tell (LCond (mk_cond (VSimple m) op x y)) t)) n = look (t_domains t) n.
Proof.
  intros Bn Bm Ne G _. unfold tell. destruct (t_failed t) eqn:Ft; [reflexivity|].
  destruct (infer (t_domains t) (LCond (mk_cond (VSimple m) op x y))) as [i d'] eqn:E. simpl.
  destruct (infer_exact (t_domains t) (LCond (mk_cond (VSimple m) op x y)) _ _ (legit_ok nv d Hd Ld t G Ft) (var_below_known nv _ (VSimple m) (legit_length nv d Hd Ld t G) Bm) E) as (_ & _ & _ & O).
  unfold look. rewrite !bounds_spec. unfold lower_bound, upper_bound. simpl. unfold dom. rewrite O; [reflexivity|]. simpl. congruence.
Qed.

Lemma take_step_look n s b t : (n < nv)%nat -> legit nv d t -> t_failed t = false -> b = look (t_domains t) n ->
  t_failed (fst (take_step n s t b)) = false -> snd (take_step n s t b) = look (t_domains (fst (take_step n s t b))) n.
Proof.
  intros B G F -> F'. pose proof (legit_length nv d Hd Ld t G) as L. pose proof (legit_ok nv d Hd Ld t G F) as Ok.
  pose proof (eq_ind_r (fun k => (n < k)%nat) B L) as Bt.
  destruct s as [|x|x]; [reflexivity| |]; cbn [take_step fst snd] in F' |- *.
  - pose proof (legit_tell_all nv d [LCond (cond_lt (VSimple n) x)] ltac:(repeat constructor; exact B) t G) as G'. change (tell_all [LCond (cond_lt (VSimple n) x)] t) with (tell_lt (VSimple n) x t) in G'.
    pose proof (fun a => tell_all_within [LCond (cond_lt (VSimple n) x)] t a ltac:(repeat constructor; exact B) G F') as W. change (tell_all [LCond (cond_lt (VSimple n) x)] t) with (tell_lt (VSimple n) x t) in W.
    set (t1 := tell_lt (VSimple n) x t) in *. pose proof (legit_length nv d Hd Ld t1 G') as L1. pose proof (legit_ok nv d Hd Ld t1 G' F') as Ok1.
    pose proof (eq_ind_r (fun k => (n < k)%nat) B L1) as Bt1.
    unfold look at 2. rewrite bounds_spec. f_equal. destruct (look_attained (t_domains t) n Ok Bt) as [(a & Wa & Ea) _].
    destruct (look_attained (t_domains t1) n Ok1 Bt1) as [(a' & Wa' & Ea') _].
    pose proof (proj1 (W a') Wa') as [W0 H0]. apply Forall_cons_iff in H0. destruct H0 as [H0 _]. unfold lit_holds, cond_holds in H0. simpl in H0.
    pose proof (look_bounds (t_domains t) n a' Ok Bt W0) as B0.
    assert (Wa1 : within a (t_domains t1)). { apply W. split; [assumption|]. constructor; [|constructor]. unfold lit_holds, cond_holds. simpl. rewrite Ea. lia. }
    pose proof (look_bounds (t_domains t1) n a Ok1 Bt1 Wa1) as B1. replace (lower_bound (t_domains t1) (VSimple n)) with (fst (look (t_domains t1) n)) by (unfold look; now rewrite bounds_spec). lia.
  - pose proof (legit_tell_all nv d [LCond (cond_ge (VSimple n) x)] ltac:(repeat constructor; exact B) t G) as G'. change (tell_all [LCond (cond_ge (VSimple n) x)] t) with (tell_ge (VSimple n) x t) in G'.
    pose proof (fun a => tell_all_within [LCond (cond_ge (VSimple n) x)] t a ltac:(repeat constructor; exact B) G F') as W. change (tell_all [LCond (cond_ge (VSimple n) x)] t) with (tell_ge (VSimple n) x t) in W.
    set (t1 := tell_ge (VSimple n) x t) in *. pose proof (legit_length nv d Hd Ld t1 G') as L1. pose proof (legit_ok nv d Hd Ld t1 G' F') as Ok1.
    pose proof (eq_ind_r (fun k => (n < k)%nat) B L1) as Bt1.
    unfold look at 2. rewrite bounds_spec. f_equal. destruct (look_attained (t_domains t) n Ok Bt) as [_ (a & Wa & Ea)].
    destruct (look_attained (t_domains t1) n Ok1 Bt1) as [_ (a' & Wa' & Ea')].
    pose proof (proj1 (W a') Wa') as [W0 H0]. apply Forall_cons_iff in H0. destruct H0 as [H0 _]. unfold lit_holds, cond_holds in H0. simpl in H0.
    pose proof (look_bounds (t_domains t) n a' Ok Bt W0) as B0.
    assert (Wa1 : within a (t_domains t1)). { apply W. split; [assumption|]. constructor; [|constructor]. unfold lit_holds, cond_holds. simpl. lia. }
    pose proof (look_bounds (t_domains t1) n a Ok1 Bt1 Wa1) as B1. replace (upper_bound (t_domains t1) (VSimple n)) with (snd (look (t_domains t1) n)) by (unfold look; now rewrite bounds_spec). lia.
Qed.

Lemma step_elsewhere n m s t : (n < nv)%nat -> (m < nv)%nat -> n <> m -> legit nv d t -> t_failed (tell_all (step_lits m s) t) = false ->
  look (t_domains (tell_all (step_lits m s) t)) n = look (t_domains t) n.
Proof. intros Bn Bm Ne G F. destruct s as [|x|x]; [reflexivity| |]; apply (look_elsewhere n m); auto. Qed.

Lemma sweep_elsewhere u value sum n ts : (n < nv)%nat -> below ts -> ~ In n (map snd ts) -> forall bs t, legit nv d t ->
  t_failed (tell_all (sweep_lits u value sum ts bs) t) = false -> look (t_domains (tell_all (sweep_lits u value sum ts bs) t)) n = look (t_domains t) n.
Proof.
  intro Bn. unfold below. induction ts as [|[c m] r IH]; intros B N bs t G F; [reflexivity|]. destruct bs as [|b bs]; [reflexivity|].
  cbn [map snd] in B, N. apply Forall_cons_iff in B. destruct B as [Bm B]. cbn [sweep_lits] in *. rewrite tell_all_app in *.
  set (ls := step_lits m _) in *. assert (F1 : t_failed (tell_all ls t) = false) by (destruct (t_failed (tell_all ls t)) eqn:E; [rewrite tell_all_failed in F; congruence|reflexivity]).
  rewrite IH; [|assumption|intro I; apply N; now right| |assumption].
  - apply step_elsewhere; auto. intro E. apply N. now left.
  - apply legit_tell_all; [now apply step_lits_below|assumption].
Qed.

Lemma sweep_bounds u value sum ts : below ts -> NoDup (map snd ts) -> forall t, legit nv d t -> t_failed t = false ->
  let '(t', bs') := forward_sweep u value sum ts (looks (t_domains t) ts) t in t_failed t' = false -> bs' = looks (t_domains t') ts.
Proof.
  unfold below. induction ts as [|[c n] r IH]; intros B ND t G F; [simpl; intros _; reflexivity|]. cbn [map snd] in B, ND. apply Forall_cons_iff in B. destruct B as [Bn B].
  apply NoDup_cons_iff in ND. destruct ND as [N ND']. cbn [looks map snd forward_sweep]. change (map (fun t0 => look (t_domains t) (snd t0)) r) with (looks (t_domains t) r).
  set (b := look (t_domains t) n). set (st := step_for u c _ b).
  pose proof (take_step_tracker n st t b) as E. pose proof (take_step_look n st b t Bn G F eq_refl) as K. destruct (take_step n st t b) as [t1 b1]. simpl in E, K.
  destruct (t_failed t1) eqn:F1; [congruence|]. specialize (K eq_refl).
  assert (G1 : legit nv d t1) by (rewrite E; apply legit_tell_all; [now apply step_lits_below|assumption]).
  assert (R : looks (t_domains t) r = looks (t_domains t1) r).
  { unfold looks. apply map_ext_in. intros [c' m] I. cbn [snd]. symmetry. rewrite E in F1 |- *. apply step_elsewhere; auto.
    - apply (proj1 (Forall_forall _ _) B). now apply (in_map snd) in I.
    - intro Em. apply N. rewrite <- Em. now apply (in_map snd) in I. }
  rewrite R. specialize (IH B ND' t1 G1 F1). pose proof (sweep_tracker u value sum r (looks (t_domains t1) r) t1) as E2.
  destruct (forward_sweep u value sum r (looks (t_domains t1) r) t1) as [t2 bs2]. simpl in E2. intro F2. cbn [looks map snd]. f_equal; [|now apply IH].
  rewrite K, E2. symmetry. apply sweep_elsewhere; auto. now rewrite <- E2.
Qed.

(** A sweep does not change what the terms can at least contribute, and leaves
    nothing for the same sweep to do. *)
Lemma same_term (ts : list (Z * nat)) c c' n : NoDup (map snd ts) -> In (c, n) ts -> In (c', n) ts -> c = c'.
Proof. clear Hd Ld d.
  induction ts as [|[k m] r IH]; simpl; [contradiction|]. intros ND [E|I] [E'|I']; inversion ND as [|? ? N ND' E0]; clear E0.
  - congruence.
  - exfalso. apply N. injection E as -> ->. now apply (in_map snd) in I'.
  - exfalso. apply N. injection E' as -> ->. now apply (in_map snd) in I.
  - auto.
Qed.

Lemma contribution_kept D D' ts value : below ts -> NoDup (map snd ts) -> domains_ok D -> length D = nv -> domains_ok D' -> length D' = nv ->
  (forall a, within a D' <-> within a D /\ swept D ts value a) ->
  forall c n, In (c, n) ts -> contribution c (look D' n) = contribution c (look D n).
Proof. clear Hd Ld d.
  intros B ND Ok L Ok' L' W c n I. assert (Bn : (n < nv)%nat) by (unfold below in B; rewrite Forall_forall in B; apply B; now apply (in_map snd) in I).
  pose proof (eq_ind_r (fun k => (n < k)%nat) Bn L) as BD. pose proof (eq_ind_r (fun k => (n < k)%nat) Bn L') as BD'.
  destruct (contribution_attained D' c n Ok' BD') as (a' & Wa' & Ea'). destruct (contribution_attained D c n Ok BD) as (a & Wa & Ea).
  pose proof (proj1 (W a') Wa') as [W0 H0].
  assert (Lo : contribution c (look D n) <= contribution c (look D' n)) by (rewrite <- Ea'; now apply contribution_least).
  (* move only the value of n *)
  set (a1 := fun m => if Nat.eqb m n then a n else a' m). assert (W1 : within a1 D).
  { intros m Hm. unfold a1. destruct (Nat.eqb_spec m n) as [->|_]; [now apply Wa|now apply W0]. }
  assert (H1 : swept D ts value a1).
  { unfold swept in *. rewrite Forall_forall in *. intros [c' m] I'. cbn [fst snd]. unfold a1. destruct (Nat.eqb_spec m n) as [->|Ne]; [|apply (H0 (c', m) I')].
    pose proof (H0 (c', n) I') as Hc. cbn [fst snd] in Hc. rewrite <- (same_term ts c c' n ND I I') in *. rewrite Ea. rewrite Ea' in Hc. lia. }
  pose proof (contribution_least D' c n a1 Ok' BD' (proj2 (W a1) (conj W1 H1))) as C. unfold a1 in C at 1. rewrite Nat.eqb_refl, Ea in C. lia.
Qed.

Lemma least_sum_kept D D' ts : (forall c n, In (c, n) ts -> contribution c (look D' n) = contribution c (look D n)) -> least_sum D' ts = least_sum D ts.
Proof. clear Hd Ld d.
  induction ts as [|[c n] r IH]; intro H; [reflexivity|]. rewrite !least_sum_cons, (H c n) by now left. rewrite IH; [reflexivity|]. intros. apply H. now right.
Qed.

(** Nothing is left for a sweep to do. *)
Definition settled (D : domains) (ts : list (Z * nat)) (value : Z) : Prop := forall a, within a D -> swept D ts value a.

Lemma sweep_settles D D' ts value : below ts -> NoDup (map snd ts) -> domains_ok D -> length D = nv -> domains_ok D' -> length D' = nv ->
  (forall a, within a D' <-> within a D /\ swept D ts value a) -> settled D' ts value.
Proof. clear Hd Ld d.
  intros B ND Ok L Ok' L' W a Wa. pose proof (contribution_kept D D' ts value B ND Ok L Ok' L' W) as K. pose proof (least_sum_kept D D' ts K) as S.
  apply W in Wa. destruct Wa as [_ H]. unfold swept in *. rewrite Forall_forall in *. intros [c n] I. specialize (H _ I). cbn [fst snd] in *. rewrite S, K; assumption.
Qed.

Lemma least_sum_least D ts a : domains_ok D -> length D = nv -> below ts -> within a D -> least_sum D ts <= lin a ts.
Proof. clear Hd Ld d.
  intros Ok L B W. unfold below in B. induction ts as [|[c n] r IH]; [reflexivity|]. rewrite least_sum_cons. cbn [lin]. cbn [map snd] in B.
  apply Forall_cons_iff in B. destruct B as [Bn B]. pose proof (contribution_least D c n a Ok (eq_ind_r (fun k => (n < k)%nat) Bn L) W). specialize (IH B). lia.
Qed.

Lemma least_sum_without D ts a c n : domains_ok D -> length D = nv -> below ts -> within a D -> In (c, n) ts ->
  least_sum D ts - contribution c (look D n) <= lin a ts - c * a n.
Proof. clear Hd Ld d.
  intros Ok L B W. unfold below in B. induction ts as [|[c' m] r IH]; [contradiction|]. intros I. rewrite least_sum_cons. cbn [lin]. cbn [map snd] in B.
  apply Forall_cons_iff in B. destruct B as [Bm B]. destruct I as [E|I].
  - injection E as -> ->. pose proof (least_sum_least D r a Ok L B W). lia.
  - specialize (IH B I). pose proof (contribution_least D c' m a Ok (eq_ind_r (fun k => (m < k)%nat) Bm L) W). lia.
Qed.

Lemma sound_swept D ts a value : domains_ok D -> length D = nv -> below ts -> within a D -> lin a ts <= value -> swept D ts value a.
Proof. clear Hd Ld d.
  intros Ok L B W H. apply Forall_forall. intros [c n] I. cbn [fst snd]. pose proof (least_sum_without D ts a c n Ok L B W I). lia.
Qed.

Definition sweep_pass (u : bool) (ts : list (Z * nat)) (value : Z) (D : domains) : list literal := sweep_lits u value (least_sum D ts) ts (looks D ts).

(** Everything about one sweep. *)
Record swept_to (ts : list (Z * nat)) (value : Z) (t t' : tracker) (bs' : list (Z * Z)) : Prop :=
  { sw_legit : legit nv d t';
    sw_sound : forall a, within a d -> keeps a t -> lin a ts <= value -> keeps a t';
    sw_bounds : t_failed t' = false -> bs' = looks (t_domains t') ts;
    sw_settled : t_failed t' = false -> settled (t_domains t') ts value;
    sw_count : t_failed t' = false -> (count_inferences d t <= count_inferences d t')%nat /\
      (count_inferences d t' = count_inferences d t -> t_domains t' = t_domains t) /\
      (total_size (t_domains t') + (count_inferences d t' - count_inferences d t) <= total_size (t_domains t))%nat }.

Lemma sweep_to u ts value t : below ts -> usable_terms u ts -> NoDup (map snd ts) -> legit nv d t -> t_failed t = false ->
  let '(t', bs') := forward_sweep u value (least_sum (t_domains t) ts) ts (looks (t_domains t) ts) t in swept_to ts value t t' bs'.
Proof.
  intros B U ND G F. set (D := t_domains t). pose proof (legit_ok nv d Hd Ld t G F) as Ok. pose proof (legit_length nv d Hd Ld t G) as L. fold D in Ok, L.
  pose proof (sweep_tracker u value (least_sum D ts) ts (looks D ts) t) as E. pose proof (sweep_bounds u value (least_sum D ts) ts B ND t G F) as Bd. fold D in Bd.
  pose proof (fun a => sweep_within u value ts t a B U G F) as W. cbv zeta in W. fold D in W.
  destruct (forward_sweep u value (least_sum D ts) ts (looks D ts) t) as [t' bs']. cbn [fst] in *.
  assert (Pass : forall d', domains_ok d' -> length d' = nv -> Forall (lit_below nv) (sweep_pass u ts value d')) by (intros; now apply sweep_lits_below).
  destruct (pass_step nv d Hd Ld (sweep_pass u ts value) Pass t G F) as [G' S]. cbv zeta in G', S. fold D in G', S. unfold sweep_pass in G', S. rewrite <- E in G', S.
  constructor; auto.
  - intros a Wa Ka H. rewrite E. apply tell_all_keeps; [assumption|]. destruct (keeps_alive nv d Hd Ld t a G Wa Ka) as [_ WD].
    apply (sweep_lits_hold u D value (least_sum D ts) ts a); auto. now apply (sound_swept D ts a value).
  - intro F'. apply (sweep_settles D); auto; [now apply (legit_ok nv d)|now apply (legit_length nv d)].
  - intro F'. destruct (S F') as (evs & A & C). assert (K : Forall (lit_known D) (sweep_lits u value (least_sum D ts) ts (looks D ts))).
    { apply (lits_known nv); [assumption|]. now apply sweep_lits_below. }
    pose proof (apply_lits_size _ _ _ _ _ Ok K A eq_refl) as Sz. fold D. split; [lia|]. split; [|lia].
    intro Q. assert (evs = []) as -> by (destruct evs; [reflexivity|simpl in C; lia]). exact (apply_lits_quiet _ _ _ Ok K A).
Qed.

Lemma settled_same ts value D D' : D' = D -> settled D ts value -> settled D' ts value.
Proof. now intros ->. Qed.

(** ** The loop *)

Section Loop.
Variable s : tidied.
Variable value : Z.
Variable equality : bool.
Hypothesis Ts : tidy s.
Hypothesis Bs : below (terms s).

Definition linear_rel (a : assignment) : Prop := if equality then lin a (terms s) = value else lin a (terms s) <= value.

Definition at_fixpoint (D : domains) : Prop := settled D (terms s) value /\ (equality = true -> settled D (negated (terms s)) (- value)).

Lemma loop_forward t : legit nv d t -> t_failed t = false ->
  let '(t', bs') := forward_sweep (units s) value (lower_sum 1 (terms s) (looks (t_domains t) (terms s))) (terms s) (looks (t_domains t) (terms s)) t in
  swept_to (terms s) value t t' bs'.
Proof. intros G F. apply (sweep_to (units s) (terms s) value t); auto; [now apply tidy_usable|now apply Ts]. Qed.

Lemma loop_inverse t : legit nv d t -> t_failed t = false ->
  let '(t', bs') := inverse_sweep (units s) value (lower_sum (-1) (terms s) (looks (t_domains t) (terms s))) (terms s) (looks (t_domains t) (terms s)) t in
  swept_to (negated (terms s)) (- value) t t' bs'.
Proof.
  intros G F. rewrite inverse_is_forward by now apply tidy_usable. rewrite lower_sum_negated. rewrite <- looks_negated.
  apply (sweep_to (units s) (negated (terms s)) (- value) t); auto.
  - unfold below. now rewrite vars_negated.
  - apply usable_negated. now apply tidy_usable.
  - rewrite vars_negated. now apply Ts.
Qed.

Lemma loop_spec fuel : forall first t bs, legit nv d t -> t_failed t = false -> bs = looks (t_domains t) (terms s) ->
  (first = false -> equality = true -> settled (t_domains t) (negated (terms s)) (- value)) -> (total_size (t_domains t) < fuel)%nat ->
  exists t' st, linear_loop s value equality d fuel first t bs = Some (t', st) /\ legit nv d t' /\
    (forall a, within a d -> keeps a t -> linear_rel a -> keeps a t') /\
    (t_failed t' = false -> st = EnableButIdempotent /\ at_fixpoint (t_domains t')) /\ (t_failed t' = true -> st = Enable).
Proof.
  induction fuel as [|k IH]; intros first t bs G F -> Fi Fu; [lia|]. cbn [linear_loop].
  pose proof (loop_forward t G F) as H1. destruct (forward_sweep _ _ _ _ _ t) as [t1 bs1]. destruct H1 as [G1 S1 B1 R1 C1].
  assert (S1' : forall a, within a d -> keeps a t -> linear_rel a -> keeps a t1).
  { intros a Wa Ka Ra. apply S1; auto. unfold linear_rel in Ra. destruct equality; lia. }
  destruct (t_failed t1) eqn:F1.
  { exists t1, Enable. repeat (split; [auto; fail|]). split; [intro; congruence|auto]. }
  specialize (B1 eq_refl). specialize (R1 eq_refl). destruct (C1 eq_refl) as (C1a & C1b & C1c). clear C1. subst bs1.
  destruct equality eqn:Eq; cbn [negb orb].
  2:{ exists t1, EnableButIdempotent. split; [reflexivity|]. split; [assumption|]. split; [exact S1'|]. split; [|intro; congruence]. intros _. split; [reflexivity|]. split; [assumption|congruence]. }
  destruct (negb first && (count_inferences d t1 =? count_inferences d t)%nat) eqn:Q1.
  { apply andb_prop in Q1. destruct Q1 as [Q0 Q1]. destruct first; [discriminate|]. apply Nat.eqb_eq in Q1.
    exists t1, EnableButIdempotent. split; [reflexivity|]. split; [assumption|]. split; [exact S1'|]. split; [|intro; congruence]. intros _. split; [reflexivity|]. split; [assumption|].
    intros _. apply (settled_same _ _ (t_domains t)); auto. }
  pose proof (loop_inverse t1 G1 F1) as H2. destruct (inverse_sweep _ _ _ _ _ t1) as [t2 bs2]. destruct H2 as [G2 S2 B2 R2 C2].
  assert (S2' : forall a, within a d -> keeps a t -> linear_rel a -> keeps a t2).
  { intros a Wa Ka Ra. apply S2; auto. rewrite lin_negated. unfold linear_rel in Ra. rewrite Eq in Ra. lia. }
  destruct (t_failed t2) eqn:F2.
  { exists t2, Enable. split; [reflexivity|]. split; [assumption|]. split; [exact S2'|]. split; [congruence|auto]. }
  specialize (B2 eq_refl). specialize (R2 eq_refl). destruct (C2 eq_refl) as (C2a & C2b & C2c). clear C2. subst bs2. rewrite looks_negated.
  destruct (Nat.eqb_spec (count_inferences d t2) (count_inferences d t1)) as [Q2|Q2].
  { exists t2, EnableButIdempotent. split; [reflexivity|]. split; [assumption|]. split; [exact S2'|]. split; [|intro; congruence]. intros _. split; [reflexivity|]. split; [|auto].
    apply (settled_same _ _ (t_domains t1)); auto. }
  destruct (IH false t2 (looks (t_domains t2) (terms s)) G2 F2 eq_refl ltac:(auto) ltac:(lia)) as (t' & st & E & G' & S' & R' & R0').
  exists t', st. split; [exact E|]. split; [assumption|]. split; [|auto]. intros a Wa Ka Ra. apply S'; auto.
Qed.

Lemma propagate_linear_spec : terms s <> [] ->
  let '(t', st) := propagate_linear s value equality d in
  legit nv d t' /\ (forall a, within a d -> linear_rel a -> keeps a t') /\
  (t_failed t' = false -> st = EnableButIdempotent /\ at_fixpoint (t_domains t')) /\ (t_failed t' = true -> st = Enable).
Proof.
  intro N. destruct (loop_spec (enough_fuel d) true (track d) (looks d (terms s)) (legit_track _ _) eq_refl eq_refl ltac:(discriminate)) as (t' & st & E & G & S & R & R0).
  { unfold enough_fuel. apply Nat.lt_succ_diag_r. }
  assert (P : propagate_linear s value equality d = (t', st)).
  { unfold propagate_linear. rewrite looks_vars, E. destruct (terms s); [congruence|reflexivity]. }
  rewrite P. split; [assumption|]. split; [|auto]. intros a Wa Ra. apply S; auto. apply keeps_track.
Qed.

End Loop.

(** Where nothing is left to do, nothing is done. *)
Lemma sweep_quiet u ts value t : below ts -> usable_terms u ts -> NoDup (map snd ts) -> legit nv d t -> t_failed t = false -> settled (t_domains t) ts value ->
  let '(t', bs') := forward_sweep u value (least_sum (t_domains t) ts) ts (looks (t_domains t) ts) t in
  t_failed t' = false /\ t_domains t' = t_domains t /\ count_inferences d t' = count_inferences d t.
Proof.
  intros B U ND G F R. set (D := t_domains t) in *. pose proof (legit_ok nv d Hd Ld t G F) as Ok. pose proof (legit_length nv d Hd Ld t G) as L. fold D in Ok, L.
  pose proof (sweep_tracker u value (least_sum D ts) ts (looks D ts) t) as E.
  destruct (forward_sweep u value (least_sum D ts) ts (looks D ts) t) as [t' bs']. cbn [fst] in *.
  assert (Pass : forall d', domains_ok d' -> length d' = nv -> Forall (lit_below nv) (sweep_pass u ts value d')) by (intros; now apply sweep_lits_below).
  destruct (pass_step nv d Hd Ld (sweep_pass u ts value) Pass t G F) as [G' S]. cbv zeta in G', S. fold D in G', S. unfold sweep_pass in G', S. rewrite <- E in G', S.
  assert (H : forall a, within a D -> Forall (lit_holds a) (sweep_lits u value (least_sum D ts) ts (looks D ts))).
  { intros a Wa. apply (sweep_lits_hold u D value (least_sum D ts) ts a); auto. now apply R. }
  assert (F' : t_failed t' = false).
  { destruct (within_exists D Ok) as [a Wa]. pose proof (proj1 (legit_within nv d Hd Ld t a G F) Wa) as [Wd Ka].
    apply (keeps_alive nv d Hd Ld t' a G' Wd). rewrite E. apply tell_all_keeps; auto. }
  destruct (S F') as (evs & A & C). rewrite (apply_lits_implied _ D Ok) in A; auto.
  - injection A as <- <-. split; [assumption|]. split; [reflexivity|]. cbn [length] in C. lia.
  - apply (lits_known nv); [assumption|]. now apply sweep_lits_below.
Qed.

Lemma propagate_linear_again s value equality : tidy s -> below (terms s) -> terms s <> [] -> at_fixpoint s value equality d ->
  let '(t', st) := propagate_linear s value equality d in t_failed t' = false /\ t_domains t' = d.
Proof.
  intros Ts Bs N [R1 R2].
  unfold propagate_linear. destruct (terms s) as [|t0 r] eqn:Et; [congruence|]. rewrite <- Et in *.
  rewrite looks_vars in *. unfold enough_fuel in *. cbn [linear_loop] in *.
  pose proof (sweep_quiet (units s) (terms s) value (track d) Bs (tidy_usable s Ts) (td_nodup s Ts) (legit_track _ _) eq_refl R1) as Q1.
  pose proof (loop_forward s value Ts Bs (track d) (legit_track _ _) eq_refl) as L1.
  cbn [t_domains track] in Q1, L1. change (least_sum d (terms s)) with (lower_sum 1 (terms s) (looks d (terms s))) in Q1.
  destruct (forward_sweep _ _ _ _ _ (track d)) as [t1 bs1]. destruct Q1 as (F1 & D1 & C1). destruct L1 as [G1 _ B1 _ _]. specialize (B1 F1). subst bs1. rewrite F1 in *.
  destruct equality; cbn [negb orb andb] in *; [|split; assumption].
  rewrite D1. rewrite inverse_is_forward by now apply tidy_usable. rewrite lower_sum_negated. rewrite <- looks_negated.
  assert (Q2 := sweep_quiet (units s) (negated (terms s)) (- value) t1). rewrite D1 in Q2. unfold least_sum in Q2.
  assert (B2 : below (negated (terms s))) by (unfold below; now rewrite vars_negated).
  assert (ND2 : NoDup (map snd (negated (terms s)))) by (rewrite vars_negated; apply Ts).
  specialize (Q2 B2 (usable_negated _ _ (tidy_usable s Ts)) ND2 G1 F1 (R2 eq_refl)).
  destruct (forward_sweep _ _ _ _ _ t1) as [t2 bs2]. destruct Q2 as (F2 & D2 & C2). rewrite F2, C2, Nat.eqb_refl. split; assumption.
Qed.

End Sweep.

(** ** The terms as a relation *)

Lemma fixed_lin D ts a : domains_ok D -> Forall (fun n => (n < length D)%nat) (map snd ts) -> Forall (fixed D) (map (fun t => VSimple (snd t)) ts) -> within a D ->
  least_sum D ts = lin a ts.
Proof.
  intros Ok B F W. induction ts as [|[c n] r IH]; [reflexivity|]. cbn [map snd] in B, F. apply Forall_cons_iff in B. destruct B as [Bn B]. apply Forall_cons_iff in F. destruct F as [Fn F].
  rewrite least_sum_cons, IH by assumption. cbn [lin]. f_equal. unfold look, contribution. rewrite bounds_spec.
  destruct (fixed_bounds D (VSimple n) a Ok Bn Fn W) as [A1 A2]. rewrite A1, A2. cbn [fst snd var_value]. destruct (0 <=? c); reflexivity.
Qed.

Lemma settled_least D ts value : domains_ok D -> Forall (fun n => (n < length D)%nat) (map snd ts) -> ts <> [] -> settled D ts value -> least_sum D ts <= value.
Proof.
  intros Ok B N R. destruct ts as [|[c n] r]; [congruence|]. cbn [map snd] in B. apply Forall_cons_iff in B. destruct B as [Bn B].
  destruct (contribution_attained D c n Ok Bn) as (a & W & E). specialize (R a W). unfold swept in R. apply Forall_cons_iff in R. destruct R as [R _]. cbn [fst snd] in R. lia.
Qed.

Lemma negated_nil ts : ts <> [] -> negated ts <> [].
Proof. destruct ts; simpl; congruence. Qed.

Section Bodies.
Variable nv : nat.
Variable d0 : domains.
Variable s : tidied.
Hypothesis Ts : tidy s.
Hypothesis Bs : below nv (terms s).

Lemma below_length (D : domains) ts : length D = nv -> below nv ts -> Forall (fun n => (n < length D)%nat) (map snd ts).
Proof. intros L B. eapply Forall_impl; [|exact B]. intros n H. exact (eq_ind_r (fun k => (n < k)%nat) H L). Qed.

Lemma fixpoint_fixed value equality D a : domains_ok D -> length D = nv -> terms s <> [] -> at_fixpoint s value equality D ->
  Forall (fixed D) (term_vars s) -> within a D -> linear_rel s value equality a.
Proof.
  intros Ok L N [R1 R2] F W. pose proof (below_length D _ L Bs) as B. pose proof (settled_least D _ _ Ok B N R1) as H1. rewrite (fixed_lin D (terms s) a Ok B F W) in H1.
  unfold linear_rel. destruct equality; [|assumption]. specialize (R2 eq_refl).
  assert (B2 : Forall (fun n => (n < length D)%nat) (map snd (negated (terms s)))) by now rewrite vars_negated.
  pose proof (settled_least D _ _ Ok B2 (negated_nil _ N) R2) as H2.
  assert (F2 : Forall (fixed D) (map (fun t => VSimple (snd t)) (negated (terms s)))).
  { unfold negated. rewrite map_map. exact F. }
  rewrite (fixed_lin D _ a Ok B2 F2 W), lin_negated in H2. lia.
Qed.

Lemma propagate_linear_ok alias value equality : terms s <> [] \/ equality = false \/ value <= 0 ->
  body_ok nv d0 alias (propagate_linear s value equality) (term_vars s) (linear_rel s value equality).
Proof.
  intro H. destruct (terms s) as [|t0 r] eqn:Et.
  - assert (E : forall d, propagate_linear s value equality d = (if 0 <=? value then track d else tell_false (track d), DisableUntilBacktrack)).
    { intro d. unfold propagate_linear. now rewrite Et. }
    assert (G : forall d, legit nv d (fst (propagate_linear s value equality d))).
    { intro d. rewrite E. cbn [fst]. destruct (0 <=? value); [apply legit_track|]. apply legit_tell; [exact Logic.I|apply legit_track]. }
    assert (C : forall d a, domains_ok d -> length d = nv -> t_failed (fst (propagate_linear s value equality d)) = false -> linear_rel s value equality a).
    { intros d a Hd L F. rewrite E in F. cbn [fst] in F. unfold linear_rel. rewrite Et. cbn [lin]. destruct (Z.leb_spec 0 value); [|discriminate F].
      destruct equality; [|assumption]. destruct H as [H|[H|H]]; [congruence|discriminate|lia]. }
    constructor; intros d; intros; eauto; rewrite ?E in *; cbn [fst snd] in *; try discriminate.
    + destruct (Z.leb_spec 0 value); [apply keeps_track|]. exfalso. match goal with X : linear_rel _ _ _ _ |- _ => revert X end. unfold linear_rel. rewrite Et. cbn [lin]. destruct equality; lia.
  - rewrite <- Et in *. assert (N : terms s <> []) by congruence. clear H.
    assert (Sp : forall d, domains_ok d -> length d = nv -> let '(t', st) := propagate_linear s value equality d in
      legit nv d t' /\ (forall a, within a d -> linear_rel s value equality a -> keeps a t') /\
      (t_failed t' = false -> st = EnableButIdempotent /\ at_fixpoint s value equality (t_domains t')) /\ (t_failed t' = true -> st = Enable)).
    { intros d Hd L. now apply (propagate_linear_spec nv d Hd L s value equality Ts Bs). }
    assert (C : forall d, domains_ok d -> length d = nv -> t_failed (fst (propagate_linear s value equality d)) = false ->
      Forall (fixed (t_domains (fst (propagate_linear s value equality d)))) (term_vars s) ->
      forall a, within a (t_domains (fst (propagate_linear s value equality d))) -> linear_rel s value equality a).
    { intros d Hd L F Fx a Wa. specialize (Sp d Hd L). destruct (propagate_linear s value equality d) as [t st]. cbn [fst] in *. destruct Sp as (G & _ & R & _). destruct (R F) as [_ R'].
      apply (fixpoint_fixed value equality (t_domains t) a); auto; [now apply (legit_ok nv d)|now apply (legit_length nv d)]. }
    constructor.
    + intros d Hd L _. specialize (Sp d Hd L). destruct (propagate_linear s value equality d). apply Sp.
    + intros d a Hd L _ Wa Sa. specialize (Sp d Hd L). destruct (propagate_linear s value equality d). now apply Sp.
    + intros d Hd L _ Fx F a Wa. apply (C d Hd L F); auto. specialize (Sp d Hd L). destruct (propagate_linear s value equality d) as [t st]. cbn [fst] in *.
      eapply Forall_impl; [|exact Fx]. intros v. apply fixed_mono. apply (legit_inside nv d); auto. apply Sp.
    + intros d Hd L _ _ _ F Fx. now apply C.
    + intros d Hd L _ R F. specialize (Sp d Hd L). destruct (propagate_linear s value equality d) as [t st]. cbn [fst snd] in *. destruct Sp as (_ & _ & R' & _).
      destruct (R' F). congruence.
Qed.

(** ** Disequality *)

Definition part (a : assignment) (o : option (Z * nat)) : Z := match o with Some (c, n) => c * a n | None => 0 end.

Lemma single_unset_sum d : domains_ok d -> length d = nv -> forall ts found acc found' acc', below nv ts -> single_unset d ts found acc = Some (found', acc') ->
  (forall a, within a d -> lin a ts + acc + part a found = acc' + part a found') /\ (found' = found \/ exists p, found' = Some p /\ In p ts).
Proof.
  intros Hd L. induction ts as [|[c n] r IH]; intros found acc found' acc' B E.
  - injection E as <- <-. split; [intros; simpl; lia|now left].
  - cbn [single_unset] in E. unfold below in B. cbn [map snd] in B. apply Forall_cons_iff in B. destruct B as [Bn B].
    destruct (optional_single_value d (VSimple n)) as [x|] eqn:O.
    + destruct (IH _ _ _ _ B E) as [H1 H2]. split.
      * intros a Wa. specialize (H1 a Wa). pose proof (osv_value d (VSimple n) x Hd (var_below_known nv d (VSimple n) L Bn) O a Wa) as V. cbn [var_value] in V. cbn [lin]. rewrite V. lia.
      * destruct H2 as [H2|(p & H2 & I)]; [now left|]. right. exists p. split; [assumption|now right].
    + destruct found as [q|]; [discriminate|]. destruct (IH _ _ _ _ B E) as [H1 H2]. split.
      * intros a Wa. specialize (H1 a Wa). cbn [lin part] in *. lia.
      * right. destruct H2 as [->|(p & -> & I)]; eexists; (split; [reflexivity|]); simpl; auto.
Qed.

Lemma single_unset_fixed d : domains_ok d -> length d = nv -> forall ts acc, below nv ts -> Forall (fixed d) (map (fun t => VSimple (snd t)) ts) ->
  exists acc', single_unset d ts None acc = Some (None, acc').
Proof.
  intros Hd L. induction ts as [|[c n] r IH]; intros acc B F; [eexists; reflexivity|]. unfold below in B. cbn [map snd] in B, F. apply Forall_cons_iff in B. destruct B as [Bn B].
  apply Forall_cons_iff in F. destruct F as [Fn F]. cbn [single_unset]. destruct (proj1 (fixed_osv d (VSimple n) Hd (var_below_known nv d (VSimple n) L Bn)) Fn) as [x ->]. now apply IH.
Qed.

Lemma single_unset_case d value : domains_ok d -> length d = nv ->
  match single_unset d (terms s) None 0 with
  | None => True
  | Some (None, acc) => forall a, within a d -> lin a (terms s) = acc
  | Some (Some (c, n), acc) => (n < nv)%nat /\
      (Z.rem (value - acc) c = 0 -> forall a, within a d -> (lin a (terms s) = value <-> a n = Z.quot (value - acc) c)) /\
      (Z.rem (value - acc) c <> 0 -> forall a, within a d -> lin a (terms s) <> value)
  end.
Proof.
  intros Hd L. destruct (single_unset d (terms s) None 0) as [[[[c n]|] acc]|] eqn:E; [| |exact Logic.I]; destruct (single_unset_sum d Hd L _ _ _ _ _ Bs E) as [H1 H2].
  - destruct H2 as [H2|(p & H2 & I)]; [discriminate|]. injection H2 as <-. assert (Nc : c <> 0) by (pose proof (proj1 (Forall_forall _ _) (td_nonzero s Ts) _ I) as X; exact X).
    pose proof (Z.quot_rem' (value - acc) c) as Q. split; [|split].
    + apply (proj1 (Forall_forall _ _) Bs). now apply (in_map snd) in I.
    + intros Z0 a Wa. specialize (H1 a Wa). cbn [part] in H1. rewrite Z0 in Q. split; [intro X; apply (Z.mul_reg_l _ _ c Nc); lia|intros X; rewrite X in H1; lia].
    + intros Z0 a Wa X. apply Z0. specialize (H1 a Wa). cbn [part] in H1. replace (value - acc) with (a n * c) by lia. now apply Z.rem_mul.
  - intros a Wa. specialize (H1 a Wa). cbn [part] in H1. lia.
Qed.

Lemma in_domain_false d v x a : domains_ok d -> var_below nv v -> length d = nv -> in_domain d v x = false -> within a d -> var_value a v <> x.
Proof.
  intros Hd B L E W X. assert (M : in_domain d v x = true) by (apply in_domain_spec; [assumption|now apply (var_below_known nv)|]; apply view_member_iff; [assumption|now apply (var_below_known nv)|]; eauto). congruence.
Qed.

Lemma not_equals_ok alias value : body_ok nv d0 alias (propagate_not_equals s value) (term_vars s) (fun a => lin a (terms s) <> value).
Proof.
  assert (K : forall d, domains_ok d -> length d = nv ->
    legit nv d (fst (propagate_not_equals s value d)) /\
    (forall a, within a d -> lin a (terms s) <> value -> keeps a (fst (propagate_not_equals s value d))) /\
    (snd (propagate_not_equals s value d) = DisableUntilBacktrack -> t_failed (fst (propagate_not_equals s value d)) = false ->
       forall a, within a (t_domains (fst (propagate_not_equals s value d))) -> lin a (terms s) <> value) /\
    snd (propagate_not_equals s value d) <> EnableButIdempotent /\
    (Forall (fixed d) (term_vars s) -> snd (propagate_not_equals s value d) = DisableUntilBacktrack)).
  { intros d Hd L. pose proof (single_unset_case d value Hd L) as C. pose proof (single_unset_fixed d Hd L (terms s) 0 Bs) as Fx. unfold propagate_not_equals.
    destruct (single_unset d (terms s) None 0) as [[[[c n]|] acc]|].
    - destruct C as (Bn & C1 & C2). destruct (Z.eqb_spec (Z.rem (value - acc) c) 0) as [E|E].
      + specialize (C1 E). cbn [fst snd]. destruct (in_domain d (VSimple n) (Z.quot (value - acc) c)) eqn:I.
        * split; [apply legit_tell; [exact Bn|apply legit_track]|]. split; [|split; [|split; [discriminate|reflexivity]]].
          -- intros a Wa Na. apply keeps_tell; [apply keeps_track|]. intros _. unfold lit_holds, cond_holds. cbn. rewrite <- (C1 a Wa). assumption.
          -- intros _ F a Wa. destruct (tell_ne_spec nv d (track d) (VSimple n) _ a Hd L (legit_track _ _) Bn F Wa) as (_ & Wd & X). rewrite (C1 a Wd). exact X.
        * split; [apply legit_track|]. split; [intros; apply keeps_track|]. split; [|split; [discriminate|reflexivity]].
          intros _ _ a Wa. rewrite (C1 a Wa). exact (in_domain_false d (VSimple n) _ a Hd Bn L I Wa).
      + specialize (C2 E). cbn [fst snd]. split; [apply legit_track|]. split; [intros; apply keeps_track|]. split; [auto|split; [discriminate|reflexivity]].
    - cbn [fst snd]. destruct (Z.eqb_spec acc value) as [E|E].
      + split; [apply legit_tell; [exact Logic.I|apply legit_track]|]. split; [|split; [discriminate|split; [discriminate|reflexivity]]].
        intros a Wa Na. exfalso. apply Na. rewrite (C a Wa). exact E.
      + split; [apply legit_track|]. split; [intros; apply keeps_track|]. split; [|split; [discriminate|reflexivity]]. intros _ _ a Wa. rewrite (C a Wa). exact E.
    - cbn [fst snd]. split; [apply legit_track|]. split; [intros; apply keeps_track|]. split; [discriminate|]. split; [discriminate|]. intro F. destruct (Fx F). discriminate. }
  constructor.
  - intros d Hd L _. now apply K.
  - intros d a Hd L _ Wa Sa. now apply K.
  - intros d Hd L _ Fx F. destruct (K d Hd L) as (_ & _ & A & _ & B). auto.
  - intros d Hd L _ _ R. destruct (K d Hd L) as (_ & _ & _ & A & _). contradiction.
  - intros d Hd L _ R. destruct (K d Hd L) as (_ & _ & A & _). auto.
Qed.

(** ** Verdicts *)

Lemma inequality_verdict_ok value : verdict_ok nv d0 (inequality_verdict s value) (fun a => lin a (terms s) <= value).
Proof.
  intros d Hd L _. unfold inequality_verdict. rewrite looks_vars, lower_sum_negated. cbv zeta. change (lower_sum 1 (terms s) (looks d (terms s))) with (least_sum d (terms s)).
  replace (lower_sum 1 (negated (terms s)) (looks d (terms s))) with (least_sum d (negated (terms s))) by (unfold least_sum; now rewrite looks_negated).
  assert (B2 : below nv (negated (terms s))) by (unfold below; now rewrite vars_negated).
  destruct (Z.ltb_spec value (least_sum d (terms s))) as [H|H].
  - intros a Wa. pose proof (least_sum_least nv d (terms s) a Hd L Bs Wa). lia.
  - destruct (Z.leb_spec (- least_sum d (negated (terms s))) value) as [H'|H']; [|exact Logic.I]. intros a Wa. pose proof (least_sum_least nv d _ a Hd L B2 Wa) as X. rewrite lin_negated in X. lia.
Qed.

Lemma equality_verdict_ok value : verdict_ok nv d0 (equality_verdict s value) (fun a => lin a (terms s) = value).
Proof.
  intros d Hd L _. pose proof (single_unset_case d value Hd L) as C. unfold equality_verdict. destruct (single_unset d (terms s) None 0) as [[[[c n]|] acc]|]; [| |exact Logic.I].
  - destruct C as (Bn & C1 & C2). destruct (Z.eqb_spec (Z.rem (value - acc) c) 0) as [E|E]; [|now apply C2]. destruct (in_domain d (VSimple n) (Z.quot (value - acc) c)) eqn:I; [exact Logic.I|].
    intros a Wa. rewrite (C1 E a Wa). exact (in_domain_false d (VSimple n) _ a Hd Bn L I Wa).
  - destruct (Z.eqb_spec acc value) as [E|E]; intros a Wa; rewrite (C a Wa); assumption.
Qed.

End Bodies.

(** ** Negating the sum *)

Lemma strip_negate cv : forall ts m, strip_views cv = (ts, m) -> strip_views (negate_terms cv) = (negated ts, - m).
Proof.
  induction cv as [|[c v] r IH]; intros ts m E; cbn [strip_views negate_terms map] in *.
  - injection E as <- <-. reflexivity.
  - destruct (strip_views r) as [us k]. specialize (IH us k eq_refl). unfold negate_terms in IH. rewrite IH.
    destruct v as [n|n neg add|x]; injection E as <- <-; cbn [negated map fst snd]; unfold negated; [|destruct neg|]; repeat f_equal; lia.
Qed.

Lemma insert_negated t ts : insert_term (- fst t, snd t) (negated ts) = negated (insert_term t ts).
Proof.
  induction ts as [|u r IH]; [reflexivity|]. cbn [insert_term negated map fst snd]. destruct (Nat.leb (snd t) (snd u)); [reflexivity|].
  cbn [negated map fst snd]. f_equal. exact IH.
Qed.

Lemma sort_negated ts : sort_terms (negated ts) = negated (sort_terms ts).
Proof. induction ts as [|t r IH]; [reflexivity|]. change (insert_term (- fst t, snd t) (sort_terms (negated r)) = negated (insert_term t (sort_terms r))). rewrite IH. apply insert_negated. Qed.

Lemma merge_from_negated ts : forall k n, merge_from (- k) n (negated ts) = negated (merge_from k n ts).
Proof.
  induction ts as [|[c m] r IH]; intros k n; [reflexivity|]. cbn [merge_from negated map fst snd]. change (map (fun t0 => (- fst t0, snd t0)) r) with (negated r).
  destruct (Nat.eqb m n).
  - rewrite <- IH. f_equal. lia.
  - cbn [negated map fst snd]. f_equal. apply IH.
Qed.

Lemma merge_negated ts : merge_terms (negated ts) = negated (merge_terms ts).
Proof. destruct ts as [|[c n] r]; [reflexivity|]. apply merge_from_negated. Qed.

Lemma filter_negated ts : filter (fun t => negb (fst t =? 0)) (negated ts) = negated (filter (fun t => negb (fst t =? 0)) ts).
Proof.
  induction ts as [|[c n] r IH]; [reflexivity|]. cbn [filter negated map fst snd]. change (map (fun t0 => (- fst t0, snd t0)) r) with (negated r).
  replace (- c =? 0) with (c =? 0) by (destruct (Z.eqb_spec c 0), (Z.eqb_spec (- c) 0); lia). destruct (c =? 0); cbn [negb]; rewrite IH; reflexivity.
Qed.

Lemma tidy_up_negate cv s m : tidy_up_linear cv = (s, m) -> exists u, tidy_up_linear (negate_terms cv) = (mk_tidied u (negated (terms s)), - m).
Proof.
  unfold tidy_up_linear. destruct (strip_views cv) as [ts k] eqn:E. rewrite (strip_negate cv ts k E). intro H. injection H as <- <-. cbn [terms].
  rewrite sort_negated, merge_negated, filter_negated. eexists. reflexivity.
Qed.

Lemma sum_negate cv a : weighted_sum (negate_terms cv) a = - weighted_sum cv a.
Proof. apply worth_negate. Qed.

Lemma negated_term_vars u s : term_vars (mk_tidied u (negated (terms s))) = term_vars s.
Proof. unfold term_vars, negated. cbn [terms]. rewrite map_map. reflexivity. Qed.

(** ** Scopes *)

Lemma fixed_underlying d v n : domains_ok d -> (n < length d)%nat -> underlying v = Some n -> fixed d v -> fixed d (VSimple n).
Proof.
  intros Hd B U (x & F). destruct v as [m|m neg add|c]; simpl in U; try discriminate; injection U as ->.
  - now exists x.
  - exists (if neg then add - x else x - add). intros a Wa. specialize (F a Wa). cbn [var_value] in *. destruct neg; lia.
Qed.

Lemma rescope d0 k scope scope' sat : Forall (var_known d0) scope' -> (forall d, domains_ok d -> (length d0 <= length d)%nat -> Forall (fixed d) scope' -> Forall (fixed d) scope) ->
  correct_on d0 k scope sat -> correct_on d0 k scope' sat.
Proof.
  intros K H C nv Inv L S I. destruct (C nv Inv L S I) as (En & B & pp & ip & FP & FI & Con). split; [assumption|].
  split. { eapply Forall_impl; [|exact K]. intros v Kv. apply (below_more (length d0)); [assumption|]. now apply known_below. }
  exists pp, ip. split; [|auto]. eapply Forall2_weaken; [|exact FP]. intros p s (W & So & ok & dead & Wk & Ck). split; [assumption|]. split; [assumption|].
  exists ok, dead. split; [assumption|]. intros d Hd Ld O Fx. apply (Ck d Hd Ld O). apply H; auto. unfold domains, iset in *. lia.
Qed.

Lemma body_rescope nv d0 alias f scope scope' sat : (forall d, domains_ok d -> length d = nv -> Forall (fixed d) scope' -> Forall (fixed d) scope) ->
  body_ok nv d0 alias f scope sat -> body_ok nv d0 alias f scope' sat.
Proof.
  intros H [Lg So Ch Cl En]. constructor; auto.
  - intros d Hd L I Fx. apply Ch; auto.
  - intros d Hd L I NA R F Fx. apply (Cl d); auto. pose proof (Lg d Hd L I) as G. apply H; auto; [now apply (legit_ok nv d)|now apply (legit_length nv d)].
Qed.

(** A body that does what the dispatcher does, but passes on the claims of the
    enforcing passes. *)
Lemma keeping_claims_ok nv d0 alias must_hold must_not_hold when_undecided scope base r f :
  Forall (var_below (length d0)) (reif_scope r) -> Forall (var_below nv) (reif_scope r) -> reif_sane r -> verdict_ok nv d0 when_undecided base ->
  body_ok nv d0 alias must_hold scope base -> body_ok nv d0 alias must_not_hold scope (fun a => ~ base a) ->
  (forall d, fst (f d) = fst (dispatch must_hold must_not_hold when_undecided r d) /\
     (snd (f d) = EnableButIdempotent -> test_reif d r = EMustHold /\ snd (must_hold d) = EnableButIdempotent /\ fst (f d) = fst (must_hold d) \/
        test_reif d r = EMustNotHold /\ snd (must_not_hold d) = EnableButIdempotent /\ fst (f d) = fst (must_not_hold d)) /\
     (snd (f d) = DisableUntilBacktrack -> snd (dispatch must_hold must_not_hold when_undecided r d) = DisableUntilBacktrack)) ->
  body_ok nv d0 alias f (scope ++ reif_scope r) (reif_sat r base).
Proof.
  intros Kr0 Kr Sr HV HH HN Eq. destruct (dispatch_ok nv d0 must_hold must_not_hold when_undecided scope base r Kr0 Kr Sr HV alias alias alias HH HN) as [Lg So Ch _ En].
  constructor; intros d; intros; destruct (Eq d) as (E1 & E2 & E3); rewrite ?E1 in *; eauto.
  pose proof (test_reif_spec nv d r base ltac:(assumption) ltac:(assumption) Kr Sr) as T. pose proof (Lg d ltac:(assumption) ltac:(assumption) ltac:(assumption)) as G.
  assert (Wd : within a d) by (apply (legit_inside nv d ltac:(assumption) ltac:(assumption) _ G); auto).
  match goal with X : Forall _ (scope ++ reif_scope r) |- _ => apply Forall_app in X; destruct X as [X _] end.
  destruct (E2 ltac:(assumption)) as [(Et & Es & Ef)|(Et & Es & Ef)]; rewrite Et in T; apply T; auto.
  - rewrite Ef in *. apply (bo_claims _ _ _ _ _ _ HH d); auto.
  - rewrite Ef in *. apply (bo_claims _ _ _ _ _ _ HN d); auto.
Qed.

(** ** Inequalities *)

Section Posting.
Variable d0 : domains.
Variable cv : sum_of var_id.
Variable value : Z.
Hypothesis Hd0 : domains_ok d0.
Hypothesis K : Forall (var_known d0) (map snd cv).

Lemma tidied_below nv s m : (length d0 <= nv)%nat -> tidy_up_linear cv = (s, m) -> below nv (terms s).
Proof.
  intros L E. destruct (tidy_up_spec cv s m E) as (_ & _ & V). apply Forall_forall. intros n I. destruct (V n I) as (v & Iv & U).
  pose proof (proj1 (Forall_forall _ _) K v Iv) as Kv. destruct v as [x|x neg add|c]; simpl in U, Kv; try discriminate; injection U as ->; unfold domains, iset in *; lia.
Qed.

Lemma terms_fixed s m : tidy_up_linear cv = (s, m) -> forall d, domains_ok d -> (length d0 <= length d)%nat -> Forall (fixed d) (map snd cv) -> Forall (fixed d) (term_vars s).
Proof.
  intros E d Hd L F. destruct (tidy_up_spec cv s m E) as (_ & _ & V). pose proof (tidied_below (length d) s m L E) as B. apply Forall_forall. intros w I.
  unfold term_vars in I. apply in_map_iff in I. destruct I as ([c n] & <- & I). cbn [snd]. apply (in_map snd) in I. cbn [snd] in I. destruct (V n I) as (v & Iv & U).
  apply (fixed_underlying d v n Hd); auto.
  - apply (proj1 (Forall_forall _ _) B n I).
  - apply (proj1 (Forall_forall _ _) F v Iv).
Qed.

Lemma term_vars_below nv s : below nv (terms s) -> Forall (var_below nv) (term_vars s).
Proof. intro B. unfold term_vars, below in *. rewrite Forall_map in *. exact B. Qed.

Lemma linear_le_correct r sat : Forall (var_known d0) (reif_scope r) -> reif_sane r -> (forall a, sat a <-> reif_sat r (fun b => weighted_sum cv b <= value) a) ->
  correct_on d0 (reified_linear_le cv value r) (map snd cv ++ reif_scope r) sat.
Proof.
  intros Kr Sr Es. destruct (tidy_up_linear cv) as [s m] eqn:E. destruct (tidy_up_spec cv s m E) as (Ts & Sm & V). destruct (tidy_up_negate cv s m E) as [u En].
  destruct (tidy_up_spec _ _ _ En) as (Tn & Smn & _).
  apply (rescope d0 _ (term_vars s ++ reif_scope r)).
  - apply Forall_app. auto.
  - intros d Hd L F. apply Forall_app in F. destruct F as [F1 F2]. apply Forall_app. split; [|assumption]. now apply (terms_fixed s m).
  - apply (correct_intro _ _ _ (reif_sat r (fun b => lin b (terms s) <= value + m))).
    { intro a. rewrite (Es a). assert (X : weighted_sum cv a <= value <-> lin a (terms s) <= value + m) by (rewrite Sm; lia). destruct r; simpl; tauto. }
    intros nv Inv Ln St In0. unfold reified_linear_le. rewrite E, En. cbn [fst snd]. pose proof (tidied_below nv s m Ln E) as B.
    assert (Bn : below nv (terms (mk_tidied u (negated (terms s))))) by (unfold below; cbn [terms]; now rewrite vars_negated).
    apply known_below_all in Kr. apply (install_dispatcher_implements nv d0) 
      with (alias := aliased (body_propagator (propagate_linear s (value + m) false) [] (term_vars s) []))
           (alias' := aliased (body_propagator (propagate_linear (mk_tidied u (negated (terms s))) (- value + - m - 1) false) [] (term_vars s) [])); auto.
    + now apply (below_more_all (length d0)).
    + now apply inequality_verdict_ok.
    + now apply term_vars_below.
    + tauto.
    + tauto.
    + apply (propagate_linear_ok nv d0 s Ts B _ _ false). auto.
    + rewrite <- (negated_term_vars u s). eapply body_ok_ext; [|apply (propagate_linear_ok nv d0 _ Tn Bn _ _ false); auto]. intros a _. unfold linear_rel. cbn [terms]. rewrite lin_negated. lia.
Qed.

(** ** Equalities *)

Lemma tidied_scope nv s m : (length d0 <= nv)%nat -> tidy_up_linear cv = (s, m) ->
  forall d, domains_ok d -> length d = nv -> Forall (fixed d) (map snd cv) -> Forall (fixed d) (term_vars s).
Proof. intros L E d Hd Ld. apply (terms_fixed s m E d Hd). unfold domains, iset in *. lia. Qed.

Lemma reified_equality_ok nv alias s m r : (length d0 <= nv)%nat -> tidy_up_linear cv = (s, m) -> Forall (var_below (length d0)) (reif_scope r) -> Forall (var_below nv) (reif_scope r) -> reif_sane r ->
  terms s <> [] \/ value + m <= 0 \/ (forall d, test_reif d r <> EMustHold) ->
  body_ok nv d0 alias (propagate_reified_equality s (value + m) r) (map snd cv ++ reif_scope r) (reif_sat r (fun b => lin b (terms s) = value + m)).
Proof.
  intros Ln E Kr0 Kr Sr Nt. destruct (tidy_up_spec cv s m E) as (Ts & _ & _). pose proof (tidied_below nv s m Ln E) as B.
  assert (M : exists must_hold, body_ok nv d0 alias must_hold (map snd cv) (fun b => lin b (terms s) = value + m) /\
    forall d, test_reif d r = EMustHold -> must_hold d = propagate_linear s (value + m) true d).
  { assert (Dec : (terms s <> [] \/ value + m <= 0) \/ terms s = [] /\ value + m > 0) by (destruct (terms s); [destruct (Z_le_gt_dec (value + m) 0); tauto|left; left; discriminate]).
    destruct Dec as [Y|[Y1 Y2]].
    - exists (propagate_linear s (value + m) true). split; [|auto]. apply (body_rescope nv d0 _ _ (term_vars s)); [now apply (tidied_scope nv s m)|]. apply (propagate_linear_ok nv d0 s Ts B _ _ true). tauto.
    - exists (fun d => (tell_false (track d), Enable)). split; [|intros d Q; destruct Nt as [N|[N|N]]; [contradiction|lia|now apply N in Q]].
      constructor; intros d; intros; cbn [fst snd] in *; try discriminate.
      + apply legit_tell; [exact Logic.I|apply legit_track].
      + exfalso. match goal with X : lin _ _ = _ |- _ => rewrite Y1 in X; cbn [lin] in X; lia end. }
  destruct M as (must_hold & HM & EM).
  apply (keeping_claims_ok nv d0 alias must_hold (propagate_not_equals s (value + m)) (equality_verdict s (value + m))); auto.
  - now apply equality_verdict_ok.
  - apply (body_rescope nv d0 _ _ (term_vars s)); [now apply (tidied_scope nv s m)|]. now apply not_equals_ok.
  - intro d. unfold propagate_reified_equality, dispatch. specialize (EM d). destruct (test_reif d r) as [| | |c h n nh].
    + rewrite EM by reflexivity. destruct (propagate_linear s (value + m) true d) as [t st]. cbn [fst snd]. split; [reflexivity|]. split; [auto|]. intros ->. reflexivity.
    + destruct (propagate_not_equals s (value + m) d) as [t st]. cbn [fst snd]. split; [reflexivity|]. split; [auto|]. intros ->. reflexivity.
    + cbn [fst snd]. split; [reflexivity|]. split; [discriminate|reflexivity].
    + destruct (equality_verdict s (value + m) d); cbn [fst snd]; (split; [reflexivity|]); (split; [discriminate|auto]).
Qed.

Lemma fail_initialises nv Inv (sat part : assignment -> Prop) : stable nv Inv -> (forall d cs, Inv d cs -> inside d0 d) -> (forall a, within a d0 -> ~ sat a) ->
  initialises nv Inv (body_initialiser (fun d => tell LFalse (track d))) sat part.
Proof.
  intros St In0 N. apply (body_initialises nv d0); auto.
  - intros d Hd L _. apply legit_tell; [exact Logic.I|apply legit_track].
  - intros d a Hd L I Wa Sa. exfalso. apply (N a); auto.
  - intros d a Hd L I F. discriminate F.
Qed.

Lemma vars_subscribed f ch bo : forall v x, In v (map snd cv) -> underlying v = Some x ->
  subscribes (body_propagator f (map snd cv ++ ch) bo []) x Instantiated /\ subscribes (body_propagator f ch (map snd cv) []) x Instantiated.
Proof.
  intros v x I U. unfold subscribes. simpl. split; [left|right; left]; exists v; rewrite ?in_app_iff; auto.
Qed.

(** Whether an undecided condition can turn into having to enforce the equality. *)
Definition may_enforce (r : reif) : bool := match r with RIf _ | RIff _ => true | _ => false end.

Lemma linear_eq_correct r sat : Forall (var_known d0) (reif_scope r) -> reif_sane r -> workable cv value \/ may_enforce r = false ->
  (forall a, sat a <-> reif_sat r (fun b => weighted_sum cv b = value) a) ->
  correct_on d0 (reified_linear_eq cv value r) (map snd cv ++ reif_scope r) sat.
Proof.
  intros Kr Sr Wk Es. destruct (tidy_up_linear cv) as [s m] eqn:E. destruct (tidy_up_spec cv s m E) as (Ts & Sm & V).
  apply (correct_intro _ _ _ (reif_sat r (fun b => lin b (terms s) = value + m))).
  { intro a. rewrite (Es a). assert (X : weighted_sum cv a = value <-> lin a (terms s) = value + m) by (rewrite Sm; lia). destruct r; simpl; tauto. }
  intros nv Inv Ln St In0. unfold reified_linear_eq. rewrite E. pose proof (tidied_below nv s m Ln E) as B. pose proof (tidied_scope nv s m Ln E) as Sc.
  set (base := fun b => lin b (terms s) = value + m). apply known_below_all in Kr.
  pose proof (below_more_all _ _ _ Ln Kr) as Kr'. assert (Kv : Forall (var_below nv) (map snd cv)) by (apply (below_more_all (length d0)); [assumption|]; now apply known_below_all).
  pose proof (test_reif_spec (length d0) d0 r base Hd0 eq_refl Kr Sr) as T. split; [now apply Forall_app|].
  destruct (test_reif d0 r) as [| | |c h n nh] eqn:Et; cbn [fst snd].
  - destruct (is_nil (terms s) && negb (m =? - value)) eqn:Q.
    + apply andb_prop in Q. destruct Q as [Q1 Q2]. assert (Tn : terms s = []) by (destruct (terms s); [reflexivity|discriminate]).
      assert (No : forall a, within a d0 -> ~ reif_sat r base a). { intros a Wa Sa. apply T in Sa; [|assumption]. unfold base in Sa. rewrite Tn in Sa. cbn [lin] in Sa. lia. }
      exists [fun _ => True], [fun _ => False]. split; [|split].
      * constructor; [|constructor].
        assert (P : propagates nv Inv (body_propagator (propagate_linear s (value + m) true) [] (map snd cv) []) (map snd cv) (linear_rel s (value + m) false)).
        { apply (body_propagates nv d0); auto.
          - intros v x I U. now apply (vars_subscribed _ [] [] v x I U).
          - apply (body_rescope nv d0 _ _ (term_vars s)); [assumption|]. replace (propagate_linear s (value + m) true) with (propagate_linear s (value + m) false) by (unfold propagate_linear; now rewrite Tn).
            apply (propagate_linear_ok nv d0 s Ts B _ _ false). auto. }
        apply supports_redundant; [exact (pr_behaved _ _ _ _ _ P)|]. intros i a U Wa Sa. exfalso. apply (No a); [|assumption]. destruct U as (_ & _ & I). now apply (In0 _ _ I).
      * constructor; [|constructor]. apply fail_initialises; auto.
      * intros a Wa _ F. inversion F. contradiction.
    + exists [reif_sat r base], []. split; [|split; [constructor|]].
      * constructor; [|constructor]. apply (propagates_supports nv Inv _ (map snd cv)); [apply incl_appl, incl_refl|].
        apply (body_propagates nv d0); auto.
        -- intros v x I U. now apply (vars_subscribed _ [] [] v x I U).
        -- apply (body_ok_ext nv d0 _ _ _ base); [intros a Wa; symmetry; now apply T|].
           apply (body_rescope nv d0 _ _ (term_vars s)); [assumption|]. apply (propagate_linear_ok nv d0 s Ts B _ _ true).
           destruct (terms s) eqn:Tn; [right; right|left; congruence]. cbn [is_nil andb] in Q. lia.
      * intros a Wa H _. now inversion H.
  - exists [reif_sat r base].
    assert (P : Forall2 (fun p s0 => supports nv Inv p (map snd cv ++ reif_scope r) (reif_sat r base) s0) [body_propagator (propagate_not_equals s (value + m)) (map snd cv) [] []] [reif_sat r base]).
    { constructor; [|constructor]. apply (propagates_supports nv Inv _ (map snd cv)); [apply incl_appl, incl_refl|].
      apply (body_propagates nv d0); auto.
      - intros v x I U. destruct (vars_subscribed (propagate_not_equals s (value + m)) [] [] v x I U) as [X _]. now rewrite app_nil_r in X.
      - apply (body_ok_ext nv d0 _ _ _ (fun a => ~ base a)); [intros a Wa; symmetry; now apply T|].
        apply (body_rescope nv d0 _ _ (term_vars s)); [assumption|]. now apply not_equals_ok. }
    destruct (is_nil (terms s) && (m =? - value)) eqn:Q.
    + apply andb_prop in Q. destruct Q as [Q1 Q2]. assert (Tn : terms s = []) by (destruct (terms s); [reflexivity|discriminate]).
      exists [fun _ => True]. split; [assumption|]. split; [constructor; [|constructor]; apply fail_initialises; auto|].
      * intros a Wa Sa. apply T in Sa; [|assumption]. apply Sa. unfold base. rewrite Tn. cbn [lin]. lia.
      * intros a Wa H _. now inversion H.
    + exists []. split; [assumption|]. split; [constructor|]. intros a Wa H _. now inversion H.
  - exists [], []. split; [constructor|]. split; [constructor|]. intros a Wa _ _. now apply T.
  - destruct T as (Ec & _). destruct (trigger_for c) as [ch bo] eqn:Tc. cbn [fst snd]. exists [reif_sat r base], []. split; [|split; [constructor|]].
    + constructor; [|constructor]. apply (propagates_supports nv Inv _ (map snd cv ++ reif_scope r)); [apply incl_refl|].
      apply (body_propagates nv d0); auto.
      * now apply Forall_app.
      * intros v x Iv U. apply in_app_or in Iv. destruct Iv as [Iv|Iv]; [now apply (vars_subscribed _ ch bo v x Iv U)|].
        unfold reif_scope in Iv. rewrite Ec in Iv. destruct Iv as [<-|[]]. unfold subscribes. simpl.
        unfold trigger_for in Tc. destruct (c_op c); injection Tc as <- <-;
          try (left; exists (c_var c); rewrite in_app_iff; simpl; tauto); right; left; exists (c_var c); simpl; tauto.
      * apply reified_equality_ok; auto. destruct (terms s) eqn:Tn; [right|left; discriminate]. destruct Wk as [[(a & b & N)|W]|W].
        -- exfalso. apply N. rewrite !Sm. reflexivity.
        -- left. specialize (W (fun _ => 0)). rewrite Sm in W. cbn [lin] in W. lia.
        -- right. intro d. destruct r; try discriminate; cbn [reif_cond test_reif] in *; try discriminate Ec. destruct (test_literal d _); discriminate.
    + intros a Wa H _. now inversion H.
Qed.

End Posting.

(** ** Consistency *)

Section Consistency.
Variable D : domains.
Hypothesis Ok : domains_ok D.

Lemma least_assignment ts a0 : Forall (fun n => (n < length D)%nat) (map snd ts) -> NoDup (map snd ts) -> within a0 D ->
  exists a, within a D /\ lin a ts = least_sum D ts /\ (forall c n, In (c, n) ts -> c * a n = contribution c (look D n)) /\ (forall n, ~ In n (map snd ts) -> a n = a0 n).
Proof.
  intros B ND W0. induction ts as [|[c n] r IH].
  - exists a0. repeat split; auto. contradiction.
  - cbn [map snd] in B, ND. apply Forall_cons_iff in B. destruct B as [Bn B]. apply NoDup_cons_iff in ND. destruct ND as [N ND].
    destruct (IH B ND) as (a & Wa & La & Ca & Oa). destruct (contribution_attained D c n Ok Bn) as (b & Wb & Eb).
    set (a' := fun m => if Nat.eqb m n then b n else a m).
    assert (Same : forall m, m <> n -> a' m = a m) by (intros m Ne; unfold a'; destruct (Nat.eqb_spec m n); [contradiction|reflexivity]).
    assert (At : a' n = b n) by (unfold a'; now rewrite Nat.eqb_refl).
    assert (Lr : forall us, ~ In n (map snd us) -> lin a' us = lin a us).
    { induction us as [|[k m] us IHu]; intro I; [reflexivity|]. cbn [lin]. cbn [map snd] in I. rewrite IHu by (intro X; apply I; now right). rewrite Same; [reflexivity|]. intro X. apply I. now left. }
    exists a'. split; [|split; [|split]].
    + intros m Hm. destruct (Nat.eqb_spec m n) as [->|Ne]; [rewrite At; now apply Wb|rewrite Same by assumption; now apply Wa].
    + cbn [lin]. rewrite At, Lr, La by assumption. rewrite least_sum_cons. lia.
    + intros k m [E|I]; [injection E as <- <-; now rewrite At|]. rewrite Same; [now apply Ca|]. intros ->. apply N. now apply (in_map snd) in I.
    + intros m I. cbn [map snd] in I. rewrite Same; [apply Oa; intro X; apply I; now right|]. intros ->. apply I. now left.
Qed.

Lemma lin_set ts a n x : NoDup (map snd ts) ->
  (forall c, In (c, n) ts -> lin (fun m => if Nat.eqb m n then x else a m) ts = lin a ts - c * a n + c * x) /\
  (~ In n (map snd ts) -> lin (fun m => if Nat.eqb m n then x else a m) ts = lin a ts).
Proof.
  induction ts as [|[k m] r IH]; intro ND; [split; [contradiction|reflexivity]|]. cbn [map snd] in ND |- *. apply NoDup_cons_iff in ND. destruct ND as [N ND]. destruct (IH ND) as [I1 I2]. cbn [lin]. split.
  - intros c [E|I].
    + injection E as <- <-. rewrite Nat.eqb_refl, I2 by assumption. lia.
    + rewrite (I1 c I). destruct (Nat.eqb_spec m n) as [->|_]; [exfalso; apply N; now apply (in_map snd) in I|lia].
  - intro I. rewrite I2 by (intro X; apply I; now right). destruct (Nat.eqb_spec m n) as [->|_]; [exfalso; apply I; now left|reflexivity].
Qed.

(** Where a sweep has nothing to do, every value is part of an assignment that
    keeps the sum small. *)
Lemma settled_extends ts value n b : Forall (fun n => (n < length D)%nat) (map snd ts) -> NoDup (map snd ts) -> least_sum D ts <= value -> settled D ts value -> within b D ->
  exists a, within a D /\ a n = b n /\ lin a ts <= value.
Proof.
  intros B ND Le R Wb. destruct (least_assignment ts b B ND Wb) as (a & Wa & La & Ca & _).
  exists (fun m => if Nat.eqb m n then b n else a m). rewrite Nat.eqb_refl. split; [|split; [reflexivity|]].
  - intros m Hm. destruct (Nat.eqb_spec m n) as [->|_]; [now apply Wb|now apply Wa].
  - destruct (lin_set ts a n (b n) ND) as [S1 S2]. destruct (in_dec Nat.eq_dec n (map snd ts)) as [I|I]; [|rewrite S2, La by assumption; exact Le].
    apply in_map_iff in I. destruct I as ([c n'] & E & I). cbn [snd] in E. subst n'. rewrite (S1 c I), La, (Ca c n I).
    specialize (R b Wb). unfold swept in R. pose proof (proj1 (Forall_forall _ _) R _ I) as X. cbn [fst snd] in X. lia.
Qed.

Lemma settled_consistent vs ts value (sat : assignment -> Prop) : Forall (fun n => (n < length D)%nat) (map snd ts) -> NoDup (map snd ts) -> least_sum D ts <= value -> settled D ts value ->
  (forall a, lin a ts <= value -> sat a) -> domain_consistent D vs sat.
Proof.
  intros B ND Le R S v x _ (b & Wb & Ex). destruct v as [n|n neg add|c].
  - destruct (settled_extends ts value n b B ND Le R Wb) as (a & Wa & E & L). exists a. split; [assumption|]. split; [cbn [var_value] in *; congruence|auto].
  - destruct (settled_extends ts value n b B ND Le R Wb) as (a & Wa & E & L). exists a. split; [assumption|]. split; [cbn [var_value] in *; rewrite E; assumption|auto].
  - destruct (settled_extends ts value 0%nat b B ND Le R Wb) as (a & Wa & E & L). exists a. split; [assumption|]. split; [exact Ex|auto].
Qed.

End Consistency.

(** After a run of the propagator. *)
Lemma linear_outcome nv Inv s value equality oc ob oi d : let p := body_propagator (propagate_linear s value equality) oc ob oi in
  tidy s -> below nv (terms s) -> terms s <> [] -> outcome nv Inv p d ->
  domains_ok d /\ length d = nv /\ at_fixpoint s value equality d /\ rerun_is_quiet p d.
Proof.
  intros p Ts B N (i & evs & (Hd & L & HI) & A). destruct (body_run_out (propagate_linear s value equality) i) as (E & _).
  pose proof (propagate_linear_spec nv (i_domains i) Hd L s value equality Ts B N) as Sp.
  simpl in A. rewrite E in A. destruct (propagate_linear s value equality (i_domains i)) as [t st]. cbn [fst] in *. destruct Sp as (G & _ & R & _).
  destruct (lg_apply _ _ _ G) as [ev A']. rewrite A' in A. injection A as <- <- F. destruct (R F) as [_ R'].
  pose proof (legit_ok _ _ Hd L _ G F) as Ok. pose proof (legit_length _ _ Hd L _ G) as Ln.
  split; [assumption|]. split; [assumption|]. split; [assumption|].
  intros j Ej. simpl. destruct (body_run_out (propagate_linear s value equality) j) as (E' & _). rewrite E', Ej.
  set (D := t_domains t) in *. pose proof (propagate_linear_again nv D Ok Ln s value equality Ts B N R') as Ag. pose proof (propagate_linear_spec nv D Ok Ln s value equality Ts B N) as Sp2.
  destruct (propagate_linear s value equality D) as [t2 st2]. cbn [fst]. destruct Ag as [F2 D2]. destruct Sp2 as (G2 & _).
  destruct (lg_apply _ _ _ G2) as [ev2 A2]. rewrite F2, D2 in A2. rewrite A2.
  assert (K : Forall (lit_known D) (rev (t_lits t2))) by (apply Forall_rev; apply (lits_known nv); auto; apply G2).
  pose proof (apply_lits_size _ _ _ _ _ Ok K A2 eq_refl). destruct ev2; [reflexivity|simpl in *; lia].
Qed.

(** With no terms the run changes nothing. *)
Lemma empty_outcome nv Inv s value equality oc ob oi d : let p := body_propagator (propagate_linear s value equality) oc ob oi in
  terms s = [] -> outcome nv Inv p d -> domains_ok d /\ length d = nv /\ 0 <= value /\ rerun_is_quiet p d.
Proof.
  intros p N (i & evs & (Hd & L & HI) & A). destruct (body_run_out (propagate_linear s value equality) i) as (E & _). simpl in A. rewrite E in A.
  assert (Q : forall d, propagate_linear s value equality d = (if 0 <=? value then track d else tell_false (track d), DisableUntilBacktrack)) by (intro; unfold propagate_linear; now rewrite N).
  rewrite Q in A. cbn [fst] in A. destruct (Z.leb_spec 0 value) as [H|H]; [|discriminate A]. simpl in A. injection A as <- <-. split; [assumption|]. split; [assumption|]. split; [assumption|].
  intros j Ej. simpl. destruct (body_run_out (propagate_linear s value equality) j) as (E' & _). rewrite E', Q, Ej. cbn [fst]. destruct (Z.leb_spec 0 value); [reflexivity|lia].
Qed.

Lemma linear_le_consistent (d0 : domains) cv value Inv p d : Forall (var_known d0) (map snd cv) -> In p (fst (linear_le cv value d0)) -> outcome (length d0) Inv p d ->
  domain_consistent d (map snd cv) (fun a => weighted_sum cv a <= value) /\ rerun_is_quiet p d.
Proof.
  intros K I O. unfold linear_le, reified_linear_le in I. destruct (tidy_up_linear cv) as [s m] eqn:E. destruct (tidy_up_linear (negate_terms cv)) as [ns nm]. cbn in I. destruct I as [<-|[]].
  destruct (tidy_up_spec cv s m E) as (Ts & Sm & _). pose proof (tidied_below d0 cv K (length d0) s m ltac:(lia) E) as B.
  assert (Dec : terms s = [] \/ terms s <> []) by (destruct (terms s); [now left|right; discriminate]). destruct Dec as [Et|N].
  - destruct (empty_outcome _ _ _ _ _ _ _ _ _ Et O) as (Ok & L & H & Q). split; [|assumption]. intros v x _ (a & Wa & Ex). exists a. split; [assumption|]. split; [assumption|]. rewrite Sm, Et. cbn [lin]. lia.
  - destruct (linear_outcome (length d0) Inv s _ false _ _ _ d Ts B N O) as (Ok & L & [R _] & Q). split; [|assumption].
    pose proof (below_length (length d0) d (terms s) L B) as B'. apply (settled_consistent d Ok _ (terms s) (value + m)); auto.
    + now apply Ts.
    + now apply settled_least.
    + intros a H. rewrite Sm. lia.
Qed.

Lemma linear_eq_consistent (d0 : domains) cv value Inv p d : Forall (var_known d0) (map snd cv) -> workable cv value -> In p (fst (linear_eq cv value d0)) -> outcome (length d0) Inv p d ->
  sum_consistent d cv value /\ rerun_is_quiet p d.
Proof.
  intros K Wk I O. unfold linear_eq, reified_linear_eq in I. destruct (tidy_up_linear cv) as [s m] eqn:E. cbn in I. destruct I as [<-|[]].
  destruct (tidy_up_spec cv s m E) as (Ts & Sm & _). pose proof (tidied_below d0 cv K (length d0) s m ltac:(lia) E) as B.
  assert (Dec : terms s = [] \/ terms s <> []) by (destruct (terms s); [now left|right; discriminate]). destruct Dec as [Et|N].
  - destruct (empty_outcome _ _ _ _ _ _ _ _ _ Et O) as (Ok & L & H & Q). split; [|assumption].
    assert (C : forall a, weighted_sum cv a = value).
    { intro a. destruct Wk as [(a' & b' & Ne)|W]; [exfalso; apply Ne; now rewrite !Sm, Et|]. specialize (W a). rewrite Sm, Et in *. cbn [lin] in *. lia. }
    split; intros v x _ (a & Wa & Ex); exists a; (split; [assumption|]); (split; [assumption|]); rewrite C; lia.
  - destruct (linear_outcome (length d0) Inv s _ true _ _ _ d Ts B N O) as (Ok & L & [R R'] & Q). split; [|assumption].
    pose proof (below_length (length d0) d (terms s) L B) as B'. split.
    + apply (settled_consistent d Ok _ (terms s) (value + m)); auto.
      * now apply Ts.
      * now apply settled_least.
      * intros a H. rewrite Sm. lia.
    + assert (B2 : Forall (fun n => (n < length d)%nat) (map snd (negated (terms s)))) by now rewrite vars_negated.
      apply (settled_consistent d Ok _ (negated (terms s)) (- (value + m))); auto.
      * rewrite vars_negated. now apply Ts.
      * apply settled_least; auto. now apply negated_nil.
      * intros a H. rewrite lin_negated in H. rewrite Sm. lia.
Qed.

(** ** The constructors *)

Lemma linear_inequalities d0 s value : domains_ok d0 -> Forall (var_known d0) (map snd s) ->
  correct_on d0 (linear_le s value) (map snd s) (fun a => weighted_sum s a <= value) /\
  correct_on d0 (linear_ge s value) (map snd s) (fun a => weighted_sum s a >= value).
Proof.
  intros Hd K. assert (Vn : map snd (negate_terms s) = map snd s) by (unfold negate_terms; rewrite map_map; apply map_ext; now intros [? ?]).
  split.
  - rewrite <- (app_nil_r (map snd s)). apply (linear_le_correct d0 s value Hd K RMustHold); [constructor|exact Logic.I|intro a; reflexivity].
  - rewrite <- Vn, <- (app_nil_r (map snd (negate_terms s))). apply (linear_le_correct d0 (negate_terms s) (- value) Hd) with (r := RMustHold); [now rewrite Vn|constructor|exact Logic.I|].
    intro a. cbn [reif_sat]. rewrite sum_negate. lia.
Qed.

Lemma linear_reified_inequalities d0 s value c : domains_ok d0 -> Forall (var_known d0) (map snd s ++ [c_var c]) -> cond_sane c ->
  correct_on d0 (linear_le_if s value c) (map snd s ++ [c_var c]) (fun a => cond_holds a c -> weighted_sum s a <= value) /\
  correct_on d0 (linear_le_iff s value c) (map snd s ++ [c_var c]) (fun a => cond_holds a c <-> weighted_sum s a <= value) /\
  correct_on d0 (linear_ge_if s value c) (map snd s ++ [c_var c]) (fun a => cond_holds a c -> weighted_sum s a >= value) /\
  correct_on d0 (linear_ge_iff s value c) (map snd s ++ [c_var c]) (fun a => cond_holds a c <-> weighted_sum s a >= value).
Proof.
  intros Hd K Sc. apply Forall_app in K. destruct K as [K Kc]. assert (Vn : map snd (negate_terms s) = map snd s) by (unfold negate_terms; rewrite map_map; apply map_ext; now intros [? ?]).
  assert (Kn : Forall (var_known d0) (map snd (negate_terms s))) by now rewrite Vn.
  assert (Ng : forall a, weighted_sum (negate_terms s) a <= - value <-> weighted_sum s a >= value) by (intro a; rewrite sum_negate; lia).
  split; [|split; [|split]].
  - apply (linear_le_correct d0 s value Hd K (RIf c)); auto. intro a. reflexivity.
  - apply (linear_le_correct d0 s value Hd K (RIff c)); auto. intro a. reflexivity.
  - rewrite <- Vn. apply (linear_le_correct d0 (negate_terms s) (- value) Hd Kn (RIf c)); auto. intro a. cbn [reif_sat]. rewrite Ng. tauto.
  - rewrite <- Vn. apply (linear_le_correct d0 (negate_terms s) (- value) Hd Kn (RIff c)); auto. intro a. cbn [reif_sat]. rewrite Ng. tauto.
Qed.

Lemma linear_equalities d0 s value : domains_ok d0 -> Forall (var_known d0) (map snd s) ->
  correct_on d0 (linear_eq s value) (map snd s) (fun a => weighted_sum s a = value) /\
  correct_on d0 (linear_ne s value) (map snd s) (fun a => weighted_sum s a <> value).
Proof.
  intros Hd K. split; rewrite <- (app_nil_r (map snd s)).
  - apply (linear_eq_correct d0 s value Hd K RMustHold); [constructor|exact Logic.I|now right|intro a; reflexivity].
  - apply (linear_eq_correct d0 s value Hd K RMustNotHold); [constructor|exact Logic.I|now right|intro a; reflexivity].
Qed.

Lemma linear_reified_equalities d0 s value c : domains_ok d0 -> Forall (var_known d0) (map snd s ++ [c_var c]) -> cond_sane c ->
  correct_on d0 (linear_ne_if s value (LCond c)) (map snd s ++ [c_var c]) (fun a => cond_holds a c -> weighted_sum s a <> value) /\
  (workable s value ->
   correct_on d0 (linear_eq_if s value (LCond c)) (map snd s ++ [c_var c]) (fun a => cond_holds a c -> weighted_sum s a = value) /\
   correct_on d0 (linear_eq_iff s value (LCond c)) (map snd s ++ [c_var c]) (fun a => cond_holds a c <-> weighted_sum s a = value) /\
   correct_on d0 (linear_ne_iff s value (LCond c)) (map snd s ++ [c_var c]) (fun a => cond_holds a c <-> weighted_sum s a <> value)).
Proof.
  intros Hd K Sc. apply Forall_app in K. destruct K as [K Kc].
  split; [apply (linear_eq_correct d0 s value Hd K (RNotIf c)); auto; intro a; reflexivity|]. intro Wk. split; [|split].
  - apply (linear_eq_correct d0 s value Hd K (RIf c)); auto. intro a. reflexivity.
  - apply (linear_eq_correct d0 s value Hd K (RIff c)); auto. intro a. reflexivity.
  - assert (Ev : c_var (cond_not c) = c_var c) by (destruct c as [v op x y]; destruct op; reflexivity). rewrite <- Ev. apply (linear_eq_correct d0 s value Hd K (RIff (cond_not c))); auto.
    + unfold reif_scope. cbn [reif_cond]. now rewrite Ev.
    + unfold reif_sane. cbn [reif_cond]. clear - Sc. destruct c as [v op x y]; destruct op; exact Sc.
    + intro a. cbn [reif_sat]. rewrite cond_not_holds. destruct (cond_holds_dec a c), (Z.eq_dec (weighted_sum s a) value); tauto.
Qed.

(** Constant conditions, in the forms that handle them. *)
Lemma linear_constant_conditions d0 s value : domains_ok d0 -> Forall (var_known d0) (map snd s) -> forall l, l = LTrue \/ l = LFalse ->
  correct_on d0 (linear_eq_iff s value l) (map snd s) (fun a => lit_holds a l <-> weighted_sum s a = value) /\
  correct_on d0 (linear_ne_iff s value l) (map snd s) (fun a => lit_holds a l <-> weighted_sum s a <> value) /\
  correct_on d0 (linear_eq_if s value LTrue) (map snd s) (fun a => weighted_sum s a = value).
Proof.
  intros Hd K l El. destruct (linear_equalities d0 s value Hd K) as [E N]. split; [|split; [|exact E]]; destruct El as [->| ->].
  - refine (correct_ext _ _ _ _ _ _ E). intro a. cbn [lit_holds]. tauto.
  - refine (correct_ext _ _ _ _ _ _ N). intro a. cbn [lit_holds]. tauto.
  - refine (correct_ext _ _ _ _ _ _ N). intro a. cbn [lit_holds]. tauto.
  - refine (correct_ext _ _ _ _ _ _ E). intro a. cbn [lit_holds]. destruct (Z.eq_dec (weighted_sum s a) value); tauto.
Qed.

Lemma tidied_sum s : let '(r, m) := tidy_up_linear s in NoDup (map snd (terms r)) /\ Forall (fun t => fst t <> 0) (terms r) /\
  forall a, weighted_sum s a = weighted_sum (map (fun t => (fst t, VSimple (snd t))) (terms r)) a - m.
Proof.
  destruct (tidy_up_linear s) as [r m] eqn:E. destruct (tidy_up_spec s r m E) as (T & S & _). split; [apply T|]. split; [apply T|].
  intro a. rewrite S. f_equal. unfold weighted_sum. clear. induction (terms r) as [|[c n] l IH]; [reflexivity|]. cbn [map sum_worth lin]. rewrite IH. unfold term_worth. reflexivity.
Qed.
