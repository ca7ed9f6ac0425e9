(** Lemmas about negative tables. *)
From Coq Require Import ZArith List Bool Arith Lia.
From Verif Require Import IntervalSet IntervalSetSpec IntervalSetProofs Vars VarsSpec VarsProofs State StateSpec StateProofs Epochs
  Engine EngineSpec EngineProofs Session SessionSpec SessionInvProofs Tracker ContractSpec ContractProofs WatchSpec NegativeTable TableSpec.
Import ListNotations.
Local Open Scope Z_scope.

Section NegativeTable.
Variable nv : nat.
Variable vars : list var_id.
Hypothesis Known : Forall (var_below nv) vars.

Lemma matches_holds a v e : lit_holds a (matches v e) <-> match e with None => True | Some x => var_value a v = x end.
Proof. destruct e; simpl; [unfold cond_holds; simpl|]; tauto. Qed.

Lemma differs_holds a v e : lit_holds a (differs v e) <-> ~ lit_holds a (matches v e).
Proof. destruct e; simpl; [unfold cond_holds; simpl|]; tauto. Qed.

Lemma agrees_positions a t : length t = length vars ->
  (agrees a vars t <-> forall p, (p < length vars)%nat -> lit_holds a (position_matches vars t p)).
Proof.
  unfold agrees, position_matches. clear Known. revert t. induction vars as [|v r IH]; intros [|e t] L; try discriminate; simpl in *.
  - split; [intros _ p Hp; lia|constructor].
  - injection L as L. rewrite <- (IH t L) || idtac. split.
    + intros F p Hp. inversion F; subst. destruct p; [now apply matches_holds|]. apply IH; auto. lia.
    + intro H. constructor; [apply matches_holds; apply (H 0%nat); lia|]. apply IH; auto. intros p Hp. apply (H (S p)). lia.
Qed.

Lemma nth_var_below p : var_below nv (nth p vars (VConst 0)).
Proof.
  destruct (lt_dec p (length vars)).
  - rewrite Forall_forall in Known. apply Known. now apply nth_In.
  - rewrite nth_overflow by lia. exact Logic.I.
Qed.

Lemma position_below t p : lit_below nv (position_matches vars t p) /\ lit_below nv (position_differs vars t p).
Proof. unfold position_matches, position_differs. pose proof (nth_var_below p) as B. destruct (nth p t None); simpl; split; auto; exact Logic.I. Qed.

Lemma position_sane t p : lit_sane (position_matches vars t p).
Proof. unfold position_matches. destruct (nth p t None); exact Logic.I. Qed.

Section Domains.
Variable d : domains.
Hypothesis Hd : domains_ok d.
Hypothesis L : length d = nv.

Lemma broken_spec t p : is_broken d vars t p = true <-> forall a, within a d -> lit_holds a (position_matches vars t p).
Proof.
  unfold is_broken. destruct (test_exact d (position_matches vars t p) Hd) as [T _].
  - apply (lit_below_known nv); [assumption|]. apply position_below.
  - apply position_sane.
  - destruct (test_literal d _); rewrite <- T; intuition congruence.
Qed.

Lemma unbroken_unmet t p : is_broken d vars t p = false -> unmet d (position_matches vars t p).
Proof.
  intro B. unfold is_broken in B. set (l := position_matches vars t p) in *.
  assert (Kl : lit_known d l) by (apply (lit_below_known nv); [assumption|]; apply position_below).
  destruct (test_exact d l Hd Kl (position_sane t p)) as [T F].
  unfold l, position_matches, unmet in *. destruct (nth p t None) as [x|]; [|simpl in B; discriminate]. simpl in *.
  set (v := nth p vars (VConst 0)) in *. clearbody v.
  (* infer the negation: if that contradicts, the literal is certain *)
  destruct (infer d (LCond (cond_ne v x))) as [k d'] eqn:I.
  destruct (infer_exact d (LCond (cond_ne v x)) k d' Hd Kl I) as (C & N & _).
  assert (k = Contradiction \/ k <> Contradiction) as [Ck|Nk] by (destruct k; auto; right; discriminate).
  - exfalso. assert (X : test_literal d (LCond (cond_eq v x)) = DefinitelyTrue); [|simpl in X; rewrite X in B; discriminate].
    apply T. intros a Wa. pose proof (proj1 C Ck a Wa) as M. simpl in M. unfold cond_holds in *. simpl in *. lia.
  - destruct (N Nk) as [Hd' W]. destruct (within_exists d' Hd') as [a Wa]. apply W in Wa. exists a. exact Wa.
Qed.

Lemma found t skip p : find_unbroken d vars t skip = Some p -> (p < length vars)%nat /\ is_broken d vars t p = false.
Proof.
  clear L Hd Known. intro F. apply find_some in F. destruct F as [I E]. apply in_seq in I. apply andb_true_iff in E. destruct E as [_ E].
  split; [lia|]. now apply negb_true_iff in E.
Qed.

Lemma find_none t skip : find_unbroken d vars t skip = None -> forall p, (p < length vars)%nat -> skip <> Some p ->
  forall a, within a d -> lit_holds a (position_matches vars t p).
Proof.
  intros F p Hp Sk. apply broken_spec. pose proof (find_none _ _ F p) as H. rewrite in_seq in H. specialize (H (conj (Nat.le_0_l _) Hp)).
  apply andb_false_iff in H. destruct H as [H|H]; apply negb_false_iff in H; [|assumption].
  destruct skip as [s|]; [|discriminate]. apply Nat.eqb_eq in H. congruence.
Qed.

(** What is inferred when at most one position is left. *)
Lemma none_left t a : length t = length vars -> find_unbroken d vars t None = None -> within a d -> agrees a vars t.
Proof. intros Lt F Wa. apply agrees_positions; [assumption|]. intros p Hp. eapply find_none; eauto. discriminate. Qed.

Lemma one_left t w a : length t = length vars -> find_unbroken d vars t (Some w) = None -> within a d ->
  ~ agrees a vars t -> lit_holds a (position_differs vars t w).
Proof.
  intros Lt F Wa N. unfold position_differs. apply differs_holds. intro M. apply N. apply agrees_positions; [assumption|]. intros p Hp.
  destruct (Nat.eq_dec p w) as [->|Npw]; [exact M|]. eapply find_none; eauto. congruence.
Qed.

End Domains.

Variable tuples : list tuple.
Hypothesis Sized : Forall (fun t => length t = length vars) tuples.

(** No tuple is agreed with. *)
Definition allowed (a : assignment) : Prop := Forall (fun t => ~ agrees a vars t) tuples.

(** What a run on [d] has done so far is right. *)
Definition fine (d : domains) (s : progress_of) : Prop :=
  legit nv d (fst s) /\
  (forall a, within a d -> allowed a -> keeps a (fst s)) /\
  (forall l payload, In (ReqWatch l payload) (snd s) -> lit_below nv l /\ lit_sane l /\ unmet d l).

Section Run.
Variable d : domains.
Hypothesis Hd : domains_ok d.
Hypothesis L : length d = nv.

Lemma fine_keep_all s a : fine d s -> t_failed (fst s) = false -> within a (t_domains (fst s)) -> within a d.
Proof. intros (G & _) F Wa. now apply (legit_inside nv d Hd L (fst s) G F). Qed.

Lemma fine_contradiction tr ed t : In t tuples -> fine d (tr, ed) -> t_failed tr = false -> find_unbroken (t_domains tr) vars t None = None ->
  fine d (tell_false tr, ed).
Proof.
  intros It (G & K & E) F N. simpl in *. split; [|split]; simpl; auto.
  - apply legit_tell; [exact Logic.I|assumption].
  - intros a Wa Sa. apply keeps_tell; [auto|]. intros _. exfalso. rewrite Forall_forall in Sized.
    pose proof (proj1 (Forall_forall _ _) Sa) as Sb. apply (Sb t It). apply (none_left (t_domains tr)); auto.
    + now apply (legit_ok nv d).
    + now apply (legit_length nv d).
    + apply (keeps_alive nv d Hd L tr a G Wa (K a Wa Sa)).
Qed.

Lemma fine_unit tr ed t w : In t tuples -> fine d (tr, ed) -> t_failed tr = false -> find_unbroken (t_domains tr) vars t (Some w) = None ->
  fine d (tell (position_differs vars t w) tr, ed).
Proof.
  intros It (G & K & E) F N. simpl in *. split; [|split]; simpl; auto.
  - apply legit_tell; [apply position_below|assumption].
  - intros a Wa Sa. apply keeps_tell; [auto|]. intros _. rewrite Forall_forall in Sized.
    pose proof (proj1 (Forall_forall _ _) Sa) as Sb. apply (one_left (t_domains tr)); auto.
    + now apply (legit_ok nv d).
    + now apply (legit_length nv d).
    + apply (keeps_alive nv d Hd L tr a G Wa). now apply K.
Qed.

Lemma fine_watch tr ed t p ti : fine d (tr, ed) -> t_failed tr = false -> is_broken (t_domains tr) vars t p = false ->
  forall l payload, In (ReqWatch l payload) [ReqWatch (position_matches vars t p) ti] -> lit_below nv l /\ lit_sane l /\ unmet d l.
Proof.
  intros Fi F B l payload [[= <- <-]|[]]. split; [apply position_below|]. split; [apply position_sane|].
  destruct (unbroken_unmet (t_domains tr)) with (t := t) (p := p) as (a & Wa & Na); auto.
  - destruct Fi as [G _]. now apply (legit_ok nv d).
  - destruct Fi as [G _]. now apply (legit_length nv d).
  - exists a. split; [|assumption]. exact (fine_keep_all (tr, ed) a Fi F Wa).
Qed.

Lemma fine_edit tr ed more : fine d (tr, ed) -> (forall l payload, In (ReqWatch l payload) more -> lit_below nv l /\ lit_sane l /\ unmet d l) ->
  fine d (tr, ed ++ more).
Proof.
  intros (G & K & E) M. split; [|split]; simpl in *; auto. intros l payload I. apply in_app_or in I. destruct I; eauto.
Qed.

(** Arming watches before an inference is recorded makes no difference. *)
Lemma fine_swap tr tr' ed ed' : fine d (tr, ed) -> fine d (tr', ed') -> fine d (tr', ed).
Proof. intros (_ & _ & E) (G & K & _). split; [|split]; assumption. Qed.

Lemma arm_fine ti s : fine d s -> fine d (arm_tuple vars tuples ti s).
Proof.
  destruct s as [tr ed]. intro Fi. unfold arm_tuple. destruct (t_failed tr) eqn:F; [assumption|].
  destruct (nth_error tuples ti) as [t|] eqn:Et; [|assumption]. apply nth_error_In in Et.
  destruct (find_unbroken (t_domains tr) vars t None) as [w1|] eqn:F1; [|now apply (fine_contradiction tr ed t)].
  assert (B1 : is_broken (t_domains tr) vars t w1 = false) by (eapply found; eauto).
  pose proof (fine_watch tr ed t w1 ti Fi F B1) as M1.
  destruct (find_unbroken (t_domains tr) vars t (Some w1)) as [w2|] eqn:F2.
  - assert (B2 : is_broken (t_domains tr) vars t w2 = false) by (eapply found; eauto). pose proof (fine_watch tr ed t w2 ti Fi F B2) as M2.
    apply fine_edit; [assumption|]. intros l pl [I|[I|[I|[]]]]; [apply (M1 l pl); now left|apply (M2 l pl); now left|discriminate].
  - apply (fine_swap tr _ _ ed).
    + apply fine_edit; [assumption|]. intros l pl [I|[I|[]]]; [apply (M1 l pl); now left|discriminate].
    + now apply fine_unit.
Qed.

Lemma visit_fine scratch ti s : fine d s -> fine d (visit_tuple vars tuples scratch ti s).
Proof.
  destruct s as [tr ed]. intro Fi. unfold visit_tuple. destruct (t_failed tr) eqn:F; [assumption|].
  destruct (nth_error tuples ti) as [t|] eqn:Et; [|assumption]. apply nth_error_In in Et. cbv zeta.
  destruct (unpack (nth ti scratch 0)) as [p q].
  destruct (is_broken (t_domains tr) vars t p), (is_broken (t_domains tr) vars t q); [| | |assumption].
  - destruct (find_unbroken (t_domains tr) vars t None) as [w1|] eqn:F1; [|now apply (fine_contradiction tr ed t)].
    assert (B1 : is_broken (t_domains tr) vars t w1 = false) by (eapply found; eauto). pose proof (fine_watch tr ed t w1 ti Fi F B1) as M1.
    destruct (find_unbroken (t_domains tr) vars t (Some w1)) as [w2|] eqn:F2; [|now apply fine_unit].
    assert (B2 : is_broken (t_domains tr) vars t w2 = false) by (eapply found; eauto). pose proof (fine_watch tr ed t w2 ti Fi F B2) as M2.
    apply fine_edit; [assumption|]. intros l pl [I|[I|[I|[]]]]; [apply (M1 l pl); now left|apply (M2 l pl); now left|discriminate].
  - destruct (find_unbroken (t_domains tr) vars t (Some q)) as [w1|] eqn:F1; [|now apply fine_unit].
    assert (B1 : is_broken (t_domains tr) vars t w1 = false) by (eapply found; eauto). pose proof (fine_watch tr ed t w1 ti Fi F B1) as M1.
    apply fine_edit; [assumption|]. intros l pl [I|[I|[]]]; [apply (M1 l pl); now left|discriminate].
  - destruct (find_unbroken (t_domains tr) vars t (Some p)) as [w1|] eqn:F1; [|now apply fine_unit].
    assert (B1 : is_broken (t_domains tr) vars t w1 = false) by (eapply found; eauto). pose proof (fine_watch tr ed t w1 ti Fi F B1) as M1.
    apply fine_edit; [assumption|]. intros l pl [I|[I|[]]]; [apply (M1 l pl); now left|discriminate].
Qed.

Lemma fine_start : fine d (track d, []).
Proof. split; [apply legit_track|]. split; [intros; apply keeps_track|]. intros l payload []. Qed.

Lemma fold_fine (f : nat -> progress_of -> progress_of) : (forall ti s, fine d s -> fine d (f ti s)) ->
  forall tis s, fine d s -> fine d (fold_left (fun s ti => f ti s) tis s).
Proof. intros H. induction tis as [|ti r IH]; intros s Fs; simpl; auto. Qed.

Lemma detect_fine t tr : In t tuples -> legit nv d tr -> (forall a, within a d -> allowed a -> keeps a tr) ->
  legit nv d (detect_tuple vars t tr) /\ (forall a, within a d -> allowed a -> keeps a (detect_tuple vars t tr)).
Proof.
  intros It G K. assert (Fi : fine d (tr, [])) by (split; [assumption|]; split; [assumption|]; intros l pl []).
  unfold detect_tuple. destruct (t_failed tr) eqn:F; [auto|].
  destruct (find_unbroken (t_domains tr) vars t None) as [w1|] eqn:F1.
  - destruct (find_unbroken (t_domains tr) vars t (Some w1)) as [w2|] eqn:F2; [auto|].
    destruct (fine_unit tr [] t w1 It Fi F F2) as (A & B & _). auto.
  - destruct (fine_contradiction tr [] t It Fi F F1) as (A & B & _). auto.
Qed.

End Run.

Definition table_propagator : propagator := mk_propagator (propagate_negative_table vars tuples) [] [] [] vars [].

Lemma run_fine i : domains_ok (i_domains i) -> length (i_domains i) = nv -> exists s, fine (i_domains i) s /\
  o_infer (p_run table_propagator i) = rev (t_lits (fst s)) /\ o_edits (p_run table_propagator i) = snd s /\
  o_cstates (p_run table_propagator i) = i_cstates i /\ o_result (p_run table_propagator i) = Enable.
Proof.
  intros Hd L. simpl. unfold propagate_negative_table. destruct (i_fired i) as [|x r].
  - pose proof (fold_fine (i_domains i) (arm_tuple vars tuples)
      (fun ti s => arm_fine (i_domains i) Hd L ti s) (seq (Z.to_nat (nth 0 (i_memo i) 0)) (length tuples - Z.to_nat (nth 0 (i_memo i) 0))) _ (fine_start (i_domains i))) as H.
    cbv zeta. destruct (fold_left _ _ _) as [tr ed]. exists (tr, ed). auto.
  - pose proof (fold_fine (i_domains i) (visit_tuple vars tuples (i_scratch i))
      (fun ti s => visit_fine (i_domains i) Hd L (i_scratch i) ti s) (sort_unique (x :: r)) _ (fine_start (i_domains i))) as H.
    destruct (fold_left _ _ _) as [tr ed]. exists (tr, ed). auto.
Qed.

Lemma table_behaved Inv : stable nv Inv -> well_behaved nv Inv table_propagator.
Proof.
  intro St. constructor.
  - intros i (Hd & L & I). destruct (run_fine i Hd L) as (s & (G & _) & -> & _). apply Forall_rev. apply (lits_known nv); auto. apply G.
  - intros i d evs (Hd & L & I) A. destruct (run_fine i Hd L) as (s & (G & _) & E & _ & C & _). rewrite C. rewrite E in A.
    apply (stable_lits nv Inv _ (rev (t_lits (fst s))) (i_domains i) d evs St Hd L); auto.
    apply Forall_rev. apply (lits_known nv); auto. apply G.
Qed.

Lemma table_sound Inv : sound_for nv Inv allowed table_propagator.
Proof.
  intros i a (Hd & L & I) Wa Sa. destruct (run_fine i Hd L) as (s & (_ & K & _) & -> & _). apply Forall_rev. now apply K.
Qed.

Lemma table_arms Inv : arms_unmet nv Inv table_propagator.
Proof.
  split; [reflexivity|]. intros i l payload (Hd & L & I) Il. destruct (run_fine i Hd L) as (s & (_ & _ & E) & _ & Ed & _).
  rewrite Ed in Il. eauto.
Qed.

Lemma detect_initialises d0 Inv : stable nv Inv -> (forall d cs, Inv d cs -> inside d0 d) ->
  initialises nv Inv (body_initialiser (detect_root vars tuples)) allowed (fun _ => True).
Proof.
  intros St In0.
  assert (H : forall d, domains_ok d -> length d = nv -> legit nv d (detect_root vars tuples d) /\
    (forall a, within a d -> allowed a -> keeps a (detect_root vars tuples d))).
  { intros d Hd L. unfold detect_root. apply (for_each_ind (fun t => legit nv d t /\ (forall a, within a d -> allowed a -> keeps a t))).
    - intros t tr It [G K]. now apply detect_fine.
    - split; [apply legit_track|]. intros. apply keeps_track. }
  apply (body_initialises nv d0); auto; intros; now apply H.
Qed.

End NegativeTable.
