(** Lemmas about nogoods. *)
From Coq Require Import ZArith List Bool Arith Lia.
From Verif Require Import IntervalSet IntervalSetSpec IntervalSetProofs Vars VarsSpec VarsProofs State StateSpec StateProofs Epochs
  Engine EngineSpec EngineProofs Session SessionSpec SessionInvProofs Tracker ContractSpec ContractProofs WatchSpec NegativeTable Search SearchSpec SearchProofs Nogoods.
Import ListNotations.
Local Open Scope Z_scope.

Lemma lit_holds_dec a l : {lit_holds a l} + {~ lit_holds a l}.
Proof. destruct l; simpl; [apply cond_holds_dec|now left|right; tauto]. Qed.

Section Nogoods.
Variable nv : nat.
Variable ns : list clause.
Hypothesis Known : Forall (Forall (lit_below nv)) ns.
Hypothesis Sane : Forall (Forall lit_sane) ns.

(** No nogood has all its literals hold. *)
Definition spared (a : assignment) : Prop := Forall (fun N => ~ Forall (lit_holds a) N) ns.

Lemma position_known N p : In N ns -> lit_below nv (at_position N p).
Proof.
  intro I. unfold at_position. pose proof (proj1 (Forall_forall _ _) Known N I) as K. destruct (lt_dec p (length N)).
  - rewrite Forall_forall in K. apply K. now apply nth_In.
  - rewrite nth_overflow by lia. exact Logic.I.
Qed.

Lemma position_is_sane N p : In N ns -> lit_sane (at_position N p).
Proof.
  intro I. unfold at_position. pose proof (proj1 (Forall_forall _ _) Sane N I) as K. destruct (lt_dec p (length N)).
  - rewrite Forall_forall in K. apply K. now apply nth_In.
  - rewrite nth_overflow by lia. exact Logic.I.
Qed.

Lemma lit_not_below l : lit_below nv l -> lit_below nv (lit_not l).
Proof. destruct l as [c| |]; simpl; auto. unfold lit_below. simpl. unfold cond_not. destruct c as [v op x hi]; destruct op; simpl; auto. Qed.

Lemma forbid_known N p : In N ns -> lit_below nv (forbid N p).
Proof. intro I. apply lit_not_below. now apply position_known. Qed.

Lemma forbid_holds a N p : lit_holds a (forbid N p) <-> ~ lit_holds a (at_position N p).
Proof. apply lit_not_holds. Qed.

Lemma all_positions a N : Forall (lit_holds a) N <-> forall p, (p < length N)%nat -> lit_holds a (at_position N p).
Proof.
  unfold at_position. split.
  - intros F p Hp. rewrite Forall_forall in F. apply F. now apply nth_In.
  - intro H. apply Forall_forall. intros l I. destruct (In_nth N l LTrue I) as (p & Hp & <-). now apply H.
Qed.

Section Domains.
Variable d : domains.
Hypothesis Hd : domains_ok d.
Hypothesis L : length d = nv.

Lemma definitely_spec l : lit_below nv l -> lit_sane l -> (definitely_true d l = true <-> forall a, within a d -> lit_holds a l).
Proof.
  intros K S. unfold definitely_true. destruct (test_exact d l Hd) as [T _]; [now apply (lit_below_known nv)|assumption|].
  rewrite <- T. destruct (test_literal d l); intuition congruence.
Qed.

Lemma broken_iff N p : In N ns -> (broken d N p = true <-> forall a, within a d -> lit_holds a (at_position N p)).
Proof.
  intro I. unfold broken. destruct (nth_error N p) as [l|] eqn:E.
  - assert (X : at_position N p = l) by (unfold at_position; now apply nth_error_nth). rewrite <- X.
    apply definitely_spec; [now apply position_known|now apply position_is_sane].
  - apply nth_error_None in E. unfold at_position. rewrite nth_overflow by assumption. split; [intros _ a _; exact Logic.I|reflexivity].
Qed.

Lemma unbroken_is_unmet N p : In N ns -> broken d N p = false -> unmet d (at_position N p).
Proof.
  intros I B. destruct (infer d (lit_not (at_position N p))) as [k d'] eqn:E.
  assert (Kl : lit_known d (lit_not (at_position N p))) by (apply (lit_below_known nv); [assumption|]; now apply forbid_known).
  destruct (infer_exact d _ k d' Hd Kl E) as (C & N' & _).
  assert (k = Contradiction \/ k <> Contradiction) as [Ck|Nk] by (destruct k; auto; right; discriminate).
  - exfalso. assert (T : broken d N p = true); [|congruence]. apply broken_iff; [assumption|]. intros a Wa.
    pose proof (proj1 C Ck a Wa) as M. rewrite lit_not_holds in M. destruct (lit_holds_dec a (at_position N p)); tauto.
  - destruct (N' Nk) as [Hd' W]. destruct (within_exists d' Hd') as [a Wa]. apply W in Wa. exists a. rewrite lit_not_holds in Wa. exact Wa.
Qed.

Lemma unbroken_some N skip p : unbroken d N skip = Some p -> (p < length N)%nat /\ broken d N p = false.
Proof.
  clear L Hd. intro F. apply find_some in F. destruct F as [I E]. apply in_seq in I. apply andb_true_iff in E. destruct E as [_ E].
  split; [lia|]. now apply negb_true_iff in E.
Qed.

Lemma unbroken_none N skip : In N ns -> unbroken d N skip = None -> forall p, (p < length N)%nat -> skip <> Some p ->
  forall a, within a d -> lit_holds a (at_position N p).
Proof.
  intros I F p Hp Sk. apply broken_iff; [assumption|]. pose proof (find_none _ _ F p) as H. rewrite in_seq in H. specialize (H (conj (Nat.le_0_l _) Hp)).
  apply andb_false_iff in H. destruct H as [H|H]; apply negb_false_iff in H; [|assumption].
  destruct skip as [s|]; [|discriminate]. apply Nat.eqb_eq in H. congruence.
Qed.

Lemma nothing_left N a : In N ns -> unbroken d N None = None -> within a d -> Forall (lit_holds a) N.
Proof. intros I F Wa. apply all_positions. intros p Hp. eapply unbroken_none; eauto. discriminate. Qed.

Lemma unit_left N w a : In N ns -> unbroken d N (Some w) = None -> within a d -> ~ Forall (lit_holds a) N -> lit_holds a (forbid N w).
Proof.
  intros I F Wa Nn. apply forbid_holds. intro M. apply Nn. apply all_positions. intros p Hp.
  destruct (Nat.eq_dec p w) as [->|Npw]; [exact M|]. eapply unbroken_none; eauto. congruence.
Qed.

End Domains.

(** ** With condition watches *)

Definition fair (d : domains) (s : progress_of) : Prop :=
  legit nv d (fst s) /\
  (forall a, within a d -> spared a -> keeps a (fst s)) /\
  (forall l payload, In (ReqWatch l payload) (snd s) -> lit_below nv l /\ lit_sane l /\ unmet d l).

Section Run.
Variable d : domains.
Hypothesis Hd : domains_ok d.
Hypothesis L : length d = nv.

Definition sensible (t : tracker) : Prop := legit nv d t /\ forall a, within a d -> spared a -> keeps a t.

Lemma sensible_start : sensible (track d).
Proof. split; [apply legit_track|]. intros. apply keeps_track. Qed.

Lemma sensible_contradiction tr N : In N ns -> sensible tr -> t_failed tr = false -> unbroken (t_domains tr) N None = None -> sensible (tell_false tr).
Proof.
  intros It (G & K) F Un. split.
  - apply legit_tell; [exact Logic.I|assumption].
  - intros a Wa Sa. apply keeps_tell; [auto|]. intros _. exfalso.
    pose proof (proj1 (Forall_forall _ _) Sa) as Sb. apply (Sb N It). apply (nothing_left (t_domains tr)); auto.
    + now apply (legit_ok nv d).
    + now apply (legit_length nv d).
    + apply (keeps_alive nv d Hd L tr a G Wa (K a Wa Sa)).
Qed.

Lemma sensible_unit tr N w : In N ns -> sensible tr -> t_failed tr = false -> unbroken (t_domains tr) N (Some w) = None -> sensible (tell (forbid N w) tr).
Proof.
  intros It (G & K) F Un. split.
  - apply legit_tell; [now apply forbid_known|assumption].
  - intros a Wa Sa. apply keeps_tell; [auto|]. intros _.
    pose proof (proj1 (Forall_forall _ _) Sa) as Sb. apply (unit_left (t_domains tr)); auto.
    + now apply (legit_ok nv d).
    + now apply (legit_length nv d).
    + apply (keeps_alive nv d Hd L tr a G Wa). now apply K.
Qed.

Lemma fair_watch tr N p ni : In N ns -> sensible tr -> t_failed tr = false -> broken (t_domains tr) N p = false ->
  forall l payload, In (ReqWatch l payload) [ReqWatch (at_position N p) ni] -> lit_below nv l /\ lit_sane l /\ unmet d l.
Proof.
  intros It Fi F B l payload [[= <- <-]|[]]. split; [now apply position_known|]. split; [now apply position_is_sane|].
  destruct Fi as [G _]. destruct (unbroken_is_unmet (t_domains tr)) with (N := N) (p := p) as (a & Wa & Na); auto.
  - now apply (legit_ok nv d).
  - now apply (legit_length nv d).
  - exists a. split; [|assumption]. now apply (legit_inside nv d Hd L tr G F).
Qed.

Lemma fair_edit tr tr' ed more : fair d (tr, ed) -> sensible tr' ->
  (forall l payload, In (ReqWatch l payload) more -> lit_below nv l /\ lit_sane l /\ unmet d l) -> fair d (tr', ed ++ more).
Proof.
  intros (G & K & E) [G' K'] M. split; [|split]; simpl in *; auto. intros l payload I. apply in_app_or in I. destruct I; eauto.
Qed.

Lemma fair_tell tr tr' ed : fair d (tr, ed) -> sensible tr' -> fair d (tr', ed).
Proof. intros (_ & _ & E) [G K]. split; [|split]; assumption. Qed.

Lemma fair_sensible tr ed : fair d (tr, ed) -> sensible tr.
Proof. intros (G & K & _). now split. Qed.

Lemma arm_fair ni s : fair d s -> fair d (arm_nogood ns ni s).
Proof.
  destruct s as [tr ed]. intro Fi. pose proof (fair_sensible _ _ Fi) as Se. unfold arm_nogood. destruct (t_failed tr) eqn:F; [assumption|].
  destruct (nth_error ns ni) as [N|] eqn:Et; [|assumption]. apply nth_error_In in Et.
  destruct (unbroken (t_domains tr) N None) as [w1|] eqn:F1; [|eapply fair_tell; [eassumption|now apply (sensible_contradiction tr N)]].
  assert (B1 : broken (t_domains tr) N w1 = false) by (eapply unbroken_some; eauto).
  pose proof (fair_watch tr N w1 ni Et Se F B1) as M1.
  destruct (unbroken (t_domains tr) N (Some w1)) as [w2|] eqn:F2.
  - assert (B2 : broken (t_domains tr) N w2 = false) by (eapply unbroken_some; eauto). pose proof (fair_watch tr N w2 ni Et Se F B2) as M2.
    apply (fair_edit tr); [assumption|assumption|]. intros l pl [I|[I|[I|[]]]]; [apply (M1 l pl); now left|apply (M2 l pl); now left|discriminate].
  - apply (fair_edit tr); [assumption|now apply sensible_unit|]. intros l pl [I|[I|[]]]; [apply (M1 l pl); now left|discriminate].
Qed.

Lemma visit_fair scratch ni s : fair d s -> fair d (visit_nogood ns scratch ni s).
Proof.
  destruct s as [tr ed]. intro Fi. pose proof (fair_sensible _ _ Fi) as Se. unfold visit_nogood. destruct (t_failed tr) eqn:F; [assumption|].
  destruct (nth_error ns ni) as [N|] eqn:Et; [|assumption]. apply nth_error_In in Et. cbv zeta.
  destruct (unpack (nth ni scratch 0)) as [p q].
  destruct (broken (t_domains tr) N p), (broken (t_domains tr) N q); [| | |assumption].
  - destruct (unbroken (t_domains tr) N None) as [w1|] eqn:F1; [|eapply fair_tell; [eassumption|now apply (sensible_contradiction tr N)]].
    assert (B1 : broken (t_domains tr) N w1 = false) by (eapply unbroken_some; eauto). pose proof (fair_watch tr N w1 ni Et Se F B1) as M1.
    destruct (unbroken (t_domains tr) N (Some w1)) as [w2|] eqn:F2; [|eapply fair_tell; [eassumption|now apply sensible_unit]].
    assert (B2 : broken (t_domains tr) N w2 = false) by (eapply unbroken_some; eauto). pose proof (fair_watch tr N w2 ni Et Se F B2) as M2.
    apply (fair_edit tr); [assumption|assumption|]. intros l pl [I|[I|[I|[]]]]; [apply (M1 l pl); now left|apply (M2 l pl); now left|discriminate].
  - destruct (unbroken (t_domains tr) N (Some q)) as [w1|] eqn:F1; [|eapply fair_tell; [eassumption|now apply sensible_unit]].
    assert (B1 : broken (t_domains tr) N w1 = false) by (eapply unbroken_some; eauto). pose proof (fair_watch tr N w1 ni Et Se F B1) as M1.
    apply (fair_edit tr); [assumption|assumption|]. intros l pl [I|[I|[]]]; [apply (M1 l pl); now left|discriminate].
  - destruct (unbroken (t_domains tr) N (Some p)) as [w1|] eqn:F1; [|eapply fair_tell; [eassumption|now apply sensible_unit]].
    assert (B1 : broken (t_domains tr) N w1 = false) by (eapply unbroken_some; eauto). pose proof (fair_watch tr N w1 ni Et Se F B1) as M1.
    apply (fair_edit tr); [assumption|assumption|]. intros l pl [I|[I|[]]]; [apply (M1 l pl); now left|discriminate].
Qed.

Lemma fair_start : fair d (track d, []).
Proof. destruct sensible_start. split; [|split]; auto. intros l payload []. Qed.

Lemma fold_fair (f : nat -> progress_of -> progress_of) : (forall ni s, fair d s -> fair d (f ni s)) ->
  forall nis s, fair d s -> fair d (fold_left (fun s ni => f ni s) nis s).
Proof. intros H. induction nis as [|ni r IH]; intros s Fs; simpl; auto. Qed.

(** The root check. *)
Lemma first_positions_spec N tr : In N ns -> sensible tr -> sensible (fst (first_positions N tr)).
Proof.
  intros I Se. unfold first_positions. destruct (t_failed tr) eqn:F; [assumption|].
  destruct (unbroken (t_domains tr) N None) as [w1|] eqn:F1; [|now apply (sensible_contradiction tr N)].
  destruct (unbroken (t_domains tr) N (Some w1)) as [w2|] eqn:F2; [assumption|]. now apply sensible_unit.
Qed.

Lemma detect_sensible : sensible (detect_nogoods ns d).
Proof.
  unfold detect_nogoods. apply (for_each_ind sensible); [|apply sensible_start]. intros N tr I Se. now apply first_positions_spec.
Qed.

(** ** Scanning *)

Lemma catch_up_sensible s ni : sensible (fst s) -> sensible (fst (scan_catch_up ns s ni)).
Proof.
  destruct s as [tr ws]. intro Se. unfold scan_catch_up. destruct (nth_error ns ni) as [N|] eqn:Et; [|assumption].
  apply nth_error_In in Et. pose proof (first_positions_spec N tr Et Se) as H. destruct (first_positions N tr) as [tr' w]. exact H.
Qed.

Lemma scan_sensible s ni : sensible (fst s) -> sensible (fst (scan_nogood ns s ni)).
Proof.
  destruct s as [tr ws]. intro Se. unfold scan_nogood. destruct (t_failed tr) eqn:F; [assumption|].
  destruct (nth_error ns ni) as [N|] eqn:Et; [|assumption]. apply nth_error_In in Et. cbv zeta.
  destruct (unpack (nth ni ws 0)) as [p q].
  destruct (broken (t_domains tr) N p), (broken (t_domains tr) N q); [| | |assumption].
  - destruct (unbroken (t_domains tr) N None) as [w1|] eqn:F1; [|now apply (sensible_contradiction tr N)].
    destruct (unbroken (t_domains tr) N (Some w1)) as [w2|] eqn:F2; [assumption|now apply sensible_unit].
  - destruct (unbroken (t_domains tr) N (Some q)) as [w1|] eqn:F1; [assumption|now apply sensible_unit].
  - destruct (unbroken (t_domains tr) N (Some p)) as [w1|] eqn:F1; [assumption|now apply sensible_unit].
Qed.

Lemma fold_sensible {X} (f : tracker * list Z -> X -> tracker * list Z) : (forall s x, sensible (fst s) -> sensible (fst (f s x))) ->
  forall xs s, sensible (fst s) -> sensible (fst (fold_left f xs s)).
Proof. intros H. induction xs as [|x r IH]; intros s Hs; simpl; auto. Qed.

End Run.

(** When nothing fails, every nogood looked at has a position that is not broken. *)
Lemma scan_leaves d tr ws ni N : domains_ok d -> length d = nv -> sensible d tr -> In N ns -> nth_error ns ni = Some N ->
  t_failed (fst (scan_nogood ns (tr, ws) ni)) = false ->
  t_failed tr = false /\
  ((exists p, (p < length N)%nat /\ broken (t_domains tr) N p = false) \/
   (exists p, forall a, within a (t_domains (fst (scan_nogood ns (tr, ws) ni))) -> ~ lit_holds a (at_position N p))).
Proof.
  intros Hd L Se I E. unfold scan_nogood. destruct (t_failed tr) eqn:F; [simpl; congruence|]. rewrite E. cbv zeta.
  destruct (unpack (nth ni ws 0)) as [p q]. intro NF. split; [reflexivity|].
  assert (IR : forall p, broken (t_domains tr) N p = false -> (p < length N)%nat).
  { intros x Bx. unfold broken in Bx. destruct (nth_error N x) eqn:Ex; [|discriminate]. apply nth_error_Some. congruence. }
  destruct (broken (t_domains tr) N p) eqn:Bp; [|left; exists p; auto].
  destruct (broken (t_domains tr) N q) eqn:Bq; [|left; exists q; auto].
  destruct (unbroken (t_domains tr) N None) as [w1|] eqn:F1.
  - left. exists w1. eapply unbroken_some; eauto.
  - exfalso. unfold tell_false, tell in NF. rewrite F in NF. simpl in NF. discriminate.
Qed.

Lemma scan_monotone d s ni : domains_ok d -> length d = nv -> sensible d (fst s) -> t_failed (fst (scan_nogood ns s ni)) = false ->
  t_failed (fst s) = false /\ inside (t_domains (fst s)) (t_domains (fst (scan_nogood ns s ni))).
Proof.
  intros Hd L Se. destruct s as [tr ws]. change (fst (tr, ws)) with tr in *. unfold scan_nogood. destruct (t_failed tr) eqn:F; [simpl; congruence|].
  destruct (nth_error ns ni) as [N|] eqn:Et; [|intros _; split; [reflexivity|intros a Wa; exact Wa]]. cbv zeta.
  assert (It : In N ns) by now apply nth_error_In in Et.
  assert (Te : forall l, lit_below nv l -> t_failed (tell l tr) = false -> false = false /\ inside (t_domains tr) (t_domains (tell l tr))).
  { intros l Kl Nf. split; [reflexivity|]. intros a Wa. destruct Se as [G _]. exact (proj1 (proj2 (tell_live nv d Hd L l tr a G Kl Nf Wa))). }
  assert (Sa : false = false /\ inside (t_domains tr) (t_domains tr)) by (split; [reflexivity|intros a Wa; exact Wa]).
  destruct (unpack (nth ni ws 0)) as [p q]. simpl.
  destruct (broken (t_domains tr) N p), (broken (t_domains tr) N q); [| | |intros _; exact Sa].
  - destruct (unbroken (t_domains tr) N None) as [w1|]; [|simpl; intro; apply Te; [exact Logic.I|assumption]].
    destruct (unbroken (t_domains tr) N (Some w1)); simpl; intro; [exact Sa|]. apply Te; [now apply forbid_known|assumption].
  - destruct (unbroken (t_domains tr) N (Some q)); simpl; intro; [exact Sa|]. apply Te; [now apply forbid_known|assumption].
  - destruct (unbroken (t_domains tr) N (Some p)); simpl; intro; [exact Sa|]. apply Te; [now apply forbid_known|assumption].
Qed.

(** Nogoods decided by the handles in [scope]. *)
Section Checks.
Variable scope : list var_id.
Hypothesis Decided : forall N l d, In N ns -> In l N -> domains_ok d -> length d = nv -> Forall (fixed d) scope ->
  (forall a a', within a d -> within a' d -> lit_holds a l -> lit_holds a' l).

Lemma scan_all_checks d nis : domains_ok d -> length d = nv -> Forall (fixed d) scope ->
  forall s, sensible d (fst s) -> t_failed (fst (fold_left (scan_nogood ns) nis s)) = false ->
  t_failed (fst s) = false /\ inside (t_domains (fst s)) (t_domains (fst (fold_left (scan_nogood ns) nis s))) /\
  forall ni N, In ni nis -> nth_error ns ni = Some N ->
    forall a, within a (t_domains (fst (fold_left (scan_nogood ns) nis s))) -> ~ Forall (lit_holds a) N.
Proof.
  intros Hd L Fx. induction nis as [|x r IH]; intros s Se NF; simpl in *.
  - split; [assumption|]. split; [intros a Wa; exact Wa|]. intros ni N [].
  - pose proof (scan_sensible d Hd L s x Se) as Se'. destruct (IH _ Se' NF) as (F1 & I1 & C1).
    destruct (scan_monotone d s x Hd L Se F1) as [F0 I0]. split; [assumption|]. split; [intros a Wa; apply I0, I1, Wa|].
    intros ni N [<-|In'] E a Wa; [|now apply (C1 ni N)].
    destruct s as [tr ws]. pose proof (nth_error_In _ _ E) as It. destruct (scan_leaves d tr ws x N Hd L Se It E F1) as (_ & [(p & Hp & Bp)|(p & Hp)]).
    + intro Fa. simpl in *. destruct Se as [G K]. pose proof (legit_ok nv d Hd L tr G F0) as Ok. pose proof (legit_length nv d Hd L tr G) as Ln.
      destruct (unbroken_is_unmet (t_domains tr) Ok Ln N p It Bp) as (b & Wb & Nb). apply Nb.
      apply (Decided N (at_position N p) d It (nth_In _ _ Hp) Hd L Fx a b).
      * apply (legit_inside nv d Hd L tr G F0). now apply I0, I1.
      * now apply (legit_inside nv d Hd L tr G F0).
      * now apply all_positions.
    + intro Fa. destruct (lt_dec p (length N)).
      * apply (Hp a (I1 a Wa)). now apply all_positions.
      * apply (Hp a (I1 a Wa)). unfold at_position. rewrite nth_overflow by lia. exact Logic.I.
Qed.

Lemma scan_run_facts i : domains_ok (i_domains i) -> length (i_domains i) = nv ->
  exists tr ws, scan_run ns i = mk_out (rev (t_lits tr)) Enable (i_cstates i) ws [] /\ sensible (i_domains i) tr /\
    (Forall (fixed (i_domains i)) scope -> t_failed tr = false -> forall a, within a (t_domains tr) -> spared a).
Proof.
  intros Hd L. unfold scan_run. set (s0 := fold_left (scan_catch_up ns) _ _).
  assert (S0 : sensible (i_domains i) (fst s0)).
  { apply (fold_sensible (i_domains i)); [|apply sensible_start]. intros s x. now apply catch_up_sensible. }
  pose proof (fold_sensible (i_domains i) (scan_nogood ns) (fun s x => scan_sensible (i_domains i) Hd L s x) (seq 0 (length ns)) s0 S0) as S1.
  pose proof (fun Fx => scan_all_checks (i_domains i) (seq 0 (length ns)) Hd L Fx s0 S0) as C1.
  destruct (fold_left (scan_nogood ns) (seq 0 (length ns)) s0) as [tr ws]. exists tr, ws. split; [reflexivity|]. split; [exact S1|].
  intros Fx NF a Wa. destruct (C1 Fx NF) as (_ & _ & C). apply Forall_forall. intros N I. destruct (In_nth_error _ _ I) as (ni & E).
  apply (C ni N); auto. apply in_seq. assert (X : nth_error ns ni <> None) by (intro Y; pose proof (eq_trans (eq_sym E) Y) as Q; discriminate Q). apply nth_error_Some in X. lia.
Qed.

Lemma scan_propagates Inv trigger_vars : stable nv Inv -> Forall (var_below nv) scope ->
  (forall v x, In v scope -> underlying v = Some x -> exists w, In w trigger_vars /\ underlying w = Some x) ->
  propagates nv Inv (scan_nogoods ns trigger_vars) scope spared.
Proof.
  intros St Ks Sub. constructor; auto.
  - constructor.
    + intros i (Hd & L & _). destruct (scan_run_facts i Hd L) as (tr & ws & E & (G & _) & _). simpl. rewrite E. simpl.
      apply Forall_rev. apply (lits_known nv); auto. apply G.
    + intros i d evs (Hd & L & Ii) A. simpl in *. destruct (scan_run_facts i Hd L) as (tr & ws & E & (G & _) & _). rewrite E in *. simpl in *.
      apply (stable_lits nv Inv _ (rev (t_lits tr)) (i_domains i) d evs St Hd L); auto. apply Forall_rev. apply (lits_known nv); auto. apply G.
  - intros i a (Hd & L & _) Wa Sa. simpl. destruct (scan_run_facts i Hd L) as (tr & ws & E & (_ & K) & _). rewrite E. simpl. apply Forall_rev. now apply K.
  - intros v x Iv U. destruct (Sub v x Iv U) as (w & Iw & Uw). left. exists w. simpl. auto.
  - intros i d evs (Hd & L & _) Fx A a Wa. simpl in *. destruct (scan_run_facts i Hd L) as (tr & ws & E & (G & _) & C). rewrite E in A. simpl in A.
    destruct G as [(evs' & A') _]. rewrite A' in A. injection A as <- <- NF. now apply C.
  - intros i d evs (Hd & L & _) _ _ R. simpl in R. destruct (scan_run_facts i Hd L) as (tr & ws & E & _). rewrite E in R. discriminate.
  - intros i d evs (Hd & L & _) _ R. simpl in R. destruct (scan_run_facts i Hd L) as (tr & ws & E & _). rewrite E in R. discriminate.
Qed.

End Checks.

Lemma refined_run_facts i : domains_ok (i_domains i) -> length (i_domains i) = nv -> exists s, fair (i_domains i) s /\
  o_infer (propagate_nogoods ns i) = rev (t_lits (fst s)) /\ o_edits (propagate_nogoods ns i) = snd s /\
  o_cstates (propagate_nogoods ns i) = i_cstates i /\ o_result (propagate_nogoods ns i) = Enable.
Proof.
  intros Hd L. unfold propagate_nogoods. destruct (i_fired i) as [|x r].
  - pose proof (fold_fair (i_domains i) (arm_nogood ns)
      (fun ni s => arm_fair (i_domains i) Hd L ni s) (seq (Z.to_nat (nth 0 (i_memo i) 0)) (length ns - Z.to_nat (nth 0 (i_memo i) 0))) _ (fair_start (i_domains i))) as H.
    cbv zeta. destruct (fold_left _ _ _) as [tr ed]. exists (tr, ed). auto.
  - pose proof (fold_fair (i_domains i) (visit_nogood ns (i_scratch i))
      (fun ni s => visit_fair (i_domains i) Hd L (i_scratch i) ni s) (sort_unique (x :: r)) _ (fair_start (i_domains i))) as H.
    destruct (fold_left _ _ _) as [tr ed]. exists (tr, ed). auto.
Qed.

Lemma refined_behaved Inv : stable nv Inv -> well_behaved nv Inv (refined_nogoods ns).
Proof.
  intro St. constructor; simpl.
  - intros i (Hd & L & I). destruct (refined_run_facts i Hd L) as (s & (G & _) & -> & _). apply Forall_rev. apply (lits_known nv); auto. apply G.
  - intros i d evs (Hd & L & I) A. destruct (refined_run_facts i Hd L) as (s & (G & _) & E & _ & C & _). rewrite C. rewrite E in A.
    apply (stable_lits nv Inv _ (rev (t_lits (fst s))) (i_domains i) d evs St Hd L); auto.
    apply Forall_rev. apply (lits_known nv); auto. apply G.
Qed.

Lemma refined_sound Inv : sound_for nv Inv spared (refined_nogoods ns).
Proof.
  intros i a (Hd & L & I) Wa Sa. simpl. destruct (refined_run_facts i Hd L) as (s & (_ & K & _) & -> & _). apply Forall_rev. now apply K.
Qed.

Lemma refined_arms Inv : arms_unmet nv Inv (refined_nogoods ns).
Proof.
  split; [reflexivity|]. intros i l payload (Hd & L & I) Il. simpl in Il. destruct (refined_run_facts i Hd L) as (s & (_ & _ & E) & _ & Ed & _).
  rewrite Ed in Il. eauto.
Qed.

Lemma nogoods_initialise d0 Inv : stable nv Inv -> (forall d cs, Inv d cs -> inside d0 d) ->
  initialises nv Inv (body_initialiser (detect_nogoods ns)) spared (fun _ => True).
Proof.
  intros St In0. apply (body_initialises nv d0); auto; intros; now apply detect_sensible.
Qed.

End Nogoods.

(** ** The two constructors *)

Lemma spared_conds a store : spared (map (map LCond) store) a <-> Forall (fun N => ~ nogood_holds a N) store.
Proof.
  unfold spared. rewrite Forall_map. split; intro H; (eapply Forall_impl; [|exact H]); intros N; simpl; unfold nogood_holds; rewrite Forall_map; auto.
Qed.

Lemma conds_known nv store : Forall (Forall (fun c => lit_below nv (LCond c))) store -> Forall (Forall (lit_below nv)) (map (map LCond) store).
Proof. intro H. apply Forall_map. eapply Forall_impl; [|exact H]. intros N HN. now apply Forall_map. Qed.

Lemma conds_sane store : Forall (Forall cond_sane) store -> Forall (Forall lit_sane) (map (map LCond) store).
Proof. intro H. apply Forall_map. eapply Forall_impl; [|exact H]. intros N HN. now apply Forall_map. Qed.

Section Learned.
Variable nv : nat.
Variable vs : list var_id.
Variable Inv : domains -> list cstate -> Prop.
Hypothesis St : stable nv Inv.
Variable store : list nogood.
Hypothesis Le : Forall (legible nv vs) store.

Lemma legible_known : Forall (Forall (lit_below nv)) (map (map LCond) store).
Proof. apply conds_known. eapply Forall_impl; [|exact Le]. intros N HN. eapply Forall_impl; [|exact HN]. now intros c (H & _). Qed.

Lemma legible_sane : Forall (Forall lit_sane) (map (map LCond) store).
Proof. apply conds_sane. eapply Forall_impl; [|exact Le]. intros N HN. eapply Forall_impl; [|exact HN]. now intros c (_ & H & _). Qed.

Lemma legible_decided N l d : In N (map (map LCond) store) -> In l N -> domains_ok d -> length d = nv -> Forall (fixed d) vs ->
  forall a a', within a d -> within a' d -> lit_holds a l -> lit_holds a' l.
Proof.
  intros I Il _ _ Fx a a' Wa Wa'. apply in_map_iff in I. destruct I as (M & <- & IM). apply in_map_iff in Il. destruct Il as (c & <- & Ic).
  pose proof (proj1 (Forall_forall _ _) Le M IM) as HM. pose proof (proj1 (Forall_forall _ _) HM c Ic) as (_ & _ & Ab). simpl. apply Ab.
  apply Forall_forall. intros v Iv. pose proof (proj1 (Forall_forall _ _) Fx v Iv) as (x & Hx). now rewrite (Hx a Wa), (Hx a' Wa').
Qed.

Lemma learned_behaved refined trigger_vars : well_behaved nv Inv (learned_nogoods refined trigger_vars store).
Proof.
  unfold learned_nogoods. destruct refined.
  - apply refined_behaved; auto using legible_known, legible_sane.
  - constructor.
    + intros i (Hd & L & _). destruct (scan_run_facts nv _ legible_known legible_sane vs legible_decided i Hd L) as (tr & ws & E & (G & _) & _). simpl. rewrite E. simpl.
      apply Forall_rev. apply (lits_known nv); auto. apply G.
    + intros i d evs (Hd & L & Ii) A. simpl in *. destruct (scan_run_facts nv _ legible_known legible_sane vs legible_decided i Hd L) as (tr & ws & E & (G & _) & _). rewrite E in *. simpl in *.
      apply (stable_lits nv Inv _ (rev (t_lits tr)) (i_domains i) d evs St Hd L); auto. apply Forall_rev. apply (lits_known nv); auto. apply G.
Qed.

Lemma learned_sound refined trigger_vars : sound_for nv Inv (fun a => Forall (fun N => ~ nogood_holds a N) store) (learned_nogoods refined trigger_vars store).
Proof.
  unfold learned_nogoods. intros i a U Wa Sa. apply spared_conds in Sa. destruct refined.
  - now apply (refined_sound nv _ legible_known legible_sane Inv i a U Wa).
  - destruct U as (Hd & L & _). destruct (scan_run_facts nv _ legible_known legible_sane vs legible_decided i Hd L) as (tr & ws & E & (_ & K) & _). simpl. rewrite E. simpl.
    apply Forall_rev. now apply K.
Qed.

Lemma learned_propagates trigger_vars : Forall (var_below nv) vs ->
  (forall v x, In v vs -> underlying v = Some x -> exists w, In w trigger_vars /\ underlying w = Some x) ->
  propagates nv Inv (learned_nogoods false trigger_vars store) vs (spared (map (map LCond) store)).
Proof.
  intros Kv Sub. unfold learned_nogoods. apply scan_propagates; auto using legible_known, legible_sane. exact legible_decided.
Qed.

End Learned.

(** The posted constraint, without condition watches. *)
Lemma scan_nogoods_correct d0 ns : Forall (Forall (fun c => var_known d0 (c_var c) /\ cond_sane c)) ns ->
  correct_on d0 (nogoods ns false) (map c_var (concat ns)) (fun a => Forall (fun N => ~ nogood_holds a N) ns).
Proof.
  intro H. apply (correct_intro d0 _ _ (spared (map (map LCond) ns))); [intro; symmetry; apply spared_conds|].
  intros nv Inv L0 St In0. unfold nogoods. simpl fst. simpl snd.
  assert (K : Forall (Forall (lit_below nv)) (map (map LCond) ns)).
  { apply conds_known. eapply Forall_impl; [|exact H]. intros N HN. eapply Forall_impl; [|exact HN]. intros c [Kc _].
    destruct c as [v op x hi]. apply lit_below_var. now apply (known_below_more d0). }
  assert (Sn : Forall (Forall lit_sane) (map (map LCond) ns)).
  { apply conds_sane. eapply Forall_impl; [|exact H]. intros N HN. eapply Forall_impl; [|exact HN]. now intros c [_ Sc]. }
  assert (Ks : Forall (var_below nv) (map c_var (concat ns))).
  { apply Forall_forall. intros v Iv. apply in_map_iff in Iv. destruct Iv as (c & <- & Ic). apply in_concat in Ic. destruct Ic as (N & IN & Ic).
    pose proof (proj1 (Forall_forall _ _) H N IN) as HN. pose proof (proj1 (Forall_forall _ _) HN c Ic) as [Kc _]. now apply (known_below_more d0). }
  split; [exact Ks|].
  exists [spared (map (map LCond) ns)], [fun _ => True]. split; [|split].
  - constructor; [|constructor]. apply (propagates_supports nv Inv _ (map c_var (concat ns))); [apply incl_refl|].
    apply scan_propagates; auto.
    + intros N l d IN Il Hd L Fx a a' Wa Wa'. apply in_map_iff in IN. destruct IN as (M & <- & IM). apply in_map_iff in Il. destruct Il as (c & <- & Ic).
      simpl. unfold cond_holds. assert (Iv : In (c_var c) (map c_var (concat ns))) by (apply in_map; apply in_concat; eauto).
      pose proof (proj1 (Forall_forall _ _) Fx _ Iv) as (x & Hx). now rewrite (Hx a Wa), (Hx a' Wa').
    + intros v x Iv U. exists v. auto.
  - constructor; [|constructor]. now apply (nogoods_initialise nv _ K Sn d0).
  - intros a _ F _. now inversion F.
Qed.
