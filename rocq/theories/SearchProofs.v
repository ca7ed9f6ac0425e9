(** Lemmas about search. *)
From Coq Require Import ZArith List Bool Arith Lia.
From Verif Require Import IntervalSet IntervalSetSpec IntervalSetProofs Vars VarsSpec VarsProofs State StateSpec StateProofs Epochs EpochsProofs
  Engine EngineSpec EngineQueueProofs EngineWatchProofs EngineProofs EngineLoopProofs EngineCallProofs Session SessionSpec SessionProofs SessionInvProofs SessionResults
  Tracker ContractSpec ContractProofs Search SearchSpec.
Import ListNotations.
Local Open Scope Z_scope.

Lemma cond_eqb_eq c c' : cond_eqb c c' = true -> c = c'.
Proof.
  unfold cond_eqb. rewrite !andb_true_iff. intros (((A & B) & C) & D). destruct c as [v o x y], c' as [v' o' x' y']. simpl in *.
  apply Z.eqb_eq in C, D. subst. f_equal.
  - destruct v, v'; simpl in A; try discriminate.
    + apply Nat.eqb_eq in A. now subst.
    + rewrite !andb_true_iff in A. destruct A as ((A1 & A2) & A3). apply Nat.eqb_eq in A1. apply eqb_prop in A2. apply Z.eqb_eq in A3. now subst.
    + apply Z.eqb_eq in A. now subst.
  - destruct o, o'; simpl in B; try discriminate; reflexivity.
Qed.

Lemma cond_not_holds a c : cond_holds a (cond_not c) <-> ~ cond_holds a c.
Proof. unfold cond_holds, cond_not. destruct c as [v o x y]; destruct o; simpl; lia. Qed.

Lemma agree_sym vs a a' : agree vs a a' -> agree vs a' a.
Proof. apply Forall_impl. auto. Qed.

(** What is fixed whenever the handles are fixed depends only on them. *)
Lemma agree_determined nv vs v a a' : Forall (var_below nv) vs -> var_below nv v ->
  (forall d : domains, domains_ok d -> length d = nv -> Forall (fixed d) vs -> fixed d v) ->
  agree vs a a' -> var_value a v = var_value a' v.
Proof.
  intros Bs B H Ag. set (f := fun n => [(Z.min (a n) (a' n), Z.max (a n) (a' n))]). set (d := map f (seq 0 nv)).
  assert (Ld : length d = nv) by (unfold d; now rewrite map_length, seq_length).
  assert (Nt : forall n, (n < nv)%nat -> nth n d [] = f n).
  { intros n Hn. unfold d. rewrite (nth_indep _ _ (f 0%nat)) by (rewrite map_length, seq_length; assumption).
    rewrite map_nth, seq_nth by assumption. reflexivity. }
  assert (Mb : forall n x, member x (f n) <-> Z.min (a n) (a' n) <= x <= Z.max (a n) (a' n)).
  { intros n x. unfold f. rewrite member_cons. split; [intros [|X]; [assumption|destruct X as (? & ? & [] & _)]|tauto]. }
  destruct (H d) as (x & Hx); auto.
  - intros n Hn. rewrite Ld in Hn. rewrite (Nt n Hn). split; [simpl; lia|]. exists (a n). apply Mb. lia.
  - rewrite Forall_forall in Bs |- *. intros u Iu. unfold agree in Ag. rewrite Forall_forall in Ag. specialize (Ag u Iu). specialize (Bs u Iu).
    exists (var_value a u). intros b Wb. unfold var_below in Bs. destruct u as [n|n neg add|k]; simpl in *; [| |reflexivity].
    + specialize (Wb n ltac:(lia)). rewrite (Nt n Bs) in Wb. apply Mb in Wb. lia.
    + specialize (Wb n ltac:(lia)). rewrite (Nt n Bs) in Wb. apply Mb in Wb. destruct neg; lia.
  - rewrite (Hx a), (Hx a'); auto; intros n Hn; rewrite Ld in Hn; rewrite (Nt n Hn); apply Mb; lia.
Qed.

Section Search.
Variable props : list propagator.
Variable disabled : nat -> bool.
Variable abort : nat -> bool.
Variable fuel : nat.
Variable objective : option var_id.
Variable branch : nat -> domains -> list cond.
Variable on_solution : list domains -> bool.
Variable on_trace : nat -> domains -> bool.
Variable learning : bool.
Variable cutoff : option nat.
Notation n := (length props).
Notation the := (the_prop props).
Variable nv : nat.
Variable Inv : domains -> list cstate -> Prop.
Variable d0 : domains.
Variable Sat Check : assignment -> Prop.
Variable store : list nogood.
Variable vs : list var_id.
Variable ok dead : nat -> domains -> Prop.

(** What the propagators of this pass may not remove. *)
Definition remaining (a : assignment) : Prop := Sat a /\ Forall (fun N => ~ nogood_holds a N) store.

Hypothesis HW : forall p, (p < n)%nat -> well_behaved nv Inv (the p).
Hypothesis HI : stable nv Inv.
Hypothesis HA : stays_set abort.
Hypothesis HS : forall p, (p < n)%nat -> sound_for nv Inv remaining (the p).
Hypothesis HK : forall x, (x < n)%nat -> wakeable nv Inv (the x) (ok x) (dead x).
Hypothesis HC : forall (d : domains) a, domains_ok d -> length d = nv -> inside d0 d -> Forall (fixed d) vs ->
  (forall x, (x < n)%nat -> disabled x = false -> ok x d \/ dead x d) -> within a d -> Check a.
Hypothesis HB : splits nv vs branch.
Hypothesis HO : forall v, objective = Some v -> var_below nv v /\ forall d : domains, domains_ok d -> length d = nv -> Forall (fixed d) vs -> fixed d v.

Notation Good := (good props disabled nv Inv d0 remaining ok dead).

(** The assignment has been reported, or is no better than one that was. *)
Definition covered (g : progress) (a : assignment) : Prop :=
  match objective with
  | None => Exists (within a) (g_reports g)
  | Some v => exists b, g_best g = Some b /\ b <= var_value a v
  end.

Definition nogood_ok (g : progress) (N : nogood) : Prop := legible nv vs N /\ forall a, within a d0 -> Sat a -> nogood_holds a N -> covered g a.

Definition report_ok (P : assignment -> Prop) (d : domains) : Prop :=
  domains_ok d /\ length d = nv /\ Forall (fixed d) vs /\ forall a, within a d -> within a d0 /\ Check a /\ P a.

(** How reports change the incumbent. *)
Inductive improves : option Z -> list domains -> option Z -> Prop :=
| ip_nil b : improves b [] b
| ip_none b d new b' : objective = None -> improves b new b' -> improves b (d :: new) b'
| ip_some b d new b' v x : objective = Some v -> improves b new b' -> has_value d v x -> (forall y, b' = Some y -> x < y) ->
    improves b (d :: new) (Some x).

Lemma improves_app b new b' : improves b new b' -> forall new' b'', improves b' new' b'' -> improves b (new' ++ new) b''.
Proof. intros H new' b'' H'. induction H'; simpl; [assumption| |]; [eapply ip_none|eapply ip_some]; eauto. Qed.

Lemma improves_le b new b' : improves b new b' -> forall x, b = Some x -> exists y, b' = Some y /\ y <= x.
Proof.
  induction 1 as [b|b d new b' O H IH|b d new b' v x O H IH Hv L]; intros x0 E.
  - exists x0. split; [assumption|lia].
  - auto.
  - destruct (IH x0 E) as (y & -> & Ly). exists x. split; [reflexivity|]. specialize (L y eq_refl). lia.
Qed.

Lemma reported_app log log' : reported (log ++ log') = reported log ++ reported log'.
Proof. induction log as [|[d b|d b|] r IH]; simpl; congruence. Qed.

(** Some learned nogood excludes the whole report. *)
Definition caught (g : progress) (d : domains) : Prop := forall a a', within a d -> agree vs a a' -> Exists (nogood_holds a') (g_learned g).

(** What an exploration of the part of the search space satisfying [P], starting
    and ending at a node like [c], has done. *)
Record explored (P : assignment -> Prop) (c : config) (v : verdict) (g g' : progress) : Prop :=
  { ex_threw : v <> Threw;
    ex_uncut : v = CutoffHit -> cutoff <> None;
    ex_sim : sim props c (g_config g');
    ex_engine : engine_ok n (c_engine (g_config g'));
    ex_log : exists log, g_log g' = log ++ g_log g /\ answered v log /\ Forall (report_ok P) (reported log) /\
      ForallOrdPairs (apart vs) (reported log) /\ improves (g_best g) (reported log) (g_best g') /\
      (v = CutoffHit -> learning = true -> Forall (caught g') (reported log));
    ex_complete : v = Complete -> forall a, within a d0 -> Sat a -> P a -> covered g' a;
    ex_learned : exists more, g_learned g' = g_learned g ++ more /\ Forall (nogood_ok g') more /\ (learning = false -> more = []) }.

Lemma covered_more new g g' a : g_reports g' = new ++ g_reports g -> improves (g_best g) new (g_best g') -> covered g a -> covered g' a.
Proof.
  intros R I C. unfold covered in *. destruct objective as [w|] eqn:O.
  - destruct C as (b & Eb & L). destruct (improves_le _ _ _ I b Eb) as (y & -> & Ly). exists y. split; [reflexivity|lia].
  - rewrite R. apply Exists_app. now right.
Qed.

Lemma covered_mono P c v g g' a : explored P c v g g' -> covered g a -> covered g' a.
Proof.
  intros E. destruct (ex_log _ _ _ _ _ E) as (log & R & _ & _ & _ & I & _). apply (covered_more (reported log)); auto.
  unfold g_reports. rewrite R. apply reported_app.
Qed.

Lemma nogood_ok_mono P c v g g' N : explored P c v g g' -> nogood_ok g N -> nogood_ok g' N.
Proof. intros E [H0 H]. split; [assumption|]. intros a Wa Sa Na. eapply covered_mono; eauto. Qed.

Lemma report_ok_weaken (P Q : assignment -> Prop) d : (forall a, P a -> Q a) -> report_ok P d -> report_ok Q d.
Proof. intros W (A & B & C & D). split; [assumption|]. split; [assumption|]. split; [assumption|]. intros a Wa. destruct (D a Wa) as (? & ? & ?). auto. Qed.

Lemma explored_weaken (P Q : assignment -> Prop) c v g g' : (forall a, P a -> Q a) ->
  (v = Complete -> forall a, within a d0 -> Sat a -> Q a -> covered g' a) -> explored P c v g g' -> explored Q c v g g'.
Proof.
  intros W C [E1 E0 E2 E3 (log & R1 & R0 & R2 & R3) E5 E6]. constructor; auto. exists log. split; [assumption|]. split; [assumption|].
  split; [|exact R3]. eapply Forall_impl; [|exact R2]. intros d. now apply report_ok_weaken.
Qed.

(** Nothing reported and nothing learned. *)
Lemma explored_nothing (P : assignment -> Prop) log c v g g' : v <> Threw -> sim props c (g_config g') -> engine_ok n (c_engine (g_config g')) ->
  g_log g' = log ++ g_log g -> reported log = [] -> answered v log -> (v = CutoffHit -> cutoff <> None) -> g_best g' = g_best g -> g_learned g' = g_learned g ->
  (v = Complete -> forall a, within a d0 -> Sat a -> P a -> covered g' a) -> explored P c v g g'.
Proof.
  intros A B C D D1 D2 D3 E F G. constructor; auto.
  - exists log. rewrite D, E, D1. split; [reflexivity|]. split; [assumption|]. split; [constructor|]. split; [constructor|].
    split; constructor.
  - exists []. rewrite F, app_nil_r. auto.
Qed.

Lemma answered_app v log log' : Forall (fun e => ~ refusal e) log -> answered v log' -> answered v (log' ++ log).
Proof.
  intros F A. destruct v; simpl in *; try (apply Forall_app; now split).
  destruct A as (e & rest & -> & R & N). exists e, (rest ++ log). split; [reflexivity|]. split; [assumption|]. apply Forall_app; now split.
Qed.

Lemma caught_mono g g' d more : g_learned g' = g_learned g ++ more -> caught g d -> caught g' d.
Proof. intros E C a a' Wa Ag. rewrite E. apply Exists_app. left. now apply (C a). Qed.

(** One exploration after another. *)
Lemma explored_trans (P Q R : assignment -> Prop) c v g g1 g2 : (forall a, P a -> R a) -> (forall a, Q a -> R a) ->
  (forall a a', agree vs a a' -> P a -> ~ Q a') -> (v = Complete -> forall a, within a d0 -> Sat a -> R a -> P a \/ Q a) ->
  (v = CutoffHit -> learning = true -> forall a a', P a -> agree vs a a' -> Exists (nogood_holds a') (g_learned g2)) ->
  explored P c Complete g g1 -> explored Q c v g1 g2 -> explored R c v g g2.
Proof.
  intros PR QR PQ Cv Ct E1 E2. pose proof (fun a => covered_mono Q c v g1 g2 a E2) as CM. pose proof (fun N => nogood_ok_mono Q c v g1 g2 N E2) as NM.
  destruct E1 as [A1 A1' A2 A3 (log1 & A4 & A0 & A5 & A6 & A7 & _) A8 (m1 & A9 & A10 & A11)].
  destruct E2 as [B1 B1' B2 B3 (log2 & B4 & B0 & B5 & B6 & B7 & B12) B8 (m2 & B9 & B10 & B11)].
  constructor; auto.
  - exists (log2 ++ log1). rewrite B4, A4, app_assoc, reported_app. split; [reflexivity|]. split; [now apply answered_app|]. split; [|split; [|split]].
    + apply Forall_app. split; (eapply Forall_impl; [|eassumption]); intros d; now apply report_ok_weaken.
    + clear -A5 A6 B5 B6 PQ. induction (reported log2) as [|d r IH]; simpl; [assumption|]. inversion B5 as [|? ? Hd Hr]; subst. inversion B6 as [|? ? Fd Fr]; subst.
      constructor; [|auto]. apply Forall_app. split; [assumption|]. eapply Forall_impl; [|exact A5]. intros d' Hd' a a' Wa Wa' Ag.
      destruct Hd as (_ & _ & _ & Hd), Hd' as (_ & _ & _ & Hd'). apply (PQ a' a); [now apply agree_sym|apply (Hd' a' Wa')|apply (Hd a Wa)].
    + eapply improves_app; eauto.
    + intros Ec Le. apply Forall_app. split; [auto|]. eapply Forall_impl; [|exact A5]. intros d (_ & _ & _ & Hd) a a' Wa Ag. apply (Ct Ec Le a a'); auto. now apply Hd.
  - intros -> a Wa Sa Ra. destruct (Cv eq_refl a Wa Sa Ra); auto.
  - exists (m1 ++ m2). rewrite B9, A9, app_assoc. split; [reflexivity|]. split.
    + apply Forall_app. split; [|assumption]. eapply Forall_impl; [|exact A10]. auto.
    + intro L. rewrite A11, B11 by assumption. reflexivity.
Qed.

(** ** Reading the abort flag *)

Lemma bump_sim c k : sim props c (mk_config (mk_engine (e_pq (c_engine c)) (e_watch (c_engine c)) k) (c_state c) (c_open c) (c_path c) (c_status c)).
Proof. constructor; auto. cbn [c_engine]. destruct (same_refl n (c_engine c)). constructor; auto. Qed.

Lemma bump_engine c k : engine_ok n (c_engine c) -> engine_ok n (mk_engine (e_pq (c_engine c)) (e_watch (c_engine c)) k).
Proof. intros []. constructor; auto. Qed.

Lemma poll_spec g stop g1 : poll abort g = (stop, g1) -> engine_ok n (c_engine (g_config g)) ->
  sim props (g_config g) (g_config g1) /\ engine_ok n (c_engine (g_config g1)) /\
  g_log g1 = (if stop then [SawAbort] else []) ++ g_log g /\ g_best g1 = g_best g /\ g_learned g1 = g_learned g /\
  g_entered g1 = g_entered g /\ g_conflicts g1 = g_conflicts g.
Proof.
  unfold poll. intros E O. destruct (abort (e_loads (c_engine (g_config g)))); injection E as <- <-; cbn;
    (split; [apply bump_sim|]; split; [now apply bump_engine|auto]).
Qed.

Lemma answered_abort : answered Stop [SawAbort].
Proof. exists SawAbort, []. split; [reflexivity|]. split; [exact Logic.I|constructor]. Qed.

(** ** Opening and closing at once *)

Lemma abandon_spec l c : Good c -> c_status c = Live -> cond_known (current (c_state c)) l ->
  (exists a, within a (current (c_state c)) /\ cond_holds a l) ->
  exists c0, abandon l c = Some c0 /\ sim props c c0 /\ engine_ok n (c_engine c0).
Proof.
  intros G L K (a & Wa & Ha). pose proof (good_engine _ _ _ _ _ _ _ _ _ G) as O. pose proof (good_node _ _ _ _ _ _ _ _ _ G) as Nd.
  unfold node in Nd. rewrite L in Nd. destruct Nd as (F & _). pose proof F as (_ & Dd & _).
  unfold abandon. destruct (new_epoch (c_state c)) as [t st1] eqn:N. destruct (new_epoch_fit nv Inv _ _ _ F N) as [F1 C1].
  assert (K1 : lit_known (current st1) (LCond l)) by (rewrite C1; exact K).
  destruct (guess st1 (LCond l)) as [fine st2] eqn:Gs.
  destruct (guess_fit nv Inv HI _ _ _ _ F1 K1 Gs) as (i & Ei & HE2 & L2 & R2).
  pose proof (child_new n _ _ _ _ O N) as Ch1. pose proof (child_guess n _ _ _ _ _ _ _ _ Ch1 Gs) as Ch2.
  destruct fine.
  - destruct (backtrack t st2) as [st3 us] eqn:B. eexists. split; [reflexivity|].
    destruct (child_back n false _ _ _ _ _ _ O (good_balanced _ _ _ _ _ _ _ _ _ G) N Ch2 _ _ B) as (-> & O3 & S3).
    split; [|assumption]. constructor; auto.
  - exfalso. rewrite C1 in Ei. rewrite R2 in Ei. apply (infer_contradiction (current (c_state c)) (LCond l) _ a Dd K Ei Wa). exact Ha.
Qed.

(** ** A child *)

Definition bounded (g : progress) (P : assignment -> Prop) : Prop :=
  forall v b, objective = Some v -> g_best g = Some b -> forall a, P a -> var_value a v < b.

Definition prefix_ok (g : progress) (prefix : list cond) (P : assignment -> Prop) : Prop :=
  learning = true -> forall a, within a d0 -> Sat a -> Forall (cond_holds a) prefix -> P a \/ covered g a.

Definition prefix_on (prefix : list cond) (P : assignment -> Prop) : Prop :=
  learning = true -> Forall (guessable nv vs) prefix /\ forall a, P a -> Forall (cond_holds a) prefix.

Definition explores (rec : list cond -> progress -> option (verdict * progress)) : Prop :=
  forall prefix g v g', rec prefix g = Some (v, g') -> Good (g_config g) ->
    Forall (nogood_ok g) store -> bounded g (fun a => path_holds a (g_config g)) -> prefix_ok g prefix (fun a => path_holds a (g_config g)) ->
    prefix_on prefix (fun a => path_holds a (g_config g)) ->
    explored (fun a => path_holds a (g_config g)) (g_config g) v g g'.

Lemma sim_path c c' a : sim props c c' -> (path_holds a c' <-> path_holds a c).
Proof. intros [_ _ E _ _]. unfold path_holds. now rewrite E. Qed.

Lemma objective_below g : Forall (lit_below nv) (objective_bound objective g).
Proof.
  unfold objective_bound. destruct objective as [v|]; [|constructor]. destruct (g_best g); constructor; [|constructor].
  exact (proj1 (HO v eq_refl)).
Qed.

Lemma objective_holds g a : ~ covered g a -> Forall (lit_holds a) (objective_bound objective g).
Proof.
  unfold covered, objective_bound. destruct objective as [v|]; intro C; [|constructor].
  destruct (g_best g) as [b|]; constructor; [|constructor]. simpl. unfold cond_holds. simpl. destruct (Z_lt_ge_dec (var_value a v) b); [assumption|].
  exfalso. apply C. exists b. split; [reflexivity|lia].
Qed.

Lemma covered_or g a : covered g a \/ Forall (lit_holds a) (objective_bound objective g).
Proof.
  unfold covered, objective_bound. destruct objective as [v|]; [|right; constructor].
  destruct (g_best g) as [b|]; [|right; constructor]. destruct (Z_lt_ge_dec (var_value a v) b).
  - right. constructor; [|constructor]. simpl. unfold cond_holds. simpl. lia.
  - left. exists b. split; [reflexivity|lia].
Qed.

Lemma objective_bounded g a v b : objective = Some v -> g_best g = Some b -> Forall (lit_holds a) (objective_bound objective g) -> var_value a v < b.
Proof.
  unfold objective_bound. intros -> -> F. inversion F as [|? ? H _]; subst. simpl in H. unfold cond_holds in H. simpl in H. lia.
Qed.

Lemma cond_dec a c : cond_holds a c \/ ~ cond_holds a c.
Proof. destruct (cond_holds_dec a c); auto. Qed.

Lemma recurse_spec rec l child_prefix g v g' :
  explores rec -> recurse props disabled abort fuel objective cutoff rec l child_prefix g = Some (v, g') ->
  Good (g_config g) -> c_status (g_config g) = Live -> cond_known (current (c_state (g_config g))) l ->
  (exists a, within a (current (c_state (g_config g))) /\ cond_holds a l) ->
  Forall (nogood_ok g) store ->
  prefix_ok g child_prefix (fun a => path_holds a (g_config g) /\ cond_holds a l) ->
  prefix_on child_prefix (fun a => path_holds a (g_config g) /\ cond_holds a l) ->
  explored (fun a => path_holds a (g_config g) /\ cond_holds a l) (g_config g) v g g'.
Proof.
  intros Rec E G L K Ps St Pf Po'. set (c := g_config g) in *. pose proof (good_engine _ _ _ _ _ _ _ _ _ G) as O.
  unfold recurse in E. destruct (poll abort g) as [stop g1] eqn:Po. destruct (poll_spec _ _ _ Po O) as (S1 & O1 & R1 & B1 & L1 & En1 & Cf1).
  fold c in S1. pose proof (sim_good _ _ _ _ _ _ _ _ _ _ S1 O1 G) as G1.
  destruct stop.
  { injection E as <- <-. apply (explored_nothing _ [SawAbort]); auto; [discriminate|apply answered_abort|discriminate|discriminate]. }
  assert (LL : c_status (g_config g1) = Live) by (rewrite (si_status _ _ _ S1); exact L).
  destruct (abandon_spec l (g_config g1) G1 LL) as (c0 & Ab & S0 & O0).
  { rewrite (si_state _ _ _ S1). exact K. }
  { rewrite (si_state _ _ _ S1). exact Ps. }
  rewrite Ab in E. destruct (spent cutoff (enter g1)) eqn:Sp.
  { injection E as <- <-. apply (explored_nothing _ []); auto; [discriminate|eapply sim_trans; eauto|constructor|intros _ X; unfold spent in Sp; now rewrite X in Sp|discriminate]. }
  set (extra := objective_bound objective (enter g1)) in *.
  assert (EX : extra = objective_bound objective g) by (unfold extra, objective_bound; cbn [enter g_best]; now rewrite B1).
  destruct (run_move props disabled abort fuel (Down (LCond l) extra) (g_config (enter g1))) as [c1|] eqn:Dn; [|discriminate].
  cbn [enter g_config] in Dn.
  assert (Kd : move_below nv (Down (LCond l) extra)).
  { split; [|unfold extra; apply objective_below]. apply (lit_below_known nv (LCond l) (current (c_state c))); [|exact K].
    pose proof (good_node _ _ _ _ _ _ _ _ _ G) as Nd. unfold node in Nd. fold c in L. rewrite L in Nd. apply Nd. }
  destruct (down_good props disabled abort fuel nv Inv d0 remaining ok dead HW HI HA HS HK _ _ _ _ G1 Kd Dn)
    as (Gc1 & t & st & called & _ & Ne & Ho & Hp & Hc).
  assert (PH : forall a, path_holds a c1 <-> cond_holds a l /\ Forall (lit_holds a) extra /\ path_holds a c).
  { intro a. rewrite <- (sim_path _ _ a S1). unfold path_holds. rewrite Hp. cbn [concat]. rewrite <- app_comm_cons, Forall_cons_iff, Forall_app. reflexivity. }
  set (g2 := at_config (enter g1) c1) in *.
  assert (CV : forall a, covered g2 a <-> covered g a).
  { intro a. unfold covered, g2, g_reports. cbn [at_config enter g_log g_best]. rewrite R1, B1. reflexivity. }
  destruct (rec child_prefix g2) as [[v3 g3]|] eqn:Er; [|discriminate].
  assert (X : explored (fun a => path_holds a c1) c1 v3 g2 g3).
  { apply (Rec child_prefix g2 v3 g3 Er Gc1).
    - eapply Forall_impl; [|exact St]. intros N [H0 HN]. split; [assumption|]. intros a Wa Sa Na. apply CV. now apply HN.
    - intros w b Ow Eb a Pa. apply (objective_bounded g a w b Ow).
      + cbn in Eb. now rewrite <- B1.
      + rewrite <- EX. apply PH in Pa. tauto.
    - intros Le a Wa Sa Fa. destruct (Pf Le a Wa Sa Fa) as [[Pa La]|Ca]; [|right; now apply CV].
      destruct (covered_or g a) as [Ca|Xa]; [right; now apply CV|]. left. cbn [g2 at_config g_config]. apply PH. rewrite EX. auto.
    - intros Le. destruct (Po' Le) as [Pb Pc]. split; [assumption|]. intros a Pa. apply Pc. apply PH in Pa. tauto. }
  destruct X as [X1 X1' X2 X3 (log & X4 & X0 & X5 & X6 & X7 & X12) X8 (more & X9 & X10 & X11)].
  assert (Up : exists c', run_move props disabled abort fuel Up (g_config g3) = Some c' /\ v = v3 /\ g' = at_config g3 c').
  { destruct v3; try congruence; (destruct (run_move props disabled abort fuel Up (g_config g3)) as [c'|]; [|discriminate]);
      injection E as <- <-; eauto. }
  destruct Up as (c' & Eu & -> & ->).
  destruct (up_sim props disabled abort fuel nv Inv d0 remaining ok dead (g_config g1) (g_config g3) called t st (LCond l :: extra) c') as [Sc Oc]; auto.
  { rewrite (si_open _ _ _ X2). exact Ho. }
  { rewrite (si_path _ _ _ X2). exact Hp. }
  { rewrite (si_state _ _ _ X2). eapply child_same; [exact Hc|exact X3|apply X2]. }
  constructor; auto.
  - cbn [at_config g_config]. eapply sim_trans; eauto.
  - exists log. cbn [at_config g_log g_best]. split; [|split; [|split; [|split; [|split]]]]; auto.
    + rewrite X4. cbn. now rewrite R1.
    + eapply Forall_impl; [|exact X5]. intros d. apply report_ok_weaken. intros a Pa. apply PH in Pa. tauto.
    + cbn in X7. now rewrite <- B1.
  - intros -> a Wa Sa [Pa La]. destruct (covered_or g a) as [Ca|Xa].
    + apply (covered_more (reported log) g2 (at_config g3 c')); auto; [|now apply CV]. unfold g_reports. cbn [at_config g_log]. rewrite X4. apply reported_app.
    + change (covered g3 a). apply X8; auto. apply PH. rewrite EX. auto.
  - exists more. cbn [at_config g_learned]. split; [rewrite X9; cbn; now rewrite L1|]. split; [|assumption]. exact X10.
Qed.

(** ** The loop over siblings *)

Lemma branch_guessable k (d : domains) l : domains_ok d -> length d = nv -> In l (branch k d) -> guessable nv vs l.
Proof.
  intros Hd L I. split; [|split].
  - pose proof (sp_known _ _ _ HB k d l Hd L I) as K. unfold cond_known in K. unfold lit_below. simpl. unfold var_known in K.
    destruct (c_var l); simpl; auto; now rewrite <- L.
  - destruct (sp_possible _ _ _ HB k d l Hd L I) as (a & _ & Ha). destruct (sp_uncertain _ _ _ HB k d l Hd L I) as (b & _ & Hb).
    unfold cond_holds in *. unfold cond_sane. destruct (c_op l); simpl in *; lia.
  - exact (sp_about _ _ _ HB k d l Hd L I).
Qed.

Lemma explored_like (P Q : assignment -> Prop) c c0 v g g' : sim props c0 c -> (forall a, P a <-> Q a) ->
  explored P c v g g' -> explored Q c0 v g g'.
Proof.
  intros S H E. apply (explored_weaken P Q); [apply H| |].
  - intros -> a Wa Sa Qa. apply (ex_complete _ _ _ _ _ E eq_refl a Wa Sa). now apply H.
  - destruct E as [E1 E0 E2 E3 E4 E5 E6]. constructor; auto. eapply sim_trans; eauto.
Qed.

Lemma explored_learn P c g g' ns : explored P c CutoffHit g g' -> (learning = true -> Forall (nogood_ok g') ns) ->
  explored P c CutoffHit g (if learning then mk_progress (g_config g') (g_entered g') (g_log g') (g_best g') (g_conflicts g') (g_learned g' ++ ns) else g').
Proof.
  intros E H. destruct learning eqn:Le; [|assumption]. destruct E as [E1 E0 E2 E3 (log & E4 & E9 & E10 & E11 & E12 & E13) E5 (more & E6 & E7 & E8)]. constructor; auto.
  - exists log. repeat (split; [assumption|]). intros X _. eapply Forall_impl; [|exact (E13 X Le)]. intros d. apply (caught_mono _ _ _ ns). reflexivity.
  - exists (more ++ ns). cbn. rewrite E6, app_assoc. split; [reflexivity|]. split; [|congruence].
    apply Forall_app. split; [exact E7|]. now apply H.
Qed.

Definition dealt_with (c0 : config) (g : progress) (s : cond) : Prop :=
  forall a, within a d0 -> Sat a -> path_holds a c0 -> cond_holds a s -> covered g a.

Lemma siblings_spec rec c0 k prefix : explores rec -> Good c0 -> c_status c0 = Live ->
  forall ls refuted g v g', branch k (current (c_state c0)) = refuted ++ ls ->
  sim props c0 (g_config g) -> engine_ok n (c_engine (g_config g)) -> Forall (nogood_ok g) store ->
  prefix_ok g prefix (fun a => path_holds a c0) -> prefix_on prefix (fun a => path_holds a c0) -> Forall (dealt_with c0 g) refuted ->
  siblings props disabled abort fuel objective learning cutoff rec ls (length refuted) (hd_error refuted) prefix refuted g = Some (v, g') ->
  explored (fun a => path_holds a c0 /\ Exists (cond_holds a) ls) c0 v g g' /\
  (v = CutoffHit -> learning = true -> Forall (fun s => In (prefix ++ [s]) (g_learned g')) refuted).
Proof.
  intros Rec G L. pose proof (good_node _ _ _ _ _ _ _ _ _ G) as Nd. unfold node in Nd. rewrite L in Nd. destruct Nd as ((_ & Dd & Ld & _) & _).
  induction ls as [|l r IH]; intros refuted g v g' Br Si O St Pf Po Re E; cbn [siblings] in E.
  { injection E as <- <-. split; [|discriminate]. apply (explored_nothing _ []); auto; [discriminate|constructor|discriminate|]. intros _ a _ _ [_ X]. inversion X. }
  set (flip := Nat.eqb (length refuted) 1 && match hd_error refuted with Some f => cond_eqb l (cond_not f) | None => false end) in *.
  set (cp := if learning then (if flip then prefix else prefix ++ [l]) else prefix) in *.
  assert (PE : forall a, path_holds a (g_config g) <-> path_holds a c0) by (intro; now apply sim_path).
  assert (Il : In l (branch k (current (c_state c0)))) by (rewrite Br; apply in_elt).
  destruct (recurse props disabled abort fuel objective cutoff rec l cp g) as [[v1 g1]|] eqn:Er; [|discriminate].
  assert (X : explored (fun a => path_holds a c0 /\ cond_holds a l) c0 v1 g g1).
  { apply (explored_like (fun a => path_holds a (g_config g) /\ cond_holds a l) _ (g_config g)); [assumption|intro; now rewrite PE|].
    eapply recurse_spec; try eassumption.
    - eapply sim_good; eauto.
    - rewrite (si_status _ _ _ Si). exact L.
    - rewrite (si_state _ _ _ Si). exact (sp_known _ _ _ HB k _ l Dd Ld Il).
    - rewrite (si_state _ _ _ Si). exact (sp_possible _ _ _ HB k _ l Dd Ld Il).
    - intros Le a Wa Sa Fa. unfold cp in Fa. rewrite Le in Fa. destruct flip eqn:Fl.
      + destruct (Pf Le a Wa Sa Fa) as [Pa|]; [|now right]. destruct (cond_dec a l) as [Hl|Hl]; [left; now rewrite PE|].
        right. unfold flip in Fl. apply andb_true_iff in Fl. destruct Fl as [_ Fl]. destruct refuted as [|f ref]; [discriminate|]. cbn in Fl.
        apply cond_eqb_eq in Fl. subst l. inversion Re as [|? ? Hf _]; subst. apply Hf; auto.
        rewrite cond_not_holds in Hl. destruct (cond_dec a f); tauto.
      + apply Forall_app in Fa. destruct Fa as [Fa Fl']. inversion Fl'; subst. destruct (Pf Le a Wa Sa Fa) as [Pa|]; [|now right].
        left. now rewrite PE.
    - intros Le. destruct (Po Le) as [Pb Po']. unfold cp. rewrite Le. split.
      + destruct flip; [assumption|]. apply Forall_app. split; [assumption|]. constructor; [|constructor]. exact (branch_guessable k _ l Dd Ld Il).
      + intros a [Pa La]. apply PE in Pa. destruct flip; [now apply Po'|]. apply Forall_app. split; [now apply Po'|].
        constructor; [assumption|constructor]. }
  assert (AP : forall a, cond_holds a l -> Exists (cond_holds a) r -> False).
  { intros a Ha Hr. pose proof (sp_apart _ _ _ HB k _ a Dd Ld) as A. rewrite Br in A. clear - A Ha Hr.
    induction refuted as [|x ref IH]; inversion A as [|? ? F A']; subst; [|auto]. apply Exists_exists in Hr. destruct Hr as (y & Iy & Hy).
    rewrite Forall_forall in F. exact (F y Iy Ha Hy). }
  destruct v1.
  - destruct (IH (refuted ++ [l]) g1 v g') as [Y1 Y2].
    + now rewrite <- app_assoc.
    + apply X.
    + apply X.
    + eapply Forall_impl; [|exact St]. intros N. eapply nogood_ok_mono; eauto.
    + intros Le a Wa Sa Fa. destruct (Pf Le a Wa Sa Fa); [now left|right]. eapply covered_mono; eauto.
    + exact Po.
    + apply Forall_app. split.
      * eapply Forall_impl; [|exact Re]. intros s Hs a Wa Sa Pa Ha. eapply covered_mono; [exact X|]. now apply Hs.
      * constructor; [|constructor]. intros a Wa Sa Pa Ha. now apply (ex_complete _ _ _ _ _ X eq_refl a Wa Sa).
    + rewrite app_length. cbn [length]. rewrite Nat.add_1_r. rewrite <- E. f_equal. destruct refuted; reflexivity.
    + split.
      * eapply (explored_trans (fun a => path_holds a c0 /\ cond_holds a l) (fun a => path_holds a c0 /\ Exists (cond_holds a) r)).
        -- intros a [Pa La]. split; [assumption|]. now apply Exists_cons_hd.
        -- intros a [Pa La]. split; [assumption|]. now apply Exists_cons_tl.
        -- intros a a' Ag [_ A1] [_ A2]. apply (AP a'); [|assumption]. exact (sp_about _ _ _ HB k _ l Dd Ld Il a a' Ag A1).
        -- intros _ a _ _ [Pa Ra]. inversion Ra; subst; auto.
        -- intros Ev Le a a' [Pa La] Ag. destruct (Po Le) as [Pb Po']. specialize (Y2 Ev Le). apply Forall_app in Y2. destruct Y2 as [_ Y2]. inversion Y2; subst.
           apply Exists_exists. exists (prefix ++ [l]). split; [assumption|]. apply Forall_app. split.
           ++ specialize (Po' a Pa). clear - Pb Po' Ag. induction Pb as [|c r' Hc Hr IHr]; [constructor|]. inversion Po'; subst. constructor; [now apply (proj2 (proj2 Hc) a)|auto].
           ++ constructor; [|constructor]. exact (sp_about _ _ _ HB k _ l Dd Ld Il a a' Ag La).
        -- exact X.
        -- exact Y1.
      * intros Ev Le. specialize (Y2 Ev Le). apply Forall_app in Y2. apply Y2.
  - injection E as <- <-. split; [|discriminate]. eapply explored_weaken; [| |exact X].
    + intros a [Pa La]. split; [assumption|]. now apply Exists_cons_hd.
    + discriminate.
  - injection E as <- <-. unfold learn. split.
    + apply explored_learn.
      * eapply explored_weaken; [| |exact X]; [|discriminate]. intros a [Pa La]. split; [assumption|]. now apply Exists_cons_hd.
      * intros Le. apply Forall_map. apply Forall_forall. intros s Is. rewrite Forall_forall in Re. pose proof (Re s Is) as Hs. split.
        { apply Forall_app. split; [now apply Po|]. constructor; [|constructor]. apply (branch_guessable k (current (c_state c0))); auto. rewrite Br. apply in_or_app. now left. }
        intros a Wa Sa Ha. apply Forall_app in Ha. destruct Ha as [Ha Hs'].
        inversion Hs'; subst. eapply covered_mono; [exact X|]. destruct (Pf Le a Wa Sa Ha); auto.
    + intros _ Le. rewrite Le. cbn [g_learned]. apply Forall_forall. intros s Is. apply in_or_app. right. apply in_map_iff. eauto.
  - destruct (ex_threw _ _ _ _ _ X eq_refl).
Qed.

(** ** A node *)

Lemma nogoods_dec a : Forall (fun N => ~ nogood_holds a N) store \/ exists N, In N store /\ nogood_holds a N.
Proof.
  clear. induction store as [|N r IH]; [left; constructor|].
  assert (D : nogood_holds a N \/ ~ nogood_holds a N).
  { clear. induction N as [|c N IH]; [left; constructor|]. destruct (cond_holds_dec a c) as [H|H].
    - destruct IH as [I|I]; [left; now constructor|right]. intro X. now inversion X.
    - right. intro X. now inversion X. }
  destruct D as [D|D]; [right; exists N; split; [now left|assumption]|].
  destruct IH as [I|(M & I & H)]; [left; now constructor|right]. exists M. split; [now right|assumption].
Qed.

Lemma remaining_or_covered g a : Forall (nogood_ok g) store -> within a d0 -> Sat a -> remaining a \/ covered g a.
Proof.
  intros St Wa Sa. destruct (nogoods_dec a) as [F|(N & I & H)]; [left; now split|right].
  rewrite Forall_forall in St. exact (proj2 (St N I) a Wa Sa H).
Qed.

Lemma osv_fixed d v : domains_ok d -> var_known d v -> fixed d v -> exists x, optional_single_value d v = Some x /\ has_value d v x.
Proof.
  intros Hd K F. apply (fixed_osv d v Hd K) in F. destruct F as (x & E). exists x. split; [assumption|]. intros a Wa. eapply osv_value; eauto.
Qed.

Lemma explore_spec depth : explores (explore props disabled abort fuel objective branch on_solution on_trace learning cutoff depth).
Proof.
  induction depth as [|depth IH]; intros prefix g v g' E G St Bd Pf Po'; cbn [explore] in E; [discriminate|].
  set (c := g_config g) in *. pose proof (good_node _ _ _ _ _ _ _ _ _ G) as Nd. pose proof (good_engine _ _ _ _ _ _ _ _ _ G) as O. unfold node in Nd.
  destruct (c_status c) eqn:Stt.
  - destruct Nd as (F & Se & W1 & W2). pose proof F as (_ & Dd & Ld & _).
    destruct (branch (g_entered g) (current (c_state c))) as [|l0 ls0] eqn:Br.
    + pose proof (sp_done _ _ _ HB _ _ Dd Ld Br) as Fx. injection E as E.
      assert (RO : report_ok (fun a => path_holds a c) (current (c_state c))).
      { split; [assumption|]. split; [assumption|]. split; [assumption|]. intros a Wa. destruct (W1 a Wa). split; [assumption|]. split; [|assumption].
        apply (HC (current (c_state c))); auto; [intros b Wb; now apply W1|]. intros x Hx Dx. destruct (Se x Hx Dx) as [S1 S2].
        destruct (Nat.lt_ge_cases (pos (e_pq (c_engine c)) x) (q_idle (e_pq (c_engine c)))) as [En|En]; [left; now apply S1|right; apply S2; unfold enabled; lia]. }
      assert (AN : forall b : bool, answered (if b then Complete else Stop) [Reported (current (c_state c)) b]).
      { intros []; simpl; [constructor; [discriminate|constructor]|]. eexists. exists (@nil event). split; [reflexivity|]. split; [reflexivity|constructor]. }
      unfold report in E. fold c in E. set (go := on_solution (current (c_state c) :: g_reports g)) in *. destruct objective as [w|] eqn:Ob.
      * destruct (HO w eq_refl) as [Bw Fw]. destruct (osv_fixed (current (c_state c)) w Dd (var_below_known nv _ w Ld Bw) (Fw _ Dd Ld Fx)) as (x & Ex & Hx).
        rewrite Ex in E. injection E as Ev <-. constructor; cbn [g_config g_log g_best g_learned]; auto.
        -- subst v. destruct go; discriminate.
        -- subst v. destruct go; discriminate.
        -- apply sim_refl.
        -- exists [Reported (current (c_state c)) go]. split; [reflexivity|]. split; [subst v; apply AN|]. split; [now constructor|]. split; [constructor; constructor|].
           split; [|intros Ec; subst v; destruct go; discriminate].
           eapply ip_some; [exact Ob|constructor|exact Hx|]. intros y Ey. destruct (within_exists _ Dd) as (a & Wa).
           rewrite <- (Hx a Wa). apply (Bd w y Ob Ey). apply (W1 a Wa).
        -- intros _ a Wa Sa Pa. unfold covered. rewrite Ob. cbn [g_best]. destruct (remaining_or_covered g a St Wa Sa) as [Ra|Ca].
           ++ exists x. split; [reflexivity|]. rewrite (Hx a (W2 a Wa Pa Ra)). lia.
           ++ unfold covered in Ca. rewrite Ob in Ca. destruct Ca as (b & Eb & Lb). exists x. split; [reflexivity|].
              destruct (within_exists _ Dd) as (a' & Wa'). pose proof (Bd w b Ob Eb a' (proj2 (W1 a' Wa'))). rewrite (Hx a' Wa') in H. lia.
        -- exists []. rewrite app_nil_r. auto.
      * injection E as Ev <-. constructor; cbn [note g_config g_log g_best g_learned]; auto.
        -- subst v. destruct go; discriminate.
        -- subst v. destruct go; discriminate.
        -- apply sim_refl.
        -- exists [Reported (current (c_state c)) go]. split; [reflexivity|]. split; [subst v; apply AN|]. split; [now constructor|]. split; [constructor; constructor|].
           split; [|intros Ec; subst v; destruct go; discriminate]. apply ip_none; [exact Ob|constructor].
        -- intros _ a Wa Sa Pa. unfold covered. rewrite Ob. change (Exists (within a) (current (c_state c) :: g_reports g)).
           destruct (remaining_or_covered g a St Wa Sa) as [Ra|Ca].
           ++ apply Exists_cons_hd. now apply W2.
           ++ unfold covered in Ca. rewrite Ob in Ca. now apply Exists_cons_tl.
        -- exists []. rewrite app_nil_r. auto.
    + set (go := on_trace (g_entered g) (current (c_state c))) in *. set (g0 := note (Traced (current (c_state c)) go) g) in *.
      destruct go eqn:Go.
      2: { injection E as <- <-. apply (explored_nothing _ [Traced (current (c_state c)) false]); auto; [discriminate|apply sim_refl| |discriminate|discriminate].
           eexists. exists (@nil event). split; [reflexivity|]. split; [reflexivity|constructor]. }
      destruct (poll abort g0) as [stop g1] eqn:Po. destruct (poll_spec g0 _ _ Po O) as (S1 & O1 & R1 & B1 & L1 & En1 & Cf1). change (sim props c (g_config g1)) in S1.
      destruct stop.
      { injection E as <- <-. apply (explored_nothing _ [SawAbort; Traced (current (c_state c)) true]); auto; [discriminate| |discriminate|discriminate].
        eexists. eexists. split; [reflexivity|]. split; [exact Logic.I|]. constructor; [discriminate|constructor]. }
      assert (CV : forall a, covered g1 a <-> covered g a) by (intro a; unfold covered, g_reports; rewrite R1, B1; reflexivity).
      assert (X : explored (fun a => path_holds a c /\ Exists (cond_holds a) (l0 :: ls0)) c v g1 g').
      { eapply (siblings_spec _ c (g_entered g) prefix IH G Stt (l0 :: ls0) [] g1); auto.
        - eapply Forall_impl; [|exact St]. intros N [H0 HN]. split; [assumption|]. intros a Wa Sa Na. apply CV. now apply HN.
        - intros Le a Wa Sa Fa. destruct (Pf Le a Wa Sa Fa); [now left|right; now apply CV]. }
      apply (explored_weaken _ (fun a => path_holds a c)) in X; [|tauto|].
      * destruct X as [X1 X1' X2 X3 (log & X4 & X0 & X5 & X6 & X7 & X12) X8 (more & X9 & X10 & X11)]. constructor; auto.
        -- exists (log ++ [Traced (current (c_state c)) true]). rewrite reported_app. cbn [reported]. rewrite app_nil_r.
           split; [rewrite X4, R1, <- app_assoc; reflexivity|]. split; [apply answered_app; [constructor; [discriminate|constructor]|assumption]|].
           cbn in B1. rewrite <- B1. auto.
        -- exists more. cbn in L1. rewrite <- L1. auto.
      * intros Cv a Wa Sa Pa. destruct (remaining_or_covered g a St Wa Sa) as [Ra|Ca].
        -- apply (ex_complete _ _ _ _ _ X Cv a Wa Sa). split; [assumption|]. rewrite <- Br. apply (sp_cover _ _ _ HB); auto. rewrite Br. discriminate.
        -- eapply covered_mono; [exact X|]. now apply CV.
  - injection E as <- <-. apply (explored_nothing _ []); auto; [discriminate|apply sim_refl|constructor|discriminate|]. intros _ a Wa Sa Pa.
    destruct (remaining_or_covered g a St Wa Sa) as [Ra|Ca]; [|exact Ca]. exfalso. exact (Nd a Wa Pa Ra).
  - injection E as <- <-. apply (explored_nothing _ [SawAbort]); auto; [discriminate|apply sim_refl|apply answered_abort|discriminate|discriminate].
Qed.

End Search.
