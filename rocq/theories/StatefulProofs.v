(** Lemmas about propagation functions that keep a constraint state. *)
From Coq Require Import ZArith List Bool Arith Lia.
From Verif Require Import IntervalSet IntervalSetSpec IntervalSetProofs Vars VarsSpec VarsProofs State StateSpec StateProofs Epochs
  Engine EngineSpec EngineProofs EngineQueueProofs SessionSpec SessionInvProofs Tracker ContractSpec ContractProofs RunProofs Solve SolveSpec SolveProofs Stateful StatefulSpec.
Import ListNotations.

Lemma nth_error_set_nth {X} (l : list X) n x : n < length l -> nth_error (set_nth l n x) n = Some x.
Proof. revert n. induction l as [|y r IH]; intros n H; simpl in H; [lia|]. destruct n; simpl; [reflexivity|]. apply IH. lia. Qed.

Lemma nth_error_set_nth_other {X} (l : list X) n x k : k <> n -> nth_error (set_nth l n x) k = nth_error l k.
Proof. revert n k. induction l as [|y r IH]; intros n k H; [reflexivity|]. destruct n, k; simpl; try reflexivity; [congruence|]. apply IH. congruence. Qed.

(** What is asked of such a function: [Own] is what it relies on and preserves. *)
Record state_body_ok (nv : nat) (d0 : domains) (Own : domains -> cstate -> Prop) (alias : Prop) (f : state_body)
  (scope : list var_id) (sat : assignment -> Prop) : Prop :=
  { so_honest : forall d s m, domains_ok d -> length d = nv -> inside d0 d -> Own d s -> honest nv d sat (e_tracker (f d s m));
    so_own : forall d s m, domains_ok d -> length d = nv -> inside d0 d -> Own d s -> t_failed (e_tracker (f d s m)) = false ->
      Own (t_domains (e_tracker (f d s m))) (e_state (f d s m));
    so_checks : forall d s m a, domains_ok d -> length d = nv -> inside d0 d -> Own d s -> Forall (fixed d) scope ->
      live nv d (e_tracker (f d s m)) a -> sat a;
    so_claims : forall d s m a, domains_ok d -> length d = nv -> inside d0 d -> Own d s -> ~ alias -> e_result (f d s m) = EnableButIdempotent ->
      live nv d (e_tracker (f d s m)) a -> Forall (fixed (t_domains (e_tracker (f d s m)))) scope -> sat a;
    so_entails : forall d s m a, domains_ok d -> length d = nv -> inside d0 d -> Own d s -> e_result (f d s m) = DisableUntilBacktrack ->
      live nv d (e_tracker (f d s m)) a -> sat a }.

Definition owned (h : nat) (Own : domains -> cstate -> Prop) (D : domains) (c : list cstate) : Prop :=
  exists s, nth_error c h = Some s /\ Own D s.

Lemma same_elsewhere_set h (c : list cstate) s : same_elsewhere h 1 c (set_nth c h s).
Proof. intros k K. apply nth_error_set_nth_other. lia. Qed.

Lemma state_propagates nv d0 (Inv : domains -> list cstate -> Prop) h Own f scope sat on_change on_bounds on_instantiated :
  let p := state_propagator h f on_change on_bounds on_instantiated in
  (forall d cs, Inv d cs -> inside d0 d /\ owned h Own d cs) ->
  framed nv Inv h 1 (owned h Own) ->
  Forall (var_below nv) scope ->
  (forall v x, In v scope -> underlying v = Some x -> subscribes p x Instantiated) ->
  state_body_ok nv d0 Own (aliased p) f scope sat ->
  propagates nv Inv p scope sat.
Proof.
  intros p In0 Fr Kn Su [Ho Ow Ch Cl En].
  assert (ST : forall i, usable nv Inv i -> domains_ok (i_domains i) /\ length (i_domains i) = nv /\ inside d0 (i_domains i) /\
      h < length (i_cstates i) /\ Own (i_domains i) (nth h (i_cstates i) [])).
  { intros i (Hd & L & I). destruct (In0 _ _ I) as (Id & s & E & O). split; [assumption|]. split; [assumption|]. split; [assumption|].
    split; [apply nth_error_Some; congruence|]. now rewrite (nth_error_nth _ _ _ E). }
  assert (RUN : forall i d evs, usable nv Inv i -> apply_lits (i_domains i) (o_infer (p_run p i)) = (d, evs, false) ->
     let e := f (i_domains i) (nth h (i_cstates i) []) (i_memo i) in t_failed (e_tracker e) = false /\ t_domains (e_tracker e) = d).
  { intros i d evs U E. destruct (ST i U) as (Hd & L & Id & _ & O). cbn [p p_run state_propagator state_run o_infer] in E.
    destruct (Ho _ _ (i_memo i) Hd L Id O) as [Lg _]. destruct (lg_apply _ _ _ Lg) as (ev & A). rewrite A in E. injection E as E1 _ E2. auto. }
  assert (KN : forall i, usable nv Inv i -> Forall (lit_known (i_domains i)) (o_infer (p_run p i))).
  { intros i U. destruct (ST i U) as (Hd & L & Id & _ & O). apply Forall_rev. apply (lits_known nv); auto.
    apply (lg_below _ _ _ (proj1 (Ho _ _ (i_memo i) Hd L Id O))). }
  assert (LIVE : forall i d evs a, usable nv Inv i -> apply_lits (i_domains i) (o_infer (p_run p i)) = (d, evs, false) -> within a d ->
      live nv (i_domains i) (e_tracker (f (i_domains i) (nth h (i_cstates i) []) (i_memo i))) a).
  { intros i d evs a U E Wa. destruct (RUN i d evs U E) as [F Ed]. destruct (ST i U) as (Hd & L & Id & _ & O). split; [apply (Ho _ _ (i_memo i) Hd L Id O)|]. split; [exact F|].
    now rewrite Ed. }
  constructor; auto.
  - constructor; [exact KN|]. intros i d evs U E. destruct (RUN i d evs U E) as [F Ed]. destruct (ST i U) as (Hd & L & Id & Hh & O).
    pose proof (Ho _ _ (i_memo i) Hd L Id O) as [Lg _]. subst d.
    apply (Fr (i_domains i) (i_cstates i)); auto.
    + apply U.
    + apply (legit_ok nv (i_domains i) Hd L _ Lg F).
    + apply (legit_length nv (i_domains i) Hd L _ Lg).
    + apply (legit_inside nv (i_domains i) Hd L _ Lg F).
    + apply same_elsewhere_set.
    + eexists. split; [apply nth_error_set_nth; assumption|]. now apply Ow.
  - intros i a U Wa Sa. destruct (ST i U) as (Hd & L & Id & _ & O). apply Forall_rev. now apply (proj2 (Ho _ _ (i_memo i) Hd L Id O)).
  - intros i d evs U F E a Wa. destruct (ST i U) as (Hd & L & Id & _ & O). apply (Ch _ _ (i_memo i) a Hd L Id O F). eapply LIVE; eauto.
  - intros i d evs U NA E R F a Wa. destruct (ST i U) as (Hd & L & Id & _ & O). apply (Cl _ _ (i_memo i) a Hd L Id O NA R); [eapply LIVE; eauto|].
    destruct (RUN i d evs U E) as [_ Ed]. now rewrite Ed.
  - intros i d evs U E R a Wa. destruct (ST i U) as (Hd & L & Id & _ & O). apply (En _ _ (i_memo i) a Hd L Id O R). eapply LIVE; eauto.
Qed.

(** The constraint installs such a propagator and its state. *)
Lemma state_installs d (cs : list cstate) f s0 on_change on_bounds on_instantiated scope sat (Own : domains -> cstate -> Prop) :
  domains_ok d -> local (length d) sat -> Forall (var_below (length d)) scope ->
  incl scope (on_change ++ on_bounds ++ on_instantiated) ->
  (forall D D' s, domains_ok D' -> length D' = length D -> inside D D' -> Own D s -> Own D' s) ->
  (forall more, domains_ok (d ++ more) -> Own (d ++ more) s0) ->
  (forall nv, length d <= nv -> state_body_ok nv d Own (aliased (state_propagator (length cs) f on_change on_bounds on_instantiated)) f scope sat) ->
  installs d cs (mk_installation [] [s0] [state_propagator (length cs) f on_change on_bounds on_instantiated] []) scope sat sat (owned (length cs) Own).
Proof.
  intros Hd Lo Sc Inc Mono Start Ok. constructor; cbn [in_vars in_states in_props in_inits length map]; rewrite ?app_nil_r; auto.
  - intros a Wa Sa. exists a. split; [apply same_below_refl|]. auto.
  - intros D D' c c' HD' L I Sw (s & E & O). exists s. split; [|eauto]. rewrite (Sw (length cs)); [assumption|]. lia.
  - intros more states Hm. exists s0. split; [|auto]. rewrite <- app_assoc. rewrite nth_error_app2 by lia. now rewrite Nat.sub_diag.
  - intros nv Inv Ln St Id Fr. exists [sat], []. split; [|split; [constructor|]].
    + constructor; [|constructor]. apply (propagates_supports _ _ _ scope); [apply incl_refl|]. apply (state_propagates nv d Inv (length cs) Own); auto.
      * eapply Forall_impl; [|exact Sc]. intros v B. now apply (below_more (length d)).
      * intros v x I U. apply Inc in I. unfold subscribes, state_propagator; simpl. apply in_app_or in I. destruct I as [I|I]; [|apply in_app_or in I; destruct I]; eauto 10.
    + intros a _ F _. now apply Forall_inv in F.
Qed.

Lemma state_body_ok_ext nv d0 Own alias f scope scope' sat sat' : (forall a, sat a <-> sat' a) -> incl scope scope' ->
  state_body_ok nv d0 Own alias f scope sat -> state_body_ok nv d0 Own alias f scope' sat'.
Proof.
  intros E I [Ho Ow Ch Cl En]. assert (Sub : forall D, Forall (fixed D) scope' -> Forall (fixed D) scope) by (intros D F; rewrite Forall_forall in *; auto).
  constructor; auto.
  - intros d s m Hd L Id O. destruct (Ho d s m Hd L Id O) as [G K]. split; [assumption|]. intros a Wa Sa. apply K; [assumption|]. now apply E.
  - intros. apply E. eapply Ch; eauto.
  - intros. apply E. eapply Cl; eauto.
  - intros. apply E. eapply En; eauto.
Qed.

Lemma lives_own nv d f s0 h (Own : domains -> cstate -> Prop) alias scope sat on_change on_bounds on_instantiated : domains_ok d -> length d = nv ->
  (forall D D' s, domains_ok D' -> length D' = length D -> inside D D' -> Own D s -> Own D' s) -> Own d s0 ->
  state_body_ok nv d Own alias f scope sat ->
  forall D s, lives (state_propagator h f on_change on_bounds on_instantiated) h d s0 D s -> domains_ok D /\ length D = nv /\ inside d D /\ Own D s.
Proof.
  intros Hd Ld Mono St Ok D s L. induction L as [|D D' s L IH HD' Le I|i D' evs s L IH E A].
  - split; [assumption|]. split; [assumption|]. split; [intros a W; exact W|assumption].
  - destruct IH as (H1 & H2 & H3 & H4). split; [assumption|]. split; [now transitivity (length D)|]. split; [|eauto]. intros a W. apply H3. now apply I.
  - destruct IH as (H1 & H2 & H3 & H4). cbn [state_propagator p_run state_run o_infer o_cstates] in *. rewrite (nth_error_nth _ _ _ E) in *.
    assert (Hh : h < length (i_cstates i)) by (apply nth_error_Some; congruence).
    pose proof (so_honest _ _ _ _ _ _ _ Ok (i_domains i) s (i_memo i) H1 H2 H3 H4) as [G _]. destruct (lg_apply _ _ _ G) as (ev & A'). rewrite A' in A. injection A as A1 _ A2.
    rewrite (nth_error_nth _ _ _ (nth_error_set_nth (i_cstates i) h (e_state (f (i_domains i) s (i_memo i))) Hh)). subst D'.
    split; [now apply (legit_ok nv (i_domains i))|]. split; [now apply (legit_length nv (i_domains i))|]. split.
    + intros a W. apply H3. now apply (legit_inside nv (i_domains i) H1 H2 _ G A2).
    + now apply (so_own _ _ _ _ _ _ _ Ok).
Qed.

(** ** Private data *)

(** What one run does, given the private data. *)
Definition at_memo (f : memo_body) (m : list Z) : body := fun d => let '(t, _, r) := f d m in (t, r).

Lemma memo_run_same f i : let b := body_run (at_memo f (i_memo i)) i in
  o_infer (memo_run f i) = o_infer b /\ o_result (memo_run f i) = o_result b /\ o_cstates (memo_run f i) = o_cstates b.
Proof. cbn zeta. unfold memo_run, body_run, at_memo. destruct (f (i_domains i) (i_memo i)) as [[t m] r]. auto. Qed.

Lemma memo_propagates nv d0 (Inv : domains -> list cstate -> Prop) f scope sat on_change on_bounds on_instantiated :
  let p := memo_propagator f on_change on_bounds on_instantiated in
  stable nv Inv -> (forall d cs, Inv d cs -> inside d0 d) ->
  Forall (var_below nv) scope ->
  (forall v x, In v scope -> underlying v = Some x -> subscribes p x Instantiated) ->
  (forall m, body_ok nv d0 (aliased p) (at_memo f m) scope sat) ->
  propagates nv Inv p scope sat.
Proof.
  intros p St In0 Kn Su Ok.
  pose proof (fun m => body_propagates nv d0 Inv (at_memo f m) scope sat on_change on_bounds on_instantiated St In0 Kn Su (Ok m)) as P. cbn zeta in P.
  constructor; auto.
  - constructor.
    + intros i U. cbn [p p_run memo_propagator]. destruct (memo_run_same f i) as (-> & _). exact (wb_known _ _ _ (pr_behaved _ _ _ _ _ (P (i_memo i))) i U).
    + intros i d evs U. cbn [p p_run memo_propagator]. destruct (memo_run_same f i) as (-> & _ & ->). exact (wb_inv _ _ _ (pr_behaved _ _ _ _ _ (P (i_memo i))) i d evs U).
  - intros i a U. cbn [p p_run memo_propagator]. destruct (memo_run_same f i) as (-> & _). exact (pr_sound _ _ _ _ _ (P (i_memo i)) i a U).
  - intros i d evs U. cbn [p p_run memo_propagator]. destruct (memo_run_same f i) as (-> & _). exact (pr_checks _ _ _ _ _ (P (i_memo i)) i d evs U).
  - intros i d evs U. cbn [p p_run memo_propagator]. destruct (memo_run_same f i) as (-> & -> & _). exact (pr_claims _ _ _ _ _ (P (i_memo i)) i d evs U).
  - intros i d evs U. cbn [p p_run memo_propagator]. destruct (memo_run_same f i) as (-> & -> & _). exact (pr_entails _ _ _ _ _ (P (i_memo i)) i d evs U).
Qed.

(** A part need not be all of what the constraint is about. *)
Lemma supports_stronger nv d0 (Inv : domains -> list cstate -> Prop) p scope (sat sat' part : assignment -> Prop) :
  (forall d cs, Inv d cs -> inside d0 d) -> (forall a, within a d0 -> sat' a -> sat a) -> supports nv Inv p scope sat part -> supports nv Inv p scope sat' part.
Proof.
  intros In0 H (W & So & R). split; [assumption|]. split; [|assumption]. intros i a U Wa Sa. apply So; auto. apply H; [|assumption]. destruct U as (_ & _ & I). exact (In0 _ _ I a Wa).
Qed.

Lemma memo_supports nv d0 (Inv : domains -> list cstate -> Prop) f scope sat on_change :
  stable nv Inv -> (forall d cs, Inv d cs -> inside d0 d) -> Forall (var_below nv) scope -> incl scope on_change ->
  (forall m, body_ok nv d0 (aliased (memo_propagator f on_change [] [])) (at_memo f m) scope sat) ->
  supports nv Inv (memo_propagator f on_change [] []) scope sat sat.
Proof.
  intros St In0 Kn Inc Ok. apply (propagates_supports nv Inv _ scope); [apply incl_refl|]. apply (memo_propagates nv d0); auto.
  intros v x I U. left. exists v. split; [now apply Inc|]. split; [assumption|]. auto.
Qed.

(** A constraint consisting of one such propagator. *)
Lemma one_memo_correct d0 (k : constraint) f on_change scope (sat sat' : assignment -> Prop) :
  k d0 = ([memo_propagator f on_change [] []], []) -> (forall a, sat' a <-> sat a) -> Forall (var_known d0) scope -> incl scope on_change ->
  (forall nv m, length d0 <= nv -> body_ok nv d0 (aliased (memo_propagator f on_change [] [])) (at_memo f m) scope sat) ->
  correct_on d0 k scope sat'.
Proof.
  intros E Eq K Inc Ok. apply (correct_intro _ _ _ sat); auto. intros nv Inv Ln St I0. rewrite E. cbn [fst snd].
  assert (B : Forall (var_below nv) scope) by (eapply Forall_impl; [|exact K]; intros v Kv; now apply (known_below_more d0)). split; [assumption|].
  exists [sat], []. split; [|split; [constructor|]].
  - constructor; [|constructor]. apply (memo_supports nv d0); auto.
  - intros a _ F _. now inversion F.
Qed.
