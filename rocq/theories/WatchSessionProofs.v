(** Condition watches along a session in which no propagator claims idempotence. *)
From Coq Require Import ZArith List Bool Arith Lia Permutation.
From Verif Require Import IntervalSet IntervalSetSpec IntervalSetProofs Vars VarsSpec VarsProofs State StateSpec StateProofs Epochs EpochsProofs
  Engine EngineSpec EngineQueueProofs EngineWatchProofs EngineProofs EngineLoopProofs EngineCallProofs Session SessionSpec SessionProofs
  SessionInvProofs SessionResults WatchSpec WatchProofs.
Import ListNotations.

Section Session.
Variable props : list propagator.
Variable disabled : nat -> bool.
Variable abort : nat -> bool.
Variable fuel : nat.
Variable nv : nat.
Variable Inv : domains -> list cstate -> Prop.
Notation n := (length props).
Notation the := (the_prop props).
Hypothesis HW : forall p, p < n -> well_behaved nv Inv (the p).
Hypothesis HI : stable nv Inv.
Hypothesis HA : stays_set abort.
Hypothesis HU : forall p, p < n -> arms_unmet nv Inv (the p).
Hypothesis HC : forall p, p < n -> claims_nothing nv Inv (the p).

(** ** Calls *)

Lemma mask_instantiated l : watch_mask_has l Instantiated = true.
Proof. destruct l as [c| |]; simpl; auto. destruct (c_op c); reflexivity. Qed.

(** What a call is given: the changes it is told about explain every armed
    condition that is already certain. *)
Definition told (gs : list literal) (d : domains) (w : wpart) : Prop :=
  placed nv w /\ alerted d (guess_events gs) w.

Lemma start_delivers gs e st : callable props nv Inv gs e st -> gs <> [] -> placed nv (e_watch e) ->
  let e0 := mk_engine (rewind (e_pq e)) (e_watch e) (e_loads e) in
  pq_ok n (e_pq e0) /\ engine_grows props e0 (fst (start props disabled gs e st)) /\
  delivered props (current st) (guess_events gs) e0 (fst (start props disabled gs e st)).
Proof.
  intros [Cq Co Ce Cd Cl Ci] G P e0. specialize (Cq G). assert (Q0 : pq_ok n (e_pq e0)) by now apply rewind_ok.
  assert (E : fst (start props disabled gs e st) = fold_left (requeue props (current st)) (guess_events gs) e0).
  { unfold start. destruct gs; [congruence|reflexivity]. }
  rewrite E. split; [assumption|]. split.
  - now apply requeue_all_grows.
  - now apply (requeue_all_delivers props nv).
Qed.

Lemma start_keen gs e st : callable props nv Inv gs e st -> told gs (current st) (e_watch e) ->
  keen nv (mk_loop (fst (start props disabled gs e st)) (snd (start props disabled gs e st)) [] [] []).
Proof.
  intros C [P A]. assert (CU : current (snd (start props disabled gs e st)) = current st).
  { pose proof (start_spec props disabled abort nv Inv gs e st C) as S. destruct (start props disabled gs e st). apply S. }
  assert (gs = [] \/ gs <> []) as [->|G] by (destruct gs; [auto|right; discriminate]).
  - constructor; [reflexivity|assumption|]. cbn [l_state l_events l_engine]. rewrite CU. exact A.
  - destruct (start_delivers gs e st C G P) as (Q & _ & D). constructor; [reflexivity| |].
    + cbn [l_engine]. eapply delivered_placed; [exact D|assumption].
    + cbn [l_state l_events l_engine]. rewrite CU. refine (delivered_alert props nv _ _ _ _ (c_dom _ _ _ _ _ _ C) (c_len _ _ _ _ _ _ C) _ D A). exact P.
Qed.

Lemma propagate_keen gs e st e' st' : callable props nv Inv gs e st -> told gs (current st) (e_watch e) ->
  propagate props disabled abort fuel gs e st = Some (true, e', st') ->
  (exists k, e_loads e <= k < e_loads e' /\ abort k = true) \/ told [] (current st') (e_watch e').
Proof.
  intros C T E. pose proof (start_keen gs e st C T) as K. unfold propagate in E. pose proof (start_spec props disabled abort nv Inv gs e st C) as S.
  destruct (start props disabled gs e st) as [e1 st1]. destruct S as (B & _ & _ & LO & _). cbn [fst snd] in K.
  destruct (run_loop props disabled abort fuel _) as [[l bad]|] eqn:R; [|discriminate].
  destruct bad; [discriminate|]. injection E as <- <-.
  pose proof (run_loop_keen props disabled abort nv Inv HW HU HC fuel _ _ B K R) as K'.
  destruct (run_loop_spec props disabled abort nv Inv HW fuel _ _ _ B R) as (P & _ & _ & _ & F).
  destruct F as [(_ & F2 & _)|(k & Kk & Ak)]; [right|left; exists k; split; [cbn in Kk |- *; lia|assumption]].
  destruct K' as [_ K2 K3]. rewrite F2 in K3. split; [exact K2|exact K3].
Qed.

(** ** Calls, as seen by one propagator *)

Section Watcher.
Variable p : nat.
Hypothesis Hp : p < n.
Hypothesis Dp : disabled p = false.
Variable K : domains -> (literal -> nat -> Prop) -> (nat -> Z) -> list nat -> Prop.
Variable M : list Z -> Prop.
Hypothesis WA : keeps_watch nv Inv (the p) K M.

Lemma start_tended gs e st : callable props nv Inv gs e st -> told gs (current st) (e_watch e) ->
  ((gs = [] /\ fresh p (e_watch e)) \/ (watchful p K M (current st) (e_watch e) /\ (gs <> [] -> enabled e p))) ->
  tended p K M (mk_loop (fst (start props disabled gs e st)) (snd (start props disabled gs e st)) [] [] []).
Proof.
  intros C [P A] T. assert (CU : current (snd (start props disabled gs e st)) = current st).
  { pose proof (start_spec props disabled abort nv Inv gs e st C) as S. destruct (start props disabled gs e st). apply S. }
  assert (gs = [] \/ gs <> []) as [->|G] by (destruct gs; [auto|right; discriminate]).
  - assert (X : e_pq (fst (start props disabled [] e st)) = rebuild n disabled /\ e_watch (fst (start props disabled [] e st)) = e_watch e) by (split; reflexivity).
    destruct X as [X1 X2]. destruct (rebuild_spec n disabled) as (R1 & R2 & R3 & R4).
    assert (En : pos (rebuild n disabled) p < q_idle (rebuild n disabled)) by (apply R4; auto).
    assert (Wt : waiting p (rebuild n disabled)) by (unfold waiting; lia).
    constructor; cbn [l_engine l_state l_disable]; rewrite ?X1, ?X2, ?CU; auto.
    destruct T as [[_ F]|[(Kd & Mm & Ib) _]]; [left; auto|right]. rewrite Ib. split; [assumption|]. split; [assumption|]. congruence.
  - destruct T as [[? _]|[(Kd & Mm & Ib) En]]; [contradiction|]. specialize (En G).
    destruct (start_delivers gs e st C G P) as (Q & GR & D). set (e0 := mk_engine _ _ _) in *.
    assert (En0 : pos (e_pq e0) p < q_idle (e_pq e0)) by exact En.
    destruct (delivered_tended props nv Inv p Hp K M WA _ _ _ _ D En0) as (_ & D2 & D3 & D4).
    pose proof (eg_pq _ _ _ GR) as Gq.
    constructor; cbn [l_engine l_state l_disable]; rewrite ?CU; auto.
    + rewrite (g_idle _ _ _ Gq). now apply (g_enabled _ _ _ Gq).
    + right. split; [apply D2; change (e_watch e0) with (e_watch e); rewrite Ib; exact Kd|]. split; [rewrite D3; exact Mm|].
      intro Ne. destruct (D4 Ne) as [N|Qd]; [now elim N|]. unfold waiting. rewrite (g_begin _ _ _ Gq). split; [cbn; lia|exact Qd].
Qed.

Lemma propagate_tended gs e st b e' st' : callable props nv Inv gs e st ->
  propagate props disabled abort fuel gs e st = Some (b, e', st') ->
  (M (memo (e_watch e) p) -> M (memo (e_watch e') p)) /\
  (told gs (current st) (e_watch e) ->
   ((gs = [] /\ fresh p (e_watch e)) \/ (watchful p K M (current st) (e_watch e) /\ (gs <> [] -> enabled e p))) -> b = true ->
   (exists k, e_loads e <= k < e_loads e' /\ abort k = true) \/ (watchful p K M (current st') (e_watch e') /\ enabled e' p)).
Proof.
  intros C E. pose proof (start_keen gs e st C) as KE. pose proof (start_tended gs e st C) as TE.
  assert (ME : memo (e_watch (fst (start props disabled gs e st))) p = memo (e_watch e) p).
  { unfold start. destruct gs as [|g gs]; [reflexivity|]. cbn [fst]. set (e0 := mk_engine _ _ _). change (e_watch e) with (e_watch e0). clearbody e0.
    generalize (guess_events (g :: gs)). intro evs. revert e0. induction evs as [|[v i] r IH]; intro e0; cbn [fold_left]; [reflexivity|].
    rewrite IH. unfold requeue. destruct (fire_watches (current st) v i (e_watch e0)) as [ow w'] eqn:Ef.
    destruct (fire_spec _ _ _ _ _ _ Ef) as (_ & _ & _ & _ & _ & _ & _ & G). cbn [e_watch]. unfold memo. now rewrite G. }
  unfold propagate in E. pose proof (start_spec props disabled abort nv Inv gs e st C) as S.
  destruct (start props disabled gs e st) as [e1 st1]. destruct S as (B & _ & _ & LO & _). cbn [fst snd] in *.
  destruct (run_loop props disabled abort fuel _) as [[l bad]|] eqn:R; [|discriminate]. injection E as <- <- <-.
  destruct (run_loop_tended props disabled abort nv Inv HW HU HC p Hp Dp K M WA fuel _ _ _ B R) as [R1 R2].
  split; [intro Mm; apply R1; cbn [l_engine]; rewrite ME; exact Mm|].
  intros T W Eb. destruct bad; [discriminate|]. specialize (R2 (KE T) (TE T W) eq_refl).
  destruct (run_loop_spec props disabled abort nv Inv HW fuel _ _ _ B R) as (P & _ & _ & _ & F).
  destruct F as [(F1 & F2 & _)|(k & Kk & Ak)]; [right|left; exists k; split; [cbn in Kk |- *; lia|assumption]].
  destruct R2 as [T1 _ T3]. split; [|exact T1]. destruct T3 as [[_ Wt]|(Kd & Mm & Wt)]; [unfold waiting in Wt; lia|].
  assert (Ib : inbox (e_watch (l_engine l)) p = []).
  { destruct (inbox (e_watch (l_engine l)) p) as [|] eqn:Ei; [reflexivity|]. exfalso. assert (waiting p (e_pq (l_engine l))) as Wx by (apply Wt; discriminate).
    unfold waiting in Wx. lia. }
  rewrite Ib in Kd. split; [exact Kd|]. split; [exact Mm|]. cbn [e_watch]. unfold inbox, drop_inboxes. cbn [wp_inbox].
  apply (map_nth (fun _ : list nat => @nil nat) _ [] p).
Qed.
End Watcher.

(** ** Sessions *)

Section Guarded.
Variable d0 : domains.
Notation good := (good props disabled nv Inv d0 never always always).

(** [Z] holds at every node that is open and live, and [Y] at every node below the
    root, whatever happened there. *)
Variable Z Y : config -> Prop.

Inductive guarded : config -> Prop :=
| guarded_root c : good c -> c_open c = [] -> (c_status c = Live -> Z c) -> guarded c
| guarded_child c0 c1 called t st p : guarded c0 -> good c1 -> c_status c0 = Live -> new_epoch (c_state c0) = (t, st) ->
    c_open c1 = t :: c_open c0 -> c_path c1 = p :: c_path c0 ->
    child n called (c_engine c0) (c_state c0) (c_engine c1) (c_state c1) -> Y c1 -> (c_status c1 = Live -> Z c1) -> guarded c1.

Hypothesis Zsim : forall c c', sim props c c' -> engine_ok n (c_engine c') -> Z c -> Y c' -> Z c'.
Hypothesis Yup : forall c c', Y c -> run_move props disabled abort fuel Up c = Some c' -> Y c'.
Hypothesis Zdown : forall c l extra c', good c -> c_status c = Live -> Z c -> move_below nv (Down l extra) ->
  run_move props disabled abort fuel (Down l extra) c = Some c' -> Y c' /\ (c_status c' = Live -> Z c').
Hypothesis Zagain : forall c extra c', good c -> c_status c = Live -> Z c -> move_below nv (Again extra) ->
  run_move props disabled abort fuel (Again extra) c = Some c' -> c_status c' = Live -> Z c'.

Lemma guarded_good c : guarded c -> good c.
Proof. destruct 1; auto. Qed.

Lemma guarded_live c : guarded c -> c_status c = Live -> Z c.
Proof. destruct 1; auto. Qed.

Lemma sim_guarded c c' : sim props c c' -> engine_ok n (c_engine c') -> good c' -> Y c' -> c_status c = Live -> guarded c -> guarded c'.
Proof.
  intros Si O Gc Yc Lv G. pose proof (guarded_live c G Lv) as Zc. pose proof (Zsim c c' Si O Zc Yc) as Zc'.
  destruct G as [c G Ho Hz|c0 c1 called t st p G0 G1 L N Ho Hp Hc Hy Hz]; destruct Si as [E1 E2 E3 E4 S].
  - apply guarded_root; auto. congruence.
  - apply (guarded_child c0 c' called t st p); auto; try congruence. rewrite E1. eapply child_same; eauto.
Qed.

Lemma move_guarded m c c' : guarded c -> move_below nv m -> run_move props disabled abort fuel m c = Some c' -> guarded c'.
Proof.
  intros G Km E. pose proof (guarded_good c G) as Gc.
  pose proof (move_good props disabled abort fuel nv Inv d0 never always always HW HI HA (never_sound props nv Inv) (always_wakeable props nv Inv) m c c' Gc Km E) as Gc'.
  destruct m as [l extra| |extra].
  - destruct (down_good props disabled abort fuel nv Inv d0 never always always HW HI HA (never_sound props nv Inv) (always_wakeable props nv Inv) c l extra c' Gc Km E)
      as (_ & t & st & called & Lv & N & Ho & Hp & Hc).
    destruct (Zdown c l extra c' Gc Lv (guarded_live c G Lv) Km E) as [Yc Zc].
    apply (guarded_child c c' called t st (l :: extra)); auto.
  - destruct G as [c G Ho Hz|c0 c1 called t st p G0 G1 L N Ho Hp Hc Hy Hz].
    + cbn [run_move] in E. rewrite Ho in E. discriminate.
    + destruct (up_sim props disabled abort fuel nv Inv d0 never always always _ _ _ _ _ _ _ (guarded_good _ G0) L N Ho Hp Hc E) as [S O].
      apply (sim_guarded c0 c'); auto. now apply (Yup c1).
  - assert (Lv : c_status c = Live).
    { cbn [run_move] in E. unfold is_live in E. destruct (c_open c); [|discriminate]. destruct (c_path c) as [|? [|]]; try discriminate.
      destruct (c_status c); auto; discriminate. }
    apply guarded_root; auto.
    + cbn [run_move] in E. destruct (c_open c); [|discriminate]. destruct (c_path c) as [|? [|]]; try discriminate.
      destruct (is_live c); [|discriminate]. destruct (add_bounds (c_state c) extra) as [[[|] st1] ch].
      * destruct (propagate_node props disabled abort fuel ch (c_engine c) st1) as [[[s e] st2]|]; [|discriminate]. injection E as <-. reflexivity.
      * injection E as <-. reflexivity.
    + intro Lv'. exact (Zagain c extra c' Gc Lv (guarded_live c G Lv) Km E Lv').
Qed.

Lemma moves_guarded ms : forall c c', guarded c -> Forall (move_below nv) ms -> run_moves props disabled abort fuel ms c = Some c' -> guarded c'.
Proof.
  induction ms as [|m r IH]; intros c c' G Km E; cbn [run_moves] in E; [congruence|]. apply Forall_cons_iff in Km. destruct Km as [K1 K2].
  destruct (run_move props disabled abort fuel m c) as [c1|] eqn:E1; [|discriminate]. apply (IH c1); auto. eapply move_guarded; eauto.
Qed.
End Guarded.

(** ** Nodes *)

(** A change made outside propagation is explained by what is handed over. *)
Lemma infer_told gs d l k d' w : domains_ok d -> length d = nv -> lit_known d l -> infer d l = (k, d') -> k <> Contradiction ->
  told gs d w -> told (gs ++ [l]) d' w.
Proof.
  intros Hd L Kl E Nk [P A]. split; [assumption|]. intros v y Hy. unfold guess_events. rewrite flat_map_app.
  destruct (P v y Hy) as (Uy & By & Sy). destruct (infer_exact d l k d' Hd Kl E) as (_ & X & Ld & _). destruct (X Nk) as [Hd' _].
  assert (Ky : lit_known d (w_lit y)) by now apply (lit_below_known nv).
  destruct (A v y Hy) as [U|(k' & I & Mk)].
  - assert (Ky' : lit_known d' (w_lit y)) by (apply (lit_below_known nv); [exact (eq_trans Ld L)|assumption]).
    destruct (unmet_or_certain d' (w_lit y) Hd' Ky') as [U'|C]; [left; assumption|right].
    destruct (mask_sees d l k d' (w_lit y) Hd Kl Ky E Nk U C) as (v' & U1 & U2 & _). assert (v' = v) as -> by congruence.
    exists Instantiated. split; [|apply mask_instantiated]. apply in_or_app. right. cbn [flat_map]. rewrite U1. left. reflexivity.
  - right. exists k'. split; [|assumption]. apply in_or_app. left. exact I.
Qed.

Lemma bounds_told ls : forall gs st st' ch w, state_fit nv Inv st -> Forall (lit_known (current st)) ls -> add_bounds st ls = (true, st', ch) ->
  told gs (current st) w -> told (gs ++ ch) (current st') w.
Proof.
  induction ls as [|l r IH]; intros gs st st' ch w F Kl E T; cbn [add_bounds] in E.
  - injection E as <- <-. now rewrite app_nil_r.
  - apply Forall_cons_iff in Kl. destruct Kl as [Kl Kr]. destruct (state_infer st l) as [i st1] eqn:S.
    destruct (state_infer_fit nv Inv HI _ _ _ _ F Kl S) as (Ei & HE & _ & L1 & N). pose proof F as (_ & D & L & _).
    assert (Kr' : Forall (lit_known (current st1)) r).
    { eapply Forall_impl; [|exact Kr]. intros. eapply lit_known_length; [|eassumption]. exact (eq_trans L1 (eq_sym L)). }
    assert (i = Contradiction \/ i <> Contradiction) as [->|Ni] by (destruct i; auto; right; discriminate); [discriminate|].
    destruct (add_bounds st1 r) as [[b1 st2] ch1] eqn:E1.
    assert (EE : b1 = true /\ st' = st2 /\ ((i = NoChange /\ ch = ch1) \/ ch = l :: ch1)).
    { destruct i; try congruence; injection E as -> <- <-; auto. }
    destruct EE as (-> & -> & EC). specialize (N Ni). destruct EC as [[-> ->]| ->].
    + apply (IH gs st1); auto. rewrite (infer_nochange _ _ _ D Kl Ei). assumption.
    + replace (gs ++ l :: ch1) with ((gs ++ [l]) ++ ch1) by now rewrite <- app_assoc. apply (IH (gs ++ [l]) st1); auto.
      exact (infer_told gs _ l i _ w D L Kl Ei Ni T).
Qed.

Lemma forward d0 m c c' : good props disabled nv Inv d0 never always always c -> c_status c = Live -> m <> Up -> move_below nv m ->
  run_move props disabled abort fuel m c = Some c' ->
  (c_engine c' = c_engine c /\ c_status c' = Failed) \/
  exists gs st, state_fit nv Inv st /\ (forall a, within a (current st) -> within a (current (c_state c))) /\
    (forall w, told [] (current (c_state c)) w -> told gs (current st) w) /\
    propagate_node props disabled abort fuel gs (c_engine c) st = Some (c_status c', c_engine c', c_state c').
Proof.
  intros G St Nm Km E. pose proof (good_node props disabled nv Inv d0 never always always c G) as Nd.
  unfold node in Nd. rewrite St in Nd. destruct Nd as (F & _). pose proof F as (_ & Dd & Ld & _).
  destruct m as [l extra| |extra]; [|congruence|]; cbn [run_move] in E; unfold is_live in E; rewrite St in E.
  - destruct Km as [Kl Kx]. destruct (new_epoch (c_state c)) as [t st1] eqn:N. destruct (new_epoch_fit nv Inv _ _ _ F N) as [F1 C1].
    assert (Kl1 : lit_known (current st1) l) by (destruct F1 as (_ & _ & L & _); now apply (lit_below_known nv l _ L)).
    destruct (guess st1 l) as [fine st2] eqn:Gs. destruct (guess_fit nv Inv HI _ _ _ _ F1 Kl1 Gs) as (i & Ei & _ & _ & R2).
    destruct fine; [|injection E as <-; left; split; reflexivity].
    destruct R2 as [Ni F2]. destruct (add_bounds st2 extra) as [[fine' st3] ch] eqn:AB.
    assert (Kx2 : Forall (lit_known (current st2)) extra) by (apply (fit_known nv Inv); auto).
    destruct (bounds_fit props disabled nv Inv HI _ _ _ _ _ F2 Kx2 AB) as (_ & _ & _ & R3).
    destruct fine'; [|injection E as <-; left; split; reflexivity]. destruct R3 as (F3 & W3 & _).
    right. exists (l :: ch), st3. rewrite C1 in Kl1, Ei.
    destruct (propagate_node props disabled abort fuel (l :: ch) (c_engine c) st3) as [[[s e4] st4]|] eqn:P; [|discriminate].
    injection E as <-. split; [assumption|]. split; [|split; [|reflexivity]].
    + intros a Wa. apply W3 in Wa. destruct Wa as [Wa _]. apply (infer_within _ _ _ _ a Dd Kl1 Ei Ni) in Wa. tauto.
    + intros w T. apply (bounds_told extra [l] st2 st3 ch w F2 Kx2 AB). exact (infer_told [] _ l i _ w Dd Ld Kl1 Ei Ni T).
  - destruct (c_open c); [|discriminate]. destruct (c_path c) as [|q [|]]; try discriminate.
    destruct (add_bounds (c_state c) extra) as [[fine st1] ch] eqn:AB.
    assert (Kx2 : Forall (lit_known (current (c_state c))) extra) by (apply (fit_known nv Inv); auto).
    destruct (bounds_fit props disabled nv Inv HI _ _ _ _ _ F Kx2 AB) as (_ & _ & _ & R3).
    destruct fine; [|injection E as <-; left; split; reflexivity]. destruct R3 as (F3 & W3 & _).
    right. exists ch, st1.
    destruct (propagate_node props disabled abort fuel ch (c_engine c) st1) as [[[s e4] st4]|] eqn:P; [|discriminate].
    injection E as <-. split; [assumption|]. split; [|split; [|reflexivity]].
    + intros a Wa. apply W3 in Wa. tauto.
    + intros w T. exact (bounds_told extra [] _ _ _ w F Kx2 AB T).
Qed.

Lemma fit_callable gs e st : engine_fit props gs e -> state_fit nv Inv st -> callable props nv Inv gs e st.
Proof. intros (F1 & F2 & F3 & F4) (S1 & S2 & S3 & S4). constructor; auto. Qed.

Lemma not_aborted k m : abort m = false -> k <= m -> abort k = true -> False.
Proof.
  intros A L T. assert (abort m = true); [|congruence]. clear A. induction L; auto.
Qed.

Lemma node_told gs e st e' st' : engine_fit props gs e -> state_fit nv Inv st -> told gs (current st) (e_watch e) ->
  propagate_node props disabled abort fuel gs e st = Some (Live, e', st') -> told [] (current st') (e_watch e').
Proof.
  intros FE FS T E. unfold propagate_node in E. pose proof (fit_callable gs e st FE FS) as C.
  destruct (propagate props disabled abort fuel gs e st) as [[[[|] e1] st1]|] eqn:P; try discriminate.
  destruct (abort (e_loads e1)) eqn:Ab; [discriminate|]. injection E as <- <-. cbn [e_watch].
  destruct (propagate_keen gs e st e1 st1 C T P) as [(k & Kk & Ak)|R]; [|exact R].
  exfalso. apply (not_aborted k (e_loads e1)); auto; lia.
Qed.

Lemma told_same e e' d : same n e e' -> told [] d (e_watch e) -> told [] d (e_watch e').
Proof.
  intros S [P A]. assert (IN : forall v y, In y (watches_on (e_watch e') v) -> In y (watches_on (e_watch e) v)).
  { intros v y. apply Permutation_in. apply (sm_watches _ _ _ S v). }
  split; intros v y Hy; [apply P|apply A]; auto.
Qed.

Lemma no_watches : wp_watches (e_watch (installed_engine props)) = [] /\ installed_engine props = mk_engine (mk_pq [] [] 0 0 0) empty_wpart 0.
Proof.
  assert (H : forall ps w, (forall p, In p ps -> p < n) -> fold_left (install_watches props) ps w = w).
  { induction ps as [|q r IH]; intros w B; cbn [fold_left]; [reflexivity|]. rewrite IH by (intros; apply B; right; assumption).
    unfold install_watches. destruct (HU q (B q (or_introl eq_refl))) as [Rf _]. rewrite Rf. reflexivity. }
  assert (X : installed_engine props = mk_engine (mk_pq [] [] 0 0 0) empty_wpart 0).
  { unfold installed_engine. rewrite H; [reflexivity|]. intros q Hq. apply in_seq in Hq. lia. }
  split; [now rewrite X|exact X].
Qed.

Lemma told_first d : told [] d (e_watch (installed_engine props)).
Proof.
  destruct no_watches as [W _]. split; intros v y Hy; exfalso; unfold watches_on in Hy; rewrite W in Hy; now destruct v.
Qed.

Lemma Ws : forall p, In p props -> well_behaved nv Inv p.
Proof. intros q Hq. apply (In_nth props q nil_propagator) in Hq. destruct Hq as (k & Hk & <-). now apply HW. Qed.

Lemma session_told st ms c0 c : startable nv Inv st -> Forall (move_below nv) ms ->
  open_root props disabled abort fuel st = Some c0 -> run_moves props disabled abort fuel ms c0 = Some c ->
  c_status c = Live -> told [] (current (c_state c)) (e_watch (c_engine c)).
Proof.
  intros S Km E R. set (Z := fun c => told [] (current (c_state c)) (e_watch (c_engine c))). change (c_status c = Live -> Z c).
  set (Y := fun _ : config => True).
  pose proof (root_good props disabled abort fuel nv Inv Ws HA never always always (never_sound props nv Inv) (always_wakeable props nv Inv) st c0 S E) as G0.
  assert (Z0 : c_status c0 = Live -> Z c0).
  { destruct (startable_fit nv Inv st S) as [F _]. unfold open_root in E.
    destruct (propagate_node props disabled abort fuel [] (installed_engine props) st) as [[[s e1] st1]|] eqn:P; [|discriminate].
    injection E as <-. cbn. intros ->. unfold Z. cbn. exact (node_told [] _ st e1 st1 (installed_fit props) F (told_first _) P). }
  assert (O0 : c_open c0 = []).
  { unfold open_root in E. destruct (propagate_node props disabled abort fuel [] (installed_engine props) st) as [[[s e1] st1]|]; [|discriminate].
    injection E as <-. reflexivity. }
  assert (FW : forall m c c', good props disabled nv Inv (current st) never always always c -> c_status c = Live -> Z c -> m <> Up -> move_below nv m ->
    run_move props disabled abort fuel m c = Some c' -> c_status c' = Live -> Z c').
  { intros m c1 c2 G1 L1 Z1 Nm K1 R1 L2. destruct (forward (current st) m c1 c2 G1 L1 Nm K1 R1) as [[_ X]|(gs & s3 & F3 & _ & T3 & P3)]; [congruence|].
    rewrite L2 in P3. apply (node_told gs (c_engine c1) s3 _ _); auto.
    apply engine_ok_fit. exact (good_engine props disabled nv Inv (current st) never always always c1 G1). }
  apply (guarded_live (current st) Z Y).
  apply (moves_guarded (current st) Z Y) with (ms := ms) (c := c0); auto.
  - intros c1 c2 [E1 E2 E3 E4 Sm] _ T _. unfold Z. rewrite E1. now apply (told_same (c_engine c1)).
  - intros c1 l extra c2 G1 L1 Z1 K1 R1. split; [exact Logic.I|]. apply (FW (Down l extra) c1 c2); auto. discriminate.
  - intros c1 extra c2 G1 L1 Z1 K1 R1. apply (FW (Again extra) c1 c2); auto. discriminate.
  - now apply guarded_root.
Qed.

Lemma session_alert st ms c0 c : startable nv Inv st -> Forall (move_below nv) ms ->
  open_root props disabled abort fuel st = Some c0 -> run_moves props disabled abort fuel ms c0 = Some c ->
  c_status c = Live -> alert c.
Proof.
  intros S Km E R L v w Hw. destruct (session_told st ms c0 c S Km E R L) as [_ A]. destruct (A v w Hw) as [U|(k & [] & _)]. exact U.
Qed.

(** ** Nodes, as seen by one propagator *)

Section Kept.
Variable p : nat.
Hypothesis Hp : p < n.
Hypothesis Dp : disabled p = false.
Variable K : domains -> (literal -> nat -> Prop) -> (nat -> Z) -> list nat -> Prop.
Variable M : list Z -> Prop.
Hypothesis WA : keeps_watch nv Inv (the p) K M.

Lemma node_kept gs e st s e' st' : engine_fit props gs e -> state_fit nv Inv st ->
  propagate_node props disabled abort fuel gs e st = Some (s, e', st') ->
  (M (memo (e_watch e) p) -> M (memo (e_watch e') p)) /\
  (told gs (current st) (e_watch e) ->
   ((gs = [] /\ fresh p (e_watch e)) \/ (watchful p K M (current st) (e_watch e) /\ (gs <> [] -> enabled e p))) -> s = Live ->
   watchful p K M (current st') (e_watch e') /\ enabled e' p).
Proof.
  intros FE FS E. unfold propagate_node in E. pose proof (fit_callable gs e st FE FS) as C.
  destruct (propagate props disabled abort fuel gs e st) as [[[b e1] st1]|] eqn:P; [|discriminate].
  destruct (propagate_tended p Hp Dp K M WA gs e st b e1 st1 C P) as [P1 P2].
  destruct b; injection E as <- <- <-; (split; [exact P1|]); [|discriminate].
  intros T W L. cbn [e_watch]. destruct (abort (e_loads e1)) eqn:Ab; [discriminate|].
  destruct (P2 T W eq_refl) as [(k & Kk & Ak)|R]; [|exact R]. exfalso. apply (not_aborted k (e_loads e1)); auto; lia.
Qed.

Lemma watchful_weaken d d' w w' : watchful p K M d w -> (forall a, within a d' -> within a d) ->
  (forall k, stored w p k = stored w' p k) -> (forall v y, In y (watches_on w v) -> In y (watches_on w' v)) ->
  M (memo w' p) -> inbox w' p = [] -> watchful p K M d' w'.
Proof.
  intros (Kd & Mm & Ib) W S I M' Ib'. split; [|split; assumption].
  apply (wa_weaken _ _ _ _ _ WA d d' (armed_by w p) (armed_by w' p) (stored w p) (stored w' p) [] []); auto.
  - intros l pl (v & y & Hy & E). left. exists v, y. auto.
  - intros x [].
Qed.

Lemma session_watchful st ms c0 c : startable nv Inv st -> Forall (move_below nv) ms ->
  open_root props disabled abort fuel st = Some c0 -> run_moves props disabled abort fuel ms c0 = Some c ->
  c_status c = Live -> watchful p K M (current (c_state c)) (e_watch (c_engine c)).
Proof.
  intros S Km E R.
  set (Z := fun c => told [] (current (c_state c)) (e_watch (c_engine c)) /\ watchful p K M (current (c_state c)) (e_watch (c_engine c)) /\ enabled (c_engine c) p).
  set (Y := fun c => M (memo (e_watch (c_engine c)) p)).
  cut (c_status c = Live -> Z c). { intros H L. now apply H. }
  pose proof (root_good props disabled abort fuel nv Inv Ws HA never always always (never_sound props nv Inv) (always_wakeable props nv Inv) st c0 S E) as G0.
  assert (Z0 : c_status c0 = Live -> Z c0).
  { destruct (startable_fit nv Inv st S) as [F _]. unfold open_root in E.
    destruct (propagate_node props disabled abort fuel [] (installed_engine props) st) as [[[s e1] st1]|] eqn:P; [|discriminate].
    injection E as <-. cbn. intros ->. unfold Z. cbn. split; [exact (node_told [] _ st e1 st1 (installed_fit props) F (told_first _) P)|].
    destruct (node_kept [] _ st Live e1 st1 (installed_fit props) F P) as [_ N]. apply N; auto using told_first. left. split; [reflexivity|].
    destruct no_watches as [_ ->]. cbn. unfold fresh, inbox, memo, stored, scratch_get, watches_on, empty_wpart. cbn. destruct p; repeat split; auto; intros [|] *; cbn; auto; now destruct 1. }
  assert (O0 : c_open c0 = []).
  { unfold open_root in E. destruct (propagate_node props disabled abort fuel [] (installed_engine props) st) as [[[s e1] st1]|]; [|discriminate].
    injection E as <-. reflexivity. }
  assert (FW : forall m c c', good props disabled nv Inv (current st) never always always c -> c_status c = Live -> Z c -> m <> Up -> move_below nv m ->
    run_move props disabled abort fuel m c = Some c' -> Y c' /\ (c_status c' = Live -> Z c')).
  { intros m c1 c2 G1 L1 (Z1 & Z2 & Z3) Nm K1 R1. pose proof (good_engine props disabled nv Inv (current st) never always always c1 G1) as O1.
    destruct (forward (current st) m c1 c2 G1 L1 Nm K1 R1) as [[X1 X2]|(gs & s3 & F3 & W3 & T3 & P3)].
    - split; [unfold Y; rewrite X1; apply Z2|congruence].
    - destruct (node_kept gs _ s3 _ _ _ (engine_ok_fit props gs _ O1) F3 P3) as [N1 N2]. split; [apply N1, Z2|].
      intro L2. assert (A : watchful p K M (current (c_state c2)) (e_watch (c_engine c2)) /\ enabled (c_engine c2) p).
      { apply N2; auto. right. split; [|auto]. apply (watchful_weaken _ _ _ (e_watch (c_engine c1)) Z2 W3); auto; apply Z2. }
      split; [|exact A]. rewrite L2 in P3. exact (node_told gs _ s3 _ _ (engine_ok_fit props gs _ O1) F3 (T3 _ Z1) P3). }
  apply (guarded_live (current st) Z Y).
  apply (moves_guarded (current st) Z Y) with (ms := ms) (c := c0); auto.
  - intros c1 c2 [E1 E2 E3 E4 Sm] O2 (Z1 & Z2 & Z3) Y2. unfold Z. rewrite E1. split; [now apply (told_same (c_engine c1))|]. split.
    + apply (watchful_weaken _ _ (e_watch (c_engine c1)) (e_watch (c_engine c2)) Z2); auto.
      * intro k. symmetry. apply (sm_scratch _ _ _ Sm).
      * intros v y. apply Permutation_in. symmetry. apply (sm_watches _ _ _ Sm v).
      * apply (eo_inbox _ _ O2).
    + apply (sm_enabled _ _ _ Sm); auto.
  - intros c1 c2 Y1 R1. cbn [run_move] in R1. destruct (c_open c1), (c_path c1); try discriminate. destruct (backtrack _ _) as [st2 us]. injection R1 as <-.
    unfold Y in *. cbn [c_engine]. revert Y1. generalize (c_engine c1). clear. induction us as [|u r IH]; intros e Y1; cbn [fold_left]; [exact Y1|].
    apply IH. destruct u; exact Y1.
  - intros c1 l extra c2 G1 L1 Z1 K1 R1. apply (FW (Down l extra) c1 c2); auto. discriminate.
  - intros c1 extra c2 G1 L1 Z1 K1 R1. apply (FW (Again extra) c1 c2); auto. discriminate.
  - now apply guarded_root.
Qed.
End Kept.
End Session.
