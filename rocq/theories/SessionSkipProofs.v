(** A disabled propagator is not run. *)
From Coq Require Import ZArith List Bool Arith Lia Permutation.
From Verif Require Import Vars VarsSpec State StateSpec Epochs Engine EngineSpec EngineQueueProofs EngineWatchProofs EngineProofs
  EngineLoopProofs EngineCallProofs Session SessionSpec SessionProofs SessionInvProofs SessionResults.
Import ListNotations.

Section Skip.
Variable props : list propagator.
Variable p : nat.
Variable f : prop_in -> prop_out.
Notation props' := (running p f props).
Notation n := (length props).

Lemma running_length : length props' = n.
Proof. unfold running. apply set_nth_length. Qed.

Lemma running_static q : p_on_change (the_prop props' q) = p_on_change (the_prop props q) /\
  p_on_bounds (the_prop props' q) = p_on_bounds (the_prop props q) /\
  p_on_instantiated (the_prop props' q) = p_on_instantiated (the_prop props q) /\
  p_scope_only (the_prop props' q) = p_scope_only (the_prop props q) /\
  p_refined (the_prop props' q) = p_refined (the_prop props q).
Proof.
  unfold the_prop, running. destruct (le_lt_dec n p) as [L|L].
  - assert (E : forall x, set_nth props p x = props).
    { intro x. revert L. clear. revert p. induction props as [|y r IH]; intros [|p] L; simpl in *; try reflexivity; try lia.
      f_equal. apply IH. lia. }
    rewrite E. auto.
  - rewrite nth_set_nth by assumption. destruct (Nat.eqb_spec q p) as [->|]; cbn; auto.
Qed.

Lemma running_other q : q <> p -> p_run (the_prop props' q) = p_run (the_prop props q).
Proof. intro. unfold the_prop, running. rewrite nth_set_nth_other by assumption. reflexivity. Qed.

Lemma running_wiring q : wiring (the_prop props' q) = wiring (the_prop props q).
Proof. destruct (running_static q) as (A & B & C & _). unfold wiring. now rewrite A, B, C. Qed.

Lemma running_positions q : positions (the_prop props' q) = positions (the_prop props q).
Proof. destruct (running_static q) as (A & B & C & D & _). unfold positions. now rewrite A, B, C, D. Qed.

Lemma running_scope q : scope (the_prop props' q) = scope (the_prop props q).
Proof. destruct (running_static q) as (_ & _ & _ & _ & E). unfold scope. now rewrite running_positions, E. Qed.

Lemma running_woken v i : coarse_woken props' v i = coarse_woken props v i.
Proof.
  unfold coarse_woken. rewrite running_length. apply flat_map_ext. intro q. unfold woken_by. now rewrite running_wiring.
Qed.

Lemma running_requeue d e ev : requeue props' d e ev = requeue props d e ev.
Proof. unfold requeue. destruct ev. now rewrite running_woken. Qed.

Lemma running_requeues d evs : forall e, fold_left (requeue props' d) evs e = fold_left (requeue props d) evs e.
Proof. induction evs as [|ev r IH]; intro e; simpl; [reflexivity|]. now rewrite running_requeue, IH. Qed.

Lemma running_replay evs : forall k prot cl q, replay props' k prot cl evs q = replay props k prot cl evs q.
Proof.
  induction evs as [|[v i] r IH]; intros k prot cl q; simpl; [reflexivity|]. destruct (unprotect k prot cl). now rewrite running_woken, IH.
Qed.

Lemma running_boundary l : boundary props' l = boundary props l.
Proof. unfold boundary. rewrite running_requeues. destruct (l_claims l); [reflexivity|]. rewrite running_replay. reflexivity. Qed.

Lemma running_request q w r : request props' q w r = request props q w r.
Proof. destruct r; cbn; auto. now rewrite running_scope. Qed.

Lemma running_requests q rs : forall w, fold_left (request props' q) rs w = fold_left (request props q) rs w.
Proof. induction rs as [|r rs IH]; intro w; simpl; [reflexivity|]. now rewrite running_request, IH. Qed.

Lemma running_prop q l : q <> p -> run_prop props' q l = run_prop props q l.
Proof.
  intro N. unfold run_prop, after_run. rewrite (running_other q N), running_requests. unfold claims_ignored. now rewrite running_positions.
Qed.

Lemma running_start disabled gs e st : start props' disabled gs e st = start props disabled gs e st.
Proof. unfold start. rewrite running_length. destruct gs; [reflexivity|]. now rewrite running_requeues. Qed.

Lemma running_installed : installed_engine props' = installed_engine props.
Proof.
  unfold installed_engine. rewrite running_length. f_equal. generalize empty_wpart. induction (seq 0 n) as [|q r IH]; intro w; simpl; [reflexivity|].
  rewrite IH. f_equal. unfold install_watches. destruct (running_static q) as (_ & _ & _ & _ & E). now rewrite E.
Qed.

(** ** Retired for good *)

Lemma retired_iterate disabled abort l : disabled p = true -> iterate props' disabled abort l = iterate props disabled abort l.
Proof.
  intro D. unfold iterate. rewrite running_boundary. set (l1 := boundary props l).
  destruct (_ =? _); [reflexivity|]. set (q := nth _ _ 0). destruct (disabled q) eqn:Dq; [reflexivity|].
  rewrite running_prop by congruence. reflexivity.
Qed.

Lemma retired_loop disabled abort fuel : disabled p = true -> forall l, run_loop props' disabled abort fuel l = run_loop props disabled abort fuel l.
Proof.
  intro D. induction fuel as [|k IH]; intro l; simpl; [reflexivity|]. rewrite retired_iterate by assumption.
  destruct (iterate props disabled abort l); auto.
Qed.

Lemma retired_propagate disabled abort fuel gs e st : disabled p = true ->
  propagate props' disabled abort fuel gs e st = propagate props disabled abort fuel gs e st.
Proof. intro D. unfold propagate. rewrite running_start. destruct (start _ _ _ _ _). now rewrite retired_loop. Qed.

Lemma retired_move disabled abort fuel m c : disabled p = true -> run_move props' disabled abort fuel m c = run_move props disabled abort fuel m c.
Proof.
  intro D. destruct m as [l extra| |extra]; cbn [run_move]; [| reflexivity |].
  - destruct (is_live c); [|reflexivity]. destruct (new_epoch _). destruct (guess _ _) as [[|] ?]; [|reflexivity].
    destruct (add_bounds _ _) as [[[|] ?] ?]; [|reflexivity]. unfold propagate_node. now rewrite retired_propagate.
  - destruct (c_open c); [|reflexivity]. destruct (c_path c) as [|? [|]]; try reflexivity. destruct (is_live c); [|reflexivity].
    destruct (add_bounds _ _) as [[[|] ?] ?]; [|reflexivity]. unfold propagate_node. now rewrite retired_propagate.
Qed.

Lemma retired_root disabled abort fuel st : disabled p = true -> open_root props' disabled abort fuel st = open_root props disabled abort fuel st.
Proof. intro D. unfold open_root, propagate_node. now rewrite running_installed, retired_propagate. Qed.

Lemma retired_moves disabled abort fuel ms : disabled p = true -> forall c,
  run_moves props' disabled abort fuel ms c = run_moves props disabled abort fuel ms c.
Proof.
  intro D. induction ms as [|m r IH]; intro c; simpl; [reflexivity|]. rewrite retired_move by assumption.
  destruct (run_move props disabled abort fuel m c); auto.
Qed.

(** ** Disabled until backtrack *)

Variable disabled : nat -> bool.
Variable abort : nat -> bool.
Variable fuel : nat.
Variable nv : nat.
Variable Inv : domains -> list cstate -> Prop.
Hypothesis HW : forall q, In q props -> well_behaved nv Inv q.
Hypothesis HI : stable nv Inv.
Hypothesis HA : stays_set abort.

Lemma HWn : forall q, q < n -> well_behaved nv Inv (the_prop props q).
Proof. intros q L. apply HW. now apply nth_In. Qed.

Lemma asleep_iterate l : base props nv Inv l -> p < n -> q_idle (e_pq (l_engine l)) <= pos (e_pq (l_engine l)) p ->
  iterate props' disabled abort l = iterate props disabled abort l.
Proof.
  intros B Hp A. unfold iterate. rewrite running_boundary.
  destruct (boundary_spec props disabled abort nv Inv l B) as (B1 & P1 & _).
  pose proof (pg_above _ _ _ P1 p Hp A) as E1. pose proof (pg_idle _ _ _ P1) as I1. set (l1 := boundary props l) in *.
  destruct (Nat.eqb_spec (q_begin (e_pq (l_engine l1))) (q_end (e_pq (l_engine l1)))) as [|Ne]; [reflexivity|].
  set (q := nth _ _ 0). destruct (disabled q) eqn:Dq; [reflexivity|].
  assert (q <> p).
  { pose proof (ok_order n _ (b_pq _ _ _ _ B1)) as O. destruct (ok_queue n _ (b_pq _ _ _ _ B1) (q_begin (e_pq (l_engine l1)))) as [_ P2]; [lia|].
    fold q in P2. intros ->. lia. }
  rewrite running_prop by assumption. reflexivity.
Qed.

Lemma asleep_loop k : forall l, base props nv Inv l -> p < n -> q_idle (e_pq (l_engine l)) <= pos (e_pq (l_engine l)) p ->
  run_loop props' disabled abort k l = run_loop props disabled abort k l.
Proof.
  induction k as [|k IH]; intros l B Hp A; simpl; [reflexivity|]. rewrite asleep_iterate by assumption.
  pose proof (iterate_spec props disabled abort nv Inv HWn l B) as S.
  destruct (iterate props disabled abort l) as [l'|]; [|reflexivity]. destruct S as (B' & P' & _).
  apply IH; auto. rewrite (pg_above _ _ _ P' p Hp A). pose proof (pg_idle _ _ _ P'). lia.
Qed.

Lemma asleep_propagate gs e st : gs <> [] -> callable props nv Inv gs e st -> p < n -> ~ enabled e p ->
  propagate props' disabled abort fuel gs e st = propagate props disabled abort fuel gs e st.
Proof.
  intros Ne C Hp A. unfold propagate. rewrite running_start.
  pose proof (start_spec props disabled abort nv Inv gs e st C) as S. destruct (start props disabled gs e st) as [e1 st1].
  destruct S as (B & _ & _ & _ & Id & Ab & _).
  assert (St : started props disabled gs e st = e_pq e) by (unfold started; destruct gs; congruence).
  rewrite St in *. unfold enabled in A.
  rewrite asleep_loop; auto. cbn [l_engine]. rewrite Id, (Ab p Hp) by lia. lia.
Qed.

Lemma asleep_down d0 c l extra : good props disabled nv Inv d0 never always always c -> move_below nv (Down l extra) -> p < n -> ~ enabled (c_engine c) p ->
  run_move props' disabled abort fuel (Down l extra) c = run_move props disabled abort fuel (Down l extra) c.
Proof.
  intros G [Kl Kx] Hp A. pose proof (good_engine _ _ _ _ _ _ _ _ _ G) as O. pose proof (good_node _ _ _ _ _ _ _ _ _ G) as Nd.
  cbn [run_move]. unfold is_live. unfold node in Nd. destruct (c_status c) eqn:L; try reflexivity. destruct Nd as (F & _).
  destruct (new_epoch (c_state c)) as [t st1] eqn:N. destruct (new_epoch_fit nv Inv _ _ _ F N) as [F1 C1].
  assert (Kl1 : lit_known (current st1) l) by (destruct F1 as (_ & _ & L1 & _); now apply (lit_below_known nv l _ L1)).
  destruct (guess st1 l) as [fine st2] eqn:Gs.
  destruct (guess_fit nv Inv HI _ _ _ _ F1 Kl1 Gs) as (i & Ei & HE2 & L2 & R2).
  destruct fine; [|reflexivity]. destruct R2 as [Ni F2]. destruct (add_bounds st2 extra) as [[fine' st3] ch] eqn:AB.
  destruct (bounds_fit props disabled nv Inv HI _ _ _ _ _ F2 (fit_known nv Inv _ _ F2 Kx) AB) as (HE3 & L3 & Inc & R3).
  destruct fine'; [|reflexivity]. destruct R3 as ((E3 & D3 & N3 & I3) & _).
  unfold propagate_node. rewrite asleep_propagate; auto; [discriminate|].
  constructor; auto; [intros _; apply O|apply O].
Qed.

Lemma asleep_after_down d0 c l extra c' : good props disabled nv Inv d0 never always always c -> move_below nv (Down l extra) -> p < n -> ~ enabled (c_engine c) p ->
  run_move props disabled abort fuel (Down l extra) c = Some c' -> good props disabled nv Inv d0 never always always c' /\ ~ enabled (c_engine c') p.
Proof.
  intros G K Hp A E. destruct (down_good props disabled abort fuel nv Inv d0 never always always HWn HI HA (never_sound props nv Inv) (always_wakeable props nv Inv) _ _ _ _ G K E) as (G1 & t & st & called & L & N & Ho & Hpp & Hc).
  split; [assumption|]. destruct Hc as (_ & d & cs & cb & gg & _ & H). unfold enabled in *. destruct called; destruct H as [_ H].
  - rewrite (bl_above _ _ _ H p Hp) by lia. pose proof (bl_idle _ _ _ H). lia.
  - intro X. apply A. apply (sm_enabled _ _ _ H p Hp). exact X.
Qed.

Lemma asleep_excursion d0 ex : excursion ex -> forall c, good props disabled nv Inv d0 never always always c -> Forall (move_below nv) ex -> p < n ->
  ~ enabled (c_engine c) p -> run_moves props' disabled abort fuel ex c = run_moves props disabled abort fuel ex c.
Proof.
  induction 1 as [|l extra inside rest X1 IH1 X2 IH2]; intros c G K Hp A; [reflexivity|].
  assert (Kall := K). inversion K as [|? ? K1 K2]; subst. apply Forall_app in K2. destruct K2 as [K2 K3]. inversion K3 as [|? ? _ K4]; subst.
  cbn [run_moves]. rewrite (asleep_down d0 c l extra G K1 Hp A).
  destruct (run_move props disabled abort fuel (Down l extra) c) as [c1|] eqn:E1; [|reflexivity].
  destruct (asleep_after_down d0 c l extra c1 G K1 Hp A E1) as [G1 A1].
  rewrite !run_moves_app, (IH1 c1 G1 K2 Hp A1).
  destruct (run_moves props disabled abort fuel inside c1) as [c2|] eqn:E2; [|reflexivity].
  cbn [run_moves]. change (run_move props' disabled abort fuel Up c2) with (run_move props disabled abort fuel Up c2).
  destruct (run_move props disabled abort fuel Up c2) as [c3|] eqn:E3; [|reflexivity].
  assert (X : excursion (Down l extra :: inside ++ [Up])) by (constructor; [assumption|constructor]).
  assert (Kx : Forall (move_below nv) (Down l extra :: inside ++ [Up])).
  { constructor; [assumption|]. apply Forall_app. split; [assumption|]. repeat constructor. }
  assert (E : run_moves props disabled abort fuel (Down l extra :: inside ++ [Up]) c = Some c3).
  { cbn [run_moves]. rewrite E1, run_moves_app, E2. cbn [run_moves]. now rewrite E3. }
  destruct (excursion_sim props disabled abort fuel nv Inv d0 never always always HWn HI HA (never_sound props nv Inv) (always_wakeable props nv Inv) _ X c c3 G Kx E) as [Si O].
  apply IH2; auto; [now apply (sim_good _ _ _ _ _ _ _ _ c)|]. intro Z. apply A. now apply (sm_enabled _ _ _ (si_same _ _ _ Si) p Hp).
Qed.

Lemma asleep_descent d0 ms : descent ms -> forall c, good props disabled nv Inv d0 never always always c -> Forall (move_below nv) ms -> p < n ->
  ~ enabled (c_engine c) p -> run_moves props' disabled abort fuel ms c = run_moves props disabled abort fuel ms c.
Proof.
  induction 1 as [|l extra rest X IH|l extra inside rest X1 X2 IH]; intros c G K Hp A; [reflexivity| |].
  - inversion K as [|? ? K1 K2]; subst. cbn [run_moves]. rewrite (asleep_down d0 c l extra G K1 Hp A).
    destruct (run_move props disabled abort fuel (Down l extra) c) as [c1|] eqn:E1; [|reflexivity].
    destruct (asleep_after_down d0 c l extra c1 G K1 Hp A E1) as [G1 A1]. now apply IH.
  - assert (X : excursion (Down l extra :: inside ++ [Up])) by (constructor; [assumption|constructor]).
    assert (SP : Down l extra :: inside ++ Up :: rest = (Down l extra :: inside ++ [Up]) ++ rest).
    { cbn [app]. now rewrite <- app_assoc. }
    rewrite SP in *. apply Forall_app in K. destruct K as [K1 K2]. rewrite !run_moves_app, (asleep_excursion d0 _ X c G K1 Hp A).
    destruct (run_moves props disabled abort fuel (Down l extra :: inside ++ [Up]) c) as [c3|] eqn:E; [|reflexivity].
    destruct (excursion_sim props disabled abort fuel nv Inv d0 never always always HWn HI HA (never_sound props nv Inv) (always_wakeable props nv Inv) _ X c c3 G K1 E) as [Si O].
    apply IH; auto; [now apply (sim_good _ _ _ _ _ _ _ _ c)|]. intro Z. apply A. now apply (sm_enabled _ _ _ (si_same _ _ _ Si) p Hp).
Qed.

Lemma session_asleep st ms c0 c ds : startable nv Inv st -> Forall (move_below nv) ms -> Forall (move_below nv) ds ->
  open_root props disabled abort fuel st = Some c0 -> run_moves props disabled abort fuel ms c0 = Some c ->
  descent ds -> p < n -> ~ may_run (c_engine c) p ->
  run_moves props' disabled abort fuel ds c = run_moves props disabled abort fuel ds c.
Proof.
  intros S K Kd E R D Hp A. pose proof (plain_good props disabled abort fuel nv Inv HW HI HA _ _ _ _ S K E R) as G.
  apply (asleep_descent (current st)); auto.
  rewrite <- (may_run_enabled n); auto. apply (good_engine _ _ _ _ _ _ _ _ _ G).
Qed.

End Skip.

Lemma session_eligible props disabled abort fuel nv Inv : (forall p, In p props -> well_behaved nv Inv p) -> stable nv Inv -> stays_set abort ->
  forall st ms c0 c ex c', startable nv Inv st -> Forall (move_below nv) ms -> Forall (move_below nv) ex ->
  open_root props disabled abort fuel st = Some c0 -> run_moves props disabled abort fuel ms c0 = Some c ->
  excursion ex -> run_moves props disabled abort fuel ex c = Some c' ->
  forall p, p < length props -> (may_run (c_engine c') p <-> may_run (c_engine c) p).
Proof.
  intros HW HI HA st ms c0 c ex c' S K Kx E R X Rx.
  apply (session_restored props disabled abort fuel nv Inv HW HI HA st ms c0 c ex c' S K Kx E R X Rx).
Qed.
