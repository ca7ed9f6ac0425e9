(** The invariant of sessions. *)
From Coq Require Import ZArith List Bool Arith Lia Permutation.
From Verif Require Import IntervalSet IntervalSetSpec IntervalSetProofs Vars VarsSpec State StateSpec StateProofs Epochs EpochsProofs Engine EngineSpec EngineQueueProofs
  EngineWatchProofs EngineProofs EngineLoopProofs EngineCallProofs Session SessionSpec SessionProofs.
Import ListNotations.

Lemma lit_below_known nv l d : length d = nv -> (lit_below nv l <-> lit_known d l).
Proof.
  intros <-. unfold lit_below, lit_known, lit_underlying, cond_known, var_known, underlying.
  destruct l as [c| |]; try tauto. destruct (c_var c); tauto.
Qed.

Lemma total_size_mono d d' : domains_ok d -> domains_ok d' -> length d' = length d ->
  (forall a, within a d' -> within a d) -> (total_size d' <= total_size d)%nat.
Proof.
  intros Hd Hd' L W.
  assert (P : forall v, v < length d -> length (each (nth v d' [])) <= length (each (nth v d []))).
  { intros v Hv. apply NoDup_incl_length.
    - apply incr_NoDup, each_incr. apply (Hd' v). unfold domains, iset in *; lia.
    - intros x Hx. apply each_In in Hx. apply each_In. eapply within_pointwise; eauto. }
  clear - L P. unfold total_size, domains in *. revert d' L P. induction d as [|s r IH]; intros [|s' r'] L P; simpl in *; try discriminate; [lia|].
  specialize (IH r' ltac:(lia)). pose proof (P 0 ltac:(lia)) as P0. simpl in P0.
  assert (IH' : list_sum (map (fun s => length (each s)) r') <= list_sum (map (fun s => length (each s)) r)).
  { apply IH. intros v Hv. apply (P (S v)). lia. }
  lia.
Qed.

Section Session.
Variable props : list propagator.
Variable disabled : nat -> bool.
Variable abort : nat -> bool.
Variable fuel : nat.
Notation n := (length props).
Notation the := (the_prop props).
Variable nv : nat.
Variable Inv : domains -> list cstate -> Prop.
Variable d0 : domains.
Variable Sol : assignment -> Prop.
Variable ok dead : nat -> domains -> Prop.

Definition node (c : config) : Prop :=
  match c_status c with
  | Live =>
      state_fit nv Inv (c_state c) /\
      settled props disabled ok dead (c_engine c) (current (c_state c)) /\
      (forall a, within a (current (c_state c)) -> within a d0 /\ path_holds a c) /\
      (forall a, within a d0 -> path_holds a c -> Sol a -> within a (current (c_state c)))
  | Failed => forall a, within a d0 -> path_holds a c -> ~ Sol a
  | Aborted => True
  end.

Inductive good : config -> Prop :=
| good_root c p : c_open c = [] -> c_path c = [p] -> engine_ok n (c_engine c) -> balanced (c_state c) -> node c -> good c
| good_child c0 c1 called t st p : good c0 -> c_status c0 = Live -> new_epoch (c_state c0) = (t, st) ->
    c_open c1 = t :: c_open c0 -> c_path c1 = p :: c_path c0 ->
    child n called (c_engine c0) (c_state c0) (c_engine c1) (c_state c1) -> node c1 -> good c1.

Lemma good_engine c : good c -> engine_ok n (c_engine c).
Proof. destruct 1 as [|? ? ? ? ? ? ? ? ? ? ? [H _]]; auto. Qed.

Lemma good_balanced c : good c -> balanced (c_state c).
Proof.
  induction 1 as [|c0 c1 called t st p G IH L N O P (E & d & cs & cb & gg & ES & _) Nd]; auto.
  destruct IH as [A B]. rewrite ES. split; cbn; congruence.
Qed.

Lemma good_node c : good c -> node c.
Proof. destruct 1; auto. Qed.

Lemma good_path c : good c -> length (c_path c) = S (length (c_open c)).
Proof. induction 1 as [c p E1 E2|? ? ? ? ? ? ? IH ? ? E1 E2]; [rewrite E1, E2; reflexivity|]. rewrite E1, E2. simpl. lia. Qed.

(** Indistinguishable configurations. *)
Record sim (c c' : config) : Prop :=
  { si_state : c_state c' = c_state c;
    si_open : c_open c' = c_open c;
    si_path : c_path c' = c_path c;
    si_status : c_status c' = c_status c;
    si_same : same n (c_engine c) (c_engine c') }.

Lemma sim_refl c : sim c c.
Proof. constructor; auto using same_refl. Qed.

Lemma sim_trans c1 c2 c3 : sim c1 c2 -> sim c2 c3 -> sim c1 c3.
Proof. intros [] []. constructor; try congruence. eapply same_trans; eauto. Qed.

Lemma sim_node c c' : sim c c' -> node c -> node c'.
Proof.
  intros [E1 E2 E3 E4 S]. unfold node, path_holds. rewrite E4, E1, E3. destruct (c_status c); auto.
  intros (A & B & C). split; [assumption|]. split; [|assumption]. eapply same_settled; eauto.
Qed.

Lemma sim_good c c' : sim c c' -> engine_ok n (c_engine c') -> good c -> good c'.
Proof.
  intros Si O G. pose proof (sim_node _ _ Si (good_node _ G)) as Nd. destruct Si as [E1 E2 E3 E4 S].
  destruct G as [c p Ho Hp He Hb Hn|c0 c1 called t st p G L N Ho Hp Hc Hn].
  - apply (good_root c' p); congruence.
  - apply (good_child c0 c' called t st p); try congruence.
    rewrite E1. eapply child_same; eauto.
Qed.

Hypothesis HW : forall p, p < n -> well_behaved nv Inv (the p).
Hypothesis HI : stable nv Inv.
Hypothesis HA : stays_set abort.
Hypothesis HS : forall p, p < n -> sound_for nv Inv Sol (the p).
Hypothesis HK : forall x, x < n -> wakeable nv Inv (the x) (ok x) (dead x).

Lemma stays_set_le k k' : k <= k' -> abort k = true -> abort k' = true.
Proof. induction 1; auto. Qed.

Lemma node_call gs e st s e' st' : engine_fit props gs e -> state_fit nv Inv st ->
  (gs <> [] -> settled_but props disabled ok dead gs e (current st)) ->
  propagate_node props disabled abort fuel gs e st = Some (s, e', st') ->
  engine_ok n e' /\ (exists u, st' = opened st u (current st') (top (st_cstates st'))) /\ has_epoch st' /\
  (forall e0 st0, gs <> [] -> child n false e0 st0 e st -> child n true e0 st0 e' st') /\
  match s with
  | Live => state_fit nv Inv st' /\ narrow props nv Inv (current st) (current st') /\ settled props disabled ok dead e' (current st')
  | Failed => no_solution props nv Inv (current st)
  | Aborted => True
  end.
Proof.
  intros FE FS ST E. unfold propagate_node in E.
  destruct (propagate props disabled abort fuel gs e st) as [[[b e1] st1]|] eqn:P; [|discriminate].
  destruct (propagate_call props disabled nv Inv HW abort _ _ _ _ _ _ _ FE FS P) as (O & B & (u & _ & U) & HE & L & LO & R).
  assert (CH : forall e0 st0, gs <> [] -> child n false e0 st0 e st -> child n true e0 st0 e1 st1).
  { intros e0 st0 G C. exact (child_propagate props disabled nv Inv HW abort _ _ _ _ _ _ _ _ _ G C FS P). }
  destruct b; injection E as <- <- <-.
  - assert (SM : engine_ok n (mk_engine (e_pq e1) (e_watch e1) (S (e_loads e1)))) by (destruct O; constructor; auto).
    assert (SE : same n e1 (mk_engine (e_pq e1) (e_watch e1) (S (e_loads e1)))).
    { destruct (same_refl n e1). constructor; auto. }
    split; [assumption|]. split; [eauto|]. split; [assumption|]. split; [intros; eapply child_same; eauto|].
    destruct (abort (e_loads e1)) eqn:Ab; [exact Logic.I|].
    destruct R as (R1 & R2 & [(k & K1 & K2)|R3]).
    + exfalso. rewrite (stays_set_le k (e_loads e1)) in Ab; [discriminate|lia|assumption].
    + split; [assumption|]. split; [assumption|]. eapply same_settled; [exact SE|]. apply R3; auto.
  - split; [assumption|]. split; [eauto|]. split; [assumption|]. split; [exact CH|exact R].
Qed.

Lemma new_epoch_fit st t st' : state_fit nv Inv st -> new_epoch st = (t, st') -> state_fit nv Inv st' /\ current st' = current st.
Proof.
  intros ((E1 & E2 & E3) & D & L & I) E. unfold new_epoch in E. injection E as _ <-.
  split; [|reflexivity]. split; [|split; [|split]]; auto. repeat split; discriminate.
Qed.

Lemma fit_known st ls : state_fit nv Inv st -> Forall (lit_below nv) ls -> Forall (lit_known (current st)) ls.
Proof. intros (_ & _ & L & _) F. eapply Forall_impl; [|exact F]. intros l H. now apply (lit_below_known nv l (current st) L). Qed.

Lemma opened_balanced st u d cs : balanced st -> balanced (opened st u d cs).
Proof. intros [A B]. unfold balanced, opened. cbn.
  split; (etransitivity; [apply set_top_length|]); (etransitivity; [|symmetry; apply set_top_length]); assumption.
Qed.

Lemma down_good c l extra c' : good c -> move_below nv (Down l extra) ->
  run_move props disabled abort fuel (Down l extra) c = Some c' ->
  good c' /\ exists t st called, c_status c = Live /\ new_epoch (c_state c) = (t, st) /\ c_open c' = t :: c_open c /\
    c_path c' = (l :: extra) :: c_path c /\ child n called (c_engine c) (c_state c) (c_engine c') (c_state c').
Proof.
  intros G [Kl Kx] E. pose proof (good_node c G) as Nd. pose proof (good_engine c G) as O.
  cbn [run_move] in E. unfold is_live in E. destruct (c_status c) eqn:St; try discriminate.
  unfold node in Nd. rewrite St in Nd. destruct Nd as (F & S & W1 & W2).
  destruct (new_epoch (c_state c)) as [t st1] eqn:N. destruct (new_epoch_fit _ _ _ F N) as [F1 C1].
  pose proof (child_new n _ _ _ _ O N) as Ch1.
  assert (Kl1 : lit_known (current st1) l) by (destruct F1 as (_ & _ & L & _); now apply (lit_below_known nv l _ L)).
  destruct (guess st1 l) as [fine st2] eqn:Gs.
  destruct (guess_fit nv Inv HI _ _ _ _ F1 Kl1 Gs) as (i & Ei & HE2 & L2 & R2).
  pose proof (child_guess n _ _ _ _ _ _ _ _ Ch1 Gs) as Ch2. rewrite C1 in Ei.
  destruct F as (HE & Dd & Ld & Iv).
  assert (Kl0 : lit_known (current (c_state c)) l) by (rewrite <- C1; exact Kl1).
  assert (MK : forall c' called, c_open c' = t :: c_open c -> c_path c' = (l :: extra) :: c_path c ->
     child n called (c_engine c) (c_state c) (c_engine c') (c_state c') -> node c' ->
     good c' /\ exists t0 st called, Live = Live /\ (t, st1) = (t0, st) /\ c_open c' = t0 :: c_open c /\
    c_path c' = (l :: extra) :: c_path c /\ child n called (c_engine c) (c_state c) (c_engine c') (c_state c')).
  { intros c1 called E1 E2 Hc Hn. split; [|exists t, st1, called; auto].
    apply (good_child c c1 called t st1 (l :: extra)); auto. }
  assert (PH : forall a e st s, path_holds a (mk_config e st (t :: c_open c) ((l :: extra) :: c_path c) s) <->
     lit_holds a l /\ Forall (lit_holds a) extra /\ path_holds a c).
  { intros. unfold path_holds. cbn [c_path concat]. rewrite <- app_comm_cons, Forall_cons_iff, Forall_app. tauto. }
  destruct fine.
  - destruct R2 as [Ni F2].
    pose proof (fun a => infer_within _ _ _ _ a Dd Kl0 Ei Ni) as IW.
    destruct (add_bounds st2 extra) as [[fine' st3] ch] eqn:AB.
    assert (Kx2 : Forall (lit_known (current st2)) extra) by (apply fit_known; auto).
    destruct (bounds_fit props disabled nv Inv HI _ _ _ _ _ F2 Kx2 AB) as (HE3 & L3 & Inc & R3).
    pose proof (child_bounds n _ _ _ _ _ _ _ _ _ Ch2 AB) as Ch3.
    destruct fine'.
    + destruct R3 as (F3 & W3 & S3 & _).
      destruct (propagate_node props disabled abort fuel (l :: ch) (c_engine c) st3) as [[[s e4] st4]|] eqn:P; [|discriminate].
      injection E as <-.
      assert (SB : l :: ch <> [] -> settled_but props disabled ok dead (l :: ch) (c_engine c) (current st3)).
      { intros _. apply (S3 ok dead [l]); [assumption|].
        apply (settled_infer props disabled nv Inv ok dead [] _ (current (c_state c)) l i); auto.
        apply settled_start. auto. }
      destruct (node_call _ _ _ _ _ _ (engine_ok_fit props (l :: ch) _ O) F3 SB P) as (O4 & _ & HE4 & Ch4 & R4).
      apply (MK _ true); auto.
      * cbn [c_engine c_state]. apply Ch4; [discriminate|assumption].
      * unfold node. cbn [c_status c_state c_engine]. destruct s; [| |exact Logic.I].
        -- destruct R4 as (F4 & (Na & Nb) & S4). split; [assumption|]. split; [assumption|]. split.
           ++ intros a Wa. rewrite PH. apply Na, W3 in Wa. destruct Wa as [Wa X]. apply IW in Wa. destruct Wa as [Wa Y].
              apply W1 in Wa. tauto.
           ++ intros a Wa X Sa. rewrite PH in X. destruct X as (X1 & X2 & X3). apply (Nb Sol HS); auto.
              apply W3. split; [|assumption]. apply IW. split; [|assumption]. apply W2; auto.
        -- intros a Wa X. rewrite PH in X. destruct X as (X1 & X2 & X3). intro Sa. apply (R4 Sol HS a); auto.
           apply W3. split; [|assumption]. apply IW. split; [|assumption]. apply W2; auto.
    + injection E as <-. apply (MK _ false); auto. unfold node. cbn [c_status].
      intros a Wa X Sa. rewrite PH in X. destruct X as (X1 & X2 & X3). apply (R3 a); [|assumption].
      apply IW. split; [|assumption]. apply W2; auto.
  - injection E as <-. apply (MK _ false); auto. unfold node. cbn [c_status].
    intros a Wa X Sa. rewrite PH in X. destruct X as (X1 & X2 & X3). rewrite R2 in Ei.
    apply (infer_contradiction _ _ _ a Dd Kl0 Ei); [|assumption]. apply W2; auto.
Qed.

Lemma up_sim c0 c1 called t st p c2 : good c0 -> c_status c0 = Live -> new_epoch (c_state c0) = (t, st) ->
  c_open c1 = t :: c_open c0 -> c_path c1 = p :: c_path c0 ->
  child n called (c_engine c0) (c_state c0) (c_engine c1) (c_state c1) ->
  run_move props disabled abort fuel Up c1 = Some c2 -> sim c0 c2 /\ engine_ok n (c_engine c2).
Proof.
  intros G L N Ho Hp Hc E. cbn [run_move] in E. rewrite Ho, Hp in E.
  destruct (backtrack t (c_state c1)) as [st2 us] eqn:B. injection E as <-.
  destruct (child_back n called _ _ _ _ _ _ (good_engine _ G) (good_balanced _ G) N Hc _ _ B) as (-> & O & S).
  split; [|assumption]. constructor; auto.
Qed.

Lemma again_good c extra c' : good c -> move_below nv (Again extra) ->
  run_move props disabled abort fuel (Again extra) c = Some c' -> good c'.
Proof.
  intros G Kx E. pose proof (good_node c G) as Nd. pose proof (good_engine c G) as O. pose proof (good_balanced c G) as Bl.
  cbn [run_move] in E. destruct (c_open c) as [|] eqn:Op; [|discriminate]. destruct (c_path c) as [|p [|]] eqn:Pa; try discriminate.
  unfold is_live in E. destruct (c_status c) eqn:St; try discriminate.
  unfold node in Nd. rewrite St in Nd. destruct Nd as (F & S & W1 & W2).
  destruct (add_bounds (c_state c) extra) as [[fine st1] ch] eqn:AB.
  destruct (bounds_fit props disabled nv Inv HI _ _ _ _ _ F (fit_known _ _ F Kx) AB) as (HE1 & L1 & Inc & R1).
  assert (Bl1 : balanced st1).
  { clear - AB Bl. revert AB Bl. generalize (c_state c). revert fine st1 ch. induction extra as [|l r IH]; intros fine st1 ch st E B; simpl in E.
    - now injection E as _ <- _.
    - unfold state_infer in E. destruct (infer (current st) l) as [i d].
      assert (B' : balanced (with_domains st d)) by (destruct B; split; cbn; (etransitivity; [apply set_top_length|]); assumption).
      destruct i; try (now injection E as _ <- _); try (eapply IH; eassumption);
        destruct (add_bounds (with_domains st d) r) as [[? ?] ?] eqn:E'; injection E as <- <- _; eapply IH; eassumption. }
  assert (PH : forall a e st s, path_holds a (mk_config e st [] [p ++ extra] s) <-> path_holds a c /\ Forall (lit_holds a) extra).
  { intros. unfold path_holds. rewrite Pa. cbn [c_path concat]. rewrite !app_nil_r, Forall_app. tauto. }
  destruct fine.
  - destruct R1 as (F1 & W3 & S3 & _).
    destruct (propagate_node props disabled abort fuel ch (c_engine c) st1) as [[[s e2] st2]|] eqn:P; [|discriminate].
    injection E as <-.
    assert (SB : ch <> [] -> settled_but props disabled ok dead ch (c_engine c) (current st1)).
    { intros _. apply (S3 ok dead []); [assumption|]. apply settled_start. auto. }
    destruct (node_call _ _ _ _ _ _ (engine_ok_fit props ch _ O) F1 SB P) as (O4 & (u & U) & HE4 & _ & R4).
    apply (good_root _ (p ++ extra)); auto.
    + cbn. rewrite U. now apply opened_balanced.
    + unfold node. cbn [c_status c_state c_engine]. destruct s; [| |exact Logic.I].
      * destruct R4 as (F4 & (Na & Nb) & S4). split; [assumption|]. split; [assumption|]. split.
        -- intros a Wa. rewrite PH. apply Na, W3 in Wa. destruct Wa as [Wa X]. apply W1 in Wa. tauto.
        -- intros a Wa X Sa. rewrite PH in X. destruct X as (X1 & X2). apply (Nb Sol HS); auto.
           apply W3. split; [|assumption]. apply W2; auto.
      * intros a Wa X. rewrite PH in X. destruct X as (X1 & X2). intro Sa. apply (R4 Sol HS a); auto.
        apply W3. split; [|assumption]. apply W2; auto.
  - injection E as <-. apply (good_root _ (p ++ extra)); auto. unfold node. cbn [c_status].
    intros a Wa X Sa. rewrite PH in X. destruct X as (X1 & X2). apply (R1 a); [|assumption]. apply W2; auto.
Qed.

Lemma move_good m c c' : good c -> move_below nv m -> run_move props disabled abort fuel m c = Some c' -> good c'.
Proof.
  intros G K E. destruct m as [l extra| |extra].
  - now apply (down_good c l extra c').
  - destruct G as [c p Ho Hp He Hb Hn|c0 c1 called t st p G L N Ho Hp Hc Hn].
    + cbn [run_move] in E. rewrite Ho in E. discriminate.
    + destruct (up_sim _ _ _ _ _ _ _ G L N Ho Hp Hc E) as [S O]. now apply (sim_good c0).
  - now apply (again_good c extra c').
Qed.

Lemma moves_good ms : forall c c', good c -> Forall (move_below nv) ms -> run_moves props disabled abort fuel ms c = Some c' -> good c'.
Proof.
  induction ms as [|m r IH]; intros c c' G K E; simpl in E; [congruence|]. inversion K; subst.
  destruct (run_move props disabled abort fuel m c) as [c1|] eqn:E1; [|discriminate]. apply (IH c1); auto. eapply move_good; eauto.
Qed.

Lemma run_moves_app a b : forall c, run_moves props disabled abort fuel (a ++ b) c =
  match run_moves props disabled abort fuel a c with Some c' => run_moves props disabled abort fuel b c' | None => None end.
Proof.
  induction a as [|m a IH]; intro c; simpl; [reflexivity|]. destruct (run_move props disabled abort fuel m c); auto.
Qed.

Lemma excursion_sim ms : excursion ms -> forall c c', good c -> Forall (move_below nv) ms ->
  run_moves props disabled abort fuel ms c = Some c' -> sim c c' /\ engine_ok n (c_engine c').
Proof.
  induction 1 as [|l extra inside rest X1 IH1 X2 IH2]; intros c c' G K E.
  - cbn in E. injection E as <-. split; [apply sim_refl|now apply good_engine].
  - inversion K as [|? ? K1 K2]; subst. apply Forall_app in K2. destruct K2 as [K2 K3]. inversion K3 as [|? ? _ K4]; subst.
    cbn [run_moves] in E. destruct (run_move props disabled abort fuel (Down l extra) c) as [c1|] eqn:E1; [|discriminate].
    rewrite run_moves_app in E. destruct (run_moves props disabled abort fuel inside c1) as [c2|] eqn:E2; [|discriminate].
    cbn [run_moves] in E. destruct (run_move props disabled abort fuel Up c2) as [c3|] eqn:E3; [|discriminate].
    destruct (down_good _ _ _ _ G K1 E1) as (G1 & t & st & called & L & N & Ho & Hp & Hc).
    destruct (IH1 _ _ G1 K2 E2) as [S2 O2].
    destruct (up_sim c c2 called t st (l :: extra) c3) as [S3 O3]; auto.
    + rewrite (si_open _ _ S2). assumption.
    + rewrite (si_path _ _ S2). assumption.
    + rewrite (si_state _ _ S2). eapply child_same; eauto. apply S2.
    + assert (G3 : good c3) by (apply (sim_good c); auto).
      destruct (IH2 _ _ G3 K4 E) as [S4 O4]. split; [|assumption]. eapply sim_trans; eauto.
Qed.

End Session.
