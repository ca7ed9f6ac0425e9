(** The results about sessions in the form used by the property theorems. *)
From Coq Require Import ZArith List Bool Arith Lia Permutation.
From Verif Require Import IntervalSet IntervalSetSpec Vars VarsSpec State StateSpec StateProofs Epochs EpochsProofs Engine EngineSpec EngineQueueProofs
  EngineWatchProofs EngineProofs EngineLoopProofs EngineCallProofs Session SessionSpec SessionProofs SessionInvProofs.
Import ListNotations.

Lemma may_run_enabled n e p : pq_ok n (e_pq e) -> p < n -> (may_run e p <-> enabled e p).
Proof.
  intros Q Hp. unfold may_run, enabled. destruct (ok_lookup _ _ Q p Hp) as [L E]. pose proof (ok_order _ _ Q) as O.
  pose proof (ok_queue_len _ _ Q) as LQ. split.
  - intro I. apply (In_nth _ _ 0) in I. destruct I as (i & Hi & Ei). rewrite firstn_length in Hi.
    assert (Ei' : nth i (q_queue (e_pq e)) 0 = p).
    { rewrite <- Ei. rewrite <- (firstn_skipn (q_idle (e_pq e)) (q_queue (e_pq e))) at 1. apply app_nth1. rewrite firstn_length. lia. }
    destruct (ok_queue _ _ Q i ltac:(lia)) as [_ P]. rewrite Ei' in P. lia.
  - intro H. rewrite <- E. rewrite <- (firstn_skipn (q_idle (e_pq e)) (q_queue (e_pq e))) at 1.
    rewrite app_nth1 by (rewrite firstn_length; lia). apply nth_In. rewrite firstn_length. lia.
Qed.

Section Results.
Variable props : list propagator.
Variable disabled : nat -> bool.
Variable abort : nat -> bool.
Variable fuel : nat.
Notation n := (length props).
Notation the := (the_prop props).
Variable nv : nat.
Variable Inv : domains -> list cstate -> Prop.
Hypothesis HW : forall p, In p props -> well_behaved nv Inv p.
Hypothesis HI : stable nv Inv.
Hypothesis HA : stays_set abort.

Lemma the_prop_in p : p < n -> In (the p) props.
Proof. intro. apply nth_In. assumption. Qed.

Lemma HW' : forall p, p < n -> well_behaved nv Inv (the p).
Proof. intros. apply HW. now apply the_prop_in. Qed.

Lemma startable_fit st : startable nv Inv st -> state_fit nv Inv st /\ balanced st.
Proof. intros [A B C D E F]. unfold state_fit, balanced. auto. Qed.

Lemma root_good Sol ok dead : (forall p, p < n -> sound_for nv Inv Sol (the p)) ->
  (forall x, x < n -> wakeable nv Inv (the x) (ok x) (dead x)) ->
  forall st c, startable nv Inv st -> open_root props disabled abort fuel st = Some c ->
  good props disabled nv Inv (current st) Sol ok dead c.
Proof.
  intros HS HK st c S E. destruct (startable_fit st S) as [F B]. unfold open_root in E.
  destruct (propagate_node props disabled abort fuel [] (installed_engine props) st) as [[[s e] st']|] eqn:P; [|discriminate].
  injection E as <-.
  assert (SB : @nil literal <> [] -> settled_but props disabled ok dead [] (installed_engine props) (current st)) by congruence.
  destruct (node_call props disabled abort fuel nv Inv ok dead HW' HA HK _ _ _ _ _ _ (installed_fit props) F SB P) as (O & (u & U) & HE & _ & R).
  apply (good_root _ _ _ _ _ _ _ _ _ []); auto.
  - cbn. rewrite U. now apply opened_balanced.
  - assert (PH : forall a e st s, path_holds a (mk_config e st [] [[]] s)) by (intros; constructor).
    unfold node. cbn [c_status c_state c_engine]. destruct s; [| |exact Logic.I].
    + destruct R as (F' & (Na & Nb) & St). split; [assumption|]. split; [assumption|]. split.
      * intros a Wa. split; [now apply Na|apply PH].
      * intros a Wa _ Sa. now apply (Nb Sol HS).
    + intros a Wa _. now apply (R Sol HS).
Qed.

Lemma reachable_good Sol ok dead : (forall p, p < n -> sound_for nv Inv Sol (the p)) ->
  (forall x, x < n -> wakeable nv Inv (the x) (ok x) (dead x)) ->
  forall st ms c0 c, startable nv Inv st -> Forall (move_below nv) ms ->
  open_root props disabled abort fuel st = Some c0 -> run_moves props disabled abort fuel ms c0 = Some c ->
  good props disabled nv Inv (current st) Sol ok dead c.
Proof.
  intros HS HK st ms c0 c S K E R.
  exact (moves_good props disabled abort fuel nv Inv (current st) Sol ok dead HW' HI HA HS HK ms c0 c (root_good Sol ok dead HS HK st c0 S E) K R).
Qed.

(** Asking for nothing in particular. *)
Definition never (a : assignment) : Prop := False.
Definition always (x : nat) (d : domains) : Prop := True.

Lemma never_sound : forall p, p < n -> sound_for nv Inv never (the p).
Proof. intros p _ i a _ _ []. Qed.

Lemma always_wakeable : forall x, x < n -> wakeable nv Inv (the x) (always x) (always x).
Proof. intros. constructor; intros; exact Logic.I. Qed.

Lemma plain_good st ms c0 c : startable nv Inv st -> Forall (move_below nv) ms ->
  open_root props disabled abort fuel st = Some c0 -> run_moves props disabled abort fuel ms c0 = Some c ->
  good props disabled nv Inv (current st) never always always c.
Proof. exact (reachable_good never always always never_sound always_wakeable st ms c0 c). Qed.

Lemma session_sound st ms c0 c : startable nv Inv st -> Forall (move_below nv) ms ->
  open_root props disabled abort fuel st = Some c0 -> run_moves props disabled abort fuel ms c0 = Some c ->
  match c_status c with
  | Live =>
      domains_ok (current (c_state c)) /\ length (current (c_state c)) = nv /\
      (forall a, within a (current (c_state c)) -> within a (current st) /\ path_holds a c) /\
      (forall sol a, (forall p, In p props -> sound_for nv Inv sol p) ->
         within a (current st) -> path_holds a c -> sol a -> within a (current (c_state c)))
  | Failed =>
      forall sol a, (forall p, In p props -> sound_for nv Inv sol p) -> within a (current st) -> path_holds a c -> ~ sol a
  | Aborted => True
  end.
Proof.
  intros S K E R.
  assert (HS' : forall sol, (forall p, In p props -> sound_for nv Inv sol p) -> forall p, p < n -> sound_for nv Inv sol (the p)).
  { intros sol HS p Hp. apply HS. now apply the_prop_in. }
  pose proof (good_node _ _ _ _ _ _ _ _ _ (plain_good _ _ _ _ S K E R)) as N0.
  assert (ND : forall sol, (forall p, In p props -> sound_for nv Inv sol p) -> node props disabled nv Inv (current st) sol always always c).
  { intros sol HS. apply good_node. exact (reachable_good sol always always (HS' sol HS) always_wakeable _ _ _ _ S K E R). }
  unfold node in *. destruct (c_status c); [| |exact Logic.I].
  - destruct N0 as ((_ & D & L & _) & _ & W1 & _). split; [assumption|]. split; [assumption|]. split; [assumption|].
    intros sol a HS. destruct (ND sol HS) as (_ & _ & _ & W2). auto.
  - intros sol a HS. apply (ND sol HS).
Qed.

Lemma session_settled st ms c0 c p ok dead : startable nv Inv st -> Forall (move_below nv) ms ->
  open_root props disabled abort fuel st = Some c0 -> run_moves props disabled abort fuel ms c0 = Some c ->
  c_status c = Live -> p < n -> disabled p = false -> wakeable nv Inv (nth p props nil_propagator) ok dead ->
  (may_run (c_engine c) p -> ok (current (c_state c))) /\ (~ may_run (c_engine c) p -> dead (current (c_state c))).
Proof.
  intros S K E R L Hp Dp Wk.
  assert (H : forall x, x < n -> wakeable nv Inv (the x) ((fun x d => if Nat.eqb x p then ok d else True) x)
     ((fun x d => if Nat.eqb x p then dead d else True) x)).
  { intros x Hx. cbn beta. destruct (Nat.eqb_spec x p) as [->|]; [exact Wk|now apply always_wakeable]. }
  pose proof (reachable_good never _ _ never_sound H _ _ _ _ S K E R) as G. pose proof (good_node _ _ _ _ _ _ _ _ _ G) as Nd.
  unfold node in Nd. rewrite L in Nd. destruct Nd as (_ & St & _).
  specialize (St p Hp Dp). cbn beta in St. rewrite Nat.eqb_refl in St.
  rewrite (may_run_enabled n (c_engine c) p (eo_pq _ _ (good_engine _ _ _ _ _ _ _ _ _ G)) Hp). exact St.
Qed.

Lemma session_restored st ms c0 c ex c' : startable nv Inv st -> Forall (move_below nv) ms -> Forall (move_below nv) ex ->
  open_root props disabled abort fuel st = Some c0 -> run_moves props disabled abort fuel ms c0 = Some c ->
  excursion ex -> run_moves props disabled abort fuel ex c = Some c' ->
  c_state c' = c_state c /\ c_status c' = c_status c /\ c_open c' = c_open c /\ c_path c' = c_path c /\
  (forall p, p < n -> (may_run (c_engine c') p <-> may_run (c_engine c) p)) /\
  same_watches (c_engine c') (c_engine c) /\ same_scratch (c_engine c') (c_engine c) /\
  (forall p, nth p (wp_inbox (e_watch (c_engine c'))) [] = []).
Proof.
  intros S K Kx E R X Rx. pose proof (plain_good _ _ _ _ S K E R) as G.
  destruct (excursion_sim props disabled abort fuel nv Inv (current st) never always always HW' HI HA never_sound always_wakeable ex X c c' G Kx Rx) as [Si O].
  pose proof (good_engine _ _ _ _ _ _ _ _ _ G) as O0. destruct Si as [E1 E2 E3 E4 Sm].
  repeat (split; [assumption|]). split; [|split; [|split]].
  - intros p Hp. rewrite (may_run_enabled n _ p (eo_pq _ _ O) Hp), (may_run_enabled n _ p (eo_pq _ _ O0) Hp). now apply Sm.
  - exact (sm_watches _ _ _ Sm).
  - exact (sm_scratch _ _ _ Sm).
  - exact (eo_inbox _ _ O).
Qed.

Lemma session_inbox st ms c0 c : startable nv Inv st -> Forall (move_below nv) ms ->
  open_root props disabled abort fuel st = Some c0 -> run_moves props disabled abort fuel ms c0 = Some c ->
  forall p, nth p (wp_inbox (e_watch (c_engine c))) [] = [].
Proof. intros S K E R. exact (eo_inbox _ _ (good_engine _ _ _ _ _ _ _ _ _ (plain_good _ _ _ _ S K E R))). Qed.

(** ** Termination *)

Lemma node_terminates gs e st : engine_fit props gs e -> state_fit nv Inv st -> (S (total_size (current st)) * S n <= fuel)%nat ->
  exists r, propagate_node props disabled abort fuel gs e st = Some r.
Proof.
  intros F S L. destruct (propagate_enough props disabled nv Inv HW' abort fuel gs e st F S L) as (b & e' & st' & E).
  unfold propagate_node. rewrite E. destruct b; eauto.
Qed.

Lemma root_terminates st : startable nv Inv st -> (S (total_size (current st)) * S n <= fuel)%nat ->
  exists c, open_root props disabled abort fuel st = Some c.
Proof.
  intros S L. destruct (startable_fit st S) as [F B].
  destruct (node_terminates [] (installed_engine props) st (installed_fit props) F L) as ([[s e] st'] & E).
  unfold open_root. rewrite E. eauto.
Qed.

(** The moves that are permitted in a configuration. *)
Definition permitted (m : move) (c : config) : Prop :=
  match m with
  | Down _ _ => c_status c = Live
  | Up => c_open c <> []
  | Again _ => c_status c = Live /\ c_open c = []
  end.

Lemma good_size d0 Sol ok dead c : domains_ok d0 -> length d0 = nv -> good props disabled nv Inv d0 Sol ok dead c -> c_status c = Live ->
  (total_size (current (c_state c)) <= total_size d0)%nat.
Proof.
  intros D L G Li. pose proof (good_node _ _ _ _ _ _ _ _ _ G) as Nd. unfold node in Nd. rewrite Li in Nd.
  destruct Nd as ((_ & D' & L' & _) & _ & W & _). apply total_size_mono; auto.
  - exact (eq_trans L' (eq_sym L)).
  - intros a Wa. now apply W.
Qed.

Lemma good_terminates d0 Sol ok dead c m : domains_ok d0 -> length d0 = nv -> good props disabled nv Inv d0 Sol ok dead c -> move_below nv m ->
  (S (total_size d0) * S n <= fuel)%nat -> permitted m c -> exists c', run_move props disabled abort fuel m c = Some c'.
Proof.
  intros D0 L0 G Km Fu P.
  pose proof (good_engine _ _ _ _ _ _ _ _ _ G) as O. pose proof (good_node _ _ _ _ _ _ _ _ _ G) as Nd.
  destruct m as [l extra| |extra]; cbn [permitted run_move] in *.
  - pose proof (good_size _ _ _ _ _ D0 L0 G P) as SZ.
    unfold is_live. rewrite P. unfold node in Nd. rewrite P in Nd. destruct Nd as (F & _).
    destruct Km as [Kl Kx].
    destruct (new_epoch (c_state c)) as [t st1] eqn:N. destruct (new_epoch_fit nv Inv _ _ _ F N) as [F1 C1].
    assert (Kl1 : lit_known (current st1) l) by (destruct F1 as (_ & _ & L & _); now apply (lit_below_known nv l _ L)).
    destruct (guess st1 l) as [fine st2] eqn:Gs.
    destruct (guess_fit nv Inv HI _ _ _ _ F1 Kl1 Gs) as (i & Ei & HE2 & L2 & R2).
    destruct fine; [|eauto]. destruct R2 as [Ni F2]. destruct (add_bounds st2 extra) as [[fine' st3] ch] eqn:AB.
    destruct (bounds_fit props disabled nv Inv HI _ _ _ _ _ F2 (fit_known nv Inv _ _ F2 Kx) AB) as (HE3 & L3 & Inc & R3).
    destruct fine'; [|eauto]. destruct R3 as (F3 & _ & _ & T3).
    destruct (node_terminates (l :: ch) (c_engine c) st3 (engine_ok_fit props _ _ O) F3) as ([[s e] st4] & E4).
    { destruct F1 as (_ & D1 & _ & _). pose proof (infer_size _ _ _ _ D1 Kl1 Ei Ni) as T2. rewrite C1 in T2.
      assert (total_size (current st3) <= total_size d0)%nat by lia. nia. }
    rewrite E4. eauto.
  - pose proof (good_path _ _ _ _ _ _ _ _ _ G) as LP. destruct (c_open c); [congruence|]. destruct (c_path c); [discriminate|].
    destruct (backtrack _ _). eauto.
  - destruct P as [P Op]. pose proof (good_size _ _ _ _ _ D0 L0 G P) as SZ.
    pose proof (good_path _ _ _ _ _ _ _ _ _ G) as LP. rewrite Op in LP. rewrite Op. destruct (c_path c) as [|p [|]]; try discriminate.
    unfold is_live. rewrite P. unfold node in Nd. rewrite P in Nd. destruct Nd as (F & _).
    destruct (add_bounds (c_state c) extra) as [[fine st1] ch] eqn:AB.
    destruct (bounds_fit props disabled nv Inv HI _ _ _ _ _ F (fit_known nv Inv _ _ F Km) AB) as (HE1 & L1 & Inc & R1).
    destruct fine; [|eauto]. destruct R1 as (F1 & _ & _ & T1).
    destruct (node_terminates ch (c_engine c) st1 (engine_ok_fit props _ _ O) F1) as ([[s e] st4] & E4).
    { assert (total_size (current st1) <= total_size d0)%nat by lia. nia. }
    rewrite E4. eauto.
Qed.

Lemma move_terminates st ms c0 c m : startable nv Inv st -> Forall (move_below nv) ms -> move_below nv m ->
  (S (total_size (current st)) * S n <= fuel)%nat ->
  open_root props disabled abort fuel st = Some c0 -> run_moves props disabled abort fuel ms c0 = Some c ->
  permitted m c -> exists c', run_move props disabled abort fuel m c = Some c'.
Proof.
  intros S K Km Fu E R P. apply (good_terminates (current st) never always always c m); auto; [apply S|apply S|].
  exact (plain_good _ _ _ _ S K E R).
Qed.

End Results.
