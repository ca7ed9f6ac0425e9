(** One call of propagate(). *)
From Coq Require Import ZArith List Bool Arith Lia Permutation.
From Verif Require Import Vars VarsSpec State StateSpec StateProofs Epochs Engine EngineSpec EngineQueueProofs EngineWatchProofs
  EngineProofs EngineLoopProofs.
Import ListNotations.

(** [st] with its newest epoch replaced and callbacks [u] added to it. *)
Definition opened (st : estate) (u : list undo) (d : domains) (cs : list cstate) : estate :=
  mk_state (set_top (st_domains st) d) (set_top (st_cstates st) cs) (set_top (st_callbacks st) (top (st_callbacks st) ++ u)) (st_guesses st).

Section Call.
Variable props : list propagator.
Variable disabled : nat -> bool.
Variable abort : nat -> bool.

Notation n := (length props).
Notation the := (the_prop props).

Variable nv : nat.
Variable Inv : domains -> list cstate -> Prop.
Hypothesis HW : forall p, p < n -> well_behaved nv Inv (the p).

Definition enabled (e : engine) (p : nat) : Prop := pos (e_pq e) p < q_idle (e_pq e).

(** Every propagator not disabled for good has nothing to do, and will have
    nothing to do below this node if it is disabled. *)
Definition settled (ok dead : nat -> domains -> Prop) (e : engine) (d : domains) : Prop :=
  forall p, p < n -> disabled p = false -> (enabled e p -> ok p d) /\ (~ enabled e p -> dead p d).

(** As [settled], except that those subscribed to a guess may have work to do. *)
Definition settled_but (ok dead : nat -> domains -> Prop) (guesses : list literal) (e : engine) (d : domains) : Prop :=
  forall p, p < n -> disabled p = false ->
    (enabled e p -> ok p d \/ exists l v, In l guesses /\ lit_underlying l = Some v /\ subscribes (the p) v Instantiated) /\
    (~ enabled e p -> dead p d).

(** What a call of propagate may be given. *)
Record callable (guesses : list literal) (e : engine) (st : estate) : Prop :=
  { c_pq : guesses <> [] -> pq_ok n (e_pq e);
    c_own : owners_ok n (e_watch e);
    c_epoch : has_epoch st;
    c_dom : domains_ok (current st);
    c_len : length (current st) = nv;
    c_inv : Inv (current st) (top (st_cstates st)) }.

(** The engine as seen at the start of the main loop. *)
Definition started (guesses : list literal) (e : engine) (st : estate) : pq :=
  match guesses with [] => rebuild n disabled | _ => e_pq e end.

Lemma guess_events_in v i gs : In (v, i) (guess_events gs) <-> i = Instantiated /\ exists l, In l gs /\ lit_underlying l = Some v.
Proof.
  unfold guess_events. rewrite in_flat_map. split.
  - intros (l & I & H). destruct (lit_underlying l) as [w|] eqn:U; simpl in H; [|tauto].
    destruct H as [E|[]]. injection E as -> <-. split; [reflexivity|]. eauto.
  - intros (-> & l & I & U). exists l. rewrite U. simpl. auto.
Qed.

Lemma start_spec guesses e st : callable guesses e st ->
  let '(e1, st1) := start props disabled guesses e st in
  base props nv Inv (mk_loop e1 st1 [] [] []) /\
  st1 = opened st [UndoTrails (length (wp_trail (e_watch e))) (length (wp_strail (e_watch e)));
                   UndoIdle (q_idle (started guesses e st))] (current st) (top (st_cstates st)) /\
  current st1 = current st /\ e_loads e1 = e_loads e /\
  q_idle (e_pq e1) = q_idle (started guesses e st) /\
  (forall x, x < n -> q_idle (started guesses e st) <= pos (started guesses e st) x -> pos (e_pq e1) x = pos (started guesses e st) x) /\
  (forall x, x < n -> (pos (e_pq e1) x < q_idle (started guesses e st) <-> pos (started guesses e st) x < q_idle (started guesses e st))) /\
  edited (wtn (e_watch e)) (wtn (e_watch e1)) /\ scratched (sst (e_watch e)) (sst (e_watch e1)) /\
  (forall ok dead, (guesses <> [] -> settled_but ok dead guesses e (current st)) ->
     awake props disabled ok dead (mk_loop e1 st1 [] [] [])).
Proof.
  intros [Cq Co Ce Cd Cl Ci]. unfold start.
  set (e1 := match guesses with [] => _ | _ => _ end).
  set (st1 := on_backtrack _ _).
  assert (ST : st1 = opened st [UndoTrails (length (wp_trail (e_watch e))) (length (wp_strail (e_watch e)));
                   UndoIdle (q_idle (e_pq e1))] (current st) (top (st_cstates st))).
  { unfold st1, opened. destruct st as [ds cs bs gs]. destruct Ce as (E1 & E2 & E3). cbn in E1, E2, E3.
    destruct ds as [|d ds], cs as [|c cs], bs as [|b bs]; try congruence. unfold on_backtrack. cbn. now rewrite <- app_assoc. }
  assert (CU : current st1 = current st).
  { destruct Ce as (E1 & _). unfold st1. destruct st as [ds cs bs gs]. reflexivity. }
  assert (CS : st_cstates st1 = st_cstates st) by reflexivity.
  assert (EP : has_epoch st1).
  { destruct Ce as (E1 & E2 & E3). unfold st1. destruct st as [ds cs bs gs]. cbn in *.
    split; [assumption|]. split; [assumption|]. cbn. destruct bs; [congruence|discriminate]. }
  assert (MAIN : pq_ok n (e_pq e1) /\ owners_ok n (e_watch e1) /\ e_loads e1 = e_loads e /\
     q_idle (e_pq e1) = q_idle (started guesses e st) /\
     (forall x, x < n -> q_idle (started guesses e st) <= pos (started guesses e st) x -> pos (e_pq e1) x = pos (started guesses e st) x) /\
     (forall x, x < n -> (pos (e_pq e1) x < q_idle (started guesses e st) <-> pos (started guesses e st) x < q_idle (started guesses e st))) /\
     edited (wtn (e_watch e)) (wtn (e_watch e1)) /\ scratched (sst (e_watch e)) (sst (e_watch e1)) /\ q_begin (e_pq e1) = 0 /\
     (guesses = [] -> q_end (e_pq e1) = q_idle (e_pq e1)) /\
     (forall p l v, p < n -> In l guesses -> lit_underlying l = Some v -> subscribes (the p) v Instantiated -> enabled e p ->
        queued (e_pq e1) p)).
  { unfold e1, started. destruct guesses as [|g gs].
    - destruct (rebuild_spec n disabled) as (R1 & R2 & R3 & R4). cbn [e_pq e_watch e_loads].
      repeat (split; [solve [auto|tauto|apply ed_refl|apply scratched_refl|reflexivity]|]). intros p l v _ [].
    - set (G := g :: gs) in *. assert (Gne : G <> []) by discriminate. specialize (Cq Gne).
      destruct (requeue_all_grows props (current st) (guess_events G) (mk_engine (rewind (e_pq e)) (e_watch e) (e_loads e))
                  (rewind_ok n _ Cq) Co) as [EG EQ].
      pose proof (eg_pq _ _ _ EG) as GR. cbn [e_pq] in GR.
      set (e2 := fold_left _ _ _) in *.
      split; [apply GR|]. split; [apply EG|]. split; [exact (eg_loads _ _ _ EG)|].
      split; [exact (g_idle _ _ _ GR)|]. split; [exact (g_above _ _ _ GR)|]. split; [exact (g_enabled _ _ _ GR)|].
      split; [exact (eg_edited _ _ _ EG)|]. split; [exact (eg_scratched _ _ _ EG)|]. split; [exact (g_begin _ _ _ GR)|].
      split; [discriminate|].
      intros p l v Hp I U S En. apply (EQ p (v, Instantiated)); auto. apply guess_events_in. eauto. }
  destruct MAIN as (M1 & M2 & M3 & M4 & M5 & M6 & M7 & M8 & M9 & M10 & M11).
  rewrite M4 in ST.
  split; [|split; [exact ST|split; [exact CU|split; [exact M3|split; [exact M4|split; [exact M5|split; [exact M6|
    split; [exact M7|split; [exact M8|]]]]]]]]].
  - constructor; cbn [l_engine l_state l_events l_claims l_disable]; auto; try (now constructor).
  - intros ok dead S. constructor; cbn [l_engine l_state l_events l_claims l_disable]; rewrite CU.
    + intros p Hp Dp L. rewrite M4 in L. unfold started in *. destruct guesses as [|g gs].
      * exfalso. destruct (rebuild_spec n disabled) as (R1 & R2 & R3 & R4). apply (R4 p Hp) in Dp. apply M6 in Dp; [|assumption]. lia.
      * destruct (S ltac:(discriminate) p Hp Dp) as [_ S2]. apply S2. unfold enabled. intro. apply M6 in H; [|assumption]. lia.
    + intros p [].
    + intros p Hp Dp L W _ _. rewrite M4 in L.
      assert (NQ : ~ queued (e_pq e1) p) by (unfold queued; intro; apply W; rewrite M9; lia).
      destruct guesses as [|g gs].
      * exfalso. apply NQ. unfold queued. rewrite (M10 eq_refl), M4. exact L.
      * apply M6 in L; [|assumption]. destruct (S ltac:(discriminate) p Hp Dp) as [S1 _].
        destruct (S1 L) as [|(l & v & I & U & Su)]; [assumption|]. exfalso. apply NQ. now apply (M11 p l v).
Qed.

Lemma drop_inboxes_wtn w : wtn (drop_inboxes w) = wtn w /\ sst (drop_inboxes w) = sst w.
Proof. split; reflexivity. Qed.

Lemma propagate_spec fuel guesses e st b e' st' : callable guesses e st ->
  propagate props disabled abort fuel guesses e st = Some (b, e', st') ->
  (* what the call leaves behind *)
  st' = opened st [UndoTrails (length (wp_trail (e_watch e))) (length (wp_strail (e_watch e)));
                   UndoIdle (q_idle (started guesses e st))] (current st') (top (st_cstates st')) /\
  pq_ok n (e_pq e') /\ owners_ok n (e_watch e') /\ length (current st') = nv /\ e_loads e <= e_loads e' /\
  q_idle (e_pq e') <= q_idle (started guesses e st) /\
  (forall x, x < n -> q_idle (started guesses e st) <= pos (started guesses e st) x -> pos (e_pq e') x = pos (started guesses e st) x) /\
  (forall x, x < n -> (pos (e_pq e') x < q_idle (started guesses e st) <-> pos (started guesses e st) x < q_idle (started guesses e st))) /\
  edited (wtn (e_watch e)) (wtn (e_watch e')) /\ scratched (sst (e_watch e)) (sst (e_watch e')) /\
  (forall p, nth p (wp_inbox (e_watch e')) [] = []) /\
  if b then
    domains_ok (current st') /\ Inv (current st') (top (st_cstates st')) /\
    narrow props nv Inv (current st) (current st') /\
    ((exists k, e_loads e <= k < e_loads e' /\ abort k = true) \/
     forall ok dead, (forall x, x < n -> wakeable nv Inv (the x) (ok x) (dead x)) ->
       (guesses <> [] -> settled_but ok dead guesses e (current st)) -> settled ok dead e' (current st'))
  else no_solution props nv Inv (current st).
Proof.
  intros C E. unfold propagate in E. pose proof (start_spec guesses e st C) as S.
  destruct (start props disabled guesses e st) as [e1 st1].
  destruct S as (B & ST & CU & LO & ID & AB & EN & ED & SC & AW).
  destruct (run_loop props disabled abort fuel _) as [[l bad]|] eqn:R; [|discriminate].
  injection E as <- <- <-.
  destruct (run_loop_spec props disabled abort nv Inv HW fuel _ _ _ B R) as (P & H).
  pose proof (pg_frame _ _ _ P) as (d & cs & FR). cbn [l_state] in FR.
  pose proof (pg_idle _ _ _ P) as PI. pose proof (pg_above _ _ _ P) as PA. pose proof (pg_enabled _ _ _ P) as PE.
  cbn [l_engine] in PI, PA, PE. rewrite ID in PI, PA, PE.
  cbn [e_pq e_watch e_loads]. rewrite (proj1 (drop_inboxes_wtn _)), (proj2 (drop_inboxes_wtn _)).
  split; [|split; [|split; [|split; [|split; [|split; [|split; [|split; [|split; [|split; [|split]]]]]]]]]].
  - destruct (c_epoch _ _ _ C) as (E1 & E2 & E3). rewrite FR, ST. clear. destruct st as [ds css bs gs].
    unfold opened, with_cstates, with_domains. cbn. destruct ds, css, bs; reflexivity.
  - exact (pg_pq _ _ _ P).
  - exact (pg_own _ _ _ P).
  - pose proof (pg_len _ _ _ P) as L. etransitivity; [exact L|]. cbn [l_state].
    exact (eq_trans (f_equal (@length _) CU) (c_len _ _ _ C)).
  - pose proof (pg_loads _ _ _ P) as L. cbn in L. lia.
  - exact PI.
  - intros x Hx L. etransitivity; [|exact (AB x Hx L)]. apply PA; auto. rewrite (AB x Hx L). assumption.
  - intros x Hx. rewrite (PE x Hx). apply EN; assumption.
  - eapply ed_trans; [exact ED|]. exact (pg_edited _ _ _ P).
  - eapply scratched_trans; [exact SC|]. exact (pg_scratched _ _ _ P).
  - intro p. unfold drop_inboxes; cbn [wp_inbox]. rewrite (map_nth (fun _ : list nat => @nil nat) _ [] p). reflexivity.
  - cbn [l_state] in H; rewrite CU in H. destruct bad; cbn [negb].
    + exact H.
    + destruct H as (B' & N & A & F). split; [exact (b_dom _ _ _ _ B')|]. split; [exact (b_inv _ _ _ _ B')|]. split; [exact N|].
      destruct F as [(F1 & F2 & F3)|(k & K & Ak)]; [|left; exists k; split; [cbn in K; lia|assumption]].
      right. intros ok dead HK HS p Hp Dp. specialize (A ok dead HK (AW ok dead HS)). destruct A as [A1 A2 A3].
      cbn [l_engine l_state] in *. unfold enabled. split.
      * intro L. apply A3; auto; [lia|rewrite F3; auto|]. rewrite F2. intros [|j]; discriminate.
      * intro L. apply A1; auto. cbn in L. lia.
Qed.

(** Enough fuel. *)
Lemma propagate_terminates fuel guesses e st : callable guesses e st ->
  (S (total_size (current st)) * S n <= fuel)%nat ->
  exists b e' st', propagate props disabled abort fuel guesses e st = Some (b, e', st').
Proof.
  intros C F. unfold propagate. pose proof (start_spec guesses e st C) as S.
  destruct (start props disabled guesses e st) as [e1 st1]. destruct S as (B & _ & CU & _).
  destruct (run_loop_terminates props disabled abort nv Inv HW fuel _ B) as ([l bad] & R).
  - unfold measure. cbn [l_engine l_state l_events]. rewrite CU. pose proof (ok_order n _ (b_pq _ _ _ _ B)). cbn [l_engine] in H. nia.
  - rewrite R. eauto.
Qed.

End Call.
