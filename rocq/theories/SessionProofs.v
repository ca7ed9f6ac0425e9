(** Engine states along a session. *)
From Coq Require Import ZArith List Bool Arith Lia Permutation.
From Verif Require Import Vars VarsSpec State StateSpec StateProofs Epochs EpochsProofs Engine EngineSpec EngineQueueProofs
  EngineWatchProofs EngineProofs EngineLoopProofs EngineCallProofs Session.
Import ListNotations.

Section Relations.
Variable n : nat.

(** What holds of the engine whenever propagate is not running. *)
Record engine_ok (e : engine) : Prop :=
  { eo_pq : pq_ok n (e_pq e);
    eo_own : owners_ok n (e_watch e);
    eo_ctx : ctx_ok (wtn (e_watch e));
    eo_scratch : Forall (in_range (wp_scratch (e_watch e))) (wp_strail (e_watch e));
    eo_inbox : forall p, nth p (wp_inbox (e_watch e)) [] = [] }.

(** Two engines that cannot be told apart, except by what a propagator keeps
    outside the backtracking machinery and by the order of watch lists. *)
Record same (e e' : engine) : Prop :=
  { sm_idle : q_idle (e_pq e') = q_idle (e_pq e);
    sm_above : forall x, x < n -> q_idle (e_pq e) <= pos (e_pq e) x -> pos (e_pq e') x = pos (e_pq e) x;
    sm_enabled : forall x, x < n -> (enabled e' x <-> enabled e x);
    sm_trail : wp_trail (e_watch e') = wp_trail (e_watch e);
    sm_watches : weq (wp_watches (e_watch e')) (wp_watches (e_watch e));
    sm_strail : wp_strail (e_watch e') = wp_strail (e_watch e);
    sm_scratch : seq_eq (wp_scratch (e_watch e')) (wp_scratch (e_watch e)) }.

Lemma same_refl e : same e e.
Proof. constructor; auto using weq_refl; try (intros ? ?; reflexivity). Qed.

Lemma same_trans e1 e2 e3 : same e1 e2 -> same e2 e3 -> same e1 e3.
Proof.
  intros A B. constructor.
  - rewrite (sm_idle _ _ B). apply A.
  - intros x Hx L. rewrite <- (sm_above _ _ A x Hx L). apply B; auto. rewrite (sm_idle _ _ A), (sm_above _ _ A x Hx L). assumption.
  - intros x Hx. rewrite (sm_enabled _ _ B x Hx). now apply A.
  - rewrite (sm_trail _ _ B). apply A.
  - eapply weq_trans; [apply B|apply A].
  - rewrite (sm_strail _ _ B). apply A.
  - intros o k. rewrite (sm_scratch _ _ B). apply A.
Qed.

(** [e1] is reached from [e0] by calls of propagate that undo themselves down to [e0]. *)
Record below (e0 e1 : engine) : Prop :=
  { bl_idle : q_idle (e_pq e1) <= q_idle (e_pq e0);
    bl_above : forall x, x < n -> q_idle (e_pq e0) <= pos (e_pq e0) x -> pos (e_pq e1) x = pos (e_pq e0) x;
    bl_enabled : forall x, x < n -> (pos (e_pq e1) x < q_idle (e_pq e0) <-> enabled e0 x);
    bl_trail : exists es, wp_trail (e_watch e1) = es ++ wp_trail (e_watch e0) /\
                 weq (fold_left undo_edit es (wp_watches (e_watch e1))) (wp_watches (e_watch e0));
    bl_strail : exists ss, wp_strail (e_watch e1) = ss ++ wp_strail (e_watch e0) /\
                 seq_eq (fold_left undo_scratch ss (wp_scratch (e_watch e1))) (wp_scratch (e_watch e0)) }.

Lemma below_same e0 e1 e1' : engine_ok e1 -> engine_ok e1' -> below e0 e1 -> same e1 e1' -> below e0 e1'.
Proof.
  intros O1 O1' B S. destruct B as [B1 B2 B3 (es & B4 & B5) (ss & B6 & B7)]. constructor.
  - rewrite (sm_idle _ _ S). assumption.
  - intros x Hx L. rewrite <- (B2 x Hx L). apply S; auto. rewrite (B2 x Hx L). lia.
  - intros x Hx. rewrite <- (B3 x Hx).
    destruct (le_lt_dec (q_idle (e_pq e1)) (pos (e_pq e1) x)) as [L|L].
    + rewrite (sm_above _ _ S x Hx L). reflexivity.
    + assert (E : enabled e1' x) by (apply (sm_enabled _ _ S x Hx); assumption).
      unfold enabled in E. rewrite (sm_idle _ _ S) in E. split; intro; lia.
  - exists es. rewrite (sm_trail _ _ S). split; [assumption|].
    eapply weq_trans; [|exact B5]. apply weq_sym.
    destruct (eo_ctx _ O1) as (P & F & _ & (A1 & A2) & V). destruct (eo_ctx _ O1') as (P' & F' & _ & (A1' & A2') & V').
    cbn in A1, A2, A1', A2'. 
    apply (undo_all_respects P); auto.
    + intros e I. apply A2. rewrite B4. apply in_app_iff. auto.
    + intros e I. split; [apply V|apply V']; [|rewrite (sm_trail _ _ S)]; rewrite B4; apply in_app_iff; auto.
    + apply weq_sym. apply S.
  - exists ss. rewrite (sm_strail _ _ S). split; [assumption|].
    intros o k. rewrite <- B7. symmetry. apply undo_scratches_respect.
    + pose proof (eo_scratch _ O1) as H. rewrite B6 in H. apply Forall_app in H. apply H.
    + pose proof (eo_scratch _ O1') as H. rewrite (sm_strail _ _ S), B6 in H. apply Forall_app in H. apply H.
    + intros o' k'. symmetry. apply S.
Qed.

Lemma fold_undo_keeps P es : functional P -> (forall e, In e es -> P (ed_watch e)) -> forall W,
  (forall v y, In y (nth v W []) -> P y) -> (forall v y, In y (nth v (fold_left undo_edit es W) []) -> P y).
Proof.
  intro F. induction es as [|e es IH]; intros Pe W H; simpl; auto. apply IH.
  - intros. apply Pe. simpl; auto.
  - apply undo_edit_keeps; auto. apply Pe. simpl; auto.
Qed.

Lemma fold_undo_length es : forall W, length (fold_left undo_edit es W) = length W.
Proof. induction es; intro W; simpl; auto. rewrite IHes. apply undo_edit_length. Qed.

Lemma fold_scratch_range es e' : forall S, in_range S e' -> in_range (fold_left undo_scratch es S) e'.
Proof. induction es; intros S H; simpl; auto. apply IHes. now apply undo_scratch_range. Qed.

Lemma firstn_app_exact {X} (a b : list X) : firstn (length (a ++ b) - length b) (a ++ b) = a.
Proof.
  rewrite app_length. replace (length a + length b - length b) with (length a) by lia.
  rewrite firstn_app, firstn_all, Nat.sub_diag. simpl. apply app_nil_r.
Qed.

Lemma skipn_app_exact {X} (a b : list X) : skipn (length (a ++ b) - length b) (a ++ b) = b.
Proof.
  rewrite app_length. replace (length a + length b - length b) with (length a) by lia.
  rewrite skipn_app, skipn_all, Nat.sub_diag. reflexivity.
Qed.

(** Running the two callbacks takes us back. *)
Lemma below_undone e0 e1 : engine_ok e0 -> engine_ok e1 -> below e0 e1 ->
  let e2 := run_undo (run_undo e1 (UndoTrails (length (wp_trail (e_watch e0))) (length (wp_strail (e_watch e0)))))
                     (UndoIdle (q_idle (e_pq e0))) in
  engine_ok e2 /\ same e0 e2.
Proof.
  intros O0 O1 [B1 B2 B3 (es & B4 & B5) (ss & B6 & B7)] e2.
  assert (T : wp_trail (e_watch e2) = wp_trail (e_watch e0)).
  { unfold e2. cbn. rewrite B4. apply skipn_app_exact. }
  assert (TS : wp_strail (e_watch e2) = wp_strail (e_watch e0)).
  { unfold e2. cbn. rewrite B6. apply skipn_app_exact. }
  assert (W : wp_watches (e_watch e2) = fold_left undo_edit es (wp_watches (e_watch e1))).
  { unfold e2. cbn [run_undo e_watch undo_trails wp_watches]. rewrite B4, firstn_app_exact. reflexivity. }
  assert (WS : wp_scratch (e_watch e2) = fold_left undo_scratch ss (wp_scratch (e_watch e1))).
  { unfold e2. cbn [run_undo e_watch undo_trails wp_scratch]. rewrite B6, firstn_app_exact. reflexivity. }
  assert (PO : forall x, pos (e_pq e2) x = pos (e_pq e1) x) by reflexivity.
  assert (ID : q_idle (e_pq e2) = q_idle (e_pq e0)) by reflexivity.
  assert (QQ : e_pq e2 = mk_pq (q_queue (e_pq e1)) (q_lookup (e_pq e1)) (q_begin (e_pq e1)) (q_end (e_pq e1)) (q_idle (e_pq e0))) by reflexivity.
  assert (NX : wp_next (e_watch e2) = wp_next (e_watch e1)) by reflexivity.
  assert (IB : wp_inbox (e_watch e2) = wp_inbox (e_watch e1)) by reflexivity.
  clearbody e2.
  split.
  - pose proof (eo_pq _ O1) as Q1. pose proof (eo_pq _ O0) as Q0.
    destruct (eo_ctx _ O1) as (P & F & Bd & (A1 & A2) & V). cbn in A1, A2. constructor.
    + pose proof (ok_order _ _ Q1). pose proof (ok_order _ _ Q0). destruct Q1 as [q1 q2 q3 q4 q5].
      rewrite QQ. constructor; cbn [q_queue q_lookup q_begin q_end q_idle]; auto. lia.
    + destruct (eo_own _ O1) as (H1 & H2). cbn in H1, H2. split; cbn.
      * intros v y. rewrite W.
        apply (fold_undo_keeps (fun y => P y /\ w_owner y < n)).
        -- intros a b [] []. apply F; auto.
        -- intros e I. assert (In e (wp_trail (e_watch e1))) by (rewrite B4; apply in_app_iff; auto). auto.
        -- intros v' y' I. eauto.
      * intros e. rewrite T. intro I. apply H2. rewrite B4. apply in_app_iff. auto.
    + unfold wtn, ctx_ok. exists P. split; [assumption|]. split; [rewrite NX; exact Bd|]. split.
      * split; cbn [fst snd].
        -- rewrite W. apply fold_undo_keeps; auto. intros e I. apply A2. rewrite B4. apply in_app_iff. auto.
        -- rewrite T. intros e I. apply A2. rewrite B4. apply in_app_iff. auto.
      * rewrite T, W, fold_undo_length. intros e I. apply V. rewrite B4. apply in_app_iff. auto.
    + rewrite TS, WS. pose proof (eo_scratch _ O1) as H. rewrite B6 in H. apply Forall_app in H. destruct H as [_ H].
      eapply Forall_impl; [|exact H]. intros. now apply fold_scratch_range.
    + rewrite IB. exact (eo_inbox _ O1).
  - constructor; auto.
    + intros x Hx L. rewrite PO. auto.
    + intros x Hx. unfold enabled at 1. rewrite PO, ID. now apply B3.
    + rewrite W. exact B5.
    + rewrite WS. exact B7.
Qed.

End Relations.

Lemma same_below n e0 e1 : same n e0 e1 -> below n e0 e1.
Proof.
  intro S. constructor.
  - rewrite (sm_idle _ _ _ S). lia.
  - apply S.
  - intros x Hx. rewrite <- (sm_enabled _ _ _ S x Hx). unfold enabled. rewrite (sm_idle _ _ _ S). reflexivity.
  - exists []. split; [apply S|]. apply S.
  - exists []. split; [apply S|]. apply S.
Qed.

Lemma same_below_trans n e0 e1 e2 : same n e0 e1 -> below n e1 e2 -> below n e0 e2.
Proof.
  intros S [B1 B2 B3 (es & B4 & B5) (ss & B6 & B7)]. constructor.
  - rewrite <- (sm_idle _ _ _ S). assumption.
  - intros x Hx L. rewrite <- (sm_above _ _ _ S x Hx L). apply B2; auto.
    rewrite (sm_idle _ _ _ S), (sm_above _ _ _ S x Hx L). assumption.
  - intros x Hx. rewrite <- (sm_enabled _ _ _ S x Hx), <- (B3 x Hx), (sm_idle _ _ _ S). reflexivity.
  - exists es. rewrite <- (sm_trail _ _ _ S). split; [assumption|]. eapply weq_trans; [exact B5|apply S].
  - exists ss. rewrite <- (sm_strail _ _ _ S). split; [assumption|]. intros o k. rewrite B7. apply S.
Qed.

Lemma same_callbacks n e0 e1 : same n e0 e1 ->
  [UndoTrails (length (wp_trail (e_watch e1))) (length (wp_strail (e_watch e1))); UndoIdle (q_idle (e_pq e1))] =
  [UndoTrails (length (wp_trail (e_watch e0))) (length (wp_strail (e_watch e0))); UndoIdle (q_idle (e_pq e0))].
Proof. intro S. now rewrite (sm_trail _ _ _ S), (sm_strail _ _ _ S), (sm_idle _ _ _ S). Qed.

(** ** The installed engine *)

Lemma register_ctx o l pl w : ctx_ok (wtn w) -> ctx_ok (wtn (register_watch o l pl false w)).
Proof.
  intros (P & F & B & (A1 & A2) & V). unfold register_watch. destruct (lit_underlying l) as [v|]; [|exists P; unfold all_watches; auto 6].
  cbn in *. set (x := mk_watch l pl o (wp_next w)).
  exists (fun y => P y \/ y = x). split; [|split; [|split; [split|]]].
  - intros a b [Pa| ->] [Pb| ->] E; auto; exfalso; [specialize (B a Pa)|specialize (B b Pb)]; cbn in *; lia.
  - intros y [Py| ->]; [specialize (B y Py); lia|cbn; lia].
  - cbn. intros k y. rewrite nth_set_ext_nil. destruct (Nat.eqb k v).
    + rewrite in_app_iff. intros [I|[<-|[]]]; [left; exact (A1 v y I)|auto].
    + intro I. left. exact (A1 k y I).
  - cbn. intros e I. left. auto.
  - cbn. intros e I. rewrite set_ext_length. specialize (V e I). lia.
Qed.

Lemma install_ctx props : ctx_ok (wtn (e_watch (installed_engine props))).
Proof.
  unfold installed_engine. cbn [e_watch].
  assert (G : forall l w, ctx_ok (wtn w) -> ctx_ok (wtn (fold_left (install_watches props) l w))).
  { induction l as [|p l IH]; intros w H; simpl; auto. apply IH. unfold install_watches.
    generalize (p_refined (the_prop props p)). intro rs. revert w H. induction rs as [|r rs IHr]; intros w H; simpl; auto.
    apply IHr. now apply register_ctx. }
  apply G. exists (fun _ => False). split; [intros ? ? []|]. split; [intros ? []|]. split; [|intros ? []].
  split; cbn; [intros [|v] y []|intros ? []].
Qed.

Lemma install_other props : wp_strail (e_watch (installed_engine props)) = [] /\ wp_inbox (e_watch (installed_engine props)) = [].
Proof.
  unfold installed_engine. cbn [e_watch].
  assert (G : forall l w, wp_strail w = [] /\ wp_inbox w = [] ->
    wp_strail (fold_left (install_watches props) l w) = [] /\ wp_inbox (fold_left (install_watches props) l w) = []).
  { induction l as [|p l IH]; intros w H; simpl; auto. apply IH. unfold install_watches.
    generalize (p_refined (the_prop props p)). intro rs. revert w H. induction rs as [|r rs IHr]; intros w H; simpl; auto.
    apply IHr. unfold register_watch. destruct (lit_underlying (fst r)); auto. }
  apply G. auto.
Qed.

(** ** Child nodes *)

(** [(e1, st1)] is reached from [(e0, st0)] by opening an epoch and then guessing
    or inferring on it, propagating if [called], and coming back from further
    children. *)
Definition child (n : nat) (called : bool) (e0 : engine) (st0 : estate) (e1 : engine) (st1 : estate) : Prop :=
  engine_ok n e1 /\
  exists d cs cb gg,
    st1 = mk_state (d :: st_domains st0) (cs :: st_cstates st0) (cb :: st_callbacks st0) (st_guesses st0 ++ gg) /\
    if called then
      cb = [UndoTrails (length (wp_trail (e_watch e0))) (length (wp_strail (e_watch e0))); UndoIdle (q_idle (e_pq e0))] /\
      below n e0 e1
    else cb = [] /\ same n e0 e1.

Lemma child_same n called e0 st0 e1 st1 e1' : child n called e0 st0 e1 st1 -> engine_ok n e1' -> same n e1 e1' -> child n called e0 st0 e1' st1.
Proof.
  intros (O & d & cs & cb & gg & E & H) O' S. split; [assumption|]. exists d, cs, cb, gg. split; [assumption|].
  destruct called; destruct H as [-> H]; (split; [reflexivity|]).
  - eapply below_same; [exact O| | |]; eauto.
  - eapply same_trans; eauto.
Qed.

Lemma child_back n called e0 st0 t st e1 st1 : engine_ok n e0 -> balanced st0 -> new_epoch st0 = (t, st) -> child n called e0 st0 e1 st1 ->
  forall st2 us, backtrack t st1 = (st2, us) ->
  st2 = st0 /\ engine_ok n (fold_left run_undo us e1) /\ same n e0 (fold_left run_undo us e1).
Proof.
  intros O0 [B1 B2] N (O1 & d & cs & cb & gg & E & H) st2 us BT. unfold new_epoch in N. injection N as <- _.
  unfold backtrack in BT. injection BT as <- <-. subst st1. cbn [st_domains st_cstates st_callbacks st_guesses t_when t_guesses length].
  rewrite Nat.sub_0_r. change (d :: st_domains st0) with ([d] ++ st_domains st0).
  change (cs :: st_cstates st0) with ([cs] ++ st_cstates st0). change (cb :: st_callbacks st0) with ([cb] ++ st_callbacks st0).
  assert (FG : firstn (length (st_guesses st0)) (st_guesses st0 ++ gg) = st_guesses st0).
  { rewrite firstn_app, firstn_all, Nat.sub_diag. simpl. apply app_nil_r. }
  rewrite FG, resize_exact. rewrite B1 at 1. rewrite resize_exact. rewrite B2 at 1. rewrite resize_exact.
  split; [destruct st0; reflexivity|].
  assert (CB : callbacks_above (length (st_domains st0)) ([cb] ++ st_callbacks st0) = cb).
  { unfold callbacks_above. rewrite B2, firstn_app_exact. simpl. apply app_nil_r. }
  rewrite CB. destruct called; destruct H as [-> H].
  - cbn [fold_left]. apply below_undone; assumption.
  - split; assumption.
Qed.

Lemma child_new n e0 st0 t st : engine_ok n e0 -> new_epoch st0 = (t, st) -> child n false e0 st0 e0 st.
Proof.
  intros O N. unfold new_epoch in N. injection N as _ <-. split; [assumption|].
  exists (current st0), (top (st_cstates st0)), [], []. split; [now rewrite app_nil_r|]. split; [reflexivity|apply same_refl].
Qed.

Lemma child_domains n called e0 st0 e1 st1 d : child n called e0 st0 e1 st1 -> child n called e0 st0 e1 (with_domains st1 d).
Proof.
  intros (O & d0 & cs & cb & gg & -> & H). split; [assumption|]. exists d, cs, cb, gg. split; [reflexivity|assumption].
Qed.

Lemma child_infer n called e0 st0 e1 st1 l i st2 : child n called e0 st0 e1 st1 -> state_infer st1 l = (i, st2) -> child n called e0 st0 e1 st2.
Proof. unfold state_infer. destruct (infer (current st1) l). intros C E. injection E as _ <-. now apply child_domains. Qed.

Lemma child_guess n called e0 st0 e1 st1 l b st2 : child n called e0 st0 e1 st1 -> guess st1 l = (b, st2) -> child n called e0 st0 e1 st2.
Proof.
  unfold guess. destruct (state_infer st1 l) as [i st'] eqn:E. intros C G. apply (child_infer _ _ _ _ _ _ _ _ _ C) in E.
  destruct i; injection G as _ <-; auto; destruct E as (O & d & cs & cb & gg & -> & H); (split; [assumption|]);
    exists d, cs, cb, (gg ++ [l]); (split; [cbn; now rewrite app_assoc|assumption]).
Qed.

Lemma child_bounds n called e0 st0 e1 ls : forall st1 b st2 ch, child n called e0 st0 e1 st1 -> add_bounds st1 ls = (b, st2, ch) -> child n called e0 st0 e1 st2.
Proof.
  induction ls as [|l r IH]; intros st1 b st2 ch C E; simpl in E; [now injection E as _ <- _|].
  destruct (state_infer st1 l) as [i st'] eqn:S. apply (child_infer _ _ _ _ _ _ _ _ _ C) in S.
  destruct i; try (now injection E as _ <- _); try (eapply IH; eassumption);
    destruct (add_bounds st' r) as [[b' st''] ch'] eqn:E'; injection E as <- <- _; eapply IH; eassumption.
Qed.


(** ** Settledness under guesses *)

Section Calls.
Variable props : list propagator.
Variable disabled : nat -> bool.
Notation n := (length props).
Notation the := (the_prop props).
Variable nv : nat.
Variable Inv : domains -> list cstate -> Prop.

Lemma classic_contra i : i = Contradiction \/ i <> Contradiction.
Proof. destruct i; auto; right; discriminate. Qed.

Lemma infer_size d l i d' : domains_ok d -> lit_known d l -> infer d l = (i, d') -> i <> Contradiction ->
  (total_size d' <= total_size d)%nat.
Proof.
  intros Hd K E N. destruct (lit_underlying l) as [v|] eqn:U.
  - assert (i = NoChange \/ i <> NoChange) as [-> |N2] by (destruct i; auto; right; discriminate).
    + rewrite (infer_nochange _ _ _ Hd K E). lia.
    + pose proof (infer_shrinks _ _ _ _ _ Hd K E N N2 U). lia.
  - pose proof (apply_lits_size d [l] d' [] false Hd (Forall_cons _ K (Forall_nil _))) as H.
    cbn [apply_lits] in H. rewrite E, U in H. destruct i; try (specialize (H eq_refl eq_refl); simpl in H; lia). congruence.
Qed.

Lemma subscribes_inst p v k : subscribes p v k -> subscribes p v Instantiated.
Proof.
  intros [(x & I & U & _)|[(x & I & U & _)|(x & I & U & _)]]; [left|right; left|right; right]; exists x; auto.
Qed.

Lemma same_settled ok dead e e' d : same n e e' -> settled props disabled ok dead e d -> settled props disabled ok dead e' d.
Proof.
  intros S H p Hp Dp. destruct (H p Hp Dp) as [A B]. split; intro E.
  - apply A. now apply (sm_enabled _ _ _ S p Hp).
  - apply B. intro. apply E. now apply (sm_enabled _ _ _ S p Hp).
Qed.

Lemma settled_start ok dead e d gs : settled props disabled ok dead e d -> settled_but props disabled ok dead gs e d.
Proof. intros H p Hp Dp. destruct (H p Hp Dp). split; auto. Qed.

Hypothesis HI : forall d cs l k d', domains_ok d -> length d = nv -> lit_known d l -> Inv d cs ->
  infer d l = (k, d') -> k <> Contradiction -> Inv d' cs.

Lemma subscribes_dec p v k : {subscribes p v k} + {~ subscribes p v k}.
Proof.
  destruct (in_dec Nat.eq_dec 0 (coarse_woken [p] v k)) as [I|I].
  - left. apply coarse_woken_spec in I. apply I.
  - right. intro S. apply I. apply coarse_woken_spec. split; [simpl; lia|exact S].
Qed.

Lemma settled_infer ok dead gs e d l k d' : (forall x, x < n -> wakeable nv Inv (the x) (ok x) (dead x)) ->
  domains_ok d -> length d = nv -> lit_known d l -> infer d l = (k, d') -> k <> Contradiction ->
  settled_but props disabled ok dead gs e d -> settled_but props disabled ok dead (gs ++ [l]) e d'.
Proof.
  intros HK Dd Ld Kl E Nk H p Hp Dp. destruct (H p Hp Dp) as [A B]. split.
  - intro En. destruct (A En) as [O|(l' & v & I & U & S)].
    + destruct (lit_underlying l) as [v|] eqn:U.
      * destruct (subscribes_dec (the p) v k) as [Sb|Ns].
        -- right. exists l, v. split; [apply in_app_iff; simpl; auto|]. split; [assumption|]. now apply subscribes_inst in Sb.
        -- left. apply (wk_kept _ _ _ _ _ (HK p Hp) d l k d'); auto. intros v' E'. congruence.
      * left. apply (wk_kept _ _ _ _ _ (HK p Hp) d l k d'); auto. intros v' E'. congruence.
    + right. exists l', v. split; [apply in_app_iff; auto|]. auto.
  - intro En. apply (wk_dead _ _ _ _ _ (HK p Hp) d l k d'); auto.
Qed.

(** What is needed of a state before propagating. *)
Definition state_fit (st : estate) : Prop :=
  has_epoch st /\ domains_ok (current st) /\ length (current st) = nv /\ Inv (current st) (top (st_cstates st)).

Lemma state_infer_fit st l i st' : state_fit st -> lit_known (current st) l -> state_infer st l = (i, st') ->
  infer (current st) l = (i, current st') /\ has_epoch st' /\ st_guesses st' = st_guesses st /\
  length (current st') = nv /\ (i <> Contradiction -> state_fit st').
Proof.
  intros ((E1 & E2 & E3) & D & L & I) K S. unfold state_infer in S.
  destruct (infer (current st) l) as [i' d'] eqn:E. injection S as -> <-.
  assert (C : current (with_domains st d') = d').
  { unfold current, with_domains. cbn. destruct (st_domains st); [congruence|reflexivity]. }
  assert (HE : has_epoch (with_domains st d')).
  { unfold has_epoch, with_domains. cbn. destruct (st_domains st); [congruence|]. split; [discriminate|]. auto. }
  assert (LC : length d' = nv) by exact (eq_trans (infer_length _ _ _ _ D K E) L).
  rewrite C. split; [reflexivity|]. split; [assumption|]. split; [reflexivity|]. split; [assumption|].
  intro N. split; [assumption|]. rewrite C. split; [exact (infer_ok _ _ _ _ D K E N)|]. split; [assumption|].
  cbn. eapply HI; eauto.
Qed.

Lemma guess_fit st l b st' : state_fit st -> lit_known (current st) l -> guess st l = (b, st') ->
  exists i, infer (current st) l = (i, current st') /\ has_epoch st' /\ length (current st') = nv /\
  if b then i <> Contradiction /\ state_fit st' else i = Contradiction.
Proof.
  intros F K G. unfold guess in G. destruct (state_infer st l) as [i st1] eqn:S.
  destruct (state_infer_fit _ _ _ _ F K S) as (E & HE & _ & L & N).
  exists i. destruct i; injection G as <- <-; (split; [exact E|]); (split; [exact HE|]); (split; [exact L|]); auto;
    (split; [discriminate|]); apply N; discriminate.
Qed.

Lemma bounds_fit ls : forall st b st' ch, state_fit st -> Forall (lit_known (current st)) ls -> add_bounds st ls = (b, st', ch) ->
  has_epoch st' /\ length (current st') = nv /\ incl ch ls /\
  if b then
    state_fit st' /\ (forall a, within a (current st') <-> within a (current st) /\ Forall (lit_holds a) ls) /\
    (forall ok dead gs e, (forall x, x < n -> wakeable nv Inv (the x) (ok x) (dead x)) ->
       settled_but props disabled ok dead gs e (current st) -> settled_but props disabled ok dead (gs ++ ch) e (current st')) /\
    (total_size (current st') <= total_size (current st))%nat
  else forall a, within a (current st) -> ~ Forall (lit_holds a) ls.
Proof.
  induction ls as [|l r IH]; intros st b st' ch F K E; simpl in E.
  - injection E as <- <- <-. pose proof F as (HE & D & L & I). split; [assumption|]. split; [assumption|]. split; [intros x []|].
    split; [assumption|]. split; [intro a; split; [split; auto|tauto]|]. split; [|lia]. intros. now rewrite app_nil_r.
  - inversion K as [|? ? Kl Kr]; subst. destruct (state_infer st l) as [i st1] eqn:S.
    destruct (state_infer_fit _ _ _ _ F Kl S) as (Ei & HE & _ & L1 & N). pose proof F as (_ & D & L & I).
    assert (Kr' : Forall (lit_known (current st1)) r).
    { eapply Forall_impl; [|exact Kr]. intros. eapply lit_known_length; [|eassumption]. exact (eq_trans L1 (eq_sym L)). }
    destruct (classic_contra i) as [-> | Ni].
    + injection E as <- <- <-. split; [assumption|]. split; [assumption|]. split; [intros x []|].
      intros a W C. inversion C; subst. eapply infer_contradiction; eauto.
    + specialize (N Ni).
      destruct (add_bounds st1 r) as [[b1 st2] ch1] eqn:E1.
      assert (EE : b = b1 /\ st' = st2 /\ ((i = NoChange /\ ch = ch1) \/ ch = l :: ch1)).
      { destruct i; try congruence; injection E as <- <- <-; auto. }
      destruct EE as (-> & -> & EC). destruct (IH _ _ _ _ N Kr' E1) as (H1 & H2 & H3 & H4).
      split; [assumption|]. split; [assumption|]. split.
      { destruct EC as [[_ ->]| ->]; intros x Hx; [right; auto|]. destruct Hx as [->|Hx]; [left; auto|right; auto]. }
      pose proof (fun a => infer_within _ _ _ _ a D Kl Ei Ni) as IW.
      destruct b1.
      * destruct H4 as (F4 & W4 & S4 & T4). split; [assumption|]. split; [|split].
        -- intro a. rewrite W4, IW. split; [intros [[] ?]; auto|]. intros [? C]. inversion C; subst. auto.
        -- intros ok dead gs e HK ST. destruct EC as [[-> ->]| ->].
           ++ assert (EQ : current st1 = current st) by (eapply infer_nochange; eauto). apply S4; auto. rewrite EQ. assumption.
           ++ replace (gs ++ l :: ch1) with ((gs ++ [l]) ++ ch1) by now rewrite <- app_assoc. apply S4; auto.
              eapply settled_infer; eauto.
        -- destruct EC as [[-> _]| _].
           ++ assert (EQ : current st1 = current st) by (eapply infer_nochange; eauto). rewrite EQ in T4. assumption.
           ++ etransitivity; [exact T4|]. eapply infer_size; eauto.
      * intros a W C. inversion C; subst. apply (H4 a); auto. apply IW. auto.
Qed.

Hypothesis HW : forall p, p < n -> well_behaved nv Inv (the p).

(** What is needed of the engine before propagating. *)
Definition engine_fit (gs : list literal) (e : engine) : Prop :=
  (gs <> [] -> pq_ok n (e_pq e)) /\ owners_ok n (e_watch e) /\ ctx_ok (wtn (e_watch e)) /\
  Forall (in_range (wp_scratch (e_watch e))) (wp_strail (e_watch e)).

Lemma engine_ok_fit gs e : engine_ok n e -> engine_fit gs e.
Proof. intros [A B C D _]. unfold engine_fit. auto. Qed.

Lemma installed_fit : engine_fit [] (installed_engine props).
Proof.
  split; [congruence|]. split; [apply install_owners|]. split; [apply install_ctx|].
  rewrite (proj1 (install_other props)). constructor.
Qed.

Variable abort : nat -> bool.

Lemma propagate_call fuel gs e st b e' st' : engine_fit gs e -> state_fit st ->
  propagate props disabled abort fuel gs e st = Some (b, e', st') ->
  engine_ok n e' /\ (gs <> [] -> below n e e') /\
  (exists u, (gs <> [] -> u = [UndoTrails (length (wp_trail (e_watch e))) (length (wp_strail (e_watch e))); UndoIdle (q_idle (e_pq e))]) /\
     st' = opened st u (current st') (top (st_cstates st'))) /\
  has_epoch st' /\ length (current st') = nv /\ e_loads e <= e_loads e' /\
  if b then
    state_fit st' /\ narrow props nv Inv (current st) (current st') /\
    ((exists k, e_loads e <= k < e_loads e' /\ abort k = true) \/
     forall ok dead, (forall x, x < n -> wakeable nv Inv (the x) (ok x) (dead x)) ->
       (gs <> [] -> settled_but props disabled ok dead gs e (current st)) -> settled props disabled ok dead e' (current st'))
  else no_solution props nv Inv (current st).
Proof.
  intros (F1 & F2 & F3 & F4) (S1 & S2 & S3 & S4) E.
  assert (C : callable props nv Inv gs e st) by (constructor; auto).
  destruct (propagate_spec props disabled abort nv Inv HW _ _ _ _ _ _ _ C E)
    as (P1 & P2 & P3 & P4 & P5 & P6 & P7 & P8 & P9 & P10 & P11 & P12).
  destruct (edited_spec _ _ P9 F3) as (CX & es & T & W). destruct (P10 F4) as (RX & ss & TS & WS).
  assert (HE : has_epoch st').
  { rewrite P1. destruct S1 as (E1 & E2 & E3). unfold has_epoch, opened. cbn.
    destruct (st_domains st), (st_cstates st), (st_callbacks st); try congruence. repeat split; discriminate. }
  split; [constructor; auto|]. split.
  { intro G. assert (SG : started props disabled gs e st = e_pq e) by (unfold started; destruct gs; congruence).
    rewrite SG in *. constructor; auto.
    - exists es. auto.
    - exists ss. auto. }
  split.
  { eexists. split; [|exact P1]. intro G. unfold started. destruct gs; congruence. }
  split; [assumption|]. split; [assumption|]. split; [assumption|].
  destruct b; [|exact P12]. destruct P12 as (Q1 & Q2 & Q3 & Q4). split; [split; auto|]. auto.
Qed.

Lemma propagate_enough fuel gs e st : engine_fit gs e -> state_fit st -> (S (total_size (current st)) * S n <= fuel)%nat ->
  exists b e' st', propagate props disabled abort fuel gs e st = Some (b, e', st').
Proof.
  intros (F1 & F2 & F3 & F4) (S1 & S2 & S3 & S4) L.
  assert (C : callable props nv Inv gs e st) by (constructor; auto).
  exact (propagate_terminates props disabled abort nv Inv HW _ _ _ _ C L).
Qed.

Lemma child_propagate fuel e0 st0 gs e st b e' st' : gs <> [] -> child n false e0 st0 e st -> state_fit st ->
  propagate props disabled abort fuel gs e st = Some (b, e', st') -> child n true e0 st0 e' st'.
Proof.
  intros G (O & d & cs & cb & gg & ES & -> & S) F E.
  destruct (propagate_call _ _ _ _ _ _ _ (engine_ok_fit gs e O) F E) as (O' & B & (u & U & EU) & HE & _).
  specialize (B G). rewrite (U G) in EU. split; [assumption|].
  exists (current st'), (top (st_cstates st')), [UndoTrails (length (wp_trail (e_watch e0))) (length (wp_strail (e_watch e0))); UndoIdle (q_idle (e_pq e0))], gg.
  split; [|split; [reflexivity|]].
  - rewrite EU at 1. rewrite ES. rewrite (same_callbacks _ _ _ S). reflexivity.
  - eapply same_below_trans; eauto.
Qed.

End Calls.
