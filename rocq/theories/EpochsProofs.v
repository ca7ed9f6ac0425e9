(** Lemmas about the stack of epochs. *)
From Coq Require Import ZArith List Bool Lia Permutation.
From Verif Require Import IntervalSet Vars State Epochs EpochsSpec.
Import ListNotations.

Section Epochs.
Context {A : Type}.

(** [st] is [base] with some newer epochs, and at least as many guesses. *)
Definition extends (base st : state A) : Prop :=
  exists dx cx bx gx,
    st_domains st = dx ++ st_domains base /\ st_cstates st = cx ++ st_cstates base /\
    st_callbacks st = bx ++ st_callbacks base /\ st_guesses st = st_guesses base ++ gx /\
    dx <> [] /\ length dx = length cx /\ length dx = length bx.

Lemma resize_app {X} (a b : list X) n : (length b <= n)%nat -> (n <= length (a ++ b))%nat ->
  exists a', resize n (a ++ b) = a' ++ b /\ length (a' ++ b) = n.
Proof.
  intros H1 H2. unfold resize. rewrite app_length in *.
  exists (skipn (length a + length b - n) a). rewrite skipn_app.
  replace (length a + length b - n - length a)%nat with 0%nat by lia. simpl.
  split; [reflexivity|]. rewrite app_length, skipn_length. lia.
Qed.

Lemma resize_exact {X} (a b : list X) : resize (length b) (a ++ b) = b.
Proof.
  unfold resize. rewrite app_length. replace (length a + length b - length b)%nat with (length a) by lia.
  rewrite skipn_app, skipn_all, Nat.sub_diag. reflexivity.
Qed.

Lemma concat_split (l : list (list A)) n : concat l = concat (firstn n l) ++ concat (skipn n l).
Proof. rewrite <- concat_app, firstn_skipn. reflexivity. Qed.

Definition balanced (st : state A) : Prop :=
  length (st_domains st) = length (st_cstates st) /\ length (st_domains st) = length (st_callbacks st).

Definition ts_above (base : state A) (ts : list timestamp) : Prop :=
  Forall (fun t => (length (st_domains base) < t_when t)%nat /\ (length (st_guesses base) <= t_guesses t)%nat) ts.

Lemma set_top_length {X} (l : list (list X)) x : length (set_top l x) = length l.
Proof. destruct l; reflexivity. Qed.

Lemma set_top_app {X} (a b : list (list X)) x : a <> [] -> set_top (a ++ b) x = set_top a x ++ b.
Proof. destruct a; [congruence|reflexivity]. Qed.

Lemma nonempty_len {X} (l : list X) : l <> [] <-> (0 < length l)%nat.
Proof. destruct l; simpl; split; intros; try congruence; lia. Qed.

(** The callbacks waiting above the base, plus those already run, are exactly
    the ones registered. *)
Definition pending (base st : state A) : list A := concat (firstn (length (st_callbacks st) - length (st_callbacks base)) (st_callbacks st)).

Lemma pending_app base st bx : st_callbacks st = bx ++ st_callbacks base -> pending base st = concat bx.
Proof.
  intro E. unfold pending. rewrite E, app_length.
  replace (length bx + length (st_callbacks base) - length (st_callbacks base))%nat with (length bx) by lia.
  rewrite firstn_app, firstn_all, Nat.sub_diag. simpl. now rewrite app_nil_r.
Qed.

Lemma perm_mid (p r q f : list A) : Permutation (r ++ p) q -> Permutation (r ++ p ++ f) (q ++ f).
Proof. intro H. rewrite app_assoc. now apply Permutation_app_tail. Qed.

Lemma with_domains_extends base st d : extends base st -> extends base (with_domains st d).
Proof.
  intros (dx & cx & bx & gx & E1 & E2 & E3 & E4 & N & L1 & L2).
  exists (set_top dx d), cx, bx, gx. simpl. rewrite E1.
  split; [exact (set_top_app dx _ d N)|]. split; [assumption|]. split; [assumption|]. split; [assumption|].
  pose proof (set_top_length dx d) as L. split; [|split].
  - clear - N. destruct dx; [congruence|discriminate].
  - rewrite <- L1. exact L.
  - rewrite <- L2. exact L.
Qed.

Lemma step_extends base o st ts ran st' ts' ran' (reg : list A) :
  balanced base -> extends base st -> ts_above base ts ->
  Permutation (ran ++ pending base st) reg ->
  run_st_op o (st, ts, ran) = Some (st', ts', ran') ->
  extends base st' /\ ts_above base ts' /\
  Permutation (ran' ++ pending base st') (reg ++ registered_by o).
Proof.
  intros Hb He Ht Hp Hr.
  destruct o; simpl in Hr; simpl registered_by; rewrite ?app_nil_r.
  - (* allocate *) unfold allocate in Hr. destruct (Z.ltb u l); injection Hr as <- <- <-; auto.
    split; [now apply with_domains_extends|]. auto.
  - unfold state_infer in Hr. destruct (infer (current st) l) as [i d]. injection Hr as <- <- <-.
    split; [now apply with_domains_extends|]. auto.
  - unfold guess, state_infer in Hr. destruct (infer (current st) l) as [i d].
    assert (G : extends base (with_domains st d)) by now apply with_domains_extends.
    assert (G' : extends base (mk_state (st_domains (with_domains st d)) (st_cstates (with_domains st d))
        (st_callbacks (with_domains st d)) (st_guesses (with_domains st d) ++ [l]))).
    { destruct G as (dx & cx & bx & gx & E1 & E2 & E3 & E4 & N & L1 & L2).
      exists dx, cx, bx, (gx ++ [l]). simpl in *. rewrite E4, app_assoc. auto 10. }
    destruct i; injection Hr as <- <- <-; auto.
  - injection Hr as <- <- <-. destruct He as (dx & cx & bx & gx & E1 & E2 & E3 & E4 & N & L1 & L2).
    rewrite (pending_app base st bx E3) in Hp.
    assert (Nb : bx <> []) by (apply nonempty_len; rewrite <- L2; now apply nonempty_len).
    destruct bx as [|b0 bx']; [congruence|]. unfold on_backtrack. rewrite E3. simpl.
    split; [|split; [assumption|]].
    + exists dx, cx, ((b0 ++ [f]) :: bx'), gx. simpl. auto 10.
    + rewrite (pending_app base _ ((b0 ++ [f]) :: bx')) by reflexivity. simpl in *.
      rewrite app_assoc in Hp. rewrite <- (app_assoc b0), (app_assoc ran).
      rewrite (Permutation_app_comm [f]). rewrite app_assoc. now apply Permutation_app_tail.
  - injection Hr as <- <- <-. destruct He as (dx & cx & bx & gx & E1 & E2 & E3 & E4 & N & L1 & L2).
    assert (Nc : cx <> []) by (apply nonempty_len; rewrite <- L1; now apply nonempty_len).
    split; [|auto]. exists dx, (set_top cx (top (st_cstates st) ++ [c])), bx, gx. simpl.
    rewrite E2 at 1. rewrite set_top_app, set_top_length by assumption. auto 10.
  - injection Hr as <- <- <-. destruct He as (dx & cx & bx & gx & E1 & E2 & E3 & E4 & N & L1 & L2).
    assert (Nc : cx <> []) by (apply nonempty_len; rewrite <- L1; now apply nonempty_len).
    split; [|auto]. exists dx, (set_top cx (set_nth (top (st_cstates st)) h c)), bx, gx. simpl.
    rewrite E2 at 1. rewrite set_top_app, set_top_length by assumption. auto 10.
  - injection Hr as <- <- <-. destruct He as (dx & cx & bx & gx & E1 & E2 & E3 & E4 & N & L1 & L2).
    rewrite (pending_app base st bx E3) in Hp.
    split; [|split].
    + exists (current st :: dx), (top (st_cstates st) :: cx), ([] :: bx), gx. simpl.
      rewrite E1, E2, E3. repeat split; auto; try congruence; simpl; lia.
    + apply Forall_app. split; [assumption|]. constructor; [|constructor]. simpl.
      rewrite E1, E4, !app_length. apply nonempty_len in N. lia.
    + rewrite (pending_app base _ ([] :: bx)) by (simpl; now rewrite E3). simpl. assumption.
  - destruct (nth_error ts k) as [t|] eqn:E; [|discriminate].
    destruct (Nat.leb_spec (t_when t) (length (st_domains st))); [|discriminate].
    destruct (Nat.leb_spec (t_guesses t) (length (st_guesses st))); [|discriminate].
    injection Hr as <- <- <-. apply nth_error_In in E.
    pose proof (proj1 (Forall_forall _ _) Ht t E) as [T1 T2].
    destruct He as (dx & cx & bx & gx & E1 & E2 & E3 & E4 & N & L1 & L2). destruct Hb as [B1 B2].
    destruct (resize_app dx (st_domains base) (t_when t)) as (dx' & D1 & D2); [lia|rewrite <- E1; assumption|].
    destruct (resize_app cx (st_cstates base) (t_when t)) as (cx' & C1 & C2);
      [lia|rewrite app_length, <- L1, <- B1, <- app_length, <- E1; assumption|].
    destruct (resize_app bx (st_callbacks base) (t_when t)) as (bx' & F1 & F2);
      [lia|rewrite app_length, <- L2, <- B2, <- app_length, <- E1; assumption|].
    rewrite app_length in D2, C2, F2.
    split; [|split; [assumption|]].
    + exists dx', cx', bx', (firstn (t_guesses t - length (st_guesses base)) gx). unfold backtrack; simpl.
      rewrite E1, E2, E3, E4, D1, C1, F1. rewrite firstn_app, firstn_all2 by lia.
      repeat split; auto; try lia. apply nonempty_len. lia.
    + rewrite (pending_app base st bx E3) in Hp.
      rewrite (pending_app base _ bx') by (simpl; rewrite E3; assumption). simpl.
      assert (Ebx : concat bx = callbacks_above (t_when t) (st_callbacks st) ++ concat bx').
      { unfold callbacks_above. rewrite E3. unfold resize in F1. rewrite app_length in *.
        rewrite skipn_app in F1. replace (length bx + length (st_callbacks base) - t_when t - length bx)%nat with 0%nat in F1 by lia.
        simpl in F1. apply app_inv_tail in F1. subst bx'. rewrite firstn_app.
        replace (length bx + length (st_callbacks base) - t_when t - length bx)%nat with 0%nat by lia.
        simpl. rewrite app_nil_r. apply concat_split. }
      rewrite Ebx in Hp. rewrite <- app_assoc. assumption.
Qed.

Lemma run_extends base ops : forall st ts ran st' ts' ran' reg,
  balanced base -> extends base st -> ts_above base ts ->
  Permutation (ran ++ pending base st) reg ->
  run_st_ops ops (st, ts, ran) = Some (st', ts', ran') ->
  extends base st' /\ Permutation (ran' ++ pending base st') (reg ++ flat_map registered_by ops).
Proof.
  induction ops as [|o ops IH]; intros st ts ran st' ts' ran' reg Hb He Ht Hp Hr; cbn [run_st_ops flat_map] in *.
  - injection Hr as <- <- <-. rewrite app_nil_r. auto.
  - destruct (run_st_op o (st, ts, ran)) as [[[st1 ts1] ran1]|] eqn:E; [|discriminate].
    destruct (step_extends base o st ts ran st1 ts1 ran1 reg Hb He Ht Hp E) as (He1 & Ht1 & Hp1).
    rewrite app_assoc. eapply IH; eassumption.
Qed.

Lemma backtrack_restores (base : state A) ops t st st' ts' ran :
  balanced base ->
  new_epoch base = (t, st) ->
  run_st_ops ops (st, [], []) = Some (st', ts', ran) ->
  fst (backtrack t st') = base /\
  Permutation (ran ++ snd (backtrack t st')) (flat_map registered_by ops).
Proof.
  intros Hb En Hr. unfold new_epoch in En. injection En as Ht <-.
  assert (Hx : extends base (mk_state (current base :: st_domains base) (top (st_cstates base) :: st_cstates base)
                             ([] :: st_callbacks base) (st_guesses base))).
  { exists [current base], [top (st_cstates base)], [[]], []. simpl. rewrite app_nil_r.
    do 4 (split; [reflexivity|]). split; [discriminate|]. split; reflexivity. }
  destruct (run_extends base ops _ [] [] _ _ _ [] Hb Hx (Forall_nil _)
              ltac:(rewrite (pending_app base _ [[]]) by reflexivity; constructor) Hr) as [He Hp].
  destruct He as (dx & cx & bx & gx & E1 & E2 & E3 & E4 & N & L1 & L2). destruct Hb as [B1 B2].
  assert (Et : t_when t = length (st_domains base)) by (rewrite <- Ht; simpl; lia).
  assert (Eg : t_guesses t = length (st_guesses base)) by (rewrite <- Ht; reflexivity).
  split.
  - unfold backtrack. rewrite Et, Eg, E1, E2, E3, E4. simpl.
    rewrite resize_exact. rewrite B1 at 1. rewrite resize_exact. rewrite B2. rewrite resize_exact.
    rewrite firstn_app, firstn_all, Nat.sub_diag. simpl. rewrite app_nil_r.
    destruct base; reflexivity.
  - unfold backtrack; simpl fst; simpl snd. unfold callbacks_above. rewrite Et, B2. exact Hp.
Qed.

Ltac bal B1 B2 := split; simpl; first [exact B1 | exact B2
  | etransitivity; [apply set_top_length|exact B1] | etransitivity; [apply set_top_length|exact B2]
  | etransitivity; [exact B1|symmetry; apply set_top_length] | etransitivity; [exact B2|symmetry; apply set_top_length]].

Lemma balanced_reachable ops st ts ran : forall (x0 : state A) ts0 ran0, balanced x0 ->
  run_st_ops ops (x0, ts0, ran0) = Some (st, ts, ran) -> balanced st.
Proof.
  induction ops as [|o ops IH]; intros x0 ts0 ran0 Hb Hr; cbn [run_st_ops] in Hr.
  - injection Hr as <- <- <-. assumption.
  - destruct (run_st_op o (x0, ts0, ran0)) as [[[st1 ts1] ran1]|] eqn:E; [|discriminate].
    apply (IH st1 ts1 ran1); [|assumption]. clear IH Hr. destruct Hb as [B1 B2].
    destruct o; simpl in E.
    + unfold allocate in E. destruct (Z.ltb u l); injection E as <- <- <-; bal B1 B2.
    + unfold state_infer in E. destruct (infer (current x0) l). injection E as <- <- <-. bal B1 B2.
    + unfold guess, state_infer in E. destruct (infer (current x0) l) as [i d].
      destruct i; injection E as <- <- <-; bal B1 B2.
    + injection E as <- <- <-. bal B1 B2.
    + injection E as <- <- <-. bal B1 B2.
    + injection E as <- <- <-. bal B1 B2.
    + injection E as <- <- <-. split; simpl; congruence.
    + destruct (nth_error ts0 k) as [t|]; [|discriminate].
      destruct (Nat.leb (t_when t) (length (st_domains x0)) && Nat.leb (t_guesses t) (length (st_guesses x0))); [|discriminate].
      injection E as <- <- <-. split; simpl; unfold resize; rewrite !skipn_length; congruence.
Qed.

Lemma backtrack_restores_reachable (before : list (st_op A)) base ts0 ran0 t st ops st' ts' ran :
  run_st_ops before (initial_state, [], []) = Some (base, ts0, ran0) ->
  new_epoch base = (t, st) ->
  run_st_ops ops (st, [], []) = Some (st', ts', ran) ->
  fst (backtrack t st') = base /\
  Permutation (ran ++ snd (backtrack t st')) (flat_map registered_by ops).
Proof.
  intros H1 H2 H3. eapply backtrack_restores; try eassumption.
  eapply balanced_reachable; [|exact H1]. split; reflexivity.
Qed.

Lemma guess_spec (st : state A) l : forall ok st', guess st l = (ok, st') ->
  (ok = true <-> fst (infer (current st) l) <> Contradiction) /\
  st_domains st' = set_top (st_domains st) (snd (infer (current st) l)) /\
  st_cstates st' = st_cstates st /\ st_callbacks st' = st_callbacks st /\
  st_guesses st' = if ok then st_guesses st ++ [l] else st_guesses st.
Proof.
  intros ok st' E. unfold guess, state_infer in E. destruct (infer (current st) l) as [i d].
  destruct i; injection E as <- <-; simpl; repeat split; congruence.
Qed.
End Epochs.
