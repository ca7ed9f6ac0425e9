(** The main loop of the propagation engine. *)
From Coq Require Import ZArith List Bool Arith Lia Permutation.
From Verif Require Import Vars VarsSpec State StateSpec StateProofs Epochs Engine EngineSpec EngineQueueProofs EngineWatchProofs EngineProofs.
Import ListNotations.

Section Loop.
Variable props : list propagator.

Notation n := (length props).
Notation the := (the_prop props).
Notation subs := (subs props).


(** ** The queue grows *)

Definition queued (q : pq) (x : nat) : Prop := pos q x < q_end q.

Record grows (q q' : pq) : Prop :=
  { g_ok : pq_ok n q';
    g_begin : q_begin q' = q_begin q;
    g_idle : q_idle q' = q_idle q;
    g_end : q_end q <= q_end q';
    g_keep : forall x, x < n -> pos q x < q_end q -> pos q' x = pos q x;
    g_above : forall x, x < n -> q_idle q <= pos q x -> pos q' x = pos q x;
    g_enabled : forall x, x < n -> (pos q' x < q_idle q <-> pos q x < q_idle q) }.

Lemma grows_refl q : pq_ok n q -> grows q q.
Proof. intro H. constructor; auto; tauto. Qed.

Lemma grows_trans q1 q2 q3 : grows q1 q2 -> grows q2 q3 -> grows q1 q3.
Proof.
  intros A B. pose proof (g_idle _ _ A) as I1. pose proof (g_end _ _ A) as E1. constructor.
  - apply B.
  - rewrite (g_begin _ _ B). apply A.
  - rewrite (g_idle _ _ B). apply A.
  - pose proof (g_end _ _ B). lia.
  - intros x Hx L. pose proof (g_keep _ _ A x Hx L) as E. rewrite (g_keep _ _ B x Hx); [assumption|lia].
  - intros x Hx L. pose proof (g_above _ _ A x Hx L) as E. rewrite (g_above _ _ B x Hx); [assumption|lia].
  - intros x Hx. pose proof (g_enabled _ _ A x Hx). pose proof (g_enabled _ _ B x Hx). rewrite I1 in *. tauto.
Qed.

Lemma grows_queued q q' x : grows q q' -> x < n -> queued q x -> queued q' x.
Proof. intros G Hx Q. unfold queued in *. rewrite (g_keep _ _ G x Hx Q). pose proof (g_end _ _ G). lia. Qed.

Lemma enqueue_all_grows ps q : pq_ok n q -> Forall (fun p => p < n) ps ->
  grows q (enqueue_all ps q) /\ forall x, In x ps -> pos q x < q_idle q -> queued (enqueue_all ps q) x.
Proof.
  intros H F. destruct (enqueue_all_spec n ps q H F) as (A1 & A2 & A3 & A4 & A5 & A6 & A7 & A8).
  split; [constructor; assumption|]. intros x I L. apply A8; auto. rewrite Forall_forall in F. auto.
Qed.

Record engine_grows (e e' : engine) : Prop :=
  { eg_pq : grows (e_pq e) (e_pq e');
    eg_own : owners_ok n (e_watch e');
    eg_edited : edited (wtn (e_watch e)) (wtn (e_watch e'));
    eg_scratched : scratched (sst (e_watch e)) (sst (e_watch e'));
    eg_loads : e_loads e' = e_loads e }.

Lemma requeue_grows d e ev : pq_ok n (e_pq e) -> owners_ok n (e_watch e) ->
  engine_grows e (requeue props d e ev) /\
  forall x, x < n -> subs x ev -> pos (e_pq e) x < q_idle (e_pq e) -> queued (e_pq (requeue props d e ev)) x.
Proof.
  intros H O. destruct ev as [v i]. unfold requeue.
  destruct (fire_owners n d v i (e_watch e) O) as [FO O'].
  pose proof (fire_edited d v i (e_watch e)) as ED. pose proof (fire_scratched d v i (e_watch e)) as SC.
  destruct (fire_watches d v i (e_watch e)) as [owners w]. cbn [fst snd] in *.
  destruct (enqueue_all_grows (coarse_woken props v i ++ owners) (e_pq e) H) as [G Q].
  { apply Forall_app. split; [apply coarse_woken_lt|assumption]. }
  split; [constructor; auto|]. intros x Hx S L. cbn [e_pq]. apply Q; [|assumption]. apply in_app_iff. left.
  apply coarse_woken_spec. split; [assumption|exact S].
Qed.

Lemma engine_grows_trans e1 e2 e3 : engine_grows e1 e2 -> engine_grows e2 e3 -> engine_grows e1 e3.
Proof.
  intros A B. constructor.
  - eapply grows_trans; [apply A|apply B].
  - apply B.
  - eapply ed_trans; [apply A|apply B].
  - eapply scratched_trans; [apply A|apply B].
  - rewrite (eg_loads _ _ B). apply A.
Qed.

Lemma requeue_all_grows d evs : forall e, pq_ok n (e_pq e) -> owners_ok n (e_watch e) ->
  engine_grows e (fold_left (requeue props d) evs e) /\
  forall x ev, x < n -> In ev evs -> subs x ev -> pos (e_pq e) x < q_idle (e_pq e) ->
    queued (e_pq (fold_left (requeue props d) evs e)) x.
Proof.
  induction evs as [|ev evs IH]; intros e H O; cbn [fold_left].
  - split; [|intros x ev _ []]. constructor; auto; [now apply grows_refl|constructor|apply scratched_refl].
  - destruct (requeue_grows d e ev H O) as [G Q].
    destruct (IH (requeue props d e ev)) as [G' Q']; [apply G|apply G|].
    split; [eapply engine_grows_trans; eauto|].
    intros x ev' Hx I S L. destruct I as [->|I].
    + eapply grows_queued; [apply G'|assumption|]. now apply Q.
    + apply (Q' x ev'); auto. rewrite (g_idle _ _ (eg_pq _ _ G)). now apply (g_enabled _ _ (eg_pq _ _ G)).
Qed.

(** ** Replaying with claims *)

Fixpoint sorted_claims (cs : list (nat * nat)) : Prop :=
  match cs with [] => True | c :: r => Forall (fun c' => fst c <= fst c') r /\ sorted_claims r end.

Lemma sorted_claims_snoc cs c : sorted_claims cs -> Forall (fun c' => fst c' <= fst c) cs -> sorted_claims (cs ++ [c]).
Proof.
  induction cs as [|a r IH]; simpl; intros S F; [auto|]. destruct S as [S1 S2]. inversion F; subst. split.
  - apply Forall_app. split; [assumption|]. constructor; [assumption|constructor].
  - now apply IH.
Qed.

Lemma unprotect_spec idx : forall claims prot prot' claims', sorted_claims claims -> NoDup (map snd claims) ->
  (forall x, In x prot <-> In x (map snd claims)) -> unprotect idx prot claims = (prot', claims') ->
  (forall x, In x prot' <-> In x (map snd claims')) /\ sorted_claims claims' /\ NoDup (map snd claims') /\
  (forall k x, In (k, x) claims' <-> In (k, x) claims /\ idx < k).
Proof.
  induction claims as [|[k p] r IH]; intros prot prot' claims' S N P E; cbn [unprotect] in E.
  - injection E as <- <-. split; [assumption|]. split; [exact Logic.I|]. split; [assumption|]. simpl. tauto.
  - cbn [map snd] in N, P. destruct S as [S1 S2]. cbn [fst] in S1. inversion N as [|? ? N1 N2]; subst.
    destruct (Nat.leb_spec k idx) as [L|L].
    + apply IH in E; auto.
      * destruct E as (A & B & C & D). split; [assumption|]. split; [assumption|]. split; [assumption|].
        intros k' x. rewrite D. simpl. split; [tauto|]. intros [[H|H] H']; [injection H as <- <-; lia|]. auto.
      * intro x. rewrite filter_In, P, negb_true_iff, Nat.eqb_neq. simpl. split; [intuition congruence|].
        intro I. split; [auto|]. intros ->. contradiction.
    + injection E as <- <-. split; [assumption|]. split; [split; assumption|]. split; [assumption|].
      intros k' x. split; [|tauto]. intro I. split; [assumption|]. destruct I as [I|I]; [congruence|].
      rewrite Forall_forall in S1. specialize (S1 _ I). cbn in S1. lia.
Qed.

Lemma replay_spec evs : forall idx prot claims q, pq_ok n q -> sorted_claims claims -> NoDup (map snd claims) ->
  (forall x, In x prot <-> In x (map snd claims)) ->
  grows q (replay props idx prot claims evs q) /\
  forall j ev x, nth_error evs j = Some ev -> x < n -> subs x ev -> pos q x < q_idle q ->
    (forall k, In (k, x) claims -> k <= idx + j) -> queued (replay props idx prot claims evs q) x.
Proof.
  induction evs as [|[v i] evs IH]; intros idx prot claims q H S N P; cbn [replay].
  - split; [now apply grows_refl|]. intros [|j]; discriminate.
  - destruct (unprotect idx prot claims) as [prot' claims'] eqn:E.
    destruct (unprotect_spec idx claims prot prot' claims' S N P E) as (A & B & C & D).
    destruct (enqueue_all_grows (filter (fun p => negb (mem_nat p prot')) (coarse_woken props v i)) q H) as [G Q].
    { apply Forall_forall. intros x I. apply filter_In in I. destruct I as [I _]. now apply coarse_woken_spec in I. }
    set (q1 := enqueue_all _ q) in *. destruct (IH (Datatypes.S idx) prot' claims' q1 (g_ok _ _ G) B C A) as [G' Q'].
    split; [eapply grows_trans; eauto|].
    intros j ev x Ej Hx Sx L K. destruct j as [|j]; cbn [nth_error] in Ej.
    + injection Ej as <-. eapply grows_queued; [exact G'|assumption|]. apply Q; [|assumption].
      apply filter_In. split; [now apply coarse_woken_spec|]. apply negb_true_iff.
      destruct (mem_nat x prot') eqn:M; [|reflexivity]. exfalso. apply mem_nat_In, A in M.
      apply in_map_iff in M. destruct M as ((k & x') & Ex & I). cbn in Ex. subst x'.
      apply D in I. destruct I as [I Lk]. specialize (K k I). lia.
    + apply (Q' j ev x); auto.
      * rewrite (g_idle _ _ G). now apply (g_enabled _ _ G).
      * intros k I. apply D in I. destruct I as [I _]. specialize (K k I). lia.
Qed.

(** ** States *)

Definition frame (st st' : estate) : Prop := exists d cs, st' = with_cstates (with_domains st d) cs.

Lemma frame_refl st : has_epoch st -> frame st st.
Proof.
  intros (A & B & C). exists (current st), (top (st_cstates st)). destruct st as [ds cs bs gs]; cbn in *.
  destruct ds, cs; try congruence. reflexivity.
Qed.

Lemma frame_trans st1 st2 st3 : frame st1 st2 -> frame st2 st3 -> frame st1 st3.
Proof.
  intros (d & cs & ->) (d' & cs' & ->). exists d', cs'. destruct st1 as [ds css bs gs].
  unfold with_cstates, with_domains; cbn. destruct ds, css; reflexivity.
Qed.

Lemma frame_has_epoch st st' : frame st st' -> has_epoch st -> has_epoch st'.
Proof.
  intros (d & cs & ->) (A & B & C). destruct st as [ds css bs gs]; cbn in *. unfold has_epoch; cbn.
  destruct ds, css; try congruence. repeat split; try assumption; discriminate.
Qed.

Lemma current_frame st d cs : has_epoch st -> current (with_cstates (with_domains st d) cs) = d.
Proof. intros (A & _). destruct st as [ds css bs gs]; cbn in *. destruct ds; [congruence|reflexivity]. Qed.

Lemma cstates_frame st d cs : has_epoch st -> top (st_cstates (with_cstates (with_domains st d) cs)) = cs.
Proof. intros (_ & A & _). destruct st as [ds css bs gs]; cbn in *. destruct css; [congruence|reflexivity]. Qed.

(** ** The invariant *)

Variable disabled : nat -> bool.
Variable abort : nat -> bool.
Variable nv : nat.
Variable Inv : domains -> list cstate -> Prop.
Hypothesis HW : forall p, p < n -> well_behaved nv Inv (the p).

Notation qof l := (e_pq (l_engine l)).
Notation dof l := (current (l_state l)).

Record base (l : loop) : Prop :=
  { b_pq : pq_ok n (qof l);
    b_own : owners_ok n (e_watch (l_engine l));
    b_epoch : has_epoch (l_state l);
    b_dom : domains_ok (dof l);
    b_len : length (dof l) = nv;
    b_inv : Inv (dof l) (top (st_cstates (l_state l)));
    b_claims : Forall (fun c => snd c < n /\ pos (qof l) (snd c) < q_begin (qof l) /\ fst c <= length (l_events l)) (l_claims l);
    b_nodup : NoDup (map snd (l_claims l));
    b_sorted : sorted_claims (l_claims l);
    b_disable : Forall (fun p => p < n /\ pos (qof l) p < q_begin (qof l)) (l_disable l);
    b_dnodup : NoDup (l_disable l) }.

(** What the loop never changes, and how far it may move the rest. *)
Record progress (l l' : loop) : Prop :=
  { pg_frame : frame (l_state l) (l_state l');
    pg_edited : edited (wtn (e_watch (l_engine l))) (wtn (e_watch (l_engine l')));
    pg_scratched : scratched (sst (e_watch (l_engine l))) (sst (e_watch (l_engine l')));
    pg_pq : pq_ok n (qof l');
    pg_own : owners_ok n (e_watch (l_engine l'));
    pg_above : forall x, x < n -> q_idle (qof l) <= pos (qof l) x -> pos (qof l') x = pos (qof l) x;
    pg_enabled : forall x, x < n -> (pos (qof l') x < q_idle (qof l) <-> pos (qof l) x < q_idle (qof l));
    pg_idle : q_idle (qof l') <= q_idle (qof l);
    pg_len : length (dof l') = length (dof l);
    pg_loads : e_loads (l_engine l) <= e_loads (l_engine l') }.

Lemma progress_trans l1 l2 l3 : progress l1 l2 -> progress l2 l3 -> progress l1 l3.
Proof.
  intros A B. constructor.
  - eapply frame_trans; [apply A|apply B].
  - eapply ed_trans; [apply A|apply B].
  - eapply scratched_trans; [apply A|apply B].
  - apply B.
  - apply B.
  - intros x Hx L. pose proof (pg_above _ _ A x Hx L) as E. rewrite (pg_above _ _ B x Hx); [assumption|].
    pose proof (pg_idle _ _ A). lia.
  - intros x Hx. pose proof (pg_enabled _ _ A x Hx). pose proof (pg_enabled _ _ B x Hx). pose proof (pg_above _ _ B x Hx).
    pose proof (pg_idle _ _ A). destruct (le_lt_dec (q_idle (qof l2)) (pos (qof l2) x)); [rewrite H1 by assumption; tauto|].
    split; intro; [apply H; lia|]. lia.
  - pose proof (pg_idle _ _ A). pose proof (pg_idle _ _ B). lia.
  - transitivity (length (dof l2)); [apply B|apply A].
  - pose proof (pg_loads _ _ A). pose proof (pg_loads _ _ B). lia.
Qed.

Lemma progress_refl l : base l -> progress l l.
Proof.
  intro B. constructor; auto; try apply B; try tauto.
  - apply frame_refl, B.
  - constructor.
  - apply scratched_refl.
Qed.

(** Domains only shrink, and only lose assignments that are not solutions. *)
Definition narrow (d d' : domains) : Prop :=
  (forall a, within a d' -> within a d) /\
  forall sol : assignment -> Prop, (forall p, p < n -> sound_for nv Inv sol (the p)) ->
    forall a, within a d -> sol a -> within a d'.

Definition no_solution (d : domains) : Prop :=
  forall sol : assignment -> Prop, (forall p, p < n -> sound_for nv Inv sol (the p)) ->
    forall a, within a d -> ~ sol a.

Lemma narrow_refl d : narrow d d.
Proof. split; auto. Qed.

Lemma narrow_trans d1 d2 d3 : narrow d1 d2 -> narrow d2 d3 -> narrow d1 d3.
Proof. intros [A B] [C D]. split; [auto|]. intros sol Hs a W S. apply (D sol Hs); auto. apply (B sol Hs); auto. Qed.

Definition measure (l : loop) : nat :=
  (total_size (dof l) + (match l_events l with [] => 0 | _ => 1 end)) * S n + (q_end (qof l) - q_begin (qof l)).

Section Wake.
Variable ok dead : nat -> domains -> Prop.

Record awake (l : loop) : Prop :=
  { a_dead : forall p, p < n -> disabled p = false -> q_idle (qof l) <= pos (qof l) p -> dead p (dof l);
    a_disable : forall p, In p (l_disable l) -> dead p (dof l);
    a_ok : forall p, p < n -> disabled p = false -> pos (qof l) p < q_idle (qof l) ->
      ~ (q_begin (qof l) <= pos (qof l) p < q_end (qof l)) -> ~ In p (l_disable l) ->
      (forall j ev, nth_error (l_events l) j = Some ev -> (forall k, In (k, p) (l_claims l) -> k <= j) -> ~ subs p ev) ->
      ok p (dof l) }.
End Wake.

(** ** The round boundary *)

Lemma boundary_spec l : base l ->
  let l' := boundary props l in
  base l' /\ progress l l' /\ l_state l' = l_state l /\
  (q_begin (qof l) <> q_end (qof l) -> l' = l) /\
  (q_begin (qof l) = q_end (qof l) -> l_events l' = [] /\ (l_events l = [] -> q_end (qof l') = q_begin (qof l'))) /\
  (forall ok dead, awake ok dead l -> awake ok dead l').
Proof.
  intros B. cbv zeta. unfold boundary. destruct (Nat.eqb_spec (q_begin (qof l)) (q_end (qof l))) as [E|E].
  2:{ split; [assumption|]. split; [now apply progress_refl|]. split; [reflexivity|]. split; [reflexivity|].
      split; [intro; contradiction|auto]. }
  set (q1 := rewind (fold_left disable_one (l_disable l) (qof l))).
  assert (DI : Forall (fun p => p < n) (l_disable l) /\ Forall (fun p => pos (qof l) p < q_idle (qof l)) (l_disable l)).
  { pose proof (ok_order n _ (b_pq l B)) as O.
    split; eapply Forall_impl; try apply (b_disable l B); cbv beta; intros; [tauto|lia]. }
  destruct (disable_all_spec n (l_disable l) (qof l) (b_pq l B) (proj1 DI) (b_dnodup l B) (proj2 DI)) as (Q1 & Q2 & Q3 & Q4 & Q5).
  fold q1 in Q1, Q2, Q3, Q4, Q5.
  set (e1 := mk_engine q1 (e_watch (l_engine l)) (e_loads (l_engine l))).
  set (e2 := match l_claims l with
             | [] => fold_left (requeue props (dof l)) (l_events l) e1
             | _ => mk_engine (replay props 0 (map snd (l_claims l)) (l_claims l) (l_events l) q1) (e_watch (l_engine l)) (e_loads (l_engine l))
             end).
  assert (EG : engine_grows e1 e2 /\ (forall j ev x, nth_error (l_events l) j = Some ev -> x < n -> subs x ev -> pos q1 x < q_idle q1 ->
               (forall k, In (k, x) (l_claims l) -> k <= j) -> queued (e_pq e2) x) /\
               (l_events l = [] -> q_end (e_pq e2) = 0)).
  { unfold e2. destruct (l_claims l) as [|c cs] eqn:Ec.
    - destruct (requeue_all_grows (dof l) (l_events l) e1 Q1 (b_own l B)) as [G Q]. split; [assumption|]. split.
      + intros j ev x Ej Hx S L _. apply (Q x ev); auto. eapply nth_error_In; eauto.
      + intros ->. reflexivity.
    - rewrite <- Ec. destruct (replay_spec (l_events l) 0 (map snd (l_claims l)) (l_claims l) q1 Q1 (b_sorted l B) (b_nodup l B)) as [G Q];
        [tauto|]. split; [|split].
      + constructor; cbn [e_pq e_watch e_loads e1]; auto; [apply B|constructor|apply scratched_refl].
      + intros j ev x Ej Hx S L K. apply (Q j ev x); auto.
      + intros ->. reflexivity. }
  destruct EG as (EG & EQ & EE).
  replace (match l_claims l with [] => _ | _ => _ end) with e2 by (unfold e2; destruct (l_claims l); reflexivity).
  pose proof (eg_pq _ _ EG) as G. cbn [e1 e_pq] in G.
  pose proof (g_idle _ _ G) as GI. pose proof (g_begin _ _ G) as GB. change (q_begin q1) with 0 in GB.
  assert (POSab : forall x, x < n -> q_idle (qof l) <= pos (qof l) x -> pos (e_pq e2) x = pos (qof l) x).
  { intros x Hx L. pose proof (Q3 x Hx L) as E3. pose proof (g_above _ _ G x Hx) as E4. rewrite E4 by (rewrite E3; lia). exact E3. }
  assert (POSen : forall x, x < n -> (pos (e_pq e2) x < q_idle (qof l) <-> pos (qof l) x < q_idle (qof l))).
  { intros x Hx. pose proof (Q4 x Hx) as E4. pose proof (g_enabled _ _ G x Hx) as E5. pose proof (g_above _ _ G x Hx) as E6.
    destruct (le_lt_dec (q_idle q1) (pos q1 x)); [rewrite E6 by assumption; assumption|].
    split; intro; [apply E4; lia|]. apply E5 in l0. lia. }
  split; [|split; [|split; [reflexivity|split; [congruence|split]]]].
  - constructor; cbn [l_engine l_state l_events l_claims l_disable]; try apply B; try (now constructor).
    + apply EG.
    + apply EG.
  - constructor; cbn [l_engine l_state l_events l_claims l_disable]; auto; try apply EG.
    + apply frame_refl, B.
    + rewrite GI. exact Q2.
    + rewrite (eg_loads _ _ EG). cbn. lia.
  - intros _. cbn [l_events l_engine]. split; [reflexivity|]. intro N. rewrite (EE N), GB. reflexivity.
  - intros ok dead A. constructor; cbn [l_engine l_state l_events l_claims l_disable].
    + intros p Hp Dp L. rewrite GI in L.
      assert (L1 : q_idle q1 <= pos q1 p).
      { destruct (le_lt_dec (q_idle q1) (pos q1 p)) as [|L0]; [assumption|]. apply (g_enabled _ _ G p Hp) in L0. lia. }
      destruct (in_dec Nat.eq_dec p (l_disable l)) as [I|N]; [exact (a_disable _ _ _ A p I)|].
      apply (a_dead _ _ _ A p Hp Dp). destruct (le_lt_dec (q_idle (qof l)) (pos (qof l) p)); [assumption|].
      assert (pos q1 p < q_idle q1) by (apply Q5; auto). lia.
    + intros p [].
    + intros p Hp Dp L NW _ _. rewrite GI in L. apply (g_enabled _ _ G p Hp) in L.
      pose proof (proj1 (Q5 p Hp) L) as [L' ND].
      assert (NQ : ~ queued (e_pq e2) p).
      { unfold queued. intro. apply NW. rewrite GB. split; [lia|assumption]. }
      apply (a_ok _ _ _ A p Hp Dp L'); [lia|assumption|].
      intros j ev Ej K S. apply NQ. now apply (EQ j ev p).
Qed.

(** ** Running one propagator *)

(** The loop after popping [p]. *)
Definition popped (l : loop) : loop :=
  let q := qof l in
  mk_loop (mk_engine (mk_pq (q_queue q) (q_lookup q) (S (q_begin q)) (q_end q) (q_idle q)) (e_watch (l_engine l)) (e_loads (l_engine l)))
          (l_state l) (l_events l) (l_claims l) (l_disable l).

Lemma pop_base l : base l -> q_begin (qof l) < q_end (qof l) ->
  let p := nth (q_begin (qof l)) (q_queue (qof l)) 0 in
  p < n /\ pos (qof l) p = q_begin (qof l) /\ base (popped l) /\ progress l (popped l) /\ ~ In p (map snd (l_claims l)) /\ ~ In p (l_disable l).
Proof.
  intros B L p. pose proof (b_pq l B) as Q. pose proof (ok_order n _ Q) as O.
  destruct (ok_queue n _ Q (q_begin (qof l))) as [P1 P2]; [lia|]. fold p in P1, P2.
  assert (Q' : pq_ok n (e_pq (l_engine (popped l)))).
  { destruct Q as [A1 A2 A3 A4 A5]. constructor; cbn; auto. lia. }
  assert (B' : base (popped l)).
  { constructor; try apply B; try exact Q'.
    - eapply Forall_impl; [|apply (b_claims l B)]. intros c (C1 & C2 & C3). cbn. change (pos _ (snd c)) with (pos (qof l) (snd c)). auto.
    - eapply Forall_impl; [|apply (b_disable l B)]. intros c (C1 & C2). cbn. change (pos _ c) with (pos (qof l) c). auto. }
  split; [assumption|]. split; [assumption|]. split; [assumption|]. split; [|split].
  - constructor; auto; try apply B; try tauto.
    + apply frame_refl, B.
    + constructor.
    + apply scratched_refl.
  - intro I. apply in_map_iff in I. destruct I as (c & E & I). pose proof (proj1 (Forall_forall _ _) (b_claims l B) c I) as (_ & C & _).
    rewrite E in C. lia.
  - intro I. pose proof (proj1 (Forall_forall _ _) (b_disable l B) p I) as (_ & C). lia.
Qed.

(** [awake], except for [p] itself. *)
Definition awake_but (ok dead : nat -> domains -> Prop) (p : nat) (l : loop) : Prop :=
  (forall x, x < n -> disabled x = false -> q_idle (qof l) <= pos (qof l) x -> dead x (dof l)) /\
  (forall x, In x (l_disable l) -> dead x (dof l)) /\
  (forall x, x < n -> x <> p -> disabled x = false -> pos (qof l) x < q_idle (qof l) ->
    ~ (q_begin (qof l) <= pos (qof l) x < q_end (qof l)) -> ~ In x (l_disable l) ->
    (forall j ev, nth_error (l_events l) j = Some ev -> (forall k, In (k, x) (l_claims l) -> k <= j) -> ~ subs x ev) ->
    ok x (dof l)).

Lemma awake_popped ok dead l : base l -> q_begin (qof l) < q_end (qof l) -> awake ok dead l ->
  awake_but ok dead (nth (q_begin (qof l)) (q_queue (qof l)) 0) (popped l).
Proof.
  intros B L A. destruct (pop_base l B L) as (P1 & P2 & _). set (p := nth _ _ _) in *.
  split; [|split].
  - intros x Hx Dx Lx. exact (a_dead _ _ _ A x Hx Dx Lx).
  - intros x I. exact (a_disable _ _ _ A x I).
  - intros x Hx Nx Dx Lx W I Ev. apply (a_ok _ _ _ A x Hx Dx Lx); auto.
    intro W'. apply W. change (S (q_begin (qof l)) <= pos (qof l) x < q_end (qof l)).
    assert (pos (qof l) x <> q_begin (qof l)); [|lia]. intro E. apply Nx. apply (pos_inj n (qof l)); auto; [apply B|congruence].
Qed.

(** A permanently disabled propagator is skipped. *)
Lemma awake_skipped ok dead l : base l -> q_begin (qof l) < q_end (qof l) -> awake ok dead l ->
  disabled (nth (q_begin (qof l)) (q_queue (qof l)) 0) = true -> awake ok dead (popped l).
Proof.
  intros B L A D. destruct (awake_popped ok dead l B L A) as (H1 & H2 & H3). constructor; auto.
  intros x Hx Dx. apply H3; auto. intros ->. congruence.
Qed.

Lemma NoDup_snoc {X} (l : list X) x : NoDup l -> ~ In x l -> NoDup (l ++ [x]).
Proof. intros A B. apply NoDup_app_disj; auto; [repeat constructor; auto|]. intros y I [->|[]]. contradiction. Qed.

Lemma run_prop_spec p l : base l -> p < n -> pos (qof l) p < q_begin (qof l) ->
  ~ In p (map snd (l_claims l)) -> ~ In p (l_disable l) ->
  let '(l', bad) := run_prop props p l in
  progress l l' /\ e_loads (l_engine l') = e_loads (l_engine l) /\ qof l' = qof l /\
  (bad = true -> no_solution (dof l)) /\
  (bad = false ->
    base l' /\ narrow (dof l) (dof l') /\ measure l' <= measure l /\
    (forall ok dead, (forall x, x < n -> wakeable nv Inv (the x) (ok x) (dead x)) ->
      awake_but ok dead p l -> awake ok dead l')).
Proof.
  intros B Hp Lp NC ND. unfold run_prop.
  set (inp := input_for p (l_state l) (e_watch (l_engine l))).
  set (o := p_run (the p) inp).
  assert (U : usable nv Inv inp) by (split; [apply B|split; apply B]).
  pose proof (wb_known _ _ _ (HW p Hp) inp U) as K. fold o in K. change (i_domains inp) with (dof l) in K.
  destruct (apply_lits (dof l) (o_infer o)) as [[d evs] bad] eqn:EA.
  pose proof (apply_lits_length _ _ _ _ _ (b_dom l B) K EA) as LD.
  pose proof (apply_lits_within _ _ _ _ _ (b_dom l B) K EA) as WI.
  set (st' := with_cstates (with_domains (l_state l) d) (o_cstates o)).
  assert (CD : current st' = d) by (apply current_frame, B).
  assert (CC : top (st_cstates st') = o_cstates o) by (apply cstates_frame, B).
  assert (FR : frame (l_state l) st') by (now exists d, (o_cstates o)).
  assert (PG : forall c g evs', progress l (mk_loop (mk_engine (qof l) (after_run props p o (e_watch (l_engine l))) (e_loads (l_engine l))) st' evs' c g)).
  { intros. constructor; cbn [l_engine l_state e_pq e_watch e_loads]; auto; try tauto; try apply B.
    - apply after_run_edited.
    - apply after_run_scratched.
    - apply after_run_owners; [assumption|apply B].
    - etransitivity; [exact (f_equal (@length _) CD)|]. exact LD. }
  destruct bad.
  - split; [apply PG|]. split; [reflexivity|]. split; [reflexivity|]. split; [|discriminate].
    intros _ sol Hs a W S. apply (WI a W). apply (Hs p Hp inp a); auto.
  - pose proof (apply_lits_ok _ _ _ _ (b_dom l B) K EA) as OD.
    pose proof (apply_lits_size _ _ _ _ _ (b_dom l B) K EA eq_refl) as SZ.
    split; [apply PG|]. split; [reflexivity|]. split; [reflexivity|]. split; [discriminate|]. intros _.
    set (claims := match o_result o with EnableButIdempotent => _ | _ => _ end).
    set (dis := match o_result o with DisableUntilBacktrack => _ | _ => _ end).
    assert (CL : claims = l_claims l \/
       (claims = l_claims l ++ [(length (l_events l ++ evs), p)] /\ o_result o = EnableButIdempotent /\ claims_ignored (the p) = false)).
    { unfold claims. destruct (o_result o); auto. destruct (claims_ignored (the p)); auto. destruct (Nat.eqb _ _); auto. }
    assert (DS : (dis = l_disable l /\ o_result o <> DisableUntilBacktrack) \/ (dis = l_disable l ++ [p] /\ o_result o = DisableUntilBacktrack)).
    { unfold dis. destruct (o_result o); auto; left; split; auto; discriminate. }
    split; [|split; [|split]].
    + constructor; cbn [l_engine l_state e_pq e_watch e_loads l_events l_claims l_disable].
      * apply B.
      * apply after_run_owners; [assumption|apply B].
      * eapply frame_has_epoch; [exact FR|apply B].
      * rewrite CD. exact OD.
      * etransitivity; [exact (f_equal (@length _) CD)|]. etransitivity; [exact LD|apply B].
      * rewrite CD, CC. eapply (wb_inv _ _ _ (HW p Hp) inp); eauto.
      * assert (F : Forall (fun c => snd c < n /\ pos (qof l) (snd c) < q_begin (qof l) /\ fst c <= length (l_events l ++ evs)) (l_claims l)).
        { eapply Forall_impl; [|apply (b_claims l B)]. intros c (C1 & C2 & C3). rewrite app_length. repeat split; auto; lia. }
        destruct CL as [->|(-> & _)]; [assumption|]. apply Forall_app. split; [assumption|]. constructor; [|constructor]. cbn. auto.
      * destruct CL as [->|(-> & _)]; [apply B|]. rewrite map_app. apply NoDup_snoc; [apply B|assumption].
      * destruct CL as [->|(-> & _)]; [apply B|]. apply sorted_claims_snoc; [apply B|].
        eapply Forall_impl; [|apply (b_claims l B)]. intros c (C1 & C2 & C3). cbn. rewrite app_length. lia.
      * destruct DS as [[-> _]|[-> _]]; [apply B|]. apply Forall_app. split; [apply B|]. constructor; [auto|constructor].
      * destruct DS as [[-> _]|[-> _]]; [apply B|]. apply NoDup_snoc; [apply B|assumption].
    + cbn [l_state]. rewrite CD. split.
      * intros a W. now apply WI in W.
      * intros sol Hs a W S. apply WI. split; [assumption|]. exact (Hs p Hp inp a U W S).
    + unfold measure. cbn [l_engine l_state l_events e_pq]. rewrite CD. apply Nat.add_le_mono_r. apply Nat.mul_le_mono_r.
      destruct (l_events l), evs; cbn in *; lia.
    + intros ok dead HK (A1 & A2 & A3).
      assert (DK : forall x, x < n -> dead x (dof l) -> dead x d).
      { intros x Hx Dx. refine (apply_lits_kept (dead x) (fun _ _ => False) nv _ _ _ _ _ _ (b_dom l B) K EA (b_len l B) eq_refl Dx _); auto.
        intros. eapply (wk_dead _ _ _ _ _ (HK x Hx)); eauto. }
      constructor; cbn [l_engine l_state e_pq e_watch e_loads l_events l_claims l_disable]; rewrite CD.
      * intros x Hx Dx Lx. apply DK; auto.
      * intros x I. assert (I' : In x (l_disable l) \/ (x = p /\ o_result o = DisableUntilBacktrack)).
        { destruct DS as [[-> _]|[-> E]]; [auto|]. apply in_app_iff in I. destruct I as [I|[<-|[]]]; auto. }
        destruct I' as [I'|[-> E]].
        -- apply DK; auto. pose proof (proj1 (Forall_forall _ _) (b_disable l B) x I') as [Hx _]. assumption.
        -- eapply (wk_disable _ _ _ _ _ (HK p Hp) inp); eauto.
      * intros x Hx Dx Lx W I Ev. destruct (Nat.eq_dec x p) as [->|Nx].
        -- assert (ER : o_result o <> DisableUntilBacktrack).
           { destruct DS as [[_ E]|[E _]]; [assumption|]. exfalso. apply I. rewrite E. apply in_app_iff. right. now left. }
           destruct CL as [E|(E & R & G)].
           ++ eapply (wk_run _ _ _ _ _ (HK p Hp) inp); eauto. intros v k Iv.
              apply (In_nth_error) in Iv. destruct Iv as [j Ej]. apply (Ev (length (l_events l) + j) (v, k)).
              ** rewrite nth_error_app2 by lia. now replace (length (l_events l) + j - length (l_events l)) with j by lia.
              ** intros k' Ik. rewrite E in Ik. exfalso. apply NC. apply in_map_iff. exists (k', p). auto.
           ++ eapply (wk_claim _ _ _ _ _ (HK p Hp) inp); eauto. intro Al. apply claims_ignored_spec in Al. congruence.
        -- assert (I' : ~ In x (l_disable l)).
           { intro I'. apply I. destruct DS as [[-> _]|[-> _]]; auto. apply in_app_iff. auto. }
           assert (CI : forall k, In (k, x) claims -> In (k, x) (l_claims l)).
           { intros k Ik. destruct CL as [E|(E & _)]; rewrite E in Ik; auto. apply in_app_iff in Ik.
             destruct Ik as [|[Ek|[]]]; auto. congruence. }
           assert (OX : ok x (dof l)).
           { apply A3; auto. intros j ev Ej Kj. apply (Ev j ev); auto.
             rewrite nth_error_app1; [assumption|]. apply nth_error_Some. congruence. }
           refine (apply_lits_kept (ok x) (subscribes (the x)) nv _ _ _ _ _ _ (b_dom l B) K EA (b_len l B) eq_refl OX _).
           ++ intros d0 l0 k d' Hd Hl Kl Ok Ei Nc Su. eapply (wk_kept _ _ _ _ _ (HK x Hx)); eauto.
           ++ intros v k Iv. apply (In_nth_error) in Iv. destruct Iv as [j Ej]. apply (Ev (length (l_events l) + j) (v, k)).
              ** rewrite nth_error_app2 by lia. now replace (length (l_events l) + j - length (l_events l)) with j by lia.
              ** intros k' Ik. apply CI in Ik. pose proof (proj1 (Forall_forall _ _) (b_claims l B) _ Ik) as (_ & _ & C). cbn in C. lia.
Qed.

(** ** One iteration *)

Lemma with_loads_base l k : base l -> base (mk_loop (mk_engine (qof l) (e_watch (l_engine l)) k) (l_state l) (l_events l) (l_claims l) (l_disable l)).
Proof. intro B. constructor; apply B. Qed.

Lemma iterate_spec l : base l ->
  match iterate props disabled abort l with
  | inl l' => base l' /\ progress l l' /\ narrow (dof l) (dof l') /\ measure l' < measure l /\
      (forall ok dead, (forall x, x < n -> wakeable nv Inv (the x) (ok x) (dead x)) -> awake ok dead l -> awake ok dead l')
  | inr (l', true) => progress l l' /\ no_solution (dof l)
  | inr (l', false) => base l' /\ progress l l' /\ narrow (dof l) (dof l') /\
      (forall ok dead, (forall x, x < n -> wakeable nv Inv (the x) (ok x) (dead x)) -> awake ok dead l -> awake ok dead l') /\
      ((q_begin (qof l') = q_end (qof l') /\ l_events l' = [] /\ l_disable l' = []) \/
       exists k, e_loads (l_engine l) <= k < e_loads (l_engine l') /\ abort k = true)
  end.
Proof.
  intro B. unfold iterate.
  destruct (boundary_spec l B) as (B1 & P1 & S1 & N1 & E1 & A1).
  assert (DIS : q_begin (qof (boundary props l)) = q_end (qof (boundary props l)) -> l_disable (boundary props l) = [] /\ l_events (boundary props l) = []).
  { intro E. destruct (Nat.eq_dec (q_begin (qof l)) (q_end (qof l))) as [Q|Q].
    - split; [|now apply E1]. unfold boundary. rewrite (proj2 (Nat.eqb_eq _ _) Q). reflexivity.
    - rewrite (N1 Q) in E. contradiction. }
  assert (MB : measure (boundary props l) <= measure l /\ (q_begin (qof (boundary props l)) < q_end (qof (boundary props l)) -> measure (boundary props l) <= measure l)).
  { assert (M : measure (boundary props l) <= measure l); [|auto].
    destruct (Nat.eq_dec (q_begin (qof l)) (q_end (qof l))) as [Q|Q]; [|rewrite (N1 Q); lia].
    destruct (E1 Q) as [E2 E3]. unfold measure. rewrite S1, E2.
    destruct (l_events l) as [|ev r].
    - rewrite (E3 eq_refl). lia.
    - pose proof (ok_order n _ (b_pq _ B1)). cbn [Nat.add]. lia. }
  destruct MB as [MB _].
  set (l1 := boundary props l) in *.
  destruct (Nat.eqb_spec (q_begin (qof l1)) (q_end (qof l1))) as [Q|Q].
  - split; [assumption|]. split; [assumption|]. rewrite S1. split; [apply narrow_refl|]. split; [auto|].
    left. destruct (DIS Q). auto.
  - assert (L : q_begin (qof l1) < q_end (qof l1)) by (pose proof (ok_order n _ (b_pq _ B1)); lia).
    destruct (pop_base l1 B1 L) as (Hp & Pp & B2 & P2 & NC & ND).
    fold (popped l1). set (p := nth (q_begin (qof l1)) (q_queue (qof l1)) 0) in *.
    assert (M2 : measure (popped l1) < measure l1).
    { unfold measure, popped. cbn [l_engine l_state l_events e_pq q_begin q_end]. lia. }
    destruct (disabled p) eqn:Dp.
    + split; [assumption|]. split; [eapply progress_trans; eauto|]. cbn [popped l_state]. rewrite S1.
      split; [apply narrow_refl|]. split; [lia|]. intros ok dead HK A. apply awake_skipped; auto.
    + pose proof (run_prop_spec p (popped l1) B2 Hp) as R.
      assert (Lp : pos (qof (popped l1)) p < q_begin (qof (popped l1))) by (change (pos (qof l1) p < S (q_begin (qof l1))); lia).
      specialize (R Lp NC ND). destruct (run_prop props p (popped l1)) as [l2 bad].
      destruct R as (PR & LR & QR & BR & GR).
      assert (DD : dof (popped l1) = dof l) by (cbn [popped l_state]; now rewrite S1).
      destruct bad.
      * split; [eapply progress_trans; [exact P1|]; eapply progress_trans; eauto|]. rewrite <- DD. now apply BR.
      * destruct (GR eq_refl) as (B3 & N3 & M3 & A3).
        set (l3 := mk_loop (mk_engine (e_pq (l_engine l2)) (e_watch (l_engine l2)) (S (e_loads (l_engine l2)))) (l_state l2) (l_events l2) (l_claims l2) (l_disable l2)).
        assert (B4 : base l3) by now apply with_loads_base.
        assert (P3 : progress l l3).
        { eapply progress_trans; [exact P1|]; eapply progress_trans; [exact P2|]; eapply progress_trans; [exact PR|].
          destruct (progress_refl l2 B3). constructor; auto. cbn. lia. }
        assert (A4 : forall ok dead, (forall x, x < n -> wakeable nv Inv (the x) (ok x) (dead x)) -> awake ok dead l -> awake ok dead l3).
        { intros ok dead HK A. destruct (A3 ok dead HK) as [X1 X2 X3]; [now apply awake_popped, A1|]. constructor; auto. }
        rewrite DD in N3.
        destruct (abort (e_loads (l_engine l2))) eqn:AB.
        -- split; [assumption|]. split; [assumption|]. split; [exact N3|]. split; [assumption|]. right.
           exists (e_loads (l_engine l2)). split; [|assumption]. cbn. rewrite LR. cbn.
           pose proof (pg_loads _ _ P1). fold l1 in H. lia.
        -- split; [assumption|]. split; [assumption|]. split; [exact N3|]. split; [|assumption].
           change (measure l3) with (measure l2). lia.
Qed.

(** ** The whole loop *)

Lemma run_loop_spec fuel : forall l l' bad, base l -> run_loop props disabled abort fuel l = Some (l', bad) ->
  progress l l' /\
  if bad then no_solution (dof l)
  else base l' /\ narrow (dof l) (dof l') /\
    (forall ok dead, (forall x, x < n -> wakeable nv Inv (the x) (ok x) (dead x)) -> awake ok dead l -> awake ok dead l') /\
    ((q_begin (qof l') = q_end (qof l') /\ l_events l' = [] /\ l_disable l' = []) \/
       exists k, e_loads (l_engine l) <= k < e_loads (l_engine l') /\ abort k = true).
Proof.
  induction fuel as [|fuel IH]; intros l l' bad B E; cbn [run_loop] in E; [discriminate|].
  pose proof (iterate_spec l B) as S. destruct (iterate props disabled abort l) as [l1|[l1 bad1]].
  - destruct S as (B1 & P1 & N1 & M1 & A1). destruct (IH l1 l' bad B1 E) as (P2 & R).
    split; [eapply progress_trans; eauto|]. destruct bad.
    + intros sol Hs a W Sa. apply (R sol Hs a); auto. destruct N1 as [_ N1]. exact (N1 sol Hs a W Sa).
    + destruct R as (B2 & N2 & A2 & F2). split; [assumption|]. split; [eapply narrow_trans; eauto|]. split; [auto|].
      destruct F2 as [F2|(k & K & Ak)]; [auto|]. right. exists k. split; [|assumption]. pose proof (pg_loads _ _ P1). lia.
  - injection E as -> ->. destruct bad; tauto.
Qed.

Lemma run_loop_terminates fuel : forall l, base l -> measure l < fuel ->
  exists r, run_loop props disabled abort fuel l = Some r.
Proof.
  induction fuel as [|fuel IH]; intros l B M; [lia|]. cbn [run_loop].
  pose proof (iterate_spec l B) as S. destruct (iterate props disabled abort l) as [l1|r]; [|eauto].
  destruct S as (B1 & _ & _ & M1 & _). apply IH; [assumption|lia].
Qed.

End Loop.
