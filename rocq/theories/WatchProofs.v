(** Condition watches when no propagator claims idempotence. *)
From Coq Require Import ZArith List Bool Arith Lia Permutation.
From Verif Require Import IntervalSet IntervalSetSpec IntervalSetProofs Vars VarsSpec VarsProofs State StateSpec StateProofs Epochs EpochsProofs
  Engine EngineSpec EngineQueueProofs EngineWatchProofs EngineProofs EngineLoopProofs EngineCallProofs Session SessionSpec SessionProofs
  SessionInvProofs SessionResults WatchSpec.
Import ListNotations.

(** ** When a condition becomes certain *)

Lemma lit_not_known d l : lit_known d l -> lit_known d (lit_not l).
Proof. destruct l as [c| |]; simpl; auto. unfold cond_known, cond_not. destruct c as [v o x u]; simpl. destruct o; auto. Qed.

Lemma unmet_or_certain d l : domains_ok d -> lit_known d l -> unmet d l \/ certain d l.
Proof.
  intros Hd Kl. destruct (infer d (lit_not l)) as [k d'] eqn:E.
  destruct (infer_exact d _ k d' Hd (lit_not_known d l Kl) E) as (C & N & _).
  assert (DEC : forall a, lit_holds a l \/ ~ lit_holds a l).
  { intro a. destruct l as [c| |]; simpl; auto. unfold cond_holds. destruct (c_op c); simpl; lia. }
  assert (k = Contradiction \/ k <> Contradiction) as [->|Nk] by (destruct k; auto; right; discriminate).
  - right. intros a Wa. pose proof (proj1 C eq_refl a Wa) as H. rewrite lit_not_holds in H. destruct (DEC a); tauto.
  - left. destruct (N Nk) as [Hd' [_ W]]. destruct (within_exists d' Hd') as [a Wa]. exists a. apply W in Wa.
    now rewrite lit_not_holds in Wa.
Qed.

Lemma unmet_not_certain d l : unmet d l -> ~ certain d l.
Proof. intros (a & Wa & N) C. apply N. now apply C. Qed.

(** A handle on a variable reads it through a shift, perhaps negated. *)
Lemma handle_reads v n : underlying v = Some n -> exists neg add, forall a, var_value a v = ((if neg : bool then - a n else a n) + add)%Z.
Proof.
  destruct v as [m|m neg add|]; simpl; intros [= ->].
  - exists false, 0%Z. intro. simpl. lia.
  - exists neg, add. intro. reflexivity.
Qed.

(** The kind of change that makes a watched condition certain is in its mask. *)
Lemma mask_sees d l k d' w : domains_ok d -> lit_known d l -> lit_known d w -> infer d l = (k, d') -> k <> Contradiction ->
  unmet d w -> certain d' w -> exists v, lit_underlying l = Some v /\ lit_underlying w = Some v /\ watch_mask_has w k = true.
Proof.
  intros Hd Kl Kw E Nk (a & Wa & Na) C. destruct (infer_exact d l k d' Hd Kl E) as (_ & X & L & O).
  destruct (X Nk) as [Hd' [_ W]]. pose proof (infer_accurate d l k d' Hd Kl E) as A.
  destruct w as [c| |]; [|exfalso; now apply Na|destruct (within_exists d' Hd') as [b Wb]; destruct (C b Wb)].
  cbn [lit_underlying]. cbn [lit_holds] in Na. destruct (underlying (c_var c)) as [n|] eqn:U.
  2:{ exfalso. destruct (within_exists d' Hd') as [b Wb]. specialize (C b Wb). cbn [lit_holds] in C. apply Na.
      unfold cond_holds in *. destruct (c_var c); try discriminate. exact C. }
  destruct (handle_reads (c_var c) n U) as (neg & add & V).
  assert (Hn : n < length d) by (apply (lit_underlying_known d (LCond c)); auto).
  assert (Hx : member (a n) (nth n d [])) by (apply (Wa n Hn)).
  assert (C' : forall y, member y (nth n d' []) -> op_holds (c_op c) ((if neg then - y else y) + add) (c_value c) (c_upper c)).
  { intros y Hy. destruct (within_exists_at d' n y Hd' Hy) as (b & Wb & <-). specialize (C b Wb). cbn [lit_holds] in C.
    unfold cond_holds in C. now rewrite V in C. }
  assert (N' : ~ op_holds (c_op c) ((if neg then - (a n) else a n) + add) (c_value c) (c_upper c)).
  { unfold cond_holds in Na. now rewrite V in Na. }
  assert (Kn : nth n d' [] = nth n d [] -> False) by (intro Eq; apply N', C'; rewrite Eq; exact Hx).
  assert (Ul : lit_underlying l = Some n).
  { destruct (lit_underlying l) as [m|] eqn:Ul.
    - destruct (Nat.eq_dec m n) as [->|Nm]; [reflexivity|]. exfalso. apply Kn, O. congruence.
    - exfalso. apply Kn, O. discriminate. }
  rewrite Ul in A. exists n. split; [assumption|]. split; [reflexivity|].
  assert (Hs : forall m, m < length d' -> set_ok (nth m d' [])) by (intros m Hm; apply (dom_ok d' m Hd' Hm)).
  assert (S' : set_ok (nth n d' [])) by (apply Hs; unfold domains, iset in *; lia).
  assert (S : set_ok (nth n d [])) by (apply (dom_ok d n Hd Hn)).
  assert (SG : c_op c = OpEqual -> singleton (nth n d' [])).
  { intro Op. rewrite Op in C'. simpl in C'. destruct S' as [_ [y Hy]]. exists y. intro z. split; [|now intros ->].
    intro Hz. pose proof (C' y Hy). pose proof (C' z Hz). destruct neg; lia. }
  assert (CV : same_bounds (nth n d []) (nth n d' []) ->
    op_holds (c_op c) ((if neg then - set_lower (nth n d []) else set_lower (nth n d [])) + add) (c_value c) (c_upper c) /\
    op_holds (c_op c) ((if neg then - set_upper (nth n d []) else set_upper (nth n d [])) + add) (c_value c) (c_upper c) /\
    (set_lower (nth n d []) <= a n <= set_upper (nth n d []))%Z).
  { intros [B1 B2]. split; [|split].
    - apply C'. apply (B1 (set_lower (nth n d []))). now apply set_lower_least.
    - apply C'. apply (B2 (set_upper (nth n d []))). now apply set_upper_greatest.
    - now apply bounds_member. }
  unfold watch_mask_has.
  destruct k; simpl in A; [contradiction| | | |congruence]; destruct (c_op c) eqn:Op; try reflexivity; exfalso.
  all: try (destruct A as (_ & A2 & _); now apply A2, SG).
  all: destruct A as (_ & _ & A3); destruct (CV A3) as (B1 & B2 & B3); apply N'; clear - B1 B2 B3; simpl in *; destruct neg; lia.
Qed.

Lemma certain_narrow d d' l : (forall a, within a d' -> within a d) -> certain d l -> certain d' l.
Proof. intros W C a Wa. auto. Qed.

Lemma run_sees ls w d d' evs : domains_ok d -> Forall (lit_known d) ls -> lit_known d w -> apply_lits d ls = (d', evs, false) ->
  unmet d w -> certain d' w -> exists v k, In (v, k) evs /\ lit_underlying w = Some v /\ watch_mask_has w k = true.
Proof.
  intros Hd Kl Kw E.
  assert (G : forall ls d d' evs bad, domains_ok d -> Forall (lit_known d) ls -> apply_lits d ls = (d', evs, bad) ->
    bad = false -> lit_known d w -> unmet d w -> certain d' w -> exists v k, In (v, k) evs /\ lit_underlying w = Some v /\ watch_mask_has w k = true).
  2:{ intros. eapply G; eauto. }
  clear. intro ls0. apply (apply_lits_ind (fun d ls d' evs bad => bad = false -> lit_known d w -> unmet d w -> certain d' w ->
    exists v k, In (v, k) evs /\ lit_underlying w = Some v /\ watch_mask_has w k = true)).
  - intros d Hd _ Kw U C. destruct (unmet_not_certain d w U C).
  - discriminate.
  - auto.
  - intros d l r i v d1 d2 evs bad Hd Kl Kr E N1 N2 Ul Hd1 L1 Er IH Eb Kw U C.
    destruct (unmet_or_certain d1 w Hd1 (lit_known_length d d1 w L1 Kw)) as [U1|C1].
    + destruct (IH Eb (lit_known_length d d1 w L1 Kw) U1 C) as (v' & k & I & X). exists v', k. split; [now right|assumption].
    + destruct (mask_sees d l i d1 w Hd Kl Kw E N1 U C1) as (v' & U1 & U2 & M). exists v', i.
      split; [|auto]. left. congruence.
Qed.

(** ** What one propagator can see of the watches *)

(** Every watch is filed under the variable of its condition. *)
Definition placed (nv : nat) (w : wpart) : Prop :=
  forall v y, In y (watches_on w v) -> lit_underlying (w_lit y) = Some v /\ lit_below nv (w_lit y) /\ lit_sane (w_lit y).

(** Every armed condition is not yet certain, or a change that will fire it is
    still to be processed. *)
Definition alerted (d : domains) (evs : list event) (w : wpart) : Prop :=
  forall v y, In y (watches_on w v) -> unmet d (w_lit y) \/ exists k, In (v, k) evs /\ watch_mask_has (w_lit y) k = true.

Lemma fold_deliver gone : forall ib p, nth p (fold_left deliver gone ib) [] = nth p ib [] ++ map w_payload (filter (fun y => Nat.eqb (w_owner y) p) gone).
Proof.
  induction gone as [|y r IH]; intros ib p; cbn [fold_left filter]; [symmetry; apply app_nil_r|].
  rewrite IH. unfold deliver. rewrite nth_set_ext. rewrite (Nat.eqb_sym (w_owner y) p). destruct (Nat.eqb_spec p (w_owner y)) as [->|N]; [|reflexivity].
  cbn [map]. now rewrite <- app_assoc.
Qed.

Definition fires (d : domains) (i : inference) (y : watch) : bool :=
  watch_mask_has (w_lit y) i && match test_literal d (w_lit y) with DefinitelyTrue => true | _ => false end.

Lemma fire_spec d v i w owners w' : fire_watches d v i w = (owners, w') -> exists gone, owners = map w_owner gone /\
  (forall y, In y gone -> In y (watches_on w v) /\ fires d i y = true) /\
  (forall u y, In y (watches_on w' u) -> In y (watches_on w u) /\ (u = v -> fires d i y = false)) /\
  (forall u y, In y (watches_on w u) -> In y (watches_on w' u) \/ In y gone) /\
  (forall p, inbox w' p = inbox w p ++ map w_payload (filter (fun y => Nat.eqb (w_owner y) p) gone)) /\
  wp_scratch w' = wp_scratch w /\ wp_memo w' = wp_memo w.
Proof.
  intro E. unfold fire_watches in E. destruct (sweep _ _ _ _) as [ws' gone] eqn:Es. injection E as <- <-.
  destruct (sweep_all _ _ _ _ Es) as (P & F1 & F2). exists gone. split; [reflexivity|].
  assert (WO : forall u, nth u (if v <? length (wp_watches w) then set_nth (wp_watches w) v ws' else wp_watches w) [] =
                 if Nat.eqb u v then ws' else nth u (wp_watches w) []).
  { intro u. apply (nth_put (wp_watches w) v ws' u). destruct (swept_out _ _ _ _ _ Es) as [|[-> _]]; auto. }
  split; [|split; [|split; [|split; [|auto]]]].
  - intros y I. split; [eapply Permutation_in; [exact P|apply in_app_iff; auto]|]. rewrite Forall_forall in F1. exact (F1 y I).
  - intros u y. unfold watches_on at 1. cbn [wp_watches]. rewrite WO. destruct (Nat.eqb_spec u v) as [->|N].
    + intro I. split; [eapply Permutation_in; [exact P|apply in_app_iff; auto]|]. intros _. rewrite Forall_forall in F2. exact (F2 y I).
    + intro I. split; [exact I|congruence].
  - intros u y I. unfold watches_on at 1. cbn [wp_watches]. rewrite WO. destruct (Nat.eqb_spec u v) as [->|N]; [|auto].
    apply (Permutation_in _ (Permutation_sym P)) in I. apply in_app_iff in I. tauto.
  - intro p. unfold inbox. cbn [wp_inbox]. apply fold_deliver.
Qed.

Section Loop.
Variable props : list propagator.
Variable disabled : nat -> bool.
Variable abort : nat -> bool.
Variable nv : nat.
Variable Inv : domains -> list cstate -> Prop.
Notation n := (length props).
Notation the := (the_prop props).
Notation qof l := (e_pq (l_engine l)).
Notation dof l := (current (l_state l)).
Notation wof l := (e_watch (l_engine l)).
Hypothesis HW : forall p, p < n -> well_behaved nv Inv (the p).
Hypothesis HU : forall p, p < n -> arms_unmet nv Inv (the p).
Hypothesis HC : forall p, p < n -> claims_nothing nv Inv (the p).

(** ** Waking *)

(** What waking for some changes does, as seen from the watches and from [p]. *)
Record delivered (d : domains) (evs : list event) (e e' : engine) : Prop :=
  { dl_left : forall v y, In y (watches_on (e_watch e') v) ->
      In y (watches_on (e_watch e) v) /\ forall k, In (v, k) evs -> fires d k y = false;
    dl_sent : forall v y, In y (watches_on (e_watch e) v) ->
      In y (watches_on (e_watch e') v) \/ (certain d (w_lit y) /\ In (w_payload y) (inbox (e_watch e') (w_owner y)));
    dl_inbox : forall p, incl (inbox (e_watch e) p) (inbox (e_watch e') p);
    dl_scratch : wp_scratch (e_watch e') = wp_scratch (e_watch e);
    dl_memo : wp_memo (e_watch e') = wp_memo (e_watch e);
    dl_queued : forall p, p < n -> inbox (e_watch e') p <> [] -> pos (e_pq e) p < q_idle (e_pq e) ->
      inbox (e_watch e) p <> [] \/ queued (e_pq e') p;
    dl_fresh : forall p, inbox (e_watch e) p = [] -> (forall v y, In y (watches_on (e_watch e) v) -> w_owner y <> p) ->
      inbox (e_watch e') p = [] }.

Lemma fires_certain d i y v w : domains_ok d -> length d = nv -> placed nv w -> In y (watches_on w v) -> fires d i y = true -> certain d (w_lit y).
Proof.
  intros Hd L P I F. destruct (P v y I) as (_ & B & S). apply andb_true_iff in F. destruct F as [_ F].
  intros a Wa. apply (proj1 (test_exact d (w_lit y) Hd (proj1 (lit_below_known nv (w_lit y) d L) B) S)); [|assumption].
  destruct (test_literal d (w_lit y)); congruence.
Qed.

Lemma requeue_delivers d e ev : domains_ok d -> length d = nv -> pq_ok n (e_pq e) -> owners_ok n (e_watch e) -> placed nv (e_watch e) ->
  delivered d [ev] e (requeue props d e ev).
Proof.
  intros Hd L Q O P. destruct ev as [v i]. pose proof (fire_owners n d v i (e_watch e) O) as [FO _].
  unfold requeue. destruct (fire_watches d v i (e_watch e)) as [owners w'] eqn:E. cbn [fst snd] in FO.
  destruct (fire_spec d v i _ _ _ E) as (gone & Eo & G1 & G2 & G3 & G4 & G5 & G6).
  destruct (enqueue_all_grows props (coarse_woken props v i ++ owners) (e_pq e) Q) as [G W].
  { apply Forall_app. split; [apply coarse_woken_lt|assumption]. }
  constructor; cbn [e_watch e_pq].
  - intros u y I. destruct (G2 u y I) as [I' F]. split; [assumption|]. intros k [[= -> ->]|[]]. now apply F.
  - intros u y I. destruct (G3 u y I) as [|J]; [auto|]. right. destruct (G1 y J) as [I' F].
    split; [now apply (fires_certain d i y v (e_watch e))|]. rewrite G4. apply in_app_iff. right. apply in_map_iff. exists y.
    split; [reflexivity|]. apply filter_In. split; [assumption|apply Nat.eqb_refl].
  - intros p x I. rewrite G4. apply in_app_iff. auto.
  - assumption.
  - assumption.
  - intros p Hp Ne En. rewrite G4 in Ne. destruct (inbox (e_watch e) p) as [|]; [|left; discriminate]. right. cbn [app] in Ne.
    apply W; [|assumption]. apply in_app_iff. right. rewrite Eo.
    destruct (filter _ gone) as [|y r] eqn:Ef; [now destruct Ne|].
    assert (I : In y (filter (fun y => Nat.eqb (w_owner y) p) gone)) by (rewrite Ef; now left).
    apply filter_In in I. destruct I as [I Eq]. apply Nat.eqb_eq in Eq. apply in_map_iff. exists y. auto.
  - intros p Ei Now. rewrite G4, Ei. cbn [app].
    destruct (filter _ gone) as [|y r] eqn:Ef; [reflexivity|]. exfalso.
    assert (I : In y (filter (fun y => Nat.eqb (w_owner y) p) gone)) by (rewrite Ef; now left).
    apply filter_In in I. destruct I as [I Eq]. apply Nat.eqb_eq in Eq. apply (Now v y); [|assumption]. now apply G1.
Qed.

Lemma delivered_placed d evs e e' : delivered d evs e e' -> placed nv (e_watch e) -> placed nv (e_watch e').
Proof. intros D P v y I. apply P. now apply (dl_left _ _ _ _ D). Qed.

Lemma delivered_trans d e1 e2 evs1 evs2 e3 : grows props (e_pq e1) (e_pq e2) -> grows props (e_pq e2) (e_pq e3) ->
  delivered d evs1 e1 e2 -> delivered d evs2 e2 e3 -> delivered d (evs1 ++ evs2) e1 e3.
Proof.
  intros G1 G2 A B. constructor.
  - intros v y I. destruct (dl_left _ _ _ _ B v y I) as [I2 F2]. destruct (dl_left _ _ _ _ A v y I2) as [I1 F1].
    split; [assumption|]. intros k Ik. apply in_app_iff in Ik. destruct Ik; auto.
  - intros v y I. destruct (dl_sent _ _ _ _ A v y I) as [I2|[C P]].
    + exact (dl_sent _ _ _ _ B v y I2).
    + right. split; [assumption|]. now apply (dl_inbox _ _ _ _ B).
  - intros p x I. now apply (dl_inbox _ _ _ _ B), (dl_inbox _ _ _ _ A).
  - rewrite (dl_scratch _ _ _ _ B). apply A.
  - rewrite (dl_memo _ _ _ _ B). apply A.
  - intros p Hp Ne En. assert (En2 : pos (e_pq e2) p < q_idle (e_pq e2)).
    { rewrite (g_idle _ _ _ G1). now apply (g_enabled _ _ _ G1). }
    destruct (dl_queued _ _ _ _ B p Hp Ne En2) as [N2|]; [|auto].
    destruct (dl_queued _ _ _ _ A p Hp N2 En) as [|Qd]; [auto|]. right. eapply grows_queued; eauto.
  - intros p Ei Now. apply (dl_fresh _ _ _ _ B).
    + now apply (dl_fresh _ _ _ _ A).
    + intros v y I. apply (dl_left _ _ _ _ A) in I. destruct I as [I _]. eauto.
Qed.

Lemma requeue_all_delivers d evs : domains_ok d -> length d = nv -> forall e, pq_ok n (e_pq e) -> owners_ok n (e_watch e) -> placed nv (e_watch e) ->
  delivered d evs e (fold_left (requeue props d) evs e).
Proof.
  intros Hd L. induction evs as [|ev evs IH]; intros e Q O P; cbn [fold_left].
  - constructor; auto.
    + intros v y I. split; [assumption|]. intros k [].
    + intros p x I; exact I.
  - destruct (requeue_grows props d e ev Q O) as [G _]. pose proof (requeue_delivers d e ev Hd L Q O P) as D1.
    assert (P1 := delivered_placed _ _ _ _ D1 P).
    pose proof (IH _ (g_ok _ _ _ (eg_pq _ _ _ G)) (eg_own _ _ _ G) P1) as D2.
    destruct (requeue_all_grows props d evs _ (g_ok _ _ _ (eg_pq _ _ _ G)) (eg_own _ _ _ G)) as [G2 _].
    apply (delivered_trans d e (requeue props d e ev) [ev] evs); auto; [apply G|apply G2].
Qed.

Lemma delivered_alert d evs e e' : domains_ok d -> length d = nv -> placed nv (e_watch e) -> delivered d evs e e' ->
  alerted d evs (e_watch e) -> alerted d [] (e_watch e').
Proof.
  intros Hd L P D A v y I. left. destruct (dl_left _ _ _ _ D v y I) as [I0 F]. destruct (A v y I0) as [|(k & Ik & M)]; [assumption|].
  destruct (P v y I0) as (_ & B & S). pose proof (proj1 (lit_below_known nv (w_lit y) d L) B) as Kn.
  destruct (unmet_or_certain d (w_lit y) Hd Kn) as [|C]; [assumption|]. exfalso. specialize (F k Ik). unfold fires in F. rewrite M in F. simpl in F.
  rewrite (proj2 (proj1 (test_exact d (w_lit y) Hd Kn S)) C) in F. discriminate.
Qed.

(** ** Edits *)

Lemma clear_on_spec x w v : forall u y, In y (watches_on (clear_watches_on x w v) u) <-> In y (watches_on w u) /\ (u = v -> w_owner y <> x).
Proof.
  intros u y. unfold clear_watches_on. destruct (sweep _ _ _ _) as [ws' gone] eqn:Es.
  destruct (sweep_all _ _ _ _ Es) as (P & F1 & F2).
  assert (WO : forall u, nth u (if v <? length (wp_watches w) then set_nth (wp_watches w) v ws' else wp_watches w) [] =
                 if Nat.eqb u v then ws' else nth u (wp_watches w) []).
  { intro k. apply (nth_put (wp_watches w) v ws' k). destruct (swept_out _ _ _ _ _ Es) as [|[-> _]]; auto. }
  unfold watches_on at 1. cbn [wp_watches]. rewrite WO. destruct (Nat.eqb_spec u v) as [->|N]; [|unfold watches_on; tauto]. split.
  - intro I. split; [eapply Permutation_in; [exact P|apply in_app_iff; auto]|]. intros _. rewrite Forall_forall in F2. specialize (F2 y I).
    now apply Nat.eqb_neq in F2.
  - intros [I Ne]. apply (Permutation_in _ (Permutation_sym P)) in I. apply in_app_iff in I. destruct I as [I|I]; [|assumption].
    rewrite Forall_forall in F1. specialize (F1 y I). apply Nat.eqb_eq in F1. now destruct (Ne eq_refl).
Qed.

Lemma clear_spec x sc : forall w u y, In y (watches_on (clear_watches x sc w) u) <-> In y (watches_on w u) /\ (In u sc -> w_owner y <> x).
Proof.
  unfold clear_watches. induction sc as [|v r IH]; intros w u y; cbn [fold_left]; [simpl; tauto|].
  rewrite IH, clear_on_spec. simpl. split.
  - intros [[A B] C]. split; [assumption|]. intros [->|I]; auto.
  - intros [A B]. split; [split; [assumption|]|]; auto.
Qed.

Lemma clear_rest x sc : forall w, wp_scratch (clear_watches x sc w) = wp_scratch w /\ wp_inbox (clear_watches x sc w) = wp_inbox w /\
  wp_memo (clear_watches x sc w) = wp_memo w.
Proof.
  unfold clear_watches. induction sc as [|v r IH]; intro w; cbn [fold_left]; [auto|].
  destruct (IH (clear_watches_on x w v)) as (-> & -> & ->). unfold clear_watches_on. destruct (sweep _ _ _ _). auto.
Qed.

Lemma register_spec x l pl b w u y : In y (watches_on (register_watch x l pl b w) u) <->
  In y (watches_on w u) \/ (lit_underlying l = Some u /\ y = mk_watch l pl x (wp_next w)).
Proof.
  unfold register_watch. destruct (lit_underlying l) as [v|]; [|split; [auto|intros [|[? _]]; [assumption|discriminate]]].
  unfold watches_on at 1. cbn [wp_watches]. rewrite nth_set_ext. destruct (Nat.eqb_spec u v) as [->|N].
  - rewrite in_app_iff. simpl. split; [intros [|[<-|[]]]; auto|intros [|[_ ->]]; auto].
  - split; [auto|]. intros [|[[=] _]]; [assumption|congruence].
Qed.

Lemma requests_from x edits : forall w v y, In y (watches_on (fold_left (request props x) edits w) v) ->
  In y (watches_on w v) \/ (w_owner y = x /\ In (ReqWatch (w_lit y) (w_payload y)) edits /\ lit_underlying (w_lit y) = Some v).
Proof.
  induction edits as [|r rs IH]; intros w v y I; cbn [fold_left] in I; [auto|].
  destruct (IH _ _ _ I) as [J|(J1 & J2 & J3)]; [|right; split; [assumption|]; split; [now right|assumption]].
  destruct r as [l pl| |k z]; cbn [request] in J.
  - apply register_spec in J. destruct J as [J|[U ->]]; [auto|]. right. cbn [w_owner w_lit w_payload]. split; [reflexivity|]. split; [now left|assumption].
  - apply clear_spec in J. tauto.
  - auto.
Qed.

Lemma requests_keep x edits : forall w v y, In y (watches_on w v) -> w_owner y <> x \/ ~ In ReqClear edits ->
  In y (watches_on (fold_left (request props x) edits w) v).
Proof.
  induction edits as [|r rs IH]; intros w v y I N; cbn [fold_left]; [assumption|]. apply IH.
  - destruct r as [l pl| |k z]; cbn [request]; auto.
    + apply register_spec. auto.
    + apply clear_spec. split; [assumption|]. intros _. destruct N as [|N]; [assumption|]. exfalso. apply N. now left.
  - destruct N as [|N]; [auto|]. right. intro. apply N. now right.
Qed.

Lemma requests_new x edits : forall w l pl v, ~ In ReqClear edits -> In (ReqWatch l pl) edits -> lit_underlying l = Some v ->
  exists y, In y (watches_on (fold_left (request props x) edits w) v) /\ w_owner y = x /\ w_lit y = l /\ w_payload y = pl.
Proof.
  induction edits as [|r rs IH]; intros w l pl v N I U; [destruct I|]. cbn [fold_left].
  assert (N' : ~ In ReqClear rs) by (intro; apply N; now right). destruct I as [->|I]; [|now apply IH].
  exists (mk_watch l pl x (wp_next w)). split; [|auto]. apply requests_keep; [|auto]. cbn [request]. apply register_spec. auto.
Qed.

Lemma request_rest x w r : wp_inbox (request props x w r) = wp_inbox w /\ wp_memo (request props x w r) = wp_memo w.
Proof.
  destruct r as [l pl| |k z]; cbn [request]; auto.
  - unfold register_watch. destruct (lit_underlying l); auto.
  - destruct (clear_rest x (scope (the x)) w) as (_ & A & B). auto.
Qed.

Lemma requests_rest x edits : forall w, wp_inbox (fold_left (request props x) edits w) = wp_inbox w /\
  wp_memo (fold_left (request props x) edits w) = wp_memo w.
Proof.
  induction edits as [|r rs IH]; intro w; cbn [fold_left]; [auto|]. destruct (IH (request props x w r)) as [-> ->]. apply request_rest.
Qed.

Lemma requests_stored x edits : forall w S, (forall k, stored w x k = S k) -> forall k, stored (fold_left (request props x) edits w) x k = stores edits S k.
Proof.
  induction edits as [|r rs IH]; intros w S E k; cbn [fold_left stores]; [apply E|].
  destruct r as [l pl| |j z]; cbn [request]; apply IH; intro i.
  - rewrite <- E. unfold register_watch. destruct (lit_underlying l); reflexivity.
  - rewrite <- E. unfold stored, scratch_get. destruct (clear_rest x (scope (the x)) w) as (-> & _). reflexivity.
  - rewrite <- E. unfold stored, scratch_get, scratch_set. cbn [wp_scratch]. rewrite nth_set_ext, Nat.eqb_refl, nth_set_ext. reflexivity.
Qed.

Lemma requests_other x edits p : p <> x -> forall w k, stored (fold_left (request props x) edits w) p k = stored w p k.
Proof.
  intro N. induction edits as [|r rs IH]; intros w k; cbn [fold_left]; [reflexivity|]. rewrite IH.
  destruct r as [l pl| |j z]; cbn [request].
  - unfold register_watch. destruct (lit_underlying l); reflexivity.
  - unfold stored, scratch_get. destruct (clear_rest x (scope (the x)) w) as (-> & _). reflexivity.
  - unfold stored, scratch_get, scratch_set. cbn [wp_scratch]. rewrite nth_set_ext. destruct (Nat.eqb_spec p x); [contradiction|reflexivity].
Qed.

(** ** Alertness during the loop *)

Record keen (l : loop) : Prop :=
  { kn_claims : l_claims l = [];
    kn_placed : placed nv (wof l);
    kn_alerted : alerted (dof l) (l_events l) (wof l) }.

Lemma boundary_delivers l : base props nv Inv l -> keen l -> q_begin (qof l) = q_end (qof l) ->
  let e1 := mk_engine (rewind (fold_left disable_one (l_disable l) (qof l))) (wof l) (e_loads (l_engine l)) in
  pq_ok n (e_pq e1) /\ (forall x, x < n -> (pos (e_pq e1) x < q_idle (e_pq e1) <-> pos (qof l) x < q_idle (qof l) /\ ~ In x (l_disable l))) /\
  engine_grows props e1 (l_engine (boundary props l)) /\
  delivered (dof l) (l_events l) e1 (l_engine (boundary props l)).
Proof.
  intros B [C P A] E. cbv zeta. set (e1 := mk_engine _ _ _). unfold boundary. rewrite (proj2 (Nat.eqb_eq _ _) E), C. cbn [l_engine].
  assert (DI : Forall (fun p => p < n) (l_disable l) /\ Forall (fun p => pos (qof l) p < q_idle (qof l)) (l_disable l)).
  { pose proof (ok_order n _ (b_pq _ _ _ l B)) as O.
    split; eapply Forall_impl; try apply (b_disable _ _ _ l B); cbv beta; intros; [tauto|lia]. }
  destruct (disable_all_spec n (l_disable l) (qof l) (b_pq _ _ _ l B) (proj1 DI) (b_dnodup _ _ _ l B) (proj2 DI)) as (Q1 & _ & _ & _ & Q5).
  split; [exact Q1|]. split; [exact Q5|].
  destruct (requeue_all_grows props (dof l) (l_events l) e1 Q1 (b_own _ _ _ l B)) as [G _]. split; [exact G|].
  apply requeue_all_delivers; [apply B|apply B|exact Q1|apply B|exact P].
Qed.

Lemma boundary_keen l : base props nv Inv l -> keen l -> keen (boundary props l).
Proof.
  intros B K. destruct (Nat.eq_dec (q_begin (qof l)) (q_end (qof l))) as [E|E].
  2:{ unfold boundary. rewrite (proj2 (Nat.eqb_neq _ _) E). assumption. }
  destruct (boundary_delivers l B K E) as (Q & _ & G & D). destruct K as [C P A].
  assert (X : l_state (boundary props l) = l_state l /\ l_events (boundary props l) = [] /\ l_claims (boundary props l) = []).
  { unfold boundary. rewrite (proj2 (Nat.eqb_eq _ _) E). auto. }
  destruct X as (X1 & X2 & X3). constructor; [assumption| |].
  - eapply delivered_placed; eauto.
  - rewrite X1, X2. refine (delivered_alert _ _ _ _ (b_dom _ _ _ l B) (b_len _ _ _ l B) _ D A). exact P.
Qed.

Lemma after_run_watches x o w v : watches_on (after_run props x o w) v = watches_on (fold_left (request props x) (o_edits o) w) v.
Proof. reflexivity. Qed.

Lemma run_keen x l : base props nv Inv l -> x < n -> keen l -> forall l', run_prop props x l = (l', false) -> keen l'.
Proof.
  intros B Hx [C P A] l' E. unfold run_prop in E.
  set (inp := input_for x (l_state l) (wof l)) in *. set (o := p_run (the x) inp) in *.
  assert (U : usable nv Inv inp) by (split; [apply B|split; apply B]).
  pose proof (wb_known _ _ _ (HW x Hx) inp U) as Kn. fold o in Kn. change (i_domains inp) with (dof l) in Kn.
  destruct (apply_lits (dof l) (o_infer o)) as [[d evs] bad] eqn:EA. destruct bad; [discriminate|].
  injection E as <-. cbn [l_engine l_state l_events l_claims e_watch].
  pose proof (apply_lits_ok _ _ _ _ (b_dom _ _ _ l B) Kn EA) as Od. pose proof (apply_lits_length _ _ _ _ _ (b_dom _ _ _ l B) Kn EA) as Ln.
  destruct (HU x Hx) as [_ HUx].
  assert (SRC : forall v y, In y (watches_on (after_run props x o (wof l)) v) ->
     In y (watches_on (wof l) v) \/ (lit_underlying (w_lit y) = Some v /\ lit_below nv (w_lit y) /\ lit_sane (w_lit y) /\ unmet (dof l) (w_lit y))).
  { intros v y I. rewrite after_run_watches in I. destruct (requests_from x _ _ _ _ I) as [|(_ & J & Uv)]; [auto|]. right.
    split; [assumption|]. exact (HUx inp _ _ U J). }
  assert (PL : placed nv (after_run props x o (wof l))).
  { intros v y I. destruct (SRC v y I) as [J|J]; [auto|tauto]. }
  constructor; [|assumption|]; cbn [l_engine l_state l_events l_claims e_watch].
  - rewrite C. destruct (o_result o) eqn:R; try reflexivity. destruct (HC x Hx) as [Al|Al].
    + apply claims_ignored_spec in Al. now rewrite Al.
    + exfalso. exact (Al inp U R).
  - rewrite (current_frame (l_state l) d (o_cstates o) (b_epoch _ _ _ l B)). intros v y I.
    assert (H : unmet (dof l) (w_lit y) \/ exists k, In (v, k) (l_events l) /\ watch_mask_has (w_lit y) k = true).
    { destruct (SRC v y I) as [J|J]; [exact (A v y J)|left; tauto]. }
    destruct H as [H|(k & Ik & M)]; [|right; exists k; split; [apply in_app_iff; auto|assumption]].
    destruct (PL v y I) as (Uy & By & Sy). pose proof (proj1 (lit_below_known nv (w_lit y) (dof l) (b_len _ _ _ l B)) By) as Ky.
    destruct (unmet_or_certain d (w_lit y) Od (lit_known_length (dof l) d _ Ln Ky)) as [|Cd]; [auto|]. right.
    destruct (run_sees (o_infer o) (w_lit y) (dof l) d evs (b_dom _ _ _ l B) Kn Ky EA H Cd) as (v' & k & Ik & Uv & M).
    exists k. split; [|assumption]. apply in_app_iff. right. assert (v' = v) as <- by congruence. assumption.
Qed.

Lemma iterate_keen l : base props nv Inv l -> keen l ->
  match iterate props disabled abort l with inl l' | inr (l', false) => keen l' | inr (_, true) => True end.
Proof.
  intros B K. unfold iterate. destruct (boundary_spec props disabled abort nv Inv l B) as (B1 & _). pose proof (boundary_keen l B K) as K1.
  set (l1 := boundary props l) in *. destruct (Nat.eqb_spec (q_begin (qof l1)) (q_end (qof l1))) as [Q|Q]; [assumption|].
  assert (L : q_begin (qof l1) < q_end (qof l1)) by (pose proof (ok_order n _ (b_pq _ _ _ _ B1)); lia).
  destruct (pop_base props disabled abort nv Inv l1 B1 L) as (Hx & _ & B2 & _).
  fold (popped l1). set (x := nth (q_begin (qof l1)) (q_queue (qof l1)) 0) in *.
  assert (K2 : keen (popped l1)) by (destruct K1; constructor; assumption).
  destruct (disabled x); [assumption|]. destruct (run_prop props x (popped l1)) as [l2 bad] eqn:R. destruct bad; [exact Logic.I|].
  pose proof (run_keen x _ B2 Hx K2 l2 R) as K3. destruct (abort _); destruct K3; constructor; assumption.
Qed.

Lemma run_loop_keen fuel : forall l l', base props nv Inv l -> keen l -> run_loop props disabled abort fuel l = Some (l', false) -> keen l'.
Proof.
  induction fuel as [|fuel IH]; intros l l' B K E; cbn [run_loop] in E; [discriminate|].
  pose proof (iterate_spec props disabled abort nv Inv HW l B) as S. pose proof (iterate_keen l B K) as KI.
  destruct (iterate props disabled abort l) as [l1|[l1 bad1]].
  - destruct S as (B1 & _). now apply (IH l1).
  - injection E as -> ->. assumption.
Qed.

(** ** One propagator that relies on its watches *)

Section Watcher.
Variable p : nat.
Hypothesis Hp : p < n.
Hypothesis Dp : disabled p = false.

Variable K : domains -> (literal -> nat -> Prop) -> (nat -> Z) -> list nat -> Prop.
Variable M : list Z -> Prop.

Notation watcher := (keeps_watch nv Inv (the p) K M).
Hypothesis WA : watcher.

Definition waiting (q : pq) : Prop := q_begin q <= pos q p < q_end q.

Definition fresh (w : wpart) : Prop :=
  inbox w p = [] /\ memo w p = [] /\ (forall k, stored w p k = 0%Z) /\ forall v y, In y (watches_on w v) -> w_owner y <> p.

Definition tended_by (d : domains) (q : pq) (w : wpart) : Prop :=
  (fresh w /\ waiting q) \/ (K d (armed_by w p) (stored w p) (inbox w p) /\ M (memo w p) /\ (inbox w p <> [] -> waiting q)).

Record tended (l : loop) : Prop :=
  { td_enabled : pos (qof l) p < q_idle (qof l);
    td_disable : ~ In p (l_disable l);
    td_state : tended_by (dof l) (qof l) (wof l) }.

Lemma delivered_tended d evs e e' : delivered d evs e e' -> pos (e_pq e) p < q_idle (e_pq e) ->
  (fresh (e_watch e) -> fresh (e_watch e')) /\
  (K d (armed_by (e_watch e) p) (stored (e_watch e) p) (inbox (e_watch e) p) ->
   K d (armed_by (e_watch e') p) (stored (e_watch e') p) (inbox (e_watch e') p)) /\
  memo (e_watch e') p = memo (e_watch e) p /\
  (inbox (e_watch e') p <> [] -> inbox (e_watch e) p <> [] \/ queued (e_pq e') p).
Proof.
  intros D En. split; [|split; [|split]].
  - intros (F1 & F2 & F3 & F4). split; [|split; [|split]].
    + now apply (dl_fresh _ _ _ _ D).
    + unfold memo. rewrite (dl_memo _ _ _ _ D). exact F2.
    + intro k. unfold stored, scratch_get. rewrite (dl_scratch _ _ _ _ D). apply F3.
    + intros v y I. apply (dl_left _ _ _ _ D) in I. destruct I as [I _]. eauto.
  - intro Kd. apply (wa_weaken _ _ _ _ _ WA d d _ _ _ _ _ _ Kd); auto.
    + intro k. unfold stored, scratch_get. now rewrite (dl_scratch _ _ _ _ D).
    + intros l pl (v & y & I & Ow & <- & <-). destruct (dl_sent _ _ _ _ D v y I) as [I'|[C Ib]].
      * left. exists v, y. auto.
      * right. split; [assumption|]. now rewrite Ow in Ib.
    + apply (dl_inbox _ _ _ _ D).
  - unfold memo. now rewrite (dl_memo _ _ _ _ D).
  - intro Ne. exact (dl_queued _ _ _ _ D p Hp Ne En).
Qed.

Lemma boundary_tended l : base props nv Inv l -> keen l -> tended l -> tended (boundary props l).
Proof.
  intros B Kl [T1 T2 T3]. destruct (Nat.eq_dec (q_begin (qof l)) (q_end (qof l))) as [E|E].
  2:{ unfold boundary. rewrite (proj2 (Nat.eqb_neq _ _) E). constructor; assumption. }
  destruct (boundary_delivers l B Kl E) as (Q & En & G & D).
  set (e1 := mk_engine _ _ _) in *.
  assert (E1 : pos (e_pq e1) p < q_idle (e_pq e1)) by (apply En; auto).
  assert (X : l_state (boundary props l) = l_state l /\ l_disable (boundary props l) = []).
  { unfold boundary. rewrite (proj2 (Nat.eqb_eq _ _) E). auto. }
  destruct X as (X1 & X2). destruct (delivered_tended _ _ _ _ D E1) as (_ & D2 & D3 & D4).
  pose proof (eg_pq _ _ _ G) as Gq. constructor.
  - rewrite (g_idle _ _ _ Gq). now apply (g_enabled _ _ _ Gq).
  - rewrite X2. auto.
  - rewrite X1. unfold tended_by in *. destruct T3 as [[_ W]|(Kd & Mm & Wt)]; [unfold waiting in W; exfalso; lia|]. right.
    split; [exact (D2 Kd)|]. split; [rewrite D3; exact Mm|]. intro Ne. destruct (D4 Ne) as [N|Qd].
    + exfalso. specialize (Wt N). unfold waiting in Wt. lia.
    + unfold waiting. rewrite (g_begin _ _ _ Gq). unfold queued in Qd. cbn. split; [lia|exact Qd].
Qed.

(** Running another propagator. *)
Lemma run_other x l : base props nv Inv l -> x < n -> x <> p -> tended l -> forall l', run_prop props x l = (l', false) -> tended l'.
Proof.
  intros B Hx Nx [T1 T2 T3] l' E. unfold run_prop in E.
  set (inp := input_for x (l_state l) (wof l)) in *. set (o := p_run (the x) inp) in *.
  assert (U : usable nv Inv inp) by (split; [apply B|split; apply B]).
  pose proof (wb_known _ _ _ (HW x Hx) inp U) as Kn. fold o in Kn. change (i_domains inp) with (dof l) in Kn.
  destruct (apply_lits (dof l) (o_infer o)) as [[d evs] bad] eqn:EA. destruct bad; [discriminate|].
  pose proof (apply_lits_within _ _ _ _ _ (b_dom _ _ _ l B) Kn EA) as WI. cbv beta iota in WI.
  injection E as <-. constructor; cbn [l_engine l_state l_disable e_pq e_watch].
  - assumption.
  - destruct (o_result o); auto. rewrite in_app_iff. intros [I|[I|[]]]; [auto|congruence].
  - rewrite (current_frame (l_state l) d (o_cstates o) (b_epoch _ _ _ l B)).
    set (w' := after_run props x o (wof l)).
    assert (IB : inbox w' p = inbox (wof l) p).
    { unfold inbox, w', after_run. cbn [wp_inbox]. rewrite nth_set_ext. destruct (Nat.eqb_spec p x); [congruence|].
      now rewrite (proj1 (requests_rest x (o_edits o) (wof l))). }
    assert (ME : memo w' p = memo (wof l) p).
    { unfold memo, w', after_run. cbn [wp_memo]. rewrite nth_set_ext. destruct (Nat.eqb_spec p x); [congruence|].
      now rewrite (proj2 (requests_rest x (o_edits o) (wof l))). }
    assert (SC : forall k, stored w' p k = stored (wof l) p k) by (intro k; exact (requests_other x (o_edits o) p (not_eq_sym Nx) (wof l) k)).
    destruct T3 as [[(F1 & F2 & F3 & F4) W]|(Kd & Mm & Wt)].
    + left. split; [|assumption]. split; [congruence|]. split; [congruence|]. split; [intro; rewrite SC; apply F3|].
      intros v y I. unfold w' in I. rewrite after_run_watches in I. destruct (requests_from x _ _ _ _ I) as [J|(Ow & _)]; [eauto|congruence].
    + right. rewrite IB, ME. split; [|auto]. apply (wa_weaken _ _ _ _ _ WA (dof l) d (armed_by (wof l) p) _ (stored (wof l) p) _ _ _ Kd).
      * intros a Wa. now apply WI.
      * intro k. symmetry. apply SC.
      * intros lt pl (v & y & I & Ow & El & Ep). left. exists v, y. split; [|auto]. unfold w'. rewrite after_run_watches.
        apply requests_keep; [assumption|left; congruence].
      * apply incl_refl.
Qed.

(** Running it. *)
Lemma run_itself l : base props nv Inv l -> pos (qof l) p < q_idle (qof l) -> ~ In p (l_disable l) ->
  (fresh (wof l) \/ (K (dof l) (armed_by (wof l) p) (stored (wof l) p) (inbox (wof l) p) /\ M (memo (wof l) p))) ->
  forall l', run_prop props p l = (l', false) -> tended l'.
Proof.
  intros B T1 T2 T3 l' E. unfold run_prop in E.
  set (inp := input_for p (l_state l) (wof l)) in *. set (o := p_run (the p) inp) in *.
  assert (U : usable nv Inv inp) by (split; [apply B|split; apply B]).
  destruct (apply_lits (dof l) (o_infer o)) as [[d evs] bad] eqn:EA. destruct bad; [discriminate|].
  pose proof (wa_enable _ _ _ _ _ WA inp U) as R. fold o in R. rewrite R in E.
  injection E as <-. constructor; cbn [l_engine l_state l_disable e_pq e_watch]; [assumption|assumption|].
  rewrite (current_frame (l_state l) d (o_cstates o) (b_epoch _ _ _ l B)).
  set (w' := after_run props p o (wof l)). right.
  assert (IB : inbox w' p = []).
  { unfold inbox, w', after_run. cbn [wp_inbox]. rewrite nth_set_ext, Nat.eqb_refl. reflexivity. }
  assert (ME : memo w' p = o_memo o).
  { unfold memo, w', after_run. cbn [wp_memo]. rewrite nth_set_ext, Nat.eqb_refl. reflexivity. }
  assert (SC : forall S k, (forall k, stored (wof l) p k = S k) -> stored w' p k = stores (o_edits o) S k).
  { intros S k ES. exact (requests_stored p (o_edits o) (wof l) S ES k). }
  assert (AR : forall A : literal -> nat -> Prop, (forall lt pl, A lt pl -> armed_by (wof l) p lt pl) -> forall lt pl, arms (o_edits o) A lt pl -> armed_by w' p lt pl).
  { intros A HA lt pl [H|[H Ul]].
    - destruct (HA lt pl H) as (v & y & I & Ow & El & Ep). exists v, y. split; [|auto]. unfold w'. rewrite after_run_watches.
      apply requests_keep; [assumption|]. right. apply (wa_clear _ _ _ _ _ WA).
    - destruct (lit_underlying lt) as [v|] eqn:Ev; [|congruence].
      destruct (requests_new p (o_edits o) (wof l) lt pl v (wa_clear _ _ _ _ _ WA inp) H Ev) as (y & I & Ow & El & Ep).
      exists v, y. auto. }
  rewrite IB, ME. split; [|split; [|congruence]].
  - destruct T3 as [(F1 & F2 & F3 & F4)|[Kd Mm]].
    + destruct (wa_first _ _ _ _ _ WA inp (stored (wof l) p) d evs U F1 F2 F3 EA) as [Kd _]. fold o in Kd.
      apply (wa_weaken _ _ _ _ _ WA d d _ _ _ _ _ _ Kd); auto.
      * intro k. symmetry. apply SC. auto.
      * intros lt pl H. left. revert lt pl H. apply AR. intros lt pl [].
      * apply incl_refl.
    + pose proof (wa_run _ _ _ _ _ WA inp (armed_by (wof l) p) (stored (wof l) p) d evs U Kd (fun k => eq_refl) Mm EA) as Kd'. fold o in Kd'.
      apply (wa_weaken _ _ _ _ _ WA d d _ _ _ _ _ _ Kd'); auto.
      * intro k. symmetry. apply SC. auto.
      * intros lt pl H. left. revert lt pl H. apply AR. auto.
      * apply incl_refl.
  - destruct T3 as [(F1 & F2 & F3 & F4)|[Kd Mm]].
    + now destruct (wa_first _ _ _ _ _ WA inp (stored (wof l) p) d evs U F1 F2 F3 EA) as [_ H].
    + exact (wa_memo _ _ _ _ _ WA inp U Mm).
Qed.

(** Private data survives even a failed run. *)
Lemma run_memo x l : base props nv Inv l -> M (memo (wof l) p) -> forall l' bad, run_prop props x l = (l', bad) -> M (memo (wof l') p).
Proof.
  intros B Mm l' bad E. unfold run_prop in E.
  set (inp := input_for x (l_state l) (wof l)) in *. set (o := p_run (the x) inp) in *.
  assert (U : usable nv Inv inp) by (split; [apply B|split; apply B]).
  destruct (apply_lits (dof l) (o_infer o)) as [[d evs] bad'] eqn:EA.
  assert (W : wof l' = after_run props x o (wof l)) by (destruct bad'; injection E as <- <-; reflexivity).
  rewrite W. unfold memo, after_run. cbn [wp_memo]. rewrite nth_set_ext. destruct (Nat.eqb_spec p x) as [<-|N].
  - exact (wa_memo _ _ _ _ _ WA inp U Mm).
  - rewrite (proj2 (requests_rest x (o_edits o) (wof l))). exact Mm.
Qed.

Lemma iterate_tended l : base props nv Inv l -> keen l -> tended l ->
  match iterate props disabled abort l with inl l' | inr (l', false) => tended l' | inr (_, true) => True end.
Proof.
  intros B Kl T. unfold iterate. destruct (boundary_spec props disabled abort nv Inv l B) as (B1 & _). pose proof (boundary_tended l B Kl T) as T1.
  set (l1 := boundary props l) in *. destruct (Nat.eqb_spec (q_begin (qof l1)) (q_end (qof l1))) as [Q|Q]; [assumption|].
  assert (L : q_begin (qof l1) < q_end (qof l1)) by (pose proof (ok_order n _ (b_pq _ _ _ _ B1)); lia).
  destruct (pop_base props disabled abort nv Inv l1 B1 L) as (Hx & Px & B2 & _).
  fold (popped l1). set (x := nth (q_begin (qof l1)) (q_queue (qof l1)) 0) in *.
  destruct T1 as [T1 T2 T3].
  assert (T4 : x <> p -> tended (popped l1)).
  { intro N. constructor; [exact T1|exact T2|].
    assert (W : waiting (qof l1) -> waiting (qof (popped l1))).
    { unfold waiting. change (pos (qof (popped l1)) p) with (pos (qof l1) p). cbn [popped l_engine e_pq q_begin q_end]. intros [W1 W2].
      split; [|assumption]. assert (pos (qof l1) p <> q_begin (qof l1)); [|lia]. intro Eq. apply N. symmetry.
      apply (pos_inj n (qof l1)); auto; [apply B1|congruence]. }
    destruct T3 as [[F Wt]|(Kd & Mm & Wt)]; [left|right]; auto. }
  assert (T5 : x = p -> pos (qof (popped l1)) p < q_idle (qof (popped l1)) /\ ~ In p (l_disable (popped l1)) /\
    (fresh (wof (popped l1)) \/ (K (dof (popped l1)) (armed_by (wof (popped l1)) p) (stored (wof (popped l1)) p) (inbox (wof (popped l1)) p) /\ M (memo (wof (popped l1)) p)))).
  { intros _. split; [exact T1|]. split; [exact T2|]. destruct T3 as [[F Wt]|(Kd & Mm & Wt)]; [left; exact F|right; split; [exact Kd|exact Mm]]. }
  destruct (disabled x) eqn:Dx; [apply T4; congruence|].
  destruct (run_prop props x (popped l1)) as [l2 bad] eqn:R. destruct bad; [exact Logic.I|].
  assert (T6 : tended l2).
  { destruct (Nat.eq_dec x p) as [Ex|Nx].
    - destruct (T5 Ex) as (A1 & A2 & A3). rewrite Ex in R. exact (run_itself _ B2 A1 A2 A3 l2 R).
    - exact (run_other x _ B2 Hx Nx (T4 Nx) l2 R). }
  destruct (abort _); destruct T6; constructor; assumption.
Qed.

Lemma iterate_memo l : base props nv Inv l -> M (memo (wof l) p) ->
  match iterate props disabled abort l with inl l' | inr (l', _) => M (memo (wof l') p) end.
Proof.
  intros B Mm. unfold iterate. destruct (boundary_spec props disabled abort nv Inv l B) as (B1 & _).
  assert (M1 : M (memo (wof (boundary props l)) p)).
  { unfold boundary. destruct (Nat.eqb _ _); [|assumption]. cbn [l_engine]. destruct (l_claims l); [|exact Mm].
    clear - Mm. set (e := mk_engine _ _ _). assert (Me : M (memo (e_watch e) p)) by exact Mm. clearbody e. clear Mm. revert e Me.
    induction (l_events l) as [|[v i] r IH]; intros e Me; cbn [fold_left]; [assumption|]. apply IH. unfold requeue.
    destruct (fire_watches (dof l) v i (e_watch e)) as [ow w'] eqn:E. destruct (fire_spec _ _ _ _ _ _ E) as (_ & _ & _ & _ & _ & _ & _ & G).
    cbn [e_watch]. unfold memo. rewrite G. exact Me. }
  set (l1 := boundary props l) in *. destruct (Nat.eqb_spec (q_begin (qof l1)) (q_end (qof l1))) as [Q|Q]; [assumption|].
  assert (L : q_begin (qof l1) < q_end (qof l1)) by (pose proof (ok_order n _ (b_pq _ _ _ _ B1)); lia).
  destruct (pop_base props disabled abort nv Inv l1 B1 L) as (Hx & Px & B2 & _).
  fold (popped l1). set (x := nth (q_begin (qof l1)) (q_queue (qof l1)) 0) in *.
  assert (M2 : M (memo (wof (popped l1)) p)) by exact M1.
  destruct (disabled x); [assumption|]. destruct (run_prop props x (popped l1)) as [l2 bad] eqn:R.
  pose proof (run_memo x _ B2 M2 l2 bad R) as M3. destruct bad; [assumption|]. destruct (abort _); assumption.
Qed.

Lemma run_loop_tended fuel : forall l l' bad, base props nv Inv l -> run_loop props disabled abort fuel l = Some (l', bad) ->
  (M (memo (wof l) p) -> M (memo (wof l') p)) /\ (keen l -> tended l -> bad = false -> tended l').
Proof.
  induction fuel as [|fuel IH]; intros l l' bad B E; cbn [run_loop] in E; [discriminate|].
  pose proof (iterate_spec props disabled abort nv Inv HW l B) as S. pose proof (iterate_keen l B) as KI.
  pose proof (iterate_tended l B) as TI. pose proof (iterate_memo l B) as MI.
  destruct (iterate props disabled abort l) as [l1|[l1 bad1]].
  - destruct S as (B1 & _). destruct (IH l1 l' bad B1 E) as [A1 A2]. split; auto.
  - injection E as -> ->. split; [assumption|]. intros. subst bad. auto.
Qed.
End Watcher.
End Loop.
