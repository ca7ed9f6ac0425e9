From Coq Require Import ZArith List Bool Lia Arith Permutation.
From Verif Require Import Difference DifferenceSpec DifferencePotentialProofs DifferenceBoundsProofs Simplify SimplifySpec SimplifyProofs.
Import ListNotations.
Local Open Scope Z_scope.

Section Graph.
Variables (arcs : list arc) (roles : list role) (h : nat -> Z).
Hypothesis lengths : length roles = length arcs.
Hypothesis h_valid : forall e a, has_role arcs roles Base e a -> 0 <= a_d a + h (a_from a) - h (a_to a).

Definition lower (st st' : search_state) : Prop :=
  forall y q, s_dist st y = Some q -> exists q', s_dist st' y = Some q' /\ q' <= q.

Lemma arc_step : forall here v e st, s_dist st v = Some here -> 0 <= reduced arcs h e ->
  lower st (search_arc arcs h here st e) /\ s_dist (search_arc arcs h here st e) v = Some here /\
  (exists r, s_dist (search_arc arcs h here st e) (a_to (arc_at arcs e)) = Some r /\ r <= here + reduced arcs h e) /\
  (forall y q, s_dist (search_arc arcs h here st e) y = Some q -> s_dist st y = Some q \/ In (q, y) (s_queue (search_arc arcs h here st e))) /\
  incl (s_queue st) (s_queue (search_arc arcs h here st e)).
Proof.
  intros here v e st Hv Hr. unfold search_arc. set (w := a_to (arc_at arcs e)). set (c := here + reduced arcs h e).
  destruct (s_dist st w) as [z|] eqn:Ez; [destruct (c <? z) eqn:Ec|].
  - apply Z.ltb_lt in Ec. assert (Hwv : v <> w) by (intros Ew; rewrite <- Ew in Ez; rewrite Hv in Ez; inversion Ez; subst z; unfold c in Ec; lia).
    simpl. split; [|split; [|split; [|split]]].
    + intros y q Hy. simpl. unfold set. destruct (Nat.eqb y w) eqn:Ey; [|exists q; split; [exact Hy|lia]].
      apply Nat.eqb_eq in Ey. subst y. exists c. rewrite Ez in Hy. inversion Hy; subst. split; [reflexivity|lia].
    + unfold set. rewrite (proj2 (Nat.eqb_neq v w)) by exact Hwv. exact Hv.
    + exists c. unfold set. rewrite Nat.eqb_refl. split; [reflexivity|lia].
    + intros y q Hy. unfold set in Hy. destruct (Nat.eqb y w) eqn:Ey; [|left; exact Hy].
      apply Nat.eqb_eq in Ey. subst y. inversion Hy; subst. right. left. reflexivity.
    + intros x Hx. right. exact Hx.
  - apply Z.ltb_ge in Ec. split; [|split; [|split; [|split]]].
    + intros y q Hy. exists q. split; [exact Hy|lia].
    + exact Hv.
    + exists z. split; [exact Ez|lia].
    + intros y q Hy. left. exact Hy.
    + apply incl_refl.
  - assert (Hwv : v <> w) by (intros Ew; rewrite <- Ew in Ez; congruence).
    simpl. split; [|split; [|split; [|split]]].
    + intros y q Hy. simpl. unfold set. destruct (Nat.eqb y w) eqn:Ey; [|exists q; split; [exact Hy|lia]].
      apply Nat.eqb_eq in Ey. subst y. congruence.
    + unfold set. rewrite (proj2 (Nat.eqb_neq v w)) by exact Hwv. exact Hv.
    + exists c. unfold set. rewrite Nat.eqb_refl. split; [reflexivity|lia].
    + intros y q Hy. unfold set in Hy. destruct (Nat.eqb y w) eqn:Ey; [|left; exact Hy].
      apply Nat.eqb_eq in Ey. subst y. inversion Hy; subst. right. left. reflexivity.
    + intros x Hx. right. exact Hx.
Qed.

Lemma arcs_step : forall here v es st, s_dist st v = Some here -> (forall e, In e es -> 0 <= reduced arcs h e) ->
  forall st', fold_left (search_arc arcs h here) es st = st' ->
  lower st st' /\ s_dist st' v = Some here /\
  (forall e, In e es -> exists r, s_dist st' (a_to (arc_at arcs e)) = Some r /\ r <= here + reduced arcs h e) /\
  (forall y q, s_dist st' y = Some q -> s_dist st y = Some q \/ In (q, y) (s_queue st')) /\
  incl (s_queue st) (s_queue st').
Proof.
  induction es as [|e es IH]; intros st Hv Hr st' E; cbn [fold_left] in E.
  - subst st'. split; [intros y q Hy; exists q; split; [exact Hy|lia]|]. split; [exact Hv|]. split; [intros e []|].
    split; [auto|apply incl_refl].
  - destruct (arc_step here v e st Hv (Hr e (or_introl eq_refl))) as (A1 & A2 & A3 & A4 & A5).
    destruct (IH _ A2 (fun f Hf => Hr f (or_intror Hf)) _ E) as (B1 & B2 & B3 & B4 & B5).
    split; [|split; [exact B2|split; [|split]]].
    + intros y q Hy. destruct (A1 y q Hy) as (q1 & Q1 & Q2). destruct (B1 y q1 Q1) as (q2 & Q3 & Q4). exists q2. split; [exact Q3|lia].
    + intros f [<-|Hf]; [|apply B3; exact Hf]. destruct A3 as (r & R1 & R2). destruct (B1 _ r R1) as (r' & R3 & R4).
      exists r'. split; [exact R3|lia].
    + intros y q Hy. destruct (B4 y q Hy) as [Hq|Hq]; [|right; exact Hq]. destruct (A4 y q Hq) as [H|H]; [left; exact H|].
      right. apply B5. exact H.
    + intros x Hx. apply B5, A5, Hx.
Qed.

Definition relaxed (st : search_state) (v : nat) (q : Z) : Prop :=
  forall e, In e (out arcs roles v) -> exists r, s_dist st (a_to (arc_at arcs e)) = Some r /\ r <= q + reduced arcs h e.

Definition pending (st : search_state) : Prop :=
  forall v q, s_dist st v = Some q -> In (q, v) (s_queue st) \/ relaxed st v q.

Lemma out_pos : forall v e, In e (out arcs roles v) -> 0 <= reduced arcs h e.
Proof. intros v e He. apply (reduced_pos arcs roles h h_valid). apply (out_spec arcs roles lengths v e He). Qed.

Lemma search_all : forall fuel st st', pending st -> search fuel arcs roles h st = Some st' ->
  (forall v q, s_dist st' v = Some q -> relaxed st' v q) /\ lower st st'.
Proof.
  assert (Hbase : forall st, pending st -> s_queue st = [] -> (forall v q, s_dist st v = Some q -> relaxed st v q) /\ lower st st).
  { intros st Hp Eq. split.
    - intros v q Hv. destruct (Hp v q Hv) as [Hin|H]; [rewrite Eq in Hin; destruct Hin|exact H].
    - intros y q Hy. exists q. split; [exact Hy|lia]. }
  induction fuel as [|k IH]; intros st st' Hp E; simpl in E; destruct (s_queue st) as [|x r] eqn:Eq.
  - inversion E; subst. auto.
  - discriminate.
  - inversion E; subst. auto.
  - destruct (pop_least x r) as [[here v] rest] eqn:Ep. destruct (pop_least_spec _ _ _ _ Ep) as [Hperm _].
    assert (Hin : forall p, In p (s_queue st) -> p = (here, v) \/ In p rest).
    { intros p Hp'. rewrite Eq in Hp'. apply (Permutation_in _ Hperm) in Hp'. destruct Hp' as [<-|Hp']; auto. }
    set (st1 := mk_search (s_dist st) (s_parent st) rest) in *.
    destruct (match s_dist st v with None => true | Some z => negb (z =? here) end) eqn:Ev.
    + apply (IH st1) in E; [exact E|]. intros y q Hy. simpl in Hy. destruct (Hp y q Hy) as [H|H]; [|right; exact H].
      left. simpl. destruct (Hin _ H) as [H'|H']; [|exact H']. inversion H'; subst.
      rewrite Hy in Ev. rewrite Z.eqb_refl in Ev. discriminate.
    + destruct (s_dist st v) as [z|] eqn:Ez; [|discriminate]. apply negb_false_iff, Z.eqb_eq in Ev. subst z.
      destruct (arcs_step here v (out arcs roles v) st1 Ez (out_pos v) _ eq_refl) as (A1 & A2 & A3 & A4 & A5).
      set (st2 := fold_left (search_arc arcs h here) (out arcs roles v) st1) in *.
      apply (IH st2) in E.
      * destruct E as [E1 E2]. split; [exact E1|]. intros y q Hy. destruct (A1 y q Hy) as (q1 & Q1 & Q2).
        destruct (E2 y q1 Q1) as (q2 & Q3 & Q4). exists q2. split; [exact Q3|lia].
      * intros y q Hy. destruct (A4 y q Hy) as [Hq|Hq]; [|left; exact Hq]. simpl in Hq.
        destruct (Nat.eq_dec y v) as [->|Hyv].
        -- right. rewrite A2 in Hy. inversion Hy; subst q. exact A3.
        -- destruct (Hp y q Hq) as [H|H].
           ++ left. apply A5. simpl. destruct (Hin _ H) as [H'|H']; [inversion H'; subst; congruence|exact H'].
           ++ right. intros e He. destruct (H e He) as (r0 & R1 & R2). destruct (A1 _ r0 R1) as (r1 & R3 & R4).
              exists r1. split; [exact R3|lia].
Qed.

(** The distances are the least. *)
Lemma search_least : forall fuel s st, search fuel arcs roles h (search_from s) = Some st ->
  forall p v, leads arcs roles s p v -> exists r, s_dist st v = Some r /\ real_distance h s v r <= weight arcs p.
Proof.
  intros fuel s st E. apply search_all in E.
  - destruct E as [E1 E2].
    assert (Hp : forall p u v q, s_dist st u = Some q -> leads arcs roles u p v ->
      exists r, s_dist st v = Some r /\ r <= q + weight arcs p + h u - h v).
    { induction p as [|e p IH]; intros u v q Hq H; [simpl in *; subst; exists q; split; [exact Hq|lia]|].
      destruct H as (a & Ha & Hf & Hr). destruct (has_role_at arcs roles _ _ _ Ha) as [Ea Er].
      assert (He : In e (out arcs roles u)).
      { unfold out. apply filter_In. split; [|rewrite Er; reflexivity]. apply (adjacent_spec arcs roles lengths true u e). split; [|simpl; rewrite Ea; exact Hf].
        apply nth_error_Some. destruct Ha as [Ha _]. congruence. }
      destruct (E1 u q Hq e He) as (r & R1 & R2). rewrite Ea in R1.
      destruct (IH _ v r R1 Hr) as (r' & R3 & R4). exists r'. split; [exact R3|]. rewrite weight_cons, Ea.
      unfold reduced in R2. rewrite Ea, Hf in R2. lia. }
    intros p v Hl. destruct (E2 s 0) as (q & Q1 & Q2).
    { simpl. unfold set. rewrite Nat.eqb_refl. reflexivity. }
    destruct (Hp p s v q Q1 Hl) as (r & R1 & R2). exists r. split; [exact R1|]. unfold real_distance. lia.
  - intros v q H. left. simpl in *. unfold set in H. destruct (Nat.eqb v s) eqn:Ev; [|discriminate].
    apply Nat.eqb_eq in Ev. subst v. inversion H; subst. auto.
Qed.

(** ** What is judged *)

Lemma judge_changes : forall s dist st e, 
  (forall f, f <> e -> fst (judge_arc arcs roles h s dist st e) f = fst st f) /\
  (forall f, fst st f = true -> fst (judge_arc arcs roles h s dist st e) f = true) /\
  (forall f, snd st f = true -> snd (judge_arc arcs roles h s dist st e) f = true).
Proof.
  intros s dist [remove tight] e.
  assert (H1 : forall f, f <> e -> set remove e true f = remove f).
  { intros f Hf. unfold set. rewrite (proj2 (Nat.eqb_neq f e)) by exact Hf. reflexivity. }
  assert (H2 : forall (g : nat -> bool) x f, g f = true -> set g x true f = true).
  { intros g x f Hf. unfold set. destruct (Nat.eqb f x); auto. }
  unfold judge_arc. destruct (dist (a_to (arc_at arcs e))); [|simpl; auto].
  repeat match goal with |- context [if ?c then _ else _] => destruct c end; simpl; auto.
Qed.

Lemma judge_keeps : forall s dist es st,
  (forall f, ~ In f es -> fst (fold_left (judge_arc arcs roles h s dist) es st) f = fst st f) /\
  (forall f, fst st f = true -> fst (fold_left (judge_arc arcs roles h s dist) es st) f = true).
Proof.
  intros s dist. induction es as [|e es IH]; intros st; cbn [fold_left]; [auto|].
  destruct (judge_changes s dist st e) as (C1 & C2 & _). destruct (IH (judge_arc arcs roles h s dist st e)) as [K1 K2].
  split; intros f Hf.
  - rewrite K1; [apply C1; intros ->; apply Hf; left; reflexivity|]. intros H. apply Hf. right. exact H.
  - apply K2, C2, Hf.
Qed.

(** An arc that is judged and kept is shorter than the distance, or the first to attain it. *)
Definition needed (s : nat) (dist : nat -> option Z) (e : nat) : Prop :=
  forall z, dist (a_to (arc_at arcs e)) = Some z ->
  if is_candidate (role_at roles e) then a_d (arc_at arcs e) < real_distance h s (a_to (arc_at arcs e)) z
  else a_d (arc_at arcs e) <= real_distance h s (a_to (arc_at arcs e)) z.

Lemma judge_needed : forall s dist es st e, In e es ->
  fst (fold_left (judge_arc arcs roles h s dist) es st) e = false -> needed s dist e.
Proof.
  intros s dist. induction es as [|f es IH]; intros st e Hin Hf; [destruct Hin|]. cbn [fold_left] in Hf.
  destruct Hin as [<-|Hin]; [|exact (IH _ e Hin Hf)].
  destruct (judge_keeps s dist es (judge_arc arcs roles h s dist st f)) as [_ K].
  assert (Hk : fst (judge_arc arcs roles h s dist st f) f = false).
  { destruct (fst (judge_arc arcs roles h s dist st f) f) eqn:E; [|reflexivity]. rewrite (K f E) in Hf. discriminate. }
  intros z Hz. destruct st as [remove tight]. unfold judge_arc in Hk. rewrite Hz in Hk.
  assert (Hs : set remove f true f = true) by (unfold set; rewrite Nat.eqb_refl; reflexivity).
  destruct (is_candidate (role_at roles f)).
  - destruct (Z.leb_spec (real_distance h s (a_to (arc_at arcs f)) z) (a_d (arc_at arcs f))); [simpl in Hk; congruence|lia].
  - destruct (Z.ltb_spec (real_distance h s (a_to (arc_at arcs f)) z) (a_d (arc_at arcs f))); [simpl in Hk; congruence|lia].
Qed.

(** Conditions that are not made false. *)
Lemma fix_all : forall fuel s st remove es l, fix_conditions fuel arcs h s st remove es = Some l ->
  forall e z, In e es -> remove e = false -> s_dist st (a_from (arc_at arcs e)) = Some z ->
  a_d (arc_at arcs e) + real_distance h s (a_from (arc_at arcs e)) z < 0 -> exists path, In (e, path) l.
Proof.
  intros fuel s st remove. induction es as [|f es IH]; intros l E e z Hin Hr Hz Hneg; [destruct Hin|].
  cbn [fix_conditions] in E. destruct Hin as [->|Hin].
  - rewrite Hr, Hz in E. destruct (Z.leb_spec 0 (a_d (arc_at arcs e) + real_distance h s (a_from (arc_at arcs e)) z)); [lia|].
    destruct (walk fuel arcs (s_parent st) s (a_from (arc_at arcs e)) []) as [p|]; [|discriminate].
    destruct (fix_conditions fuel arcs h s st remove es) as [l'|]; [|discriminate].
    inversion E; subst. exists p. left. reflexivity.
  - destruct (remove f); [exact (IH l E e z Hin Hr Hz Hneg)|].
    destruct (s_dist st (a_from (arc_at arcs f))); [|exact (IH l E e z Hin Hr Hz Hneg)].
    match type of E with (if ?c then _ else _) = _ => destruct c end; [exact (IH l E e z Hin Hr Hz Hneg)|].
    destruct (walk fuel arcs (s_parent st) s (a_from (arc_at arcs f)) []) as [p|]; [|discriminate].
    destruct (fix_conditions fuel arcs h s st remove es) as [l'|]; [|discriminate].
    inversion E; subst. destruct (IH l' eq_refl e z Hin Hr Hz Hneg) as [path Hp]. exists path. right. exact Hp.
Qed.

(** Of two equal arcs one goes. *)
Lemma tight_removes : forall s dist f z, role_at roles f = Base -> dist (a_to (arc_at arcs f)) = Some z ->
  a_d (arc_at arcs f) = real_distance h s (a_to (arc_at arcs f)) z -> forall es st, In f es ->
  snd st (a_to (arc_at arcs f)) = true -> fst (fold_left (judge_arc arcs roles h s dist) es st) f = true.
Proof.
  intros s dist f z Hb Hz Hd. induction es as [|g es IH]; intros st Hin Ht; [destruct Hin|]. cbn [fold_left].
  destruct (judge_changes s dist st g) as (_ & _ & C3). destruct Hin as [->|Hin]; [|apply IH; auto].
  apply judge_keeps. destruct st as [remove tight]. unfold judge_arc. rewrite Hz, Hb. cbn [is_candidate].
  rewrite <- Hd, Z.ltb_irrefl, Z.eqb_refl. simpl in Ht. rewrite Ht. simpl. unfold set. rewrite Nat.eqb_refl. reflexivity.
Qed.

Lemma judge_twice : forall s dist e f z, role_at roles e = Base -> role_at roles f = Base -> e <> f ->
  arc_at arcs e = arc_at arcs f -> dist (a_to (arc_at arcs f)) = Some z ->
  a_d (arc_at arcs f) = real_distance h s (a_to (arc_at arcs f)) z -> forall es st, In e es -> In f es ->
  fst (fold_left (judge_arc arcs roles h s dist) es st) e = true \/ fst (fold_left (judge_arc arcs roles h s dist) es st) f = true.
Proof.
  intros s dist e f z He Hf Hne Ha Hz Hd.
  assert (Hhead : forall g st, role_at roles g = Base -> arc_at arcs g = arc_at arcs f ->
    fst (judge_arc arcs roles h s dist st g) g = true \/ snd (judge_arc arcs roles h s dist st g) (a_to (arc_at arcs f)) = true).
  { intros g [remove tight] Hg Hag. unfold judge_arc. rewrite Hag, Hz, Hg. cbn [is_candidate].
    rewrite <- Hd, Z.ltb_irrefl, Z.eqb_refl. destruct (tight (a_to (arc_at arcs f))); simpl; unfold set; rewrite Nat.eqb_refl; auto. }
  induction es as [|g es IH]; intros st H1 H2; [destruct H1|]. cbn [fold_left].
  destruct H1 as [->|H1]; [|destruct H2 as [->|H2]; [|apply IH; auto]].
  - destruct H2 as [H2|H2]; [congruence|]. destruct (Hhead e st He Ha) as [K|K]; [left; apply judge_keeps; exact K|].
    right. apply (tight_removes s dist f z); auto.
  - destruct (Hhead f st Hf eq_refl) as [K|K]; [right; apply judge_keeps; exact K|].
    left. apply (tight_removes s dist e z); auto; rewrite Ha; auto.
Qed.

(** ** All sources *)

Definition shortest (e : nat) : Prop :=
  forall p, leads arcs roles (a_from (arc_at arcs e)) p (a_to (arc_at arcs e)) ->
  if is_candidate (role_at roles e) then a_d (arc_at arcs e) < weight arcs p else a_d (arc_at arcs e) <= weight arcs p.

Definition closes (e : nat) : Prop :=
  exists p, leads arcs roles (a_to (arc_at arcs e)) p (a_from (arc_at arcs e)) /\ a_d (arc_at arcs e) + weight arcs p < 0.

Lemma one_source_all : forall fuel s remove remove' l, one_source fuel arcs roles h remove s = Some (remove', l) ->
  (forall e, remove e = true -> remove' e = true) /\
  (forall e, (e < length arcs)%nat -> role_at roles e <> Ignored -> a_from (arc_at arcs e) = s -> remove' e = false -> shortest e) /\
  (forall e, (e < length arcs)%nat -> role_at roles e = Candidate -> a_to (arc_at arcs e) = s -> remove' e = false -> closes e ->
    exists path, In (e, path) l) /\
  (forall e f, (e < length arcs)%nat -> (f < length arcs)%nat -> role_at roles e = Base -> role_at roles f = Base -> e <> f ->
    arc_at arcs e = arc_at arcs f -> a_from (arc_at arcs f) = s -> remove' e = true \/ remove' f = true).
Proof.
  intros fuel s remove remove' l E. unfold one_source in E.
  assert (He1 : forall e, (e < length arcs)%nat -> role_at roles e <> Ignored -> a_from (arc_at arcs e) = s -> In e (edges_from arcs roles s)).
  { intros e H1 H2 H3. unfold edges_from. apply filter_In. split; [apply (adjacent_spec arcs roles lengths true s e); auto|].
    destruct (role_at roles e); simpl; congruence. }
  assert (He2 : forall e, (e < length arcs)%nat -> role_at roles e = Candidate -> a_to (arc_at arcs e) = s -> In e (candidates_to arcs roles s)).
  { intros e H1 H2 H3. unfold candidates_to. apply filter_In. split; [apply (adjacent_spec arcs roles lengths false s e); auto|].
    rewrite H2. reflexivity. }
  destruct (edges_from arcs roles s ++ candidates_to arcs roles s) as [|x0 y0] eqn:El.
  { apply app_eq_nil in El. destruct El as [L1 L2]. inversion E; subst. split; [auto|]. split.
    - intros e H1 H2 H3. specialize (He1 e H1 H2 H3). rewrite L1 in He1. destruct He1.
    - split.
      + intros e H1 H2 H3. specialize (He2 e H1 H2 H3). rewrite L2 in He2. destruct He2.
      + intros e f H1 H2 H3 H4 _ _ H7. specialize (He1 f H2). rewrite L1, H4 in He1. destruct He1; [discriminate|exact H7]. }
  clear El. destruct (search fuel arcs roles h (search_from s)) as [st|] eqn:Es; [|discriminate].
  pose proof (search_least fuel s st Es) as Hleast.
  destruct (fold_left (judge_arc arcs roles h s (s_dist st)) (edges_from arcs roles s) (remove, fun _ => false)) as [r1 t1] eqn:Ej.
  destruct (fix_conditions fuel arcs h s st r1 (candidates_to arcs roles s)) as [l1|] eqn:Ef; [|discriminate].
  inversion E; subst r1 l1. split; [|split; [|split]].
  - intros e He. destruct (judge_keeps s (s_dist st) (edges_from arcs roles s) (remove, fun _ => false)) as [_ K].
    specialize (K e He). rewrite Ej in K. exact K.
  - intros e H1 H2 H3 H4 p Hp. rewrite H3 in Hp. destruct (Hleast p _ Hp) as (r & R1 & R2).
    assert (Hn : needed s (s_dist st) e).
    { apply (judge_needed s (s_dist st) (edges_from arcs roles s) (remove, fun _ => false)); [auto|]. rewrite Ej. exact H4. }
    specialize (Hn r R1). destruct (is_candidate (role_at roles e)); lia.
  - intros e H1 H2 H3 H4 (p & Hp & Hneg). rewrite H3 in Hp. destruct (Hleast p _ Hp) as (r & R1 & R2).
    apply (fix_all fuel s st remove' (candidates_to arcs roles s) l Ef e r); auto. lia.
  - intros e f H1 H2 H3 H4 H5 H6 H7.
    assert (Hp : leads arcs roles s [f] (a_to (arc_at arcs f))).
    { exists (arc_at arcs f). split; [|split; [exact H7|reflexivity]]. pose proof (role_known arcs roles lengths f H2) as Hk.
      rewrite H4 in Hk. exact Hk. }
    destruct (Hleast _ _ Hp) as (z & Z1 & Z2). rewrite weight_cons in Z2. simpl in Z2.
    assert (Hif : In f (edges_from arcs roles s)) by (apply He1; [exact H2|rewrite H4; discriminate|exact H7]).
    assert (Hie : In e (edges_from arcs roles s)) by (apply He1; [exact H1|rewrite H3; discriminate|rewrite H6; exact H7]).
    destruct (remove' f) eqn:Erf; [right; reflexivity|].
    assert (Hn : needed s (s_dist st) f).
    { apply (judge_needed s (s_dist st) (edges_from arcs roles s) (remove, fun _ => false)); [exact Hif|]. rewrite Ej. exact Erf. }
    specialize (Hn z Z1). rewrite H4 in Hn. cbn [is_candidate] in Hn.
    destruct (judge_twice s (s_dist st) e f z H3 H4 H5 H6 Z1 ltac:(lia) (edges_from arcs roles s) (remove, fun _ => false) Hie Hif) as [K|K];
      rewrite Ej in K; simpl in K; [left; exact K|congruence].
Qed.

Lemma all_sources_all : forall fuel sources remove remove' l, all_sources fuel arcs roles h remove sources = Some (remove', l) ->
  (forall e, remove e = true -> remove' e = true) /\
  (forall e, (e < length arcs)%nat -> role_at roles e <> Ignored -> In (a_from (arc_at arcs e)) sources -> remove' e = false -> shortest e) /\
  (forall e, (e < length arcs)%nat -> role_at roles e = Candidate -> In (a_to (arc_at arcs e)) sources -> remove' e = false -> closes e ->
    exists path, In (e, path) l) /\
  (forall e f, (e < length arcs)%nat -> (f < length arcs)%nat -> role_at roles e = Base -> role_at roles f = Base -> e <> f ->
    arc_at arcs e = arc_at arcs f -> In (a_from (arc_at arcs f)) sources -> remove' e = true \/ remove' f = true).
Proof.
  induction sources as [|s sources IH]; intros remove remove' l E; cbn [all_sources] in E.
  - inversion E; subst. split; [auto|]. split; [intros e _ _ []|]. split; [intros e _ _ []|intros e f _ _ _ _ _ _ []].
  - destruct (one_source fuel arcs roles h remove s) as [[r1 l1]|] eqn:E1; [|discriminate].
    destruct (all_sources fuel arcs roles h r1 sources) as [[r2 l2]|] eqn:E2; [|discriminate].
    inversion E; subst. destruct (one_source_all _ _ _ _ _ E1) as (A1 & A2 & A3 & A4). destruct (IH _ _ _ E2) as (B1 & B2 & B3 & B4).
    assert (Hback : forall e, remove' e = false -> r1 e = false).
    { intros e He. destruct (r1 e) eqn:Er; [|reflexivity]. rewrite (B1 e Er) in He. discriminate. }
    split; [auto|]. split; [|split].
    + intros e H1 H2 [H3|H3] H4; [|auto]. apply A2; auto.
    + intros e H1 H2 [H3|H3] H4 H5.
      * destruct (A3 e H1 H2 (eq_sym H3) (Hback e H4) H5) as [path Hp]. exists path. apply in_or_app. auto.
      * destruct (B3 e H1 H2 H3 H4 H5) as [path Hp]. exists path. apply in_or_app. auto.
    + intros e f H1 H2 H3 H4 H5 H6 [H7|H7]; [|auto].
      destruct (A4 e f H1 H2 H3 H4 H5 H6 (eq_sym H7)); auto.
Qed.

End Graph.

Lemma simplify_all : forall fuel n arcs roles o, nodes_below n arcs -> simplify fuel n arcs roles = Some o ->
  o_base_negative_cycle o = false ->
  (forall e a path, has_role arcs roles Base e a -> o_remove o e = false -> leads arcs roles (a_from a) path (a_to a) ->
    a_d a <= weight arcs path) /\
  (forall e a path, has_role arcs roles Candidate e a -> o_remove o e = false -> leads arcs roles (a_from a) path (a_to a) ->
    a_d a < weight arcs path) /\
  (forall e a path, has_role arcs roles Candidate e a -> leads arcs roles (a_to a) path (a_from a) ->
    a_d a + weight arcs path < 0 -> exists path', In (e, path') (o_fix o)) /\
  (forall e f a, has_role arcs roles Base e a -> has_role arcs roles Base f a -> e <> f -> o_remove o e = true \/ o_remove o f = true).
Proof.
  intros fuel n arcs roles o Hn E Hneg. pose proof (simplify_cases _ _ _ _ _ Hn E) as [Hl _].
  pose proof (simplify_negative _ _ _ _ _ Hn E) as [Hiff _]. pose proof (simplify_removes _ _ _ _ _ Hn E) as [_ Hrem].
  assert (Hlt : forall r e a, has_role arcs roles r e a -> (e < length arcs)%nat).
  { intros r e a [H _]. apply nth_error_Some. congruence. }
  assert (Hin : forall r e a, has_role arcs roles r e a -> In (a_from a) (seq 0 n) /\ In (a_to a) (seq 0 n)).
  { intros r e a [H _]. apply nth_error_In in H. destruct (Hn a H). split; apply in_seq; lia. }
  assert (Hall : (forall e, (e < length arcs)%nat -> role_at roles e <> Ignored -> In (a_from (arc_at arcs e)) (seq 0 n) -> o_remove o e = false -> shortest arcs roles e) /\
    (forall e, (e < length arcs)%nat -> role_at roles e = Candidate -> In (a_to (arc_at arcs e)) (seq 0 n) -> o_remove o e = false -> closes arcs roles e ->
      exists path, In (e, path) (o_fix o)) /\
    (forall e f, (e < length arcs)%nat -> (f < length arcs)%nat -> role_at roles e = Base -> role_at roles f = Base -> e <> f ->
      arc_at arcs e = arc_at arcs f -> In (a_from (arc_at arcs f)) (seq 0 n) -> o_remove o e = true \/ o_remove o f = true)).
  { unfold simplify in E. rewrite (proj2 (Nat.eqb_eq _ _) Hl) in E. cbn [negb] in E.
    destruct (Nat.eqb n 0 || Nat.eqb (length arcs) 0) eqn:E0.
    - apply orb_true_iff in E0. destruct E0 as [E0|E0]; apply Nat.eqb_eq in E0.
      + subst n. split; [intros e _ _ []|]. split; [intros e _ _ []|intros e f _ _ _ _ _ _ []].
      + split; [intros e He; lia|]. split; [intros e He; lia|intros e f He; lia].
    - pose proof (initial_potential_correct n arcs (map is_base roles) Hn) as Hp.
      destruct (initial_potential n arcs (map is_base roles)) as [h|]; [|inversion E; subst o; discriminate].
      destruct (invalid_arc arcs (map is_base roles) h); [discriminate|].
      destruct (all_sources fuel arcs roles h (fun _ => false) (seq 0 n)) as [[remove l]|] eqn:Es; [|discriminate].
      inversion E; subst o. simpl. destruct Hp as [Hp _].
      destruct (all_sources_all arcs roles h Hl) with (2 := Es) as (_ & A2 & A3 & A4); [|auto].
      intros e a He. specialize (Hp e a (proj2 (active_base arcs roles e a Hl) He)). lia. }
  destruct Hall as (A & B & C). split; [|split; [|split]].
  - intros e a path He Hr Hp. destruct (has_role_at arcs roles _ _ _ He) as [Ea Er].
    specialize (A e (Hlt _ _ _ He)). unfold shortest in A. rewrite Ea, Er in A. cbn [is_candidate] in A.
    apply A; auto; [discriminate|apply (Hin _ _ _ He)].
  - intros e a path He Hr Hp. destruct (has_role_at arcs roles _ _ _ He) as [Ea Er].
    specialize (A e (Hlt _ _ _ He)). unfold shortest in A. rewrite Ea, Er in A. cbn [is_candidate] in A.
    apply A; auto; [discriminate|apply (Hin _ _ _ He)].
  - intros e a path He Hp Hw. destruct (has_role_at arcs roles _ _ _ He) as [Ea Er].
    destruct (o_remove o e) eqn:Ere.
    + exfalso. assert (Hsat : ~ ~ exists x, forall f b, has_role arcs roles Base f b -> satisfies x b).
      { intros H. apply Hiff in H. congruence. }
      apply Hsat. intros [x Hx]. destruct (Hrem x (fun f b Hf _ => Hx f b Hf)) as [_ Hc].
      specialize (Hc e a He Ere). pose proof (leads_bound arcs roles x Hx _ _ _ Hp). unfold satisfies in Hc. lia.
    + apply (B e (Hlt _ _ _ He) Er); [rewrite Ea; apply (Hin _ _ _ He)|exact Ere|].
      exists path. rewrite Ea. auto.
  - intros e f a He Hf Hne. destruct (has_role_at arcs roles _ _ _ He) as [Ea Er]. destruct (has_role_at arcs roles _ _ _ Hf) as [Fa Fr].
    apply (C e f (Hlt _ _ _ He) (Hlt _ _ _ Hf) Er Fr Hne); [congruence|]. rewrite Fa. apply (Hin _ _ _ Hf).
Qed.
