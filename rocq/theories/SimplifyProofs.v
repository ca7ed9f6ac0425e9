From Coq Require Import ZArith List Bool Lia Arith.
From Verif Require Import Difference DifferenceSpec DifferenceBoundsProofs Simplify SimplifySpec.
Import ListNotations.
Local Open Scope Z_scope.

Section Graph.
Variables (arcs : list arc) (roles : list role) (h : nat -> Z).
Hypothesis lengths : length roles = length arcs.
Hypothesis h_valid : forall e a, has_role arcs roles Base e a -> 0 <= a_d a + h (a_from a) - h (a_to a).

Lemma has_role_at : forall r e a, has_role arcs roles r e a -> arc_at arcs e = a /\ role_at roles e = r.
Proof.
  intros r e a [H1 H2]. unfold arc_at, role_at. split.
  - apply nth_error_nth with (d := mk_arc 0 0 0) in H1. exact H1.
  - apply nth_error_nth with (d := Ignored) in H2. exact H2.
Qed.

Lemma role_known : forall e, (e < length arcs)%nat -> has_role arcs roles (role_at roles e) e (arc_at arcs e).
Proof.
  intros e He. unfold has_role, arc_at, role_at. split; apply nth_error_nth'; lia.
Qed.

Lemma adjacent_spec : forall b v e, In e (adjacent b arcs v) <-> (e < length arcs)%nat /\ near b (arc_at arcs e) = v.
Proof.
  intros b v e. unfold adjacent. rewrite filter_In, in_seq, Nat.eqb_eq. intuition lia.
Qed.

Lemma weight_cons : forall e p, weight arcs (e :: p) = a_d (arc_at arcs e) + weight arcs p.
Proof. reflexivity. Qed.

Lemma leads_app : forall p u v w q, leads arcs roles u p v -> leads arcs roles v q w -> leads arcs roles u (p ++ q) w.
Proof.
  induction p as [|e p IH]; intros u v w q H1 H2; simpl in *; [subst; exact H2|].
  destruct H1 as (a & Ha & Hf & Hr). exists a. split; [exact Ha|]. split; [exact Hf|]. eauto.
Qed.

Lemma weight_app : forall p q, weight arcs (p ++ q) = weight arcs p + weight arcs q.
Proof. induction p as [|e p IH]; intros q; simpl; [lia|]. rewrite IH. lia. Qed.

Lemma weight_reduced : forall p u v, leads arcs roles u p v -> 0 <= weight arcs p + h u - h v.
Proof.
  induction p as [|e p IH]; intros u v H; simpl in *; [subst; lia|].
  destruct H as (a & Ha & Hf & Hr). pose proof (h_valid e a Ha). apply IH in Hr.
  destruct (has_role_at _ _ _ Ha) as [E _]. unfold arc_at in E. rewrite E. subst u. lia.
Qed.

(** A path of a given reduced weight. *)
Definition reach (s v : nat) (r : Z) : Prop := exists p, leads arcs roles s p v /\ weight arcs p + h s - h v = r.

Record sound (s : nat) (st : search_state) : Prop := {
  d_source : s_dist st s = Some 0;
  d_reach : forall v r, s_dist st v = Some r -> reach s v r;
  d_parent : forall w e, s_parent st w = Some e -> exists r q, has_role arcs roles Base e (arc_at arcs e) /\
    a_to (arc_at arcs e) = w /\ s_dist st w = Some r /\ s_dist st (a_from (arc_at arcs e)) = Some q /\
    q + reduced arcs h e <= r }.

Lemma reach_pos : forall s v r, reach s v r -> 0 <= r.
Proof. intros s v r (p & Hp & <-). apply weight_reduced. exact Hp. Qed.

Lemma reduced_pos : forall e, has_role arcs roles Base e (arc_at arcs e) -> 0 <= reduced arcs h e.
Proof. intros e H. apply h_valid in H. unfold reduced. exact H. Qed.

Lemma search_arc_sound : forall s st here v e q, sound s st -> reach s v here ->
  s_dist st v = Some q -> q <= here -> has_role arcs roles Base e (arc_at arcs e) -> a_from (arc_at arcs e) = v ->
  sound s (search_arc arcs h here st e) /\
  exists q', s_dist (search_arc arcs h here st e) v = Some q' /\ q' <= here.
Proof.
  intros s st here v e q Hs Hr Hq Hle He Hv. unfold search_arc.
  set (w := a_to (arc_at arcs e)). set (c := here + reduced arcs h e).
  pose proof (reduced_pos e He) as Hpos. pose proof (reach_pos _ _ _ Hr) as Hp0.
  destruct (match s_dist st w with None => true | Some z => c <? z end) eqn:E; [|split; [exact Hs|eauto]].
  assert (Hlow : forall z, s_dist st w = Some z -> c < z).
  { intros z Hz. rewrite Hz in E. apply Z.ltb_lt. exact E. }
  assert (Hws : w <> s).
  { intros Ews. rewrite Ews in Hlow. specialize (Hlow 0 (d_source _ _ Hs)). unfold c in Hlow. lia. }
  assert (Hwv : w <> v).
  { intros Ewv. rewrite Ewv in Hlow. specialize (Hlow q Hq). unfold c in Hlow. lia. }
  assert (Hmono : forall y z, s_dist st y = Some z -> exists z', set (s_dist st) w (Some c) y = Some z' /\ z' <= z).
  { intros y z Hz. unfold set. destruct (Nat.eqb y w) eqn:Ey; [|exists z; split; [exact Hz|lia]].
    apply Nat.eqb_eq in Ey. subst y. exists c. split; [reflexivity|]. specialize (Hlow z Hz). lia. }
  split.
  - constructor; simpl.
    + unfold set. rewrite (proj2 (Nat.eqb_neq s w)) by auto. apply Hs.
    + intros y r Hy. unfold set in Hy. destruct (Nat.eqb y w) eqn:Ey; [|apply (d_reach _ _ Hs); exact Hy].
      apply Nat.eqb_eq in Ey. subst y. inversion Hy; subst r.
      destruct Hr as (p & Hp & Hw). exists (p ++ [e]). split.
      * apply leads_app with v; [exact Hp|]. simpl. exists (arc_at arcs e). auto.
      * rewrite weight_app, weight_cons. simpl. unfold c, reduced. fold w. rewrite Hv. lia.
    + intros y f Hy. unfold set in Hy at 1. destruct (Nat.eqb y w) eqn:Ey.
      * apply Nat.eqb_eq in Ey. subst y. inversion Hy; subst f. exists c, q.
        split; [exact He|]. split; [reflexivity|]. unfold set. rewrite Nat.eqb_refl, Hv.
        rewrite (proj2 (Nat.eqb_neq v w)) by auto.
        split; [reflexivity|]. split; [exact Hq|]. unfold c. lia.
      * destruct (d_parent _ _ Hs y f Hy) as (r & q0 & P1 & P2 & P3 & P4 & P5).
        destruct (Hmono _ _ P4) as (q1 & P6 & P7). exists r, q1.
        split; [exact P1|]. split; [exact P2|]. split; [unfold set; rewrite Ey; exact P3|].
        split; [exact P6|lia].
  - simpl. exists q. split; [|exact Hle]. unfold set. rewrite (proj2 (Nat.eqb_neq v w)) by auto. exact Hq.
Qed.

Lemma search_arcs_sound : forall s here v es st q, sound s st -> reach s v here ->
  s_dist st v = Some q -> q <= here ->
  (forall e, In e es -> has_role arcs roles Base e (arc_at arcs e) /\ a_from (arc_at arcs e) = v) ->
  sound s (fold_left (search_arc arcs h here) es st).
Proof.
  induction es as [|e es IH]; intros st q Hs Hr Hq Hle He; simpl; [exact Hs|].
  destruct (He e (or_introl eq_refl)) as [H1 H2].
  destruct (search_arc_sound s st here v e q Hs Hr Hq Hle H1 H2) as (Hs' & q' & Hq' & Hle').
  apply (IH _ q'); auto. intros f Hf. apply He. right. exact Hf.
Qed.

Lemma base_role : forall e, (e < length arcs)%nat -> is_base (role_at roles e) = true -> has_role arcs roles Base e (arc_at arcs e).
Proof.
  intros e He Hb. pose proof (role_known e He) as H. destruct (role_at roles e); simpl in Hb; try discriminate. exact H.
Qed.

Lemma out_spec : forall v e, In e (out arcs roles v) -> has_role arcs roles Base e (arc_at arcs e) /\ a_from (arc_at arcs e) = v.
Proof.
  intros v e H. unfold out in H. apply filter_In in H. destruct H as [H1 H2].
  apply adjacent_spec in H1. destruct H1 as [H1 H3]. split; [apply base_role; auto|exact H3].
Qed.

Lemma search_sound : forall s fuel st st', sound s st -> search fuel arcs roles h st = Some st' -> sound s st'.
Proof.
  induction fuel as [|k IH]; intros st st' Hs E; simpl in E; destruct (s_queue st) as [|q r].
  - inversion E; subst. exact Hs.
  - discriminate.
  - inversion E; subst. exact Hs.
  - destruct (pop_least q r) as [[here v] rest].
    assert (Hs1 : sound s (mk_search (s_dist st) (s_parent st) rest)).
    { constructor; simpl; [apply Hs|apply (d_reach _ _ Hs)|apply (d_parent _ _ Hs)]. }
    destruct (match s_dist st v with None => true | Some z => negb (z =? here) end) eqn:Ev.
    + apply (IH _ _ Hs1 E).
    + destruct (s_dist st v) as [z|] eqn:Ez; [|discriminate]. apply negb_false_iff, Z.eqb_eq in Ev. subst z.
      apply (IH _ _) with (2 := E).
      apply (search_arcs_sound s here v (out arcs roles v) _ here); auto; try lia.
      * apply (d_reach _ _ Hs). exact Ez.
      * apply out_spec.
Qed.

Lemma start_sound : forall s, sound s (search_from s).
Proof.
  intros s. constructor; simpl.
  - unfold set. rewrite Nat.eqb_refl. reflexivity.
  - intros v r H. unfold set in H. destruct (Nat.eqb v s) eqn:E; [|discriminate].
    apply Nat.eqb_eq in E. subst v. inversion H; subst. exists []. simpl. split; [reflexivity|lia].
  - discriminate.
Qed.

(** What removing an arc rests on; [D] holds the arcs that have been judged. *)
Definition removable (D : nat -> Prop) (remove : nat -> bool) (e : nat) : Prop :=
  (has_role arcs roles Candidate e (arc_at arcs e) /\
   exists p, leads arcs roles (a_from (arc_at arcs e)) p (a_to (arc_at arcs e)) /\ weight arcs p <= a_d (arc_at arcs e)) \/
  (has_role arcs roles Base e (arc_at arcs e) /\
   exists p, leads arcs roles (a_from (arc_at arcs e)) p (a_to (arc_at arcs e)) /\ weight arcs p < a_d (arc_at arcs e)) \/
  (has_role arcs roles Base e (arc_at arcs e) /\
   exists f, D f /\ has_role arcs roles Base f (arc_at arcs f) /\ remove f = false /\ arc_at arcs f = arc_at arcs e).

Lemma arc_eq : forall a b, a_from a = a_from b -> a_to a = a_to b -> a_d a = a_d b -> a = b.
Proof. intros [] []; simpl; intros; subst; reflexivity. Qed.

Lemma removable_mono : forall (D D' : nat -> Prop) remove remove' e, removable D remove e ->
  (forall f, D f -> D' f) -> (forall f, D f -> remove' f = remove f) -> removable D' remove' e.
Proof.
  intros D D' remove remove' e [Hg|[Hg|(He & f & F0 & F1 & F2 & F3)]] HD Hr; [left; exact Hg|right; left; exact Hg|].
  right. right. split; [exact He|]. exists f. split; [auto|]. split; [exact F1|]. split; [rewrite Hr; auto|exact F3].
Qed.

Lemma reach_real : forall s v z, reach s v z -> exists p, leads arcs roles s p v /\ weight arcs p = real_distance h s v z.
Proof. intros s v z (p & H1 & H2). exists p. split; [exact H1|]. unfold real_distance. lia. Qed.

Definition judged (s : nat) (dist : nat -> option Z) (D : nat -> Prop) (remove tight : nat -> bool) : Prop :=
  (forall e, remove e = true -> D e /\ removable D remove e) /\
  (forall v, tight v = true -> exists f z, D f /\ has_role arcs roles Base f (arc_at arcs f) /\ remove f = false /\
     a_from (arc_at arcs f) = s /\ a_to (arc_at arcs f) = v /\ dist v = Some z /\ a_d (arc_at arcs f) = real_distance h s v z).

Lemma judge_one : forall s dist D remove tight e, (forall v r, dist v = Some r -> reach s v r) ->
  judged s dist D remove tight -> ~ D e -> (e < length arcs)%nat -> a_from (arc_at arcs e) = s -> role_at roles e <> Ignored ->
  forall remove' tight', judge_arc arcs roles h s dist (remove, tight) e = (remove', tight') ->
  judged s dist (fun f => D f \/ f = e) remove' tight' /\ (forall f, f <> e -> remove' f = remove f).
Proof.
  intros s dist D remove tight e Hd [J1 J2] HDe Hl Hs Hro remove' tight' E.
  pose proof (role_known e Hl) as Hrole.
  assert (Hset : forall f, D f -> set remove e true f = remove f).
  { intros f Hf. unfold set. rewrite (proj2 (Nat.eqb_neq f e)); [reflexivity|]. intros ->. contradiction. }
  assert (Hset' : forall f, f <> e -> set remove e true f = remove f).
  { intros f Hf. unfold set. rewrite (proj2 (Nat.eqb_neq f e)); [reflexivity|exact Hf]. }
  assert (Hrem : removable (fun f => D f \/ f = e) (set remove e true) e ->
    judged s dist (fun f => D f \/ f = e) (set remove e true) tight).
  { intros He. split.
    - intros g Hg. unfold set in Hg at 1. destruct (Nat.eqb g e) eqn:Eg.
      + apply Nat.eqb_eq in Eg. subst g. auto.
      + destruct (J1 g Hg) as [G1 G2]. split; [left; exact G1|].
        apply removable_mono with D remove; auto.
    - intros v Hv. destruct (J2 v Hv) as (f & z & F0 & F1 & F2 & F3). exists f, z.
      split; [left; exact F0|]. split; [exact F1|]. split; [rewrite Hset; auto|exact F3]. }
  assert (Hkeep : judged s dist (fun f => D f \/ f = e) remove tight).
  { split.
    - intros g Hg. destruct (J1 g Hg) as [G1 G2]. split; [left; exact G1|]. apply removable_mono with D remove; auto.
    - intros v Hv. destruct (J2 v Hv) as (f & z & F0 & F1). exists f, z. split; [left; exact F0|exact F1]. }
  unfold judge_arc in E. destruct (dist (a_to (arc_at arcs e))) as [z|] eqn:Ez; [|inversion E; subst; auto].
  destruct (reach_real _ _ _ (Hd _ _ Ez)) as (p & P1 & P2).
  destruct (is_candidate (role_at roles e)) eqn:Ec.
  - destruct (real_distance h s (a_to (arc_at arcs e)) z <=? a_d (arc_at arcs e)) eqn:El; inversion E; subst remove' tight'; auto.
    split; [|exact Hset']. apply Hrem. left. apply Z.leb_le in El.
    destruct (role_at roles e); try discriminate. split; [exact Hrole|]. exists p. rewrite Hs. split; [exact P1|lia].
  - assert (Hb : has_role arcs roles Base e (arc_at arcs e)).
    { destruct (role_at roles e); try discriminate; [exact Hrole|congruence]. }
    destruct (real_distance h s (a_to (arc_at arcs e)) z <? a_d (arc_at arcs e)) eqn:El.
    + inversion E; subst remove' tight'. split; [|exact Hset']. apply Hrem. right. left. apply Z.ltb_lt in El.
      split; [exact Hb|]. exists p. rewrite Hs. split; [exact P1|lia].
    + destruct (a_d (arc_at arcs e) =? real_distance h s (a_to (arc_at arcs e)) z) eqn:Ee; [|inversion E; subst; auto].
      apply Z.eqb_eq in Ee. destruct (tight (a_to (arc_at arcs e))) eqn:Et; inversion E; subst remove' tight'.
      * split; [|exact Hset']. apply Hrem. right. right. split; [exact Hb|].
        destruct (J2 _ Et) as (f & z' & F0 & F1 & F2 & F3 & F4 & F5 & F6). exists f.
        split; [left; exact F0|]. split; [exact F1|]. split; [rewrite Hset; auto|].
        apply arc_eq; congruence.
      * split; [|auto]. destruct Hkeep as [K1 K2]. split; [exact K1|].
        intros v Hv. unfold set in Hv. destruct (Nat.eqb v (a_to (arc_at arcs e))) eqn:Ev; [|auto].
        apply Nat.eqb_eq in Ev. subst v. exists e, z. split; [right; reflexivity|]. split; [exact Hb|].
        split; [|split; [exact Hs|split; [reflexivity|split; [exact Ez|exact Ee]]]].
        destruct (remove e) eqn:Er; [|reflexivity]. destruct (J1 e Er) as [G _]. contradiction.
Qed.

Lemma judge_all : forall s dist, (forall v r, dist v = Some r -> reach s v r) ->
  forall es D remove tight, judged s dist D remove tight -> NoDup es ->
  (forall e, In e es -> ~ D e /\ (e < length arcs)%nat /\ a_from (arc_at arcs e) = s /\ role_at roles e <> Ignored) ->
  forall remove' tight', fold_left (judge_arc arcs roles h s dist) es (remove, tight) = (remove', tight') ->
  judged s dist (fun f => D f \/ In f es) remove' tight'.
Proof.
  intros s dist Hd. induction es as [|e es IH]; intros D remove tight J Hn He remove' tight' E; cbn [fold_left] in E.
  - inversion E; subst. destruct J as [J1 J2]. split.
    + intros e H. destruct (J1 e H) as [G1 G2]. split; [left; exact G1|]. apply removable_mono with D remove'; auto.
    + intros v H. destruct (J2 v H) as (f & z & F0 & F1). exists f, z. split; [left; exact F0|exact F1].
  - inversion Hn; subst. destruct (He e (or_introl eq_refl)) as (H3 & H4 & H5 & H6).
    destruct (judge_arc arcs roles h s dist (remove, tight) e) as [r1 t1] eqn:E1.
    destruct (judge_one s dist D remove tight e Hd J H3 H4 H5 H6 r1 t1 E1) as [J' _].
    destruct (IH _ _ _ J' H2) with (2 := E) as [K1 K2].
    + intros g Hg. destruct (He g (or_intror Hg)) as (G1 & G2). split; [|exact G2].
      intros [G|G]; [contradiction|subst; contradiction].
    + assert (HD : forall f, ((D f \/ f = e) \/ In f es) -> D f \/ In f (e :: es)) by (simpl; intuition).
      split.
      * intros g Hg. destruct (K1 g Hg) as [G1 G2]. split; [auto|]. eapply removable_mono; [exact G2|exact HD|reflexivity].
      * intros v Hv. destruct (K2 v Hv) as (f & z & F0 & F1). exists f, z. split; [auto|exact F1].
Qed.

(** The walk back along the parents. *)
Lemma walk_leads : forall fuel s st at_ u path r, sound s st -> leads arcs roles at_ path u -> s_dist st at_ = Some r ->
  forall p, walk fuel arcs (s_parent st) s at_ path = Some p ->
  leads arcs roles s p u /\ weight arcs p + h s - h at_ <= weight arcs path + r.
Proof.
  induction fuel as [|k IH]; intros s st at_ u path r Hs Hp Hr p E; simpl in E; destruct (Nat.eqb at_ s) eqn:Ea.
  - apply Nat.eqb_eq in Ea. subst at_. inversion E; subst p. split; [exact Hp|]. rewrite (d_source _ _ Hs) in Hr. inversion Hr. lia.
  - discriminate.
  - apply Nat.eqb_eq in Ea. subst at_. inversion E; subst p. split; [exact Hp|]. rewrite (d_source _ _ Hs) in Hr. inversion Hr. lia.
  - destruct (s_parent st at_) as [e|] eqn:Ee; [|discriminate].
    destruct (d_parent _ _ Hs _ _ Ee) as (r' & q & P1 & P2 & P3 & P4 & P5).
    rewrite Hr in P3. inversion P3; subst r'.
    destruct (IH s st (a_from (arc_at arcs e)) u (e :: path) q Hs) with (3 := E) as [R1 R2].
    + simpl. exists (arc_at arcs e). split; [exact P1|]. split; [reflexivity|]. rewrite P2. exact Hp.
    + exact P4.
    + split; [exact R1|]. rewrite weight_cons in R2. unfold reduced in P5. rewrite P2 in P5. lia.
Qed.

(** What fixing a condition rests on. *)
Definition fixable (c : nat * list nat) : Prop :=
  has_role arcs roles Candidate (fst c) (arc_at arcs (fst c)) /\
  leads arcs roles (a_to (arc_at arcs (fst c))) (snd c) (a_from (arc_at arcs (fst c))) /\
  a_d (arc_at arcs (fst c)) + weight arcs (snd c) < 0.

Lemma fix_sound : forall fuel s st remove, sound s st -> forall es l,
  (forall e, In e es -> has_role arcs roles Candidate e (arc_at arcs e) /\ a_to (arc_at arcs e) = s) ->
  fix_conditions fuel arcs h s st remove es = Some l -> forall c, In c l -> fixable c.
Proof.
  intros fuel s st remove Hs. induction es as [|e es IH]; intros l He E c Hc; simpl in E.
  - inversion E; subst. destruct Hc.
  - assert (Hes : forall g, In g es -> has_role arcs roles Candidate g (arc_at arcs g) /\ a_to (arc_at arcs g) = s) by (intros g Hg; apply He; right; exact Hg).
    destruct (remove e); [exact (IH l Hes E c Hc)|].
    destruct (s_dist st (a_from (arc_at arcs e))) as [z|] eqn:Ez; [|exact (IH l Hes E c Hc)].
    destruct (0 <=? a_d (arc_at arcs e) + real_distance h s (a_from (arc_at arcs e)) z) eqn:El; [exact (IH l Hes E c Hc)|].
    apply Z.leb_gt in El.
    destruct (walk fuel arcs (s_parent st) s (a_from (arc_at arcs e)) []) as [p|] eqn:Ew; [|discriminate].
    destruct (fix_conditions fuel arcs h s st remove es) as [l'|] eqn:Ef; [|discriminate].
    inversion E; subst l. destruct Hc as [<-|Hc]; [|exact (IH l' Hes eq_refl c Hc)].
    destruct (He e (or_introl eq_refl)) as [H1 H2].
    destruct (walk_leads fuel s st (a_from (arc_at arcs e)) (a_from (arc_at arcs e)) [] z Hs eq_refl Ez p Ew) as [W1 W2].
    split; [exact H1|]. simpl. rewrite H2. split; [exact W1|]. simpl in W2. unfold real_distance in El. lia.
Qed.

Definition below (s : nat) (e : nat) : Prop := (a_from (arc_at arcs e) < s)%nat.

Lemma edges_from_spec : forall s e, In e (edges_from arcs roles s) ->
  (e < length arcs)%nat /\ a_from (arc_at arcs e) = s /\ role_at roles e <> Ignored.
Proof.
  intros s e H. unfold edges_from in H. apply filter_In in H. destruct H as [H1 H2]. apply adjacent_spec in H1.
  destruct H1 as [H1 H3]. split; [exact H1|]. split; [exact H3|]. intros Hr. rewrite Hr in H2. discriminate.
Qed.

Lemma candidates_to_spec : forall s e, In e (candidates_to arcs roles s) ->
  has_role arcs roles Candidate e (arc_at arcs e) /\ a_to (arc_at arcs e) = s.
Proof.
  intros s e H. unfold candidates_to in H. apply filter_In in H. destruct H as [H1 H2]. apply adjacent_spec in H1.
  destruct H1 as [H1 H3]. split; [|exact H3]. pose proof (role_known e H1) as Hr.
  destruct (role_at roles e); try discriminate. exact Hr.
Qed.

Definition removed_well (s : nat) (remove : nat -> bool) : Prop :=
  forall e, remove e = true -> below s e /\ removable (below s) remove e.

Lemma one_source_sound : forall fuel s remove remove' l, removed_well s remove ->
  one_source fuel arcs roles h remove s = Some (remove', l) ->
  removed_well (S s) remove' /\ forall c, In c l -> fixable c.
Proof.
  intros fuel s remove remove' l Hw E. unfold one_source in E.
  assert (Hskip : forall r, removed_well s r -> removed_well (S s) r).
  { intros r Hr e He. destruct (Hr e He) as [H1 H2]. split; [unfold below in *; lia|].
    apply removable_mono with (below s) r; auto. unfold below. intros. lia. }
  destruct (edges_from arcs roles s ++ candidates_to arcs roles s) as [|x y] eqn:El.
  { inversion E; subst. split; [auto|]. intros c []. }
  clear El. destruct (search fuel arcs roles h (search_from s)) as [st|] eqn:Es; [|discriminate].
  pose proof (search_sound s fuel _ _ (start_sound s) Es) as Hs.
  destruct (fold_left (judge_arc arcs roles h s (s_dist st)) (edges_from arcs roles s) (remove, fun _ => false)) as [r1 t1] eqn:Ej.
  destruct (fix_conditions fuel arcs h s st r1 (candidates_to arcs roles s)) as [l1|] eqn:Ef; [|discriminate].
  inversion E; subst r1 l1. split.
  - destruct (judge_all s (s_dist st) (d_reach _ _ Hs) (edges_from arcs roles s) (below s) remove (fun _ => false)) with (4 := Ej) as [J1 _].
    + split; [exact Hw|discriminate].
    + apply NoDup_filter. unfold adjacent. apply NoDup_filter, seq_NoDup.
    + intros e He. apply edges_from_spec in He. destruct He as (H1 & H2 & H3). split; [unfold below; lia|auto].
    + assert (HD : forall f, below s f \/ In f (edges_from arcs roles s) -> below (S s) f).
      { intros f [Hf|Hf]; [unfold below in *; lia|]. apply edges_from_spec in Hf. unfold below. lia. }
      intros e He. destruct (J1 e He) as [G1 G2]. split; [auto|]. eapply removable_mono; [exact G2|exact HD|reflexivity].
  - apply (fix_sound fuel s st remove' Hs (candidates_to arcs roles s) l); [apply candidates_to_spec|exact Ef].
Qed.

Lemma all_sources_sound : forall fuel k s remove remove' l, removed_well s remove ->
  all_sources fuel arcs roles h remove (seq s k) = Some (remove', l) ->
  removed_well (s + k) remove' /\ forall c, In c l -> fixable c.
Proof.
  induction k as [|k IH]; intros s remove remove' l Hw E; cbn [seq all_sources] in E.
  - inversion E; subst. rewrite Nat.add_0_r. split; [exact Hw|]. intros c [].
  - destruct (one_source fuel arcs roles h remove s) as [[r1 l1]|] eqn:E1; [|discriminate].
    destruct (all_sources fuel arcs roles h r1 (seq (S s) k)) as [[r2 l2]|] eqn:E2; [|discriminate].
    inversion E; subst. destruct (one_source_sound fuel s remove r1 l1 Hw E1) as [W1 F1].
    destruct (IH _ _ _ _ W1 E2) as [W2 F2]. rewrite Nat.add_succ_r. split; [exact W2|].
    intros c Hc. apply in_app_or in Hc. destruct Hc; auto.
Qed.

(** Values that satisfy the arcs that are kept respect every path of the base graph. *)
Lemma kept_paths : forall D remove x, (forall e, remove e = true -> removable D remove e) ->
  (forall e a, has_role arcs roles Base e a -> remove e = false -> satisfies x a) ->
  forall k p u v, leads arcs roles u p v -> weight arcs p + h u - h v < Z.of_nat k -> x u - x v <= weight arcs p.
Proof.
  intros D remove x Hr Hx. induction k as [|k IHk]; intros p u v Hp Hk.
  { pose proof (weight_reduced p u v Hp). lia. }
  revert u Hp Hk. induction p as [|e p IHp]; intros u Hp Hk; [simpl in *; subst; lia|].
  destruct Hp as (a & Ha & Hf & Hp). destruct (has_role_at _ _ _ Ha) as [Ea Er].
  rewrite weight_cons in *. rewrite Ea in *. pose proof (h_valid e a Ha) as Hv.
  assert (Hdirect : satisfies x a -> x u - x v <= a_d a + weight arcs p).
  { intros Hs. unfold satisfies in Hs. subst u. assert (x (a_to a) - x v <= weight arcs p) by (apply IHp; [exact Hp|lia]). lia. }
  destruct (remove e) eqn:Ee; [|apply Hdirect; exact (Hx e a Ha Ee)].
  destruct (Hr e Ee) as [[Hc _]|[[_ (q & Q1 & Q2)]|(_ & f & _ & F1 & F2 & F3)]].
  - destruct (has_role_at _ _ _ Hc). congruence.
  - rewrite Ea in Q1, Q2. subst u.
    assert (x (a_from a) - x v <= weight arcs (q ++ p)).
    { apply IHk; [apply leads_app with (a_to a); assumption|]. rewrite weight_app. lia. }
    rewrite weight_app in H. lia.
  - apply Hdirect. rewrite F3, Ea in F1. exact (Hx f a F1 F2).
Qed.

Lemma kept_path : forall D remove x, (forall e, remove e = true -> removable D remove e) ->
  (forall e a, has_role arcs roles Base e a -> remove e = false -> satisfies x a) ->
  forall p u v, leads arcs roles u p v -> x u - x v <= weight arcs p.
Proof.
  intros D remove x Hr Hx p u v Hp. apply (kept_paths D remove x Hr Hx (S (Z.to_nat (weight arcs p + h u - h v))) p u v Hp).
  pose proof (weight_reduced p u v Hp). lia.
Qed.

End Graph.

Lemma active_base : forall arcs roles e a, length roles = length arcs ->
  active_arc arcs (map is_base roles) e a <-> has_role arcs roles Base e a.
Proof.
  intros arcs roles e a Hl. unfold active_arc, has_role. rewrite nth_error_map. split; intros [H1 H2]; split; auto.
  - assert (He : (e < length roles)%nat) by (rewrite Hl; apply nth_error_Some; congruence).
    destruct H2 as [H2|H2].
    + apply map_eq_nil in H2. subst roles. simpl in He. lia.
    + destruct (nth_error roles e) as [[]|]; simpl in H2; try discriminate. reflexivity.
  - right. rewrite H2. reflexivity.
Qed.

Lemma solves_base : forall arcs roles x, length roles = length arcs ->
  solves arcs (map is_base roles) x <-> forall e a, has_role arcs roles Base e a -> satisfies x a.
Proof.
  intros arcs roles x Hl. unfold solves, satisfies. split; intros H e a He; apply (H e a); apply active_base; auto.
Qed.

(** Everything that an outcome rests on. *)
Lemma simplify_cases : forall fuel n arcs roles o, nodes_below n arcs -> simplify fuel n arcs roles = Some o ->
  length roles = length arcs /\
  ((o_base_negative_cycle o = true /\ (forall e, o_remove o e = false) /\ o_fix o = [] /\
    ~ exists x, forall e a, has_role arcs roles Base e a -> satisfies x a) \/
   (o_base_negative_cycle o = false /\ (exists x, forall e a, has_role arcs roles Base e a -> satisfies x a) /\
    exists h D, (forall e a, has_role arcs roles Base e a -> 0 <= a_d a + h (a_from a) - h (a_to a)) /\
      (forall e, o_remove o e = true -> removable arcs roles D (o_remove o) e) /\
      forall c, In c (o_fix o) -> fixable arcs roles c)).
Proof.
  intros fuel n arcs roles o Hn E. unfold simplify in E.
  destruct (Nat.eqb (length roles) (length arcs)) eqn:El; [|discriminate]. cbn [negb] in E.
  apply Nat.eqb_eq in El. split; [exact El|].
  destruct (Nat.eqb n 0 || Nat.eqb (length arcs) 0) eqn:E0.
  - assert (Harcs : arcs = []).
    { destruct arcs as [|a arcs]; [reflexivity|]. exfalso. destruct (Hn a (or_introl eq_refl)) as [H _].
      simpl in E0. rewrite orb_false_r in E0. apply Nat.eqb_eq in E0. lia. }
    subst arcs. inversion E; subst o. right. split; [reflexivity|].
    assert (Hno : forall e a, ~ has_role [] roles Base e a) by (intros e a [H _]; destruct e; discriminate).
    split; [exists (fun _ => 0); intros e a H; destruct (Hno e a H)|].
    exists (fun _ => 0), (fun _ => False). split; [intros e a H; destruct (Hno e a H)|]. simpl. split; [discriminate|intros c []].
  - pose proof (DifferenceBoundsProofs.initial_potential_correct n arcs (map is_base roles) Hn) as Hp.
    destruct (initial_potential n arcs (map is_base roles)) as [h|] eqn:Ep.
    + destruct (invalid_arc arcs (map is_base roles) h); [discriminate|].
      destruct (all_sources fuel arcs roles h (fun _ => false) (seq 0 n)) as [[remove l]|] eqn:Es; [|discriminate].
      inversion E; subst o. simpl. right. split; [reflexivity|]. destruct Hp as [Hp Hx].
      split; [exists (fun v => - h v); apply solves_base; assumption|].
      assert (Hv : forall e a, has_role arcs roles Base e a -> 0 <= a_d a + h (a_from a) - h (a_to a)).
      { intros e a He. specialize (Hp e a (proj2 (active_base arcs roles e a El) He)). lia. }
      exists h, (below arcs n). split; [exact Hv|].
      destruct (all_sources_sound arcs roles h El Hv fuel n 0 (fun _ => false) remove l) as [R1 R2]; [discriminate|exact Es|].
      split; [intros e He; apply (R1 e He)|exact R2].
    + inversion E; subst o. simpl. left. split; [reflexivity|]. split; [reflexivity|]. split; [reflexivity|].
      intros [x Hx]. apply Hp. exists x. apply solves_base; assumption.
Qed.

Lemma simplify_negative : forall fuel n arcs roles o, nodes_below n arcs -> simplify fuel n arcs roles = Some o ->
  (o_base_negative_cycle o = true <-> ~ exists x, forall e a, has_role arcs roles Base e a -> satisfies x a) /\
  (o_base_negative_cycle o = true -> (forall e, o_remove o e = false) /\ o_fix o = []).
Proof.
  intros fuel n arcs roles o Hn E. destruct (simplify_cases _ _ _ _ _ Hn E) as [_ [(H1 & H2 & H3 & H4)|(H1 & H2 & _)]].
  - rewrite H1. tauto.
  - rewrite H1. split; [split; [discriminate|tauto]|discriminate].
Qed.

Lemma simplify_removes : forall fuel n arcs roles o, nodes_below n arcs -> simplify fuel n arcs roles = Some o ->
  (forall e, o_remove o e = true -> exists a, has_role arcs roles Base e a \/ has_role arcs roles Candidate e a) /\
  forall x, (forall e a, has_role arcs roles Base e a -> o_remove o e = false -> satisfies x a) ->
  (forall e a, has_role arcs roles Base e a -> satisfies x a) /\
  (forall e a, has_role arcs roles Candidate e a -> o_remove o e = true -> satisfies x a).
Proof.
  intros fuel n arcs roles o Hn E. destruct (simplify_cases _ _ _ _ _ Hn E) as [Hl [(H1 & H2 & H3 & H4)|(H1 & _ & h & D & Hh & Hr & _)]].
  - split; [intros e He; rewrite H2 in He; discriminate|]. intros x Hx. split.
    + intros e a He. exact (Hx e a He (H2 e)).
    + intros e a _ He. rewrite H2 in He. discriminate.
  - split.
    { intros e He. exists (arc_at arcs e). destruct (Hr e He) as [[H _]|[[H _]|[H _]]]; auto. }
    intros x Hx. pose proof (kept_path arcs roles h Hl Hh D (o_remove o) x Hr Hx) as Hpath.
    split.
    + intros e a He. specialize (Hpath [e] (a_from a) (a_to a)). unfold satisfies.
      destruct (has_role_at arcs roles _ _ _ He) as [Ea _]. rewrite weight_cons, Ea in Hpath. simpl in Hpath.
      rewrite Z.add_0_r in Hpath. apply Hpath. exists a. auto.
    + intros e a He Her. destruct (has_role_at arcs roles _ _ _ He) as [Ea Ec].
      destruct (Hr e Her) as [[_ (p & P1 & P2)]|[[H _]|[H _]]].
      * rewrite Ea in P1, P2. specialize (Hpath p _ _ P1). unfold satisfies. lia.
      * destruct (has_role_at arcs roles _ _ _ H). congruence.
      * destruct (has_role_at arcs roles _ _ _ H). congruence.
Qed.

Lemma leads_bound : forall arcs roles x, (forall e a, has_role arcs roles Base e a -> satisfies x a) ->
  forall p u v, leads arcs roles u p v -> x u - x v <= weight arcs p.
Proof.
  intros arcs roles x Hx. induction p as [|e p IH]; intros u v H; [simpl in *; subst; lia|].
  destruct H as (a & Ha & Hf & Hr). pose proof (Hx e a Ha) as Hs. unfold satisfies in Hs. apply IH in Hr.
  destruct (has_role_at arcs roles _ _ _ Ha) as [Ea _]. rewrite weight_cons, Ea. subst u. lia.
Qed.

Lemma simplify_fixes : forall fuel n arcs roles o, nodes_below n arcs -> simplify fuel n arcs roles = Some o ->
  forall e path, In (e, path) (o_fix o) ->
  exists a, has_role arcs roles Candidate e a /\ leads arcs roles (a_to a) path (a_from a) /\ a_d a + weight arcs path < 0 /\
    forall x, (forall f b, has_role arcs roles Base f b -> satisfies x b) -> ~ satisfies x a.
Proof.
  intros fuel n arcs roles o Hn E e path Hin.
  destruct (simplify_cases _ _ _ _ _ Hn E) as [_ [(_ & _ & H & _)|(_ & _ & h & D & _ & _ & Hf)]].
  - rewrite H in Hin. destruct Hin.
  - destruct (Hf _ Hin) as (H1 & H2 & H3). simpl in H1, H2, H3. exists (arc_at arcs e).
    split; [exact H1|]. split; [exact H2|]. split; [exact H3|].
    intros x Hx Hs. pose proof (leads_bound arcs roles x Hx _ _ _ H2). unfold satisfies in Hs. lia.
Qed.
