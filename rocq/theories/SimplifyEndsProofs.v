From Coq Require Import ZArith List Bool Lia Arith Wf_nat.
From Verif Require Import Difference DifferenceSpec DifferencePotentialProofs DifferenceBoundsProofs Simplify SimplifySpec SimplifyProofs.
Import ListNotations.
Local Open Scope Z_scope.

Fixpoint sum_of (f : nat -> nat) (l : list nat) : nat := match l with [] => 0 | x :: r => f x + sum_of f r end.

Lemma sum_of_ext : forall f g l, (forall x, In x l -> f x = g x) -> sum_of f l = sum_of g l.
Proof. induction l as [|x l IH]; intros H; simpl; [reflexivity|]. rewrite (H x), IH; auto; simpl; auto. intros y Hy. apply H. right. exact Hy. Qed.

Lemma sum_of_change : forall f g w l, NoDup l -> In w l -> (forall x, x <> w -> f x = g x) ->
  (sum_of f l + g w = sum_of g l + f w)%nat.
Proof.
  intros f g w. induction l as [|x l IH]; intros Hn Hin Hfg; [destruct Hin|]. inversion Hn; subst. simpl.
  destruct (Nat.eq_dec x w) as [->|Hx].
  - rewrite (sum_of_ext f g l); [lia|]. intros y Hy. apply Hfg. intros ->. contradiction.
  - destruct Hin as [E|Hin]; [contradiction|]. specialize (IH H2 Hin Hfg). rewrite (Hfg x Hx). lia.
Qed.

Lemma pop_least_length : forall l q x rest, pop_least q l = (x, rest) -> length rest = length l.
Proof.
  induction l as [|y l IH]; intros q x rest E; simpl in E.
  - inversion E. reflexivity.
  - repeat match type of E with context [pop_least ?a ?b] => let F := fresh in destruct (pop_least a b) as [? ?] eqn:F; apply IH in F end.
    try (destruct (pair_lt _ _)); repeat match type of E with context [if ?c then _ else _] => destruct c end; inversion E; subst; simpl; lia.
Qed.

Section Graph.
Variables (n : nat) (arcs : list arc) (roles : list role) (h : nat -> Z).
Hypothesis lengths : length roles = length arcs.
Hypothesis nodes : nodes_below n arcs.
Hypothesis h_valid : forall e a, has_role arcs roles Base e a -> 0 <= a_d a + h (a_from a) - h (a_to a).

Definition unseen (st : search_state) : nat :=
  sum_of (fun v => match s_dist st v with None => 1 | Some _ => 0 end)%nat (seq 0 n).
Definition total (st : search_state) : nat :=
  sum_of (fun v => match s_dist st v with None => 0%nat | Some z => Z.to_nat z end) (seq 0 n).

Definition smaller (st' st : search_state) : Prop :=
  st' = st \/ (unseen st' < unseen st)%nat \/ (unseen st' = unseen st /\ (total st' < total st)%nat).

Lemma smaller_trans : forall a b c, smaller a b -> smaller b c -> smaller a c.
Proof.
  unfold smaller. intros a b c [->|H1] H2; [exact H2|]. destruct H2 as [->|H2]; [right; exact H1|].
  right. lia.
Qed.

(** The parents lead back to the source. *)
Inductive rooted (parent : nat -> option nat) (s : nat) : nat -> Prop :=
| rooted_source : rooted parent s s
| rooted_step : forall v e, parent v = Some e -> rooted parent s (a_from (arc_at arcs e)) -> rooted parent s v.

Definition tree (s : nat) (st : search_state) : Prop := forall v r, s_dist st v = Some r -> rooted (s_parent st) s v.

Lemma search_arc_ends : forall s st here v e q, sound arcs roles h s st -> tree s st -> reach arcs roles h s v here ->
  s_dist st v = Some q -> q <= here -> has_role arcs roles Base e (arc_at arcs e) -> a_from (arc_at arcs e) = v ->
  tree s (search_arc arcs h here st e) /\ smaller (search_arc arcs h here st e) st.
Proof.
  intros s st here v e q Hs Ht Hr Hq Hle He Hv. unfold search_arc.
  set (w := a_to (arc_at arcs e)). set (c := here + reduced arcs h e).
  pose proof (reduced_pos arcs roles h h_valid e He) as Hpos.
  pose proof (reach_pos arcs roles h lengths h_valid _ _ _ Hr) as Hp0.
  destruct (match s_dist st w with None => true | Some z => c <? z end) eqn:E; [|split; [exact Ht|left; reflexivity]].
  assert (Hlow : forall z, s_dist st w = Some z -> c < z).
  { intros z Hz. rewrite Hz in E. apply Z.ltb_lt. exact E. }
  assert (Hw : In w (seq 0 n)).
  { apply in_seq. destruct He as [He _]. apply nth_error_In in He. destruct (nodes _ He). unfold w. lia. }
  split.
  - assert (H1 : forall y, rooted (s_parent st) s y -> forall z, s_dist st y = Some z -> z <= here ->
      rooted (set (s_parent st) w (Some e)) s y).
    { intros y Hy. induction Hy as [|y f Hf Hy IH]; intros z Hz Hzle; [apply rooted_source|].
      destruct (d_parent _ _ _ _ _ Hs _ _ Hf) as (r & q0 & P1 & P2 & P3 & P4 & P5).
      apply rooted_step with f.
      - unfold set. destruct (Nat.eqb y w) eqn:Ey; [|exact Hf]. apply Nat.eqb_eq in Ey. rewrite Ey in Hz.
        specialize (Hlow z Hz). unfold c in Hlow. lia.
      - apply (IH q0 P4). pose proof (reduced_pos arcs roles h h_valid f P1). rewrite Hz in P3. inversion P3; subst. lia. }
    assert (H2 : rooted (set (s_parent st) w (Some e)) s w).
    { apply rooted_step with e; [unfold set; rewrite Nat.eqb_refl; reflexivity|]. rewrite Hv.
      apply (H1 v (Ht v q Hq) q Hq Hle). }
    assert (H3 : forall y, rooted (s_parent st) s y -> rooted (set (s_parent st) w (Some e)) s y).
    { intros y Hy. induction Hy as [|y f Hf Hy IH]; [apply rooted_source|].
      destruct (Nat.eq_dec y w) as [->|Hyw]; [exact H2|]. apply rooted_step with f; [|exact IH].
      unfold set. rewrite (proj2 (Nat.eqb_neq y w)) by exact Hyw. exact Hf. }
    intros y r Hy. simpl in *. unfold set in Hy at 1. destruct (Nat.eqb y w) eqn:Ey.
    + apply Nat.eqb_eq in Ey. subst y. exact H2.
    + apply H3. exact (Ht y r Hy).
  - set (st' := mk_search (set (s_dist st) w (Some c)) (set (s_parent st) w (Some e)) ((c, w) :: s_queue st)).
    assert (Hd : forall x, x <> w -> s_dist st' x = s_dist st x).
    { intros x Hx. unfold st'. simpl. unfold set. rewrite (proj2 (Nat.eqb_neq x w)) by exact Hx. reflexivity. }
    assert (Hdw : s_dist st' w = Some c) by (unfold st'; simpl; unfold set; rewrite Nat.eqb_refl; reflexivity).
    pose proof (sum_of_change (fun v => match s_dist st' v with None => 1 | Some _ => 0 end)%nat
      (fun v => match s_dist st v with None => 1 | Some _ => 0 end)%nat w (seq 0 n) (seq_NoDup _ _) Hw) as U.
    pose proof (sum_of_change (fun v => match s_dist st' v with None => 0%nat | Some z => Z.to_nat z end)
      (fun v => match s_dist st v with None => 0%nat | Some z => Z.to_nat z end) w (seq 0 n) (seq_NoDup _ _) Hw) as T.
    fold (unseen st') in U. fold (unseen st) in U. fold (total st') in T. fold (total st) in T.
    cbv beta in U, T. rewrite Hdw in U, T.
    specialize (U ltac:(intros x Hx; rewrite (Hd x Hx); reflexivity)).
    specialize (T ltac:(intros x Hx; rewrite (Hd x Hx); reflexivity)).
    right. destruct (s_dist st w) as [z|] eqn:Ez.
    + right. specialize (Hlow z eq_refl). split; [lia|]. unfold c in *. lia.
    + left. lia.
Qed.

Lemma search_arcs_end : forall s here v es st q, sound arcs roles h s st -> tree s st -> reach arcs roles h s v here ->
  s_dist st v = Some q -> q <= here ->
  (forall e, In e es -> has_role arcs roles Base e (arc_at arcs e) /\ a_from (arc_at arcs e) = v) ->
  tree s (fold_left (search_arc arcs h here) es st) /\ smaller (fold_left (search_arc arcs h here) es st) st.
Proof.
  induction es as [|e es IH]; intros st q Hs Ht Hr Hq Hle He; cbn [fold_left]; [split; [exact Ht|left; reflexivity]|].
  destruct (He e (or_introl eq_refl)) as [H1 H2].
  destruct (search_arc_sound arcs roles h lengths h_valid s st here v e q Hs Hr Hq Hle H1 H2) as (Hs' & q' & Hq' & Hle').
  destruct (search_arc_ends s st here v e q Hs Ht Hr Hq Hle H1 H2) as [Ht' Hm].
  destruct (IH (search_arc arcs h here st e) q') as [K1 K2]; auto.
  - intros f Hf. apply He. right. exact Hf.
  - split; [exact K1|]. eapply smaller_trans; eassumption.
Qed.

Lemma search_ends_aux : forall s u t q st, unseen st = u -> total st = t -> length (s_queue st) = q ->
  sound arcs roles h s st -> tree s st ->
  exists k0 st', tree s st' /\ forall k, (k0 <= k)%nat -> search k arcs roles h st = Some st'.
Proof.
  intros s. induction u as [u IHu] using lt_wf_ind. induction t as [t IHt] using lt_wf_ind.
  induction q as [q IHq] using lt_wf_ind. intros st Hu Hto Hl Hs Ht.
  destruct (s_queue st) as [|x r] eqn:Eq.
  { exists 0%nat, st. split; [exact Ht|]. intros k _. destruct k; simpl; rewrite Eq; reflexivity. }
  destruct (pop_least x r) as [[here v] rest] eqn:Ep. pose proof (pop_least_length _ _ _ _ Ep) as Hlen.
  set (st1 := mk_search (s_dist st) (s_parent st) rest).
  assert (Hs1 : sound arcs roles h s st1).
  { constructor; simpl; [apply Hs|apply (d_reach _ _ _ _ _ Hs)|apply (d_parent _ _ _ _ _ Hs)]. }
  assert (Hl1 : (length (s_queue st1) < q)%nat) by (simpl in *; lia).
  assert (Hstep : forall st2, (st2 = if match s_dist st v with None => true | Some z => negb (z =? here) end then st1
      else fold_left (search_arc arcs h here) (out arcs roles v) st1) -> sound arcs roles h s st2 -> tree s st2 -> smaller st2 st1 ->
    exists k0 st', tree s st' /\ forall k, (k0 <= k)%nat -> search k arcs roles h st = Some st').
  { intros st2 E2 Hs2 Ht2 Hsm.
    assert (HH : exists k0 st', tree s st' /\ forall k, (k0 <= k)%nat -> search k arcs roles h st2 = Some st').
    { destruct Hsm as [->|[Hsm|[Hsm1 Hsm2]]].
      - exact (IHq _ Hl1 st1 Hu Hto eq_refl Hs1 Ht2).
      - apply (IHu (unseen st2)) with (t := total st2) (q := length (s_queue st2)); auto. rewrite <- Hu. exact Hsm.
      - apply (IHt (total st2)) with (q := length (s_queue st2)); auto; [rewrite <- Hto; exact Hsm2|rewrite <- Hu; exact Hsm1]. }
    destruct HH as (k0 & st' & Ht' & Hk). exists (S k0), st'. split; [exact Ht'|].
    intros k Hk0. destruct k as [|k]; [lia|]. cbn [search]. rewrite Eq, Ep. cbv zeta. fold st1.
    specialize (Hk k ltac:(lia)). rewrite E2 in Hk.
    destruct (match s_dist st v with None => true | Some z => negb (z =? here) end); exact Hk. }
  destruct (match s_dist st v with None => true | Some z => negb (z =? here) end) eqn:Ev.
  - apply (Hstep st1); auto. left. reflexivity.
  - destruct (s_dist st v) as [z|] eqn:Ez; [|discriminate]. apply negb_false_iff, Z.eqb_eq in Ev. subst z.
    pose proof (d_reach _ _ _ _ _ Hs _ _ Ez) as Hr.
    destruct (search_arcs_end s here v (out arcs roles v) st1 here Hs1 Ht Hr Ez (Z.le_refl _)) as [K1 K2].
    { apply out_spec. exact lengths. }
    apply (Hstep _ eq_refl); auto.
    apply (search_arcs_sound arcs roles h lengths h_valid s here v (out arcs roles v) st1 here Hs1 Hr Ez (Z.le_refl _)).
    apply out_spec. exact lengths.
Qed.

Lemma search_ends : forall s, exists k0 st', tree s st' /\ forall k, (k0 <= k)%nat -> search k arcs roles h (search_from s) = Some st'.
Proof.
  intros s. apply (search_ends_aux s _ _ _ _ eq_refl eq_refl eq_refl).
  - apply start_sound. exact lengths.
  - intros v r H. simpl in H. unfold set in H. destruct (Nat.eqb v s) eqn:E; [|discriminate].
    apply Nat.eqb_eq in E. subst v. apply rooted_source.
Qed.

Lemma walk_ends : forall parent s v, rooted parent s v ->
  exists k0, forall path, exists p, forall k, (k0 <= k)%nat -> walk k arcs parent s v path = Some p.
Proof.
  intros parent s v H. induction H as [|v e Hp H (k0 & IH)].
  - exists 0%nat. intros path. exists path. intros k _. destruct k; simpl; rewrite Nat.eqb_refl; reflexivity.
  - exists (S k0). intros path. destruct (Nat.eqb v s) eqn:E.
    + exists path. intros k _. destruct k; simpl; rewrite E; reflexivity.
    + destruct (IH (e :: path)) as (p & IHp). exists p. intros k Hk. destruct k as [|k]; [lia|].
      simpl. rewrite E, Hp. apply IHp. lia.
Qed.

Lemma fix_ends : forall s st remove, tree s st -> forall es,
  exists k0 l, forall k, (k0 <= k)%nat -> fix_conditions k arcs h s st remove es = Some l.
Proof.
  intros s st remove Ht. induction es as [|e es (k1 & l1 & IH)]; [exists 0%nat, []; reflexivity|].
  assert (Hskip : exists k0 l, forall k, (k0 <= k)%nat -> fix_conditions k arcs h s st remove es = Some l) by eauto.
  cbn [fix_conditions].
  destruct (remove e); [exact Hskip|]. destruct (s_dist st (a_from (arc_at arcs e))) as [z|] eqn:Ez; [|exact Hskip].
  destruct (0 <=? a_d (arc_at arcs e) + real_distance h s (a_from (arc_at arcs e)) z); [exact Hskip|].
  destruct (walk_ends _ _ _ (Ht _ _ Ez)) as (k2 & Hk2). destruct (Hk2 []) as (p & Hp).
  exists (max k1 k2), ((e, p) :: l1). intros k Hk. rewrite Hp by lia. rewrite IH by lia. reflexivity.
Qed.

Lemma one_source_ends : forall remove s, exists k0 r, forall k, (k0 <= k)%nat -> one_source k arcs roles h remove s = Some r.
Proof.
  intros remove s. unfold one_source.
  destruct (edges_from arcs roles s ++ candidates_to arcs roles s) as [|x0 y0]; [exists 0%nat; eauto|].
  destruct (search_ends s) as (k1 & st & Ht & Hk1).
  destruct (fold_left (judge_arc arcs roles h s (s_dist st)) (edges_from arcs roles s) (remove, fun _ => false)) as [r1 t1] eqn:Ej.
  destruct (fix_ends s st r1 Ht (candidates_to arcs roles s)) as (k2 & l & Hk2).
  exists (max k1 k2), (r1, l). intros k Hk. rewrite Hk1 by lia. rewrite Ej. rewrite Hk2 by lia. reflexivity.
Qed.

Lemma all_sources_end : forall sources remove, exists k0 r, forall k, (k0 <= k)%nat -> all_sources k arcs roles h remove sources = Some r.
Proof.
  induction sources as [|s sources IH]; intros remove; [exists 0%nat; simpl; eauto|]. cbn [all_sources].
  destruct (one_source_ends remove s) as (k1 & [r1 l1] & Hk1). destruct (IH r1) as (k2 & [r2 l2] & Hk2).
  exists (max k1 k2), (r2, l1 ++ l2). intros k Hk. rewrite Hk1 by lia. rewrite Hk2 by lia. reflexivity.
Qed.

End Graph.

Lemma simplify_ends : forall n arcs roles, nodes_below n arcs -> length roles = length arcs ->
  exists enough o, forall fuel, (enough <= fuel)%nat -> simplify fuel n arcs roles = Some o.
Proof.
  intros n arcs roles Hn Hl. unfold simplify. rewrite (proj2 (Nat.eqb_eq _ _) Hl). cbn [negb].
  destruct (Nat.eqb n 0 || Nat.eqb (length arcs) 0); [exists 0%nat; eauto|].
  pose proof (initial_potential_correct n arcs (map is_base roles) Hn) as Hp.
  destruct (initial_potential n arcs (map is_base roles)) as [h|]; [|exists 0%nat; eauto].
  destruct Hp as [Hp _]. rewrite (proj2 (invalid_arc_none arcs (map is_base roles) h) Hp).
  destruct (all_sources_end n arcs roles h Hl Hn) with (sources := seq 0 n) (remove := fun _ : nat => false) as (k0 & [r l] & Hk).
  - intros e a He. specialize (Hp e a (proj2 (active_base arcs roles e a Hl) He)). lia.
  - exists k0, (mk_outcome false r l). intros fuel Hf. rewrite Hk by exact Hf. reflexivity.
Qed.
