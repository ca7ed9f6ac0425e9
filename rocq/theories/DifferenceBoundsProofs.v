(** Proofs about the bounds that the incremental pass of difference logic infers. *)
From Coq Require Import ZArith List Bool Lia Permutation.
From Verif Require Import Difference DifferenceSpec DifferencePotentialProofs.
Import ListNotations.
Local Open Scope Z_scope.

Section Bounds.
Variables (n : nat) (by_tail : bool) (arcs : list arc) (active : list bool) (p bound gate : nat -> Z) (forced : nat -> bool) (pi0 : Z).
Hypothesis Hn : nodes_below n arcs.
Hypothesis Hp : forall e a, active_arc arcs active e a -> 0 <= p (near by_tail a) + a_d a - p (far by_tail a).

Lemma near_below : forall e a, active_arc arcs active e a -> (near by_tail a < n)%nat.
Proof. intros e a [A _]. destruct (Hn a (nth_error_In _ _ A)). unfold near. now destruct by_tail. Qed.

Lemma far_below : forall e a, active_arc arcs active e a -> (far by_tail a < n)%nat.
Proof. intros e a [A _]. destruct (Hn a (nth_error_In _ _ A)). unfold far. now destruct by_tail. Qed.

Lemma closed_arc : forall c, closed by_tail arcs active c <-> forall e a, active_arc arcs active e a -> c (near by_tail a) - a_d a <= c (far by_tail a).
Proof. intros c. unfold closed, near, far. destruct by_tail; reflexivity. Qed.

Definition beta (w : bounds_work) (v : nat) : Z := pi0 - b_gamma w v - p v.

Definition opens (v : nat) (b : Z) : bool := (gate v <? b) || forced v.

Record settling (todo : list nat) (w : bounds_work) : Prop := mk_settling {
  s_queued : forall v, b_settled w v = true -> b_queued w v = true;
  s_heap : forall v, b_queued w v = true -> b_settled w v = false -> In (b_gamma w v, v) (b_heap w);
  s_entry : forall k v, In (k, v) (b_heap w) -> b_queued w v = true;
  s_order : forall u k v, b_settled w u = true -> In (k, v) (b_heap w) -> b_gamma w u <= k;
  s_start : forall v, (v < n)%nat -> opens v (bound v) = true -> b_queued w v = true /\ bound v <= beta w v;
  s_out : forall e a, active_arc arcs active e a -> ~ In e todo -> b_settled w (near by_tail a) = true -> opens (near by_tail a) (beta w (near by_tail a)) = true ->
    b_queued w (far by_tail a) = true /\ beta w (near by_tail a) - a_d a <= beta w (far by_tail a);
  s_implied : forall c v, closed by_tail arcs active c -> (forall v, (v < n)%nat -> bound v <= c v) -> b_queued w v = true -> beta w v <= c v;
  s_pred : forall v, b_queued w v = true -> b_has_predecessor w v = true ->
    exists a, active_arc arcs active (b_predecessor w v) a /\ far by_tail a = v /\ b_settled w (near by_tail a) = true /\ beta w v = beta w (near by_tail a) - a_d a;
  s_root : forall v, b_queued w v = true -> b_has_predecessor w v = false -> beta w v = bound v;
  s_bound : forall v, b_settled w v = true -> b_settled_bound w v = beta w v;
  s_list : forall v, b_settled w v = true <-> In v (b_settle_order w);
  s_earlier : forall l v r, b_settle_order w = l ++ v :: r -> b_has_predecessor w v = true -> exists a, active_arc arcs active (b_predecessor w v) a /\ In (near by_tail a) l }.

Lemma bounds_arc_keeps : forall here e todo w, settling (e :: todo) w -> (e < length arcs)%nat -> near by_tail (arc_at arcs e) = here ->
  b_settled w here = true -> (forall u, b_settled w u = true -> b_gamma w u <= b_gamma w here) ->
  exists w', bounds_arc by_tail arcs active p (b_gamma w here) here (Finished w) e = Finished w' /\
  settling todo w' /\ b_settled w' = b_settled w /\ (forall u, b_settled w u = true -> b_gamma w' u = b_gamma w u) /\ (length (b_heap w') <= S (length (b_heap w)))%nat.
Proof.
  intros here e todo w R L F U O. unfold bounds_arc.
  assert (Same : (active_arc arcs active e (arc_at arcs e) -> b_queued w (far by_tail (arc_at arcs e)) = true /\ beta w here - a_d (arc_at arcs e) <= beta w (far by_tail (arc_at arcs e))) -> settling todo w).
  { intros V. destruct R. constructor; auto. intros e' a A T Uf Op. destruct (Nat.eq_dec e' e) as [->|Ne]; [|apply (s_out0 e' a); auto; intros [Q|Q]; [congruence|contradiction]].
    destruct (active_arc_at _ _ _ _ A) as (_ & _ & E'). subst a. rewrite F in *. now apply V. }
  destruct (arc_active active e) eqn:A.
  2:{ exists w. split; [reflexivity|]. split; [|split; [reflexivity|split; [auto|lia]]]. apply Same. intros X. destruct (active_arc_at _ _ _ _ X) as (_ & X' & _). congruence. }
  assert (Aa := arc_at_active arcs active e L A). assert (Red := Hp e _ Aa). rewrite F in Red.
  set (next := far by_tail (arc_at arcs e)) in *. set (d := a_d (arc_at arcs e)) in *.
  destruct (b_settled w next) eqn:Un.
  { exists w. split; [reflexivity|]. split; [|split; [reflexivity|split; [auto|lia]]]. apply Same. intros _. split; [now apply (s_queued _ _ R)|]. specialize (O next Un). unfold beta. lia. }
  rewrite (proj2 (Z.ltb_ge _ _) Red).
  destruct (negb (b_queued w next) || (b_gamma w here + (p here + d - p next) <? b_gamma w next)) eqn:C.
  2:{ exists w. split; [reflexivity|]. apply orb_false_iff in C. destruct C as [C1 C2]. apply negb_false_iff in C1. apply Z.ltb_ge in C2. split; [|split; [reflexivity|split; [auto|lia]]]. apply Same. intros _. split; [assumption|]. unfold beta. lia. }
  eexists. split; [reflexivity|]. cbn [b_settled b_gamma b_heap].
  assert (Nn : forall u, b_settled w u = true -> u <> next) by (intros u Hu ->; congruence).
  split; [|split; [reflexivity|split; [intros u Hu; apply set_other; auto|cbn [length]; lia]]].
  set (w' := mk_bounds _ _ _ _ _ _ _ _).
  assert (Bn : beta w' next = beta w here - d) by (unfold beta, w'; cbn [b_gamma]; rewrite set_same; lia).
  assert (Bo : forall v, v <> next -> beta w' v = beta w v) by (intros v Nv; unfold beta, w'; cbn [b_gamma]; now rewrite set_other).
  assert (Bs : forall v, b_settled w v = true -> beta w' v = beta w v) by (intros v Hv; apply Bo; auto).
  assert (Ble : forall v, b_queued w v = true -> beta w v <= beta w' v).
  { intros v Hv. destruct (Nat.eq_dec v next) as [->|Nv]; [|rewrite (Bo v Nv); lia]. rewrite Hv in C. cbn [negb orb] in C. apply Z.ltb_lt in C. rewrite Bn. unfold beta. lia. }
  assert (Qm : forall v, b_queued w v = true -> b_queued w' v = true) by (intros v Hv; unfold w'; cbn [b_queued]; unfold set; destruct (Nat.eqb v next); auto).
  assert (Qn : b_queued w' next = true) by (unfold w'; cbn [b_queued]; apply set_same).
  assert (Qo : forall v, v <> next -> b_queued w' v = b_queued w v) by (intros v Nv; unfold w'; cbn [b_queued]; now apply set_other).
  destruct R. constructor.
  - intros v Hv. apply Qm. now apply s_queued0.
  - intros v Hq Hs. unfold w'. cbn [b_gamma b_heap]. destruct (Nat.eq_dec v next) as [->|Nv]; [left; now rewrite set_same|]. right. rewrite (Qo v Nv) in Hq. rewrite set_other by assumption. now apply s_heap0.
  - intros k v [E|H]; [injection E as <- <-; assumption|]. apply Qm. eauto.
  - intros u k v Hu. unfold w'. cbn [b_gamma b_heap]. rewrite set_other by auto. intros [E|H]; [injection E as <- <-; specialize (O u Hu); lia|]. now apply (s_order0 u k v).
  - intros v Hv Op. destruct (s_start0 v Hv Op) as [Q B]. split; [auto|]. specialize (Ble v Q). lia.
  - intros e' a A' T Us. change (b_settled w (near by_tail a) = true) in Us. rewrite (Bs _ Us). intros Op. destruct (Nat.eq_dec e' e) as [->|Ne].
    + destruct (active_arc_at _ _ _ _ A') as (_ & _ & E'). subst a. fold next d. rewrite Bn, F. split; [assumption|lia].
    + destruct (s_out0 e' a A' ltac:(intros [Q|Q]; [congruence|contradiction]) Us Op) as [Q B]. split; [auto|]. specialize (Ble _ Q). lia.
  - intros c v Cc Cb Hq. destruct (Nat.eq_dec v next) as [->|Nv].
    + rewrite Bn. assert (X := s_implied0 c here Cc Cb (s_queued0 here U)). assert (Y := proj1 (closed_arc c) Cc e _ Aa). rewrite F in Y. fold next d in Y. lia.
    + rewrite (Bo v Nv). rewrite (Qo v Nv) in Hq. now apply s_implied0.
  - intros v Hq Hh. destruct (Nat.eq_dec v next) as [->|Nv].
    + exists (arc_at arcs e). unfold w' at 1. cbn [b_predecessor]. rewrite set_same. split; [assumption|]. split; [reflexivity|]. rewrite F. split; [exact U|]. rewrite Bn, (Bs here U). fold d. lia.
    + rewrite (Qo v Nv) in Hq. unfold w' in Hh. cbn [b_has_predecessor] in Hh. rewrite set_other in Hh by assumption. destruct (s_pred0 v Hq Hh) as (a & A' & F' & U' & B'). exists a. unfold w' at 1. cbn [b_predecessor]. rewrite set_other by assumption.
      split; [assumption|]. split; [assumption|]. split; [exact U'|]. rewrite (Bo v Nv), (Bs _ U'). assumption.
  - intros v Hq Hh. unfold w' in Hh. cbn [b_has_predecessor] in Hh. destruct (Nat.eq_dec v next) as [->|Nv]; [rewrite set_same in Hh; discriminate|]. rewrite set_other in Hh by assumption. rewrite (Qo v Nv) in Hq. rewrite (Bo v Nv). auto.
  - intros v Hv. change (b_settled w v = true) in Hv. rewrite (Bs v Hv). unfold w'. cbn [b_settled_bound]. auto.
  - exact s_list0.
  - intros l v r El. change (b_settle_order w = l ++ v :: r) in El. assert (Nv : v <> next).
    { apply Nn. apply s_list0. rewrite El. apply in_or_app. right. now left. }
    unfold w'. cbn [b_has_predecessor b_predecessor]. rewrite !set_other by assumption. now apply (s_earlier0 l v r).
Qed.

Lemma bounds_arcs_keep : forall here k l w, settling l w -> (forall e, In e l -> (e < length arcs)%nat /\ near by_tail (arc_at arcs e) = here) ->
  b_settled w here = true -> b_gamma w here = k -> (forall u, b_settled w u = true -> b_gamma w u <= k) ->
  exists w', fold_left (bounds_arc by_tail arcs active p k here) l (Finished w) = Finished w' /\
  settling [] w' /\ b_settled w' = b_settled w /\ (length (b_heap w') <= length l + length (b_heap w))%nat.
Proof.
  intros here k. induction l as [|e r IH]; intros w R L U K O; cbn [fold_left].
  - exists w. split; [reflexivity|]. split; [assumption|]. split; [reflexivity|cbn [length]; lia].
  - destruct (L e (or_introl eq_refl)) as [Le Lf]. subst k. destruct (bounds_arc_keeps here e r w R Le Lf U O) as (w1 & E1 & R1 & S1 & G1 & L1). rewrite E1.
    destruct (IH w1 R1 (fun e' H => L e' (or_intror H))) as (w2 & E2 & R2 & S2 & L2).
    + now rewrite S1.
    + now apply G1.
    + intros u Hu. rewrite S1 in Hu. rewrite (G1 u Hu). auto.
    + exists w2. split; [assumption|]. split; [assumption|]. split; [congruence|]. cbn [length]. lia.
Qed.

Lemma bounds_loop_spec : forall fuel w, settling [] w ->
  (length (b_heap w) + length (filter (fun e => negb (b_settled w (near by_tail (arc_at arcs e)))) (seq 0 (length arcs))) < fuel)%nat ->
  exists w', bounds_loop fuel by_tail arcs active p gate forced pi0 w = Finished w' /\ settling [] w' /\ b_heap w' = [].
Proof.
  induction fuel as [|f IH]; intros w R M; [lia|]. cbn [bounds_loop]. destruct (b_heap w) as [|q r] eqn:H.
  - exists w. split; [reflexivity|]. split; assumption.
  - destruct (pop_least q r) as [[k here] rest] eqn:P. destruct (pop_least_spec _ _ _ _ P) as [Pm Pl].
    assert (Lr : length (q :: r) = S (length rest)) by (rewrite (Permutation_length Pm); reflexivity).
    assert (Sub : forall x, In x rest -> In x (b_heap w)) by (intros x Hx; rewrite H; apply (Permutation_in x (Permutation_sym Pm)); now right).
    assert (Khere : In (k, here) (b_heap w)) by (rewrite H; apply (Permutation_in _ (Permutation_sym Pm)); now left).
    assert (Hin : forall x, In x (b_heap w) -> x = (k, here) \/ In x rest).
    { intros x Hx. rewrite H in Hx. apply (Permutation_in x Pm) in Hx. destruct Hx as [<-|Hx]; auto. }
    assert (Least : forall k' v', In (k', v') (b_heap w) -> k <= k') by (intros k' v' Hx; rewrite H in Hx; apply (Pl _ Hx)).
    destruct (b_settled w here || negb (k =? b_gamma w here)) eqn:Stale.
    + apply IH; [|cbn [b_heap b_settled]; lia].
      destruct R. constructor; cbn [b_gamma b_queued b_settled b_has_predecessor b_predecessor b_settled_bound b_settle_order b_heap]; eauto.
      intros v Hq Hs. destruct (Hin _ (s_heap0 v Hq Hs)) as [E|E]; [|assumption]. injection E as E1 E2. subst v. rewrite Hs, E1, Z.eqb_refl in Stale. discriminate.
    + apply orb_false_iff in Stale. destruct Stale as [Hns Kg]. apply negb_false_iff, Z.eqb_eq in Kg.
      set (w1 := mk_bounds _ _ _ _ _ _ _ _).
      assert (S1 : forall v, b_settled w1 v = true <-> v = here \/ b_settled w v = true).
      { intros v. unfold w1. cbn [b_settled]. unfold set. destruct (Nat.eqb v here) eqn:E; [apply Nat.eqb_eq in E; subst v; split; auto|]. apply Nat.eqb_neq in E. split; [auto|]. intros [?|?]; [contradiction|assumption]. }
      assert (Qh : b_queued w here = true) by (apply (s_entry _ _ R) with k; assumption).
      assert (R1 : forall todo, (opens here (pi0 - k - p here) = true -> forall e a, active_arc arcs active e a -> near by_tail a = here -> In e todo) -> settling todo w1).
      { intros todo Td. destruct R. constructor.
        - intros v Hv. apply S1 in Hv. destruct Hv as [->|Hv]; [assumption|now apply s_queued0].
        - intros v Hq Hs. assert (Nv : v <> here) by (intros ->; assert (b_settled w1 here = true) by (apply S1; now left); congruence).
          assert (Hs' : b_settled w v = false) by (destruct (b_settled w v) eqn:X; [|reflexivity]; assert (b_settled w1 v = true) by (apply S1; now right); congruence).
          destruct (Hin _ (s_heap0 v Hq Hs')) as [E|E]; [|assumption]. injection E as E1 E2. congruence.
        - intros k' v Hk. apply (s_entry0 k' v). now apply Sub.
        - intros u k' v Hu Hk. change (b_gamma w u <= k'). apply S1 in Hu. specialize (Least k' v (Sub _ Hk)). destruct Hu as [->|Hu]; [lia|]. now apply (s_order0 u k' v Hu), Sub.
        - exact s_start0.
        - intros e a A T Us Op. change (opens (near by_tail a) (beta w (near by_tail a)) = true) in Op. apply S1 in Us. destruct Us as [Us|Us]; [|apply (s_out0 e a); auto]. exfalso. apply T. apply (Td) with a; [|assumption|assumption].
          rewrite Us in Op. unfold beta in Op. now rewrite <- Kg in Op.
        - exact s_implied0.
        - intros v Hq Hh. destruct (s_pred0 v Hq Hh) as (a & A & F & U & B). exists a. split; [exact A|]. split; [assumption|]. split; [apply S1; now right|exact B].
        - exact s_root0.
        - intros v Hv. unfold w1. cbn [b_settled_bound]. unfold set. destruct (Nat.eqb v here) eqn:E.
          + apply Nat.eqb_eq in E. subst v. unfold beta. cbn [b_gamma]. lia.
          + apply Nat.eqb_neq in E. apply S1 in Hv. destruct Hv as [?|Hv]; [contradiction|]. now apply s_bound0.
        - intros v. rewrite S1. unfold w1. cbn [b_settle_order]. rewrite in_app_iff, s_list0. cbn [In]. intuition congruence.
        - intros l v r' El Hh. unfold w1 in El. cbn [b_settle_order] in El. change (b_has_predecessor w v = true) in Hh. change (exists a, active_arc arcs active (b_predecessor w v) a /\ In (near by_tail a) l).
          destruct r' as [|x r' _] using rev_ind.
          + apply app_inj_tail in El. destruct El as [El Ev]. subst v l. destruct (s_pred0 here Qh Hh) as (a & A & F & U & B). exists a. split; [assumption|]. now apply s_list0.
          + replace (l ++ v :: r' ++ [x]) with ((l ++ v :: r') ++ [x]) in El by (rewrite <- app_assoc; reflexivity). apply app_inj_tail in El. destruct El as [El _]. now apply (s_earlier0 l v r'). }
      assert (Sp := count_split (fun e => near by_tail (arc_at arcs e)) (b_settled w) here (seq 0 (length arcs)) Hns). cbn beta in Sp.
      change (gate here <? pi0 - k - p here) with (gate here <? pi0 - k - p here). fold (opens here (pi0 - k - p here)).
      destruct (opens here (pi0 - k - p here)) eqn:Op; cbn [negb].
      * destruct (bounds_arcs_keep here k (adjacent by_tail arcs here) w1) as (w2 & E2 & R2 & S2 & L2).
        { apply R1. intros _ e a A Na. destruct (active_arc_at _ _ _ _ A) as (L & _ & E'). apply adjacent_In. split; [assumption|]. now rewrite E'. }
        { intros e He. apply adjacent_In in He. exact He. }
        { apply S1. now left. }
        { symmetry. exact Kg. }
        { intros u Hu. change (b_gamma w u <= k). apply S1 in Hu. destruct Hu as [->|Hu]; [lia|]. now apply (s_order _ _ R u k here). }
        rewrite E2. apply IH; [assumption|]. rewrite S2. unfold w1 at 1. cbn [b_settled].
        assert (La : length (adjacent by_tail arcs here) = length (filter (fun e => Nat.eqb (near by_tail (arc_at arcs e)) here) (seq 0 (length arcs)))) by reflexivity.
        change (b_heap w1) with rest in L2. change (b_settled w1) with (set (b_settled w) here true). lia.
      * apply IH; [apply R1; discriminate|]. change (b_heap w1) with rest. change (b_settled w1) with (set (b_settled w) here true). lia.
Qed.
End Bounds.

(** ** The whole pass *)

Lemma seed_spec : forall (key : nat -> Z) l w, let w' := fold_left (fun w v =>
        mk_bounds (set (b_gamma w) v (key v)) (set (b_queued w) v true) (b_settled w) (set (b_has_predecessor w) v false) (b_predecessor w)
          (b_settled_bound w) (b_settle_order w) ((key v, v) :: b_heap w)) l w in
  (forall v, b_gamma w' v = if existsb (Nat.eqb v) l then key v else b_gamma w v) /\
  (forall v, b_queued w' v = existsb (Nat.eqb v) l || b_queued w v) /\
  (forall v, b_has_predecessor w' v = negb (existsb (Nat.eqb v) l) && b_has_predecessor w v) /\
  b_settled w' = b_settled w /\ b_settle_order w' = b_settle_order w /\
  (forall k v, In (k, v) (b_heap w') <-> (In v l /\ k = key v) \/ In (k, v) (b_heap w)) /\
  length (b_heap w') = (length l + length (b_heap w))%nat.
Proof.
  intros key. induction l as [|u r IH]; intros w; cbn zeta; cbn [fold_left existsb].
  - split; [reflexivity|]. split; [reflexivity|]. split; [reflexivity|]. split; [reflexivity|]. split; [reflexivity|]. split; [|reflexivity].
    intros k v. cbn [In]. tauto.
  - destruct (IH (mk_bounds (set (b_gamma w) u (key u)) (set (b_queued w) u true) (b_settled w) (set (b_has_predecessor w) u false) (b_predecessor w)
          (b_settled_bound w) (b_settle_order w) ((key u, u) :: b_heap w))) as (G & Q & H & S1 & O1 & E & L). clear IH.
    cbn [b_gamma b_queued b_settled b_has_predecessor b_predecessor b_settled_bound b_settle_order b_heap] in G, Q, H, S1, O1, E, L.
    split. { intros v. rewrite G. unfold set. destruct (Nat.eqb v u) eqn:X; cbn [orb]; [apply Nat.eqb_eq in X; subst v; destruct (existsb _ r); reflexivity|reflexivity]. }
    split. { intros v. rewrite Q. unfold set. destruct (Nat.eqb v u) eqn:X; cbn [orb]; [apply orb_true_r|reflexivity]. }
    split. { intros v. rewrite H. unfold set. destruct (Nat.eqb v u) eqn:X; cbn [orb negb andb]; [apply andb_false_r|reflexivity]. }
    split; [assumption|]. split; [assumption|]. split; [|rewrite L; cbn [length]; lia].
    intros k v. rewrite E. cbn [In]. split.
    + intros [[X Y]|[X|X]]; [auto|injection X as <- <-; auto|auto].
    + intros [[[->|X] ->]|X]; auto.
Qed.

Lemma after_lists : forall l1 l2 start, after start (l1 ++ l2) = after (after start l1) l2.
Proof. intros. unfold after. apply fold_left_app. Qed.

Definition inferred_of (w : bounds_work) (bound : nat -> Z) (l : list nat) : list (nat * Z) :=
  flat_map (fun v => if b_has_predecessor w v && (bound v <? b_settled_bound w v) then [(v, b_settled_bound w v)] else []) l.

Lemma after_inferred : forall w bound l start v,
  after start (inferred_of w bound l) v = if existsb (Nat.eqb v) l && (b_has_predecessor w v && (bound v <? b_settled_bound w v)) then Z.max (start v) (b_settled_bound w v) else start v.
Proof.
  intros w bound. induction l as [|u r IH]; intros start v; [reflexivity|]. unfold inferred_of. cbn [flat_map]. rewrite after_lists. fold (inferred_of w bound r). rewrite IH. cbn [existsb].
  destruct (Nat.eqb v u) eqn:E; cbn [orb andb].
  - apply Nat.eqb_eq in E. subst u. destruct (b_has_predecessor w v && (bound v <? b_settled_bound w v)) eqn:X.
    + cbn [after fold_left fst snd]. rewrite Nat.eqb_refl. destruct (existsb (Nat.eqb v) r); cbn [andb]; lia.
    + rewrite andb_false_r. reflexivity.
  - destruct (b_has_predecessor w u && (bound u <? b_settled_bound w u)); [|reflexivity]. cbn [after fold_left fst snd]. rewrite E. reflexivity.
Qed.

Lemma next_gate_spec : forall w l g v, fold_left (fun g v => if g v <? b_settled_bound w v then set g v (b_settled_bound w v) else g) l g v =
  if existsb (Nat.eqb v) l then Z.max (g v) (b_settled_bound w v) else g v.
Proof.
  intros w. induction l as [|u r IH]; intros g v; [reflexivity|]. cbn [fold_left existsb]. rewrite IH.
  destruct (g u <? b_settled_bound w u) eqn:X.
  - apply Z.ltb_lt in X. unfold set. destruct (Nat.eqb v u) eqn:E; cbn [orb]; [|reflexivity]. apply Nat.eqb_eq in E. subst u. destruct (existsb _ r); lia.
  - apply Z.ltb_ge in X. destruct (Nat.eqb v u) eqn:E; cbn [orb]; [|reflexivity]. apply Nat.eqb_eq in E. subst u. destruct (existsb _ r); lia.
Qed.

Section Pass.
Variables (n : nat) (by_tail : bool) (arcs : list arc) (active : list bool) (p bound gate : nat -> Z) (forced : nat -> bool).
Hypothesis Hn : nodes_below n arcs.
Hypothesis Hp : forall e a, active_arc arcs active e a -> 0 <= p (near by_tail a) + a_d a - p (far by_tail a).
Hypothesis Hbelow : forall v, (v < n)%nat -> gate v <= bound v.
Hypothesis Hgate : forall e a, active_arc arcs active e a -> forced (near by_tail a) = false -> gate (near by_tail a) - a_d a <= gate (far by_tail a).

Lemma settled_justified : forall pi0 w, settling n by_tail arcs active p bound gate forced pi0 [] w ->
  forall r l, b_settle_order w = l ++ r -> justified by_tail arcs active (after bound (inferred_of w bound l)) (inferred_of w bound r).
Proof.
  intros pi0 w R. induction r as [|v r IH]; intros l E; [exact I|].
  assert (Next : justified by_tail arcs active (after bound (inferred_of w bound (l ++ [v]))) (inferred_of w bound r)) by (apply IH; rewrite <- app_assoc; exact E).
  unfold inferred_of in Next at 1. rewrite flat_map_app in Next. cbn [flat_map] in Next. rewrite app_nil_r, after_lists in Next. fold (inferred_of w bound l) in Next.
  unfold inferred_of at 2. cbn [flat_map]. fold (inferred_of w bound r).
  destruct (b_has_predecessor w v && (bound v <? b_settled_bound w v)) eqn:X; cbn [app]; [|exact Next].
  cbn [justified fst snd]. split; [|exact Next]. apply andb_true_iff in X. destruct X as [Hh X].
  assert (Sv : b_settled w v = true) by (apply (s_list _ _ _ _ _ _ _ _ _ _ _ R); rewrite E; apply in_or_app; right; now left).
  destruct (s_earlier _ _ _ _ _ _ _ _ _ _ _ R l v r E Hh) as (a & A & La).
  destruct (s_pred _ _ _ _ _ _ _ _ _ _ _ R v (s_queued _ _ _ _ _ _ _ _ _ _ _ R v Sv) Hh) as (a' & A' & Fa & Ua & Ba).
  assert (a' = a) by (destruct A as [A _]; destruct A' as [A' _]; congruence). subst a'.
  exists (b_predecessor w v), a. split; [assumption|].
  assert (K : b_settled_bound w v <= after bound (inferred_of w bound l) (near by_tail a) - a_d a).
  { rewrite (s_bound _ _ _ _ _ _ _ _ _ _ _ R v Sv), Ba, after_inferred, (proj2 (existsb_In _ l) La). cbn [andb].
    assert (Sb := s_bound _ _ _ _ _ _ _ _ _ _ _ R _ Ua).
    destruct (b_has_predecessor w (near by_tail a)) eqn:Hh'; cbn [andb].
    - destruct (bound (near by_tail a) <? b_settled_bound w (near by_tail a)) eqn:Y; [lia|]. apply Z.ltb_ge in Y. lia.
    - assert (Rt := s_root _ _ _ _ _ _ _ _ _ _ _ R _ (s_queued _ _ _ _ _ _ _ _ _ _ _ R _ Ua) Hh'). lia. }
  unfold near, far in *. destruct by_tail; split; auto.
Qed.

Lemma incremental_bounds_spec : forall w, clean_bounds w ->
  exists w', incremental_bounds n by_tail arcs active p bound gate forced w = Finished w' /\ clean_bounds w' /\
    justified by_tail arcs active bound (inferred w' bound) /\
    tightest n by_tail arcs active bound (after bound (inferred w' bound)) /\
    (forall v, (v < n)%nat -> next_gate w' gate v <= after bound (inferred w' bound) v) /\
    (forall v, gate v <= next_gate w' gate v) /\
    closed by_tail arcs active (next_gate w' gate).
Proof.
  intros w Cl. unfold incremental_bounds.
  set (starts := filter (fun v => (gate v <? bound v) || forced v) (seq 0 n)).
  set (pi0 := source_key starts bound p).
  assert (Hst : forall v, In v starts <-> (v < n)%nat /\ opens gate forced v (bound v) = true).
  { intros v. unfold starts. rewrite filter_In, in_seq. unfold opens. split; intros [X Y]; split; auto; lia. }
  assert (Ls : (length starts <= n)%nat).
  { unfold starts. rewrite <- (seq_length n 0) at 2. generalize (seq 0 n). intros l. induction l as [|x r IH]; cbn [filter length]; [lia|]. destruct (_ || _); cbn [length]; lia. }
  (* what follows from a settled state, whether or not the loop ran *)
  assert (Fin : forall w1, settling n by_tail arcs active p bound gate forced pi0 [] w1 -> b_heap w1 = [] ->
    justified by_tail arcs active bound (inferred w1 bound) /\
    tightest n by_tail arcs active bound (after bound (inferred w1 bound)) /\
    (forall v, (v < n)%nat -> next_gate w1 gate v <= after bound (inferred w1 bound) v) /\
    (forall v, gate v <= next_gate w1 gate v) /\
    closed by_tail arcs active (next_gate w1 gate)).
  { intros w1 R He.
    assert (Qs : forall v, b_queued w1 v = true -> b_settled w1 v = true).
    { intros v Q. destruct (b_settled w1 v) eqn:X; [reflexivity|]. assert (H := s_heap _ _ _ _ _ _ _ _ _ _ _ R v Q X). rewrite He in H. destruct H. }
    assert (Sin : forall v, existsb (Nat.eqb v) (b_settle_order w1) = b_settled w1 v).
    { intros v. destruct (b_settled w1 v) eqn:X; [apply existsb_In; now apply (s_list _ _ _ _ _ _ _ _ _ _ _ R)|]. destruct (existsb _ _) eqn:Y; [|reflexivity]. apply existsb_In in Y. apply (s_list _ _ _ _ _ _ _ _ _ _ _ R) in Y. congruence. }
    assert (Av : forall v, after bound (inferred w1 bound) v = if b_settled w1 v then Z.max (bound v) (beta p pi0 w1 v) else bound v).
    { intros v. change (inferred w1 bound) with (inferred_of w1 bound (b_settle_order w1)). rewrite after_inferred, Sin. destruct (b_settled w1 v) eqn:X; cbn [andb]; [|reflexivity].
      assert (Sb := s_bound _ _ _ _ _ _ _ _ _ _ _ R v X). rewrite Sb. destruct (b_has_predecessor w1 v) eqn:Hh; cbn [andb].
      - destruct (bound v <? beta p pi0 w1 v) eqn:Y; [reflexivity|]. apply Z.ltb_ge in Y. lia.
      - assert (Rt := s_root _ _ _ _ _ _ _ _ _ _ _ R v (s_queued _ _ _ _ _ _ _ _ _ _ _ R v X) Hh). lia. }
    assert (Gv : forall v, next_gate w1 gate v = if b_settled w1 v then Z.max (gate v) (beta p pi0 w1 v) else gate v).
    { intros v. unfold next_gate. rewrite next_gate_spec, Sin. destruct (b_settled w1 v) eqn:X; [|reflexivity]. now rewrite (s_bound _ _ _ _ _ _ _ _ _ _ _ R v X). }
    assert (Open : forall s, (s < n)%nat -> b_settled w1 s = true -> opens gate forced s (beta p pi0 w1 s) = true -> gate s <= bound s <= beta p pi0 w1 s).
    { intros s Hs Us Op. split; [auto|]. destruct (opens gate forced s (bound s)) eqn:X; [apply (s_start _ _ _ _ _ _ _ _ _ _ _ R s Hs X)|].
      unfold opens in *. apply orb_false_iff in X. destruct X as [X1 X2]. rewrite X2, orb_false_r in Op. apply Z.ltb_lt in Op. apply Z.ltb_ge in X1. lia. }
    assert (Shut : forall s, (s < n)%nat -> ~ (b_settled w1 s = true /\ opens gate forced s (beta p pi0 w1 s) = true) -> forced s = false /\ bound s = gate s /\ (b_settled w1 s = true -> beta p pi0 w1 s <= gate s)).
    { intros s Hs N. destruct (opens gate forced s (bound s)) eqn:X.
      - exfalso. apply N. destruct (s_start _ _ _ _ _ _ _ _ _ _ _ R s Hs X) as [Q B]. split; [auto|]. unfold opens in *. apply orb_true_iff in X. apply orb_true_iff. destruct X as [X|X]; [left|now right]. apply Z.ltb_lt in X. apply Z.ltb_lt. lia.
      - unfold opens in X. apply orb_false_iff in X. destruct X as [X1 X2]. apply Z.ltb_ge in X1. split; [assumption|]. split; [specialize (Hbelow s Hs); lia|]. intros Us.
        destruct (Z_lt_le_dec (gate s) (beta p pi0 w1 s)) as [Y|Y]; [|assumption]. exfalso. apply N. split; [assumption|]. unfold opens. now rewrite (proj2 (Z.ltb_lt _ _) Y). }
    assert (Dec : forall s, {b_settled w1 s = true /\ opens gate forced s (beta p pi0 w1 s) = true} + {~ (b_settled w1 s = true /\ opens gate forced s (beta p pi0 w1 s) = true)}).
    { intros s. destruct (b_settled w1 s); [|right; intros [? _]; discriminate]. destruct (opens _ _ _ _); [left; auto|right; intros [_ ?]; discriminate]. }
    split; [exact (settled_justified pi0 w1 R (b_settle_order w1) [] eq_refl)|].
    split; [split; [|split]|split; [|split]].
    - apply (proj2 (closed_arc by_tail arcs active p Hp _)). intros e a A. assert (Ns := near_below n by_tail arcs active p Hn Hp e a A). assert (Nt := far_below n by_tail arcs active p Hn Hp e a A).
      destruct (Dec (near by_tail a)) as [[Us Op]|N].
      + destruct (s_out _ _ _ _ _ _ _ _ _ _ _ R e a A (fun h => h) Us Op) as [Q B]. destruct (Open _ Ns Us Op) as [_ O2]. rewrite !Av, Us, (Qs _ Q). lia.
      + destruct (Shut _ Ns N) as (Ff & Eb & Us). assert (G := Hgate e a A Ff). specialize (Hbelow _ Nt). rewrite !Av.
        destruct (b_settled w1 (near by_tail a)) eqn:Un; [specialize (Us eq_refl)|]; destruct (b_settled w1 (far by_tail a)); lia.
    - intros v Hv. rewrite Av. destruct (b_settled w1 v); lia.
    - intros c Cc Cb v Hv. rewrite Av. specialize (Cb v Hv) as Cv. destruct (b_settled w1 v) eqn:X; [|assumption].
      assert (Y := s_implied _ _ _ _ _ _ _ _ _ _ _ R c v Cc Cb (s_queued _ _ _ _ _ _ _ _ _ _ _ R v X)). lia.
    - intros v Hv. rewrite Av, Gv. specialize (Hbelow v Hv). destruct (b_settled w1 v); lia.
    - intros v. rewrite Gv. destruct (b_settled w1 v); lia.
    - apply (proj2 (closed_arc by_tail arcs active p Hp _)). intros e a A. assert (Ns := near_below n by_tail arcs active p Hn Hp e a A).
      destruct (Dec (near by_tail a)) as [[Us Op]|N].
      + destruct (s_out _ _ _ _ _ _ _ _ _ _ _ R e a A (fun h => h) Us Op) as [Q B]. destruct (Open _ Ns Us Op) as [O1 O2]. rewrite !Gv, Us, (Qs _ Q). lia.
      + destruct (Shut _ Ns N) as (Ff & Eb & Us). assert (G := Hgate e a A Ff). rewrite !Gv.
        destruct (b_settled w1 (near by_tail a)) eqn:Un; [specialize (Us eq_refl)|]; destruct (b_settled w1 (far by_tail a)); lia. }
  set (base := mk_bounds (b_gamma w) (b_queued w) (b_settled w) (b_has_predecessor w) (b_predecessor w) (b_settled_bound w) [] []).
  set (key := fun v => pi0 - bound v - p v).
  destruct (seed_spec key starts base) as (G & Q & H & S1 & O1 & E & L). cbn zeta in G, Q, H, S1, O1, E, L.
  set (w0 := fold_left _ starts base) in *.
  assert (Q0 : forall v, b_queued w0 v = true <-> In v starts).
  { intros v. rewrite Q. unfold base. cbn [b_queued]. rewrite (proj1 (Cl v)), orb_false_r. apply existsb_In. }
  assert (S0 : forall v, b_settled w0 v = false) by (intros v; rewrite S1; apply Cl).
  assert (B0 : forall v, In v starts -> beta p pi0 w0 v = bound v).
  { intros v Hv. unfold beta. rewrite G, (proj2 (existsb_In v starts) Hv). unfold key. lia. }
  assert (R0 : settling n by_tail arcs active p bound gate forced pi0 [] w0).
  { constructor.
    - intros v. now rewrite S0.
    - intros v Hq _. apply E. left. apply Q0 in Hq. split; [assumption|]. now rewrite G, (proj2 (existsb_In v starts) Hq).
    - intros k v Hk. apply E in Hk. destruct Hk as [[Hk _]|[]]. now apply Q0.
    - intros u k v. now rewrite S0.
    - intros v Hv Op. assert (X : In v starts) by (apply Hst; auto). split; [now apply Q0|]. rewrite (B0 v X). lia.
    - intros e a _ _. now rewrite S0.
    - intros c v Cc Cb Hq. apply Q0 in Hq. rewrite (B0 v Hq). apply Cb. now apply Hst.
    - intros v Hq. apply Q0 in Hq. rewrite H, (proj2 (existsb_In v starts) Hq). discriminate.
    - intros v Hq _. apply Q0 in Hq. now apply B0.
    - intros v. now rewrite S0.
    - intros v. rewrite S0, O1. cbn. split; [discriminate|intros []].
    - intros l v r El. rewrite O1 in El. cbn in El. destruct l; discriminate. }
  destruct starts as [|v0 vr] eqn:Es.
  - eexists. split; [reflexivity|]. split; [exact Cl|]. apply (Fin w0); [exact R0|reflexivity].
  - rewrite <- Es in *.
    assert (Lf : (length (filter (fun e => negb (b_settled w0 (near by_tail (arc_at arcs e)))) (seq 0 (length arcs))) <= length arcs)%nat).
    { rewrite <- (seq_length (length arcs) 0) at 2. generalize (seq 0 (length arcs)). intros l. induction l as [|x r IH]; cbn [filter length]; [lia|]. destruct (negb _); cbn [length]; lia. }
    destruct (bounds_loop_spec n by_tail arcs active p bound gate forced pi0 Hp (S (n + length arcs)) w0 R0) as (w1 & E1 & R1 & H1).
    { rewrite L. cbn [b_heap base length]. lia. }
    unfold base in w0. fold w0. fold key. rewrite E1. eexists. split; [reflexivity|].
    assert (Qs : forall v, b_queued w1 v = true -> b_settled w1 v = true).
    { intros v Q1. destruct (b_settled w1 v) eqn:X; [reflexivity|]. assert (X' := s_heap _ _ _ _ _ _ _ _ _ _ _ R1 v Q1 X). rewrite H1 in X'. destruct X'. }
    split.
    + intros v. cbn [b_queued b_settled]. rewrite !fold_set_In. destruct (existsb (Nat.eqb v) (b_settle_order w1)) eqn:X; [auto|].
      assert (Sf : b_settled w1 v = false).
      { destruct (b_settled w1 v) eqn:Y; [|reflexivity]. apply (s_list _ _ _ _ _ _ _ _ _ _ _ R1) in Y. apply existsb_In in Y. congruence. }
      split; [|assumption]. destruct (b_queued w1 v) eqn:Y; [|reflexivity]. apply Qs in Y. congruence.
    + apply (Fin w1 R1 H1).
Qed.
End Pass.

(** ** As the properties state it *)

Lemma bounds_correct : forall (n : nat) (by_tail : bool) arcs active (p start gate : nat -> Z) (forced : nat -> bool) w, nodes_below n arcs ->
  potential arcs active (if by_tail then p else fun v => - p v) ->
  (forall v, (v < n)%nat -> gate v <= start v) ->
  (forall e a, active_arc arcs active e a -> forced (if by_tail then a_from a else a_to a) = false ->
    if by_tail then gate (a_from a) - a_d a <= gate (a_to a) else gate (a_to a) - a_d a <= gate (a_from a)) ->
  clean_bounds w ->
  exists w', incremental_bounds n by_tail arcs active p start gate forced w = Finished w' /\ clean_bounds w' /\
    justified by_tail arcs active start (inferred w' start) /\
    tightest n by_tail arcs active start (after start (inferred w' start)) /\
    (forall v, (v < n)%nat -> next_gate w' gate v <= after start (inferred w' start) v) /\
    (forall v, gate v <= next_gate w' gate v) /\
    closed by_tail arcs active (next_gate w' gate).
Proof.
  intros n by_tail arcs active p start gate forced w Hn Hp Hb Hg Cl. apply incremental_bounds_spec; auto.
  - intros e a A. specialize (Hp e a A). unfold near, far. destruct by_tail; lia.
  - intros e a A F. specialize (Hg e a A). unfold near, far in *. destruct by_tail; auto.
Qed.

Lemma repair_correct : forall arcs active (p : nat -> Z) added a w, active_arc arcs active added a ->
  (forall e b, active_arc arcs active e b -> e <> added -> 0 <= p (a_from b) + a_d b - p (a_to b)) -> clean_repair w ->
  exists ok p' w', repair_potential arcs active p added w = Some (ok, p', w') /\ clean_repair w' /\
    (ok = true -> potential arcs active p') /\ (ok = false -> p' = p /\ ~ exists x, solves arcs active x).
Proof.
  intros arcs active p added [s t d] w A O C. destruct (repair_potential_spec arcs active p added s t d A O w C) as (ok & p' & w' & E & C' & T & F).
  exists ok, p', w'. split; [assumption|]. split; [assumption|]. split; [assumption|]. intros K. destruct (F K) as [P N]. split; [assumption|].
  intros [x X]. apply N. exists (fun v => - x v). intros e b B. specialize (X e b B). lia.
Qed.

Lemma solutions_closed : forall arcs active x, solves arcs active x -> closed true arcs active x /\ closed false arcs active (fun v => - x v).
Proof. intros arcs active x Sx. split; intros e a A; specialize (Sx e a A); cbn beta; lia. Qed.

Lemma initial_potential_correct : forall n arcs active, nodes_below n arcs ->
  match initial_potential n arcs active with
  | Some p => potential arcs active p /\ solves arcs active (fun v => - p v)
  | None => ~ exists x, solves arcs active x
  end.
Proof.
  intros n arcs active Hn. destruct (initial_potential n arcs active) as [p|] eqn:E.
  - assert (P := initial_potential_valid n arcs active Hn p E). split; [assumption|]. now apply potential_solves.
  - intros X. destruct (initial_potential_complete n arcs active Hn X) as [p E']. congruence.
Qed.
