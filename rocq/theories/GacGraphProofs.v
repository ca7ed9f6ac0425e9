(** Which edges of a bipartite graph are in some perfect matching. *)
From Coq Require Import List Bool Arith Lia Relations Operators_Properties.
From Verif Require Import Scc SccSpec SccProofs Matching MatchingSpec MatchingProofs GacAllDifferent.
Import ListNotations.

Section Graph.
Variable adjacent : nat -> list nat.
Variable n n_values n_right : nat.
Variable m : matching.
Hypothesis Hm : sound adjacent n m.
Hypothesis Hc : forall i, i < n -> mt_left m i <> None.
Hypothesis Hr : forall i t, i < n -> In t (adjacent i) -> t < n_right.
Let succ := residual adjacent n m.

Lemma edge_left v t : v < n -> In t (adjacent v) -> mt_left m v <> Some t -> edge succ v (n + t).
Proof.
  intros Hv It N. unfold edge, succ, residual. destruct (Nat.ltb_spec v n); [|lia]. apply in_map. apply filter_In. split; [assumption|].
  unfold matched_to. destruct (mt_left m v) as [t'|]; [|reflexivity]. destruct (Nat.eqb_spec t' t); [congruence|reflexivity].
Qed.

Lemma edge_right t l : mt_right m t = Some l -> edge succ (n + t) l.
Proof.
  intro E. unfold edge, succ, residual. destruct (Nat.ltb_spec (n + t) n); [lia|]. replace (n + t - n) with t by lia. rewrite E. now left.
Qed.

Lemma edge_inv v w : edge succ v w -> (v < n /\ exists t, w = n + t /\ In t (adjacent v) /\ mt_left m v <> Some t) \/ (exists t, v = n + t /\ mt_right m t = Some w).
Proof.
  unfold edge, succ, residual. destruct (Nat.ltb_spec v n) as [L|L].
  - intro I. left. split; [assumption|]. apply in_map_iff in I. destruct I as (t & <- & I). apply filter_In in I. destruct I as [I E]. exists t. split; [reflexivity|]. split; [assumption|].
    intro X. unfold matched_to in E. rewrite X, Nat.eqb_refl in E. discriminate.
  - intro I. right. exists (v - n). split; [lia|]. destruct (mt_right m (v - n)) as [l|]; [|destruct I]. destruct I as [->|[]]. reflexivity.
Qed.

Lemma right_below t l : mt_right m t = Some l -> l < n /\ In t (adjacent l) /\ t < n_right.
Proof.
  intro E. apply (ms_inverse _ _ _ Hm) in E. pose proof (ms_bound _ _ _ Hm _ _ E). pose proof (ms_edge _ _ _ Hm _ _ E). split; [assumption|]. split; [assumption|]. now apply (Hr l).
Qed.

Lemma residual_bound v w : v < n + n_right -> In w (succ v) -> w < n + n_right.
Proof.
  intros Hv I. apply edge_inv in I. destruct I as [(L & t & -> & It & _)|(t & -> & E)].
  - apply Hr in It; [lia|assumption].
  - destruct (right_below _ _ E). lia.
Qed.

Lemma reach_refl v : reach succ v v. Proof. apply rt_refl. Qed.
Lemma reach_step u v w : reach succ u v -> edge succ v w -> reach succ u w. Proof. intros R E. eapply rt_trans; [exact R|]. now apply rt_step. Qed.
Lemma reach_first u v w : edge succ u v -> reach succ v w -> reach succ u w. Proof. intros E R. eapply rt_trans; [|exact R]. now apply rt_step. Qed.

(** ** Edges in no perfect matching *)

Definition back (t : nat) : nat := match mt_right m t with Some l => l | None => 0 end.

(** [E] contains every free right vertex, and whatever leads to a member of it. *)
Lemma useless_edge (E : nat -> Prop) i j f :
  (forall t, t < n_right -> mt_right m t = None -> E (n + t)) -> (forall v w, edge succ v w -> E w -> E v) ->
  i < n -> In j (adjacent i) -> ~ E (n + j) -> ~ reach succ (n + j) i -> perfect adjacent n f -> f i = j -> False.
Proof.
  intros Ef Eb Hi Ij NE NR [P1 P2] Fi.
  set (x := fun k => Nat.iter k (fun t => f (back t)) j).
  assert (X0 : x 0 = j) by reflexivity. assert (XS : forall k, x (S k) = f (back (x k))) by reflexivity. clearbody x.
  assert (ORB : forall k, x k < n_right /\ reach succ (n + j) (n + x k) /\ ~ E (n + x k)).
  { induction k as [|k (B & R & N)]; [rewrite X0; split; [now apply (Hr i)|]; split; [apply reach_refl|assumption]|]. rewrite XS.
    destruct (mt_right m (x k)) as [l|] eqn:M; [|exfalso; apply N; now apply Ef]. assert (Bk : back (x k) = l) by (unfold back; now rewrite M). rewrite Bk.
    destruct (right_below _ _ M) as (Hl & Al & _).
    assert (Rl : reach succ (n + j) l) by (eapply reach_step; [exact R|now apply edge_right]).
    assert (C : f l = x k \/ edge succ l (n + f l)).
    { destruct (Nat.eq_dec (f l) (x k)) as [|Ne]; [now left|right]. apply edge_left; [assumption|now apply P1|]. apply (ms_inverse _ _ _ Hm) in M. congruence. }
    destruct C as [C|C]; [rewrite C; split; [assumption|]; split; assumption|]. split; [apply (Hr l); auto|]. split; [now apply (reach_step _ l)|].
    intro Ex. apply N. apply (Eb _ l); [now apply edge_right|]. now apply (Eb _ (n + f l)). }
  assert (MAT : forall k, exists l, mt_right m (x k) = Some l /\ back (x k) = l /\ l < n /\ l <> i).
  { intro k. destruct (ORB k) as (B & R & N). destruct (mt_right m (x k)) as [l|] eqn:M; [|exfalso; apply N; now apply Ef]. exists l. split; [reflexivity|]. split; [unfold back; now rewrite M|].
    split; [apply (right_below _ _ M)|]. intros ->. apply NR. eapply reach_step; [exact R|now apply edge_right]. }
  assert (INJ : forall a b, a < b -> x a <> x b).
  { induction a as [|a IH]; intros [|b] Hab; try lia; rewrite ?XS; intro Eq.
    - rewrite X0 in Eq. destruct (MAT b) as (l & _ & Bl & Hl & Nl). rewrite Bl in Eq. apply Nl. apply P2; auto. congruence.
    - destruct (MAT a) as (l & M & Bl & Hl & Nl). destruct (MAT b) as (l' & M' & Bl' & Hl' & Nl'). rewrite Bl, Bl' in Eq. apply P2 in Eq; auto. subst l'.
      apply (IH b); [lia|]. apply (ms_inverse _ _ _ Hm) in M. apply (ms_inverse _ _ _ Hm) in M'. congruence. }
  assert (Len : length (map x (seq 0 (S n_right))) <= length (seq 0 n_right)).
  { apply NoDup_incl_length.
    - apply map_NoDup_in; [|apply seq_NoDup]. intros a b _ _ Eq. destruct (Nat.lt_total a b) as [H|[H|H]]; [|assumption|]; exfalso; [now apply (INJ a b)|now apply (INJ b a)].
    - intros y I. apply in_map_iff in I. destruct I as (k & <- & _). apply in_seq. destruct (ORB k). lia. }
  rewrite map_length, !seq_length in Len. lia.
Qed.

(** ** Edges in some perfect matching *)

Lemma replace_perfect i j f : perfect adjacent n f -> In j (adjacent i) -> (forall k, k < n -> k <> i -> f k <> j) -> perfect adjacent n (put f i j).
Proof.
  intros [P1 P2] Ij N. split.
  - intros k Hk. unfold put. destruct (Nat.eqb_spec k i) as [->|]; [assumption|now apply P1].
  - intros k k' Hk Hk'. unfold put. destruct (Nat.eqb_spec k i) as [Ek|Nk], (Nat.eqb_spec k' i) as [Ek'|Nk']; intro Eq; subst; auto; exfalso.
    + now apply (N k').
    + now apply (N k).
Qed.

Lemma useful_edge i j : i < n -> In j (adjacent i) ->
  mt_left m i = Some j \/ reach succ (n + j) i \/ (exists t, mt_right m t = None /\ reach succ (n + j) (n + t)) ->
  exists f, perfect adjacent n f /\ f i = j.
Proof.
  intros Hi Ij C. pose proof (mate_perfect adjacent n m Hm Hc) as P0.
  destruct (mt_right m j) as [l1|] eqn:Mj.
  2: { exists (put (mate m) i j). split; [|apply put_same]. apply replace_perfect; auto. intros k Hk Nk Eq. unfold mate in Eq.
       destruct (mt_left m k) as [t|] eqn:E; [|now apply (Hc k)]. subst t. apply (ms_inverse _ _ _ Hm) in E. congruence. }
  destruct (Nat.eq_dec l1 i) as [->|N1].
  { exists (mate m). split; [assumption|]. unfold mate. apply (ms_inverse _ _ _ Hm) in Mj. now rewrite Mj. }
  destruct C as [C|C]; [apply (ms_inverse _ _ _ Hm) in C; congruence|].
  destruct (mt_left m i) as [ti|] eqn:Mi; [|now apply Hc in Mi].
  assert (Nti : ti <> j) by (intros ->; apply (ms_inverse _ _ _ Hm) in Mi; congruence).
  destruct (right_below _ _ Mj) as (H1 & A1 & _).
  set (adj := fun k => filter (fun t => negb (Nat.eqb t j)) (adjacent k)).
  assert (Adj : forall k t, In t (adj k) <-> In t (adjacent k) /\ t <> j).
  { intros k t. unfold adj. rewrite filter_In. destruct (Nat.eqb_spec t j); simpl; intuition congruence. }
  set (m' := mk_matching (put (put (mt_left m) i None) l1 None) (put (put (mt_right m) ti None) j None)).
  pose proof (proj2 (ms_inverse _ _ _ Hm _ _) Mj) as Ml1. pose proof (proj1 (ms_inverse _ _ _ Hm _ _) Mi) as Mti.
  assert (S' : sound adj n m').
  { constructor; unfold m'; cbn [mt_left mt_right]; unfold put.
    - intros l t. pose proof (ms_inverse _ _ _ Hm l t) as Iv.
      destruct (Nat.eqb_spec l l1) as [El|Nl], (Nat.eqb_spec l i) as [El'|Nl'], (Nat.eqb_spec t j) as [Et|Nt], (Nat.eqb_spec t ti) as [Et'|Nt'];
        split; intro X; try discriminate; subst; exfalso + (apply Iv; assumption); try (apply Iv in X); congruence.
    - intros l t. destruct (Nat.eqb_spec l l1); [discriminate|]. destruct (Nat.eqb_spec l i); [discriminate|]. intro X. apply Adj. split; [now apply (ms_edge _ _ _ Hm)|].
      intros ->. apply (ms_inverse _ _ _ Hm) in X. congruence.
    - intros l t. destruct (Nat.eqb_spec l l1); [discriminate|]. destruct (Nat.eqb_spec l i); [discriminate|]. apply (ms_bound _ _ _ Hm). }
  assert (Sub : forall t l, mt_right m' t = Some l -> mt_right m t = Some l /\ t <> ti).
  { intros t l. unfold m'. cbn [mt_right]. unfold put. destruct (Nat.eqb_spec t j); [discriminate|]. destruct (Nat.eqb_spec t ti); [discriminate|]. auto. }
  assert (L1 : mt_left m' l1 = None) by (unfold m'; cbn [mt_left]; apply put_same).
  destruct (augment_spec adj n m' l1 S' L1 H1) as [(S2 & Keep & Cov)|(_ & St)].
  - exists (put (mate (augment adj n l1 m')) i j). split; [|apply put_same].
    set (m2 := augment adj n l1 m') in *.
    assert (C2 : forall k, k < n -> k <> i -> mt_left m2 k <> None).
    { intros k Hk Nk. destruct (Nat.eq_dec k l1) as [->|N]; [assumption|]. apply Keep. unfold m'. cbn [mt_left]. rewrite !put_other by assumption. now apply Hc. }
    split.
    + intros k Hk. unfold put. destruct (Nat.eqb_spec k i) as [->|Nk]; [assumption|]. unfold mate. pose proof (C2 k Hk Nk). destruct (mt_left m2 k) as [t|] eqn:E; [|congruence].
      apply (ms_edge _ _ _ S2) in E. now apply Adj in E.
    + assert (M2 : forall k, k < n -> k <> i -> mt_left m2 k = Some (mate m2 k) /\ mate m2 k <> j).
      { intros k Hk Nk. unfold mate. pose proof (C2 k Hk Nk). destruct (mt_left m2 k) as [t|] eqn:E; [|congruence]. split; [reflexivity|]. apply (ms_edge _ _ _ S2) in E. now apply Adj in E. }
      intros k k' Hk Hk'. unfold put. destruct (Nat.eqb_spec k i) as [Ek|Nk], (Nat.eqb_spec k' i) as [Ek'|Nk']; intro Eq; [congruence| | |].
      * destruct (M2 k' Hk' Nk'). congruence.
      * destruct (M2 k Hk Nk). congruence.
      * destruct (M2 k Hk Nk) as [E1 _]. destruct (M2 k' Hk' Nk') as [E2 _]. rewrite Eq in E1. now apply (sound_injective adj n m2 k k' (mate m2 k')).
  - exfalso. destruct St as (ls & ts & _ & I1 & B & Mt & Cl & Bk).
    set (X := fun v => In v ls \/ exists t, v = n + t /\ (t = j \/ In t ts)).
    assert (CL : forall v w, edge succ v w -> X v -> X w).
    { intros v w E. apply edge_inv in E. destruct E as [(L & t & -> & It & _)|(t & -> & E)].
      - intros [I|(t' & -> & _)]; [|lia]. right. exists t. split; [reflexivity|]. destruct (Nat.eq_dec t j) as [|N]; [now left|right]. apply (Cl v); [assumption|]. now apply Adj.
      - intros [I|(t' & Et & D)]; [apply B in I; lia|]. assert (t' = t) by lia. subst t'. left. destruct D as [->|D]; [congruence|]. destruct (Bk t D) as (l & El & Il). apply Sub in El. destruct El. congruence. }
    assert (RX : forall v, reach succ (n + j) v -> X v).
    { intros v R. apply clos_rt_rtn1 in R. induction R as [|y z E _ IH]; [right; exists j; auto|]. eauto. }
    destruct C as [C|(t & Ft & C)]; apply RX in C; destruct C as [I|(t' & Et & D)].
    + apply Mt in I; [|congruence]. apply I. unfold m'. cbn [mt_left]. rewrite put_other by congruence. apply put_same.
    + lia.
    + apply B in I. lia.
    + assert (t' = t) by lia. subst t'. destruct D as [->|D]; [congruence|]. destruct (Bk t D) as (l & El & _). apply Sub in El. destruct El. congruence.
Qed.
(** ** The sweep *)

Definition escapes (v : nat) : Prop := exists t, mt_right m t = None /\ reach succ v (n + t).

(** The vertices in [done] have been explored; what leads to those of them that
    satisfy [P] has been brought in. *)
Record sweeping (s : sweep) (done : list nat) (P : nat -> Prop) : Prop :=
  { sp_explored : forall v, sw_explored s v = true <-> In v done;
    sp_waiting : forall v, sw_waiting s v = true <-> In v (sw_stack s);
    sp_once : NoDup (done ++ sw_stack s);
    sp_bound : forall v, In v (done ++ sw_stack s) -> v < n + n_right;
    sp_free : forall t, t < n_right -> mt_right m t = None -> In (n + t) (done ++ sw_stack s);
    sp_escapes : forall v, In v (done ++ sw_stack s) -> escapes v;
    sp_back : forall v w, In w done -> P w -> edge succ v w -> In v (done ++ sw_stack s);
    sp_used : forall l t, sw_used s l t = true -> mt_left m l = Some t \/ escapes (n + t);
    sp_matched : forall l t, mt_left m l = Some t -> t < n_values -> sw_used s l t = true;
    sp_uses : forall l t, l < n -> In t (adjacent l) -> t < n_values -> In (n + t) done -> P (n + t) -> sw_used s l t = true }.

Lemma use_spec l t used x y : use n_values l t used x y = true <-> used x y = true \/ (x = l /\ y = t /\ t < n_values).
Proof.
  unfold use. destruct (Nat.ltb_spec t n_values) as [L|L]; [|split; [auto|intros [|]; [assumption|lia]]].
  unfold put. destruct (Nat.eqb_spec x l) as [->|]; [|split; [auto|intros [|(-> & _)]; [assumption|congruence]]].
  destruct (Nat.eqb_spec y t) as [->|]; [split; auto|split; [auto|intros [|(_ & -> & _)]; [assumption|congruence]]].
Qed.

Lemma bring_in_spec s done P v l t : sweeping s done P -> v < n + n_right -> escapes v -> (mt_left m l = Some t \/ escapes (n + t)) ->
  let s' := bring_in n_values s v l t in
  sweeping s' done P /\ In v (done ++ sw_stack s') /\ (t < n_values -> sw_used s' l t = true) /\
  incl (sw_stack s) (sw_stack s') /\ (forall x y, sw_used s x y = true -> sw_used s' x y = true).
Proof.
  intros [Ex Wa On Bo Fr Es Ba Us Ma Ue] Hv Ev El. unfold bring_in. cbn zeta.
  assert (U' : forall x y, use n_values l t (sw_used s) x y = true -> mt_left m x = Some y \/ escapes (n + y)).
  { intros x y U. apply use_spec in U. destruct U as [U|(-> & -> & _)]; auto. }
  assert (U2 : forall x y, sw_used s x y = true -> use n_values l t (sw_used s) x y = true) by (intros x y U; apply use_spec; now left).
  destruct (sw_explored s v || sw_waiting s v) eqn:C.
  - split; [|split; [|split; [|split]]]; cbn [sw_stack sw_used].
    + constructor; cbn [sw_explored sw_waiting sw_stack sw_used]; auto.
    + apply in_or_app. apply orb_prop in C. destruct C as [C|C]; [left; now apply Ex|right; now apply Wa].
    + intro H. apply use_spec. auto.
    + apply incl_refl.
    + assumption.
  - apply orb_false_iff in C. destruct C as [C1 C2].
    assert (N1 : ~ In v done) by (intro I; apply Ex in I; congruence). assert (N2 : ~ In v (sw_stack s)) by (intro I; apply Wa in I; congruence).
    assert (Perm : forall x, In x (done ++ v :: sw_stack s) <-> x = v \/ In x (done ++ sw_stack s)).
    { intro x. rewrite !in_app_iff. simpl. intuition auto. }
    split; [|split; [|split; [|split]]]; cbn [sw_stack sw_used].
    + constructor; cbn [sw_explored sw_waiting sw_stack sw_used]; auto.
      * intro x. unfold put. destruct (Nat.eqb_spec x v) as [->|N]; [split; [intros _; now left|reflexivity]|]. rewrite Wa. simpl. intuition congruence.
      * apply NoDup_Add with (a := v) (l := done ++ sw_stack s); [apply Add_app|]. split; [assumption|]. rewrite in_app_iff. tauto.
      * intros x I. apply Perm in I. destruct I as [->|I]; auto.
      * intros x Hx Fx. apply Perm. auto.
      * intros x I. apply Perm in I. destruct I as [->|I]; auto.
      * intros x w Iw Pw E. apply Perm. right. now apply (Ba x w).
    + apply Perm. now left.
    + intro H. apply use_spec. auto.
    + intros x I. now right.
    + assumption.
Qed.

Lemma escapes_back v w : edge succ v w -> escapes w -> escapes v.
Proof. intros E (t & F & R). exists t. split; [assumption|]. now apply (reach_first v w). Qed.

Lemma brings_spec done P t ls : forall s, sweeping s done P -> escapes (n + t) -> (forall l, In l ls -> l < n /\ edge succ l (n + t)) ->
  let s' := fold_left (fun s l => bring_in n_values s l l t) ls s in
  sweeping s' done P /\ (forall l, In l ls -> In l (done ++ sw_stack s') /\ (t < n_values -> sw_used s' l t = true)) /\
  incl (sw_stack s) (sw_stack s') /\ (forall x y, sw_used s x y = true -> sw_used s' x y = true).
Proof.
  induction ls as [|l r IH]; intros s S Et A; cbn zeta.
  - simpl. split; [assumption|]. split; [intros l []|]. split; [apply incl_refl|auto].
  - cbn [fold_left]. destruct (A l (or_introl eq_refl)) as [Hl E].
    destruct (bring_in_spec s done P l l t S) as (S1 & I1 & U1 & K1 & M1); [lia|now apply (escapes_back _ (n + t))|now right|].
    destruct (IH (bring_in n_values s l l t) S1 Et) as (S2 & I2 & K2 & M2); [intros x Ix; apply A; now right|].
    split; [assumption|]. split; [|split; [eapply incl_tran; eassumption|auto]].
    intros x [<-|Ix]; [|now apply I2]. split; [|auto]. apply in_app_or in I1. apply in_or_app. destruct I1; [now left|right; auto].
Qed.

Lemma into_right_In t l : In l (into_right adjacent n m t) <-> l < n /\ edge succ l (n + t).
Proof.
  unfold into_right. rewrite filter_In, in_seq, existsb_exists. split.
  - intros (B & t' & I & E). apply Nat.eqb_eq in E. subst t'. split; [lia|]. apply filter_In in I. destruct I as [I E]. apply edge_left; [lia|assumption|].
    intro X. unfold matched_to in E. rewrite X, Nat.eqb_refl in E. discriminate.
  - intros (B & E). split; [lia|]. exists t. split; [|apply Nat.eqb_refl]. apply edge_inv in E. destruct E as [(_ & t' & Et & It & N)|(t' & Et & _)]; [|lia].
    assert (t' = t) by lia. subst t'. apply filter_In. split; [assumption|]. unfold matched_to. destruct (mt_left m l) as [x|]; [|reflexivity]. destruct (Nat.eqb_spec x t); [congruence|reflexivity].
Qed.

Lemma sweep_vertex_spec s done v : sweeping s (v :: done) (fun w => w <> v) ->
  sweeping (sweep_vertex adjacent n n_values m s v) (v :: done) (fun _ => True).
Proof.
  intro S. assert (Bv : v < n + n_right) by (apply (sp_bound _ _ _ S); now left). assert (Ev : escapes v) by (apply (sp_escapes _ _ _ S); now left).
  assert (Fin : forall s', sweeping s' (v :: done) (fun w => w <> v) -> (forall u, edge succ u v -> In u ((v :: done) ++ sw_stack s')) ->
      (forall l t, l < n -> In t (adjacent l) -> t < n_values -> v = n + t -> sw_used s' l t = true) -> sweeping s' (v :: done) (fun _ => True)).
  { intros s' [Ex Wa On Bo Fr Es Ba Us Ma Ue] B U. constructor; auto.
    - intros x w Iw _ E. destruct (Nat.eq_dec w v) as [->|N]; [now apply B|now apply (Ba x w)].
    - intros l t Hl It Ht I _. destruct (Nat.eq_dec (n + t) v) as [Eq|N]; [now apply U|now apply Ue]. }
  unfold sweep_vertex. destruct (Nat.ltb_spec v n) as [L|L].
  - destruct (mt_left m v) as [t|] eqn:M; [|now apply Hc in M]. pose proof (proj1 (ms_inverse _ _ _ Hm _ _) M) as M'.
    destruct (right_below _ _ M') as (_ & It & Ht).
    destruct (bring_in_spec s (v :: done) (fun w => w <> v) (n + t) v t S) as (S1 & I1 & U1 & _); [lia|now apply (escapes_back _ v); [apply edge_right|]|now left|].
    apply Fin; [assumption| |intros; lia]. intros u E. apply edge_inv in E. destruct E as [(_ & t' & Et & _)|(t' & -> & E)]; [lia|].
    apply (ms_inverse _ _ _ Hm) in E. assert (t' = t) by congruence. now subst t'.
  - set (t := v - n). assert (Ev' : v = n + t) by (unfold t; lia).
    destruct (brings_spec (v :: done) (fun w => w <> v) t (into_right adjacent n m t) s S) as (S1 & I1 & _); [now rewrite <- Ev'|intros l I; now apply into_right_In|].
    pose proof (fun l H => proj1 (I1 l H)) as I2. pose proof (fun l H => proj2 (I1 l H)) as U2. cbn zeta in S1. apply Fin; [assumption| |].
    + intros u E. apply I2. apply into_right_In. rewrite <- Ev'. split; [|assumption]. apply edge_inv in E. destruct E as [(B & _)|(t' & -> & E)]; [assumption|].
      destruct (right_below _ _ E). lia.
    + intros l t' Hl It Ht Eq. assert (t' = t) by lia. subst t'.
      destruct (mt_left m l) as [x|] eqn:M; [|now apply Hc in M]. destruct (Nat.eq_dec x t) as [->|N]; [now apply (sp_matched _ _ _ S1)|].
      apply U2; [|assumption]. apply into_right_In. split; [assumption|]. apply edge_left; auto. congruence.
Qed.

Lemma sweeps_spec fuel : forall s done, sweeping s done (fun _ => True) -> n + n_right <= fuel + length done ->
  exists done', sweeping (sweeps adjacent n n_values m fuel s) done' (fun _ => True) /\ sw_stack (sweeps adjacent n n_values m fuel s) = [].
Proof.
  induction fuel as [|fuel IH]; intros s done S F.
  - exists done. cbn [sweeps]. split; [assumption|]. destruct (sw_stack s) as [|v r] eqn:Q; [reflexivity|]. exfalso.
    assert (Len : length (done ++ sw_stack s) <= length (seq 0 (n + n_right))).
    { apply NoDup_incl_length; [apply (sp_once _ _ _ S)|]. intros x I. apply in_seq. pose proof (sp_bound _ _ _ S x I). lia. }
    rewrite app_length, seq_length, Q in Len. simpl in Len. lia.
  - cbn [sweeps]. destruct (sw_stack s) as [|v r] eqn:Q; [exists done; auto|].
    destruct (IH (sweep_vertex adjacent n n_values m (mk_sweep (put (sw_explored s) v true) (put (sw_waiting s) v false) r (sw_used s)) v) (v :: done)) as (done' & S' & E'); [|simpl; lia|eauto].
    apply sweep_vertex_spec. destruct S as [Ex Wa On Bo Fr Es Ba Us Ma Ue]. rewrite Q in *.
    assert (Perm : forall x, In x ((v :: done) ++ r) <-> In x (done ++ v :: r)) by (intro x; simpl; rewrite !in_app_iff; simpl; tauto).
    assert (On' : NoDup (v :: done ++ r)) by now apply NoDup_Add with (a := v) (l := done ++ r) in On; [constructor|apply Add_app].
    constructor; cbn [sw_explored sw_waiting sw_stack sw_used].
    + intro x. unfold put. simpl. destruct (Nat.eqb_spec x v) as [->|N]; [intuition auto|]. rewrite Ex. intuition congruence.
    + intro x. unfold put. apply NoDup_cons_iff in On'. destruct On' as [Nv _]. rewrite in_app_iff in Nv. destruct (Nat.eqb_spec x v) as [->|N]; [split; [discriminate|tauto]|]. rewrite Wa. simpl. intuition congruence.
    + assumption.
    + intros x I. apply Perm in I. auto.
    + intros t Ht Ft. apply Perm. auto.
    + intros x I. apply Perm in I. auto.
    + intros x w [->|Iw] Nw E; [congruence|]. apply Perm. now apply (Ba x w).
    + assumption.
    + assumption.
    + intros l t Hl It Ht [Eq|I] N; [congruence|]. now apply Ue.
Qed.

Lemma init_sweeping : sweeping (sweep_init n n_values n_right m) [] (fun _ => True).
Proof.
  assert (St : forall v, In v (rev (map (fun t => n + t) (filter (free_right m) (seq 0 n_right)))) <-> exists t, v = n + t /\ t < n_right /\ mt_right m t = None).
  { intro v. rewrite <- in_rev, in_map_iff. split.
    - intros (t & <- & I). apply filter_In in I. destruct I as [I E]. apply in_seq in I. exists t. split; [reflexivity|]. split; [lia|]. unfold free_right in E. destruct (mt_right m t); [discriminate|reflexivity].
    - intros (t & -> & Ht & E). exists t. split; [reflexivity|]. apply filter_In. split; [apply in_seq; lia|]. unfold free_right. now rewrite E. }
  constructor; cbn [sweep_init sw_explored sw_waiting sw_stack sw_used app]; try (intros; contradiction).
  - intro v. split; [discriminate|intros []].
  - intro v. rewrite St. rewrite !andb_true_iff, Nat.leb_le, Nat.ltb_lt. unfold free_right. split.
    + intros ((B1 & B2) & E). exists (v - n). split; [lia|]. split; [assumption|]. destruct (mt_right m (v - n)); [discriminate|reflexivity].
    + intros (t & -> & Ht & E). replace (n + t - n) with t by lia. rewrite E. simpl. repeat split; lia.
  - apply NoDup_rev. apply map_NoDup_in; [intros; lia|]. apply NoDup_filter, seq_NoDup.
  - intros v I. apply St in I. destruct I as (t & -> & Ht & _). lia.
  - intros t Ht E. apply St. eauto.
  - intros v I. apply St in I. destruct I as (t & -> & Ht & E). exists t. split; [assumption|apply reach_refl].
  - intros l t U. apply andb_prop in U. destruct U as [_ U]. left. unfold matched_to in U. destruct (mt_left m l) as [x|]; [|discriminate]. apply Nat.eqb_eq in U. congruence.
  - intros l t M Ht. apply andb_true_intro. split; [now apply Nat.ltb_lt|]. unfold matched_to. rewrite M. apply Nat.eqb_refl.
Qed.

(** With as many right vertices as variables, every right vertex is matched. *)
Lemma square_full t : n_right = n -> t < n_right -> mt_right m t <> None.
Proof.
  intros Eq Ht N. pose proof (mate_perfect adjacent n m Hm Hc) as [P1 P2].
  assert (Len : length (t :: map (mate m) (seq 0 n)) <= length (seq 0 n_right)).
  { apply NoDup_incl_length.
    - constructor.
      + intro I. apply in_map_iff in I. destruct I as (i & E & I). apply in_seq in I. unfold mate in E. destruct (mt_left m i) as [x|] eqn:M; [|apply Hc in M; [assumption|lia]].
        subst x. apply (ms_inverse _ _ _ Hm) in M. congruence.
      + apply map_NoDup_in; [|apply seq_NoDup]. intros x y Ix Iy E. apply in_seq in Ix, Iy. apply P2; auto; lia.
    - intros x [<-|I]; apply in_seq; [lia|]. apply in_map_iff in I. destruct I as (i & <- & I). apply in_seq in I. split; [lia|]. simpl. apply (Hr i); [lia|]. apply P1. lia. }
  simpl in Len. rewrite map_length, !seq_length in Len. lia.
Qed.

(** The sweep marks exactly what is wanted of it. *)
Lemma used_edges_spec : exists E : nat -> Prop,
  (forall t, t < n_right -> mt_right m t = None -> E (n + t)) /\ (forall v w, edge succ v w -> E w -> E v) /\
  (forall l t, used_edges adjacent n n_values n_right m l t = true -> mt_left m l = Some t \/ escapes (n + t)) /\
  (forall l t, l < n -> In t (adjacent l) -> t < n_values -> mt_left m l = Some t \/ E (n + t) -> used_edges adjacent n n_values n_right m l t = true).
Proof.
  unfold used_edges. destruct (Nat.eqb_spec n_right n) as [Eq|Nq].
  - exists (fun _ => False). split; [intros t Ht N; now apply (square_full t)|]. split; [auto|]. split; [apply (sp_used _ _ _ init_sweeping)|].
    intros l t Hl It Ht [M|[]]. now apply (sp_matched _ _ _ init_sweeping).
  - destruct (sweeps_spec (n + n_right) _ [] init_sweeping) as (done & S & Q); [simpl; lia|]. set (s := sweeps _ _ _ _ _ _) in *.
    exists (fun v => In v done). destruct S as [Ex Wa On Bo Fr Es Ba Us Ma Ue]. rewrite Q, app_nil_r in *. split; [assumption|]. split; [intros v w E I; now apply (Ba v w)|].
    split; [assumption|]. intros l t Hl It Ht [M|I]; auto.
Qed.

(** An edge to a value is redundant if and only if it is in no perfect matching. *)
Lemma redundant_spec i j : i < n -> In j (adjacent i) -> j < n_values ->
  (redundant adjacent n n_values n_right m i j = true <-> forall f, perfect adjacent n f -> f i <> j).
Proof.
  intros Hi Ij Hj. destruct used_edges_spec as (E & E1 & E2 & E3 & E4). pose proof (Hr i j Hi Ij) as Bj.
  pose proof (components_correct succ (n + n_right) residual_bound (n + j) i ltac:(lia) ltac:(lia)) as CC. unfold succ in CC. fold (graph_components adjacent n n_right m) in CC. fold succ in CC.
  unfold redundant. rewrite andb_true_iff, !negb_true_iff, Nat.eqb_neq. split.
  - intros [U C] f P Fi. apply (useless_edge E i j f); auto.
    + intro X. rewrite (E4 i j) in U; auto. discriminate.
    + intro R. apply C. apply CC. split; [assumption|]. apply rt_step. apply edge_left; auto. intro M. rewrite (E4 i j) in U; auto. discriminate.
  - intro A. assert (NU : ~ (mt_left m i = Some j \/ reach succ (n + j) i \/ exists t, mt_right m t = None /\ reach succ (n + j) (n + t))).
    { intro X. destruct (useful_edge i j Hi Ij X) as (f & P & Fi). now apply (A f). }
    split.
    + destruct (used_edges adjacent n n_values n_right m i j) eqn:U; [|reflexivity]. exfalso. apply NU. apply E3 in U. unfold escapes in U. tauto.
    + intro C. apply CC in C. apply NU. tauto.
Qed.
End Graph.
