(** Tarjan's algorithm finds the strongly connected components. *)
From Coq Require Import List Bool Arith Lia Relations Sorted.
From Verif Require Import Scc SccSpec.
Import ListNotations.

Lemma put_same {X} (f : nat -> X) k x : put f k x k = x.
Proof. unfold put. now rewrite Nat.eqb_refl. Qed.

Lemma put_other {X} (f : nat -> X) k x n : n <> k -> put f k x n = f n.
Proof. unfold put. intro N. destruct (Nat.eqb_spec n k); congruence. Qed.

Section Graph.
Variable succ : nat -> list nat.
Variable n : nat.
Hypothesis Hn : forall v w, v < n -> In w (succ v) -> w < n.

Local Notation reach := (reach succ).

Lemma reach_refl u : reach u u.
Proof. apply rt_refl. Qed.

Lemma reach_trans u v w : reach u v -> reach v w -> reach u w.
Proof. apply rt_trans. Qed.

Lemma reach_edge u v : In v (succ u) -> reach u v.
Proof. intro I. now apply rt_step. Qed.

(** A frame with the finished vertices above it on the stack. *)
Record layer : Type := mk_layer { l_vertex : nat; l_rest : list nat; l_above : list nat }.

Definition frames_of (ls : list layer) : list (nat * list nat) := map (fun l => (l_vertex l, l_rest l)) ls.
Definition block (l : layer) : list nat := l_above l ++ [l_vertex l].
Definition stack_of (ls : list layer) : list nat := flat_map block ls.

Definition closed (s : tarjan) (v : nat) : Prop := tj_index s v <> 0 /\ tj_on_stack s v = false.

(** Every successor in the list has been visited, and those on the stack are not
    below the low link. *)
Definition seen (s : tarjan) (v : nat) (ws : list nat) : Prop :=
  forall w, In w ws -> tj_index s w <> 0 /\ (tj_on_stack s w = true -> tj_low s v <= tj_index s w).

Definition layer_ok (s : tarjan) (l : layer) : Prop :=
  (exists done, succ (l_vertex l) = done ++ l_rest l /\ seen s (l_vertex l) done) /\
  forall u, In u (l_above l) -> seen s u (succ u) /\ tj_low s u < tj_index s u /\ tj_low s (l_vertex l) <= tj_low s u /\ reach (l_vertex l) u.

Fixpoint chained (ls : list layer) : Prop :=
  match ls with
  | l :: ((p :: _) as r) => reach (l_vertex p) (l_vertex l) /\ chained r
  | _ => True
  end.

Record inv (s : tarjan) (ls : list layer) : Prop :=
  { iv_frames : tj_frames s = frames_of ls;
    iv_stack : tj_stack s = stack_of ls;
    iv_on : forall v, tj_on_stack s v = true <-> In v (tj_stack s);
    iv_sorted : StronglySorted (fun a b => tj_index s b < tj_index s a) (tj_stack s);
    iv_visited : forall v, In v (tj_stack s) -> tj_index s v <> 0;
    iv_next : 0 < tj_next s /\ forall v, tj_index s v < tj_next s;
    iv_bound : forall v, tj_index s v <> 0 -> v < n;
    iv_closed : forall u w, closed s u -> In w (succ u) -> closed s w /\ tj_component s w <= tj_component s u;
    iv_count : forall u, closed s u -> tj_component s u < tj_count s;
    iv_same : forall u w, closed s u -> closed s w -> tj_component s u = tj_component s w -> reach u w;
    iv_low : forall u, In u (tj_stack s) -> tj_low s u <= tj_index s u /\ exists x, In x (tj_stack s) /\ tj_index s x = tj_low s u /\ reach u x;
    iv_layers : Forall (layer_ok s) ls;
    iv_chained : chained ls }.

Lemma sorted_app (s : tarjan) a b : StronglySorted (fun x y => tj_index s y < tj_index s x) (a ++ b) ->
  forall x y, In x a -> In y b -> tj_index s y < tj_index s x.
Proof.
  induction a as [|z a IH]; intros S x y Ix Iy; [destruct Ix|]. simpl in S. apply StronglySorted_inv in S. destruct S as [S F]. destruct Ix as [->|Ix].
  - rewrite Forall_forall in F. apply F. rewrite in_app_iff. now right.
  - now apply IH.
Qed.

Lemma sorted_tail (s : tarjan) a b : StronglySorted (fun x y => tj_index s y < tj_index s x) (a ++ b) -> StronglySorted (fun x y => tj_index s y < tj_index s x) b.
Proof. induction a as [|z a IH]; intro S; [assumption|]. simpl in S. apply StronglySorted_inv in S. now apply IH. Qed.

(** *** Arriving *)

Lemma stack_vertex l ls : In l ls -> In (l_vertex l) (stack_of ls).
Proof. intro I. apply in_flat_map. exists l. split; [assumption|]. unfold block. rewrite in_app_iff. right. now left. Qed.

Lemma stack_above l ls u : In l ls -> In u (l_above l) -> In u (stack_of ls).
Proof. intros I J. apply in_flat_map. exists l. split; [assumption|]. unfold block. rewrite in_app_iff. now left. Qed.

Lemma arrive_inv s ls v : inv s ls -> tj_index s v = 0 -> v < n -> (match ls with l :: _ => reach (l_vertex l) v | [] => True end) ->
  inv (arrive succ v s) (mk_layer v (succ v) [] :: ls).
Proof.
  intros I V B R. destruct I as [Fr St On So Vi [Nx1 Nx2] Bo Cl Co Sa Lo La Ch].
  assert (NotOn : ~ In v (tj_stack s)) by (intro J; apply (Vi v J V)).
  assert (Off : tj_on_stack s v = false) by (destruct (tj_on_stack s v) eqn:E; [exfalso; now apply NotOn, On|reflexivity]).
  assert (Ne : forall u, In u (tj_stack s) -> u <> v) by (intros u J ->; contradiction).
  assert (NeV : forall u, tj_index s u <> 0 -> u <> v) by (intros u J ->; contradiction).
  assert (ClE : forall u, closed (arrive succ v s) u <-> closed s u).
  { intro u. unfold closed, arrive; simpl. unfold put. destruct (Nat.eqb_spec u v) as [->|N]; [|reflexivity]. split; [intros [_ [=]]|intros [X _]; contradiction]. }
  assert (SeenE : forall u ws, u <> v -> seen s u ws -> seen (arrive succ v s) u ws).
  { intros u ws Nu H w Iw. destruct (H w Iw) as [H1 H2]. assert (Nw : w <> v) by now apply NeV. simpl. rewrite !put_other by assumption. auto. }
  constructor; simpl.
  - now rewrite Fr.
  - now rewrite St.
  - intro u. unfold put. destruct (Nat.eqb_spec u v) as [->|N]; [intuition|]. rewrite On. intuition congruence.
  - constructor.
    + clear - So Ne. induction So as [|x r So IH F]; constructor.
      * apply IH. intros u J. apply Ne. now right.
      * rewrite Forall_forall in *. intros y Iy. rewrite !put_other by (apply Ne; simpl; auto). now apply F.
    + apply Forall_forall. intros u J. rewrite put_same, put_other by now apply Ne. apply Nx2.
  - intros u J. unfold put. destruct (Nat.eqb_spec u v) as [->|N]; [lia|]. apply Vi. intuition congruence.
  - split; [lia|]. intro u. unfold put. destruct (Nat.eqb_spec u v); [lia|]. specialize (Nx2 u). lia.
  - intro u. unfold put. destruct (Nat.eqb_spec u v) as [->|N]; [auto|apply Bo].
  - intros u w Cu Iw. rewrite ClE in *. now apply Cl.
  - intros u Cu. apply Co. now apply ClE.
  - intros u w Cu Cw. rewrite ClE in *. now apply Sa.
  - intros u [<-|J].
    + rewrite !put_same. split; [lia|]. exists v. rewrite put_same. split; [now left|]. split; [reflexivity|apply reach_refl].
    + rewrite !put_other by now apply Ne. destruct (Lo u J) as [L1 (x & Jx & Ex & Rx)]. split; [assumption|]. exists x. rewrite put_other by now apply Ne. auto.
  - constructor.
    + split; [exists []; split; [reflexivity|intros w []]|]. intros u [].
    + apply Forall_forall. intros l Il. rewrite Forall_forall in La. destruct (La l Il) as [(done & E & S1) A].
      assert (Nl : l_vertex l <> v) by (apply Ne; rewrite St; now apply stack_vertex). split.
      * exists done. split; [assumption|]. now apply SeenE.
      * intros u Iu. assert (Nu : u <> v) by (apply Ne; rewrite St; now apply (stack_above l)). destruct (A u Iu) as (S2 & L2 & L3 & R2).
        split; [now apply SeenE|]. simpl. rewrite !put_other by assumption. auto.
  - destruct ls as [|p ls]; auto.
Qed.

(** *** Scanning *)

Lemma scan_inv s l ls found low : inv s (l :: ls) -> scan (tj_index s) (tj_on_stack s) (l_vertex l) (l_rest l) (tj_low s) = (found, low) ->
  let rest := match found with Some (_, r) => r | None => [] end in
  let rest' := match found with Some (w, r) => w :: r | None => [] end in
  inv (mk_tarjan (tj_index s) low (tj_component s) (tj_on_stack s) (tj_stack s) ((l_vertex l, rest') :: frames_of ls) (tj_next s) (tj_count s))
      (mk_layer (l_vertex l) rest' (l_above l) :: ls) /\
  match found with Some (w, _) => In w (succ (l_vertex l)) /\ tj_index s w = 0 | None => True end.
Proof.
  remember (l_rest l) as rest eqn:Er. revert s l Er. induction rest as [|w r IH]; intros s l Er I E; cbn [scan] in E.
  - injection E as <- <-. cbn zeta. split; [|exact Logic.I]. destruct I as [Fr St On So Vi Nx Bo Cl Co Sa Lo La Ch]. destruct l as [v r a]. simpl in Er. subst r.
    constructor; auto.
  - destruct (Nat.eqb_spec (tj_index s w) 0) as [Z|NZ].
    + injection E as <- <-. cbn zeta. split.
      * destruct I as [Fr St On So Vi Nx Bo Cl Co Sa Lo La Ch]. destruct l as [v r' a]. simpl in Er. subst r'. constructor; auto.
      * split; [|assumption]. destruct I as [_ _ _ _ _ _ _ _ _ _ _ La _]. apply Forall_inv in La. destruct La as [(done & E1 & _) _]. rewrite E1, <- Er, in_app_iff. right. now left.
    + set (low' := if tj_on_stack s w then put (tj_low s) (l_vertex l) (Nat.min (tj_low s (l_vertex l)) (tj_low s w)) else tj_low s).
      set (s' := mk_tarjan (tj_index s) low' (tj_component s) (tj_on_stack s) (tj_stack s) ((l_vertex l, r) :: frames_of ls) (tj_next s) (tj_count s)).
      assert (E' : scan (tj_index s') (tj_on_stack s') (l_vertex (mk_layer (l_vertex l) r (l_above l))) r (tj_low s') = (found, low)).
      { unfold s', low'. simpl. destruct (tj_on_stack s w); exact E. }
      assert (I' : inv s' (mk_layer (l_vertex l) r (l_above l) :: ls)); [|exact (IH s' (mk_layer (l_vertex l) r (l_above l)) eq_refl I' E')].
      clear IH E E'. destruct I as [Fr St On So Vi Nx Bo Cl Co Sa Lo La Ch]. set (v := l_vertex l) in *.
      assert (Le : forall u, low' u <= tj_low s u).
      { intro u. unfold low'. destruct (tj_on_stack s w); [|lia]. unfold put. destruct (Nat.eqb_spec u v) as [->|]; lia. }
      assert (Lv : tj_on_stack s w = true -> low' v <= tj_low s w).
      { intro O. unfold low'. rewrite O, put_same. lia. }
      assert (Oth : forall u, u <> v -> low' u = tj_low s u).
      { intros u N. unfold low'. destruct (tj_on_stack s w); [now apply put_other|reflexivity]. }
      assert (Iv : In v (tj_stack s)) by (rewrite St; apply (stack_vertex l); now left).
      assert (SeenE : forall u ws, seen s u ws -> seen s' u ws).
      { intros u ws H x Ix. destruct (H x Ix) as [H1 H2]. split; [exact H1|]. intro O. cbn [tj_index tj_low s']. specialize (H2 O). specialize (Le u). lia. }
      assert (Rw : tj_on_stack s w = true -> tj_low s w <= tj_index s w) by (intro O; apply Lo; now apply On).
      assert (Av : forall l' u, In l' (l :: ls) -> In u (l_above l') -> u <> v).
      { intros l' u Il Iu ->. rewrite St in So. cbn [stack_of flat_map] in So. destruct Il as [<-|Il].
        - unfold block in So. rewrite <- app_assoc in So. pose proof (sorted_app s _ _ So v v Iu (or_introl eq_refl)). lia.
        - assert (X : tj_index s v < tj_index s v); [|lia]. apply (sorted_app s _ _ So v v); [unfold block; rewrite in_app_iff; right; now left|now apply (stack_above l')]. }
      constructor; auto; try exact Sa; try exact Co; try exact Cl.
      * intros u J. cbn [s' tj_low tj_index tj_stack] in *. destruct (Lo u J) as [L1 (x & Jx & Ex & Rx)]. split; [specialize (Le u); lia|].
        destruct (Nat.eq_dec u v) as [->|N]; [|exists x; rewrite Oth by assumption; auto].
        unfold low'. destruct (tj_on_stack s w) eqn:O; [|exists x; auto]. rewrite put_same. destruct (Nat.min_spec (tj_low s v) (tj_low s w)) as [[_ ->]|[_ ->]]; [exists x; auto|].
        destruct (Lo w) as [_ (y & Jy & Ey & Ry)]; [now apply On|]. exists y. split; [assumption|]. split; [assumption|]. apply (reach_trans _ w); [|assumption].
        apply reach_edge. apply Forall_inv in La. destruct La as [(done & E1 & _) _]. fold v in E1. rewrite E1, <- Er, in_app_iff. right. now left.
      * pose proof (Forall_inv La) as [(done & E1 & S1) A]. pose proof (Forall_inv_tail La) as La'. constructor.
        -- split.
           ++ exists (done ++ [w]). cbn [l_vertex l_rest]. split; [fold v in E1; rewrite E1, <- Er, <- app_assoc; reflexivity|].
              intros x Ix. apply in_app_or in Ix. destruct Ix as [Ix|[<-|[]]]; [now apply SeenE in S1; apply S1|]. split; [exact NZ|]. intro O. cbn [s' tj_low tj_index] in *. specialize (Lv O). specialize (Rw O). lia.
           ++ cbn [l_above l_vertex]. intros u Iu. destruct (A u Iu) as (S2 & L2 & L3 & R2). fold v in L3. split; [now apply SeenE|]. cbn [s' tj_low tj_index].
              rewrite (Oth u) by (apply (Av l); [now left|assumption]). split; [assumption|]. split; [specialize (Le v); lia|assumption].
        -- apply Forall_forall. intros l' Il. rewrite Forall_forall in La'. destruct (La' l' Il) as [(done' & E2 & S2) A']. split; [exists done'; auto|].
           intros u Iu. destruct (A' u Iu) as (S3 & L2 & L3 & R2). split; [now apply SeenE|]. cbn [s' tj_low tj_index].
           rewrite (Oth u) by (apply (Av l'); [now right|assumption]). split; [assumption|]. split; [|assumption]. specialize (Le (l_vertex l')). lia.
Qed.

(** *** Leaving *)

Lemma pop_to_spec v number r : forall a on component, ~ In v a ->
  exists on' component', pop_to v number (a ++ v :: r) on component = (r, on', component') /\
    (forall u, on' u = if in_dec Nat.eq_dec u (a ++ [v]) then false else on u) /\
    (forall u, component' u = if in_dec Nat.eq_dec u (a ++ [v]) then number else component u).
Proof.
  induction a as [|x a IH]; intros on component N; cbn [app pop_to].
  - rewrite Nat.eqb_refl. eexists. eexists. split; [reflexivity|]. split; intro u; unfold put; destruct (Nat.eqb_spec u v) as [->|M], (in_dec Nat.eq_dec _ [v]) as [J|J]; simpl in J; intuition congruence.
  - destruct (Nat.eqb_spec x v) as [->|Nx]; [exfalso; apply N; now left|].
    destruct (IH (put on x false) (put component x number)) as (on' & component' & E & O & C); [intro J; apply N; now right|].
    rewrite E. exists on', component'. split; [reflexivity|]. split; intro u; [rewrite O|rewrite C];
      unfold put; destruct (in_dec Nat.eq_dec u (a ++ [v])) as [J|J], (in_dec Nat.eq_dec u (x :: a ++ [v])) as [K|K]; try reflexivity; try (exfalso; apply K; now right);
      destruct (Nat.eqb_spec u x) as [->|M]; try reflexivity; try (exfalso; apply K; now left); destruct K as [K|K]; [congruence|contradiction|congruence|contradiction].
Qed.

Lemma close_inv s v above ls : inv s (mk_layer v [] above :: ls) ->
  let s0 := mk_tarjan (tj_index s) (tj_low s) (tj_component s) (tj_on_stack s) (tj_stack s) (frames_of ls) (tj_next s) (tj_count s) in
  tj_low s v = tj_index s v -> inv (close v s0) ls /\ tj_low (close v s0) = tj_low s /\ tj_index (close v s0) = tj_index s.
Proof.
  intros I s0 Root. destruct I as [Fr St On So Vi Nx Bo Cl Co Sa Lo La Ch].
  pose proof (Forall_inv La) as [(done & E1 & S1) A]. pose proof (Forall_inv_tail La) as La'. cbn [l_vertex l_rest l_above] in *. rewrite app_nil_r in E1. subst done.
  cbn [stack_of flat_map] in St. unfold block in St. cbn [l_vertex l_above] in St.
  set (C := above ++ [v]) in *. assert (StC : tj_stack s = C ++ stack_of ls) by exact St.
  assert (Sp : forall x y, In x C -> In y (stack_of ls) -> tj_index s y < tj_index s x) by (apply sorted_app; now rewrite <- StC).
  assert (Ab : forall x, In x above -> tj_index s v < tj_index s x).
  { intros x Ix. rewrite StC in So. unfold C in So. rewrite <- app_assoc in So. apply (sorted_app s _ _ So x v Ix). now left. }
  assert (InC : forall x, In x (tj_stack s) -> tj_index s v <= tj_index s x -> In x C).
  { intros x Ix Le. rewrite StC in Ix. apply in_app_or in Ix. destruct Ix as [Ix|Ix]; [assumption|]. assert (tj_index s x < tj_index s v) by (apply Sp; [unfold C; rewrite in_app_iff; right; now left|assumption]). lia. }
  assert (Cst : forall x, In x C -> In x (tj_stack s)) by (intros x Ix; rewrite StC, in_app_iff; now left).
  assert (LowC : forall u, In u C -> tj_index s v <= tj_low s u).
  { intros u Iu. apply in_app_or in Iu. destruct Iu as [Iu|[<-|[]]]; [|lia]. destruct (A u Iu) as (_ & _ & L & _). lia. }
  assert (SeenC : forall u, In u C -> seen s u (succ u)).
  { intros u Iu. apply in_app_or in Iu. destruct Iu as [Iu|[<-|[]]]; [now apply A|assumption]. }
  assert (Down : forall u, In u C -> reach v u).
  { intros u Iu. apply in_app_or in Iu. destruct Iu as [Iu|[<-|[]]]; [now apply A|apply reach_refl]. }
  assert (Up : forall k u, tj_index s u <= k -> In u C -> reach u v).
  { induction k as [|k IH]; intros u Le Iu.
    - apply in_app_or in Iu. destruct Iu as [Iu|[<-|[]]]; [specialize (Ab u Iu); lia|apply reach_refl].
    - pose proof Iu as Iu'. apply in_app_or in Iu. destruct Iu as [Iu|[<-|[]]]; [|apply reach_refl]. destruct (A u Iu) as (_ & L & _ & _).
      destruct (Lo u (Cst u Iu')) as [_ (x & Jx & Ex & Rx)]. apply (reach_trans _ x); [assumption|]. apply IH; [lia|]. apply InC; [assumption|]. rewrite Ex. now apply LowC. }
  assert (Mut : forall u w, In u C -> In w C -> reach u w) by (intros u w Iu Iw; apply (reach_trans _ v); [apply (Up (tj_index s u)); auto|now apply Down]).
  assert (Nv : ~ In v above) by (intro J; specialize (Ab v J); lia).
  unfold close. cbn [s0 tj_low tj_index tj_stack tj_on_stack tj_component tj_count tj_frames tj_next]. rewrite Root, Nat.eqb_refl.
  assert (St' : tj_stack s = above ++ v :: stack_of ls) by (rewrite StC; unfold C; now rewrite <- app_assoc). rewrite St'.
  destruct (pop_to_spec v (tj_count s) (stack_of ls) above (tj_on_stack s) (tj_component s) Nv) as (on' & comp' & -> & On' & Comp'). fold C in On', Comp'.
  split; [|auto].
  assert (NotC : forall x, In x (stack_of ls) -> ~ In x C) by (intros x Ix Jx; specialize (Sp x x Jx Ix); lia).
  assert (OnE : forall x, on' x = true -> tj_on_stack s x = true /\ ~ In x C) by (intros x; rewrite On'; destruct (in_dec Nat.eq_dec x C); [discriminate|auto]).
  set (s1 := mk_tarjan (tj_index s) (tj_low s) comp' on' (stack_of ls) (frames_of ls) (tj_next s) (S (tj_count s))).
  assert (ClE : forall u, closed s1 u <-> In u C \/ closed s u).
  { intro u. unfold closed; cbn [s1 tj_index tj_on_stack]. rewrite On'. destruct (in_dec Nat.eq_dec u C) as [J|J]; [|tauto]. split; [now left|]. intros _. split; [now apply Vi, Cst|reflexivity]. }
  assert (CNot : forall u, closed s u -> ~ In u C) by (intros u [_ O] J; apply Cst, On in J; congruence).
  assert (CompC : forall u, In u C -> comp' u = tj_count s) by (intros u J; rewrite Comp'; destruct (in_dec Nat.eq_dec u C); [reflexivity|contradiction]).
  assert (CompO : forall u, closed s u -> comp' u = tj_component s u).
  { intros u J. rewrite Comp'. destruct (in_dec Nat.eq_dec u C) as [K|K]; [exfalso; now apply (CNot u)|reflexivity]. }
  assert (SeenE : forall u ws, seen s u ws -> seen s1 u ws).
  { intros u ws H w Iw. destruct (H w Iw) as [H1 H2]. split; [exact H1|]. intro O. apply H2. now apply OnE. }
  constructor; cbn [s1 tj_index tj_low tj_stack tj_frames tj_next tj_count tj_on_stack tj_component]; auto.
  - intro u. rewrite On'. destruct (in_dec Nat.eq_dec u C) as [J|J].
    + split; [discriminate|]. intro K. exfalso. now apply (NotC u).
    + rewrite On, StC, in_app_iff. tauto.
  - rewrite StC in So. now apply sorted_tail in So.
  - intros u J. apply Vi. rewrite StC, in_app_iff. now right.
  - intros u w Cu Iw. apply ClE in Cu. rewrite ClE. destruct Cu as [Cu|Cu].
    + rewrite (CompC u Cu). destruct (SeenC u Cu w Iw) as [V1 V2]. destruct (tj_on_stack s w) eqn:O.
      * assert (J : In w C) by (apply InC; [now apply On|]; specialize (LowC u Cu); specialize (V2 eq_refl); lia). split; [now left|]. rewrite (CompC w J). lia.
      * assert (K : closed s w) by (split; auto). split; [now right|]. rewrite (CompO w K). specialize (Co w K). lia.
    + destruct (Cl u w Cu Iw) as [K L]. split; [now right|]. now rewrite (CompO w K), (CompO u Cu).
  - intros u Cu. apply ClE in Cu. destruct Cu as [Cu|Cu]; [rewrite (CompC u Cu); lia|]. rewrite (CompO u Cu). specialize (Co u Cu). lia.
  - intros u w Cu Cw. apply ClE in Cu. apply ClE in Cw. destruct Cu as [Cu|Cu], Cw as [Cw|Cw].
    + intros _. now apply Mut.
    + rewrite (CompC u Cu), (CompO w Cw). specialize (Co w Cw). lia.
    + rewrite (CompC w Cw), (CompO u Cu). specialize (Co u Cu). lia.
    + rewrite (CompO u Cu), (CompO w Cw). now apply Sa.
  - intros u J. assert (J' : In u (tj_stack s)) by (rewrite StC, in_app_iff; now right). destruct (Lo u J') as [L1 (x & Jx & Ex & Rx)]. split; [assumption|]. exists x. split; [|auto].
    rewrite StC in Jx. apply in_app_or in Jx. destruct Jx as [Jx|Jx]; [|assumption]. specialize (Sp x u Jx J). lia.
  - eapply Forall_impl; [|exact La']. intros l [(done & E2 & S2) A2]. split; [exists done; auto|]. intros u Iu. destruct (A2 u Iu) as (S3 & L2). split; [now apply SeenE|exact L2].
  - destruct ls as [|p r]; [exact Logic.I|]. now destruct Ch.
Qed.

(** The low link is no higher than that of what was left behind. *)
Lemma merge_inv s v above p ls : inv s (mk_layer v [] above :: p :: ls) -> tj_low s v < tj_index s v ->
  let low := put (tj_low s) (l_vertex p) (Nat.min (tj_low s (l_vertex p)) (tj_low s v)) in
  inv (mk_tarjan (tj_index s) low (tj_component s) (tj_on_stack s) (tj_stack s) (frames_of (p :: ls)) (tj_next s) (tj_count s))
      (mk_layer (l_vertex p) (l_rest p) (above ++ v :: l_above p) :: ls).
Proof.
  intros I Lt low. destruct I as [Fr St On So Vi Nx Bo Cl Co Sa Lo La Ch]. destruct p as [q rest ab]. cbn [l_vertex l_rest l_above] in *.
  pose proof (Forall_inv La) as [(done & E1 & S1) A]. pose proof (Forall_inv_tail La) as La'. pose proof (Forall_inv La') as [(done' & E2 & S2) A'].
  pose proof (Forall_inv_tail La') as La''. cbn [l_vertex l_rest l_above] in *. rewrite app_nil_r in E1. subst done.
  set (s1 := mk_tarjan (tj_index s) low (tj_component s) (tj_on_stack s) (tj_stack s) (frames_of (mk_layer q rest ab :: ls)) (tj_next s) (tj_count s)).
  assert (Le : forall u, low u <= tj_low s u) by (intro u; unfold low, put; destruct (Nat.eqb_spec u q) as [->|]; lia).
  assert (Oth : forall u, u <> q -> low u = tj_low s u) by (intros u N; unfold low; now apply put_other).
  assert (Lq : low q <= tj_low s v) by (unfold low; rewrite put_same; lia).
  assert (SeenE : forall u ws, seen s u ws -> seen s1 u ws).
  { intros u ws H w Iw. destruct (H w Iw) as [H1 H2]. split; [exact H1|]. intro O. cbn [s1 tj_low tj_index]. specialize (Le u). specialize (H2 O). lia. }
  assert (St' : tj_stack s = (above ++ v :: ab) ++ q :: stack_of ls).
  { rewrite St. cbn [stack_of flat_map]. unfold block; cbn [l_vertex l_above]. rewrite <- !app_assoc. reflexivity. }
  assert (Nq : forall u, In u (above ++ v :: ab) -> u <> q).
  { intros u J ->. rewrite St' in So. pose proof (sorted_app s _ _ So q q J (or_introl eq_refl)). lia. }
  assert (Nq' : forall l u, In l ls -> In u (l_above l) -> u <> q).
  { intros l u Il J ->. rewrite St' in So. assert (X : tj_index s q < tj_index s q); [|lia]. apply sorted_tail in So. change (q :: stack_of ls) with ([q] ++ stack_of ls) in So.
    apply (sorted_app s _ _ So q q); [now left|now apply (stack_above l)]. }
  assert (Rqv : reach q v) by apply Ch.
  constructor; try assumption; try reflexivity; unfold s1; cbn [tj_index tj_low tj_stack tj_frames tj_next tj_count tj_on_stack tj_component].
  - rewrite St'. cbn [stack_of flat_map]. unfold block; cbn [l_vertex l_above]. now rewrite <- !app_assoc.
  - intros u J. destruct (Lo u J) as [L1 (x & Jx & Ex & Rx)]. split; [specialize (Le u); lia|]. destruct (Nat.eq_dec u q) as [->|N]; [|exists x; rewrite Oth by assumption; auto].
    unfold low. rewrite put_same. destruct (Nat.min_spec (tj_low s q) (tj_low s v)) as [[_ ->]|[_ ->]]; [exists x; auto|].
    destruct (Lo v) as [_ (y & Jy & Ey & Ry)]; [rewrite St', !in_app_iff; left; right; now left|]. exists y. split; [assumption|]. split; [assumption|]. now apply (reach_trans _ v).
  - constructor.
    + split; cbn [l_vertex l_rest l_above].
      * exists done'. split; [assumption|]. now apply SeenE.
      * intros u J. cbn [tj_low tj_index]. rewrite (Oth u) by now apply Nq. apply in_app_or in J. destruct J as [J|[<-|J]].
        -- destruct (A u J) as (S3 & L2 & L3 & R3). split; [now apply SeenE|]. split; [assumption|]. split; [lia|]. now apply (reach_trans _ v).
        -- split; [now apply SeenE|]. split; [assumption|]. split; [lia|assumption].
        -- destruct (A' u J) as (S3 & L2 & L3 & R3). split; [now apply SeenE|]. split; [assumption|]. split; [specialize (Le q); lia|assumption].
    + apply Forall_forall. intros l Il. rewrite Forall_forall in La''. destruct (La'' l Il) as [(done2 & E3 & S3) A2]. split; [exists done2; auto|].
      intros u Iu. destruct (A2 u Iu) as (S4 & L2 & L3 & R2). split; [now apply SeenE|]. cbn [tj_low tj_index].
      rewrite (Oth u) by now apply (Nq' l). split; [assumption|]. split; [|assumption]. specialize (Le (l_vertex l)). lia.
  - destruct ls as [|r ls]; [exact Logic.I|]. destruct Ch as [_ Ch]. exact Ch.
Qed.

(** *** The whole algorithm *)

Lemma skip_inv s v w r a top ls : inv s (top :: mk_layer v (w :: r) a :: ls) -> tj_index s w <> 0 -> tj_low s v <= tj_index s w ->
  inv (mk_tarjan (tj_index s) (tj_low s) (tj_component s) (tj_on_stack s) (tj_stack s) (frames_of (top :: mk_layer v r a :: ls)) (tj_next s) (tj_count s))
      (top :: mk_layer v r a :: ls).
Proof.
  intros [Fr St On So Vi Nx Bo Cl Co Sa Lo La Ch] V L. constructor; auto.
  pose proof (Forall_inv La) as L1. pose proof (Forall_inv (Forall_inv_tail La)) as L2. pose proof (Forall_inv_tail (Forall_inv_tail La)) as L3.
  constructor; [exact L1|]. constructor; [|exact L3]. destruct L2 as [(done & E & S) A]. cbn [l_vertex l_rest l_above] in *. split; [|exact A].
  exists (done ++ [w]). cbn [l_vertex l_rest]. split; [rewrite E, <- app_assoc; reflexivity|]. intros x Ix. apply in_app_or in Ix. destruct Ix as [Ix|[<-|[]]]; [now apply S|]. split; [assumption|auto].
Qed.

Definition unvisited (s : tarjan) : nat := length (filter (fun v => Nat.eqb (tj_index s v) 0) (seq 0 n)).

Lemma filter_length_lt (f g : nat -> bool) (l : list nat) w : In w l -> f w = true -> g w = false -> (forall x, g x = true -> f x = true) ->
  length (filter g l) < length (filter f l).
Proof.
  intros I F G H.
  assert (Le : forall m, length (filter g m) <= length (filter f m)).
  { induction m as [|x m IH]; simpl; [lia|]. destruct (g x) eqn:Gx; [rewrite (H x Gx); simpl; lia|]. destruct (f x); simpl; lia. }
  induction l as [|x l IH]; [destruct I|]. simpl. destruct I as [->|I].
  - rewrite F, G. simpl. specialize (Le l). lia.
  - specialize (IH I). destruct (g x) eqn:Gx; [rewrite (H x Gx); simpl; lia|]. destruct (f x); simpl; lia.
Qed.

Lemma arrive_fewer s v : tj_index s v = 0 -> v < n -> 0 < tj_next s -> unvisited (arrive succ v s) < unvisited s.
Proof.
  intros Z B N. unfold unvisited. apply (filter_length_lt _ _ _ v).
  - apply in_seq. lia.
  - now rewrite Z.
  - simpl. rewrite put_same. destruct (tj_next s); [lia|reflexivity].
  - intro x. simpl. unfold put. destruct (Nat.eqb_spec x v) as [->|]; [|auto]. now rewrite Z.
Qed.

Lemma step_inv s ls : inv s ls -> ls <> [] ->
  exists ls', inv (step succ s) ls' /\ 2 * unvisited (step succ s) + length ls' < 2 * unvisited s + length ls /\
    forall v, tj_index s v <> 0 -> tj_index (step succ s) v <> 0.
Proof.
  intros I N. destruct ls as [|l ls]; [congruence|]. clear N. unfold step. rewrite (iv_frames _ _ I). cbn [frames_of map].
  destruct (scan (tj_index s) (tj_on_stack s) (l_vertex l) (l_rest l) (tj_low s)) as [found low] eqn:E.
  destruct (scan_inv s l ls found low I E) as [I1 Fw]. fold (frames_of ls).
  destruct found as [[w r]|].
  - destruct Fw as [Iw Zw]. cbn zeta in I1.
    assert (Bw : w < n).
    { apply (Hn (l_vertex l)); [|assumption]. apply (iv_bound _ _ I). apply (iv_visited _ _ I). rewrite (iv_stack _ _ I). apply stack_vertex. now left. }
    set (s1 := mk_tarjan (tj_index s) low (tj_component s) (tj_on_stack s) (tj_stack s) ((l_vertex l, w :: r) :: frames_of ls) (tj_next s) (tj_count s)) in *.
    pose proof (arrive_inv s1 _ w I1 Zw Bw (reach_edge _ _ Iw)) as I2.
    assert (Nv : l_vertex l <> w).
    { intros <-. apply (iv_visited _ _ I (l_vertex l)); [|assumption]. rewrite (iv_stack _ _ I). apply stack_vertex. now left. }
    destruct (iv_next _ _ I) as [Nx1 Nx2].
    assert (I3 : inv (arrive succ w (mk_tarjan (tj_index s) low (tj_component s) (tj_on_stack s) (tj_stack s) ((l_vertex l, r) :: frames_of ls) (tj_next s) (tj_count s)))
                     (mk_layer w (succ w) [] :: mk_layer (l_vertex l) r (l_above l) :: ls)).
    { refine (skip_inv (arrive succ w s1) (l_vertex l) w r (l_above l) _ ls I2 _ _).
      - cbn [arrive tj_index s1 tj_next]. rewrite put_same. lia.
      - cbn [arrive tj_index tj_low s1 tj_next]. rewrite put_same, put_other by assumption.
        destruct (iv_low _ _ I1 (l_vertex l)) as [L _]; [rewrite (iv_stack _ _ I1); apply (stack_vertex (mk_layer (l_vertex l) (w :: r) (l_above l))); now left|].
        cbn [s1 tj_low tj_index] in L. specialize (Nx2 (l_vertex l)). lia. }
    eexists. split; [exact I3|]. split.
    + cbn [length].
      assert (U : unvisited (arrive succ w (mk_tarjan (tj_index s) low (tj_component s) (tj_on_stack s) (tj_stack s) ((l_vertex l, r) :: frames_of ls) (tj_next s) (tj_count s))) < unvisited s)
        by exact (arrive_fewer s w Zw Bw Nx1).
      lia.
    + intros v V. cbn [arrive tj_index]. unfold put. destruct (Nat.eqb_spec v w) as [->|]; [contradiction|assumption].
  - clear Fw E. cbn zeta in I1. set (s1 := mk_tarjan (tj_index s) low (tj_component s) (tj_on_stack s) (tj_stack s) ((l_vertex l, []) :: frames_of ls) (tj_next s) (tj_count s)) in *.
    set (s0 := mk_tarjan (tj_index s) low (tj_component s) (tj_on_stack s) (tj_stack s) (frames_of ls) (tj_next s) (tj_count s)).
    assert (Ind : forall t, tj_index t = tj_index s -> unvisited t = unvisited s) by (intros t Et; unfold unvisited; now rewrite Et).
    destruct (iv_low _ _ I1 (l_vertex l)) as [L1 L2]; [rewrite (iv_stack _ _ I1); apply (stack_vertex (mk_layer (l_vertex l) [] (l_above l))); now left|].
    destruct (Nat.eq_dec (tj_low s1 (l_vertex l)) (tj_index s1 (l_vertex l))) as [Root|NR].
    + destruct (close_inv s1 (l_vertex l) (l_above l) ls I1 Root) as (I2 & Lw & Ix). cbn [s1 tj_index tj_low tj_component tj_on_stack tj_stack tj_next tj_count] in I2, Lw, Ix. fold s0 in I2, Lw, Ix.
      destruct ls as [|p ls].
      * cbn [frames_of map] in *. exists []. split; [exact I2|]. split; [rewrite (Ind _ Ix); simpl; lia|]. intros v V. now rewrite Ix.
      * cbn [frames_of map] in *. exists (p :: ls). split; [|split; [match goal with |- 2 * unvisited ?t + _ < _ => rewrite (Ind t Ix) end; simpl; lia|intros v V; cbn [tj_index]; now rewrite Ix]].
        assert (Same : forall u, put (tj_low (close (l_vertex l) s0)) (l_vertex p) (Nat.min (tj_low (close (l_vertex l) s0) (l_vertex p)) (tj_low (close (l_vertex l) s0) (l_vertex l))) u = tj_low (close (l_vertex l) s0) u).
        { intro u. rewrite Lw. unfold put. destruct (Nat.eqb_spec u (l_vertex p)) as [->|]; [|reflexivity]. apply Nat.min_l. cbn [s1 tj_low tj_index] in Root. rewrite Root.
          destruct (iv_low _ _ I1 (l_vertex p)) as [Lp _]; [rewrite (iv_stack _ _ I1); apply stack_vertex; right; now left|]. cbn [s1 tj_low tj_index] in Lp.
          pose proof (iv_sorted _ _ I1) as So. rewrite (iv_stack _ _ I1) in So. cbn [stack_of flat_map] in So. unfold block in So; cbn [l_above l_vertex] in So.
          assert (tj_index s1 (l_vertex p) < tj_index s1 (l_vertex l)); [|cbn [s1 tj_index] in *; lia].
          apply (sorted_app s1 _ _ So); [unfold block; cbn [l_above l_vertex]; rewrite in_app_iff; right; now left|]. apply (stack_vertex p (p :: ls)). now left. }
        remember (close (l_vertex l) s0) as s2 eqn:E2. clear E2 Lw Ix. destruct I2 as [Fr St On So Vi Nx Bo Cl Co Sa Lo La Ch].
        assert (SeenE : forall u ws, seen s2 u ws -> seen (mk_tarjan (tj_index s2) (put (tj_low s2) (l_vertex p) (Nat.min (tj_low s2 (l_vertex p)) (tj_low s2 (l_vertex l)))) (tj_component s2) (tj_on_stack s2) (tj_stack s2) (tj_frames s2) (tj_next s2) (tj_count s2)) u ws).
        { intros u ws H w Iw. destruct (H w Iw) as [H1 H2]. split; [exact H1|]. cbn [tj_low tj_index tj_on_stack]. now rewrite Same. }
        constructor; auto.
        -- intros u J. cbn [tj_low tj_index tj_stack] in *. rewrite Same. now apply Lo.
        -- eapply Forall_impl; [|exact La]. intros q [(done & E3 & S3) A3]. split; [exists done; auto|]. intros u Iu. destruct (A3 u Iu) as (S4 & A4). split; [now apply SeenE|]. cbn [tj_low tj_index]. now rewrite !Same.
    + assert (Lt : tj_low s1 (l_vertex l) < tj_index s1 (l_vertex l)) by lia.
      assert (Cs : close (l_vertex l) s0 = s0).
      { unfold close. cbn [s0 tj_low tj_index]. cbn [s1 tj_low tj_index] in NR. now rewrite (proj2 (Nat.eqb_neq _ _) NR). }
      destruct ls as [|p ls].
      * exfalso. destruct L2 as (x & Jx & Ex & _). rewrite (iv_stack _ _ I1) in Jx. cbn [stack_of flat_map] in Jx. rewrite app_nil_r in Jx. unfold block in Jx; cbn [l_above l_vertex] in Jx.
        apply in_app_or in Jx. destruct Jx as [Jx|[<-|[]]]; [|lia].
        pose proof (iv_sorted _ _ I1) as So. rewrite (iv_stack _ _ I1) in So. cbn [stack_of flat_map] in So. rewrite app_nil_r in So. unfold block in So; cbn [l_above l_vertex] in So.
        pose proof (sorted_app s1 _ _ So x (l_vertex l) Jx (or_introl eq_refl)). lia.
      * cbn [frames_of map] in *. rewrite Cs. eexists. split; [exact (merge_inv s1 _ _ p ls I1 Lt)|]. split; [match goal with |- 2 * unvisited ?t + _ < _ => rewrite (Ind t eq_refl) end; simpl; lia|]. intros v V. exact V.
Qed.

Lemma steps_inv : forall fuel s ls, inv s ls -> 2 * unvisited s + length ls <= fuel ->
  inv (steps succ fuel s) [] /\ forall v, tj_index s v <> 0 -> tj_index (steps succ fuel s) v <> 0.
Proof.
  induction fuel as [|fuel IH]; intros s ls I F.
  - destruct ls; [|simpl in F; lia]. simpl. auto.
  - simpl. rewrite (iv_frames _ _ I). destruct ls as [|l ls]; [simpl; auto|]. cbn [frames_of map].
    destruct (step_inv s (l :: ls) I) as (ls' & I' & M & V); [discriminate|]. destruct (IH (step succ s) ls' I') as [I2 V2]; [lia|]. split; [assumption|]. auto.
Qed.

Lemma init_inv : inv tarjan_init [].
Proof.
  constructor; simpl; auto; try (unfold closed; simpl; tauto).
  - intro v. split; [discriminate|intros []].
  - constructor.
Qed.

Lemma unvisited_bound s : unvisited s <= n.
Proof.
  unfold unvisited. rewrite <- (seq_length n 0) at 2. generalize (seq 0 n). intro l. induction l as [|x l IH]; simpl; [lia|]. destruct (Nat.eqb _ _); simpl; lia.
Qed.

Lemma roots_inv : forall roots s, (forall r, In r roots -> r < n) -> inv s [] ->
  let s' := fold_left (fun s root => if Nat.eqb (tj_index s root) 0 then steps succ (2 * n) (arrive succ root s) else s) roots s in
  inv s' [] /\ (forall v, tj_index s v <> 0 -> tj_index s' v <> 0) /\ forall r, In r roots -> tj_index s' r <> 0.
Proof.
  induction roots as [|r roots IH]; intros s B I; cbn zeta.
  - simpl. split; [assumption|]. split; [auto|intros r []].
  - cbn [fold_left]. set (s1 := if Nat.eqb (tj_index s r) 0 then steps succ (2 * n) (arrive succ r s) else s).
    assert (X : inv s1 [] /\ (forall v, tj_index s v <> 0 -> tj_index s1 v <> 0) /\ tj_index s1 r <> 0).
    { unfold s1. destruct (Nat.eqb_spec (tj_index s r) 0) as [Z|NZ]; [|auto].
      assert (Br : r < n) by (apply B; now left). pose proof (arrive_inv s [] r I Z Br Logic.I) as I1. pose proof (arrive_fewer s r Z Br (proj1 (iv_next _ _ I))) as F. pose proof (unvisited_bound s) as F2.
      destruct (steps_inv (2 * n) _ _ I1) as [I2 V2]; [simpl length; lia|]. split; [assumption|]. split.
      - intros v V. apply V2. simpl. unfold put. destruct (Nat.eqb_spec v r) as [->|]; [contradiction|assumption].
      - apply V2. simpl. rewrite put_same. pose proof (proj1 (iv_next _ _ I)). lia. }
    destruct X as (I1 & V1 & R1). destruct (IH s1) as (I2 & V2 & R2); [intros x J; apply B; now right|assumption|]. split; [assumption|]. split; [auto|]. intros x [<-|J]; auto.
Qed.

Lemma components_correct u w : u < n -> w < n ->
  (tj_component (find_components succ n) u = tj_component (find_components succ n) w <-> reach u w /\ reach w u).
Proof.
  intros Bu Bw. unfold find_components. destruct (roots_inv (seq 0 n) tarjan_init) as (I & _ & R); [intros r J; apply in_seq in J; lia|apply init_inv|]. cbn zeta in I, R.
  set (s := fold_left _ _ _) in *.
  assert (C : forall v, v < n -> closed s v).
  { intros v B. split; [apply R, in_seq; lia|]. destruct (tj_on_stack s v) eqn:O; [|reflexivity]. apply (iv_on _ _ I) in O. rewrite (iv_stack _ _ I) in O. destruct O. }
  assert (M : forall x y, reach x y -> x < n -> y < n /\ tj_component s y <= tj_component s x).
  { intros x y Hr. apply clos_rt_rt1n in Hr. induction Hr as [|x y z E _ IH]; intro B; [auto|]. assert (y < n) by now apply (Hn x).
    destruct (iv_closed _ _ I x y (C x B) E) as [_ L]. destruct (IH H) as [B' L']. split; [assumption|lia]. }
  split.
  - intro E. split; apply (iv_same _ _ I); auto.
  - intros [R1 R2]. destruct (M _ _ R1 Bu) as [_ L1]. destruct (M _ _ R2 Bw) as [_ L2]. lia.
Qed.
Lemma component_bound u : u < n -> tj_component (find_components succ n) u < tj_count (find_components succ n).
Proof.
  intro B. unfold find_components. destruct (roots_inv (seq 0 n) tarjan_init) as (I & _ & R); [intros r J; apply in_seq in J; lia|apply init_inv|]. cbn zeta in I, R.
  set (s := fold_left _ _ _) in *. apply (iv_count _ _ I). split; [apply R, in_seq; lia|]. destruct (tj_on_stack s u) eqn:O; [|reflexivity]. apply (iv_on _ _ I) in O. rewrite (iv_stack _ _ I) in O. destruct O.
Qed.
End Graph.
