From Coq Require Import ZArith List Bool Sorted Lia.
From Verif Require Import IntervalTree IntervalTreeSpec IntervalTreeProofs Containment ContainmentSpec.
Import ListNotations.
Open Scope Z_scope.

Section Sorting.
  Variable less : Z * Z -> Z * Z -> bool.
  Variable R : Z * Z -> Z * Z -> Prop.
  Hypothesis R_trans : forall x y z, R x y -> R y z -> R x z.
  Hypothesis less_R : forall x y, less x y = true -> R x y.
  Hypothesis not_less_R : forall x y, less x y = false -> R y x.

  Lemma sort_in_In : forall x l i, In i (sort_in less x l) <-> i = x \/ In i l.
  Proof.
    induction l as [|y l IH]; intros i; simpl; [intuition|].
    destruct (less x y); simpl; [|rewrite IH]; intuition.
  Qed.

  Lemma sort_by_In : forall l i, In i (sort_by less l) <-> In i l.
  Proof.
    induction l as [|x l IH]; intros i; simpl; [tauto|]. rewrite sort_in_In, IH. intuition.
  Qed.

  Lemma sort_in_sorted : forall x l, StronglySorted R l -> StronglySorted R (sort_in less x l).
  Proof.
    induction l as [|y l IH]; intros H; simpl.
    - constructor; constructor.
    - inversion H as [|? ? Hs Hf]; subst. rewrite Forall_forall in Hf.
      destruct (less x y) eqn:E.
      + constructor; [exact H|]. rewrite Forall_forall. intros i [<-|Hi]; [auto|].
        apply R_trans with y; auto.
      + constructor; [auto|]. rewrite Forall_forall. intros i Hi. apply sort_in_In in Hi.
        destruct Hi as [->|Hi]; auto.
  Qed.

  Lemma sort_by_sorted : forall l, StronglySorted R (sort_by less l).
  Proof. induction l as [|x l IH]; simpl; [constructor|]. apply sort_in_sorted. exact IH. Qed.
End Sorting.

Definition down (x y : Z * Z) : Prop := fst y < fst x \/ (fst y = fst x /\ snd x <= snd y).
Definition up (x y : Z * Z) : Prop := fst x < fst y \/ (fst y = fst x /\ snd y <= snd x).

Lemma containers_sorted : forall l, StronglySorted down (sort_by container_before l).
Proof.
  intros l. apply sort_by_sorted.
  - unfold down. lia.
  - intros x y. unfold container_before, down. destruct (fst x =? fst y) eqn:E.
    + apply Z.eqb_eq in E. rewrite Z.ltb_lt. lia.
    + rewrite Z.ltb_lt. lia.
  - intros x y. unfold container_before, down. destruct (fst x =? fst y) eqn:E.
    + apply Z.eqb_eq in E. rewrite Z.ltb_ge. lia.
    + apply Z.eqb_neq in E. rewrite Z.ltb_ge. lia.
Qed.

Lemma contained_sorted : forall l, StronglySorted up (sort_by contained_before l).
Proof.
  intros l. apply sort_by_sorted.
  - unfold up. lia.
  - intros x y. unfold contained_before, up. destruct (fst x =? fst y) eqn:E.
    + apply Z.eqb_eq in E. rewrite Z.ltb_lt. lia.
    + rewrite Z.ltb_lt. lia.
  - intros x y. unfold contained_before, up. destruct (fst x =? fst y) eqn:E.
    + apply Z.eqb_eq in E. rewrite Z.ltb_ge. lia.
    + apply Z.eqb_neq in E. rewrite Z.ltb_ge. lia.
Qed.

Lemma minimal_In : forall l o i, In i (minimal_from o l) -> In i l.
Proof.
  induction l as [|[c d] l IH]; intros o i; simpl; [tauto|].
  destruct (match o with None => true | Some h => d <? h end); simpl; [|eauto].
  intros [<-|H]; eauto.
Qed.

Lemma minimal_cover : forall l o b, StronglySorted down l -> In b l ->
  (exists m, In m (minimal_from o l) /\ inside m b) \/ (exists h, o = Some h /\ h <= snd b).
Proof.
  unfold inside. induction l as [|[c d] l IH]; intros o b Hs Hb; [destruct Hb|].
  inversion Hs as [|? ? Hs' Hf]; subst. rewrite Forall_forall in Hf. simpl.
  destruct (match o with None => true | Some h => d <? h end) eqn:E.
  - left. destruct Hb as [<-|Hb].
    + exists (c, d). simpl. split; [auto|lia].
    + destruct (IH (Some d) b Hs' Hb) as [(m & Hm & Hi)|(h & Eh & Hh)].
      * exists m. simpl. auto.
      * inversion Eh; subst h. exists (c, d). simpl. split; [auto|].
        specialize (Hf b Hb). unfold down in Hf. simpl in Hf. lia.
  - destruct o as [h|]; [|discriminate]. apply Z.ltb_ge in E.
    destruct Hb as [<-|Hb].
    + right. exists h. split; [reflexivity|exact E].
    + apply IH; auto.
Qed.

Lemma minimal_least : forall l h m, In m (minimal_from (Some h) l) -> snd m < h.
Proof.
  induction l as [|[c d] l IH]; intros h m; simpl; [tauto|].
  destruct (d <? h) eqn:E; [|apply IH]. apply Z.ltb_lt in E.
  intros [<-|H]; [exact E|]. specialize (IH d m H). lia.
Qed.

Lemma minimal_minimal : forall l o m b, StronglySorted down l ->
  In m (minimal_from o l) -> In b l -> inside b m -> b = m.
Proof.
  unfold inside. induction l as [|[c d] l IH]; intros o m b Hs Hm Hb Hi; [destruct Hb|].
  inversion Hs as [|? ? Hs' Hf]; subst. rewrite Forall_forall in Hf. simpl in Hm.
  destruct (match o with None => true | Some h => d <? h end) eqn:E.
  - destruct Hm as [<-|Hm].
    + destruct Hb as [<-|Hb]; [reflexivity|].
      specialize (Hf b Hb). unfold down in Hf. destruct b as [b1 b2]. simpl in *. f_equal; lia.
    + destruct Hb as [<-|Hb]; [|eauto].
      apply minimal_least in Hm. simpl in Hi. lia.
  - destruct o as [h|]; [|discriminate]. apply Z.ltb_ge in E.
    destruct Hb as [<-|Hb]; [|eauto].
    apply minimal_least in Hm. simpl in Hi. lia.
Qed.

Lemma maximal_In : forall l o i, In i (maximal_from o l) -> In i l.
Proof.
  induction l as [|[c d] l IH]; intros o i; simpl; [tauto|].
  destruct (match o with None => true | Some h => h <? d end); simpl; [|eauto].
  intros [<-|H]; eauto.
Qed.

Lemma maximal_cover : forall l o b, StronglySorted up l -> In b l ->
  (exists m, In m (maximal_from o l) /\ inside b m) \/ (exists h, o = Some h /\ snd b <= h).
Proof.
  unfold inside. induction l as [|[c d] l IH]; intros o b Hs Hb; [destruct Hb|].
  inversion Hs as [|? ? Hs' Hf]; subst. rewrite Forall_forall in Hf. simpl.
  destruct (match o with None => true | Some h => h <? d end) eqn:E.
  - left. destruct Hb as [<-|Hb].
    + exists (c, d). simpl. split; [auto|lia].
    + destruct (IH (Some d) b Hs' Hb) as [(m & Hm & Hi)|(h & Eh & Hh)].
      * exists m. simpl. auto.
      * inversion Eh; subst h. exists (c, d). simpl. split; [auto|].
        specialize (Hf b Hb). unfold up in Hf. simpl in Hf. lia.
  - destruct o as [h|]; [|discriminate]. apply Z.ltb_ge in E.
    destruct Hb as [<-|Hb].
    + right. exists h. split; [reflexivity|exact E].
    + apply IH; auto.
Qed.

Lemma maximal_greatest : forall l h m, In m (maximal_from (Some h) l) -> h < snd m.
Proof.
  induction l as [|[c d] l IH]; intros h m; simpl; [tauto|].
  destruct (h <? d) eqn:E; [|apply IH]. apply Z.ltb_lt in E.
  intros [<-|H]; [exact E|]. specialize (IH d m H). lia.
Qed.

Lemma maximal_maximal : forall l o m b, StronglySorted up l ->
  In m (maximal_from o l) -> In b l -> inside m b -> b = m.
Proof.
  unfold inside. induction l as [|[c d] l IH]; intros o m b Hs Hm Hb Hi; [destruct Hb|].
  inversion Hs as [|? ? Hs' Hf]; subst. rewrite Forall_forall in Hf. simpl in Hm.
  destruct (match o with None => true | Some h => h <? d end) eqn:E.
  - destruct Hm as [<-|Hm].
    + destruct Hb as [<-|Hb]; [reflexivity|].
      specialize (Hf b Hb). unfold up in Hf. destruct b as [b1 b2]. simpl in *. f_equal; lia.
    + destruct Hb as [<-|Hb]; [|eauto].
      apply maximal_greatest in Hm. simpl in Hi. lia.
  - destruct o as [h|]; [|discriminate]. apply Z.ltb_ge in E.
    destruct Hb as [<-|Hb]; [|eauto].
    apply maximal_greatest in Hm. simpl in Hi. lia.
Qed.

Lemma not_self_true : forall lo hi i, not_self lo hi i = true <-> i <> (lo, hi).
Proof.
  intros lo hi [a b]. unfold not_self. simpl.
  rewrite orb_true_iff, !negb_true_iff, !Z.eqb_neq. split.
  - intros H E. inversion E. lia.
  - intros H. destruct (Z.eq_dec a lo); [right|left; assumption].
    intros ->. apply H. f_equal. assumption.
Qed.

Lemma containers_In : forall t lo hi i, good t ->
  (In i (sort_by container_before (filter (not_self lo hi) (visit_containing t lo hi))) <->
   In i (items t) /\ inside (lo, hi) i /\ i <> (lo, hi)).
Proof.
  intros t lo hi i Ht. rewrite sort_by_In, filter_In, not_self_true,
    visit_containing_filter, filter_In by exact Ht.
  unfold contains, inside. rewrite andb_true_iff, !Z.leb_le. simpl. tauto.
Qed.

Lemma contained_In : forall t lo hi i, good t ->
  (In i (sort_by contained_before (filter (not_self lo hi) (visit_contained_in t lo hi))) <->
   In i (items t) /\ inside i (lo, hi) /\ i <> (lo, hi)).
Proof.
  intros t lo hi i Ht. rewrite sort_by_In, filter_In, not_self_true,
    visit_contained_in_filter, filter_In by exact Ht.
  unfold within, inside. rewrite andb_true_iff, !Z.leb_le. simpl. tauto.
Qed.

(* what one call of link_immediate_containment writes *)
Lemma link_sound : forall t lo hi c p, good t ->
  In (c, p) (link_immediate_containment t lo hi) ->
  inside c p /\ c <> p /\
  ((c = (lo, hi) /\ In p (items t)) \/ (p = (lo, hi) /\ In c (items t) /\ lo <> hi)) /\
  (forall i, In i (items t) -> inside c i -> inside i p -> i = c \/ i = p).
Proof.
  intros t lo hi c p Ht H. unfold link_immediate_containment in H. rewrite in_app_iff in H.
  destruct H as [H|H].
  - apply in_map_iff in H. destruct H as (q & E & Hq). inversion E; subst c q; clear E.
    pose proof (minimal_In _ _ _ Hq) as Hin. apply containers_In in Hin; [|exact Ht].
    destruct Hin as (Hp & Hi & Hne).
    repeat split; auto; try apply Hi.
    intros i Hit Hci Hip. destruct (not_self lo hi i) eqn:En.
    + apply not_self_true in En. right.
      refine (minimal_minimal _ _ _ i (containers_sorted _) Hq _ Hip).
      apply containers_In; auto.
    + left. destruct i as [a b]. unfold not_self in En. simpl in En.
      rewrite orb_false_iff, !negb_false_iff, !Z.eqb_eq in En. destruct En; subst; reflexivity.
  - destruct (lo =? hi) eqn:Elh; [destruct H|]. apply Z.eqb_neq in Elh.
    apply in_map_iff in H. destruct H as (q & E & Hq). inversion E; subst p q; clear E.
    pose proof (maximal_In _ _ _ Hq) as Hin. apply contained_In in Hin; [|exact Ht].
    destruct Hin as (Hc & Hi & Hne).
    repeat split; auto; try apply Hi.
    intros i Hit Hci Hip. destruct (not_self lo hi i) eqn:En.
    + apply not_self_true in En. left.
      refine (maximal_maximal _ _ _ i (contained_sorted _) Hq _ Hci).
      apply contained_In; auto.
    + right. destruct i as [a b]. unfold not_self in En. simpl in En.
      rewrite orb_false_iff, !negb_false_iff, !Z.eqb_eq in En. destruct En; subst; reflexivity.
Qed.

Lemma link_up : forall t lo hi b, good t -> In b (items t) -> inside (lo, hi) b -> b <> (lo, hi) ->
  exists m, In ((lo, hi), m) (link_immediate_containment t lo hi) /\ In m (items t) /\ inside m b.
Proof.
  intros t lo hi b Ht Hb Hi Hne.
  destruct (minimal_cover _ None b (containers_sorted _)
              (proj2 (containers_In t lo hi b Ht) (conj Hb (conj Hi Hne))))
    as [(m & Hm & Hmb)|(h & E & _)]; [|discriminate].
  exists m. split; [|split; [|exact Hmb]].
  - unfold link_immediate_containment. apply in_app_iff. left. apply in_map. exact Hm.
  - apply minimal_In in Hm. apply containers_In in Hm; tauto.
Qed.

Lemma link_down : forall t lo hi b, good t -> In b (items t) -> inside b (lo, hi) -> b <> (lo, hi) ->
  lo <> hi ->
  exists m, In (m, (lo, hi)) (link_immediate_containment t lo hi) /\ In m (items t) /\ inside b m.
Proof.
  intros t lo hi b Ht Hb Hi Hne Hlh.
  destruct (maximal_cover _ None b (contained_sorted _)
              (proj2 (contained_In t lo hi b Ht) (conj Hb (conj Hi Hne))))
    as [(m & Hm & Hmb)|(h & E & _)]; [|discriminate].
  exists m. split; [|split; [|exact Hmb]].
  - unfold link_immediate_containment. apply in_app_iff. right.
    replace (lo =? hi) with false by (symmetry; apply Z.eqb_neq; exact Hlh).
    apply in_map with (f := fun c => (c, (lo, hi))). exact Hm.
  - apply maximal_In in Hm. apply contained_In in Hm; tauto.
Qed.

(* chains of clauses *)
Inductive chain (edges : list edge) : Z * Z -> Z * Z -> Prop :=
| chain_here : forall a, chain edges a a
| chain_step : forall a b c, In (a, b) edges -> chain edges b c -> chain edges a c.

Lemma chain_app : forall edges a b c, chain edges a b -> chain edges b c -> chain edges a c.
Proof. intros edges a b c H. induction H; eauto using chain_step. Qed.

Lemma chain_more : forall edges edges' a b,
  (forall e, In e edges -> In e edges') -> chain edges a b -> chain edges' a b.
Proof.
  intros edges edges' a b H C. induction C as [x|x y z Hin C IH]; [constructor|].
  apply chain_step with y; auto.
Qed.

Lemma chain_rejects : forall edges a b, chain edges a b -> rejects edges b a.
Proof.
  intros edges a b C. induction C as [x|x y z Hin C IH]; intros R Hc Hb; [exact Hb|].
  apply (Hc x y Hin). apply IH; auto.
Qed.

Lemma chain_accepts : forall edges a b, chain edges a b -> accepts edges a b.
Proof.
  intros edges a b C. induction C as [x|x y z Hin C IH]; intros R Hc Ha; [exact Ha|].
  apply IH; auto. apply (Hc x y Hin Ha).
Qed.

(* what holds of the state after the events *)
Record right (events : list event) (s : literals) : Prop :=
  { r_atoms : forall v, In v (l_atoms s) -> defined events (v, v);
    r_only_atoms : l_tree s = None -> l_edges s = [] /\
                   forall i, defined events i -> exists v, i = (v, v) /\ In v (l_atoms s);
    r_good : forall t, l_tree s = Some t -> good t;
    r_items : forall t, l_tree s = Some t -> forall i, In i (items t) <-> defined events i;
    r_nonempty : forall i, defined events i -> fst i <= snd i;
    r_edges : forall c p, In (c, p) (l_edges s) ->
              defined events c /\ defined events p /\ inside c p /\ c <> p;
    r_chain : forall a b, defined events a -> defined events b -> inside a b ->
              chain (l_edges s) a b }.

Lemma defined_app : forall events e i,
  defined (events ++ [e]) i <-> defined events i \/ i = interval e.
Proof.
  intros. unfold defined. rewrite map_app, in_app_iff. simpl. intuition.
Qed.

Lemma inside_trans : forall a b c, inside a b -> inside b c -> inside a c.
Proof. unfold inside. intros. lia. Qed.

Lemma interval_dec : forall a b : Z * Z, {a = b} + {a <> b}.
Proof. intros [a b] [c d]. destruct (Z.eq_dec a c), (Z.eq_dec b d); subst; auto; right; congruence. Qed.

(* one literal more in an existing tree *)
Lemma grow : forall (D : Z * Z -> Prop) t edges lo hi, good t ->
  (forall i, In i (items t) <-> D i) -> (forall i, D i -> fst i <= snd i) -> lo <= hi ->
  (forall a b, D a -> D b -> inside a b -> chain edges a b) ->
  forall a b, D a \/ a = (lo, hi) -> D b \/ b = (lo, hi) -> inside a b ->
    chain (edges ++ link_immediate_containment t lo hi) a b.
Proof.
  intros D t edges lo hi Ht HD Hne Hlh Hold a b Ha Hb Hi.
  assert (Hold' : forall a b, D a -> D b -> inside a b ->
                  chain (edges ++ link_immediate_containment t lo hi) a b).
  { intros x y Hx Hy Hxy. apply chain_more with edges; auto. intros e He.
    apply in_app_iff. auto. }
  destruct (interval_dec a (lo, hi)) as [->|Na].
  - destruct (interval_dec b (lo, hi)) as [->|Nb]; [constructor|].
    destruct Hb as [Hb|Hb]; [|congruence].
    destruct (link_up t lo hi b Ht (proj2 (HD b) Hb) Hi Nb) as (m & Hm & Hin & Hmb).
    apply chain_step with m; [apply in_app_iff; auto|].
    apply Hold'; auto. apply HD. exact Hin.
  - destruct Ha as [Ha|Ha]; [|congruence].
    destruct (interval_dec b (lo, hi)) as [->|Nb].
    + assert (lo <> hi).
      { intros ->. apply Na. specialize (Hne a Ha). destruct a as [a1 a2].
        unfold inside in Hi. simpl in *. f_equal; lia. }
      destruct (link_down t lo hi a Ht (proj2 (HD a) Ha) Hi Na H) as (m & Hm & Hin & Ham).
      apply chain_app with m.
      * apply Hold'; auto. apply HD. exact Hin.
      * apply chain_step with (lo, hi); [apply in_app_iff; auto|constructor].
    + destruct Hb as [Hb|Hb]; [|congruence]. auto.
Qed.

Lemma seed_spec : forall atoms t prio k, good t ->
  exists t', seed t prio k atoms = Some t' /\ good t' /\
    forall i, In i (items t') <-> (exists v, i = (v, v) /\ In v atoms) \/ In i (items t).
Proof.
  induction atoms as [|v atoms IH]; intros t prio k Ht; simpl.
  - exists t. split; [reflexivity|]. split; [exact Ht|]. intros i.
    split; [auto|]. intros [(v & _ & [])|H]; exact H.
  - destruct (insert_at_spec t v v (prio k) Ht) as (t1 & E & G & Hin). rewrite E.
    destruct (IH t1 prio (S k) G) as (t2 & E2 & G2 & Hin2). exists t2.
    split; [exact E2|]. split; [exact G2|]. intros i. rewrite Hin2, Hin. split.
    + intros [(w & -> & Hw)|[->|H]]; eauto.
    + intros [(w & -> & [->|Hw])|H]; eauto.
Qed.

Lemma right_start : right [] no_literals.
Proof.
  constructor; simpl; try discriminate; try (intros; contradiction).
  intros _. split; [reflexivity|]. intros i [].
Qed.

Lemma grow_right : forall events s t e t' lo hi atoms,
  right events s -> interval e = (lo, hi) -> lo <= hi -> good t ->
  (forall i, In i (items t) <-> defined events i) ->
  good t' -> (forall i, In i (items t') <-> i = (lo, hi) \/ In i (items t)) ->
  (forall v, In v atoms -> defined (events ++ [e]) (v, v)) ->
  right (events ++ [e])
        (mk_literals atoms (Some t') (l_edges s ++ link_immediate_containment t lo hi)).
Proof.
  intros events s t e t' lo hi atoms Hr Ee Hlh Ht HD Ht' HD' Hat.
  constructor; simpl.
  - exact Hat.
  - discriminate.
  - intros u Hu. inversion Hu; subst. exact Ht'.
  - intros u Hu. inversion Hu; subst. intros i. rewrite HD', HD, defined_app, Ee. tauto.
  - intros i Hi. apply defined_app in Hi. destruct Hi as [Hi| ->].
    + apply (r_nonempty _ _ Hr); exact Hi.
    + rewrite Ee. simpl. exact Hlh.
  - intros c p Hcp. rewrite !defined_app, Ee. apply in_app_iff in Hcp. destruct Hcp as [Hcp|Hcp].
    + destruct (r_edges _ _ Hr c p Hcp) as (H1 & H2 & H3 & H4). auto.
    + destruct (link_sound t lo hi c p Ht Hcp) as (H1 & H2 & H3 & _).
      rewrite !HD in H3. destruct H3 as [(-> & H3)|(-> & H3 & _)]; auto.
  - intros a b Ha Hb Hi. apply (grow (defined events)); auto.
    + intros i. apply (r_nonempty _ _ Hr).
    + apply (r_chain _ _ Hr).
    + apply defined_app in Ha. rewrite Ee in Ha. exact Ha.
    + apply defined_app in Hb. rewrite Ee in Hb. exact Hb.
Qed.

(* the tree that a call finds, or makes *)
Definition found_tree (s : literals) (e : event) : option tree :=
  match l_tree s, e with
  | Some t, _ => Some t
  | None, Equality _ _ => None
  | None, Range _ _ _ prio => seed Leaf prio 0 (l_atoms s)
  end.

Lemma define_right : forall events s e, right events s -> proper e ->
  exists s', define s e = Some s' /\ right (events ++ [e]) s' /\
    exists new, l_edges s' = l_edges s ++ new /\ forall x, In x new -> immediate events x.
Proof.
  intros events s e Hr He. destruct s as [atoms tr edges]. destruct e as [v p|lo hi p prio]; simpl.
  - destruct tr as [t|].
    + pose proof (r_good _ _ Hr t eq_refl) as Ht. pose proof (r_items _ _ Hr t eq_refl) as HD.
      destruct (insert_at_spec t v v p Ht) as (t' & E & G & Hin). rewrite E.
      eexists. split; [reflexivity|]. split.
      * apply (grow_right events _ t _ t' v v _ Hr); auto; try lia.
        intros w Hw. apply defined_app. rewrite in_app_iff in Hw. destruct Hw as [Hw|[<-|[]]].
        -- left. apply (r_atoms _ _ Hr). exact Hw.
        -- right. reflexivity.
      * eexists. split; [reflexivity|]. intros [c q] Hx i Hi.
        destruct (link_sound t v v c q Ht Hx) as (_ & _ & _ & H). apply H. apply HD. exact Hi.
    + eexists. split; [reflexivity|]. split.
      * destruct (r_only_atoms _ _ Hr eq_refl) as [Hed Hat]. simpl in Hed, Hat. subst edges.
        constructor; simpl; try discriminate.
        -- intros w Hw. apply defined_app. rewrite in_app_iff in Hw. destruct Hw as [Hw|[<-|[]]].
           ++ left. apply (r_atoms _ _ Hr). exact Hw.
           ++ right. reflexivity.
        -- intros _. split; [reflexivity|]. intros i Hi. apply defined_app in Hi.
           destruct Hi as [Hi| ->].
           ++ destruct (Hat i Hi) as (w & -> & Hw). exists w. rewrite in_app_iff. auto.
           ++ exists v. rewrite in_app_iff. simpl. auto.
        -- intros i Hi. apply defined_app in Hi. destruct Hi as [Hi| ->].
           ++ apply (r_nonempty _ _ Hr); exact Hi.
           ++ simpl. lia.
        -- intros c q [].
        -- intros a b Ha Hb Hi. rewrite defined_app in Ha, Hb.
           assert (Pt : forall i, defined events i \/ i = (v, v) -> exists w, i = (w, w)).
           { intros i [H| ->]; [|eauto]. destruct (Hat i H) as (w & -> & _). eauto. }
           destruct (Pt a Ha) as (x & ->). destruct (Pt b Hb) as (y & ->).
           unfold inside in Hi. simpl in Hi. replace y with x by lia. constructor.
      * exists []. rewrite app_nil_r. split; [reflexivity|]. intros x [].
  - simpl in He.
    assert (Hs : exists t, match tr with None => seed Leaf prio 0 atoms | Some t => Some t end = Some t
                 /\ good t /\ forall i, In i (items t) <-> defined events i).
    { destruct tr as [t|].
      - exists t. split; [reflexivity|]. split; [apply (r_good _ _ Hr); reflexivity|].
        apply (r_items _ _ Hr). reflexivity.
      - destruct (seed_spec atoms Leaf prio 0%nat good_leaf) as (t & E & G & Hin).
        exists t. split; [exact E|]. split; [exact G|]. intros i. rewrite Hin. simpl. split.
        + intros [(w & -> & Hw)|[]]. apply (r_atoms _ _ Hr). exact Hw.
        + intros Hi. left. apply (proj2 (r_only_atoms _ _ Hr eq_refl)). exact Hi. }
    destruct Hs as (t & E & Ht & HD). rewrite E.
    destruct (insert_at_spec t lo hi p Ht) as (t' & E' & G & Hin). rewrite E'.
    eexists. split; [reflexivity|]. split.
    + apply (grow_right events _ t _ t' lo hi _ Hr); auto; try lia.
      intros w Hw. apply defined_app. left. apply (r_atoms _ _ Hr). exact Hw.
    + eexists. split; [reflexivity|]. intros [c q] Hx i Hi.
      destruct (link_sound t lo hi c q Ht Hx) as (_ & _ & _ & H). apply H. apply HD. exact Hi.
Qed.

Lemma define_all_right : forall events past s, right past s ->
  (forall e, In e events -> proper e) ->
  exists s', define_all s events = Some s' /\ right (past ++ events) s'.
Proof.
  induction events as [|e events IH]; intros past s Hr Hp; simpl.
  - exists s. rewrite app_nil_r. auto.
  - destruct (define_right past s e Hr (Hp e (or_introl eq_refl))) as (s1 & E & R1 & _).
    rewrite E. destruct (IH (past ++ [e]) s1 R1) as (s2 & E2 & R2); [intros; apply Hp; simpl; auto|].
    exists s2. rewrite <- app_assoc in R2. auto.
Qed.

Lemma containment_complete : forall events, (forall e, In e events -> proper e) ->
  exists s, define_all no_literals events = Some s /\
    (forall a b, defined events a -> defined events b -> inside a b ->
       rejects (l_edges s) b a /\ accepts (l_edges s) a b).
Proof.
  intros events Hp. destruct (define_all_right events [] _ right_start Hp) as (s & E & R).
  exists s. split; [exact E|]. intros a b Ha Hb Hi. pose proof (r_chain _ _ R a b Ha Hb Hi) as C.
  split; [apply chain_rejects|apply chain_accepts]; exact C.
Qed.

Lemma containment_sound : forall events s c p, (forall e, In e events -> proper e) ->
  define_all no_literals events = Some s -> In (c, p) (l_edges s) ->
  true_clause (c, p) /\ c <> p /\ defined events c /\ defined events p /\ fst p < snd p.
Proof.
  intros events s c p Hp E Hin. destruct (define_all_right events [] _ right_start Hp) as (s' & E' & R).
  rewrite E in E'. inversion E'; subst s'. simpl in R.
  destruct (r_edges _ _ R c p Hin) as (H1 & H2 & H3 & H4).
  pose proof (r_nonempty _ _ R c H1) as Hc.
  split; [|split; [exact H4|split; [exact H1|split; [exact H2|]]]].
  - intros x. unfold inside in H3. simpl. lia.
  - unfold inside in H3. destruct c as [c1 c2], p as [p1 p2]. simpl in *.
    assert (c1 <> p1 \/ c2 <> p2) by (destruct (Z.eq_dec c1 p1), (Z.eq_dec c2 p2); subst; auto). lia.
Qed.

Lemma containment_economical : forall events e s s',
  (forall x, In x (events ++ [e]) -> proper x) ->
  define_all no_literals events = Some s -> define s e = Some s' ->
  exists new, l_edges s' = l_edges s ++ new /\ forall x, In x new -> immediate events x.
Proof.
  intros events e s s' Hp E E'.
  destruct (define_all_right events [] _ right_start) as (u & Eu & R).
  { intros x Hx. apply Hp. apply in_app_iff. auto. }
  rewrite E in Eu. inversion Eu; subst u. simpl in R.
  destruct (define_right events s e R) as (w & Ew & _ & Hn).
  { apply Hp. apply in_app_iff. simpl. auto. }
  rewrite E' in Ew. inversion Ew; subst w. exact Hn.
Qed.
