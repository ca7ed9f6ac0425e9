From Coq Require Import ZArith List Bool Sorted Lia.
From Verif Require Import IntervalTree IntervalTreeSpec.
Import ListNotations.
Open Scope Z_scope.

Fixpoint items (t : tree) : list (Z * Z) :=
  match t with Leaf => [] | Node lo hi _ _ _ l r => items l ++ (lo, hi) :: items r end.

(* the stored ends are right *)
Fixpoint ends_right (t : tree) : Prop :=
  match t with
  | Leaf => True
  | Node lo hi mn mx _ l r =>
      mn = child_min (child_min hi l) r /\ mx = child_max (child_max hi l) r /\
      ends_right l /\ ends_right r
  end.

Definition good (t : tree) : Prop := ends_right t /\ StronglySorted earlier (items t).

Lemma update_items : forall t, items (update t) = items t.
Proof. destruct t; reflexivity. Qed.

Lemma earlier_trans : forall a b c, earlier a b -> earlier b c -> earlier a c.
Proof. unfold earlier. intros [a1 a2] [b1 b2] [c1 c2]. simpl. lia. Qed.

Lemma earlier_irrefl : forall a, ~ earlier a a.
Proof. unfold earlier. intros [a1 a2]. simpl. lia. Qed.

Lemma pair_less_spec : forall a b, pair_less a b = true <-> earlier a b.
Proof.
  unfold pair_less, earlier. intros [a1 a2] [b1 b2]. simpl.
  rewrite orb_true_iff, andb_true_iff, negb_true_iff, !Z.ltb_lt, Z.ltb_ge. lia.
Qed.

Lemma sorted_app : forall a (x : Z * Z) b,
  StronglySorted earlier (a ++ x :: b) <->
  StronglySorted earlier a /\ StronglySorted earlier b /\
  (forall i, In i a -> earlier i x) /\ (forall i, In i b -> earlier x i).
Proof.
  induction a as [|y a IH]; intros x b; simpl.
  - split.
    + intros H. inversion H; subst. rewrite Forall_forall in *.
      split; [constructor|]. repeat split; auto; intros i [].
    + intros (_ & Hb & _ & Hx). constructor; auto. rewrite Forall_forall. auto.
  - split.
    + intros H. inversion H as [|z l Hs Hf]; subst. apply IH in Hs.
      destruct Hs as (Ha & Hb & Hax & Hxb). rewrite Forall_forall in Hf.
      split; [|split; [exact Hb|split; [|exact Hxb]]].
      * constructor; [exact Ha|]. rewrite Forall_forall. intros i Hi. apply Hf.
        rewrite in_app_iff. auto.
      * intros i [<-|Hi]; [apply Hf; rewrite in_app_iff; simpl; auto|auto].
    + intros (Ha & Hb & Hax & Hxb). inversion Ha as [|z l Hs Hf]; subst.
      rewrite Forall_forall in Hf. constructor.
      * apply IH. repeat split; auto.
      * rewrite Forall_forall. intros i Hi. rewrite in_app_iff in Hi.
        destruct Hi as [Hi|[<-|Hi]]; auto.
        apply earlier_trans with x; auto.
Qed.

Lemma update_ends : forall lo hi mn mx p l r,
  ends_right l -> ends_right r -> ends_right (update (Node lo hi mn mx p l r)).
Proof. intros. simpl. auto. Qed.

Lemma rotate_right_spec : forall lo hi mn mx p l r,
  l <> Leaf -> ends_right l -> ends_right r ->
  exists t, rotate_right (Node lo hi mn mx p l r) = Some t /\ ends_right t /\
            items t = items l ++ (lo, hi) :: items r.
Proof.
  intros lo hi mn mx p l r Hl Hel Her. destruct l as [|llo lhi lmn lmx lp ll lr]; [congruence|].
  simpl in Hel. destruct Hel as (_ & _ & H1 & H2).
  eexists. split; [reflexivity|]. split.
  - simpl. repeat split; auto.
  - simpl. rewrite <- app_assoc. reflexivity.
Qed.

Lemma rotate_left_spec : forall lo hi mn mx p l r,
  r <> Leaf -> ends_right l -> ends_right r ->
  exists t, rotate_left (Node lo hi mn mx p l r) = Some t /\ ends_right t /\
            items t = items l ++ (lo, hi) :: items r.
Proof.
  intros lo hi mn mx p l r Hr Hel Her. destruct r as [|rlo rhi rmn rmx rp rl rr]; [congruence|].
  simpl in Her. destruct Her as (_ & _ & H1 & H2).
  eexists. split; [reflexivity|]. split.
  - simpl. repeat split; auto.
  - simpl. rewrite <- app_assoc. reflexivity.
Qed.

Lemma items_leaf : forall t i, In i (items t) -> t <> Leaf.
Proof. intros [|] i Hi; [destruct Hi|congruence]. Qed.

Lemma priority_node : forall t, t <> Leaf -> exists p, priority_of t = Some p.
Proof. intros [|]; [congruence|]. simpl. eauto. Qed.

Lemma insert_at_spec : forall t lo hi p, good t ->
  exists t', insert_at t lo hi p = Some t' /\ good t' /\
             forall i, In i (items t') <-> i = (lo, hi) \/ In i (items t).
Proof.
  induction t as [|nlo nhi mn mx np l IHl r IHr]; intros lo hi p [He Hs].
  - eexists. split; [reflexivity|]. split.
    + split; simpl; [repeat split; auto|]. constructor; constructor.
    + simpl. intros i. split; intros [H|[]]; auto.
  - simpl. destruct ((lo =? nlo) && (hi =? nhi)) eqn:Eeq.
    + apply andb_true_iff in Eeq. destruct Eeq as [E1 E2]. apply Z.eqb_eq in E1, E2. subst.
      eexists. split; [reflexivity|]. split; [split; auto|].
      intros i. simpl. rewrite in_app_iff. simpl. split; [auto|].
      intros [->|H]; auto.
    + assert (Hne : (lo, hi) <> (nlo, nhi)).
      { intros E. inversion E; subst. rewrite !Z.eqb_refl in Eeq. discriminate. }
      simpl in He. destruct He as (Emn & Emx & Hl & Hr).
      simpl in Hs. apply sorted_app in Hs. destruct Hs as (Sl & Sr & Bl & Br).
      destruct (pair_less (lo, hi) (nlo, nhi)) eqn:El.
      * apply pair_less_spec in El.
        destruct (IHl lo hi p (conj Hl Sl)) as (l' & E & [Hl' Sl'] & Hin). rewrite E.
        assert (Hnl : l' <> Leaf) by (apply (items_leaf l' (lo, hi)); apply Hin; auto).
        assert (Hall : StronglySorted earlier (items l' ++ (nlo, nhi) :: items r)).
        { apply sorted_app. repeat split; auto. intros i Hi. apply Hin in Hi.
          destruct Hi as [->|Hi]; auto. }
        assert (Hmem : forall i, In i (items l' ++ (nlo, nhi) :: items r) <->
                       i = (lo, hi) \/ In i (items l ++ (nlo, nhi) :: items r)).
        { intros i. rewrite !in_app_iff, Hin. tauto. }
        destruct (priority_node l' Hnl) as [lp Ep]. rewrite Ep.
        destruct (lp <? np).
        -- destruct (rotate_right_spec nlo nhi mn mx np l' r Hnl Hl' Hr) as (t & Et & He & Hi).
           exists t. split; [exact Et|]. unfold good. rewrite Hi. repeat split; auto; apply Hmem.
        -- eexists. split; [reflexivity|]. split; [split|].
           ++ apply update_ends; auto.
           ++ exact Hall.
           ++ exact Hmem.
      * assert (Hlt : earlier (nlo, nhi) (lo, hi)).
        { destruct (pair_less (nlo, nhi) (lo, hi)) eqn:E2; [apply pair_less_spec; exact E2|].
          exfalso. apply Hne. unfold pair_less in El, E2. simpl in El, E2.
          rewrite orb_false_iff, andb_false_iff, negb_false_iff, !Z.ltb_ge, !Z.ltb_lt in El, E2.
          f_equal; lia. }
        destruct (IHr lo hi p (conj Hr Sr)) as (r' & E & [Hr' Sr'] & Hin). rewrite E.
        assert (Hnr : r' <> Leaf) by (apply (items_leaf r' (lo, hi)); apply Hin; auto).
        assert (Hall : StronglySorted earlier (items l ++ (nlo, nhi) :: items r')).
        { apply sorted_app. repeat split; auto. intros i Hi. apply Hin in Hi.
          destruct Hi as [->|Hi]; auto. }
        assert (Hmem : forall i, In i (items l ++ (nlo, nhi) :: items r') <->
                       i = (lo, hi) \/ In i (items l ++ (nlo, nhi) :: items r)).
        { intros i. rewrite !in_app_iff. simpl. rewrite Hin. tauto. }
        destruct (priority_node r' Hnr) as [rp Ep]. rewrite Ep.
        destruct (rp <? np).
        -- destruct (rotate_left_spec nlo nhi mn mx np l r' Hnr Hl Hr') as (t & Et & He & Hi).
           exists t. split; [exact Et|]. unfold good. rewrite Hi. repeat split; auto; apply Hmem.
        -- eexists. split; [reflexivity|]. split; [split|].
           ++ apply update_ends; auto.
           ++ exact Hall.
           ++ exact Hmem.
Qed.

Lemma insert_all_spec : forall calls t, good t ->
  exists t', insert_all t calls = Some t' /\ good t' /\
             forall i, In i (items t') <-> stored calls i \/ In i (items t).
Proof.
  unfold stored. induction calls as [|[[lo hi] p] rest IH]; intros t Ht; simpl.
  - exists t. split; [reflexivity|]. split; [exact Ht|]. tauto.
  - destruct (insert_at_spec t lo hi p Ht) as (t1 & E & G & Hin). rewrite E.
    destruct (IH t1 G) as (t2 & E2 & G2 & Hin2). exists t2.
    split; [exact E2|]. split; [exact G2|]. intros i. rewrite Hin2, Hin.
    split; intros; intuition (subst; auto).
Qed.

Lemma max_bound : forall t i, ends_right t -> In i (items t) ->
  match t with Leaf => False | Node _ _ mn mx _ _ _ => mn <= snd i <= mx end.
Proof.
  induction t as [|nlo nhi mn mx np l IHl r IHr]; intros i He Hi; [destruct Hi|].
  simpl in He. destruct He as (Emn & Emx & Hl & Hr).
  simpl in Hi. rewrite in_app_iff in Hi. simpl in Hi.
  destruct Hi as [Hi|[<-|Hi]].
  - specialize (IHl i Hl Hi). destruct l; [contradiction|]. destruct r; simpl in *; lia.
  - destruct l, r; simpl in *; lia.
  - specialize (IHr i Hr Hi). destruct r; [contradiction|]. destruct l; simpl in *; lia.
Qed.

Lemma filter_none : forall (f : Z * Z -> bool) l,
  (forall i, In i l -> f i = false) -> filter f l = [].
Proof.
  induction l as [|x l IH]; intros H; [reflexivity|]. simpl.
  rewrite (H x) by (simpl; auto). apply IH. intros i Hi. apply H. simpl. auto.
Qed.

Definition contains (lo hi : Z) (i : Z * Z) : bool := (fst i <=? lo) && (hi <=? snd i).
Definition within (lo hi : Z) (i : Z * Z) : bool := (lo <=? fst i) && (snd i <=? hi).

Lemma visit_containing_filter : forall t lo hi, good t ->
  visit_containing t lo hi = filter (contains lo hi) (items t).
Proof.
  induction t as [|nlo nhi mn mx np l IHl r IHr]; intros lo hi [He Hs]; [reflexivity|].
  pose proof (max_bound (Node nlo nhi mn mx np l r)) as Hb.
  simpl in He. pose proof He as (_ & _ & Hl & Hr).
  simpl in Hs. pose proof Hs as Hs'. apply sorted_app in Hs'. destruct Hs' as (Sl & Sr & Bl & Br).
  cbn [visit_containing items]. destruct (mx <? hi) eqn:Emx.
  - apply Z.ltb_lt in Emx. symmetry. apply filter_none. intros i Hi.
    specialize (Hb i He Hi). simpl in Hb. unfold contains.
    rewrite andb_false_iff, !Z.leb_gt. lia.
  - rewrite filter_app, <- IHl by (split; auto). f_equal. simpl.
    destruct (lo <? nlo) eqn:Elo.
    + apply Z.ltb_lt in Elo. unfold contains at 1. simpl.
      replace (nlo <=? lo) with false by (symmetry; apply Z.leb_gt; lia). simpl.
      symmetry. apply filter_none. intros i Hi. specialize (Br i Hi). unfold earlier in Br.
      simpl in Br. unfold contains. rewrite andb_false_iff, !Z.leb_gt. lia.
    + apply Z.ltb_ge in Elo. rewrite IHr by (split; auto). unfold contains at 2. simpl.
      replace (nlo <=? lo) with true by (symmetry; apply Z.leb_le; lia). simpl.
      destruct (hi <=? nhi); reflexivity.
Qed.

Lemma visit_contained_in_filter : forall t lo hi, good t ->
  visit_contained_in t lo hi = filter (within lo hi) (items t).
Proof.
  induction t as [|nlo nhi mn mx np l IHl r IHr]; intros lo hi [He Hs]; [reflexivity|].
  pose proof (max_bound (Node nlo nhi mn mx np l r)) as Hb.
  simpl in He. pose proof He as (_ & _ & Hl & Hr).
  simpl in Hs. pose proof Hs as Hs'. apply sorted_app in Hs'. destruct Hs' as (Sl & Sr & Bl & Br).
  cbn [visit_contained_in items]. destruct (hi <? mn) eqn:Emn.
  - apply Z.ltb_lt in Emn. symmetry. apply filter_none. intros i Hi.
    specialize (Hb i He Hi). simpl in Hb. unfold within.
    rewrite andb_false_iff, !Z.leb_gt. lia.
  - rewrite filter_app, (IHr lo hi) by (split; auto). simpl.
    destruct (lo <=? nlo) eqn:Elo.
    + rewrite IHl by (split; auto). rewrite <- app_assoc. f_equal.
      unfold within at 2. simpl. rewrite Elo. simpl. destruct (nhi <=? hi); reflexivity.
    + rewrite (filter_none _ (items l)).
      * unfold within at 2. simpl. rewrite Elo. reflexivity.
      * intros i Hi. specialize (Bl i Hi). unfold earlier in Bl. simpl in Bl.
        apply Z.leb_gt in Elo. unfold within. rewrite andb_false_iff, !Z.leb_gt. lia.
Qed.

Lemma filter_sorted : forall f l, StronglySorted earlier l -> StronglySorted earlier (filter f l).
Proof.
  induction l as [|x l IH]; intros H; [constructor|]. inversion H; subst. simpl.
  destruct (f x); [|auto]. constructor; auto. rewrite Forall_forall in *.
  intros i Hi. apply filter_In in Hi. apply H3. tauto.
Qed.

Lemma good_leaf : good Leaf.
Proof. split; simpl; [trivial|constructor]. Qed.

Lemma tree_exact : forall calls,
  exists t, insert_all Leaf calls = Some t /\
    forall lo hi,
      visits_exactly (fun i => stored calls i /\ fst i <= lo /\ hi <= snd i)
                     (visit_containing t lo hi) /\
      visits_exactly (fun i => stored calls i /\ lo <= fst i /\ snd i <= hi)
                     (visit_contained_in t lo hi).
Proof.
  intros calls. destruct (insert_all_spec calls Leaf good_leaf) as (t & E & G & Hin).
  exists t. split; [exact E|]. intros lo hi. rewrite visit_containing_filter by exact G.
  rewrite visit_contained_in_filter by exact G. destruct G as [_ Hs].
  split; (split; [|apply filter_sorted; exact Hs]); intros i; rewrite filter_In, Hin;
    unfold contains, within; rewrite andb_true_iff, !Z.leb_le; simpl; tauto.
Qed.

Lemma sorted_unique : forall a b, StronglySorted earlier a -> StronglySorted earlier b ->
  (forall i, In i a <-> In i b) -> a = b.
Proof.
  induction a as [|x a IH]; intros b Ha Hb H.
  - destruct b as [|y b]; [reflexivity|]. exfalso. apply (H y). simpl. auto.
  - destruct b as [|y b]; [exfalso; apply (H x); simpl; auto|].
    inversion Ha as [|? ? Sa Fa]; inversion Hb as [|? ? Sb Fb]; subst.
    rewrite Forall_forall in *.
    assert (x = y).
    { pose proof (proj1 (H x) (or_introl eq_refl)) as [E|Hx]; [auto|].
      pose proof (proj2 (H y) (or_introl eq_refl)) as [E|Hy]; [auto|].
      exfalso. apply (earlier_irrefl x). apply earlier_trans with y; auto. }
    subst y. f_equal. apply IH; auto. intros i.
    split; intros Hi.
    + pose proof (proj1 (H i) (or_intror Hi)) as [E|?]; [|auto]. subst i.
      exfalso. apply (earlier_irrefl x). auto.
    + pose proof (proj2 (H i) (or_intror Hi)) as [E|?]; [|auto]. subst i.
      exfalso. apply (earlier_irrefl x). auto.
Qed.

Lemma exactly_unique : forall (P Q : Z * Z -> Prop) a b,
  visits_exactly P a -> visits_exactly Q b -> (forall i, P i <-> Q i) -> a = b.
Proof.
  intros P Q a b [Ha Sa] [Hb Sb] H. apply sorted_unique; auto.
  intros i. rewrite Ha, Hb. apply H.
Qed.

Lemma tree_order_irrelevant : forall calls calls' t t',
  (forall i, stored calls i <-> stored calls' i) ->
  insert_all Leaf calls = Some t -> insert_all Leaf calls' = Some t' ->
  forall lo hi, visit_containing t lo hi = visit_containing t' lo hi /\
                visit_contained_in t lo hi = visit_contained_in t' lo hi.
Proof.
  intros calls calls' t t' H E E' lo hi.
  destruct (tree_exact calls) as (u & F & X). destruct (tree_exact calls') as (u' & F' & X').
  rewrite E in F. rewrite E' in F'. inversion F; inversion F'; subst u u'.
  destruct (X lo hi) as [X1 X2]. destruct (X' lo hi) as [X1' X2'].
  split; [eapply exactly_unique; [exact X1|exact X1'|]|eapply exactly_unique; [exact X2|exact X2'|]];
    intros i; simpl; rewrite H; tauto.
Qed.

(* the heap order *)
Lemma heap_update : forall t, heap (update t) <-> heap t.
Proof. destruct t; simpl; tauto. Qed.

Definition at_least (p : Z) (t : tree) : Prop := forall q, priority_of t = Some q -> p <= q.

Lemma at_least_update : forall p t, at_least p (update t) <-> at_least p t.
Proof. destruct t; simpl; unfold at_least; simpl; tauto. Qed.

(* inserting keeps the heap order; the new root is the old one, or the new node *)
Lemma insert_heap : forall t lo hi p t', heap t -> insert_at t lo hi p = Some t' ->
  heap t' /\ (priority_of t' = priority_of t \/
              (priority_of t' = Some p /\
               match t' with Leaf => False
               | Node _ _ _ _ _ l r =>
                   forall b, at_least b t -> at_least b l /\ at_least b r end)).
Proof.
  induction t as [|nlo nhi mn mx np l IHl r IHr]; intros lo hi p t' Hh E; simpl in E.
  - inversion E; subst. split.
    + simpl. repeat split; intros; discriminate.
    + right. split; [reflexivity|]. intros b _. split; intros q Hq; discriminate.
  - simpl in Hh. destruct Hh as (Al & Ar & Hl & Hr).
    destruct ((lo =? nlo) && (hi =? nhi)).
    { inversion E; subst. split; [simpl; auto|left; reflexivity]. }
    destruct (pair_less (lo, hi) (nlo, nhi)).
    + destruct (insert_at l lo hi p) as [l'|] eqn:El; [|discriminate].
      destruct (IHl lo hi p l' Hl El) as [Hl' Hp].
      destruct (priority_of l') as [lp|] eqn:Ep; [|discriminate].
      destruct (lp <? np) eqn:Elt.
      * apply Z.ltb_lt in Elt.
        destruct Hp as [Hp|[Hp Hc]].
        { exfalso. specialize (Al lp). rewrite <- Hp in Al. specialize (Al eq_refl). lia. }
        destruct l' as [|a1 a2 a3 a4 a5 ll lr]; [discriminate|]. simpl in Ep, E.
        inversion Ep; subst a5. inversion Hp; subst lp. clear Ep Hp.
        inversion E; subst t'; clear E. simpl in Hl'. destruct Hl' as (B1 & B2 & B3 & B4).
        destruct (Hc np Al) as [C1 C2].
        split.
        -- simpl. repeat split; auto. intros q Hq. inversion Hq. lia.
        -- right. split; [reflexivity|]. intros b Hb.
           assert (b <= np) by (apply Hb; reflexivity).
           split.
           ++ intros q Hq. specialize (C1 q Hq). lia.
           ++ intros q Hq. inversion Hq. lia.
      * apply Z.ltb_ge in Elt. inversion E; subst t'. split.
        -- simpl. repeat split; auto. intros q Hq. rewrite Ep in Hq. inversion Hq. lia.
        -- left. reflexivity.
    + destruct (insert_at r lo hi p) as [r'|] eqn:Er; [|discriminate].
      destruct (IHr lo hi p r' Hr Er) as [Hr' Hp].
      destruct (priority_of r') as [rp|] eqn:Ep; [|discriminate].
      destruct (rp <? np) eqn:Elt.
      * apply Z.ltb_lt in Elt.
        destruct Hp as [Hp|[Hp Hc]].
        { exfalso. specialize (Ar rp). rewrite <- Hp in Ar. specialize (Ar eq_refl). lia. }
        destruct r' as [|a1 a2 a3 a4 a5 rl rr]; [discriminate|]. simpl in Ep, E.
        inversion Ep; subst a5. inversion Hp; subst rp. clear Ep Hp.
        inversion E; subst t'; clear E. simpl in Hr'. destruct Hr' as (B1 & B2 & B3 & B4).
        destruct (Hc np Ar) as [C1 C2].
        split.
        -- simpl. repeat split; auto. intros q Hq. inversion Hq. lia.
        -- right. split; [reflexivity|]. intros b Hb.
           assert (b <= np) by (apply Hb; reflexivity).
           split.
           ++ intros q Hq. inversion Hq. lia.
           ++ intros q Hq. specialize (C2 q Hq). lia.
      * apply Z.ltb_ge in Elt. inversion E; subst t'. split.
        -- simpl. repeat split; auto. intros q Hq. rewrite Ep in Hq. inversion Hq. lia.
        -- left. reflexivity.
Qed.

Lemma tree_heap : forall calls t, insert_all Leaf calls = Some t -> heap t.
Proof.
  assert (H : forall calls t t', heap t -> insert_all t calls = Some t' -> heap t').
  { induction calls as [|[[lo hi] p] rest IH]; intros t t' Ht E; simpl in E.
    - inversion E; subst. exact Ht.
    - destruct (insert_at t lo hi p) as [t1|] eqn:E1; [|discriminate].
      apply (IH t1 t'); auto. apply (insert_heap t lo hi p t1 Ht E1). }
  intros calls t. apply H. exact I.
Qed.
