(** Lemmas about interval sets. *)
From Coq Require Import ZArith List Bool Lia.
From Verif Require Import IntervalSet IntervalSetSpec.
Import ListNotations.
Local Open Scope Z_scope.

Lemma member_nil v : member v [] <-> False.
Proof. split; [intros (l & u & [] & _)|tauto]. Qed.

Lemma member_cons v l u r : member v ((l, u) :: r) <-> l <= v <= u \/ member v r.
Proof.
  unfold member. split.
  - intros (l' & u' & [E|Hin] & H); [injection E as -> ->; left; assumption|right; eauto].
  - intros [H|(l' & u' & Hin & H)]; [exists l, u; simpl; auto|exists l', u'; simpl; auto].
Qed.

Lemma member_app v s t : member v (s ++ t) <-> member v s \/ member v t.
Proof.
  induction s as [|[l u] s IH]; simpl.
  - rewrite member_nil; tauto.
  - rewrite !member_cons, IH; tauto.
Qed.

Definition above (b : Z) (s : iset) : Prop :=
  match s with [] => True | (l, _) :: _ => b + 1 < l end.

Lemma wf_cons l u r : well_formed ((l, u) :: r) <-> l <= u /\ well_formed r /\ above u r.
Proof. simpl. destruct r as [|[? ?] ?]; simpl; tauto. Qed.

Lemma wf_inv l u r : well_formed ((l, u) :: r) -> l <= u /\ well_formed r /\ above u r.
Proof. intro H. now apply wf_cons. Qed.

Lemma above_mem b s v : well_formed s -> above b s -> member v s -> b + 1 < v.
Proof.
  revert b. induction s as [|[l u] r IH]; intros b Hw Ha Hm.
  - apply member_nil in Hm; tauto.
  - apply wf_inv in Hw. destruct Hw as (Hlu & Hw & Hab). simpl in Ha.
    apply member_cons in Hm. destruct Hm as [Hm|Hm]; [lia|].
    specialize (IH u Hw Hab Hm). lia.
Qed.

Lemma above_of_mem b s : well_formed s -> (forall v, member v s -> b + 1 < v) -> above b s.
Proof.
  destruct s as [|[l u] r]; simpl; [tauto|]. intros (Hlu & _) H.
  apply H. apply member_cons. lia.
Qed.

Lemma wf_tail_gt l u r v : well_formed ((l, u) :: r) -> member v r -> u + 1 < v.
Proof. intro Hw. apply wf_inv in Hw. destruct Hw as (? & ? & ?). apply above_mem; assumption. Qed.

Lemma wf_nil : well_formed [].
Proof. exact I. Qed.

Lemma wf_tail i r : well_formed (i :: r) -> well_formed r.
Proof. destruct i. intro H. apply wf_inv in H. tauto. Qed.

(** Normalise boolean tests. *)
Ltac bsplit :=
  repeat match goal with
  | |- context [?a <=? ?b] => destruct (Z.leb_spec a b)
  | |- context [?a <? ?b] => destruct (Z.ltb_spec a b)
  | |- context [?a =? ?b] => destruct (Z.eqb_spec a b)
  end; cbn [andb orb negb].

(** Representation is canonical. *)
Lemma wf_ext s : forall t, well_formed s -> well_formed t ->
  (forall v, member v s <-> member v t) -> s = t.
Proof.
  induction s as [|[l u] r IH]; intros [|[l' u'] r'] Hs Ht E.
  - reflexivity.
  - exfalso. apply wf_inv in Ht. assert (member l' ((l', u') :: r')) by (apply member_cons; lia).
    apply E in H. apply member_nil in H. exact H.
  - exfalso. apply wf_inv in Hs. assert (member l ((l, u) :: r)) by (apply member_cons; lia).
    apply E in H. apply member_nil in H. exact H.
  - pose proof (fun v => wf_tail_gt l u r v Hs) as G. pose proof (fun v => wf_tail_gt l' u' r' v Ht) as G'.
    apply wf_inv in Hs. apply wf_inv in Ht. destruct Hs as (Hlu & Hw & Hab). destruct Ht as (Hlu' & Hw' & Hab').
    assert (Hl : l = l').
    { assert (A : member l ((l', u') :: r')) by (apply E, member_cons; lia).
      assert (B : member l' ((l, u) :: r)) by (apply E, member_cons; lia).
      apply member_cons in A. apply member_cons in B.
      destruct A as [A|A]; destruct B as [B|B]; try lia.
      - specialize (G _ B). lia.
      - specialize (G' _ A). lia.
      - specialize (G' _ A). specialize (G _ B). lia. }
    subst l'.
    assert (Hu : u = u').
    { destruct (Z.lt_trichotomy u u') as [H|[H|H]]; [|assumption|].
      - exfalso. assert (A : member (u + 1) ((l, u) :: r)) by (apply E, member_cons; lia).
        apply member_cons in A. destruct A as [A|A]; [lia|]. specialize (G _ A). lia.
      - exfalso. assert (A : member (u' + 1) ((l, u') :: r')) by (apply E, member_cons; lia).
        apply member_cons in A. destruct A as [A|A]; [lia|]. specialize (G' _ A). lia. }
    subst u'. f_equal. apply IH; try assumption. intro v. specialize (E v). rewrite !member_cons in E.
    split; intro H.
    + specialize (G _ H). destruct E as [E _]. destruct (E (or_intror H)); [lia|assumption].
    + specialize (G' _ H). destruct E as [_ E]. destruct (E (or_intror H)); [lia|assumption].
Qed.

(** ** Queries *)

Lemma is_empty_spec s : well_formed s -> (is_empty s = true <-> forall v, ~ member v s).
Proof.
  destruct s as [|[l u] r]; simpl; intro H.
  - split; [intros _ v Hv; apply member_nil in Hv; exact Hv | reflexivity].
  - split; [discriminate|]. intro N. exfalso. apply (N l). apply member_cons. lia.
Qed.

Lemma contains_spec v s : well_formed s -> (contains v s = true <-> member v s).
Proof.
  induction s as [|[l u] r IH]; intro Hw; simpl.
  - rewrite member_nil. split; [discriminate|tauto].
  - pose proof (wf_tail_gt l u r v Hw) as G. specialize (IH (wf_tail _ _ Hw)).
    rewrite member_cons. destruct ((l <=? v) && (v <=? u)) eqn:E.
    { apply andb_true_iff in E. rewrite !Z.leb_le in E. tauto. }
    apply andb_false_iff in E. rewrite !Z.leb_gt in E. destruct (Z.ltb_spec v u).
    + split; [discriminate|]. intros [?|Hm]; [lia|]. specialize (G Hm). lia.
    + rewrite IH. split; [tauto|]. intros [?|Hm]; [lia|assumption].
Qed.

Lemma lower_spec s l : well_formed s -> (lower s = Some l <-> member l s /\ forall v, member v s -> l <= v).
Proof.
  destruct s as [|[a b] r]; simpl; intro Hw.
  - split; [discriminate|]. intros [H _]. apply member_nil in H. tauto.
  - pose proof (fun v => wf_tail_gt a b r v Hw) as G. split.
    + intro E. injection E as ->. split; [apply member_cons; lia|]. intros v Hv. apply member_cons in Hv.
      destruct Hv as [|Hv]; [lia|]. specialize (G v Hv). lia.
    + intros [Hm Hle]. f_equal. assert (A : l <= a) by (apply Hle, member_cons; lia).
      apply member_cons in Hm. destruct Hm as [Hm|Hm]; [lia|]. specialize (G l Hm). lia.
Qed.

Lemma upper_cons i j r : upper (i :: j :: r) = upper (j :: r).
Proof. destruct i, j, r; reflexivity. Qed.

Lemma upper_some_nonempty s : s <> [] -> exists u, upper s = Some u.
Proof.
  induction s as [|[a b] r IH]; [tauto|]. intros _. destruct r as [|j r'].
  - exists b; reflexivity.
  - rewrite upper_cons. apply IH. discriminate.
Qed.

Lemma upper_max s u : well_formed s -> upper s = Some u -> member u s /\ forall v, member v s -> v <= u.
Proof.
  induction s as [|[a b] r IH]; intros Hw E; [discriminate|].
  destruct r as [|j r'].
  - simpl in *. injection E as ->. split; [apply member_cons; lia|].
    intros v Hv. apply member_cons in Hv. rewrite member_nil in Hv. lia.
  - rewrite upper_cons in E. destruct (IH (wf_tail _ _ Hw) E) as [A B].
    pose proof (wf_tail_gt a b _ u Hw A) as G.
    split; [apply member_cons; right; assumption|]. intros v Hv. apply member_cons in Hv.
    destruct Hv as [Hv|Hv]; [lia|]. apply B, Hv.
Qed.

Lemma upper_spec s u : well_formed s -> (upper s = Some u <-> member u s /\ forall v, member v s -> v <= u).
Proof.
  intro Hw. split; [apply upper_max; assumption|]. intros [Hm Hle].
  destruct (upper_some_nonempty s) as [u' Hu'].
  { intros ->. apply member_nil in Hm. exact Hm. }
  rewrite Hu'. f_equal. destruct (upper_max s u' Hw Hu') as [A B].
  specialize (B u Hm). specialize (Hle u' A). lia.
Qed.

Lemma contains_any_of_spec xs : forall ys, well_formed xs -> well_formed ys ->
  (contains_any_of xs ys = true <-> exists v, member v xs /\ member v ys).
Proof.
  induction xs as [|[xl xu] xs' IHx]; intros ys Hx Hy.
  - destruct ys; simpl; split; try discriminate; intros (v & H & _); apply member_nil in H; tauto.
  - induction ys as [|[yl yu] ys' IHy].
    + simpl. split; [discriminate|]. intros (v & _ & H). apply member_nil in H; tauto.
    + pose proof (fun v => wf_tail_gt xl xu xs' v Hx) as GX. pose proof (fun v => wf_tail_gt yl yu ys' v Hy) as GY.
      pose proof Hx as Hx'. pose proof Hy as Hy'. apply wf_inv in Hx'. apply wf_inv in Hy'.
      specialize (IHy (wf_tail _ _ Hy)).
      change (contains_any_of ((xl, xu) :: xs') ((yl, yu) :: ys')) with
        (if (xl <=? yu) && (yl <=? xu) then true
         else if xu <? yu then contains_any_of xs' ((yl, yu) :: ys')
         else contains_any_of ((xl, xu) :: xs') ys').
      destruct ((xl <=? yu) && (yl <=? xu)) eqn:E.
      * split; [intros _|reflexivity]. apply andb_true_iff in E. rewrite !Z.leb_le in E.
        exists (Z.max xl yl). rewrite !member_cons. lia.
      * apply andb_false_iff in E. rewrite !Z.leb_gt in E.
        destruct (Z.ltb_spec xu yu).
        -- rewrite IHx by tauto. split; intros (v & A & B); exists v.
           ++ split; [apply member_cons; right; exact A|exact B].
           ++ split; [|exact B]. apply member_cons in A. destruct A as [A|A]; [|exact A].
              exfalso. apply member_cons in B. destruct B as [B|B]; [lia|]. specialize (GY v B). lia.
        -- rewrite IHy. split; intros (v & A & B); exists v.
           ++ split; [exact A|apply member_cons; right; exact B].
           ++ split; [exact A|]. apply member_cons in B. destruct B as [B|B]; [|exact B].
              exfalso. apply member_cons in A. destruct A as [A|A]; [lia|]. specialize (GX v A). lia.
Qed.

Lemma has_holes_spec s : well_formed s ->
  (has_holes s = true <-> exists a b c, a < b < c /\ member a s /\ ~ member b s /\ member c s).
Proof.
  destruct s as [|[l u] [|[l' u'] r]]; intro Hw; simpl.
  - split; [discriminate|]. intros (a & b & c & _ & H & _). apply member_nil in H. tauto.
  - split; [discriminate|]. intros (a & b & c & ? & Ha & Hb & Hc).
    rewrite member_cons, member_nil in *. lia.
  - split; [intros _|reflexivity]. pose proof (fun v => wf_tail_gt l u _ v Hw) as G.
    pose proof Hw as Hw'. apply wf_inv in Hw'. destruct Hw' as (? & Hw' & Hab). simpl in Hab.
    apply wf_inv in Hw'.
    exists u, (u + 1), l'. split; [lia|]. rewrite (member_cons u), (member_cons l' l).
    split; [left; lia|]. split; [|right; apply member_cons; lia].
    intro Hm. apply member_cons in Hm. destruct Hm as [|Hm]; [lia|]. specialize (G _ Hm). lia.
Qed.

(** ** Values and counting *)

Lemma zseq_In l n v : In v (zseq l n) <-> l <= v < l + Z.of_nat n.
Proof.
  revert l. induction n as [|n IH]; intro l; simpl zseq.
  - simpl. lia.
  - simpl In. rewrite IH. lia.
Qed.

Lemma zseq_length l n : length (zseq l n) = n.
Proof. revert l; induction n as [|n IH]; intro l; simpl; [reflexivity|]. now rewrite IH. Qed.

Lemma zrange_In l u v : In v (zrange l u) <-> l <= v <= u.
Proof. unfold zrange. rewrite zseq_In. lia. Qed.

Lemma zseq_incr l n : strictly_increasing (zseq l n).
Proof.
  revert l; induction n as [|n IH]; intro l; simpl; [exact I|]. split; [|apply IH].
  intros y Hy. apply zseq_In in Hy. lia.
Qed.

Lemma each_In v s : In v (each s) <-> member v s.
Proof.
  unfold each. induction s as [|[l u] r IH]; simpl; [now rewrite member_nil|].
  rewrite in_app_iff, IH, zrange_In, member_cons. tauto.
Qed.

Lemma incr_app xs ys : strictly_increasing xs -> strictly_increasing ys ->
  (forall x y, In x xs -> In y ys -> x < y) -> strictly_increasing (xs ++ ys).
Proof.
  induction xs as [|x xs IH]; simpl; [tauto|]. intros (A & B) C D. split.
  - intros y Hy. apply in_app_iff in Hy. destruct Hy as [Hy|Hy]; [auto|]. apply D; auto.
  - apply IH; auto.
Qed.

Lemma each_incr s : well_formed s -> strictly_increasing (each s).
Proof.
  induction s as [|[l u] r IH]; intro Hw; [exact I|].
  change (each ((l,u)::r)) with (zrange l u ++ each r).
  apply incr_app; [apply zseq_incr|apply IH, (wf_tail _ _ Hw)|].
  intros x y Hx Hy. apply zrange_In in Hx. apply each_In in Hy.
  pose proof (wf_tail_gt _ _ _ _ Hw Hy). lia.
Qed.

Lemma each_length s : well_formed s -> Z.of_nat (length (each s)) = size s.
Proof.
  induction s as [|[l u] r IH]; intro Hw; [reflexivity|].
  change (each ((l,u)::r)) with (zrange l u ++ each r).
  rewrite app_length, Nat2Z.inj_add, IH by exact (wf_tail _ _ Hw). simpl size.
  unfold zrange. rewrite zseq_length. apply wf_inv in Hw. lia.
Qed.

Lemma each_reversed_rev s : each_reversed s = rev (each s).
Proof.
  unfold each_reversed, each. induction s as [|[l u] r IH]; [reflexivity|]. simpl.
  rewrite rev_app_distr, <- IH, flat_map_app. simpl. now rewrite app_nil_r.
Qed.

Lemma decr_app xs ys : strictly_decreasing xs -> strictly_decreasing ys ->
  (forall x y, In x xs -> In y ys -> y < x) -> strictly_decreasing (xs ++ ys).
Proof.
  induction xs as [|x xs IH]; simpl; [tauto|]. intros (A & B) C D. split.
  - intros y Hy. apply in_app_iff in Hy. destruct Hy as [Hy|Hy]; [auto|]. apply D; auto.
  - apply IH; auto.
Qed.

Lemma incr_rev xs : strictly_increasing xs -> strictly_decreasing (rev xs).
Proof.
  induction xs as [|x xs IH]; simpl; [tauto|]. intros (A & B).
  apply decr_app; [auto|simpl; split; [tauto|exact I]|].
  intros a b Ha [->|[]]. apply A. now apply in_rev.
Qed.

Lemma each_gap_interval_spec s a b : well_formed s -> In (a, b) (each_gap_interval s) ->
  a < b /\ member (a - 1) s /\ member b s /\ (forall v, a <= v < b -> ~ member v s).
Proof.
  induction s as [|[l u] r IH]; intros Hw Hin; [destruct Hin|].
  destruct r as [|[l' u'] r']; [destruct Hin|].
  pose proof (fun v => wf_tail_gt l u _ v Hw) as G.
  pose proof Hw as Hw2. apply wf_inv in Hw2. destruct Hw2 as (Hlu & Hw2 & Hab). simpl in Hab.
  change (each_gap_interval ((l,u)::(l',u')::r')) with ((u+1,l') :: each_gap_interval ((l',u')::r')) in Hin.
  destruct Hin as [E|Hin].
  - injection E as <- <-. pose proof (fun v => wf_tail_gt l' u' _ v Hw2) as G2. apply wf_inv in Hw2.
    split; [lia|]. split; [apply member_cons; lia|]. split; [rewrite !member_cons; lia|].
    intros v Hv Hm. rewrite !member_cons in Hm. destruct Hm as [|[|Hm]]; [lia|lia|]. specialize (G2 v Hm). lia.
  - destruct (IH Hw2 Hin) as (A & B & C & D). split; [assumption|].
    split; [apply member_cons; right; assumption|]. split; [apply member_cons; right; assumption|].
    intros v Hv Hm. apply member_cons in Hm. destruct Hm as [Hm|Hm]; [|apply (D v Hv Hm)].
    specialize (G _ B). lia.
Qed.

Lemma each_gap_In s v : well_formed s ->
  (In v (each_gap s) <-> ~ member v s /\ exists a c, a < v < c /\ member a s /\ member c s).
Proof.
  intro Hw. unfold each_gap. rewrite in_flat_map. split.
  - intros ([a b] & Hin & Hv). apply zrange_In in Hv.
    destruct (each_gap_interval_spec s a b Hw Hin) as (A & B & C & D).
    split; [apply D; lia|]. exists (a - 1), b. split; [lia|tauto].
  - intros (Hn & a & c & Hac & Ha & Hc).
    revert a Ha Hac. induction s as [|[l u] r IH]; intros a Ha Hac; [apply member_nil in Hc; tauto|].
    pose proof (fun v => wf_tail_gt l u _ v Hw) as G.
    pose proof Hw as Hw2. apply wf_inv in Hw2. destruct Hw2 as (Hlu & Hw2 & Hab).
    rewrite member_cons in Hn, Ha, Hc.
    assert (Hc' : member c r) by (destruct Hc as [Hc|Hc]; [|assumption];
      exfalso; destruct Ha as [Ha|Ha]; [lia|]; specialize (G _ Ha); lia).
    destruct r as [|[l' u'] r']; [apply member_nil in Hc'; tauto|].
    change (each_gap_interval ((l,u)::(l',u')::r')) with ((u+1,l') :: each_gap_interval ((l',u')::r')).
    simpl in Hab.
    destruct (Z_lt_dec v l') as [Hlt|Hge].
    + exists (u+1, l'). split; [left; reflexivity|]. apply zrange_In.
      destruct Ha as [Ha|Ha]; [lia|]. pose proof (G _ Ha). pose proof Ha as Ha2.
      apply member_cons in Ha2. pose proof Hw2 as Hw3. apply wf_inv in Hw3.
      destruct Ha2 as [|Ha2]; [lia|]. pose proof (wf_tail_gt _ _ _ _ Hw2 Ha2). lia.
    + destruct (IH Hw2 ltac:(tauto) Hc' l') as (p & Hp & Hvp).
      * apply member_cons. apply wf_inv in Hw2. lia.
      * rewrite member_cons in Hn. apply wf_inv in Hw2. assert (v <> l') by (intros ->; apply Hn; right; left; lia). lia.
      * exists p. split; [right; exact Hp|exact Hvp].
Qed.

Lemma each_gap_lower_bound s p : well_formed s -> In p (each_gap_interval s) ->
  forall l u r, s = (l,u)::r -> u < fst p.
Proof.
  intros Hw Hin l u r ->. destruct p as [a b]. simpl.
  destruct r as [|[l' u'] r']; [destruct Hin|].
  change (each_gap_interval ((l,u)::(l',u')::r')) with ((u+1,l') :: each_gap_interval ((l',u')::r')) in Hin.
  destruct Hin as [E|Hin]; [injection E as <- <-; lia|].
  destruct (each_gap_interval_spec _ a b (wf_tail _ _ Hw) Hin) as (_ & B & _).
  pose proof (wf_tail_gt _ _ _ _ Hw B). lia.
Qed.

Lemma each_gap_incr s : well_formed s -> strictly_increasing (each_gap s).
Proof.
  unfold each_gap. induction s as [|[l u] r IH]; intro Hw; [exact I|].
  destruct r as [|[l' u'] r']; [exact I|].
  change (each_gap_interval ((l,u)::(l',u')::r')) with ((u+1,l') :: each_gap_interval ((l',u')::r')).
  simpl flat_map. apply incr_app; [apply zseq_incr|apply IH, (wf_tail _ _ Hw)|].
  intros x y Hx Hy. apply zrange_In in Hx. apply in_flat_map in Hy. destruct Hy as ([a b] & Hin & Hy).
  apply zrange_In in Hy.
  pose proof (each_gap_lower_bound _ _ (wf_tail _ _ Hw) Hin l' u' r' eq_refl) as L. simpl in L.
  apply wf_inv in Hw. destruct Hw as (? & Hw2 & ?). apply wf_inv in Hw2. lia.
Qed.

(** ** Mutators *)

(** Build a well-formed cons from facts about members. *)
Lemma wf_cons_mem l u r : l <= u -> well_formed r -> (forall v, member v r -> u + 1 < v) ->
  well_formed ((l, u) :: r).
Proof. intros. apply wf_cons. split; [assumption|]. split; [assumption|]. now apply above_of_mem. Qed.

Lemma erase_above v s : well_formed s -> (forall w, member w s -> v < w) -> erase v s = s.
Proof.
  destruct s as [|[f t] r]; intros Hw H; [reflexivity|]. simpl.
  assert (v < f) by (apply H, member_cons; apply wf_inv in Hw; lia).
  bsplit; try lia; reflexivity.
Qed.

Lemma erase_spec v s : well_formed s -> represents (erase v s) (fun w => member w s /\ w <> v).
Proof.
  unfold represents. induction s as [|[f t] r IH]; intro Hw.
  - simpl. split; [exact I|]. intro w. rewrite member_nil. tauto.
  - pose proof (fun w => wf_tail_gt f t r w Hw) as G. pose proof Hw as Hw2. apply wf_inv in Hw2.
    destruct Hw2 as (Hft & Hwr & Hab). destruct (IH Hwr) as [IHw IHm]. simpl.
    destruct ((f <=? v) && (v <=? t)) eqn:E.
    + apply andb_true_iff in E. rewrite !Z.leb_le in E.
      assert (Her : erase v r = r) by (apply erase_above; [assumption|intros w Hwm; specialize (G w Hwm); lia]).
      rewrite Her.
      assert (Gv : forall w, member w r -> w <> v) by (intros w Hwm; specialize (G w Hwm); lia).
      destruct (Z.eqb_spec f t).
      { split; [assumption|]. intro w. rewrite member_cons. split; [intro Hm; split; [tauto|auto]|].
        intros [[H|H] ?]; [lia|assumption]. }
      destruct (Z.eqb_spec v f).
      { split; [apply wf_cons; repeat split; try assumption; lia|].
        intro w. rewrite !member_cons. split.
        - intros [H|H]; [lia|]. split; [tauto|auto].
        - intros [[H|H] ?]; [left; lia|tauto]. }
      destruct (Z.eqb_spec v t).
      { split; [apply wf_cons_mem; try assumption; try lia; intros w Hm; specialize (G w Hm); lia|].
        intro w. rewrite !member_cons. split.
        - intros [H|H]; [lia|]. split; [tauto|auto].
        - intros [[H|H] ?]; [left; lia|tauto]. }
      assert (Hw3 : well_formed ((v+1, t) :: r)) by (apply wf_cons; repeat split; try assumption; lia).
      split.
      { apply wf_cons_mem; [lia|assumption|]. intros w Hm. apply member_cons in Hm.
        destruct Hm as [Hm|Hm]; [lia|]. specialize (G w Hm). lia. }
      intro w. rewrite !member_cons. split.
      * intros [H|[H|H]]; [lia|lia|]. split; [tauto|auto].
      * intros [[H|H] ?]; [lia|tauto].
    + apply andb_false_iff in E. rewrite !Z.leb_gt in E.
      destruct (Z.ltb_spec v f).
      * split; [assumption|]. intro w. split; [|tauto]. intro Hm. split; [exact Hm|].
        apply member_cons in Hm. destruct Hm as [Hm|Hm]; [lia|]. specialize (G w Hm). lia.
      * split.
        { apply wf_cons_mem; try assumption. intros w Hm. apply IHm in Hm. apply G. tauto. }
        intro w. rewrite !member_cons, IHm. split.
        -- intros [H1|H1]; [lia|]. tauto.
        -- tauto.
Qed.

Lemma erase_range_loop_spec lo hi s : lo <= hi -> well_formed s ->
  represents (erase_range_loop lo hi s) (fun w => member w s /\ ~ lo <= w <= hi).
Proof.
  intro Hle. unfold represents. induction s as [|[f t] r IH]; intro Hw.
  - simpl. split; [exact I|]. intro w. rewrite member_nil. tauto.
  - pose proof (fun w => wf_tail_gt f t r w Hw) as G. pose proof Hw as Hw2. apply wf_inv in Hw2.
    destruct Hw2 as (Hft & Hwr & Hab). destruct (IH Hwr) as [IHw IHm]. simpl.
    assert (GI : forall w, member w (erase_range_loop lo hi r) -> t + 1 < w).
    { intros w Hm. apply IHm in Hm. apply G. tauto. }
    destruct (Z.ltb_spec t lo).
    { split; [apply wf_cons_mem; assumption|].
      intro w. rewrite !member_cons, IHm. split; [intros [|]|]; try tauto. lia. }
    destruct (Z.ltb_spec hi f).
    { split; [assumption|]. intro w. rewrite member_cons. split; [|tauto]. intro Hm. split; [exact Hm|].
      destruct Hm as [Hm|Hm]; [lia|]. specialize (G w Hm). lia. }
    destruct (Z.ltb_spec f lo); destruct (Z.ltb_spec hi t); cbn [andb].
    + assert (Hw3 : well_formed ((hi+1, t) :: r)) by (apply wf_cons; repeat split; try assumption; lia).
      split.
      { apply wf_cons_mem; [lia|assumption|]. intros w Hm. apply member_cons in Hm.
        destruct Hm as [Hm|Hm]; [lia|]. specialize (G w Hm). lia. }
      intro w. rewrite !member_cons. split.
      * intros [?|[?|Hm]]; [lia|lia|]. specialize (G w Hm). split; [tauto|lia].
      * intros [[?|?] ?]; [lia|tauto].
    + split; [apply wf_cons_mem; [lia|assumption|intros w Hm; specialize (GI w Hm); lia]|].
      intro w. rewrite !member_cons, IHm. split.
      * intros [?|?]; [lia|tauto].
      * intros [[?|?] ?]; [left; lia|tauto].
    + split; [apply wf_cons; repeat split; try assumption; lia|].
      intro w. rewrite !member_cons. split.
      * intros [?|Hm]; [lia|]. specialize (G w Hm). split; [tauto|lia].
      * intros [[?|?] ?]; [left; lia|tauto].
    + split; [assumption|]. intro w. rewrite member_cons, IHm. split; [tauto|].
      intros [[?|?] ?]; [lia|tauto].
Qed.

Lemma erase_range_spec lo hi s : well_formed s ->
  represents (erase_range lo hi s) (fun w => member w s /\ ~ lo <= w <= hi).
Proof.
  intro Hw. unfold erase_range. destruct (Z.ltb_spec hi lo).
  - split; [assumption|]. intro w. split; [intro; split; [assumption|lia]|tauto].
  - apply erase_range_loop_spec; assumption.
Qed.

Lemma erase_less_than_loop_some v s s' : well_formed s -> erase_less_than_loop v s = Some s' ->
  represents s' (fun w => member w s /\ v <= w).
Proof.
  unfold represents. induction s as [|[f t] r IH]; intros Hw E; [discriminate|].
  pose proof (fun w => wf_tail_gt f t r w Hw) as G. pose proof Hw as Hw2. apply wf_inv in Hw2.
  destruct Hw2 as (Hft & Hwr & Hab). simpl in E.
  destruct ((f <=? v) && (v <=? t)) eqn:E1.
  - injection E as <-. apply andb_true_iff in E1. rewrite !Z.leb_le in E1.
    split; [apply wf_cons; repeat split; try assumption; lia|].
    intro w. rewrite !member_cons. split.
    + intros [?|Hm]; [lia|]. specialize (G w Hm). split; [tauto|lia].
    + intros [[?|?] ?]; [left; lia|tauto].
  - apply andb_false_iff in E1. rewrite !Z.leb_gt in E1.
    destruct (Z.ltb_spec v f).
    + injection E as <-. split; [assumption|]. intro w. rewrite member_cons. split; [|tauto].
      intro Hm. split; [exact Hm|]. destruct Hm as [?|Hm]; [lia|]. specialize (G w Hm). lia.
    + destruct (IH Hwr E) as [A B]. split; [assumption|]. intro w. rewrite B, member_cons. split; [tauto|].
      intros [[?|?] ?]; [lia|tauto].
Qed.

Lemma erase_less_than_loop_none v s : well_formed s -> erase_less_than_loop v s = None ->
  forall w, member w s -> w < v.
Proof.
  induction s as [|[f t] r IH]; intros Hw E w Hm; [apply member_nil in Hm; tauto|].
  simpl in E. destruct ((f <=? v) && (v <=? t)) eqn:E1; [discriminate|].
  apply andb_false_iff in E1. rewrite !Z.leb_gt in E1.
  destruct (Z.ltb_spec v f); [discriminate|].
  apply member_cons in Hm. destruct Hm as [Hm|Hm]; [lia|]. apply IH; try assumption. exact (wf_tail _ _ Hw).
Qed.

Lemma erase_less_than_spec v s : well_formed s ->
  represents (erase_less_than v s) (fun w => member w s /\ v <= w).
Proof.
  intro Hw. unfold erase_less_than. destruct (erase_less_than_loop v s) as [s'|] eqn:E.
  - apply erase_less_than_loop_some; assumption.
  - pose proof (erase_less_than_loop_none v s Hw E) as N.
    destruct (upper s) as [u|] eqn:U.
    + destruct (upper_max s u Hw U) as [A B]. specialize (N u A).
      destruct (Z.ltb_spec u v); [|lia]. split; [exact I|]. intro w. rewrite member_nil.
      split; [tauto|]. intros [Hm ?]. specialize (B w Hm). lia.
    + split; [assumption|]. intro w. split; [|tauto]. intro Hm. exfalso.
      destruct (upper_some_nonempty s) as [u' Hu']; [|congruence].
      intros ->. apply member_nil in Hm. tauto.
Qed.

Lemma erase_greater_than_spec v s : well_formed s ->
  represents (erase_greater_than v s) (fun w => member w s /\ w <= v).
Proof.
  unfold represents. induction s as [|[f t] r IH]; intro Hw.
  - simpl. split; [exact I|]. intro w. rewrite member_nil. tauto.
  - pose proof (fun w => wf_tail_gt f t r w Hw) as G. pose proof Hw as Hw2. apply wf_inv in Hw2.
    destruct Hw2 as (Hft & Hwr & Hab). destruct (IH Hwr) as [IHw IHm]. simpl.
    destruct ((f <=? v) && (v <=? t)) eqn:E1.
    + apply andb_true_iff in E1. rewrite !Z.leb_le in E1.
      split; [simpl; lia|]. intro w. rewrite !member_cons, member_nil. split.
      * intros [?|[]]. lia.
      * intros [[?|Hm] ?]; [left; lia|]. specialize (G w Hm). lia.
    + apply andb_false_iff in E1. rewrite !Z.leb_gt in E1. destruct (Z.ltb_spec v f).
      * split; [exact I|]. intro w. rewrite member_nil, member_cons. split; [tauto|].
        intros [[?|Hm] ?]; [lia|]. specialize (G w Hm). lia.
      * split.
        { apply wf_cons_mem; try assumption. intros w Hm. apply IHm in Hm. apply G; tauto. }
        intro w. rewrite !member_cons, IHm. split; [intros [?|?]; [lia|tauto]|tauto].
Qed.

Lemma insert_interval_at_end_spec l u s : well_formed s -> l <= u ->
  (forall v, member v s -> v < l) ->
  represents (insert_interval_at_end l u s) (fun w => member w s \/ l <= w <= u).
Proof.
  intros Hw Hlu. unfold represents. induction s as [|[f t] r IH]; intro Hall.
  - simpl. split; [lia|]. intro w. rewrite member_cons, !member_nil. tauto.
  - pose proof (fun w => wf_tail_gt f t r w Hw) as G. pose proof Hw as Hw2. apply wf_inv in Hw2.
    destruct Hw2 as (Hft & Hwr & Hab).
    assert (Ht : t < l) by (apply Hall, member_cons; lia).
    destruct r as [|i r'].
    + simpl. destruct (Z.eqb_spec t (l - 1)).
      * split; [simpl; lia|]. intro w. rewrite !member_cons, member_nil. lia.
      * split; [simpl; lia|]. intro w. rewrite !member_cons, member_nil. lia.
    + destruct (IH Hwr) as [A B]. { intros v Hv. apply Hall, member_cons. tauto. }
      change (insert_interval_at_end l u ((f,t)::i::r')) with ((f,t) :: insert_interval_at_end l u (i::r')).
      split.
      * apply wf_cons_mem; try assumption. intros w Hm. apply B in Hm. destruct Hm as [Hm|Hm]; [auto|].
        destruct i as [il iu]. assert (member il ((il,iu)::r')) by (apply member_cons; apply wf_inv in Hwr; lia).
        pose proof (G _ H). assert (il < l) by (apply Hall, member_cons; tauto). lia.
      * intro w. rewrite !(member_cons w f), B. tauto.
Qed.

Lemma insert_at_end_as_interval v s : insert_at_end v s = insert_interval_at_end v v s.
Proof.
  induction s as [|[f t] r IH]; [reflexivity|]. destruct r as [|i r'].
  - simpl. destruct (Z.eqb_spec t (v - 1)); [|reflexivity]. do 2 f_equal. lia.
  - change (insert_at_end v ((f,t)::i::r')) with ((f,t) :: insert_at_end v (i::r')).
    rewrite IH. reflexivity.
Qed.

Lemma skip_below_spec x js : well_formed js ->
  well_formed (skip_below x js) /\ (forall v, x <= v -> (member v (skip_below x js) <-> member v js)) /\
  match skip_below x js with [] => True | (_, u) :: _ => x <= u end.
Proof.
  induction js as [|[l u] r IH]; intro Hw; simpl; [tauto|].
  pose proof (wf_tail _ _ Hw) as Hwr. specialize (IH Hwr). destruct (Z.ltb_spec u x).
  - destruct IH as (A & B & C). split; [assumption|]. split; [|assumption].
    intros v Hv. rewrite B by assumption. rewrite member_cons. split; [tauto|]. intros [?|?]; [lia|assumption].
  - split; [assumption|]. split; [tauto|assumption].
Qed.

(** The inner loop: what it emits is the part of [ks] inside the interval, and
    the cursor left behind has the same members above the interval. *)
Lemma intersect_inner_spec il iu ks out k' : il <= iu -> well_formed ks ->
  match ks with [] => True | (_, u) :: _ => il <= u end ->
  intersect_inner il iu ks = (out, k') ->
  well_formed out /\ (forall v, member v out <-> (member v ks /\ il <= v <= iu)) /\
  well_formed k' /\ (forall v, iu < v -> (member v k' <-> member v ks)).
Proof.
  revert il out k'. induction ks as [|[kl ku] r IH]; intros il out k' Hle Hw Hu E; simpl in E.
  - injection E as <- <-. split; [exact I|]. split; [intro; rewrite member_nil; tauto|]. split; [exact I|tauto].
  - pose proof (fun w => wf_tail_gt kl ku r w Hw) as G. pose proof Hw as Hw2. apply wf_inv in Hw2.
    destruct Hw2 as (Hk & Hwr & Hab). destruct (Z.leb_spec kl iu).
    + destruct (Z.ltb_spec iu ku).
      * injection E as <- <-. split; [simpl; destruct (Z.ltb_spec kl il); lia|]. split; [|tauto].
        intro v. rewrite !member_cons, member_nil. split.
        -- destruct (Z.ltb_spec kl il); intros [?|[]]; lia.
        -- intros [[?|Hm] ?]; [left; destruct (Z.ltb_spec kl il); lia|]. specialize (G v Hm). lia.
      * destruct (intersect_inner il iu r) as [o k] eqn:E2. injection E as <- <-.
        assert (Hu2 : match r with [] => True | (_, u) :: _ => il <= u end).
        { destruct r as [|[a b] r']; [exact I|]. simpl in Hab. apply wf_inv in Hwr. lia. }
        destruct (IH il o k Hle Hwr Hu2 E2) as (A & B & C & D).
        split.
        { apply wf_cons_mem; [destruct (Z.ltb_spec kl il); lia|assumption|].
          intros v Hv. apply B in Hv. apply G. tauto. }
        split.
        { intro v. rewrite !member_cons, B. split.
          - destruct (Z.ltb_spec kl il); intros [?|?]; [lia|tauto|lia|tauto].
          - intros [[?|?] ?]; [left; destruct (Z.ltb_spec kl il); lia|tauto]. }
        split; [assumption|]. intros v Hv. rewrite (D v Hv), member_cons. split; [tauto|].
        intros [?|?]; [lia|assumption].
    + injection E as <- <-. split; [exact I|]. split; [|split; [assumption|tauto]].
      intro v. rewrite member_nil, member_cons. split; [tauto|]. intros [[?|Hm] ?]; [lia|].
      specialize (G v Hm). lia.
Qed.

Lemma wf_app s t : well_formed s -> well_formed t ->
  (forall x y, member x s -> member y t -> x + 1 < y) -> well_formed (s ++ t).
Proof.
  induction s as [|[l u] r IH]; intros Hs Ht H; [assumption|].
  pose proof (fun w => wf_tail_gt l u r w Hs) as G. apply wf_inv in Hs. destruct Hs as (Hlu & Hr & Hab).
  simpl app. apply wf_cons_mem; [assumption| |].
  - apply IH; try assumption. intros x y Hx Hy. apply H; [apply member_cons; tauto|assumption].
  - intros v Hv. apply member_app in Hv. destruct Hv as [Hv|Hv]; [auto|].
    apply H; [apply member_cons; lia|assumption].
Qed.

Lemma intersect_with_spec s : forall other, well_formed s -> well_formed other ->
  represents (intersect_with s other) (fun v => member v s /\ member v other).
Proof.
  unfold represents. induction s as [|[il iu] r IH]; intros other Hs Ho.
  - simpl. split; [exact I|]. intro; rewrite member_nil; tauto.
  - pose proof (fun w => wf_tail_gt il iu r w Hs) as G. pose proof Hs as Hs2. apply wf_inv in Hs2.
    destruct Hs2 as (Hlu & Hr & Hab). simpl.
    destruct (skip_below_spec il other Ho) as (A & B & C).
    destruct (intersect_inner il iu (skip_below il other)) as [out j'] eqn:E.
    destruct (intersect_inner_spec _ _ _ _ _ Hlu A C E) as (P & Q & R & S).
    destruct (IH j' Hr R) as [IHw IHm].
    split.
    + apply wf_app; try assumption. intros x y Hx Hy. apply Q in Hx. apply IHm in Hy.
      pose proof (G y ltac:(tauto)). lia.
    + intro v. rewrite member_app, Q, IHm, member_cons. split.
      * intros [[Hm ?]|[Hm Hj]].
        -- rewrite B in Hm by lia. split; [left; assumption|assumption].
        -- pose proof (G v Hm). rewrite S in Hj by lia. rewrite B in Hj by lia. tauto.
      * intros [[Hi|Hm] Hv].
        -- left. split; [|assumption]. apply B; [lia|assumption].
        -- right. split; [assumption|]. pose proof (G v Hm). apply S; [lia|]. apply B; [lia|assumption].
Qed.

Lemma minus_inner_spec iu js : forall cur out c j', cur <= iu -> well_formed js ->
  match js with [] => True | (_, u) :: _ => cur <= u end ->
  minus_inner cur iu js = (out, c, j') ->
  well_formed (out ++ (if c <=? iu then [(c, iu)] else [])) /\
  (forall v, member v (out ++ (if c <=? iu then [(c, iu)] else [])) <-> (cur <= v <= iu /\ ~ member v js)) /\
  well_formed j' /\ (forall v, iu < v -> (member v j' <-> member v js)).
Proof.
  induction js as [|[jl ju] r IH]; intros cur out c j' Hle Hw Hu E.
  - simpl in E. injection E as <- <- <-. simpl app. destruct (Z.leb_spec cur iu); [|lia].
    split; [simpl; lia|]. split; [|tauto]. intro v. rewrite member_cons, !member_nil. tauto.
  - pose proof (fun w => wf_tail_gt jl ju r w Hw) as G. pose proof Hw as Hw2. apply wf_inv in Hw2.
    destruct Hw2 as (Hk & Hwr & Hab). simpl in E. destruct (Z.leb_spec jl iu).
    + destruct (Z.ltb_spec iu (ju + 1)).
      * injection E as <- <- <-. destruct (Z.leb_spec (ju + 1) iu); [lia|].
        rewrite app_nil_r. split; [destruct (Z.ltb_spec cur jl); simpl; lia|]. split; [|tauto].
        intro v. rewrite member_cons. destruct (Z.ltb_spec cur jl).
        -- rewrite member_cons, member_nil. split.
           ++ intros [?|[]]. split; [lia|]. intros [?|Hm]; [lia|]. specialize (G v Hm). lia.
           ++ intros [? N]. left. assert (~ jl <= v <= ju) by tauto. lia.
        -- rewrite member_nil. split; [tauto|]. intros [? N]. assert (~ jl <= v <= ju) by tauto. lia.
      * destruct (minus_inner (ju + 1) iu r) as [[o cc] jj] eqn:E2. injection E as <- <- <-.
        assert (Hu2 : match r with [] => True | (_, u) :: _ => ju + 1 <= u end).
        { destruct r as [|[a b] r']; [exact I|]. simpl in Hab. apply wf_inv in Hwr. lia. }
        destruct (IH (ju + 1) o cc jj ltac:(lia) Hwr Hu2 E2) as (A & B & C & D).
        rewrite <- app_assoc. split; [|split; [|split; [assumption|]]].
        -- apply wf_app; [destruct (Z.ltb_spec cur jl); simpl; lia|assumption|].
           intros x y Hx Hy. apply B in Hy. destruct (Z.ltb_spec cur jl).
           ++ rewrite member_cons, member_nil in Hx. lia.
           ++ apply member_nil in Hx. tauto.
        -- intro v. rewrite member_app, B, member_cons. destruct (Z.ltb_spec cur jl).
           ++ rewrite member_cons, member_nil. split.
              ** intros [[?|[]]|[? N]].
                 --- split; [lia|]. intros [?|Hm]; [lia|]. specialize (G v Hm). lia.
                 --- split; [lia|]. intros [?|Hm]; [lia|tauto].
              ** intros [? N]. destruct (Z_lt_dec v jl); [left; left; lia|]. right.
                 assert (~ jl <= v <= ju) by tauto. split; [lia|tauto].
           ++ rewrite member_nil. split.
              ** intros [[]|[? N]]. split; [lia|]. intros [?|Hm]; [lia|tauto].
              ** intros [? N]. right. assert (~ jl <= v <= ju) by tauto. split; [lia|tauto].
        -- intros v Hv. rewrite (D v Hv), member_cons. split; [tauto|]. intros [?|?]; [lia|assumption].
    + injection E as <- <- <-. simpl app. destruct (Z.leb_spec cur iu); [|lia].
      split; [simpl; lia|]. split; [|split; [assumption|tauto]].
      intro v. rewrite !member_cons, member_nil. split.
      * intros [?|[]]. split; [lia|]. intros [?|Hm]; [lia|]. specialize (G v Hm). lia.
      * tauto.
Qed.

Lemma each_interval_minus_spec s : forall other, well_formed s -> well_formed other ->
  represents (each_interval_minus s other) (fun v => member v s /\ ~ member v other).
Proof.
  unfold represents. induction s as [|[il iu] r IH]; intros other Hs Ho.
  - simpl. split; [exact I|]. intro; rewrite member_nil; tauto.
  - pose proof (fun w => wf_tail_gt il iu r w Hs) as G. pose proof Hs as Hs2. apply wf_inv in Hs2.
    destruct Hs2 as (Hlu & Hr & Hab). simpl.
    destruct (skip_below_spec il other Ho) as (A & B & C).
    destruct (minus_inner il iu (skip_below il other)) as [[out c] j'] eqn:E.
    destruct (minus_inner_spec _ _ _ _ _ _ Hlu A C E) as (P & Q & R & S).
    destruct (IH j' Hr R) as [IHw IHm]. rewrite app_assoc.
    split.
    + apply wf_app; try assumption. intros x y Hx Hy. apply Q in Hx. apply IHm in Hy.
      pose proof (G y ltac:(tauto)). lia.
    + intro v. rewrite member_app, Q, IHm, member_cons. split.
      * intros [[? Hm]|[Hm Hj]].
        -- rewrite B in Hm by lia. split; [left; assumption|assumption].
        -- pose proof (G v Hm). rewrite S in Hj by lia. rewrite B in Hj by lia. tauto.
      * intros [[Hi|Hm] Hv].
        -- left. split; [assumption|]. rewrite B by lia. assumption.
        -- right. split; [assumption|]. pose proof (G v Hm). rewrite S by lia. rewrite B by lia. assumption.
Qed.

Lemma each_interval_sep s : well_formed s -> forall l u, In (l, u) s ->
  l <= u /\ ~ member (l - 1) s /\ ~ member (u + 1) s.
Proof.
  induction s as [|[a b] r IH]; intros Hw l u Hin; [destruct Hin|].
  pose proof (fun w => wf_tail_gt a b r w Hw) as G. pose proof Hw as Hw2. apply wf_inv in Hw2.
  destruct Hin as [E|Hin].
  - injection E as -> ->. split; [tauto|]. split; intro Hm; apply member_cons in Hm;
      destruct Hm as [?|Hm]; try lia; specialize (G _ Hm); lia.
  - destruct (IH ltac:(tauto) l u Hin) as (A & B & C). split; [assumption|].
    assert (Hl : member l r) by (exists l, u; split; [assumption|lia]).
    assert (Hu : member u r) by (exists l, u; split; [assumption|lia]).
    pose proof (G _ Hl). pose proof (G _ Hu).
    split; intro Hm; apply member_cons in Hm; destruct Hm; try lia; tauto.
Qed.

Lemma size_nonneg s : well_formed s -> 0 <= size s.
Proof. intro H. rewrite <- each_length by assumption. lia. Qed.

Lemma incr_NoDup xs : strictly_increasing xs -> NoDup xs.
Proof.
  induction xs as [|x xs IH]; simpl; [constructor|]. intros (A & B). constructor; [|auto].
  intro Hin. specialize (A x Hin). lia.
Qed.

Lemma insert_at_end_touching_refuted : exists s v, well_formed s /\ upper s = Some v /\
  ~ well_formed (insert_at_end v s) /\ size (insert_at_end v s) <> size s.
Proof.
  exists [(1, 3)], 3. split; [simpl; lia|]. split; [reflexivity|]. split; simpl; lia.
Qed.

(** ** Histories *)

Lemma run_op_spec o s P : represents s P -> op_allowed o P ->
  represents (run_op o s) (op_meaning o P).
Proof.
  intros [Hw Hm] Ha.
  assert (Conv : forall s' Q R, represents s' Q -> (forall v, Q v <-> R v) -> represents s' R).
  { intros s' Q R [A B] C. split; [assumption|]. intro v. rewrite B. apply C. }
  destruct o; simpl in *.
  - eapply Conv; [apply erase_spec; assumption|]. intro w; simpl. rewrite Hm. tauto.
  - eapply Conv; [apply erase_range_spec; assumption|]. intro w; simpl. rewrite Hm. tauto.
  - eapply Conv; [apply erase_less_than_spec; assumption|]. intro w; simpl. rewrite Hm. tauto.
  - eapply Conv; [apply erase_greater_than_spec; assumption|]. intro w; simpl. rewrite Hm. tauto.
  - split; [exact I|]. intro v. rewrite member_nil. tauto.
  - eapply Conv; [apply intersect_with_spec; assumption|]. intro w; simpl. rewrite Hm. tauto.
  - rewrite insert_at_end_as_interval. eapply Conv; [apply insert_interval_at_end_spec; [assumption|lia|]|].
    + intros w Hmw. apply Ha. now apply Hm.
    + intro w; simpl. rewrite Hm. split; intros [?|?]; [tauto|right; lia|tauto|right; lia].
  - eapply Conv; [apply insert_interval_at_end_spec; [assumption|tauto|]|].
    + intros w Hmw. apply Ha. now apply Hm.
    + intro w; simpl. rewrite Hm. tauto.
Qed.

Lemma run_ops_spec ops : forall s P, represents s P -> history_allowed ops P ->
  represents (run_ops ops s) (history_meaning ops P).
Proof.
  induction ops as [|o r IH]; intros s P Hr Ha; [exact Hr|].
  destruct Ha as [A B]. apply (IH (run_op o s) (op_meaning o P)); [|assumption].
  apply run_op_spec; assumption.
Qed.

Lemma bounds_represent l u : l <= u -> represents (iset_of_bounds l u) (fun v => l <= v <= u).
Proof. intro H. split; [simpl; lia|]. intro v. unfold iset_of_bounds. rewrite member_cons, member_nil. tauto. Qed.

Lemma run_ops_from_bounds ops l u : l <= u -> history_allowed ops (fun v => l <= v <= u) ->
  represents (run_ops ops (iset_of_bounds l u)) (history_meaning ops (fun v => l <= v <= u)).
Proof. intros. apply run_ops_spec; [apply bounds_represent; assumption|assumption]. Qed.

Lemma queries_spec s v : well_formed s ->
  (contains v s = true <-> member v s) /\
  (is_empty s = true <-> forall w, ~ member w s) /\
  (lower s = Some v <-> member v s /\ forall w, member w s -> v <= w) /\
  (upper s = Some v <-> member v s /\ forall w, member w s -> w <= v) /\
  (has_holes s = true <-> exists a b c, a < b < c /\ member a s /\ ~ member b s /\ member c s).
Proof.
  intro H. split; [now apply contains_spec|]. split; [now apply is_empty_spec|].
  split; [now apply lower_spec|]. split; [now apply upper_spec|now apply has_holes_spec].
Qed.

Lemma iteration_spec s : well_formed s ->
  (forall v, In v (each s) <-> member v s) /\ strictly_increasing (each s) /\
  Z.of_nat (length (each s)) = size s /\
  (forall v, In v (each_reversed s) <-> member v s) /\ strictly_decreasing (each_reversed s).
Proof.
  intro H. split; [intro; apply each_In|]. split; [now apply each_incr|]. split; [now apply each_length|].
  rewrite each_reversed_rev. split; [intro v; rewrite <- in_rev; apply each_In|].
  now apply incr_rev, each_incr.
Qed.

Lemma gaps_spec s : well_formed s ->
  (forall v, In v (each_gap s) <-> ~ member v s /\ exists a c, a < v < c /\ member a s /\ member c s) /\
  strictly_increasing (each_gap s) /\
  (forall a b, In (a, b) (each_gap_interval s) ->
     a < b /\ member (a - 1) s /\ member b s /\ forall v, a <= v < b -> ~ member v s) /\
  (forall v, In v (each_gap s) <-> exists a b, In (a, b) (each_gap_interval s) /\ a <= v < b).
Proof.
  intro H. split; [intro; now apply each_gap_In|]. split; [now apply each_gap_incr|].
  split; [intros a b; now apply each_gap_interval_spec|].
  intro v. unfold each_gap. rewrite in_flat_map. split.
  - intros ([a b] & A & B). apply zrange_In in B. exists a, b. split; [assumption|lia].
  - intros (a & b & A & B). exists (a, b). split; [assumption|]. apply zrange_In. lia.
Qed.

Lemma each_interval_spec s : well_formed s ->
  (forall v, member v (each_interval s) <-> member v s) /\
  (forall l u, In (l, u) (each_interval s) -> l <= u /\ ~ member (l - 1) s /\ ~ member (u + 1) s).
Proof. intro H. split; [intro; reflexivity|]. now apply each_interval_sep. Qed.
