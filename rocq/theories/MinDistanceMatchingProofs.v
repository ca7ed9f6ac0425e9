(** Lemmas about matrices of distances, matchings and the search of the levels. *)
From Coq Require Import ZArith List Bool Arith Lia Permutation.
From Verif Require Import Vars State Epochs MinDistance MinDistanceSpec.
Import ListNotations.
Local Open Scope Z_scope.

Lemma in_pairs p i j : In (i, j) (pairs p) <-> (i < j < p)%nat.
Proof.
  unfold pairs. rewrite in_flat_map. split.
  - intros (k & Ik & I). apply in_map_iff in I. destruct I as (l & E & Il). injection E; intros; subst. apply in_seq in Ik, Il. lia.
  - intro L. exists i. split; [apply in_seq; lia|]. apply in_map. apply in_seq. lia.
Qed.

Lemma fold_min l : forall x, (fold_left Z.min l x = x \/ In (fold_left Z.min l x) l) /\ fold_left Z.min l x <= x /\ forall y, In y l -> fold_left Z.min l x <= y.
Proof.
  induction l as [|y l IH]; intro x; cbn [fold_left]; [split; [now left|]; split; [lia|intros ? []]|]. destruct (IH (Z.min x y)) as (A & B & C). split.
  - destruct A as [A|A]; [|right; now right]. rewrite A. destruct (Z.le_gt_cases x y); [left; lia|right; left; lia].
  - split; [lia|]. intros w [<-|I]; [lia|auto].
Qed.

Lemma least_spec l m : least l = Some m -> In m l /\ forall x, In x l -> m <= x.
Proof.
  destruct l as [|x l]; [discriminate|]. cbn [least]. intros [= <-]. destruct (fold_min l x) as (A & B & C). split.
  - destruct A as [A|A]; [left; congruence|now right].
  - intros y [<-|I]; auto.
Qed.

Lemma least_none l : least l = None -> l = [].
Proof. destruct l; [reflexivity|discriminate]. Qed.

Lemma fold_max l : forall x, (fold_left Z.max l x = x \/ In (fold_left Z.max l x) l) /\ x <= fold_left Z.max l x /\ forall y, In y l -> y <= fold_left Z.max l x.
Proof.
  induction l as [|y l IH]; intro x; cbn [fold_left]; [split; [now left|]; split; [lia|intros ? []]|]. destruct (IH (Z.max x y)) as (A & B & C). split.
  - destruct A as [A|A]; [|right; now right]. rewrite A. destruct (Z.le_gt_cases y x); [left; lia|right; left; lia].
  - split; [lia|]. intros w [<-|I]; [lia|auto].
Qed.

Lemma greatest_spec l m : greatest l = Some m -> In m l /\ forall x, In x l -> x <= m.
Proof.
  destruct l as [|x l]; [discriminate|]. cbn [greatest]. intros [= <-]. destruct (fold_max l x) as (A & B & C). split.
  - destruct A as [A|A]; [left; congruence|now right].
  - intros y [<-|I]; auto.
Qed.

Lemma greatest_none l : greatest l = None -> l = [].
Proof. destruct l; [reflexivity|discriminate]. Qed.

(** ** Matrices *)
Lemma cell_entry m i j k : cell m i j k -> k = entry_at m i j.
Proof. intros (row & A & B). unfold entry_at. rewrite (nth_error_nth m i [] A). now rewrite (nth_error_nth row j 0 B). Qed.

Lemma entry_cell m n i j : length m = n -> Forall (fun row => length row = n) m -> (i < n)%nat -> (j < n)%nat -> cell m i j (entry_at m i j).
Proof.
  intros L F Li Lj. unfold cell, entry_at. destruct (nth_error m i) as [row|] eqn:E; [|apply nth_error_None in E; lia].
  exists row. split; [reflexivity|]. rewrite (nth_error_nth m i [] E). apply nth_error_nth'. apply nth_error_In in E. rewrite (proj1 (Forall_forall _ _) F row E). exact Lj.
Qed.

Lemma cell_bounds m n i j k : length m = n -> Forall (fun row => length row = n) m -> cell m i j k -> (i < n)%nat /\ (j < n)%nat.
Proof.
  intros L F (row & A & B). split; [rewrite <- L; apply nth_error_Some; congruence|]. apply nth_error_In in A. rewrite <- (proj1 (Forall_forall _ _) F row A). apply nth_error_Some. congruence.
Qed.

Lemma existsb_none {X} (f : X -> bool) l : existsb f l = false <-> forall x, In x l -> f x = false.
Proof.
  split.
  - intros H x I. destruct (f x) eqn:E; [|reflexivity]. rewrite (proj2 (existsb_exists f l)) in H by eauto. discriminate.
  - intro H. destruct (existsb f l) eqn:E; [|reflexivity]. apply existsb_exists in E. destruct E as (x & I & E). rewrite (H x I) in E. discriminate.
Qed.

Lemma rows_iff (m : matrix) n : existsb (fun row => negb (Nat.eqb (length row) n)) m = false <-> Forall (fun row => length row = n) m.
Proof.
  rewrite existsb_none, Forall_forall. split; intros H x I; specialize (H x I); [apply negb_false_iff in H; now apply Nat.eqb_eq|apply negb_false_iff; now apply Nat.eqb_eq].
Qed.

Lemma distances_iff D : distances_refused D = false <-> distance_matrix D.
Proof.
  unfold distances_refused, distance_matrix. rewrite !orb_false_iff, rows_iff. split.
  - intros (((A & B) & C) & E). split; [intros ->; discriminate|]. split; [assumption|]. rewrite existsb_none in C. rewrite existsb_none in E.
    assert (En : forall a b, (a < length D)%nat -> (b < length D)%nat -> cell D a b (entry_at D a b)) by (intros; now apply (entry_cell D (length D))).
    assert (Up : forall a b, (a < b < length D)%nat -> 0 <= entry_at D a b /\ entry_at D a b = entry_at D b a).
    { intros a b L. specialize (E (a, b) (proj2 (in_pairs _ _ _) L)). cbn beta iota in E. apply orb_false_iff in E. destruct E as [E1 E2]. apply Z.ltb_ge in E1. apply negb_false_iff, Z.eqb_eq in E2. auto. }
    assert (Di : forall a, (a < length D)%nat -> entry_at D a a = 0).
    { intros a L. specialize (C a ltac:(apply in_seq; lia)). apply negb_false_iff, Z.eqb_eq in C. exact C. }
    split.
    + intros a k Ck. destruct (cell_bounds D (length D) a a k eq_refl B Ck) as [L _]. rewrite (cell_entry _ _ _ _ Ck). now apply Di.
    + intros a b k Ck. destruct (cell_bounds D (length D) a b k eq_refl B Ck) as [La Lb]. apply cell_entry in Ck. subst k. destruct (lt_eq_lt_dec a b) as [[L|Eab]|L]; [|subst a|].
      * destruct (Up a b ltac:(lia)) as [P Q]. split; [assumption|]. rewrite Q. now apply En.
      * rewrite (Di b Lb). split; [lia|]. rewrite <- (Di b Lb). now apply En.
      * destruct (Up b a ltac:(lia)) as [P Q]. rewrite <- Q. split; [assumption|]. now apply En.
  - intros (A & B & C & E). assert (En : forall a b, (a < length D)%nat -> (b < length D)%nat -> cell D a b (entry_at D a b)) by (intros; now apply (entry_cell D (length D))).
    repeat split.
    + apply Nat.eqb_neq. destruct D; [congruence|discriminate].
    + assumption.
    + apply existsb_none. intros a I. apply in_seq in I. apply negb_false_iff, Z.eqb_eq. apply (C a). apply En; lia.
    + apply existsb_none. intros [a b] I. apply in_pairs in I. apply orb_false_iff. destruct (E a b _ (En a b ltac:(lia) ltac:(lia))) as [P Q]. split; [now apply Z.ltb_ge|]. apply negb_false_iff, Z.eqb_eq.
      now apply cell_entry.
Qed.

Lemma requirements_iff p R : requirements_refused p R = false <-> requirement_matrix p R.
Proof.
  unfold requirements_refused, requirement_matrix. destruct R as [m|]; [|split; [intros _ m E; discriminate|reflexivity]]. rewrite !orb_false_iff, rows_iff. split.
  - intros ((A & B) & C) m' [= <-]. apply negb_false_iff, Nat.eqb_eq in A. split; [assumption|]. split; [assumption|]. intros i j r L Cr. rewrite existsb_none in C.
    destruct (cell_bounds m p i j r A B Cr) as [Li Lj]. assert (In (i, j) (pairs p)) as Ip by (apply in_pairs; lia). specialize (C (i, j) Ip). cbn beta iota in C. apply Z.ltb_ge in C. now rewrite (cell_entry _ _ _ _ Cr).
  - intro H. destruct (H m eq_refl) as (A & B & C). repeat split; [apply negb_false_iff; now apply Nat.eqb_eq|assumption|]. apply existsb_none. intros [i j] I. apply in_pairs in I.
    apply Z.ltb_ge. apply (C i j); [lia|]. apply (entry_cell m p); auto; lia.
Qed.

Section Matrix.
Variable D : matrix.
Hypothesis M : distance_matrix D.

Lemma apart_iff x y k : apart D x y k <-> site D x = true /\ site D y = true /\ k = distance D x y.
Proof.
  destruct M as (_ & F & _). unfold apart, site, distance. split.
  - intros (Px & Py & C). destruct (cell_bounds D (length D) _ _ _ eq_refl F C). split; [apply andb_true_iff; split; [now apply Z.leb_le|apply Z.ltb_lt; lia]|].
    split; [apply andb_true_iff; split; [now apply Z.leb_le|apply Z.ltb_lt; lia]|]. now apply cell_entry.
  - intros (Sx & Sy & ->). apply andb_true_iff in Sx, Sy. destruct Sx as [X1 X2]. destruct Sy as [Y1 Y2]. apply Z.leb_le in X1, Y1. apply Z.ltb_lt in X2, Y2.
    split; [assumption|]. split; [assumption|]. apply (entry_cell D (length D)); auto; lia.
Qed.

Lemma distance_sym x y : site D x = true -> site D y = true -> distance D x y = distance D y x.
Proof.
  intros Sx Sy. assert (A : apart D x y (distance D x y)) by (apply apart_iff; auto). destruct A as (Px & Py & C). destruct M as (_ & _ & _ & E). destruct (E _ _ _ C) as [_ C'].
  now apply cell_entry in C'.
Qed.

Lemma distance_self x : site D x = true -> distance D x x = 0.
Proof. intros Sx. assert (A : apart D x x (distance D x x)) by (apply apart_iff; auto). destruct A as (Px & Py & C). destruct M as (_ & _ & E & _). now apply (E (Z.to_nat x)). Qed.

Lemma distance_nonneg x y : site D x = true -> site D y = true -> 0 <= distance D x y.
Proof. intros Sx Sy. assert (A : apart D x y (distance D x y)) by (apply apart_iff; auto). destruct A as (Px & Py & C). destruct M as (_ & _ & _ & E). apply (E _ _ _ C). Qed.
End Matrix.

(** ** Matchings *)
Definition ends (edges : list (Z * Z)) : list Z := flat_map (fun e => [fst e; snd e]) edges.

Lemma holds_spec x l : existsb (Z.eqb x) l = true <-> In x l.
Proof. rewrite existsb_exists. split; [intros (y & I & E); apply Z.eqb_eq in E; congruence|intro I; exists x; split; [assumption|apply Z.eqb_refl]]. Qed.

Lemma holds_not x l : existsb (Z.eqb x) l = false <-> ~ In x l.
Proof. rewrite <- holds_spec. destruct (existsb (Z.eqb x) l); split; congruence. Qed.

Lemma match_spec D t A : NoDup A -> forall matched,
  NoDup (ends (match_sites D t A matched)) /\
  (forall x y, In (x, y) (match_sites D t A matched) -> In x A /\ In y A /\ ~ In x matched /\ ~ In y matched /\ distance D x y < t).
Proof.
  induction A as [|a A IH]; intros N matched; cbn [match_sites ends flat_map]; [split; [constructor|intros ? ? []]|]. apply NoDup_cons_iff in N. destruct N as [Na N].
  destruct (existsb (Z.eqb a) matched) eqn:E.
  - destruct (IH N matched) as [P Q]. split; [assumption|]. intros x y I. destruct (Q x y I) as (B & C & F). auto 10 using in_cons.
  - apply holds_not in E. destruct (find _ A) as [b|] eqn:Fd.
    + apply find_some in Fd. destruct Fd as [Ib Fb]. apply andb_true_iff in Fb. destruct Fb as [Fb Lt]. apply negb_true_iff, holds_not in Fb. apply Z.ltb_lt in Lt.
      destruct (IH N (b :: a :: matched)) as [P Q]. split.
      * cbn [ends flat_map app fst snd]. assert (Out : forall w, In w (ends (match_sites D t A (b :: a :: matched))) -> w <> a /\ w <> b).
        { intros w Iw. unfold ends in Iw. apply in_flat_map in Iw. destruct Iw as ((x & y) & I & Iw). destruct (Q x y I) as (_ & _ & Nx & Ny & _). cbn [fst snd] in Iw.
          destruct Iw as [<-|[<-|[]]]; split; intros ->; solve [apply Nx; cbn; auto|apply Ny; cbn; auto]. }
        apply NoDup_cons_iff. split.
        -- intros [->|I]; [now apply Na|]. now apply Out in I.
        -- apply NoDup_cons_iff. split; [|assumption]. intro I. now apply Out in I.
      * intros x y [[= <- <-]|I]; [auto 10 using in_eq, in_cons|]. destruct (Q x y I) as (B & C & Nx & Ny & L). repeat split; auto using in_cons.
    + destruct (IH N matched) as [P Q]. split; [assumption|]. intros x y I. destruct (Q x y I) as (B & C & F). auto 10 using in_cons.
Qed.

Lemma match_maximal D t A : forall matched x y, NoDup A -> (forall x y, In x A -> In y A -> distance D x y = distance D y x) -> In x A -> In y A -> x <> y -> distance D x y < t -> ~ In x matched -> ~ In y matched ->
  In x (ends (match_sites D t A matched)) \/ In y (ends (match_sites D t A matched)).
Proof.
  induction A as [|a A IH]; intros matched x y N Sy Ix Iy Ne Lt Nx Ny; [destruct Ix|]. apply NoDup_cons_iff in N. destruct N as [Na N].
  assert (Sy' : forall x y, In x A -> In y A -> distance D x y = distance D y x) by (intros; apply Sy; now right).
  cbn [match_sites]. destruct (existsb (Z.eqb a) matched) eqn:E.
  - apply holds_spec in E. destruct Ix as [->|Ix]; [now destruct Nx|]. destruct Iy as [->|Iy]; [now destruct Ny|]. now apply IH.
  - apply holds_not in E. destruct (find _ A) as [b|] eqn:Fd.
    + cbn [ends flat_map app fst snd]. change (flat_map _ (match_sites D t A (b :: a :: matched))) with (ends (match_sites D t A (b :: a :: matched))).
      destruct (Z.eq_dec x a) as [->|Xa]; [left; now left|]. destruct (Z.eq_dec x b) as [->|Xb]; [left; right; now left|].
      destruct (Z.eq_dec y a) as [->|Ya]; [right; now left|]. destruct (Z.eq_dec y b) as [->|Yb]; [right; right; now left|].
      destruct Ix as [Ex|Ix]; [congruence|]. destruct Iy as [Ey|Iy]; [congruence|].
      destruct (IH (b :: a :: matched) x y) as [I|I]; auto; try (intros [?|[?|?]]; congruence); [left|right]; right; now right.
    + assert (None_near : forall w, In w A -> ~ In w matched -> distance D a w < t -> False).
      { intros w Iw Nw L. pose proof (find_none _ _ Fd w Iw) as X. cbn beta in X. apply andb_false_iff in X. destruct X as [X|X]; [apply negb_false_iff, holds_spec in X; auto|]. apply Z.ltb_ge in X. lia. }
      destruct Ix as [->|Ix].
      * destruct Iy as [->|Iy]; [congruence|]. exfalso. now apply (None_near y).
      * destruct Iy as [->|Iy]; [|now apply IH]. exfalso. apply (None_near x); auto. rewrite Sy; auto using in_eq, in_cons.
Qed.

(** Sites that are all far apart are no more than those left when one of each pair is out. *)
Lemma far_apart_count D t A S : NoDup A -> NoDup S -> incl S A -> (forall x y, In x S -> In y S -> x <> y -> t <= distance D x y) ->
  (length S + length (match_sites D t A []) <= length A)%nat.
Proof.
  intros NA NS I Far. destruct (match_spec D t A NA []) as [N Q]. set (E := match_sites D t A []) in *. clearbody E.
  assert (X : exists outs, length outs = length E /\ NoDup outs /\ incl outs (ends E) /\ forall x, In x outs -> In x A /\ ~ In x S).
  { induction E as [|(x, y) E IH]; [exists []; split; [reflexivity|]; split; [constructor|]; split; intros ? []|]. cbn [ends flat_map app fst snd] in N. change (flat_map _ E) with (ends E) in N.
    apply NoDup_cons_iff in N. destruct N as [Nx N]. apply NoDup_cons_iff in N. destruct N as [Ny N].
    destruct IH as (outs & L & No & Io & Ho); [assumption|intros; apply Q; now right|]. destruct (Q x y (or_introl eq_refl)) as (Ax & Ay & _ & _ & Lt).
    assert (W : exists w, (w = x \/ w = y) /\ ~ In w S).
    { destruct (in_dec Z.eq_dec x S) as [Sx|Sx]; [|exists x; auto]. destruct (in_dec Z.eq_dec y S) as [Sy|Sy]; [|exists y; auto].
      exfalso. assert (x <> y) by (intros ->; apply Nx; now left). specialize (Far x y Sx Sy H). lia. }
    destruct W as (w & Ew & Nw). exists (w :: outs). split; [cbn; lia|]. split.
    - apply NoDup_cons_iff. split; [|assumption]. intro Iw. apply Io in Iw. destruct Ew as [->| ->]; [apply Nx; now right|now apply Ny].
    - split.
      + intros u [<-|Iu]; [cbn [ends flat_map app fst snd]; destruct Ew as [->| ->]; cbn; auto|]. right. right. now apply Io.
      + intros u [<-|Iu]; [split; [destruct Ew as [->| ->]; assumption|assumption]|now apply Ho]. }
  destruct X as (outs & L & No & _ & Ho). rewrite <- L, <- app_length. apply NoDup_incl_length.
  - clear -NS No Ho. induction S as [|x S IH]; [assumption|]. cbn [app]. apply NoDup_cons_iff in NS. destruct NS as [Nx NS]. apply NoDup_cons_iff. split.
    + intro Ix. apply in_app_iff in Ix. destruct Ix as [Ix|Ix]; [now apply Nx|]. destruct (Ho x Ix) as [_ X]. apply X. now left.
    + apply IH; [assumption|]. intros u Iu. destruct (Ho u Iu) as [A1 A2]. split; [assumption|]. intro. apply A2. now right.
  - intros u Iu. apply in_app_iff in Iu. destruct Iu as [Iu|Iu]; [now apply I|now apply Ho].
Qed.

(** ** The levels *)
Lemma insert_level_in x l y : In y (insert_level x l) <-> y = x \/ In y l.
Proof.
  induction l as [|w l IH]; cbn [insert_level]; [simpl; intuition|]. destruct (x <? w); [simpl; intuition|]. destruct (Z.eqb_spec x w) as [->|N]; simpl; [intuition|]. rewrite IH. tauto.
Qed.

Definition rising (l : list Z) : Prop := forall i j, (i < j < length l)%nat -> nth i l 0 < nth j l 0.

Lemma rising_cons x l : rising (x :: l) <-> (forall y, In y l -> x < y) /\ rising l.
Proof.
  split.
  - intro R. split.
    + intros y I. apply (In_nth l y 0) in I. destruct I as (k & L & <-). apply (R 0%nat (S k)). cbn [length]. lia.
    + intros i j L. apply (R (S i) (S j)). cbn [length]. lia.
  - intros [H R] [|i] [|j] L; cbn [length] in L; try lia; cbn [nth]; [apply H, nth_In; lia|apply R; lia].
Qed.

Lemma insert_rising x l : rising l -> rising (insert_level x l).
Proof.
  induction l as [|y l IH]; intro R; cbn [insert_level]; [intros i j L; cbn in L; lia|]. apply rising_cons in R as RC. destruct RC as [H Rl]. destruct (Z.ltb_spec x y) as [L|L].
  - apply rising_cons. split; [|assumption]. intros w [<-|I]; [assumption|]. specialize (H w I). lia.
  - destruct (Z.eqb_spec x y) as [E|N]; [assumption|]. apply rising_cons. split; [|auto]. intros w I. apply insert_level_in in I. destruct I as [->|I]; [lia|auto].
Qed.

Lemma levels_spec D : rising (levels D) /\ forall t, In t (levels D) <-> exists a b, (a < b < length D)%nat /\ t = entry_at D a b.
Proof.
  unfold levels. assert (X : forall ps l, rising l -> let r := fold_left (fun l '(a, b) => insert_level (entry_at D a b) l) ps l in
    rising r /\ forall t, In t r <-> In t l \/ exists a b, In (a, b) ps /\ t = entry_at D a b).
  { induction ps as [|(a, b) ps IH]; intros l R; cbn [fold_left].
    - split; [assumption|]. intro t. split; [auto|]. intros [I|(a & b & [] & _)]. assumption.
    - destruct (IH (insert_level (entry_at D a b) l) (insert_rising _ _ R)) as [P Q]. split; [assumption|]. intro t. rewrite Q, insert_level_in. split.
      + intros [[E1|I]|(a' & b' & I & ->)]; [subst t; right; exists a, b; split; [now left|reflexivity]|auto|right; exists a', b'; split; [now right|reflexivity]].
      + intros [I|(a' & b' & [[= <- <-]|I] & ->)]; [auto|auto|right; eauto]. }
  destruct (X (pairs (length D)) []) as [P Q]; [intros i j L; cbn in L; lia|]. split; [assumption|]. intro t. rewrite Q. split.
  - intros [[]|(a & b & I & ->)]. apply in_pairs in I. eauto.
  - intros (a & b & L & ->). right. exists a, b. split; [now apply in_pairs|reflexivity].
Qed.

(** What comes first in a rising list is what is small. *)
Lemma rising_prefix l (f : Z -> bool) : rising l -> (forall x y, x < y -> f y = true -> f x = true) ->
  forall k, (k < length l)%nat -> (f (nth k l 0) = true <-> (k < length (filter f l))%nat).
Proof.
  intros R Dn. induction l as [|x l IH]; intros k L; [cbn in L; lia|]. apply rising_cons in R. destruct R as [H R]. cbn [filter]. destruct (f x) eqn:E.
  - destruct k as [|k]; cbn [nth length]; [rewrite E; split; [intros _; lia|reflexivity]|]. rewrite IH by (auto; cbn [length] in L; lia). lia.
  - assert (Z0 : forall y, In y l -> f y = false). { intros y I. destruct (f y) eqn:Ey; [|reflexivity]. rewrite (Dn x y) in E; [discriminate|auto|assumption]. }
    replace (filter f l) with (@nil Z) by (symmetry; clear -Z0; induction l as [|y l IH]; [reflexivity|]; cbn [filter]; rewrite Z0 by (now left); apply IH; intros; apply Z0; now right).
    cbn [length]. split; [|lia]. destruct k as [|k]; cbn [nth]; [congruence|]. rewrite Z0 by (apply nth_In; cbn [length] in L; lia). discriminate.
Qed.

(** ** The search *)
Lemma search_found fuel refuted : forall left right found k, search_levels fuel refuted left right found = Some k ->
  found = Some k \/ ((left <= k <= right)%nat /\ refuted k = true).
Proof.
  induction fuel as [|f IH]; intros l r found k; cbn [search_levels]; [auto|]. destruct (Nat.ltb_spec r l) as [L|L]; [auto|].
  assert (Mid : (l <= l + (r - l) / 2 <= r)%nat).
  { assert ((r - l) / 2 <= r - l)%nat by (apply Nat.div_le_upper_bound; lia). lia. }
  destruct (refuted (l + (r - l) / 2)%nat) eqn:E.
  - destruct (Nat.eqb_spec (l + (r - l) / 2) 0) as [Z0|NZ]; [intros [= <-]; right; auto|]. intro H. apply IH in H. destruct H as [[= <-]|[H1 H2]]; [auto|]. right. split; [lia|assumption].
  - intro H. apply IH in H. destruct H as [H|[H1 H2]]; [auto|]. right. split; [lia|assumption].
Qed.

Lemma search_keeps fuel refuted : forall left right k, search_levels fuel refuted left right (Some k) <> None.
Proof.
  induction fuel as [|f IH]; intros l r k; cbn [search_levels]; [discriminate|]. destruct (Nat.ltb r l); [discriminate|].
  destruct (refuted _); [destruct (Nat.eqb _ 0); [discriminate|apply IH]|apply IH].
Qed.

Lemma search_none fuel refuted : forall left right, (left <= right)%nat -> (right < left + fuel)%nat -> search_levels fuel refuted left right None = None -> refuted right = false.
Proof.
  induction fuel as [|f IH]; intros l r L F; [lia|]. cbn [search_levels]. destruct (Nat.ltb_spec r l) as [X|_]; [lia|].
  assert (Mid : (l <= l + (r - l) / 2 <= r)%nat).
  { assert ((r - l) / 2 <= r - l)%nat by (apply Nat.div_le_upper_bound; lia). lia. }
  destruct (refuted (l + (r - l) / 2)%nat) eqn:E.
  - destruct (Nat.eqb _ 0); [discriminate|]. intro H. now apply search_keeps in H.
  - destruct (Nat.eq_dec (l + (r - l) / 2) r) as [Er|Nr]; [intros _; congruence|]. apply IH; lia.
Qed.
