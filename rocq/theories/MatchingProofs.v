(** build_matching finds a perfect matching if there is one. *)
From Coq Require Import List Bool Arith Lia.
From Verif Require Import Scc SccProofs Matching MatchingSpec.
Import ListNotations.

Lemma some_not_none {X} (o : option X) : is_some o = true <-> o <> None.
Proof. destruct o; simpl; split; congruence. Qed.

Lemma map_NoDup_in {X Y} (f : X -> Y) l : (forall x y, In x l -> In y l -> f x = f y -> x = y) -> NoDup l -> NoDup (map f l).
Proof.
  intros I ND. induction ND as [|x l N ND IH]; [constructor|]. simpl. constructor.
  - intro J. apply in_map_iff in J. destruct J as (y & E & Iy). apply I in E; [subst; contradiction|now right|now left].
  - apply IH. intros y z Iy Iz. apply I; now right.
Qed.

Section Graph.
Variable adjacent : nat -> list nat.
Variable n : nat.

(** The two arrays say the same thing, and only use edges. *)
Record sound (m : matching) : Prop :=
  { ms_inverse : forall l t, mt_left m l = Some t <-> mt_right m t = Some l;
    ms_edge : forall l t, mt_left m l = Some t -> In t (adjacent l);
    ms_bound : forall l t, mt_left m l = Some t -> l < n }.

Lemma sound_injective m l l' t : sound m -> mt_left m l = Some t -> mt_left m l' = Some t -> l = l'.
Proof. intros S E E'. apply (ms_inverse m S) in E. apply (ms_inverse m S) in E'. congruence. Qed.

Lemma sound_add m l t : sound m -> l < n -> In t (adjacent l) -> mt_left m l = None -> mt_right m t = None ->
  sound (mk_matching (put (mt_left m) l (Some t)) (put (mt_right m) t (Some l))).
Proof.
  intros [Iv Ed Bo] Hl Ia Nl Nt. constructor; cbn [mt_left mt_right].
  - intros x y. unfold put. destruct (Nat.eqb_spec x l) as [->|Nx], (Nat.eqb_spec y t) as [->|Ny]; try tauto.
    + split; [intros [= ->]; contradiction|]. intro E. apply Iv in E. congruence.
    + split; [|intros [= ->]; contradiction]. intro E. apply Iv in E. congruence.
    + apply Iv.
  - intros x y. unfold put. destruct (Nat.eqb_spec x l) as [->|Nx]; [intros [= <-]; assumption|apply Ed].
  - intros x y. unfold put. destruct (Nat.eqb_spec x l) as [->|Nx]; [auto|apply Bo].
Qed.

(** The matching without the right vertex. *)
Definition release (m : matching) (t : nat) : matching := mk_matching (mt_left m) (put (mt_right m) t None).

Lemma sound_move m l t t' : sound (release m t) -> In t (adjacent l) -> mt_left m l = Some t' ->
  sound (release (mk_matching (put (mt_left m) l (Some t)) (put (mt_right m) t (Some l))) t').
Proof.
  intros [Iv Ed Bo] Ia E. cbn [release mt_left mt_right] in *.
  assert (Nt : t' <> t) by (intros ->; apply Iv in E; rewrite put_same in E; discriminate).
  assert (Et : mt_right m t' = Some l) by (apply Iv in E; now rewrite put_other in E).
  assert (Iv' : forall x y, y <> t -> (mt_left m x = Some y <-> mt_right m y = Some x)) by (intros x y Ny; rewrite Iv, put_other by assumption; reflexivity).
  constructor; cbn [release mt_left mt_right].
  - intros x y. unfold put. destruct (Nat.eqb_spec x l) as [Ex|Nx], (Nat.eqb_spec y t') as [Ey|Ny], (Nat.eqb_spec y t) as [Eyt|Nyt]; subst; try congruence; try tauto.
    + split; [congruence|]. discriminate.
    + split; [congruence|]. intro X. apply Iv' in X; [|assumption]. congruence.
    + split; [|discriminate]. intro X. apply Iv' in X; [|assumption]. congruence.
    + split; [|congruence]. intro X. apply Iv in X. rewrite put_same in X. discriminate.
    + now apply Iv'.
  - intros x y. unfold put. destruct (Nat.eqb_spec x l) as [->|Nx]; [intros [= <-]; assumption|apply Ed].
  - intros x y. unfold put. destruct (Nat.eqb_spec x l) as [->|Nx]; [intros _; now apply (Bo l t')|apply Bo].
Qed.

(** *** The search *)

Section Search.
Variable m : matching.
Variable start : nat.
Hypothesis Hm : sound m.
Hypothesis Hs : mt_left m start = None.
Hypothesis Hb : start < n.

(** The right vertices that have been looked at from [l]. *)
Record searching (s : search) (done cur : list nat) : Prop :=
  { sg_order : NoDup (done ++ cur ++ sr_queue s);
    sg_bound : Forall (fun l => l < n) (done ++ cur ++ sr_queue s);
    sg_left : forall l, sr_left s l = true <-> In l (done ++ cur ++ sr_queue s);
    sg_start : In start (done ++ cur ++ sr_queue s);
    sg_before : forall l, In l (done ++ cur ++ sr_queue s) -> l <> start ->
      mt_right m (sr_to_left s l) = Some l /\ sr_right s (sr_to_left s l) = true /\
      exists q q', done ++ cur ++ sr_queue s = q ++ l :: q' /\ In (sr_to_right s (sr_to_left s l)) q;
    sg_right : forall t, sr_right s t = true -> In (sr_to_right s t) (done ++ cur) /\ In t (adjacent (sr_to_right s t)) /\
      (forall l, mt_right m t = Some l -> In l (done ++ cur ++ sr_queue s));
    sg_done : forall l t, In l done -> In t (adjacent l) -> sr_right s t = true;
    sg_free : sr_end s = None -> forall t, sr_right s t = true -> mt_right m t <> None;
    sg_end : forall t, sr_end s = Some t -> sr_right s t = true /\ mt_right m t = None }.

Lemma look_along_searching s done l t : searching s done [l] -> In t (adjacent l) -> sr_end s = None ->
  searching (look_along m l s t) done [l] /\ sr_right (look_along m l s t) t = true /\
  (forall t', sr_right s t' = true -> sr_right (look_along m l s t) t' = true).
Proof.
  intros S It NoEnd. unfold look_along. rewrite NoEnd. cbn [is_some orb]. destruct (sr_right s t) eqn:Rt; [split; [assumption|auto]|].
  destruct S as [Or Bo Le St Be Ri Do Fr En].
  assert (Il : In l (done ++ [l] ++ sr_queue s)) by (rewrite in_app_iff; right; now left).
  assert (Id : In l (done ++ [l])) by (rewrite in_app_iff; right; now left).
  assert (Nt : forall t', sr_right s t' = true -> t' <> t) by congruence.
  assert (Keep : forall t', sr_right s t' = true -> put (sr_right s) t true t' = true) by (intros t' H; rewrite put_other by (now apply Nt); assumption).
  destruct (mt_right m t) as [nl|] eqn:Mt.
  - destruct (sr_left s nl) eqn:Ln.
    + cbn [sr_right]. split; [|split; [apply put_same|auto]]. constructor; cbn [sr_left sr_right sr_to_right sr_to_left sr_queue sr_end]; auto.
      * intros x Ix Nx. destruct (Be x Ix Nx) as (B1 & B2 & q & q' & E & B3). split; [assumption|]. split; [auto|]. exists q, q'. rewrite put_other by now apply Nt. auto.
      * intros t'. unfold put. destruct (Nat.eqb_spec t' t) as [->|N]; [|apply Ri]. intros _. split; [assumption|]. split; [assumption|]. rewrite Mt. intros x [= <-]. now apply Le.
      * intros x t' Ix It'. specialize (Do x t' Ix It'). auto.
      * intros _ t'. unfold put. destruct (Nat.eqb_spec t' t) as [->|N]; [congruence|]. now apply Fr.
      * congruence.
    + assert (Nn : ~ In nl (done ++ [l] ++ sr_queue s)) by (intro X; apply Le in X; congruence).
      cbn [sr_right]. split; [|split; [apply put_same|auto]].
      assert (App : done ++ [l] ++ sr_queue s ++ [nl] = (done ++ [l] ++ sr_queue s) ++ [nl]) by now rewrite <- !app_assoc.
      constructor; cbn [sr_left sr_right sr_to_right sr_to_left sr_queue sr_end]; rewrite ?App.
      * apply NoDup_rev in Or. rewrite <- (rev_involutive (_ ++ [nl])). apply NoDup_rev. rewrite rev_app_distr. simpl. constructor; [|assumption]. now rewrite <- in_rev.
      * apply Forall_app. split; [assumption|]. constructor; [|constructor]. apply (ms_inverse m Hm) in Mt. now apply (ms_bound m Hm) in Mt.
      * intro x. unfold put. rewrite in_app_iff. destruct (Nat.eqb_spec x nl) as [->|N]; [simpl; tauto|]. rewrite Le. cbn [In]. split; [auto|]. intros [X|[X|[]]]; [assumption|congruence].
      * rewrite in_app_iff. now left.
      * intros x Ix Nx. apply in_app_or in Ix. destruct Ix as [Ix|[<-|[]]].
        -- destruct (Be x Ix Nx) as (B1 & B2 & q & q' & E & B3). assert (x <> nl) by (intros ->; contradiction). rewrite (put_other _ nl _ x) by assumption.
           split; [assumption|]. split; [auto|]. exists q, (q' ++ [nl]). rewrite put_other by now apply Nt. split; [rewrite E, <- app_assoc; reflexivity|assumption].
        -- rewrite put_same, !put_same. split; [assumption|]. split; [reflexivity|]. exists (done ++ [l] ++ sr_queue s), []. auto.
      * intros t'. unfold put. destruct (Nat.eqb_spec t' t) as [->|N].
        -- intros _. split; [assumption|]. split; [assumption|]. rewrite Mt. intros x [= <-]. rewrite in_app_iff. right. now left.
        -- intro H. destruct (Ri t' H) as (R1 & R2 & R3). split; [assumption|]. split; [assumption|]. intros x E. rewrite in_app_iff. left. now apply R3.
      * intros x t' Ix It'. specialize (Do x t' Ix It'). auto.
      * intros _ t'. unfold put. destruct (Nat.eqb_spec t' t) as [->|N]; [congruence|]. now apply Fr.
      * congruence.
  - cbn [sr_right]. split; [|split; [apply put_same|auto]]. constructor; cbn [sr_left sr_right sr_to_right sr_to_left sr_queue sr_end]; auto.
    + intros x Ix Nx. destruct (Be x Ix Nx) as (B1 & B2 & q & q' & E & B3). split; [assumption|]. split; [auto|]. exists q, q'. rewrite put_other by now apply Nt. auto.
    + intros t'. unfold put. destruct (Nat.eqb_spec t' t) as [->|N]; [|apply Ri]. intros _. split; [assumption|]. split; [assumption|]. congruence.
    + intros x t' Ix It'. specialize (Do x t' Ix It'). auto.
    + discriminate.
    + intros t' [= <-]. split; [apply put_same|assumption].
Qed.

Lemma look_end l t s : sr_end s <> None -> look_along m l s t = s.
Proof. intro E. unfold look_along. destruct (sr_end s); [reflexivity|congruence]. Qed.

Lemma looks_end l ts s : sr_end s <> None -> fold_left (look_along m l) ts s = s.
Proof. induction ts as [|t r IH]; intro E; [reflexivity|]. simpl. rewrite look_end by assumption. auto. Qed.

Lemma looks_searching done l ts : forall s, searching s done [l] -> sr_end s = None -> incl ts (adjacent l) ->
  let s' := fold_left (look_along m l) ts s in
  searching s' done [l] /\ (sr_end s' = None -> forall t, In t ts -> sr_right s' t = true) /\ (forall t, sr_right s t = true -> sr_right s' t = true).
Proof.
  induction ts as [|t r IH]; intros s S E Inc; cbn zeta.
  - simpl. split; [assumption|]. split; [intros _ t []|auto].
  - cbn [fold_left]. destruct (look_along_searching s done l t S (Inc t (or_introl eq_refl)) E) as (S1 & R1 & K1).
    destruct (sr_end (look_along m l s t)) eqn:E1.
    + rewrite looks_end by congruence. split; [assumption|]. split; [congruence|assumption].
    + destruct (IH _ S1 E1) as (S2 & R2 & K2); [intros x Ix; apply Inc; now right|]. split; [assumption|]. split; [|auto].
      intros E2 t' [<-|It]; [now apply K2|now apply R2].
Qed.

(** When the search stops it has either found a free right vertex or looked at all
    there is to look at. *)
Lemma explore_searching : forall fuel s done, searching s done [] -> n <= fuel + length done ->
  exists done' cur, searching (explore adjacent fuel m s) done' cur /\
    (sr_end (explore adjacent fuel m s) = None -> cur = [] /\ sr_queue (explore adjacent fuel m s) = []).
Proof.
  induction fuel as [|fuel IH]; intros s done S F.
  - exists done, []. split; [exact S|]. intros _. split; [reflexivity|]. cbn [explore].
    destruct (sr_queue s) as [|l r] eqn:Q; [reflexivity|]. exfalso.
    assert (L : length (done ++ [] ++ sr_queue s) <= n).
    { rewrite <- (seq_length n 0). apply NoDup_incl_length; [apply (sg_order _ _ _ S)|]. intros x Ix. pose proof (sg_bound _ _ _ S) as B. rewrite Forall_forall in B. apply in_seq. specialize (B x Ix). lia. }
    rewrite Q, app_length in L. simpl in L, F. lia.
  - cbn [explore]. destruct (sr_end s) as [t|] eqn:E; [exists done, []; split; [assumption|congruence]|].
    destruct (sr_queue s) as [|l r] eqn:Q; [exists done, []; split; [assumption|auto]|].
    set (s1 := mk_search (sr_left s) (sr_right s) (sr_to_right s) (sr_to_left s) r None).
    assert (S1 : searching s1 done [l]).
    { destruct S as [Or Bo Le St Be Ri Do Fr En]. rewrite Q in *. constructor; auto.
      - intros t Rt. destruct (Ri t Rt) as (R1 & R2 & R3). cbn [s1 sr_to_right]. rewrite app_nil_r in R1. rewrite in_app_iff. auto.
      - discriminate. }
    assert (Inc : incl (unmatched_edges adjacent (mt_left m) l) (adjacent l)) by (intros t It; apply filter_In in It; apply It).
    destruct (looks_searching done l _ s1 S1 eq_refl Inc) as (S2 & R2 & K2). set (s2 := fold_left _ _ s1) in *.
    destruct (sr_end s2) as [t|] eqn:E2.
    + assert (X : explore adjacent fuel m s2 = s2) by (destruct fuel; cbn [explore]; [reflexivity|now rewrite E2]). rewrite X.
      exists done, [l]. split; [assumption|congruence].
    + apply (IH s2 (done ++ [l])); [|rewrite app_length; simpl; lia].
      destruct S2 as [Or Bo Le St Be Ri Do Fr En].
      assert (App : (done ++ [l]) ++ [] ++ sr_queue s2 = done ++ [l] ++ sr_queue s2) by now rewrite <- app_assoc.
      constructor; rewrite ?App; auto.
      * rewrite app_nil_r. assumption.
      * intros x t Ix It. apply in_app_or in Ix. destruct Ix as [Ix|[<-|[]]]; [now apply (Do x)|].
        destruct (matched_to (mt_left m) l t) eqn:Mt; [|apply R2; [reflexivity|]; apply filter_In; now rewrite Mt].
        unfold matched_to in Mt. destruct (mt_left m l) as [t'|] eqn:El; [|discriminate]. apply Nat.eqb_eq in Mt. subst t'.
        destruct (Nat.eq_dec l start) as [->|Ns]; [congruence|].
        destruct (Be l) as (B1 & B2 & _); [rewrite in_app_iff; right; now left|assumption|]. apply (ms_inverse m Hm) in B1. assert (sr_to_left s2 l = t) by congruence. now subst t.
Qed.

Lemma init_searching : searching (search_init start) [] [].
Proof.
  constructor; cbn [search_init sr_left sr_right sr_to_right sr_to_left sr_queue sr_end app]; try discriminate.
  - repeat constructor. intros [].
  - repeat constructor. assumption.
  - intro l. unfold put. destruct (Nat.eqb_spec l start) as [->|N]; [simpl; tauto|]. simpl. split; [discriminate|]. intros [E|[]]. congruence.
  - now left.
  - intros l [<-|[]] N. congruence.
  - intros l t [].
Qed.

(** *** Flipping *)

Lemma flip_sound s done cur : searching s done cur -> forall fuel q l q' t m', done ++ cur ++ sr_queue s = q ++ l :: q' -> length q < fuel ->
  sr_right s t = true -> sr_to_right s t = l -> sound (release m' t) -> (forall x, In x (q ++ [l]) -> mt_left m' x = mt_left m x) ->
  let m2 := flip fuel s start t m' in
  sound m2 /\ (forall x, mt_left m' x <> None -> mt_left m2 x <> None) /\ mt_left m2 start <> None.
Proof.
  intros S fuel. induction fuel as [|fuel IH]; intros q l q' t m' Q F Rt Fl So Ag; [lia|]. cbn zeta. cbn [flip]. rewrite Fl.
  destruct (sg_right _ _ _ S t Rt) as (R1 & R2 & _). rewrite Fl in R1, R2.
  assert (Ill : In l (q ++ [l])) by (rewrite in_app_iff; right; now left).
  destruct (Nat.eqb_spec l start) as [->|Ns].
  - split; [|split].
    + assert (El : mt_left m' start = None) by (rewrite Ag by assumption; assumption).
      pose proof (sound_add (release m' t) start t So Hb R2 El) as X. cbn [release mt_left mt_right] in X. rewrite put_same in X. specialize (X eq_refl).
      destruct X as [Iv Ed Bo]. constructor; cbn [mt_left mt_right] in *; auto. intros x y. rewrite Iv. unfold put. destruct (Nat.eqb y t); reflexivity.
    + intros x Nx. cbn [mt_left]. unfold put. destruct (Nat.eqb x start); [discriminate|assumption].
    + cbn [mt_left]. rewrite put_same. discriminate.
  - assert (Il : In l (done ++ cur ++ sr_queue s)) by (rewrite Q, in_app_iff; right; now left).
    destruct (sg_before _ _ _ S l Il Ns) as (B1 & B2 & q1 & q1' & E & B3).
    assert (Sm : q = q1 /\ q' = q1').
    { pose proof (sg_order _ _ _ S) as O. rewrite Q in E, O. clear - E O. revert q1 E. induction q as [|x q IH]; intros q1 E.
      - destruct q1 as [|y q1]; [injection E; auto|]. exfalso. injection E as <- E. simpl in O. apply NoDup_cons_iff in O. destruct O as [O _]. apply O. rewrite E, in_app_iff. right. now left.
      - destruct q1 as [|y q1].
        + exfalso. injection E as -> E. simpl in O. apply NoDup_cons_iff in O. destruct O as [O _]. apply O. rewrite in_app_iff. right. now left.
        + injection E as <- E. simpl in O. apply NoDup_cons_iff in O. destruct (IH (proj2 O) q1 E) as [-> ->]. auto. }
    destruct Sm as [<- <-]. apply in_split in B3. destruct B3 as (q2 & q2' & Eq).
    assert (Et : mt_left m' l = Some (sr_to_left s l)) by (rewrite Ag by assumption; now apply (ms_inverse m Hm)).
    assert (Nq : ~ In l q).
    { pose proof (sg_order _ _ _ S) as O. rewrite Q in O. apply NoDup_remove_2 in O. intro X. apply O. rewrite in_app_iff. now left. }
    destruct (IH q2 (sr_to_right s (sr_to_left s l)) (q2' ++ l :: q') (sr_to_left s l) (mk_matching (put (mt_left m') l (Some t)) (put (mt_right m') t (Some l)))) as (X1 & X2 & X3); auto.
    + rewrite Q, Eq, <- app_assoc. reflexivity.
    + rewrite Eq, app_length in F. simpl in F. lia.
    + now apply sound_move.
    + intros x Ix. cbn [mt_left]. assert (Iq : In x q) by (rewrite Eq, in_app_iff; apply in_app_or in Ix; destruct Ix as [Ix|[<-|[]]]; [auto|right; now left]).
      rewrite put_other by (intros ->; contradiction). apply Ag. rewrite in_app_iff. now left.
    + split; [assumption|]. split; [|assumption]. intros x Nx. apply X2. cbn [mt_left]. unfold put. destruct (Nat.eqb x l); [discriminate|assumption].
Qed.

Lemma release_free m' t : sound m' -> mt_right m' t = None -> sound (release m' t).
Proof.
  intros [Iv Ed Bo] E. constructor; cbn [release mt_left mt_right]; auto. intros x y. unfold put. destruct (Nat.eqb_spec y t) as [->|]; [|apply Iv]. rewrite Iv, E. reflexivity.
Qed.

(** A set of vertices reached from the start, from which there is nowhere else to go
    and in which every right vertex is matched. *)
Definition stuck : Prop := exists ls ts,
  NoDup ls /\ In start ls /\ (forall l, In l ls -> l < n) /\
  (forall l, In l ls -> l <> start -> mt_left m l <> None) /\
  (forall l t, In l ls -> In t (adjacent l) -> In t ts) /\
  (forall t, In t ts -> exists l, mt_right m t = Some l /\ In l ls).

Lemma augment_spec : (sound (augment adjacent n start m) /\ (forall x, mt_left m x <> None -> mt_left (augment adjacent n start m) x <> None) /\
    mt_left (augment adjacent n start m) start <> None) \/
  (augment adjacent n start m = m /\ stuck).
Proof.
  unfold augment. destruct (explore_searching n (search_init start) [] init_searching) as (done & cur & S & Q); [lia|].
  set (s := explore adjacent n m (search_init start)) in *. destruct (sr_end s) as [t|] eqn:E.
  - left. destruct (sg_end _ _ _ S t E) as [Rt Nt]. destruct (sg_right _ _ _ S t Rt) as (R1 & _ & _).
    assert (I : In (sr_to_right s t) (done ++ cur ++ sr_queue s)) by (rewrite app_assoc, in_app_iff; now left).
    apply in_split in I. destruct I as (q & q' & Eq).
    assert (L : length (done ++ cur ++ sr_queue s) <= n).
    { rewrite <- (seq_length n 0). apply NoDup_incl_length; [apply (sg_order _ _ _ S)|]. intros x Ix. pose proof (sg_bound _ _ _ S) as B. rewrite Forall_forall in B. apply in_seq. specialize (B x Ix). lia. }
    apply (flip_sound s done cur S n q (sr_to_right s t) q' t m); auto.
    + rewrite Eq, app_length in L. simpl in L. lia.
    + now apply release_free.
  - right. split; [reflexivity|]. destruct (Q eq_refl) as [-> Qe].
    assert (LQ : done ++ [] ++ sr_queue s = done) by (rewrite Qe; apply app_nil_r).
    destruct S as [Or Bo Le St Be Ri Do Fr En]. rewrite LQ in *. rewrite Forall_forall in Bo.
    exists done, (filter (sr_right s) (flat_map adjacent done)). split; [assumption|]. split; [assumption|]. split; [assumption|]. split; [|split].
    + intros l Il Ns. destruct (Be l Il Ns) as (B1 & _). apply (ms_inverse m Hm) in B1. congruence.
    + intros l t Il It. apply filter_In. split; [apply in_flat_map; eauto|now apply (Do l)].
    + intros t It. apply filter_In in It. destruct It as [_ Rt]. destruct (Ri t Rt) as (_ & _ & R3). specialize (Fr E t Rt). destruct (mt_right m t) as [l|]; [|congruence]. exists l. auto.
Qed.
End Search.

(** A stuck search shows that there is no perfect matching. *)
Lemma stuck_imperfect m start : sound m -> mt_left m start = None -> stuck m start -> forall f, ~ perfect adjacent n f.
Proof.
  intros Hm Hs (ls & ts & ND & Is & B & C & A & M) f [P1 P2].
  (* the images of ls are matched to members of ls other than start *)
  set (back := fun t => match mt_right m t with Some l => l | None => 0 end).
  assert (X : length (map (fun l => back (f l)) ls) <= length (remove Nat.eq_dec start ls)).
  { apply NoDup_incl_length.
    - apply map_NoDup_in; [|assumption]. intros x y Ix Iy E. unfold back in E.
      destruct (M (f x)) as (lx & Ex & _); [apply (A x); auto|]. destruct (M (f y)) as (ly & Ey & _); [apply (A y); auto|]. rewrite Ex, Ey in E. subst ly.
      apply (ms_inverse m Hm) in Ex. apply (ms_inverse m Hm) in Ey. apply P2; auto. congruence.
    - intros y Iy. apply in_map_iff in Iy. destruct Iy as (x & <- & Ix). unfold back. destruct (M (f x)) as (lx & Ex & Ilx); [apply (A x); auto|]. rewrite Ex.
      apply in_in_remove; [|assumption]. intros ->. apply (ms_inverse m Hm) in Ex. congruence. }
  rewrite map_length in X. pose proof (remove_length_lt Nat.eq_dec ls start Is). lia.
Qed.

(** *** Building the matching *)


Lemma find_spec {X} (f : X -> bool) l x : find f l = Some x -> In x l /\ f x = true.
Proof. apply find_some. Qed.

Lemma cover_spec m i : sound m -> i < n ->
  sound (cover adjacent n m i) /\ (forall x, mt_left m x <> None -> mt_left (cover adjacent n m i) x <> None) /\
  (mt_left (cover adjacent n m i) i <> None \/ forall f, ~ perfect adjacent n f).
Proof.
  intros Hm Hi. unfold cover. destruct (mt_left m i) as [t|] eqn:E; [split; [assumption|]; split; [auto|]; left; congruence|].
  destruct (find (fun t => negb (is_some (mt_right m t))) (adjacent i)) as [t|] eqn:Fi.
  - apply find_some in Fi. destruct Fi as [It Ft]. assert (Nt : mt_right m t = None) by (destruct (mt_right m t); [discriminate|reflexivity]).
    split; [now apply sound_add|]. cbn [mt_left]. split; [|left; rewrite put_same; discriminate]. intros x Nx. unfold put. destruct (Nat.eqb x i); [discriminate|assumption].
  - destruct (augment_spec m i Hm E Hi) as [(S & K & C)|[-> St]]; [auto|]. split; [assumption|]. split; [auto|]. right. now apply (stuck_imperfect m i).
Qed.

Lemma covers_spec is_ : forall m, sound m -> (forall i, In i is_ -> i < n) ->
  let m' := fold_left (cover adjacent n) is_ m in
  sound m' /\ (forall x, mt_left m x <> None -> mt_left m' x <> None) /\
  ((forall i, In i is_ -> mt_left m' i <> None) \/ forall f, ~ perfect adjacent n f).
Proof.
  induction is_ as [|i r IH]; intros m Hm B; cbn zeta.
  - simpl. split; [assumption|]. split; [auto|]. left. intros i [].
  - cbn [fold_left]. destruct (cover_spec m i Hm (B i (or_introl eq_refl))) as (S1 & K1 & C1).
    destruct (IH _ S1) as (S2 & K2 & C2); [intros x Ix; apply B; now right|]. split; [assumption|]. split; [auto|].
    destruct C1 as [C1|C1]; [|now right]. destruct C2 as [C2|C2]; [|now right]. left. intros x [<-|Ix]; auto.
Qed.

Lemma revalidate_spec previous is_ : forall m, sound m -> NoDup is_ -> (forall i, In i is_ -> i < n /\ mt_left m i = None) ->
  sound (fold_left (revalidate adjacent previous) is_ m).
Proof.
  induction is_ as [|i r IH]; intros m Hm ND B; [assumption|]. cbn [fold_left]. apply NoDup_cons_iff in ND. destruct ND as [Ni ND]. destruct (B i (or_introl eq_refl)) as [Hi Ei].
  unfold revalidate at 2. destruct (previous i) as [t|]; [|apply IH; auto; intros x Ix; apply B; now right].
  destruct (existsb (Nat.eqb t) (adjacent i)) eqn:Ex; cbn [andb]; [|apply IH; auto; intros x Ix; apply B; now right].
  destruct (mt_right m t) as [y|] eqn:Et; cbn [is_some negb]; [apply IH; auto; intros x Ix; apply B; now right|].
  apply existsb_exists in Ex. destruct Ex as (t' & It & Eq). apply Nat.eqb_eq in Eq. subst t'. apply IH; auto.
  - now apply sound_add.
  - intros x Ix. cbn [mt_left]. rewrite put_other by (intros ->; contradiction). apply B. now right.
Qed.

Lemma no_matching_sound : sound no_matching.
Proof. constructor; cbn [no_matching mt_left mt_right]; try discriminate. intros. split; discriminate. Qed.

(** Either every left vertex is covered, or there is no perfect matching. *)
Lemma build_matching_spec previous : let m := build_matching adjacent n previous in
  sound m /\ ((forall i, i < n -> mt_left m i <> None) \/ forall f, ~ perfect adjacent n f).
Proof.
  cbn zeta. unfold build_matching. destruct (covers_spec (seq 0 n) (fold_left (revalidate adjacent previous) (seq 0 n) no_matching)) as (S & _ & C).
  - apply revalidate_spec; [apply no_matching_sound|apply seq_NoDup|]. intros i I. apply in_seq in I. split; [lia|reflexivity].
  - intros i I. apply in_seq in I. lia.
  - split; [assumption|]. destruct C as [C|C]; [left|now right]. intros i Hi. apply C, in_seq. lia.
Qed.

(** The right vertex a left one is matched to. *)
Definition mate (m : matching) (i : nat) : nat := match mt_left m i with Some t => t | None => 0 end.

Lemma mate_perfect m : sound m -> (forall i, i < n -> mt_left m i <> None) -> perfect adjacent n (mate m).
Proof.
  intros Hm C. unfold mate. split.
  - intros i Hi. specialize (C i Hi). destruct (mt_left m i) as [t|] eqn:E; [|congruence]. now apply (ms_edge m Hm).
  - intros i j Hi Hj. pose proof (C i Hi). pose proof (C j Hj). destruct (mt_left m i) as [t|] eqn:E; [|congruence]. destruct (mt_left m j) as [u|] eqn:F; [|congruence].
    intros ->. now apply (sound_injective m i j u).
Qed.
End Graph.
