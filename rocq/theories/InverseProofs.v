(** Lemmas about Inverse and SymmetricAllDifferent. *)
From Coq Require Import ZArith List Bool Arith Lia Permutation.
From Verif Require Import IntervalSet IntervalSetSpec IntervalSetProofs Vars VarsSpec VarsProofs State StateSpec StateProofs Epochs
  Engine EngineSpec EngineProofs SessionSpec SessionInvProofs Tracker ContractSpec ContractProofs RunProofs Solve Stateful StatefulProofs
  Equals EqualsProofs AllDifferent AllDifferentProofs MatchingSpec GacAllDifferent GacAllDifferentProofs NValueProofs
  Element ElementProofs PartsProofs Quiet QuietProofs Settle SettleProofs ConsistencySpec ChoiceProofs Inverse ChannelSpec.
Import ListNotations.
Local Open Scope Z_scope.

Lemma at_index_spec vars start x y : at_index vars start x = Some y <-> exists j, nth_error vars j = Some y /\ x = start + Z.of_nat j.
Proof.
  unfold at_index. destruct (Z.ltb_spec x start) as [L|L].
  - split; [discriminate|]. intros (j & _ & ->). lia.
  - split.
    + intro E. exists (Z.to_nat (x - start)). split; [assumption|lia].
    + intros (j & E & ->). replace (Z.to_nat (start + Z.of_nat j - start)) with j by lia. assumption.
Qed.

Lemma values_from_In start n x : In x (values_from start n) <-> start <= x <= Z.of_nat n + start - 1.
Proof.
  unfold values_from. rewrite in_map_iff. split.
  - intros (i & <- & I). apply in_seq in I. lia.
  - intro H. exists (Z.to_nat (x - start)). split; [lia|]. apply in_seq. lia.
Qed.

Lemma values_from_NoDup start n : NoDup (values_from start n).
Proof. unfold values_from. apply FinFun.Injective_map_NoDup; [|apply seq_NoDup]. intros i j E. lia. Qed.

(** ** Channelling *)

Section Channel.
Variable nv : nat.
Variable d : domains.
Hypothesis Hd : domains_ok d.
Hypothesis Ld : length d = nv.
Variable xs ys : list var_id.
Variable x_start y_start : Z.
Hypothesis Bx : Forall (var_below nv) xs.
Hypothesis By : Forall (var_below nv) ys.

Lemma in_xs x : In x xs -> var_below nv x.
Proof. now apply (proj1 (Forall_forall _ _) Bx). Qed.

Lemma in_ys y : In y ys -> var_below nv y.
Proof. now apply (proj1 (Forall_forall _ _) By). Qed.

(** The body of the two loops. *)
Definition channel_value (i : nat) (x : var_id) (v : Z) (t : tracker) : tracker :=
  match at_index ys y_start v with
  | Some y => if in_domain (t_domains t) y (Z.of_nat i + x_start) then t else tell_ne x v t
  | None => t
  end.

Definition channel_at (p : nat * var_id) (t : tracker) : tracker :=
  for_each (each_value (t_domains t) (snd p)) (channel_value (fst p) (snd p)) t.

Lemma channel_is t : channel xs x_start ys y_start t = for_each (combine (seq 0 (length xs)) xs) channel_at t.
Proof.
  unfold channel, for_each. generalize (combine (seq 0 (length xs)) xs). intro l. revert t. induction l as [|[i x] l IH]; intro t; [reflexivity|]. cbn [fold_left]. rewrite <- IH. reflexivity.
Qed.

Lemma channel_honest (sat : assignment -> Prop) t : (forall a, within a d -> sat a -> refers_back xs x_start ys y_start a) ->
  honest nv d sat t -> honest nv d sat (channel xs x_start ys y_start t).
Proof.
  intros Im H. rewrite channel_is. apply honest_for_each; [|assumption]. intros [i x] u I Hu. apply combine_seq_nth in I. unfold channel_at. cbn [fst snd].
  apply honest_for_each; [|assumption]. intros v w _ Hw. unfold channel_value. destruct (at_index ys y_start v) as [y|] eqn:Ey; [|assumption].
  destruct (in_domain (t_domains w) y (Z.of_nat i + x_start)) eqn:D; [assumption|]. apply honest_tell; auto; [apply in_xs; now apply nth_error_In in I|].
  intros _ Ok Ln a Wa Ww Sa. unfold lit_holds, cond_holds; cbn. intro E. destruct (Im a Wa Sa i x I) as (j & y' & Ej & Ex & Ev).
  apply at_index_spec in Ey. destruct Ey as (k & Ek & Ev'). assert (k = j) by lia. subst k. rewrite Ek in Ej. injection Ej as <-.
  assert (X : in_domain (t_domains w) y (Z.of_nat i + x_start) = true); [|congruence]. replace (Z.of_nat i + x_start) with (var_value a y) by lia.
  apply value_in_domain; auto. apply (var_below_known nv); auto. apply in_ys. now apply nth_error_In in Ek.
Qed.

Lemma channel_value_later i x v t : In x xs -> later nv d t (channel_value i x v t).
Proof.
  intro I. unfold channel_value. destruct (at_index ys y_start v) as [y|]; [|apply later_refl].
  destruct (in_domain (t_domains t) y (Z.of_nat i + x_start)); [apply later_refl|]. apply later_tell; auto. now apply in_xs.
Qed.

Lemma channel_at_later p t : In p (combine (seq 0 (length xs)) xs) -> later nv d t (channel_at p t).
Proof.
  destruct p as [i x]. intro I. apply combine_seq_nth in I. apply later_for_each. intros v u _. apply channel_value_later. now apply nth_error_In in I.
Qed.

Lemma channel_later t : later nv d t (channel xs x_start ys y_start t).
Proof. rewrite channel_is. apply later_for_each. intros p u I. now apply channel_at_later. Qed.

Lemma channel_extends t : extends t (channel xs x_start ys y_start t).
Proof.
  rewrite channel_is. apply extends_for_each. intros [i x] u _. unfold channel_at. apply extends_for_each. intros v w _. unfold channel_value.
  destruct (at_index ys y_start v) as [y|]; [|apply extends_refl]. destruct (in_domain _ _ _); [apply extends_refl|apply extends_tell].
Qed.

(** A value that is left, and that is a position, could have been referred back to. *)
Lemma channel_left t a i x j y : legit nv d t -> live nv d (channel xs x_start ys y_start t) a ->
  nth_error xs i = Some x -> nth_error ys j = Some y -> var_value a x = y_start + Z.of_nat j ->
  exists u, later nv d t u /\ legit nv d u /\ live nv d u a /\ in_domain (t_domains u) y (Z.of_nat i + x_start) = true.
Proof.
  intros G Lv Ei Ej Ex. rewrite channel_is in Lv.
  apply (for_each_later_inv nv d (fun u => later nv d t u)
    (fun p => forall j y, nth_error ys j = Some y -> var_value a (snd p) = y_start + Z.of_nat j ->
       exists u, later nv d t u /\ legit nv d u /\ live nv d u a /\ in_domain (t_domains u) y (Z.of_nat (fst p) + x_start) = true)) in Lv; auto.
  - destruct Lv as [_ Lv]. rewrite Forall_forall in Lv. apply (Lv (i, x)) with j; auto. now apply combine_seq_nth.
  - intros p u I. now apply channel_at_later.
  - intros p u I Gu Lu. apply (later_trans nv d t u); [assumption|]. now apply channel_at_later.
  - clear i x j y Ei Ej Ex. intros [i x] u I Gu Lt Lc Lu j y Ej Ex. cbn [fst snd] in *. apply combine_seq_nth in I. pose proof (nth_error_In _ _ I) as Ix. unfold channel_at in Lc. cbn [fst snd] in Lc.
    apply (for_each_later_inv nv d (fun w => later nv d t w)
      (fun v => v = var_value a x -> exists u, later nv d t u /\ legit nv d u /\ live nv d u a /\ in_domain (t_domains u) y (Z.of_nat i + x_start) = true)) in Lc; auto.
    + destruct Lc as [_ Lc]. rewrite Forall_forall in Lc. apply (Lc (var_value a x)); [|reflexivity]. apply value_listed; [now apply (live_ok nv d Hd Ld u a)| |apply Lu].
      apply (var_below_known nv); [now apply (live_length nv d Hd Ld u a)|now apply in_xs].
    + intros v w _. now apply channel_value_later.
    + intros v w _ Gw Lw. apply (later_trans nv d t w); [assumption|]. now apply channel_value_later.
    + intros v w _ Gw Lw Lc' Lw' ->. exists w. split; [assumption|]. split; [assumption|]. split; [assumption|]. unfold channel_value in Lc'.
      assert (A : at_index ys y_start (var_value a x) = Some y) by (apply at_index_spec; eauto). rewrite A in Lc'.
      destruct (in_domain (t_domains w) y (Z.of_nat i + x_start)) eqn:D; [reflexivity|]. exfalso.
      apply (tell_back nv d Hd Ld) in Lc'; [|simpl; now apply in_xs|assumption]. destruct Lc' as [_ N]. now apply N.
  - apply later_refl.
Qed.

Lemma later_inside t u a : legit nv d t -> later nv d t u -> live nv d u a -> inside (t_domains t) (t_domains u).
Proof. intros G Lt (Gu & Fu & _) b Wb. destruct (Lt G) as [_ Bk]. apply (Bk b). split; auto. Qed.

(** With everything fixed. *)
Lemma channel_checks t a : legit nv d t -> live nv d (channel xs x_start ys y_start t) a ->
  Forall (fixed (t_domains t)) ys -> (forall x, In x xs -> y_start <= var_value a x <= Z.of_nat (length ys) + y_start - 1) -> refers_back xs x_start ys y_start a.
Proof.
  intros G Lv Fy R i x Ei. pose proof (R x (nth_error_In _ _ Ei)) as Rx.
  destruct (nth_error ys (Z.to_nat (var_value a x - y_start))) as [y|] eqn:Ey; [|apply nth_error_None in Ey; lia].
  exists (Z.to_nat (var_value a x - y_start)), y. split; [assumption|]. split; [lia|].
  destruct (channel_left t a i x (Z.to_nat (var_value a x - y_start)) y G Lv Ei Ey) as (u & Lt & Gu & Lu & D); [lia|].
  pose proof (nth_error_In _ _ Ey) as Iy. assert (Ky : var_known (t_domains u) y) by (apply (var_below_known nv); [now apply (live_length nv d Hd Ld u a)|now apply in_ys]).
  rewrite (fixed_in_domain (t_domains u) y a) in D; [apply Z.eqb_eq in D; lia|now apply (live_ok nv d Hd Ld u a)|assumption|apply Lu|].
  apply (fixed_mono (t_domains t)); [|now apply (proj1 (Forall_forall _ _) Fy)]. now apply (later_inside t u a).
Qed.
End Channel.

(** ** What referring back implies *)

Lemma refers_back_separate xs x_start ys y_start a : refers_back xs x_start ys y_start a -> separate xs [] a.
Proof.
  intros R i k Hi Hk N E. exfalso. destruct (R i _ (handle_nth xs i Hi)) as (j & y & Ej & Ex & Ey). destruct (R k _ (handle_nth xs k Hk)) as (l & z & El & Ez & Ew).
  assert (j = l) by lia. subst l. rewrite El in Ej. injection Ej as ->. lia.
Qed.

Lemma refers_back_range xs x_start ys y_start a x : refers_back xs x_start ys y_start a -> In x xs -> y_start <= var_value a x <= Z.of_nat (length ys) + y_start - 1.
Proof.
  intros R I. apply In_nth_error in I. destruct I as (i & Ei). destruct (R i x Ei) as (j & y & Ej & Ex & _). assert (j < length ys)%nat by (apply nth_error_Some; congruence). lia.
Qed.

Lemma refers_back_listed xs x_start ys y_start a : refers_back xs x_start ys y_start a -> listed_at xs (values_from y_start (length ys)) [] a.
Proof. intros R i Hi. left. apply values_from_In. apply (refers_back_range xs x_start ys y_start); auto. now apply nth_In. Qed.

Lemma separate_NoDup xs a : separate xs [] a -> NoDup (map (var_value a) xs).
Proof.
  intro S. apply (NoDup_nth _ (var_value a (VConst 0))). rewrite map_length. intros i k Hi Hk E. rewrite !map_nth in E.
  destruct (Nat.eq_dec i k) as [|N]; [assumption|]. exfalso. exact (S i k Hi Hk N E).
Qed.

Lemma refers_back_length xs x_start ys y_start a : refers_back xs x_start ys y_start a -> (length xs <= length ys)%nat.
Proof.
  intro R. pose proof (separate_NoDup xs a (refers_back_separate _ _ _ _ _ R)) as ND.
  assert (In' : incl (map (var_value a) xs) (values_from y_start (length ys))).
  { intros x I. apply in_map_iff in I. destruct I as (v & <- & I). apply values_from_In. now apply (refers_back_range xs x_start ys y_start). }
  pose proof (NoDup_incl_length ND In') as L. unfold values_from in L. rewrite !map_length, seq_length in L. exact L.
Qed.

(** ** Inverse *)

Lemma gac_pass_extends vars vals excluded memo t : extends t (fst (gac_pass vars vals excluded memo t)).
Proof.
  destruct (gac_pass vars vals excluded memo t) as [t' m'] eqn:E. cbn [fst]. destruct (gac_pass_cases vars vals excluded _ memo t t' m' eq_refl E) as [(-> & _)|(_ & gone & -> & _)].
  - apply extends_tell.
  - apply extends_for_each. intros [i j] u _. apply extends_tell.
Qed.

Lemma gac_pass_later nv d vars vals excluded memo t : domains_ok d -> length d = nv -> Forall (var_below nv) vars -> later nv d t (fst (gac_pass vars vals excluded memo t)).
Proof.
  intros Hd Ld Bs. destruct (gac_pass vars vals excluded memo t) as [t' m'] eqn:E. cbn [fst]. destruct (gac_pass_cases vars vals excluded _ memo t t' m' eq_refl E) as [(-> & _)|(_ & gone & -> & _)].
  - apply later_tell; auto. exact Logic.I.
  - apply later_for_each. intros [i j] u _. apply later_tell; auto. now apply handle_below.
Qed.

Section Inverse.
Variable nv : nat.
Variable xs ys : list var_id.
Variable start : Z.
Hypothesis Bx : Forall (var_below nv) xs.
Hypothesis By : Forall (var_below nv) ys.
Hypothesis Same : length xs = length ys.
Let sat := inverse_of xs ys start start.
Let pass := inverse_pass xs ys start start.

Section Run.
Variable d : domains.
Hypothesis Hd : domains_ok d.
Hypothesis Ld : length d = nv.

Lemma inverse_step s : honest nv d sat (fst s) -> t_failed (fst s) = false -> honest nv d sat (fst (pass s)) /\ extends (fst s) (fst (pass s)).
Proof.
  intros H F. unfold pass, inverse_pass. set (t1 := channel xs start ys start (fst s)). set (t2 := channel ys start xs start t1). cbv zeta.
  assert (H1 : honest nv d sat t1) by (apply channel_honest; auto; intros a _ [A _]; exact A).
  assert (H2 : honest nv d sat t2) by (apply channel_honest; auto; intros a _ [_ A]; exact A).
  assert (X : extends (fst s) t2) by (apply (extends_trans _ t1); apply channel_extends).
  destruct (t_failed t2) eqn:F2; [split; assumption|]. split.
  - apply gac_pass_keeps; auto; [apply values_from_NoDup|]. intros a _ [A _]. split; [now apply (refers_back_separate _ start ys start)|].
    rewrite Same. now apply (refers_back_listed xs start).
  - apply (extends_trans _ t2); [assumption|]. apply gac_pass_extends.
Qed.

(** The last round. *)
Lemma inverse_quiet u a : legit nv d (fst u) -> live nv d (fst (pass u)) a -> Forall (fixed (t_domains (fst u))) (xs ++ ys) ->
  (forall x, In x (xs ++ ys) -> start <= var_value a x <= Z.of_nat (length xs) + start - 1) -> sat a.
Proof.
  intros G Lv Fx Ra. apply Forall_app in Fx. destruct Fx as [Fx Fy]. unfold pass, inverse_pass in Lv. set (t1 := channel xs start ys start (fst u)) in *. set (t2 := channel ys start xs start t1) in *. cbv zeta in Lv.
  pose proof (channel_later nv d Hd Ld xs ys start start Bx (fst u)) as L1. fold t1 in L1. destruct (L1 G) as [G1 _].
  pose proof (channel_later nv d Hd Ld ys xs start start By t1) as L2. fold t2 in L2. destruct (L2 G1) as [G2 B2].
  assert (V2 : live nv d t2 a).
  { destruct (t_failed t2); [assumption|]. pose proof (gac_pass_later nv d xs (values_from start (length xs)) [] (snd u) t2 Hd Ld Bx) as L3. destruct (L3 G2) as [_ B3]. now apply B3. }
  pose proof (B2 a V2) as V1. split.
  - apply (channel_checks nv d Hd Ld xs ys start start Bx By (fst u) a G V1 Fy). intros x I. rewrite <- Same. apply Ra. apply in_or_app. now left.
  - apply (channel_checks nv d Hd Ld ys xs start start By Bx t1 a G1 V2).
    + eapply Forall_impl; [|exact Fx]. intros v. apply fixed_mono. now apply (later_inside nv d (fst u) t1 a).
    + intros y I. apply Ra. apply in_or_app. now right.
Qed.
End Run.

Definition in_range (a : assignment) : Prop := forall x, In x (xs ++ ys) -> start <= var_value a x <= Z.of_nat (length xs) + start - 1.

Lemma inverse_meets d0 alias m : meets nv d0 alias (at_memo (inverse_body xs ys start start) m) (xs ++ ys) sat (fun a => in_range a -> sat a).
Proof.
  assert (K : forall d, domains_ok d -> length d = nv -> exists s', at_memo (inverse_body xs ys start start) m d = (fst s', EnableButIdempotent) /\ honest nv d sat (fst s') /\
     (t_failed (fst s') = false -> exists u, honest nv d sat (fst u) /\ t_failed (fst u) = false /\ pass u = s' /\ t_domains (fst u) = t_domains (fst s'))).
  { intros d Hd Ld. destruct (settle_done nv d Hd Ld pass (fun s => honest nv d sat (fst s))) with m as (s' & E & H & Q).
    - intros s [G _]. exact G.
    - apply inverse_step; auto.
    - apply honest_track.
    - exists s'. split; [|auto]. unfold at_memo, inverse_body. fold pass. rewrite E. now destruct s'. }
  assert (Q : forall d a, domains_ok d -> length d = nv -> Forall (fixed (t_domains (fst (at_memo (inverse_body xs ys start start) m d)))) (xs ++ ys) ->
     live nv d (fst (at_memo (inverse_body xs ys start start) m d)) a -> in_range a -> sat a).
  { intros d a Hd Ld. destruct (K d Hd Ld) as (s' & -> & H & Qu). cbn [fst]. intros Fx Lv Ra. destruct Qu as (u & Hu & Fu & E & Ed); [apply Lv|].
    rewrite <- Ed in Fx. rewrite <- E in Lv. exact (inverse_quiet d Hd Ld u a (proj1 Hu) Lv Fx Ra). }
  constructor.
  - intros d Hd Ld _. now destruct (K d Hd Ld) as (s' & -> & H & _).
  - intros d a Hd Ld _ Fx Lv. apply (Q d a); auto. destruct (K d Hd Ld) as (s' & E & H & _). rewrite E in *. cbn [fst] in *.
    eapply Forall_impl; [|exact Fx]. intros v. apply fixed_mono. intros b Wb. apply (legit_inside nv d Hd Ld (fst s')); auto; [apply H|apply Lv].
  - intros d a Hd Ld _ _ _ Lv Fx. now apply (Q d a).
  - intros d a Hd Ld _ R. destruct (K d Hd Ld) as (s' & E & _). rewrite E in R. discriminate R.
Qed.
End Inverse.

Lemma established_bounds d0 (sat : assignment -> Prop) vars start n : domains_ok d0 -> Forall (var_known d0) vars ->
  (forall a x, within a d0 -> sat a -> In x vars -> start <= var_value a x <= Z.of_nat n + start - 1) ->
  established d0 sat (bound_all d0 vars start n) (fun a => forall x, In x vars -> start <= var_value a x <= Z.of_nat n + start - 1).
Proof.
  intros Hd K Im. apply established_flat_map. intros v I. pose proof (proj1 (Forall_forall _ _) K v I) as Kv. apply established_app.
  - apply established_lower; auto. intros a Wa Sa. now apply (Im a v).
  - apply established_upper; auto. intros a Wa Sa. now apply (Im a v).
Qed.

Lemma repeats_means vars : repeats_variable vars = true -> exists i k v, i <> k /\ nth_error vars i = Some v /\ nth_error vars k = Some v.
Proof.
  induction vars as [|v r IH]; [discriminate|]. cbn [repeats_variable]. intro E. apply orb_true_iff in E. destruct E as [E|E].
  - apply andb_true_iff in E. destruct E as [_ E]. apply existsb_exists in E. destruct E as (w & I & Ew). apply var_eqb_spec in Ew. subst w.
    apply In_nth_error in I. destruct I as (k & Ek). exists 0%nat, (S k), v. split; [lia|]. now split.
  - destruct (IH E) as (i & k & w & N & A & B). exists (S i), (S k), w. split; [lia|]. now split.
Qed.

Lemma repeats_never xs x_start ys y_start a : repeats_variable xs = true -> ~ refers_back xs x_start ys y_start a.
Proof.
  intros E R. destruct (repeats_means xs E) as (i & k & v & N & A & B).
  apply refers_back_separate in R. pose proof (nth_error_nth _ _ (VConst 0) A) as A'. pose proof (nth_error_nth _ _ (VConst 0) B) as B'.
  apply (R i k); auto; [apply nth_error_Some; congruence|apply nth_error_Some; congruence|]. unfold handle. now rewrite A', B'.
Qed.

Lemma inverse_posts d0 xs ys start : domains_ok d0 -> Forall (var_known d0) (xs ++ ys) ->
  posts d0 (inverse xs ys start start) (xs ++ ys) (inverse_of xs ys start start).
Proof.
  intros Hd K. unfold inverse. destruct (repeats_variable xs) eqn:R1; [intros a [A _]; revert A; now apply repeats_never|].
  destruct (repeats_variable ys) eqn:R2; [intros a [_ A]; revert A; now apply repeats_never|]. cbn [orb].
  destruct (Nat.eqb_spec (length xs) (length ys)) as [L|L]; cbn [negb].
  2:{ intros a [A B]. apply refers_back_length in A. apply refers_back_length in B. lia. }
  pose proof K as K'. apply Forall_app in K'. destruct K' as [Kx Ky]. cbn [posts].
  apply (parts_correct d0 _ _ _ (fun a => in_range xs ys start a -> inverse_of xs ys start start a) (in_range xs ys start)); auto; cbn [fst snd].
  - apply (carried_memo d0 (xs ++ ys) (xs ++ ys)); auto; [apply incl_refl|rewrite app_nil_r; apply incl_refl|]. intros nv m Ln.
    apply inverse_meets; auto; (eapply Forall_impl; [|eassumption]; intros v Kv; now apply (known_below_more d0)).
  - eapply established_ext; [|apply established_app; apply established_bounds; auto].
    + cbv beta. intros a _ [A B] x I. apply in_app_or in I. destruct I as [I|I]; [rewrite L; now apply A|now apply B].
    + intros a x _ [A _] I. now apply (refers_back_range xs start).
    + intros a x _ [_ A] I. now apply (refers_back_range ys start).
Qed.

(** ** Consistency *)

Lemma choose_each {X Y} (P : X -> Y -> Prop) l : (forall x, In x l -> exists y, P x y) -> exists ys, Forall2 P l ys.
Proof.
  induction l as [|x r IH]; intro H; [now exists []|]. destruct (H x) as (y & Py); [now left|]. destruct IH as (ys & F); [intros z I; apply H; now right|].
  exists (y :: ys). now constructor.
Qed.

Lemma Forall2_at {X Y} (P : X -> Y -> Prop) l l' i x y : Forall2 P l l' -> nth_error l i = Some x -> nth_error l' i = Some y -> P x y.
Proof. intro F. revert i. induction F as [|x' y' l l' H _ IH]; intros [|i] A B; try discriminate; simpl in *; [congruence|eauto]. Qed.

Lemma combine_seq_at {X} (l : list X) j y k : nth_error l j = Some y -> nth_error (combine (seq k (length l)) l) j = Some ((k + j)%nat, y).
Proof.
  revert j k. induction l as [|x r IH]; intros [|j] k E; try discriminate; simpl in *.
  - injection E as ->. now rewrite Nat.add_0_r.
  - rewrite (IH j (S k) E). f_equal. f_equal. lia.
Qed.

Lemma inside_member d d' v z : domains_ok d -> domains_ok d' -> var_known d v -> var_known d' v -> inside d d' -> view_member d' v z -> view_member d v z.
Proof. intros Ok Ok' K K' I V. apply view_member_iff in V; auto. destruct V as (a & Wa & <-). apply value_possible; auto. Qed.

Section Consistent.
Variable nv : nat.
Variable xs ys : list var_id.
Variable start : Z.
Hypothesis Bx : Forall (var_below nv) xs.
Hypothesis By : Forall (var_below nv) ys.
Hypothesis Same : length xs = length ys.
Variable D : domains.
Hypothesis HD : domains_ok D.
Hypothesis LD : length D = nv.
Hypothesis Ua : NoDup (underlying_list (xs ++ ys)).
Hypothesis Ra : forall a, within a D -> in_range xs ys start a.
(** Whatever one list can refer to can refer back. *)
Hypothesis Cx : forall i x j y, nth_error xs i = Some x -> nth_error ys j = Some y -> view_member D x (start + Z.of_nat j) -> view_member D y (start + Z.of_nat i).
Hypothesis Cy : forall i x j y, nth_error xs i = Some x -> nth_error ys j = Some y -> view_member D y (start + Z.of_nat i) -> view_member D x (start + Z.of_nat j).
Hypothesis Sx : domain_consistent D xs (separate xs []).

Let Kx : Forall (var_known D) xs.
Proof. apply Forall_forall. intros v I. apply (var_below_known nv); auto. now apply (proj1 (Forall_forall _ _) Bx). Qed.
Let Ky : Forall (var_known D) ys.
Proof. apply Forall_forall. intros v I. apply (var_below_known nv); auto. now apply (proj1 (Forall_forall _ _) By). Qed.

Lemma turn_round a : within a D -> separate xs [] a -> exists b, within b D /\ map (var_value b) xs = map (var_value a) xs /\ inverse_of xs ys start start b.
Proof.
  intros Wa Se. pose proof (separate_NoDup xs a Se) as ND.
  assert (Cov : incl (values_from start (length xs)) (map (var_value a) xs)).
  { apply NoDup_length_incl; [assumption|unfold values_from; rewrite !map_length, seq_length; lia|]. intros z I. apply in_map_iff in I. destruct I as (v & <- & I). apply values_from_In. apply (Ra a Wa). apply in_or_app. now left. }
  destruct (choose_each (fun '(j, y) z => view_member D y z /\ exists i x, nth_error xs i = Some x /\ var_value a x = start + Z.of_nat j /\ z = start + Z.of_nat i)
    (combine (seq 0 (length ys)) ys)) as (zs & Fz).
  { intros [j y] I. apply combine_seq_nth in I. assert (j < length ys)%nat by (apply nth_error_Some; congruence).
    assert (J : In (start + Z.of_nat j) (map (var_value a) xs)) by (apply Cov; apply values_from_In; lia). apply in_map_iff in J. destruct J as (x & Ex & Ix). apply In_nth_error in Ix. destruct Ix as (i & Ei).
    exists (start + Z.of_nat i). split; [|eauto]. apply (Cx i x j y); auto. rewrite <- Ex. apply value_possible; auto. apply (proj1 (Forall_forall _ _) Kx). now apply nth_error_In in Ei. }
  assert (Fv : Forall2 (view_member D) ys zs).
  { clear - Fz. revert Fz. generalize 0%nat. revert zs. induction ys as [|y r IH]; intros zs k Fz; simpl in Fz; inversion Fz; subst; constructor; [tauto|]. eapply IH. eassumption. }
  destruct (choose_list D (xs ++ ys) (map (var_value a) xs ++ zs)) as (b & Wb & Eb); auto.
  { apply Forall_app. now split. }
  { apply Forall2_app; [|assumption]. clear - Kx Wa HD. induction xs as [|x r IH]; constructor; inversion Kx; subst; [now apply value_possible|]. now apply IH. }
  rewrite map_app in Eb. apply app_inj_len in Eb; [|now rewrite !map_length]. destruct Eb as [E1 E2]. exists b. split; [assumption|]. split; [assumption|].
  assert (Vx : forall i x, nth_error xs i = Some x -> var_value b x = var_value a x).
  { intros i x Ei. pose proof (f_equal (fun l => nth_error l i) E1) as Q. cbv beta in Q. rewrite !nth_error_map, Ei in Q. now injection Q. }
  assert (Vy : forall j y, nth_error ys j = Some y -> exists i x, nth_error xs i = Some x /\ var_value b x = start + Z.of_nat j /\ var_value b y = start + Z.of_nat i).
  { intros j y Ej. assert (Ez : nth_error zs j = Some (var_value b y)) by (rewrite <- E2, nth_error_map, Ej; reflexivity).
    pose proof (Forall2_at _ _ _ j (0 + j, y)%nat (var_value b y) Fz (combine_seq_at ys j y 0 Ej) Ez) as (_ & i & x & Ei & Ex & Ev).
    exists i, x. rewrite (Vx i x Ei). auto. }
  split.
  - intros i x Ei. assert (I : In x (xs ++ ys)) by (apply in_or_app; left; now apply nth_error_In in Ei). pose proof (Ra b Wb x I) as R.
    destruct (nth_error ys (Z.to_nat (var_value b x - start))) as [y|] eqn:Ey; [|apply nth_error_None in Ey; lia].
    exists (Z.to_nat (var_value b x - start)), y. split; [assumption|]. split; [lia|]. destruct (Vy _ _ Ey) as (k & w & Ek & Ew & ->).
    assert (k = i); [|now subst]. destruct (Nat.eq_dec k i) as [|N]; [assumption|]. exfalso.
    pose proof (nth_error_nth _ _ (VConst 0) Ek) as A. pose proof (nth_error_nth _ _ (VConst 0) Ei) as B. apply (Se k i); auto; [apply nth_error_Some; congruence|apply nth_error_Some; congruence|].
    unfold handle. rewrite A, B, <- (Vx _ _ Ek), <- (Vx _ _ Ei). lia.
  - intros j y Ej. destruct (Vy j y Ej) as (i & x & Ei & Ex & Ey). exists i, x. auto.
Qed.

Lemma channelled_consistent : domain_consistent D (xs ++ ys) (inverse_of xs ys start start).
Proof.
  assert (X : forall x v, In x xs -> (exists a, within a D /\ var_value a x = v) -> exists a, within a D /\ var_value a x = v /\ inverse_of xs ys start start a).
  { intros x v I H. destruct (Sx x v I H) as (a & Wa & Ea & Se). destruct (turn_round a Wa Se) as (b & Wb & Eb & Ib). exists b. split; [assumption|]. split; [|assumption].
    rewrite <- Ea. apply In_nth_error in I. destruct I as (i & Ei). pose proof (f_equal (fun l => nth_error l i) Eb) as Q. cbv beta in Q. rewrite !nth_error_map, Ei in Q. now injection Q. }
  intros v z I (a & Wa & Ea). apply in_app_or in I. destruct I as [I|I]; [apply X; eauto|]. pose proof (Ra a Wa v ltac:(apply in_or_app; now right)) as R. rewrite Ea in R.
  apply In_nth_error in I. destruct I as (j & Ej). destruct (nth_error xs (Z.to_nat (z - start))) as [x|] eqn:Ex; [|apply nth_error_None in Ex; lia].
  assert (Vy : view_member D v (start + Z.of_nat (Z.to_nat (z - start)))).
  { replace (start + Z.of_nat (Z.to_nat (z - start))) with z by lia. rewrite <- Ea. apply value_possible; auto. apply (proj1 (Forall_forall _ _) Ky). now apply nth_error_In in Ej. }
  pose proof (Cy _ x j v Ex Ej Vy) as Vx. pose proof (nth_error_In _ _ Ex) as Ix. apply view_member_iff in Vx; auto; [|now apply (proj1 (Forall_forall _ _) Kx)].
  destruct (X x _ Ix Vx) as (b & Wb & Eb & Ib). exists b. split; [assumption|]. split; [|assumption]. destruct Ib as [Ib _]. destruct (Ib _ _ Ex) as (k & w & Ek & E1 & E2).
  assert (k = j) by lia. subst k. rewrite Ek in Ej. injection Ej as ->. lia.
Qed.
End Consistent.

Lemma inverse_consistent d0 xs ys start k p : domains_ok d0 -> Forall (var_known d0) (xs ++ ys) -> NoDup (underlying_list (xs ++ ys)) ->
  (forall a, within a d0 -> in_range xs ys start a) -> inverse xs ys start start = Some k -> fst (k d0) = [p] ->
  forall D, ConsistencySpec.outcome (length d0) (fun d _ => inside d0 d) p D -> domain_consistent D (xs ++ ys) (inverse_of xs ys start start).
Proof.
  intros Hd0 K Ua R0 Ek Ep D (i & evs & (Hd & Ld & Id) & A). unfold inverse in Ek. destruct (repeats_variable xs || repeats_variable ys || negb (length xs =? length ys)%nat) eqn:Q; [discriminate|].
  injection Ek as <-. cbn [fst] in Ep. injection Ep as <-. apply orb_false_iff in Q. destruct Q as [_ Q]. apply negb_false_iff in Q. apply Nat.eqb_eq in Q. rename Q into Same.
  assert (Ba : Forall (var_below (length d0)) (xs ++ ys)) by now apply known_below_all. pose proof Ba as Ba'. apply Forall_app in Ba'. destruct Ba' as [Bx By].
  cbn [memo_propagator p_run] in A. set (d := i_domains i) in *. set (nv := length d0) in *.
  destruct (memo_run_same (inverse_body xs ys start start) i) as (_ & _ & _). unfold memo_run, inverse_body in A. fold d in A.
  set (pass := inverse_pass xs ys start start) in *. set (sat := inverse_of xs ys start start) in *.
  destruct (settle_done nv d Hd Ld pass (fun s => honest nv d sat (fst s))) with (i_memo i) as (s' & E & H & Qu).
  { intros s [G _]. exact G. } { apply inverse_step; auto. } { apply honest_track. }
  rewrite E in A. destruct s' as [t' m']. cbn [o_infer fst] in *. destruct (lg_apply _ _ _ (proj1 H)) as (ev & A'). rewrite A' in A. injection A as <- _ F.
  destruct (Qu F) as ([u mu] & Hu & Fu & Eu & Ed). cbn [fst] in *. set (D := t_domains t') in *. pose proof (proj1 Hu) as Gu.
  assert (HD : domains_ok D) by (apply (legit_ok nv d); auto; apply H). assert (LD : length D = nv) by (apply (legit_length nv d); auto; apply H).
  assert (ID : inside d0 D). { intros a Wa. apply Id. apply (legit_inside nv d Hd Ld t' (proj1 H) F). exact Wa. }
  unfold pass, inverse_pass in Eu. cbn [fst snd] in Eu. set (t1 := channel xs start ys start u) in *. set (t2 := channel ys start xs start t1) in *. cbv zeta in Eu.
  destruct (t_failed t2) eqn:F2; [injection Eu as Et _; unfold D in *; congruence|].
  pose proof (channel_later nv d Hd Ld xs ys start start Bx u) as L1. fold t1 in L1. destruct (L1 Gu) as [G1 B1].
  pose proof (channel_later nv d Hd Ld ys xs start start By t1) as L2. fold t2 in L2. destruct (L2 G1) as [G2 B2].
  pose proof (gac_pass_later nv d xs (values_from start (length xs)) [] mu t2 Hd Ld Bx) as L3. destruct (L3 G2) as [G3 B3]. rewrite Eu in G3, B3. cbn [fst] in G3, B3.
  assert (V2 : forall a, within a D -> live nv d t2 a) by (intros a Wa; apply B3; split; [assumption|]; split; assumption).
  assert (V1 : forall a, within a D -> live nv d t1 a) by auto.
  assert (Kn : forall v, In v (xs ++ ys) -> var_below nv v) by (apply (proj1 (Forall_forall _ _) Ba)).
  assert (Cu : forall w v z, In v (xs ++ ys) -> later nv d u w -> (exists a, live nv d w a) -> in_domain (t_domains w) v z = true -> view_member D v z).
  { intros w v z I Lw (a & La) V. pose proof (live_ok nv d Hd Ld w a La) as Okw. pose proof (live_length nv d Hd Ld w a La) as Lnw.
    assert (Kw : var_known (t_domains w) v) by (apply (var_below_known nv); auto). apply in_domain_spec in V; auto. rewrite <- Ed.
    apply (inside_member (t_domains u) (t_domains w)); auto; [now rewrite Ed|apply (var_below_known nv); auto; now rewrite Ed|]. exact (later_inside nv d u w a Gu Lw La). }
  apply (channelled_consistent nv); auto.
  - intros j x l y Ej El V. pose proof (nth_error_In _ _ Ej) as Ix. pose proof (nth_error_In _ _ El) as Iy. apply view_member_iff in V; auto; [|apply (var_below_known nv); auto; apply Kn; apply in_or_app; now left].
    destruct V as (a & Wa & Ea). destruct (channel_left nv d Hd Ld xs ys start start Bx u a j x l y Gu (V1 a Wa) Ej El Ea) as (w & Lw & Gw & Lv & Dw).
    apply (Cu w); eauto; [apply in_or_app; now right|]. now rewrite Z.add_comm.
  - intros j x l y Ej El V. pose proof (nth_error_In _ _ Ej) as Ix. pose proof (nth_error_In _ _ El) as Iy. apply view_member_iff in V; auto; [|apply (var_below_known nv); auto; apply Kn; apply in_or_app; now right].
    destruct V as (a & Wa & Ea). destruct (channel_left nv d Hd Ld ys xs start start By t1 a l y j x G1 (V2 a Wa) El Ej Ea) as (w & Lw & Gw & Lv & Dw).
    apply (Cu w); eauto; [apply in_or_app; now left|apply (later_trans nv d u t1); auto|]. now rewrite Z.add_comm.
  - assert (Li : listed xs (values_from start (length xs)) [] (t_domains t2)).
    { intros a i' Wa Hi. left. apply values_from_In. apply (R0 a); [|apply in_or_app; left; now apply nth_In]. apply Id. apply (legit_inside nv d Hd Ld t2 G2 F2). exact Wa. }
    assert (Ux : NoDup (underlying_list xs)).
    { rewrite underlying_list_app in Ua. now apply NoDup_parts in Ua. }
    pose proof (gac_pass_consistent nv xs (values_from start (length xs)) [] Bx (values_from_NoDup _ _) ltac:(intros ? _ []) d Hd Ld t2 (conj G2 (fun a _ (f : False) => match f with end)) F2 Li Ux mu) as C.
    cbn zeta in C. rewrite Eu in C. cbn [fst] in C. exact (C F).
Qed.

(** ** SymmetricAllDifferent *)

Lemma symmetric_meets nv d0 alias vars start m : Forall (var_below nv) vars ->
  meets nv d0 alias (at_memo (symmetric_body vars start) m) vars (own_inverse vars start)
    (fun a => (forall x, In x vars -> start <= var_value a x <= Z.of_nat (length vars) + start - 1) -> own_inverse vars start a).
Proof.
  intro Bs.
  assert (H1 : forall d, domains_ok d -> length d = nv -> honest nv d (own_inverse vars start) (channel vars start vars start (track d))).
  { intros d Hd Ld. apply channel_honest; auto. apply honest_track. }
  assert (K : forall d, snd (at_memo (symmetric_body vars start) m d) = Enable /\
    fst (at_memo (symmetric_body vars start) m d) = let t := channel vars start vars start (track d) in if t_failed t then t else fst (gac_pass vars (values_from start (length vars)) [] m t)).
  { intro d. unfold at_memo, symmetric_body. destruct (t_failed (channel vars start vars start (track d))); [auto|]. now destruct (gac_pass _ _ _ _ _). }
  constructor.
  - intros d Hd Ld _. destruct (K d) as [_ ->]. cbv zeta. destruct (t_failed (channel vars start vars start (track d))) eqn:F; [auto|].
    apply gac_pass_keeps; auto; [apply values_from_NoDup|]. intros a _ A. split; [now apply (refers_back_separate _ start vars start)|now apply (refers_back_listed vars start)].
  - intros d a Hd Ld _ Fx. destruct (K d) as [_ ->]. cbv zeta. intros Lv Ra. pose proof (proj1 (H1 d Hd Ld)) as G.
    apply (channel_checks nv d Hd Ld vars vars start start Bs Bs (track d) a); auto; [apply legit_track|].
    destruct (t_failed (channel vars start vars start (track d))); [assumption|].
    pose proof (gac_pass_later nv d vars (values_from start (length vars)) [] m _ Hd Ld Bs : later nv d (channel vars start vars start (track d)) _) as L3. destruct (L3 G) as [_ B3]. now apply B3.
  - intros d a _ _ _ _ R. destruct (K d) as [E _]. rewrite E in R. discriminate R.
  - intros d a _ _ _ R. destruct (K d) as [E _]. rewrite E in R. discriminate R.
Qed.

Lemma symmetric_correct d0 vars start : domains_ok d0 -> Forall (var_known d0) vars -> correct_on d0 (symmetric_all_different vars start) vars (own_inverse vars start).
Proof.
  intros Hd K. unfold symmetric_all_different. destruct (adjacent_equal (sort_vars vars)) eqn:Du.
  - apply (parts_correct d0 _ _ _ (fun _ => True) (fun _ => False)); auto; cbn [fst snd]; [apply carried_nil| |tauto].
    apply established_false. intros a _ R. assert (N : NoDup vars); [|apply duplicates_found in N; congruence].
    apply refers_back_separate in R. apply (NoDup_nth _ (VConst 0)). intros i k Hi Hk E. destruct (Nat.eq_dec i k) as [|N]; [assumption|]. exfalso. apply (R i k Hi Hk N). unfold handle. now rewrite E.
  - apply (parts_correct d0 _ _ _ (fun a => (forall x, In x vars -> start <= var_value a x <= Z.of_nat (length vars) + start - 1) -> own_inverse vars start a)
      (fun a => forall x, In x vars -> start <= var_value a x <= Z.of_nat (length vars) + start - 1)); auto; cbn [fst snd].
    + apply (carried_memo d0 vars vars); auto; [apply incl_refl|rewrite !app_nil_r; apply incl_refl|]. intros nv m Ln. apply symmetric_meets.
      eapply Forall_impl; [|exact K]. intros v Kv. now apply (known_below_more d0).
    + apply established_bounds; auto. intros a x _ R I. now apply (refers_back_range vars start).
Qed.
