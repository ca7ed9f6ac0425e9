(** The two watches a negative table keeps on each of its tuples. *)
From Coq Require Import ZArith List Bool Arith Lia.
From Verif Require Import IntervalSet IntervalSetSpec IntervalSetProofs Vars VarsSpec VarsProofs State StateSpec StateProofs Epochs
  Engine EngineSpec EngineProofs Session SessionSpec SessionInvProofs Tracker ContractSpec ContractProofs WatchSpec WatchProofs
  WatchSessionProofs NegativeTable TableSpec NegativeTableProofs.
Import ListNotations.
Local Open Scope Z_scope.

Lemma unpack_pack p q : Z.of_nat q < two32 -> unpack (pack p q) = (p, q).
Proof.
  intro Q. unfold unpack, pack. f_equal.
  - rewrite Z.add_comm, Z_div_plus by reflexivity. rewrite Z.div_small by lia. simpl. apply Nat2Z.id.
  - rewrite Z.add_comm, Z_mod_plus by reflexivity. rewrite Z.mod_small by lia. apply Nat2Z.id.
Qed.

Lemma insert_sorted_in n l x : In x (insert_sorted n l) <-> x = n \/ In x l.
Proof.
  induction l as [|y r IH]; simpl; [intuition congruence|].
  destruct (Nat.ltb n y); [simpl; intuition congruence|]. destruct (Nat.eqb_spec n y) as [->|N]; simpl; [intuition congruence|].
  rewrite IH. intuition congruence.
Qed.

Lemma sort_unique_in l x : In x (sort_unique l) <-> In x l.
Proof. induction l as [|y r IH]; simpl; [tauto|]. rewrite insert_sorted_in, IH. intuition congruence. Qed.

Lemma stores_app e1 : forall e2 S k, stores (e1 ++ e2) S k = stores e2 (stores e1 S) k.
Proof. induction e1 as [|[l pl| |j x] r IH]; intros e2 S k; simpl; auto. Qed.

Lemma stores_ext es : forall S S', (forall k, S k = S' k) -> forall k, stores es S k = stores es S' k.
Proof. induction es as [|[l pl| |j x] r IH]; intros S S' E k; simpl; auto. apply IH. intro i. now rewrite E. Qed.

Lemma arms_app e1 e2 A l pl : arms e2 (arms e1 A) l pl <-> arms (e1 ++ e2) A l pl.
Proof. unfold arms. rewrite in_app_iff. tauto. Qed.

Section Watched.
Variable nv : nat.
Variable vars : list var_id.
Hypothesis Known : Forall (var_below nv) vars.
Variable tuples : list tuple.
Hypothesis Sized : Forall (fun t => length t = length vars) tuples.
Hypothesis Narrow : Z.of_nat (length vars) <= two32.

(** No assignment still possible agrees with the tuple. *)
Definition ruled_out (d : domains) (t : tuple) : Prop := forall a, within a d -> ~ agrees a vars t.

Definition guarded_at (d : domains) (A : literal -> nat -> Prop) (P : list nat) (ti : nat) (t : tuple) (p : nat) : Prop :=
  (p < length vars)%nat /\ (A (position_matches vars t p) ti \/ (certain d (position_matches vars t p) /\ In ti P)).

Definition handled (d : domains) (A : literal -> nat -> Prop) (S : nat -> Z) (P : list nat) (ti : nat) : Prop :=
  forall t, nth_error tuples ti = Some t -> ruled_out d t \/
    (fst (unpack (S ti)) <> snd (unpack (S ti)) /\ guarded_at d A P ti t (fst (unpack (S ti))) /\ guarded_at d A P ti t (snd (unpack (S ti)))).

Definition watches_kept (d : domains) (A : literal -> nat -> Prop) (S : nat -> Z) (P : list nat) : Prop := forall ti, handled d A S P ti.

Definition all_seen (m : list Z) : Prop := m = [Z.of_nat (length tuples)].

Lemma handled_weaken d d' A A' S S' P P' ti : handled d A S P ti -> (forall a, within a d' -> within a d) -> S ti = S' ti ->
  (forall l, A l ti -> A' l ti \/ (certain d' l /\ In ti P')) -> (In ti P -> In ti P') -> handled d' A' S' P' ti.
Proof.
  intros H W E AA PP t Ht. rewrite <- E. destruct (H t Ht) as [R|(N & G1 & G2)]; [left; intros a Wa; auto|right].
  assert (X : forall p, guarded_at d A P ti t p -> guarded_at d' A' P' ti t p).
  { intros p (Lp & [Ap|[C I]]); (split; [assumption|]).
    - destruct (AA _ Ap); [left|right]; assumption.
    - right. split; [intros a Wa; auto|auto]. }
  auto.
Qed.

(** What a run on [d0] leaves behind for the tuples dealt with so far, [done], of
    those to be dealt with, [todo]. *)
Definition midway (d0 : domains) (A : literal -> nat -> Prop) (S : nat -> Z) (done : nat -> Prop) (s : progress_of) : Prop :=
  t_failed (fst s) = false ->
  (forall ti, done ti -> handled (t_domains (fst s)) (arms (snd s) A) (stores (snd s) S) [] ti) /\
  (forall ti, ~ done ti -> stores (snd s) S ti = S ti).

Section Run.
Variable d : domains.
Hypothesis Hd : domains_ok d.
Hypothesis L : length d = nv.
Variable A : literal -> nat -> Prop.
Variable S : nat -> Z.

Lemma unbroken_watched tr ed t p ti : fine nv vars tuples d (tr, ed) -> t_failed tr = false -> In t tuples -> (p < length vars)%nat ->
  is_broken (t_domains tr) vars t p = false -> ruled_out (t_domains tr) t \/
  forall es, In (ReqWatch (position_matches vars t p) ti) es -> guarded_at (t_domains tr) (arms es A) [] ti t p.
Proof.
  intros Fi F It Lp B. destruct Fi as (G & _).
  assert (Hd' : domains_ok (t_domains tr)) by now apply (legit_ok nv d). assert (L' : length (t_domains tr) = nv) by now apply (legit_length nv d).
  pose proof (unbroken_unmet nv vars Known (t_domains tr) Hd' L' t p B) as (a & Wa & Na).
  destruct (lit_underlying (position_matches vars t p)) as [u|] eqn:U.
  - right. intros es Ie. split; [assumption|]. left. right. split; [assumption|]. rewrite U. discriminate.
  - left. intros b Wb Ab. rewrite (agrees_positions vars b t) in Ab by (rewrite Forall_forall in Sized; auto).
    specialize (Ab p Lp). unfold position_matches in *. destruct (nth p t None) as [x|]; [|now apply Na].
    cbn [lit_underlying matches] in U. cbn [lit_holds matches] in *. destruct (nth p vars (VConst 0)); try discriminate. now apply Na.
Qed.

Lemma told_differs tr ed t w : fine nv vars tuples d (tr, ed) -> In t tuples -> (w < length vars)%nat ->
  t_failed (tell (position_differs vars t w) tr) = false -> ruled_out (t_domains (tell (position_differs vars t w) tr)) t.
Proof.
  intros (G & _) It Lw F a Wa Ab. rewrite (agrees_positions vars a t) in Ab by (rewrite Forall_forall in Sized; auto).
  destruct (tell_live nv d Hd L (position_differs vars t w) tr a G) as (_ & _ & H); auto.
  - now apply position_below.
  - apply differs_holds in H. apply H. now apply Ab.
Qed.

Lemma found_other dd t skip p : find_unbroken dd vars t skip = Some p -> (p < length vars)%nat /\ is_broken dd vars t p = false /\ skip <> Some p.
Proof.
  intro F. apply find_some in F. destruct F as [I E]. apply in_seq in I. apply andb_true_iff in E. destruct E as [E1 E].
  split; [lia|]. split; [now apply negb_true_iff in E|]. intros ->. now rewrite Nat.eqb_refl in E1.
Qed.

Lemma told_inside tr l a : legit nv d tr -> lit_below nv l -> t_failed (tell l tr) = false -> within a (t_domains (tell l tr)) -> within a (t_domains tr).
Proof. intros G B F Wa. now destruct (tell_live nv d Hd L l tr a G B F Wa). Qed.

(** One tuple is dealt with, by telling [l] perhaps and by editing only its own
    entry; the others are as before. *)
Lemma midway_step (done : nat -> Prop) tr ed tr' more ti : legit nv d tr -> midway d A S done (tr, ed) ->
  (t_failed tr' = false -> t_failed tr = false /\ (forall a, within a (t_domains tr') -> within a (t_domains tr))) ->
  (forall k, k <> ti -> forall S', stores more S' k = S' k) ->
  (t_failed tr' = false -> handled (t_domains tr') (arms (ed ++ more) A) (stores (ed ++ more) S) [] ti) ->
  midway d A S (fun k => k = ti \/ done k) (tr', ed ++ more).
Proof.
  intros G Md Nw Ot Hn F. cbn [fst snd] in *. destruct (Nw F) as [F0 W]. destruct (Md F0) as [M1 M2]. cbn [fst snd] in *. split.
  - intros k [->|Dk]; [now apply Hn|]. destruct (Nat.eq_dec k ti) as [->|N]; [now apply Hn|].
    apply (handled_weaken (t_domains tr) _ (arms ed A) _ (stores ed S) _ [] []); auto.
    + rewrite stores_app. symmetry. now apply Ot.
    + intros l Al. left. apply arms_app. left. exact Al.
  - intros k Nk. rewrite stores_app, Ot by tauto. apply M2. tauto.
Qed.

Lemma only_here ti x : forall k, k <> ti -> forall S' ws, (forall y, In y ws -> exists l pl, y = ReqWatch l pl) -> stores (ws ++ [ReqSet ti x]) S' k = S' k.
Proof.
  intros k N S' ws H. rewrite stores_app. cbn [stores]. destruct (Nat.eqb_spec k ti); [contradiction|].
  clear x. induction ws as [|y r IH]; [reflexivity|]. destruct (H y (or_introl eq_refl)) as (l & pl & ->). apply IH. intros z Hz. apply H. now right.
Qed.

Lemma stores_last ti x ed ws S' : stores (ed ++ ws ++ [ReqSet ti x]) S' ti = x.
Proof. rewrite app_assoc, stores_app. cbn [stores]. now rewrite Nat.eqb_refl. Qed.

(** Two positions found and recorded. *)
Lemma two_found tr ed t ti w1 w2 ws : nth_error tuples ti = Some t -> fine nv vars tuples d (tr, ed) -> t_failed tr = false ->
  (w1 < length vars)%nat -> (w2 < length vars)%nat -> w1 <> w2 ->
  (ruled_out (t_domains tr) t \/ guarded_at (t_domains tr) (arms (ed ++ ws ++ [ReqSet ti (pack w1 w2)]) A) [] ti t w1) ->
  (ruled_out (t_domains tr) t \/ guarded_at (t_domains tr) (arms (ed ++ ws ++ [ReqSet ti (pack w1 w2)]) A) [] ti t w2) ->
  handled (t_domains tr) (arms (ed ++ ws ++ [ReqSet ti (pack w1 w2)]) A) (stores (ed ++ ws ++ [ReqSet ti (pack w1 w2)]) S) [] ti.
Proof.
  intros Et Fi F L1 L2 N G1 G2 t' Et'. assert (t' = t) as -> by congruence. rewrite stores_last.
  rewrite unpack_pack by lia. cbn [fst snd].
  destruct G1 as [R|G1]; [left; assumption|]. destruct G2 as [R|G2]; [left; assumption|]. right. auto.
Qed.

Lemma watch_only l pl (y : watch_request) : In y [ReqWatch l pl] -> exists l pl, y = ReqWatch l pl.
Proof. intros [<-|[]]. eauto. Qed.

Lemma watches_only l pl l' pl' (y : watch_request) : In y [ReqWatch l pl; ReqWatch l' pl'] -> exists l pl, y = ReqWatch l pl.
Proof. intros [<-|[<-|[]]]; eauto. Qed.

Lemma arm_midway (done : nat -> Prop) ti s : fine nv vars tuples d s -> midway d A S done s ->
  midway d A S (fun k => k = ti \/ done k) (arm_tuple vars tuples ti s).
Proof.
  destruct s as [tr ed]. intros Fi Md. pose proof Fi as (G & _). cbn [fst] in G. unfold arm_tuple.
  destruct (t_failed tr) eqn:F; [intro X; cbn [fst] in X; congruence|].
  destruct (nth_error tuples ti) as [t|] eqn:Et.
  2:{ rewrite <- (app_nil_r ed). apply (midway_step done tr ed tr [] ti); auto. intros _ t Ht. congruence. }
  pose proof (nth_error_In _ _ Et) as It.
  destruct (find_unbroken (t_domains tr) vars t None) as [w1|] eqn:F1.
  2:{ intro X. cbn [fst] in X. exfalso. unfold tell_false, tell in X. rewrite F in X. cbn in X. discriminate. }
  destruct (found_other _ _ _ _ F1) as (L1 & B1 & _).
  destruct (find_unbroken (t_domains tr) vars t (Some w1)) as [w2|] eqn:F2.
  - destruct (found_other _ _ _ _ F2) as (L2 & B2 & N). assert (N' : w1 <> w2) by congruence.
    set (ws := [ReqWatch (position_matches vars t w1) ti; ReqWatch (position_matches vars t w2) ti]).
    change (ed ++ _) with (ed ++ ws ++ [ReqSet ti (pack w1 w2)]).
    apply (midway_step done tr ed tr (ws ++ [ReqSet ti (pack w1 w2)]) ti); auto.
    + intros k Nk S'. apply only_here; auto. apply watches_only.
    + intros _. apply (two_found tr ed t); auto.
      * destruct (unbroken_watched tr ed t w1 ti Fi F It L1 B1) as [R|H]; [left; assumption|right]. apply H. apply in_or_app. right. now left.
      * destruct (unbroken_watched tr ed t w2 ti Fi F It L2 B2) as [R|H]; [left; assumption|right]. apply H. apply in_or_app. right. right. now left.
  - set (ws := [ReqWatch (position_matches vars t w1) ti]). change (ed ++ _) with (ed ++ ws ++ [ReqSet ti (pack w1 w1)]).
    apply (midway_step done tr ed _ (ws ++ [ReqSet ti (pack w1 w1)]) ti); auto.
    + intro X. split; [assumption|]. intros a. apply (told_inside tr); auto. now apply position_below.
    + intros k Nk S'. apply only_here; auto. apply watch_only.
    + intros X t' Et'. assert (t' = t) as -> by congruence. left. now apply (told_differs tr ed).
Qed.

(** Visiting a tuple two of whose watches may have fired. *)
Lemma visit_midway (done : nat -> Prop) scratch fired ti s : fine nv vars tuples d s -> midway d A S done s ->
  done ti \/ ~ done ti -> handled d A S fired ti -> (forall k, S k = nth k scratch 0) ->
  midway d A S (fun k => k = ti \/ done k) (visit_tuple vars tuples scratch ti s).
Proof.
  destruct s as [tr ed]. intros Fi Md Dec Hh HS. pose proof Fi as (G & _). cbn [fst] in G. unfold visit_tuple.
  destruct (t_failed tr) eqn:F; [intro X; cbn [fst] in X; congruence|].
  destruct (nth_error tuples ti) as [t|] eqn:Et.
  2:{ rewrite <- (app_nil_r ed). apply (midway_step done tr ed tr [] ti); auto. intros _ t Ht. congruence. }
  pose proof (nth_error_In _ _ Et) as It. cbv zeta. rewrite <- HS. specialize (Hh t Et).
  assert (W : forall a, within a (t_domains tr) -> within a d) by (intro a; now apply (legit_inside nv d Hd L tr G F)).
  assert (Hd' : domains_ok (t_domains tr)) by now apply (legit_ok nv d). assert (L' : length (t_domains tr) = nv) by now apply (legit_length nv d).
  (* a position that is not broken still has its watch *)
  assert (KP : forall p es, guarded_at d A fired ti t p -> is_broken (t_domains tr) vars t p = false -> guarded_at (t_domains tr) (arms es A) [] ti t p).
  { intros p es (Lp & [Ap|[C _]]) B; [split; [assumption|]; left; left; exact Ap|]. exfalso.
    assert (is_broken (t_domains tr) vars t p = true); [|congruence]. apply (broken_spec nv vars Known (t_domains tr) Hd' L'). intros a Wa. apply C. auto. }
  (* and a tuple that is ruled out stays so, whatever is done *)
  assert (RO : forall tr' more, (t_failed tr' = false -> forall a, within a (t_domains tr') -> within a (t_domains tr)) ->
    (forall k, k <> ti -> forall S', stores more S' k = S' k) -> ruled_out d t -> midway d A S (fun k => k = ti \/ done k) (tr', ed ++ more)).
  { intros tr' more Nw Ot R. apply (midway_step done tr ed tr' more ti); auto.
    intros X t' Et'. assert (t' = t) as -> by congruence. left. intros a Wa. apply R, W, (Nw X), Wa. }
  assert (TI : forall w a, t_failed (tell (position_differs vars t w) tr) = false -> within a (t_domains (tell (position_differs vars t w) tr)) -> within a (t_domains tr)).
  { intros w a. apply (told_inside tr); auto. now apply position_below. }
  assert (UN : forall w, (w < length vars)%nat -> midway d A S (fun k => k = ti \/ done k) (tell (position_differs vars t w) tr, ed)).
  { intros w Lw. rewrite <- (app_nil_r ed). apply (midway_step done tr ed _ [] ti); auto.
    - intro X. split; [assumption|]. intro a. now apply TI.
    - intros X t' Et'. assert (t' = t) as -> by congruence. left. now apply (told_differs tr ed). }
  assert (FA : midway d A S (fun k => k = ti \/ done k) (tell_false tr, ed)).
  { intro X. cbn [fst] in X. exfalso. unfold tell_false, tell in X. rewrite F in X. cbn in X. discriminate. }
  destruct (unpack (S ti)) as [p q] eqn:Up. cbn [fst snd] in Hh.
  assert (ID : midway d A S (fun k => k = ti \/ done k) (tr, ed) <-> midway d A S (fun k => k = ti \/ done k) (tr, ed ++ [])) by (rewrite app_nil_r; tauto).
  destruct (is_broken (t_domains tr) vars t p) eqn:Bp, (is_broken (t_domains tr) vars t q) eqn:Bq.
  - destruct (find_unbroken (t_domains tr) vars t None) as [w1|] eqn:F1; [|exact FA].
    destruct (found_other _ _ _ _ F1) as (L1 & B1 & _).
    destruct (find_unbroken (t_domains tr) vars t (Some w1)) as [w2|] eqn:F2; [|now apply UN].
    destruct (found_other _ _ _ _ F2) as (L2 & B2 & N). assert (N' : w1 <> w2) by congruence.
    set (ws := [ReqWatch (position_matches vars t w1) ti; ReqWatch (position_matches vars t w2) ti]).
    change (ed ++ _) with (ed ++ ws ++ [ReqSet ti (pack w1 w2)]).
    apply (midway_step done tr ed tr (ws ++ [ReqSet ti (pack w1 w2)]) ti); auto.
    + intros k Nk S'. apply only_here; auto. apply watches_only.
    + intros _. apply (two_found tr ed t); auto.
      * destruct (unbroken_watched tr ed t w1 ti Fi F It L1 B1) as [R|H]; [left; assumption|right]. apply H. apply in_or_app. right. now left.
      * destruct (unbroken_watched tr ed t w2 ti Fi F It L2 B2) as [R|H]; [left; assumption|right]. apply H. apply in_or_app. right. right. now left.
  - destruct (find_unbroken (t_domains tr) vars t (Some q)) as [w1|] eqn:F1.
    + destruct (found_other _ _ _ _ F1) as (L1 & B1 & N). assert (N' : w1 <> q) by congruence.
      set (ws := [ReqWatch (position_matches vars t w1) ti]). change (ed ++ _) with (ed ++ ws ++ [ReqSet ti (pack w1 q)]).
      destruct Hh as [R|(Npq & Gp & Gq)].
      { apply RO; auto. intros k Nk S'. apply only_here; auto. apply watch_only. }
      apply (midway_step done tr ed tr (ws ++ [ReqSet ti (pack w1 q)]) ti); auto.
      * intros k Nk S'. apply only_here; auto. apply watch_only.
      * intros _. apply (two_found tr ed t); auto; try (apply Gq); try (right; now apply KP).
        destruct (unbroken_watched tr ed t w1 ti Fi F It L1 B1) as [R|H]; [left; assumption|right]. apply H. apply in_or_app. right. now left.
    + destruct Hh as [R|(Npq & Gp & Gq)]; [|apply UN; apply Gq].
      rewrite <- (app_nil_r ed). apply RO; auto; intros X a; now apply TI.
  - destruct (find_unbroken (t_domains tr) vars t (Some p)) as [w1|] eqn:F1.
    + destruct (found_other _ _ _ _ F1) as (L1 & B1 & N). assert (N' : p <> w1) by congruence.
      set (ws := [ReqWatch (position_matches vars t w1) ti]). change (ed ++ _) with (ed ++ ws ++ [ReqSet ti (pack p w1)]).
      destruct Hh as [R|(Npq & Gp & Gq)].
      { apply RO; auto. intros k Nk S'. apply only_here; auto. apply watch_only. }
      apply (midway_step done tr ed tr (ws ++ [ReqSet ti (pack p w1)]) ti); auto.
      * intros k Nk S'. apply only_here; auto. apply watch_only.
      * intros _. apply (two_found tr ed t); auto; try (apply Gp); try (right; now apply KP).
        destruct (unbroken_watched tr ed t w1 ti Fi F It L1 B1) as [R|H]; [left; assumption|right]. apply H. apply in_or_app. right. now left.
    + destruct Hh as [R|(Npq & Gp & Gq)]; [|apply UN; apply Gp].
      rewrite <- (app_nil_r ed). apply RO; auto; intros X a; now apply TI.
  - apply ID. destruct Hh as [R|(Npq & Gp & Gq)]; [apply RO; auto|].
    intro X. cbn [fst] in X. pose proof (Md F) as [M1 M2]. cbn [fst snd] in *. rewrite app_nil_r in *.
    split; [|intros k Nk; apply M2; tauto]. intros k [->|Dk]; [|now apply M1].
    destruct Dec as [Dt|Nt]; [now apply M1|]. intros t' Et'. assert (t' = t) as -> by congruence. right.
    rewrite (M2 ti Nt), Up. cbn [fst snd]. auto.
Qed.

Lemma arm_all tis : forall (done : nat -> Prop) s, fine nv vars tuples d s -> midway d A S done s ->
  midway d A S (fun k => In k tis \/ done k) (fold_left (fun s ti => arm_tuple vars tuples ti s) tis s).
Proof.
  induction tis as [|ti r IH]; intros done s Fi Md; cbn [fold_left].
  - intro F. destruct (Md F) as [M1 M2]. split; [intros k [[]|Dk]; auto|intros k Nk; apply M2; tauto].
  - pose proof (IH (fun k => k = ti \/ done k) _ (arm_fine nv vars Known tuples Sized d Hd L ti s Fi) (arm_midway done ti s Fi Md)) as H.
    intro F. destruct (H F) as [M1 M2]. split; [intros k Dk; apply M1; cbn in Dk; intuition|intros k Nk; apply M2; cbn in Nk; intuition].
Qed.

Lemma visit_all scratch fired tis : (forall k, S k = nth k scratch 0) -> (forall ti, handled d A S fired ti) ->
  forall (done : nat -> Prop) s, (forall k, done k \/ ~ done k) -> fine nv vars tuples d s -> midway d A S done s ->
  midway d A S (fun k => In k tis \/ done k) (fold_left (fun s ti => visit_tuple vars tuples scratch ti s) tis s).
Proof.
  intros HS HH. induction tis as [|ti r IH]; intros done s Dec Fi Md; cbn [fold_left].
  - intro F. destruct (Md F) as [M1 M2]. split; [intros k [[]|Dk]; auto|intros k Nk; apply M2; tauto].
  - assert (Dec' : forall k, (k = ti \/ done k) \/ ~ (k = ti \/ done k)).
    { intro k. destruct (Nat.eq_dec k ti); [tauto|]. destruct (Dec k); tauto. }
    pose proof (IH (fun k => k = ti \/ done k) _ Dec' (visit_fine nv vars Known tuples Sized d Hd L scratch ti s Fi)
      (visit_midway done scratch fired ti s Fi Md (Dec ti) (HH ti) HS)) as H.
    intro F. destruct (H F) as [M1 M2]. split; [intros k Dk; apply M1; cbn in Dk; intuition|intros k Nk; apply M2; cbn in Nk; intuition].
Qed.
End Run.

Definition no_clear (s : progress_of) : Prop := ~ In ReqClear (snd s).

Lemma arm_no_clear ti s : no_clear s -> no_clear (arm_tuple vars tuples ti s).
Proof.
  destruct s as [tr ed]. unfold no_clear, arm_tuple. cbn [snd]. intro N. destruct (t_failed tr); [assumption|]. destruct (nth_error tuples ti); [|assumption].
  destruct (find_unbroken _ _ _ None); [|assumption]. destruct (find_unbroken _ _ _ _); cbn [snd]; rewrite in_app_iff; cbn [In]; intuition discriminate.
Qed.

Lemma visit_no_clear scratch ti s : no_clear s -> no_clear (visit_tuple vars tuples scratch ti s).
Proof.
  destruct s as [tr ed]. unfold no_clear, visit_tuple. cbn [snd]. intro N. destruct (t_failed tr); [assumption|]. destruct (nth_error tuples ti); [|assumption].
  cbv zeta. destruct (unpack _) as [p q].
  assert (X : forall l pl l' pl' k x, ~ In ReqClear (ed ++ [ReqWatch l pl; ReqWatch l' pl'; ReqSet k x]))
    by (intros; rewrite in_app_iff; cbn [In]; intuition discriminate).
  assert (X' : forall l pl k x, ~ In ReqClear (ed ++ [ReqWatch l pl; ReqSet k x]))
    by (intros; rewrite in_app_iff; cbn [In]; intuition discriminate).
  destruct (is_broken _ _ _ p), (is_broken _ _ _ q); [| | |assumption].
  - destruct (find_unbroken _ _ _ None); [|assumption]. destruct (find_unbroken _ _ _ _); cbn [snd]; auto.
  - destruct (find_unbroken _ _ _ _); cbn [snd]; auto.
  - destruct (find_unbroken _ _ _ _); cbn [snd]; auto.
Qed.

Lemma fold_no_clear (f : nat -> progress_of -> progress_of) : (forall ti s, no_clear s -> no_clear (f ti s)) ->
  forall tis s, no_clear s -> no_clear (fold_left (fun s ti => f ti s) tis s).
Proof. intros H. induction tis as [|ti r IH]; intros s Fs; simpl; auto. Qed.

Lemma table_no_clear i : ~ In ReqClear (o_edits (p_run (table_propagator vars tuples) i)).
Proof.
  cbn [table_propagator p_run]. unfold propagate_negative_table. assert (N0 : no_clear (track (i_domains i), [])) by (intros []).
  destruct (i_fired i) as [|x r].
  - pose proof (fold_no_clear _ (arm_no_clear) (seq (Z.to_nat (nth 0 (i_memo i) 0)) (length tuples - Z.to_nat (nth 0 (i_memo i) 0))) _ N0) as H.
    cbv zeta. destruct (fold_left _ _ _) as [tr ed]. exact H.
  - pose proof (fold_no_clear _ (visit_no_clear (i_scratch i)) (sort_unique (x :: r)) _ N0) as H.
    destruct (fold_left _ _ _) as [tr ed]. exact H.
Qed.

Lemma run_ends d0 s d evs : fine nv vars tuples d0 s -> apply_lits d0 (rev (t_lits (fst s))) = (d, evs, false) ->
  t_failed (fst s) = false /\ t_domains (fst s) = d.
Proof. intros (G & _) E. destruct (lg_apply _ _ _ G) as [evs' E']. rewrite E' in E. now injection E as -> _ ->. Qed.

Lemma table_watcher Inv : keeps_watch nv Inv (table_propagator vars tuples) watches_kept all_seen.
Proof.
  constructor.
  - intros d d' A A' S S' P P' Kd W E AA I ti. apply (handled_weaken d d' A A' S S' P P' ti); auto.
  - intros i A S d evs (Hd & L & _) Kd HS Mm Ea. unfold all_seen in Mm. cbn [table_propagator p_run] in *. unfold propagate_negative_table in *.
    destruct (i_fired i) as [|x r] eqn:Ef.
    + rewrite Mm in *. cbn [nth] in *. rewrite Nat2Z.id, Nat.sub_diag in *. cbn in Ea. injection Ea as <- _. cbn. intro ti.
      apply (handled_weaken (i_domains i) _ A _ S _ [] []); auto. intros l Al. left. now left.
    + assert (M0 : midway (i_domains i) A S (fun k => ~ In k (x :: r)) (track (i_domains i), [])).
      { intros _. split; [|reflexivity]. intros ti Nt. cbn [fst snd track t_domains]. apply (handled_weaken (i_domains i) _ A _ S _ (x :: r) []); auto;
          [intros l Al; left; now left|try (intro; contradiction)..]. }
      assert (Dec : forall k, ~ In k (x :: r) \/ ~ ~ In k (x :: r)) by (intro k; destruct (in_dec Nat.eq_dec k (x :: r)); tauto).
      pose proof (visit_all (i_domains i) Hd L A S (i_scratch i) (x :: r) (sort_unique (x :: r)) HS Kd _ _ Dec (fine_start nv vars tuples (i_domains i)) M0) as H.
      pose proof (fold_fine nv vars tuples (i_domains i) (visit_tuple vars tuples (i_scratch i))
        (fun ti s => visit_fine nv vars Known tuples Sized (i_domains i) Hd L (i_scratch i) ti s) (sort_unique (x :: r)) _ (fine_start nv vars tuples (i_domains i))) as Fi.
      destruct (fold_left _ _ _) as [tr ed]. cbn [o_infer o_edits] in *.
      destruct (run_ends _ _ _ _ Fi Ea) as [F <-]. destruct (H F) as [H1 _]. intro ti. apply H1.
      rewrite sort_unique_in. destruct (in_dec Nat.eq_dec ti (x :: r)); tauto.
  - intros i _ Mm. cbn [table_propagator p_run]. unfold propagate_negative_table. destruct (i_fired i).
    + cbv zeta. destruct (fold_left _ _ _) as [tr ed]. cbn [o_memo]. destruct (t_failed tr); [assumption|reflexivity].
    + destruct (fold_left _ _ _) as [tr ed]. exact Mm.
  - intros i S d evs (Hd & L & _) Ef Em HS Ea. cbn [table_propagator p_run] in *. unfold propagate_negative_table in *. rewrite Ef, Em in *.
    cbn [nth Z.to_nat] in *. rewrite Nat.sub_0_r in *.
    assert (M0 : midway (i_domains i) (fun _ _ => False) S (fun _ => False) (track (i_domains i), [])) by (intros _; split; [intros ? []|reflexivity]).
    pose proof (arm_all (i_domains i) Hd L (fun _ _ => False) S (seq 0 (length tuples)) _ _ (fine_start nv vars tuples (i_domains i)) M0) as H.
    pose proof (fold_fine nv vars tuples (i_domains i) (arm_tuple vars tuples)
      (fun ti s => arm_fine nv vars Known tuples Sized (i_domains i) Hd L ti s) (seq 0 (length tuples)) _ (fine_start nv vars tuples (i_domains i))) as Fi.
    destruct (fold_left _ _ _) as [tr ed]. cbn [o_infer o_edits o_memo] in *.
    destruct (run_ends _ _ _ _ Fi Ea) as [F <-]. destruct (H F) as [H1 _]. cbn [fst snd] in *. rewrite F. split; [|reflexivity].
    intros ti t Ht. apply (H1 ti); auto. left. apply in_seq. assert (nth_error tuples ti <> None) as X by congruence. apply nth_error_Some in X. lia.
  - intros i (Hd & L & _). destruct (run_fine nv vars Known tuples Sized i Hd L) as (s & _ & _ & _ & _ & R). exact R.
  - intros i. apply table_no_clear.
Qed.
End Watched.

(** ** What follows at a node *)

Section Node.
Variable props : list propagator.
Variable disabled : nat -> bool.
Variable abort : nat -> bool.
Variable fuel nv : nat.
Variable Inv : domains -> list cstate -> Prop.
Hypothesis HI : stable nv Inv.
Hypothesis HA : stays_set abort.
Hypothesis HP : forall p, In p props -> well_behaved nv Inv p /\ arms_unmet nv Inv p /\ claims_nothing nv Inv p.
Variables (st : estate) (ms : list move) (c0 c : config).
Hypothesis St : startable nv Inv st.
Hypothesis Km : Forall (move_below nv) ms.
Hypothesis Op : open_root props disabled abort fuel st = Some c0.
Hypothesis Mv : run_moves props disabled abort fuel ms c0 = Some c.
Hypothesis Lv : c_status c = Live.

Lemma each_prop p : (p < length props)%nat -> In (the_prop props p) props.
Proof. intro Lp. unfold the_prop. now apply nth_In. Qed.

Lemma watches_fire : alert c.
Proof.
  apply (session_alert props disabled abort fuel nv Inv) with (st := st) (ms := ms) (c0 := c0); auto;
    intros p Lp; apply HP, each_prop, Lp.
Qed.

Lemma watches_maintained p K M : nth_error props p <> None -> disabled p = false -> keeps_watch nv Inv (the_prop props p) K M ->
  watchful p K M (current (c_state c)) (e_watch (c_engine c)).
Proof.
  intros Ep Dp W. apply (session_watchful props disabled abort fuel nv Inv) with (st := st) (ms := ms) (c0 := c0); auto;
    try (intros q Lq; apply HP, each_prop, Lq). now apply nth_error_Some.
Qed.

Lemma matches_differ vars t i d : Forall (fun t : tuple => length t = length vars) [t] -> (i < length vars)%nat ->
  unmet d (position_matches vars t i) -> may_differ d vars t i.
Proof.
  intros S Li (a & Wa & N). inversion S as [|? ? Et _]; subst. unfold position_matches in N.
  destruct (nth_error vars i) as [v|] eqn:Ev; [|apply nth_error_None in Ev; lia].
  destruct (nth_error t i) as [e|] eqn:Ee; [|apply nth_error_None in Ee; lia].
  rewrite (nth_error_nth _ _ _ Ev), (nth_error_nth _ _ _ Ee) in N. destruct e as [x|]; [|elim N; exact Logic.I].
  exists v, x, a. repeat split; auto.
Qed.

Lemma table_enforced vars tuples p : Forall (var_below nv) vars -> Forall (fun t : tuple => length t = length vars) tuples ->
  Z.of_nat (length vars) <= two32 -> nth_error props p = Some (table_propagator vars tuples) -> disabled p = false ->
  Forall (at_ease (current (c_state c)) vars) tuples.
Proof.
  intros Kv Sz Na Ep Dp. assert (E : the_prop props p = table_propagator vars tuples) by (unfold the_prop; now apply nth_error_nth).
  pose proof (table_watcher nv vars Kv tuples Sz Na Inv) as W. rewrite <- E in W.
  destruct (watches_maintained p _ _ ltac:(congruence) Dp W) as (H & _). rewrite Forall_forall. intros t It.
  destruct (In_nth_error _ _ It) as [ti Ht]. destruct (H ti t Ht) as [R|(N & G1 & G2)]; [now left|]. right.
  assert (X : forall i, guarded_at vars (current (c_state c)) (armed_by (e_watch (c_engine c)) p) [] ti t i -> may_differ (current (c_state c)) vars t i).
  { intros i (Li & [(v & y & Iy & _ & El & _)|[_ []]]). apply matches_differ; auto.
    - constructor; [|constructor]. rewrite Forall_forall in Sz. now apply Sz.
    - rewrite <- El. now apply (watches_fire v). }
  exists (fst (unpack (stored (e_watch (c_engine c)) p ti))), (snd (unpack (stored (e_watch (c_engine c)) p ti))). auto.
Qed.

(** So it has been obeyed once its variables have values. *)
Lemma at_ease_fixed d vars t a : at_ease d vars t -> Forall (fixed d) vars -> within a d -> ~ agrees a vars t.
Proof.
  intros [R|(i & _ & _ & (v & x & b & Ev & Et & Wb & N) & _)] Fx Wa; [now apply R|]. intro G. apply N.
  rewrite Forall_forall in Fx. destruct (Fx v (nth_error_In _ _ Ev)) as [y Fy]. rewrite (Fy b Wb), <- (Fy a Wa).
  clear -G Ev Et. revert i Ev Et. induction G as [|v' e vs t H _ IH]; intros [|i] Ev Et; try discriminate; simpl in *; [|eauto].
  injection Ev as ->. injection Et as ->. exact H.
Qed.
End Node.
