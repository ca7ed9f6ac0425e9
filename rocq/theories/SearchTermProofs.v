(** Search ends. *)
From Coq Require Import ZArith List Bool Arith Lia.
From Verif Require Import IntervalSet IntervalSetSpec IntervalSetProofs Vars VarsSpec VarsProofs State StateSpec StateProofs Epochs EpochsProofs
  Engine EngineSpec EngineQueueProofs EngineWatchProofs EngineProofs EngineLoopProofs EngineCallProofs Session SessionSpec SessionProofs SessionInvProofs SessionResults
  Tracker ContractSpec ContractProofs Search SearchSpec SearchProofs SearchResults.
Import ListNotations.

(** ** The assignments within some domains *)

Fixpoint tuples (d : domains) : list (list Z) :=
  match d with
  | [] => [[]]
  | s :: r => flat_map (fun x => map (cons x) (tuples r)) (each s)
  end.

Definition from_tuple (t : list Z) : assignment := fun n => nth n t 0%Z.

Lemma tuples_In d : forall t, In t (tuples d) <-> length t = length d /\ within (from_tuple t) d.
Proof.
  induction d as [|s r IH]; intro t; cbn [tuples].
  - simpl. split.
    + intros [<-|[]]. split; [reflexivity|]. intros n Hn. simpl in Hn. lia.
    + intros [L _]. left. destruct t; [reflexivity|discriminate].
  - rewrite in_flat_map. split.
    + intros (x & Hx & Ht). apply in_map_iff in Ht. destruct Ht as (t' & <- & Ht'). apply IH in Ht'. destruct Ht' as [L W].
      split; [simpl; congruence|]. intros [|n] Hn; unfold from_tuple; simpl; [now apply each_In|]. apply W. simpl in Hn. lia.
    + intros [L W]. destruct t as [|x t]; [discriminate|]. exists x. split.
      * apply each_In. apply (W 0%nat). simpl. lia.
      * apply in_map. apply IH. split; [simpl in L; congruence|]. intros n Hn. apply (W (S n)). simpl. lia.
Qed.

Lemma NoDup_flat_map {A B} (f : A -> list B) l : NoDup l -> (forall x, In x l -> NoDup (f x)) ->
  (forall x y z, In x l -> In y l -> In z (f x) -> In z (f y) -> x = y) -> NoDup (flat_map f l).
Proof.
  induction l as [|x l IH]; intros N F D; simpl; [constructor|]. inversion N as [|? ? Nx Nl]; subst.
  assert (FM : NoDup (flat_map f l)).
  { apply IH; auto; [intros y Iy; apply F; now right|]. intros y y' z Iy Iy'. apply D; now right. }
  assert (FX : NoDup (f x)) by (apply F; now left).
  assert (DX : forall z, In z (f x) -> ~ In z (flat_map f l)).
  { intros z Hz Hz'. apply in_flat_map in Hz'. destruct Hz' as (y & Iy & Hy). apply Nx. rewrite (D x y z); auto; [now left|now right]. }
  clear - FM FX DX. induction (f x) as [|z r IH]; simpl; [assumption|]. inversion FX; subst. constructor.
  - intro I. apply in_app_iff in I. destruct I as [I|I]; [contradiction|]. apply (DX z); [now left|assumption].
  - apply IH; auto. intros y Hy. apply DX. now right.
Qed.

Lemma tuples_NoDup d : domains_ok d -> NoDup (tuples d).
Proof.
  induction d as [|s r IH]; intro Hd; cbn [tuples]; [constructor; [intros []|constructor]|].
  assert (Hr : domains_ok r) by (intros n Hn; apply (Hd (S n)); simpl; lia).
  apply NoDup_flat_map.
  - apply incr_NoDup, each_incr. apply (Hd 0%nat). simpl. lia.
  - intros x _. apply FinFun.Injective_map_NoDup; [intros a b E; now injection E|auto].
  - intros x y z _ _ Hx Hy. apply in_map_iff in Hx, Hy. destruct Hx as (? & <- & _), Hy as (? & E & _). now injection E.
Qed.

(** The tuples within [d] satisfying a condition. *)
Definition matching (l : cond) (d : domains) : list (list Z) :=
  filter (fun t => if cond_holds_dec (from_tuple t) l then true else false) (tuples d).

Lemma matching_In l d t : In t (matching l d) <-> In t (tuples d) /\ cond_holds (from_tuple t) l.
Proof. unfold matching. rewrite filter_In. destruct (cond_holds_dec (from_tuple t) l); intuition congruence. Qed.

Lemma child_count l (d d' : domains) : domains_ok d' -> length d' = length d ->
  (forall a, within a d' -> within a d /\ cond_holds a l) -> length (tuples d') <= length (matching l d).
Proof.
  intros Hd' L W. apply NoDup_incl_length; [now apply tuples_NoDup|]. intros t It. apply matching_In. apply tuples_In in It. destruct It as [Lt Wt].
  destruct (W _ Wt) as [W1 W2]. split; [|assumption]. apply tuples_In. split; [exact (eq_trans Lt L)|assumption].
Qed.

Lemma filter_le {A} (f : A -> bool) l : length (filter f l) <= length l.
Proof. induction l as [|x l IH]; simpl; [lia|]. destruct (f x); simpl; lia. Qed.

Lemma lsum_cons x l : list_sum (x :: l) = x + list_sum l.
Proof. reflexivity. Qed.

Lemma exclusive_count {A B} (f : B -> A -> bool) (ts : list A) ls :
  (forall t, ForallOrdPairs (fun c c' => f c t = true -> f c' t = true -> False) ls) ->
  list_sum (map (fun l => length (filter (f l) ts)) ls) <= length ts.
Proof.
  intros H. induction ts as [|t ts IH].
  - clear. induction ls; simpl in *; lia.
  - assert (E : list_sum (map (fun l => length (filter (f l) (t :: ts))) ls) =
      length (filter (fun l => f l t) ls) + list_sum (map (fun l => length (filter (f l) ts)) ls)).
    { clear. induction ls as [|l r IH]; [reflexivity|]. cbn [map]. rewrite !lsum_cons, IH. cbn [filter]. destruct (f l t); cbn [length]; lia. }
    rewrite E. cbn [length].
    assert (length (filter (fun l => f l t) ls) <= 1).
    { specialize (H t). clear - H. induction H as [|l r F _ IH]; simpl; [lia|]. destruct (f l t) eqn:Fl; [|lia]. simpl.
      assert (Z : filter (fun l => f l t) r = []).
      { clear - F Fl. induction F as [|x r Hx F IH]; simpl; [reflexivity|]. destruct (f x t) eqn:Fx; [exfalso; auto|assumption]. }
      rewrite Z. simpl. lia. }
    lia.
Qed.

Lemma siblings_count (d : domains) ls : (forall a, ForallOrdPairs (fun c c' => cond_holds a c -> ~ cond_holds a c') ls) ->
  list_sum (map (fun l => length (matching l d)) ls) <= length (tuples d).
Proof.
  intros A. unfold matching. apply (exclusive_count (fun l t => if cond_holds_dec (from_tuple t) l then true else false)).
  intro t. specialize (A (from_tuple t)). induction A as [|l r F _ IH]; constructor; auto. eapply Forall_impl; [|exact F].
  intros l' H E1 E2. destruct (cond_holds_dec (from_tuple t) l), (cond_holds_dec (from_tuple t) l'); try discriminate. apply H; assumption.
Qed.

Lemma possible_matches l d : (exists a, within a d /\ cond_holds a l) -> cond_known d l -> 1 <= length (matching l d).
Proof.
  intros (a & Wa & Ha) K. set (t := map a (seq 0 (length d))).
  assert (V : forall n, n < length d -> from_tuple t n = a n).
  { intros n Hn. unfold from_tuple, t. rewrite (nth_indep _ _ (a 0)) by (rewrite map_length, seq_length; assumption). rewrite map_nth, seq_nth by assumption. reflexivity. }
  assert (I : In t (matching l d)).
  { apply matching_In. split.
    - apply tuples_In. split; [unfold t; now rewrite map_length, seq_length|]. intros n Hn. rewrite (V n Hn). now apply Wa.
    - assert (E : var_value (from_tuple t) (c_var l) = var_value a (c_var l)).
      { unfold cond_known, var_known in K. destruct (c_var l); simpl in *; rewrite ?V by assumption; reflexivity. }
      unfold cond_holds in *. rewrite E. exact Ha. }
  destruct (matching l d); [destruct I|simpl; lia].
Qed.

(** A condition that is not certain makes the domains smaller. *)
Lemma total_size_strict l (d d' : domains) : domains_ok d -> domains_ok d' -> length d' = length d ->
  (forall a, within a d' -> within a d /\ cond_holds a l) -> (exists a, within a d /\ ~ cond_holds a l) -> total_size d' < total_size d.
Proof.
  intros Hd Hd' L W (a & Wa & Ha).
  assert (P : forall v, v < length d -> length (each (nth v d' [])) <= length (each (nth v d []))).
  { intros v Hv. apply NoDup_incl_length.
    - apply incr_NoDup, each_incr. apply (Hd' v). unfold domains, iset in *; lia.
    - intros x Hx. apply each_In in Hx. apply each_In. eapply within_pointwise; eauto. intros b Wb. now apply W. }
  assert (Q : exists v, v < length d /\ length (each (nth v d' [])) < length (each (nth v d []))).
  { assert (D : (forall v, v < length d -> member (a v) (nth v d' [])) \/ exists v, v < length d /\ ~ member (a v) (nth v d' [])).
    { clear - d d'. generalize (length d). intro k. induction k as [|k IH]; [left; intros; lia|].
      destruct (in_dec Z.eq_dec (a k) (each (nth k d' []))) as [I|I]; rewrite each_In in I.
      - destruct IH as [IH|(v & Hv & Nv)]; [left|right; exists v; split; [lia|assumption]].
        intros v Hv. destruct (Nat.eq_dec v k) as [->|]; [assumption|]. apply IH. lia.
      - right. exists k. split; [lia|assumption]. }
    destruct D as [D|(v & Hv & Nv)].
    - exfalso. apply Ha. apply W. intros v Hv. apply D. unfold domains, iset in *; lia.
    - exists v. split; [assumption|]. apply (Nat.lt_le_trans _ (length (a v :: each (nth v d' [])))); [simpl; lia|]. apply NoDup_incl_length.
      + constructor; [now rewrite each_In|]. apply incr_NoDup, each_incr. apply (Hd' v). unfold domains, iset in *; lia.
      + intros x [<-|Hx]; apply each_In; [now apply Wa|]. apply each_In in Hx. eapply within_pointwise; eauto. intros b Wb. now apply W. }
  clear - L P Q. unfold total_size, domains in *. revert d' L P Q. induction d as [|s r IH]; intros [|s' r'] L P (v & Hv & Q); simpl in *; try lia.
  assert (M : forall (r r' : list iset), length r' = length r -> (forall v, v < length r -> length (each (nth v r' [])) <= length (each (nth v r []))) ->
    list_sum (map (fun s => length (each s)) r') <= list_sum (map (fun s => length (each s)) r)).
  { clear. induction r as [|s r IH]; intros [|s' r'] L P; simpl in *; try lia. specialize (IH r' ltac:(lia)). pose proof (P 0 ltac:(lia)) as P0. simpl in P0.
    assert (list_sum (map (fun s => length (each s)) r') <= list_sum (map (fun s => length (each s)) r)) by (apply IH; intros v Hv; apply (P (S v)); lia). lia. }
  pose proof (P 0 ltac:(lia)) as P0. simpl in P0. destruct v as [|v].
  - specialize (M r r' ltac:(lia)). assert (list_sum (map (fun s => length (each s)) r') <= list_sum (map (fun s => length (each s)) r)) by (apply M; intros v Hv'; apply (P (S v)); lia). lia.
  - assert (list_sum (map (fun s => length (each s)) r') < list_sum (map (fun s => length (each s)) r)).
    { apply IH; [lia| |exists v; split; [lia|assumption]]. intros w Hw. apply (P (S w)). lia. }
    lia.
Qed.

Section Finish.
Variable props : list propagator.
Variable disabled : nat -> bool.
Variable abort : nat -> bool.
Variable fuel : nat.
Variable objective : option var_id.
Variable branch : nat -> domains -> list cond.
Variable on_solution : list domains -> bool.
Variable on_trace : nat -> domains -> bool.
Variable learning : bool.
Variable cutoff : option nat.
Notation n := (length props).
Notation the := (the_prop props).
Variable nv : nat.
Variable Inv : domains -> list cstate -> Prop.
Variable d0 : domains.
Variable vs : list var_id.

Hypothesis HW : forall p, (p < n)%nat -> well_behaved nv Inv (the p).
Hypothesis HI : stable nv Inv.
Hypothesis HA : stays_set abort.
Hypothesis HB : splits nv vs branch.
Hypothesis HO : forall v, objective = Some v -> var_below nv v /\ forall d : domains, domains_ok d -> length d = nv -> Forall (fixed d) vs -> fixed d v.
Hypothesis D0 : domains_ok d0.
Hypothesis L0 : length d0 = nv.
Hypothesis HF : (S (total_size d0) * S n <= fuel)%nat.

Definition nothing (a : assignment) : Prop := False.
Definition anything (a : assignment) : Prop := True.
Notation Good := (good props disabled nv Inv d0 (remaining nothing []) always always).

Lemma nothing_sound : forall p, (p < n)%nat -> sound_for nv Inv (remaining nothing []) (the p).
Proof. intros p _ i a _ _ [[] _]. Qed.

Lemma anything_checked : forall (d : domains) a, domains_ok d -> length d = nv -> inside d0 d -> Forall (fixed d) vs ->
  (forall x, (x < n)%nat -> disabled x = false -> always x d \/ always x d) -> within a d -> anything a.
Proof. intros. exact Logic.I. Qed.

Lemma down_shrinks c l extra c' : Good c -> move_below nv (Down l extra) ->
  run_move props disabled abort fuel (Down l extra) c = Some c' -> c_status c' = Live ->
  forall a, within a (current (c_state c')) -> within a (current (c_state c)) /\ lit_holds a l.
Proof.
  intros G [Kl Kx] E Li. pose proof (good_node _ _ _ _ _ _ _ _ _ G) as Nd. pose proof (good_engine _ _ _ _ _ _ _ _ _ G) as O.
  cbn [run_move] in E. unfold is_live in E. destruct (c_status c) eqn:St; try discriminate.
  unfold node in Nd. rewrite St in Nd. destruct Nd as (F & S & W1 & W2).
  destruct (new_epoch (c_state c)) as [t st1] eqn:N. destruct (new_epoch_fit nv Inv _ _ _ F N) as [F1 C1].
  assert (Kl1 : lit_known (current st1) l) by (destruct F1 as (_ & _ & L & _); now apply (lit_below_known nv l _ L)).
  destruct (guess st1 l) as [fine st2] eqn:Gs.
  destruct (guess_fit nv Inv HI _ _ _ _ F1 Kl1 Gs) as (i & Ei & HE2 & L2 & R2). rewrite C1 in Ei.
  pose proof F as (HE & Dd & Ld & Iv).
  assert (Kl0 : lit_known (current (c_state c)) l) by (rewrite <- C1; exact Kl1).
  destruct fine; [|injection E as <-; discriminate].
  destruct R2 as [Ni F2]. pose proof (fun a => infer_within _ _ _ _ a Dd Kl0 Ei Ni) as IW.
  destruct (add_bounds st2 extra) as [[fine' st3] ch] eqn:AB.
  destruct (bounds_fit props disabled nv Inv HI _ _ _ _ _ F2 (fit_known nv Inv _ _ F2 Kx) AB) as (HE3 & L3 & Inc & R3).
  destruct fine'; [|injection E as <-; discriminate]. destruct R3 as (F3 & W3 & S3 & _).
  destruct (propagate_node props disabled abort fuel (l :: ch) (c_engine c) st3) as [[[s e4] st4]|] eqn:P; [|discriminate].
  injection E as <-. cbn [c_status] in Li. subst s.
  assert (SB : l :: ch <> [] -> settled_but props disabled always always (l :: ch) (c_engine c) (current st3)).
  { intros _ x _ _. split; [left; exact Logic.I|intros; exact Logic.I]. }
  destruct (node_call props disabled abort fuel nv Inv always always HW HA (always_wakeable props nv Inv) _ _ _ _ _ _ (engine_ok_fit props (l :: ch) _ O) F3 SB P)
    as (_ & _ & _ & _ & _ & (Na & _) & _).
  intros a Wa. cbn [c_state] in Wa. apply Na, W3 in Wa. destruct Wa as [Wa _]. now apply IW in Wa.
Qed.

(** How many dead ends there can be below a node. *)
Definition leaves (c : config) : nat := match c_status c with Live => length (tuples (current (c_state c))) | _ => 1 end.
Definition weight (c : config) : nat := match c_status c with Live => total_size (current (c_state c)) | _ => 0 end.

Definition ends (rec : list cond -> progress -> option (verdict * progress)) (bound : nat) : Prop :=
  forall prefix g, Good (g_config g) -> weight (g_config g) < bound -> bounded objective g (fun a => path_holds a (g_config g)) ->
    prefix_on learning nv vs prefix (fun a => path_holds a (g_config g)) ->
    exists v g', rec prefix g = Some (v, g') /\ g_conflicts g' <= g_conflicts g + leaves (g_config g) /\
      (forall k, cutoff = Some k -> g_conflicts g + leaves (g_config g) <= k -> v <> CutoffHit).

Definition is_explored := explored props objective learning cutoff nv d0 nothing anything vs.

Definition rec_explores := explores props disabled objective learning cutoff nv Inv d0 nothing anything [] vs always always.

Lemma recurse_ends rec bound l child_prefix g : ends rec bound -> rec_explores rec ->
  Good (g_config g) -> c_status (g_config g) = Live -> cond_known (current (c_state (g_config g))) l ->
  (exists a, within a (current (c_state (g_config g))) /\ cond_holds a l) ->
  (exists a, within a (current (c_state (g_config g))) /\ ~ cond_holds a l) ->
  total_size (current (c_state (g_config g))) <= bound ->
  prefix_on learning nv vs child_prefix (fun a => path_holds a (g_config g) /\ cond_holds a l) ->
  exists v g', recurse props disabled abort fuel objective cutoff rec l child_prefix g = Some (v, g') /\
    g_conflicts g' <= g_conflicts g + length (matching l (current (c_state (g_config g)))) /\
    (forall k, cutoff = Some k -> g_conflicts g + length (matching l (current (c_state (g_config g)))) <= k -> v <> CutoffHit).
Proof.
  intros Rec Rex G L K Ps Un Sz Po'. set (c := g_config g) in *. pose proof (good_engine _ _ _ _ _ _ _ _ _ G) as O.
  pose proof (possible_matches l _ Ps K) as M1.
  unfold recurse. destruct (poll abort g) as [stop g1] eqn:Po. destruct (poll_spec props abort g _ _ Po O) as (S1 & O1 & R1 & B1 & L1 & En1 & Cf1).
  fold c in S1. pose proof (sim_good _ _ _ _ _ _ _ _ _ _ S1 O1 G) as G1.
  destruct stop. { exists Stop, g1. split; [reflexivity|]. split; [rewrite Cf1; lia|discriminate]. }
  assert (LL : c_status (g_config g1) = Live) by (rewrite (si_status _ _ _ S1); exact L).
  destruct (abandon_spec props disabled nv Inv d0 nothing [] always always HI l (g_config g1) G1 LL) as (c0 & Ab & S0 & O0).
  { rewrite (si_state _ _ _ S1). exact K. }
  { rewrite (si_state _ _ _ S1). exact Ps. }
  rewrite Ab. destruct (spent cutoff (enter g1)) eqn:Sp.
  { exists CutoffHit, (at_config (enter g1) c0). split; [reflexivity|]. cbn. rewrite Cf1. split; [lia|]. intros k Ek Le. unfold spent in Sp. rewrite Ek in Sp.
    apply Nat.leb_le in Sp. cbn in Sp. lia. }
  set (extra := objective_bound objective (enter g1)) in *.
  assert (EX : extra = objective_bound objective g) by (unfold extra, objective_bound; cbn [enter g_best]; now rewrite B1).
  assert (Kd : move_below nv (Down (LCond l) extra)).
  { split; [|unfold extra; apply (objective_below objective nv vs HO)]. apply (lit_below_known nv (LCond l) (current (c_state c))); [|exact K].
    pose proof (good_node _ _ _ _ _ _ _ _ _ G) as Nd. unfold node in Nd. fold c in L. rewrite L in Nd. apply Nd. }
  assert (HWi : forall p, In p props -> well_behaved nv Inv p).
  { intros p Ip. destruct (In_nth _ _ nil_propagator Ip) as (i & Hi & <-). now apply HW. }
  destruct (good_terminates props disabled abort fuel nv Inv HWi HI d0 (remaining nothing []) always always (g_config g1) (Down (LCond l) extra)
    D0 L0 G1 Kd HF LL) as (c1 & Dn).
  change (g_config (enter g1)) with (g_config g1). rewrite Dn.
  destruct (down_good props disabled abort fuel nv Inv d0 (remaining nothing []) always always HW HI HA nothing_sound (always_wakeable props nv Inv) _ _ _ _ G1 Kd Dn)
    as (Gc1 & t & st & called & _ & Ne & Ho & Hp & Hc).
  assert (PH : forall a, path_holds a c1 <-> cond_holds a l /\ Forall (lit_holds a) extra /\ path_holds a c).
  { intro a. rewrite <- (sim_path props _ _ a S1). unfold path_holds. rewrite Hp. cbn [concat]. rewrite <- app_comm_cons, Forall_cons_iff, Forall_app. reflexivity. }
  set (g2 := at_config (enter g1) c1) in *.
  assert (Bd : bounded objective g2 (fun a => path_holds a c1)).
  { intros w b Ow Eb a Pa. apply (objective_bounded objective nv vs HO g a w b Ow).
    - cbn in Eb. now rewrite <- B1.
    - rewrite <- EX. apply PH in Pa. tauto. }
  assert (On : prefix_on learning nv vs child_prefix (fun a => path_holds a c1)).
  { intros Le. destruct (Po' Le) as [Pb Pc]. split; [assumption|]. intros a Pa. apply Pc. apply PH in Pa. tauto. }
  pose proof (down_shrinks _ _ _ _ G1 Kd Dn) as Sh. rewrite (si_state _ _ _ S1) in Sh. fold c in Sh.
  pose proof (good_node _ _ _ _ _ _ _ _ _ G) as Nd. unfold node in Nd. fold c in L. rewrite L in Nd. destruct Nd as ((_ & Dd & Ld & _) & _).
  assert (Lv : leaves c1 <= length (matching l (current (c_state c))) /\ weight c1 < bound).
  { pose proof (good_node _ _ _ _ _ _ _ _ _ Gc1) as Nd. unfold node in Nd. unfold leaves, weight.
    destruct (c_status c1) eqn:Sc; [|split; [exact M1|]|split; [exact M1|]].
    - destruct Nd as ((_ & Dd1 & Ld1 & _) & _). assert (LE : length (current (c_state c1)) = length (current (c_state c))) by exact (eq_trans Ld1 (eq_sym Ld)). split.
      + apply child_count; auto. exact (Sh eq_refl).
      + apply (Nat.lt_le_trans _ (total_size (current (c_state c)))); [|exact Sz]. apply (total_size_strict l); auto. exact (Sh eq_refl).
    - assert (0 < total_size (current (c_state c))); [|lia]. destruct Un as (b & Wb & Nb).
      destruct (total_size (current (c_state c))) eqn:T; [|lia]. exfalso. destruct Ps as (a & Wa & Ha). apply Nb.
      assert (Z : forall (d : domains), total_size d = 0 -> domains_ok d -> length d = 0).
      { intros d Td Hd. destruct d as [|s r]; [reflexivity|]. exfalso. destruct (Hd 0 ltac:(simpl; lia)) as (_ & x & Hx). simpl in Hx.
        apply each_In in Hx. unfold total_size in Td. simpl in Td. destruct (each s); [destruct Hx|simpl in Td; lia]. }
      specialize (Z _ T Dd). assert (E : var_value b (c_var l) = var_value a (c_var l)).
      { unfold cond_known, var_known in K. destruct (c_var l); simpl in *; try reflexivity; exfalso; unfold domains, iset in *; lia. }
      unfold cond_holds in *. now rewrite E.
    - assert (0 < total_size (current (c_state c))); [|lia]. destruct Un as (b & Wb & Nb).
      destruct (total_size (current (c_state c))) eqn:T; [|lia]. exfalso. destruct Ps as (a & Wa & Ha). apply Nb.
      assert (Z : forall (d : domains), total_size d = 0 -> domains_ok d -> length d = 0).
      { intros d Td Hd. destruct d as [|s r]; [reflexivity|]. exfalso. destruct (Hd 0 ltac:(simpl; lia)) as (_ & x & Hx). simpl in Hx.
        apply each_In in Hx. unfold total_size in Td. simpl in Td. destruct (each s); [destruct Hx|simpl in Td; lia]. }
      specialize (Z _ T Dd). assert (E : var_value b (c_var l) = var_value a (c_var l)).
      { unfold cond_known, var_known in K. destruct (c_var l); simpl in *; try reflexivity; exfalso; unfold domains, iset in *; lia. }
      unfold cond_holds in *. now rewrite E. }
  destruct Lv as [Lv Wt].
  destruct (Rec child_prefix g2 Gc1 Wt Bd On) as (v3 & g3 & Er & C3 & N3). rewrite Er.
  change (g_config g2) with c1 in *. change (g_conflicts g2) with (g_conflicts g1) in *. rewrite Cf1 in *.
  assert (X : is_explored (fun a => path_holds a c1) c1 v3 g2 g3).
  { apply (Rex child_prefix g2 v3 g3 Er Gc1); auto. intros _ a _ []. }
  pose proof (ex_sim _ _ _ _ _ _ _ _ _ _ _ _ _ _ X) as Si.
  assert (Up : exists c', run_move props disabled abort fuel Up (g_config g3) = Some c').
  { cbn [run_move]. rewrite (si_open _ _ _ Si), (si_path _ _ _ Si), Ho, Hp. destruct (backtrack t (c_state (g_config g3))). eauto. }
  destruct Up as (c' & Up). rewrite Up.
  pose proof (ex_threw _ _ _ _ _ _ _ _ _ _ _ _ _ _ X) as NT.
  exists v3, (at_config g3 c'). split; [destruct v3; congruence|]. split; [cbn; lia|]. intros k Ek Le. apply (N3 k Ek). lia.
Qed.

Lemma siblings_end rec bound c0 k prefix : ends rec bound -> rec_explores rec -> Good c0 -> c_status c0 = Live -> total_size (current (c_state c0)) <= bound ->
  prefix_on learning nv vs prefix (fun a => path_holds a c0) ->
  forall ls refuted index first g, branch k (current (c_state c0)) = refuted ++ ls ->
  sim props c0 (g_config g) -> engine_ok n (c_engine (g_config g)) ->
  exists v g', siblings props disabled abort fuel objective learning cutoff rec ls index first prefix refuted g = Some (v, g') /\
    g_conflicts g' <= g_conflicts g + list_sum (map (fun l => length (matching l (current (c_state c0)))) ls) /\
    (forall k, cutoff = Some k -> g_conflicts g + list_sum (map (fun l => length (matching l (current (c_state c0)))) ls) <= k -> v <> CutoffHit).
Proof.
  intros Rec Rex G L Sz Po. pose proof (good_node _ _ _ _ _ _ _ _ _ G) as Nd. unfold node in Nd. rewrite L in Nd. destruct Nd as ((_ & Dd & Ld & _) & _).
  induction ls as [|l r IH]; intros refuted index first g Br Si O; cbn [siblings].
  { exists Complete, g. split; [reflexivity|]. simpl. split; [lia|discriminate]. }
  set (flip := Nat.eqb index 1 && match first with Some f => cond_eqb l (cond_not f) | None => false end) in *.
  set (cp := if learning then (if flip then prefix else prefix ++ [l]) else prefix) in *.
  assert (PE : forall a, path_holds a (g_config g) <-> path_holds a c0) by (intro; now apply (sim_path props)).
  assert (Il : In l (branch k (current (c_state c0)))) by (rewrite Br; apply in_elt).
  assert (Pon : prefix_on learning nv vs cp (fun a => path_holds a (g_config g) /\ cond_holds a l)).
  { intros Le. destruct (Po Le) as [Pb Po']. unfold cp. rewrite Le. split.
    - destruct flip; [assumption|]. apply Forall_app. split; [assumption|]. constructor; [|constructor]. exact (branch_guessable branch nv vs HB k _ l Dd Ld Il).
    - intros a [Pa La]. apply PE in Pa. destruct flip; [now apply Po'|]. apply Forall_app. split; [now apply Po'|].
      constructor; [assumption|constructor]. }
  pose proof (si_state _ _ _ Si) as Es.
  destruct (recurse_ends rec bound l cp g Rec Rex) as (v1 & g1 & Er & C1 & N1); auto.
  { eapply sim_good; eauto. }
  { rewrite (si_status _ _ _ Si). exact L. }
  { rewrite Es. exact (sp_known _ _ _ HB k _ l Dd Ld Il). }
  { rewrite Es. exact (sp_possible _ _ _ HB k _ l Dd Ld Il). }
  { rewrite Es. exact (sp_uncertain _ _ _ HB k _ l Dd Ld Il). }
  { rewrite Es. exact Sz. }
  rewrite Er. rewrite Es in *. cbn [map]. rewrite lsum_cons.
  assert (X : is_explored (fun a => path_holds a (g_config g) /\ cond_holds a l) (g_config g) v1 g g1).
  { eapply (recurse_spec props disabled abort fuel objective on_trace learning cutoff nv Inv d0 nothing anything [] vs always always HW HI HA nothing_sound (always_wakeable props nv Inv) HO);
      try eassumption.
    - eapply sim_good; eauto.
    - rewrite (si_status _ _ _ Si). exact L.
    - rewrite Es. exact (sp_known _ _ _ HB k _ l Dd Ld Il).
    - rewrite Es. exact (sp_possible _ _ _ HB k _ l Dd Ld Il).
    - constructor.
    - intros _ a _ []. }
  destruct v1.
  - destruct (IH (refuted ++ [l]) (S index) (if Nat.eqb index 0 then Some l else first) g1) as (v & g' & Es' & Cs & Ns).
    + now rewrite <- app_assoc.
    + eapply sim_trans; [exact Si|]. apply X.
    + apply X.
    + exists v, g'. split; [exact Es'|]. split; [lia|]. intros k' Ek Le. apply (Ns k' Ek). lia.
  - exists Stop, g1. split; [reflexivity|]. split; [lia|discriminate].
  - exists CutoffHit, (learn learning prefix refuted g1). split; [reflexivity|]. split; [unfold learn; destruct learning; cbn; lia|].
    intros k' Ek Le. apply (N1 k' Ek). lia.
  - destruct (ex_threw _ _ _ _ _ _ _ _ _ _ _ _ _ _ X eq_refl).
Qed.

Lemma explore_ends depth : ends (explore props disabled abort fuel objective branch on_solution on_trace learning cutoff depth) depth.
Proof.
  induction depth as [|depth IH]; intros prefix g G Wt Bd On; [lia|]. cbn [explore]. set (c := g_config g) in *.
  pose proof (good_engine _ _ _ _ _ _ _ _ _ G) as O. pose proof (good_node _ _ _ _ _ _ _ _ _ G) as Nd. unfold node in Nd. unfold weight in Wt. unfold leaves.
  destruct (c_status c) eqn:Stt.
  - destruct Nd as ((_ & Dd & Ld & _) & _).
    destruct (branch (g_entered g) (current (c_state c))) as [|l0 ls0] eqn:Br.
    + unfold report. set (go := on_solution _). destruct objective as [w|]; [destruct (optional_single_value _ _)|];
        (eexists; eexists; split; [reflexivity|]; split; [cbn; lia|]; intros; destruct go; discriminate).
    + set (go := on_trace (g_entered g) (current (c_state c))) in *. set (g0 := note (Traced (current (c_state c)) go) g) in *. destruct go.
      2: { eexists; eexists; split; [reflexivity|]. split; [cbn; lia|discriminate]. }
      destruct (poll abort g0) as [stop g1] eqn:Po. destruct (poll_spec props abort g0 _ _ Po O) as (S1 & O1 & R1 & B1 & L1 & En1 & Cf1). change (sim props c (g_config g1)) in S1.
      cbn in Cf1. destruct stop. { eexists; eexists; split; [reflexivity|]. split; [cbn; lia|discriminate]. }
      pose proof (explore_spec props disabled abort fuel objective branch on_solution on_trace learning cutoff nv Inv d0 nothing anything [] vs always always
        HW HI HA nothing_sound (always_wakeable props nv Inv) anything_checked HB HO depth) as Ex.
      destruct (siblings_end _ depth c (g_entered g) prefix IH Ex G Stt ltac:(lia) On (l0 :: ls0) [] 0%nat None g1 Br S1 O1) as (v & g' & E & Cs & Ns).
      pose proof (siblings_count (current (c_state c)) _ (fun a => sp_apart _ _ _ HB (g_entered g) _ a Dd Ld)) as Cn. rewrite Br in Cn.
      exists v, g'. split; [exact E|]. split; [lia|]. intros k Ek Le. apply (Ns k Ek). lia.
  - eexists; eexists; split; [reflexivity|]. split; [cbn; lia|discriminate].
  - eexists; eexists; split; [reflexivity|]. split; [cbn; lia|discriminate].
Qed.

End Finish.

Section Passes.
Variable props : list nogood -> list propagator.
Variable disabled : nat -> bool.
Variable abort : nat -> bool.
Variable fuel depth : nat.
Variable objective : option var_id.
Variable branch : nat -> domains -> list cond.
Variable on_solution : list domains -> bool.
Variable on_trace : nat -> domains -> bool.
Variable schedule : option (nat -> nat).
Variable nv : nat.
Variable Inv : domains -> list cstate -> Prop.
Variable d0 : domains.
Variable vs : list var_id.

Hypothesis HL : forall S, length (props S) = length (props []).
Hypothesis HW : forall S p, Forall (legible nv vs) S -> In p (props S) -> well_behaved nv Inv p.
Hypothesis HI : stable nv Inv.
Hypothesis HA : stays_set abort.
Hypothesis HB : splits nv vs branch.
Hypothesis HO : forall v, objective = Some v -> var_below nv v /\ forall d : domains, domains_ok d -> length d = nv -> Forall (fixed d) vs -> fixed d v.
Hypothesis D0 : domains_ok d0.
Hypothesis L0 : length d0 = nv.
Hypothesis HF : (S (total_size d0) * S (length (props [])) <= fuel)%nat.
Hypothesis HD : (total_size d0 < depth)%nat.

Notation learning := (match schedule with Some _ => true | None => false end).
Notation Between := (between props disabled objective nv Inv d0 nothing vs (fun _ => always) (fun _ => always)).

Lemma nothing_sound_all : forall S p, Forall (legible nv vs) S -> In p (props S) -> sound_for nv Inv (remaining nothing S) p.
Proof. intros S p _ _ i a _ _ [[] _]. Qed.

Lemma always_wakeable_all : forall S x, Forall (legible nv vs) S -> (x < length (props []))%nat -> wakeable nv Inv (the_prop (props S) x) (always x) (always x).
Proof. intros. constructor; intros; exact Logic.I. Qed.

Lemma pass_ends cutoff g : Between g ->
  exists v g', run_pass (props (g_learned g)) disabled abort fuel objective branch on_solution on_trace learning cutoff depth g = Some (v, g') /\
    (forall k, cutoff = Some k -> (length (tuples d0) <= k)%nat -> v <> CutoffHit).
Proof.
  intros [Ro Le Pa]. unfold run_pass. set (S := g_learned g) in *.
  assert (LS : Forall (legible nv vs) S) by (eapply Forall_impl; [|exact Le]; intros N [HN _]; exact HN). set (g1 := enter (set_conflicts g 0)) in *.
  assert (HW' : forall p, (p < length (props S))%nat -> well_behaved nv Inv (the_prop (props S) p)) by (intros p Hp; apply (HW S); [assumption|now apply nth_In]).
  assert (T1 : (1 <= length (tuples d0))%nat).
  { destruct (within_exists d0 D0) as (a & Wa). assert (I : In (map a (seq 0 (length d0))) (tuples d0)).
    { apply tuples_In. split; [now rewrite map_length, seq_length|]. intros n Hn. unfold from_tuple.
      rewrite (nth_indep _ _ (a 0%nat)) by (rewrite map_length, seq_length; assumption). rewrite map_nth, seq_nth by assumption. now apply Wa. }
    destruct (tuples d0); [destruct I|simpl; lia]. }
  destruct (spent cutoff g1) eqn:Sp.
  { exists CutoffHit, g1. split; [reflexivity|]. intros k Ek Lk. unfold spent in Sp. rewrite Ek in Sp. apply Nat.leb_le in Sp. cbn in Sp. lia. }
  change (g_config g1) with (g_config g). change (objective_bound objective g1) with (objective_bound objective g).
  assert (HF' : (Datatypes.S (total_size d0) * Datatypes.S (length (props S)) <= fuel)%nat) by now rewrite HL.
  assert (Ag : exists c, run_move (props S) disabled abort fuel (Again (objective_bound objective g)) (g_config g) = Some c).
  { destruct Ro as [Op (p & Pth) Li Bl F FE Se W1 W2]. cbn [run_move]. rewrite Op, Pth. unfold is_live. rewrite Li.
    destruct (add_bounds (c_state (g_config g)) (objective_bound objective g)) as [[fine st1] ch] eqn:AB.
    destruct (bounds_fit (props S) disabled nv Inv HI _ _ _ _ _ F (fit_known nv Inv _ _ F (objective_below objective nv vs HO g)) AB) as (HE1 & L1 & Inc & R1).
    destruct fine; [|eauto]. destruct R1 as (F1 & _ & _ & T2).
    assert (SZ : (total_size (current (c_state (g_config g))) <= total_size d0)%nat).
    { destruct F as (_ & Df & Lf & _). apply total_size_mono; auto; [exact (eq_trans Lf (eq_sym L0))|]. intros a Wa. now apply W1. }
    assert (HWi : forall p, In p (props S) -> well_behaved nv Inv p) by (intros q Iq; eauto).
    destruct (node_terminates (props S) disabled abort fuel nv Inv HWi ch (c_engine (g_config g)) st1) as ([[s e] st4] & E4).
    - pose proof (bound_seeded objective g) as BS. destruct (objective_bound objective g); [cbn in AB; injection AB as <- <-; exact FE|].
      apply engine_ok_fit. apply Se. now rewrite <- BS.
    - exact F1.
    - assert (total_size (current st1) <= total_size d0)%nat by lia. nia.
    - rewrite E4. eauto. }
  destruct Ag as (c & Ag). rewrite Ag.
  destruct (again_rooted (props S) disabled abort fuel nv Inv d0 (remaining nothing S) always always HW' HI HA
     (fun p Hp => nothing_sound_all S _ LS (nth_In _ _ Hp)) (fun x Hx => always_wakeable_all S x LS (eq_ind _ (fun n => (x < n)%nat) Hx _ (HL S)))
     (g_config g) (objective_bound objective g) c) as (G & Op & Pth & PH).
  { rewrite bound_seeded. exact Ro. }
  { apply (objective_below objective nv vs HO). }
  { exact Ag. }
  assert (G' : good (props S) disabled nv Inv d0 (remaining nothing []) always always c).
  { destruct Pth as (p & Pth). apply (good_root _ _ _ _ _ _ _ _ _ p); auto; [exact (good_engine _ _ _ _ _ _ _ _ _ G)|exact (good_balanced _ _ _ _ _ _ _ _ _ G)|].
    pose proof (good_node _ _ _ _ _ _ _ _ _ G) as Nd. unfold node in *. destruct (c_status c); auto.
    - destruct Nd as (A & B & C & D). split; [assumption|]. split; [assumption|]. split; [assumption|]. intros a _ _ [[] _].
    - intros a _ _ [[] _]. }
  assert (SZ : weight c < depth /\ leaves c <= length (tuples d0)).
  { unfold weight, leaves. destruct (c_status c) eqn:Sc; [|lia|lia]. pose proof (good_node _ _ _ _ _ _ _ _ _ G) as Nd. unfold node in Nd. rewrite Sc in Nd.
    destruct Nd as ((_ & Df & Lf & _) & _ & W1 & _).
    pose proof (total_size_mono d0 (current (c_state c)) D0 Df (eq_trans Lf (eq_sym L0)) (fun a Wa => proj1 (W1 a Wa))). split; [lia|].
    apply NoDup_incl_length; [now apply tuples_NoDup|]. intros t It. apply tuples_In in It. destruct It as [Lt Wt]. apply tuples_In.
    split; [exact (eq_trans Lt (eq_trans Lf (eq_sym L0)))|]. now apply W1. }
  destruct (explore_ends (props S) disabled abort fuel objective branch on_solution on_trace learning cutoff nv Inv d0 vs HW' HI HA HB HO D0 L0 HF' depth []
     (at_config g1 c)) as (v & g' & E & _ & N); auto.
  - apply SZ.
  - intros w b Ow Eb a Ha. cbn [at_config g_config] in Ha. apply PH in Ha. apply (objective_bounded objective nv vs HO g a w b Ow Eb). apply Ha.
  - intros _. split; [constructor|]. intros a _. constructor.
  - exists v, g'. split; [exact E|]. intros k Ek Lk. apply (N k Ek). change (g_conflicts (at_config g1 c)) with 0%nat. change (g_config (at_config g1 c)) with c. lia.
Qed.

(** The schedule reaches cutoffs of any size. *)
Definition grows (s : nat -> nat) : Prop := forall k, exists i, (1 <= i /\ k <= s i)%nat.

Lemma passes_end far : forall index g, Between g ->
  (forall s, schedule = Some s -> (length (tuples d0) <= s (index + far))%nat) ->
  exists v g', passes props disabled abort fuel depth objective branch on_solution on_trace schedule (S far) index g = Some (v, g').
Proof.
  induction far as [|far IH]; intros index g B Hs.
  - cbn [passes]. set (cutoff := match schedule with Some s => Some (s index) | None => None end).
    destruct (pass_ends cutoff g B) as (v & g' & E & N). rewrite E.
    destruct (pass_spec props disabled abort fuel depth objective branch on_solution on_trace schedule nv Inv d0 nothing (fun _ => anything) vs (fun _ => always) (fun _ => always)
      HL HW HI HA nothing_sound_all always_wakeable_all (fun _ _ _ _ _ _ _ _ _ _ => Logic.I) (fun _ _ _ _ _ _ => conj (fun x => x) (fun x => x)) HB HO cutoff g v g' B E)
      as (P1 & P2 & _).
    destruct v; eauto. exfalso. destruct schedule as [s|] eqn:Sc; [|now apply (P2 eq_refl)].
    apply (N (s index) eq_refl); [|reflexivity]. specialize (Hs s eq_refl). now rewrite Nat.add_0_r in Hs.
  - remember (S far) as f eqn:Ef. cbn [passes]. set (cutoff := match schedule with Some s => Some (s index) | None => None end).
    destruct (pass_ends cutoff g B) as (v & g' & E & N). rewrite E.
    destruct (pass_spec props disabled abort fuel depth objective branch on_solution on_trace schedule nv Inv d0 nothing (fun _ => anything) vs (fun _ => always) (fun _ => always)
      HL HW HI HA nothing_sound_all always_wakeable_all (fun _ _ _ _ _ _ _ _ _ _ => Logic.I) (fun _ _ _ _ _ _ => conj (fun x => x) (fun x => x)) HB HO cutoff g v g' B E)
      as (P1 & P2 & _ & _ & _ & P6).
    destruct v; eauto. subst f. apply IH; [now apply P6|]. intros s Es. specialize (Hs s Es). now rewrite Nat.add_succ_l, <- Nat.add_succ_r.
Qed.

Lemma search_ends st : startable nv Inv st -> current st = d0 -> (forall s, schedule = Some s -> grows s) ->
  exists tries v g, search props disabled abort fuel depth objective branch on_solution on_trace schedule tries st = Some (v, g).
Proof.
  intros St Ed Gr. pose proof (start_between props disabled objective nv Inv d0 nothing vs (fun _ => always) (fun _ => always) st St Ed) as B.
  assert (F : exists far, forall s, schedule = Some s -> (length (tuples d0) <= s (1 + far))%nat).
  { destruct schedule as [s|]; [|exists 0%nat; discriminate]. destruct (Gr s eq_refl (length (tuples d0))) as (i & Hi & Hk). exists (i - 1)%nat.
    intros s' Es. injection Es as <-. now replace (1 + (i - 1))%nat with i by lia. }
  destruct F as (far & F). destruct (passes_end far 1 _ B F) as (v & g & E). exists (S far), v, g. exact E.
Qed.

(** More passes allowed make no difference. *)
Lemma passes_more tries more : forall index g r,
  passes props disabled abort fuel depth objective branch on_solution on_trace schedule tries index g = Some r ->
  passes props disabled abort fuel depth objective branch on_solution on_trace schedule (tries + more) index g = Some r.
Proof.
  induction tries as [|tries IH]; intros index g r E; [discriminate|]. cbn [passes Nat.add] in *.
  destruct (run_pass _ _ _ _ _ _ _ _ _ _ _ _) as [[[] g']|]; auto.
Qed.

End Passes.
