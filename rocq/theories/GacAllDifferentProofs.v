(** Lemmas about generalised arc consistent AllDifferent. *)
From Coq Require Import ZArith List Bool Arith Lia Permutation.
From Verif Require Import IntervalSet IntervalSetSpec IntervalSetProofs Vars VarsSpec VarsProofs State StateSpec StateProofs Epochs
  Engine EngineSpec EngineProofs EngineQueueProofs SessionSpec SessionInvProofs Tracker ContractSpec ContractProofs RunProofs ConsistencySpec QuietProofs Equals EqualsProofs
  Solve SolveSpec SolveProofs Stateful StatefulSpec StatefulProofs
  AllDifferent AllDifferentSpec AllDifferentProofs Scc SccSpec SccProofs Matching MatchingSpec MatchingProofs GacAllDifferent GacGraphProofs.
Import ListNotations.

(** ** The graph *)

Lemma for_each_nested {X Y} (g : X -> list Y) (f : Y -> tracker -> tracker) xs : forall t, for_each xs (fun x => for_each (g x) f) t = for_each (flat_map g xs) f t.
Proof. unfold for_each. induction xs as [|x r IH]; intro t; simpl; [reflexivity|]. now rewrite fold_left_app, IH. Qed.

Section Graph.
Variable vars : list var_id.
Variable vals excluded : list Z.
Variable D : domains.
Let n := length vars.
Let edges := gac_edges vars vals excluded D.

Lemma value_edges_In i j : In j (value_edges vars vals D i) <-> j < length vals /\ in_domain D (handle vars i) (value_at vals j) = true.
Proof. unfold value_edges. rewrite filter_In, in_seq. split; intros [A B]; split; auto; lia. Qed.

Lemma phantom_above i : length vals <= phantom vars vals excluded D i.
Proof. unfold phantom. lia. Qed.

Lemma phantom_step i : phantom vars vals excluded D (S i) = phantom vars vals excluded D i + (if opts_out vars excluded D i then 1 else 0).
Proof.
  unfold phantom. rewrite seq_S, filter_app, app_length. cbn [plus filter]. destruct (opts_out vars excluded D i); simpl; lia.
Qed.

Lemma phantom_mono i k : i <= k -> phantom vars vals excluded D i <= phantom vars vals excluded D k.
Proof. induction 1; [lia|]. rewrite phantom_step. lia. Qed.

Lemma phantom_lt i k : i < k -> opts_out vars excluded D i = true -> phantom vars vals excluded D i < phantom vars vals excluded D k.
Proof. intros L O. pose proof (phantom_mono (S i) k ltac:(lia)). pose proof (phantom_step i) as S. rewrite O in S. lia. Qed.

Lemma phantom_inj i k : opts_out vars excluded D i = true -> opts_out vars excluded D k = true -> phantom vars vals excluded D i = phantom vars vals excluded D k -> i = k.
Proof. intros Oi Ok E. destruct (Nat.lt_total i k) as [L|[L|L]]; [|assumption|]; apply phantom_lt in L; auto; lia. Qed.

Lemma edges_In i t : In t (edges i) <-> In t (value_edges vars vals D i) \/ (opts_out vars excluded D i = true /\ t = phantom vars vals excluded D i).
Proof. unfold edges, gac_edges. rewrite in_app_iff. destruct (opts_out vars excluded D i); simpl; intuition congruence. Qed.

Lemma edges_value i j : j < length vals -> (In j (edges i) <-> in_domain D (handle vars i) (value_at vals j) = true).
Proof. intro Hj. rewrite edges_In, value_edges_In. pose proof (phantom_above i). intuition lia. Qed.

Lemma edges_phantom i t : length vals <= t -> In t (edges i) -> opts_out vars excluded D i = true /\ t = phantom vars vals excluded D i.
Proof. intros Ht I. apply edges_In in I. destruct I as [I|I]; [apply value_edges_In in I; lia|assumption]. Qed.

Lemma edges_bound i t : i < n -> In t (edges i) -> t < right_count vars vals excluded D.
Proof.
  intros Hi I. unfold right_count. apply edges_In in I. destruct I as [I|[O ->]]; [apply value_edges_In in I; pose proof (phantom_above (length vars)); lia|]. now apply phantom_lt.
Qed.

(** What one pass does. *)
Lemma gac_pass_cases memo t t' memo' : t_domains t = D -> gac_pass vars vals excluded memo t = (t', memo') ->
  (t' = tell_false t /\ forall f, ~ perfect edges n f) \/
  (exists f, perfect edges n f) /\
  exists gone, t' = for_each gone (fun '(i, j) => tell_ne (handle vars i) (value_at vals j)) t /\
    forall i j, In (i, j) gone <-> i < n /\ j < length vals /\ In j (edges i) /\ forall f, perfect edges n f -> f i <> j.
Proof.
  intros ED E. unfold gac_pass in E. rewrite ED in E. cbn zeta in E. fold n edges in E.
  set (m := build_matching edges n _) in E. destruct (build_matching_spec edges n (match excluded with [] => recall memo | _ => fun _ => None end)) as [Sm C]. cbn zeta in Sm, C. fold m in Sm, C.
  destruct (forallb (fun i => is_some (mt_left m i)) (seq 0 n)) eqn:All.
  - right. injection E as <- _.
    assert (Cv : forall i, i < n -> mt_left m i <> None).
    { intros i Hi. rewrite forallb_forall in All. apply some_not_none. apply All. apply in_seq. lia. }
    split; [exists (mate m); now apply mate_perfect|].
    set (nr := right_count vars vals excluded D). set (es := filter _ _).
    assert (Es : forall i j, In (i, j) es <-> i < n /\ j < length vals /\ In j (edges i) /\ forall f, perfect edges n f -> f i <> j).
    { intros i j. unfold es. rewrite filter_In, in_flat_map.
      assert (X : (exists x, In x (seq 0 n) /\ In (i, j) (map (pair x) (value_edges vars vals D x))) <-> i < n /\ j < length vals /\ In j (edges i)).
      { split.
        - intros (x & Ix & I). apply in_map_iff in I. destruct I as (y & [= -> ->] & I). apply in_seq in Ix. pose proof (proj1 (value_edges_In i j) I) as [Hj _]. split; [lia|]. split; [assumption|]. apply edges_In. now left.
        - intros (Hi & Hj & I). exists i. split; [apply in_seq; lia|]. apply in_map. apply value_edges_In. split; [assumption|]. now apply edges_value. }
      rewrite X. split.
      - intros ((Hi & Hj & I) & R). repeat (split; [assumption|]). refine (proj1 (redundant_spec edges n (length vals) nr m Sm Cv _ i j Hi I Hj) R). intros. now apply (edges_bound i0).
      - intros (Hi & Hj & I & A). split; [auto|]. refine (proj2 (redundant_spec edges n (length vals) nr m Sm Cv _ i j Hi I Hj) A). intros. now apply (edges_bound i0). }
    set (g := graph_components edges n nr m).
    exists (flat_map (fun c => filter (fun '(i, j) => tj_component g (n + j) =? c) es) (seq 0 (tj_count g))). split.
    + unfold delete_edges. apply (for_each_nested (fun c => filter (fun '(i, j) => tj_component g (n + j) =? c) es) (fun '(i, j) => tell_ne (handle vars i) (value_at vals j))).
    + intros i j. rewrite <- Es, in_flat_map. split.
      * intros (c & _ & I). apply filter_In in I. apply I.
      * intro I. exists (tj_component g (n + j)). split; [|apply filter_In; split; [assumption|apply Nat.eqb_refl]].
        apply in_seq. split; [lia|]. simpl. apply Es in I. destruct I as (Hi & Hj & I & _). apply component_bound.
        -- intros v w Hv Iw. refine (residual_bound edges n nr m Sm _ v w Hv Iw). intros. now apply (edges_bound i0).
        -- apply edges_bound in I; [|assumption]. fold nr in I. lia.
  - left. injection E as <- _. split; [reflexivity|]. destruct C as [C|C]; [|assumption]. exfalso.
    assert (A : forallb (fun i => is_some (mt_left m i)) (seq 0 n) = true); [|congruence]. apply forallb_forall. intros i I. apply in_seq in I. apply some_not_none. apply C. lia.
Qed.
End Graph.

(** ** Assignments and matchings *)

Section Pass.
Variable nv : nat.
Variable vars : list var_id.
Variable vals excluded : list Z.
Hypothesis Bs : Forall (var_below nv) vars.
Hypothesis Nv : NoDup vals.
Hypothesis Dj : forall x, In x vals -> ~ In x excluded.
Let n := length vars.

(** The relation: different positions have different values, unless excluded. *)
Definition separate (a : assignment) : Prop := forall i k, i < n -> k < n -> i <> k ->
  var_value a (handle vars i) = var_value a (handle vars k) -> In (var_value a (handle vars i)) excluded.

(** Every possible value is in one list or the other. *)
Definition listed (D : domains) : Prop := forall a i, within a D -> i < n -> In (var_value a (handle vars i)) vals \/ In (var_value a (handle vars i)) excluded.

Definition position (x : Z) : option nat := find (fun j => (value_at vals j =? x)%Z) (seq 0 (length vals)).

Lemma position_some x j : position x = Some j -> j < length vals /\ value_at vals j = x.
Proof. intro E. apply find_some in E. destruct E as [I E]. apply in_seq in I. apply Z.eqb_eq in E. split; [lia|assumption]. Qed.

Lemma position_none x : position x = None -> ~ In x vals.
Proof.
  intros E I. apply (In_nth _ _ 0%Z) in I. destruct I as (j & Hj & Ej). pose proof (find_none _ _ E j) as X. simpl in X.
  unfold value_at in X. rewrite Ej, Z.eqb_refl in X. discriminate X. apply in_seq. lia.
Qed.

Lemma value_at_inj j k : j < length vals -> k < length vals -> value_at vals j = value_at vals k -> j = k.
Proof. intros Hj Hk E. exact (proj1 (NoDup_nth vals 0%Z) Nv j k Hj Hk E). Qed.

Lemma value_at_In j : j < length vals -> In (value_at vals j) vals.
Proof. apply nth_In. Qed.

Section At.
Variable D : domains.
Hypothesis HD : domains_ok D.
Hypothesis LD : length D = nv.
Let edges := gac_edges vars vals excluded D.

Lemma at_known i : var_known D (handle vars i).
Proof. apply (var_below_known nv); [assumption|]. now apply handle_below. Qed.

Lemma opts_out_spec i : opts_out vars excluded D i = true <-> exists x, In x excluded /\ view_member D (handle vars i) x.
Proof.
  unfold opts_out. rewrite existsb_exists. split; intros (x & I & E); exists x; (split; [assumption|]); [|]; apply (in_domain_spec D (handle vars i) x HD (at_known i)) in E || apply (in_domain_spec D (handle vars i) x HD (at_known i)); assumption.
Qed.

(** Every value of the assignment is in one list or the other. *)
Definition listed_at (a : assignment) : Prop := forall i, i < n -> In (var_value a (handle vars i)) vals \/ In (var_value a (handle vars i)) excluded.

Lemma solution_perfect a : within a D -> listed_at a -> separate a ->
  exists f, perfect edges n f /\ forall i j, i < n -> j < length vals -> (f i = j <-> var_value a (handle vars i) = value_at vals j).
Proof.
  intros Wa Li S. set (f := fun i => match position (var_value a (handle vars i)) with Some j => j | None => phantom vars vals excluded D i end).
  assert (Out : forall i, i < n -> position (var_value a (handle vars i)) = None -> opts_out vars excluded D i = true).
  { intros i Hi P. apply opts_out_spec. exists (var_value a (handle vars i)). split; [|apply value_possible; auto; apply at_known].
    destruct (Li i Hi) as [I|I]; [|assumption]. now apply position_none in P. }
  exists f. split; [split|].
  - intros i Hi. unfold f. destruct (position (var_value a (handle vars i))) as [j|] eqn:P.
    + apply position_some in P. destruct P as [Hj E]. apply edges_value; [assumption|]. rewrite E. apply value_in_domain; auto. apply at_known.
    + apply edges_In. right. split; [now apply Out|reflexivity].
  - intros i k Hi Hk. unfold f. destruct (position (var_value a (handle vars i))) as [j|] eqn:Pi, (position (var_value a (handle vars k))) as [l|] eqn:Pk.
    + intros ->. apply position_some in Pi, Pk. destruct Pi as [Hj Ei], Pk as [_ Ek]. destruct (Nat.eq_dec i k) as [|N]; [assumption|]. exfalso.
      apply (Dj (value_at vals l)); [now apply value_at_In|]. rewrite Ei. apply (S i k); auto. congruence.
    + intro E. apply position_some in Pi. pose proof (phantom_above vars vals excluded D k). lia.
    + intro E. apply position_some in Pk. pose proof (phantom_above vars vals excluded D i). lia.
    + apply phantom_inj; now apply Out.
  - intros i j Hi Hj. unfold f. destruct (position (var_value a (handle vars i))) as [k|] eqn:P.
    + apply position_some in P. destruct P as [Hk E]. rewrite <- E. split; [now intros ->|]. apply value_at_inj; assumption.
    + pose proof (phantom_above vars vals excluded D i). split; [lia|]. intro E. exfalso. apply position_none in P. apply P. rewrite E. now apply value_at_In.
Qed.

(** The other way round. *)
Lemma perfect_separate f a : perfect edges n f ->
  (forall i, i < n -> f i < length vals -> var_value a (handle vars i) = value_at vals (f i)) ->
  (forall i, i < n -> length vals <= f i -> In (var_value a (handle vars i)) excluded) -> separate a.
Proof.
  intros [P1 P2] V X i k Hi Hk N E. destruct (Nat.lt_ge_cases (f i) (length vals)) as [Li|Li]; [|now apply X].
  destruct (Nat.lt_ge_cases (f k) (length vals)) as [Lk|Lk].
  - exfalso. apply N. apply P2; auto. apply value_at_inj; auto. now rewrite <- (V i), <- (V k).
  - rewrite E. now apply X.
Qed.

Lemma perfect_possible f i : perfect edges n f -> i < n ->
  (f i < length vals -> view_member D (handle vars i) (value_at vals (f i))) /\
  (length vals <= f i -> exists x, In x excluded /\ view_member D (handle vars i) x).
Proof.
  intros [P1 _] Hi. specialize (P1 i Hi). split; intro L.
  - apply in_domain_spec; auto; [apply at_known|]. now apply (edges_value vars vals excluded D) in P1.
  - apply opts_out_spec. now apply (edges_phantom vars vals excluded D) in P1.
Qed.
End At.

(** ** The pass *)

Lemma handle_lit i x : lit_below nv (LCond (cond_ne (handle vars i) x)).
Proof. simpl. now apply handle_below. Qed.

(** The pass keeps what satisfies any relation that makes the values different and listed. *)
Lemma gac_pass_keeps d (sat : assignment -> Prop) t memo : domains_ok d -> length d = nv -> honest nv d sat t -> t_failed t = false ->
  (forall a, within a (t_domains t) -> sat a -> separate a /\ listed_at a) -> honest nv d sat (fst (gac_pass vars vals excluded memo t)).
Proof.
  intros Hd Ld Ht Ft Im. set (D := t_domains t) in *.
  pose proof (legit_ok nv d Hd Ld t (proj1 Ht) Ft) as OkD. pose proof (legit_length nv d Hd Ld t (proj1 Ht)) as LenD. fold D in OkD, LenD.
  destruct (gac_pass vars vals excluded memo t) as [t' memo'] eqn:E. cbn [fst].
  destruct (gac_pass_cases vars vals excluded D memo t t' memo' eq_refl E) as [(-> & No)|(_ & gone & -> & G)].
  - apply honest_tell; auto; [exact Logic.I|]. intros _ _ _ a Wa WD Sa. exfalso. destruct (Im a WD Sa) as [Se Li].
    destruct (solution_perfect D OkD LenD a WD Li Se) as (f & P & _). now apply (No f).
  - assert (K : forall a, within a d -> sat a -> within a D) by (intros a Wa Sa; now apply (honest_within nv d Hd Ld sat)).
    apply honest_for_each; auto. intros [i j] u I Hu. apply G in I. destruct I as (Hi & Hj & _ & A). apply honest_tell; auto; [apply handle_lit|].
    intros _ _ _ a Wa _ Sa. simpl. unfold cond_holds; simpl. intro V. destruct (Im a (K a Wa Sa) Sa) as [Se Li].
    destruct (solution_perfect D OkD LenD a (K a Wa Sa) Li Se) as (f & P & V'). apply (A f P). now apply V'.
Qed.

Lemma gac_pass_honest d (Hd : domains_ok d) (Ld : length d = nv) t : honest nv d separate t -> t_failed t = false -> listed (t_domains t) ->
  forall memo, honest nv d separate (fst (gac_pass vars vals excluded memo t)).
Proof. intros Ht Ft Li memo. apply gac_pass_keeps; auto. intros a WD Sa. split; [assumption|]. intros i Hi. now apply Li. Qed.

Section Run.
Variable d : domains.
Hypothesis Hd : domains_ok d.
Hypothesis Ld : length d = nv.
Context {sat : assignment -> Prop}.
Variable t : tracker.
Hypothesis Ht : honest nv d sat t.
Hypothesis Ft : t_failed t = false.
Let D := t_domains t.
Let edges := gac_edges vars vals excluded D.
Hypothesis Li : listed D.

Let OkD : domains_ok D := legit_ok nv d Hd Ld t (proj1 Ht) Ft.
Let LenD : length D = nv := legit_length nv d Hd Ld t (proj1 Ht).

Lemma gac_pass_legit memo : legit nv d (fst (gac_pass vars vals excluded memo t)).
Proof.
  apply (gac_pass_keeps d (fun _ => False)); auto; [|intros a _ []]. split; [apply Ht|]. intros a _ [].
Qed.

(** Everything fixed beforehand. *)
Lemma gac_pass_checks memo a : Forall (fixed D) vars -> live nv d (fst (gac_pass vars vals excluded memo t)) a -> separate a.
Proof.
  intros Fx. destruct (gac_pass vars vals excluded memo t) as [t' memo'] eqn:E. cbn [fst]. intro Lv.
  destruct (gac_pass_cases vars vals excluded D memo t t' memo' eq_refl E) as [(-> & No)|((f & P) & gone & -> & G)].
  - exfalso. destruct Lv as (_ & F & _). unfold tell_false, tell in F. rewrite Ft in F. discriminate F.
  - assert (WD : within a D).
    { apply (for_each_back nv d (fun _ => True) a gone) in Lv; [destruct Lv as [Lv _]; apply Lv| |  |apply Ht].
      - intros [i j] u _ Gu. apply legit_tell; auto. apply handle_lit.
      - intros [i j] u _ Gu Lu. apply (tell_back nv d Hd Ld) in Lu; auto; [|apply handle_lit]. tauto. }
    assert (Fi : forall i x, i < n -> view_member D (handle vars i) x -> var_value a (handle vars i) = x).
    { intros i x Hi V. symmetry. apply (fixed_only D (handle vars i) a OkD (at_known D LenD i) WD); [|assumption]. rewrite Forall_forall in Fx. apply Fx. now apply nth_In. }
    apply (perfect_separate D f a P).
    + intros i Hi L. apply Fi; [assumption|]. now apply (perfect_possible D OkD LenD f i P Hi).
    + intros i Hi L. destruct (proj2 (perfect_possible D OkD LenD f i P Hi) L) as (x & I & V). now rewrite (Fi i x Hi V).
Qed.

(** Handles that have nothing to do with each other. *)
Section Unaliased.
Hypothesis Ua : NoDup (underlying_list vars).

Lemma underlying_list_nth l i v k : nth_error l i = Some v -> underlying v = Some k -> In k (underlying_list l).
Proof. intros E U. apply in_underlying_list. exists v. split; [now apply nth_error_In in E|assumption]. Qed.

Lemma underlying_unrelated l i k v w : NoDup (underlying_list l) -> nth_error l i = Some v -> nth_error l k = Some w -> i <> k -> unrelated v w.
Proof.
  revert i k. induction l as [|x r IH]; intros i k ND Ei Ek N; [destruct i; discriminate|].
  change (x :: r) with ([x] ++ r) in ND. rewrite underlying_list_app in ND.
  assert (NDr : NoDup (underlying_list r)).
  { clear - ND. induction (underlying_list [x]) as [|y l IHl]; [assumption|]. simpl in ND. apply NoDup_cons_iff in ND. tauto. }
  assert (Sep : forall q y, In y r -> underlying x = Some q -> underlying y <> Some q).
  { intros q y I Ux Uy. assert (J : In q (underlying_list r)) by (apply in_underlying_list; eauto). unfold underlying_list in ND at 1. simpl in ND. rewrite Ux in ND. simpl in ND. apply NoDup_cons_iff in ND. tauto. }
  destruct i as [|i], k as [|k]; simpl in Ei, Ek.
  - congruence.
  - injection Ei as ->. apply nth_error_In in Ek. intros q Uq. now apply (Sep q w).
  - injection Ek as ->. apply nth_error_In in Ei. intros q Uq Uw. now apply (Sep q v Ei Uw).
  - apply (IH i k); auto.
Qed.

Lemma handle_nth i : i < n -> nth_error vars i = Some (handle vars i).
Proof. intro H. unfold handle. now apply nth_error_nth'. Qed.

Lemma handles_unrelated i k : i < n -> k < n -> i <> k -> unrelated (handle vars i) (handle vars k).
Proof. intros Hi Hk N. apply (underlying_unrelated vars i k); auto; now apply handle_nth. Qed.

(** What deletions leave. *)
Lemma deletes_leave gone k z : (forall i j, In (i, j) gone -> i < n) -> k < n -> forall u, legit nv d u ->
  t_failed (for_each gone (fun '(i, j) => tell_ne (handle vars i) (value_at vals j)) u) = false ->
  (view_member (t_domains (for_each gone (fun '(i, j) => tell_ne (handle vars i) (value_at vals j)) u)) (handle vars k) z <->
   view_member (t_domains u) (handle vars k) z /\ forall j, In (k, j) gone -> z <> value_at vals j).
Proof.
  intros B Hk. unfold for_each. induction gone as [|[i j] r IH]; intros u Gu F.
  - simpl. split; [intro V; split; [assumption|intros j []]|tauto].
  - cbn [fold_left] in *. set (u1 := tell_ne (handle vars i) (value_at vals j) u) in *.
    assert (G1 : legit nv d u1) by (apply legit_tell; auto; apply handle_lit).
    rewrite IH by (auto; intros x y I; apply (B x y); now right).
    assert (F1 : t_failed u1 = false).
    { destruct (t_failed u1) eqn:X; [|reflexivity]. exfalso. clearbody u1. clear - F X. revert u1 X F. induction r as [|[x y] r IH]; intros u1 X F; simpl in F; [congruence|].
      apply (IH (tell_ne (handle vars x) (value_at vals y) u1)); auto. unfold tell_ne, tell. now rewrite X. }
    destruct (Nat.eq_dec i k) as [->|N].
    + unfold u1. rewrite (tell_ne_here nv d Hd Ld) by (auto; now apply handle_below). split.
      * intros ((V & Ne) & A). split; [assumption|]. intros j' [[= ->]|I]; auto.
      * intros (V & A). split; [split; [assumption|apply A; now left]|]. intros j' I. apply A. now right.
    + assert (El : view_member (t_domains u1) (handle vars k) z <-> view_member (t_domains u) (handle vars k) z).
      { apply (tell_elsewhere nv d Hd Ld); auto; [now apply handle_below|]. apply handles_unrelated; auto. apply (B i j). now left. }
      rewrite El. split.
      * intros (V & A). split; [assumption|]. intros j' [E|I]; [congruence|auto].
      * intros (V & A). split; [assumption|]. intros j' I. apply A. now right.
Qed.

(** Values for all the handles together. *)
Lemma choose_values D' (z : nat -> Z) : domains_ok D' -> length D' = nv -> (forall i, i < n -> view_member D' (handle vars i) (z i)) ->
  exists a, within a D' /\ forall i, i < n -> var_value a (handle vars i) = z i.
Proof.
  intros Ok' Len' V.
  assert (K : forall k, k <= n -> exists a, within a D' /\ forall i, i < k -> var_value a (handle vars i) = z i).
  { induction k as [|k IH]; intro Hk.
    - destruct (within_exists D' Ok') as (a & W). exists a. split; [assumption|]. intros; lia.
    - destruct IH as (a & W & E); [lia|]. pose proof (V k ltac:(lia)) as Vk. apply view_member_iff in Vk; auto; [|now apply (at_known D')]. destruct Vk as (b & Wb & Eb).
      destruct (underlying (handle vars k)) as [q|] eqn:U.
      + exists (fun x => if Nat.eqb x q then b x else a x). split.
        * intros x Hx. destruct (Nat.eqb_spec x q); [now apply Wb|now apply W].
        * intros i Hi. destruct (Nat.eq_dec i k) as [->|N].
          -- rewrite <- Eb. destruct (handle vars k) as [p|p neg add|c]; simpl in U; try discriminate; injection U as ->; simpl; now rewrite Nat.eqb_refl.
          -- rewrite <- (E i) by lia. pose proof (handles_unrelated i k ltac:(lia) ltac:(lia) N) as Un. unfold unrelated in Un. rewrite U in Un.
             destruct (handle vars i) as [p|p neg add|c]; simpl in *; try reflexivity; (destruct (Nat.eqb_spec p q) as [->|]; [exfalso; now apply (Un q)|reflexivity]).
      + exists a. split; [assumption|]. intros i Hi. destruct (Nat.eq_dec i k) as [->|N]; [|apply E; lia]. rewrite <- Eb. destruct (handle vars k); try discriminate. reflexivity. }
  apply (K n). lia.
Qed.

(** What the pass has achieved. *)
Lemma gac_pass_result memo : let t' := fst (gac_pass vars vals excluded memo t) in t_failed t' = false ->
  exists f, perfect edges n f /\
  forall k z, k < n -> (view_member (t_domains t') (handle vars k) z <->
    view_member D (handle vars k) z /\ forall j, j < length vals -> z = value_at vals j -> exists g, perfect edges n g /\ g k = j).
Proof.
  cbn zeta. destruct (gac_pass vars vals excluded memo t) as [t' memo'] eqn:E. cbn [fst]. intro F.
  destruct (gac_pass_cases vars vals excluded D memo t t' memo' eq_refl E) as [(-> & No)|((f & P) & gone & -> & G)].
  - exfalso. unfold tell_false, tell in F. rewrite Ft in F. discriminate F.
  - exists f. split; [assumption|]. intros k z Hk. rewrite (deletes_leave gone k z); [|intros i j I; now apply G in I|assumption|apply Ht|assumption].
    fold D. split; intros [V A]; (split; [assumption|]).
    + intros j Hj ->. assert (In j (edges k)) as I by (apply (edges_value vars vals excluded D); [assumption|]; apply in_domain_spec; auto; now apply at_known).
      assert (R : ~ In (k, j) gone) by (intro I'; now apply (A j I')).
      destruct (build_matching_spec edges n (fun _ => None)) as [Sm C]. cbn zeta in Sm, C. set (m := build_matching edges n _) in *.
      destruct C as [C|C]; [|exfalso; now apply (C f)].
      pose proof (redundant_spec edges n (length vals) (right_count vars vals excluded D) m Sm C (edges_bound vars vals excluded D) k j Hk I Hj) as RS.
      destruct (redundant edges n (length vals) (right_count vars vals excluded D) m k j) eqn:Rd.
      * exfalso. apply R. apply G. repeat (split; [assumption|]). now apply RS.
      * destruct (used_edges_spec edges n (length vals) (right_count vars vals excluded D) m Sm C (edges_bound vars vals excluded D)) as (E0 & E1 & E2 & E3 & E4).
        apply (useful_edge edges n (right_count vars vals excluded D) m Sm C (edges_bound vars vals excluded D) k j Hk I).
        unfold redundant in Rd. apply andb_false_iff in Rd. rewrite !negb_false_iff in Rd. destruct Rd as [Rd|Rd].
        -- apply E3 in Rd. unfold escapes in Rd. tauto.
        -- apply Nat.eqb_eq in Rd. right. left.
           apply (components_correct (residual edges n m) (n + right_count vars vals excluded D) (residual_bound edges n (right_count vars vals excluded D) m Sm (edges_bound vars vals excluded D))) in Rd; [apply Rd|pose proof (edges_bound vars vals excluded D k j Hk I); lia|lia].
    + intros j I ->. apply G in I. destruct I as (_ & Hj & _ & N). destruct (A j Hj eq_refl) as (g & Pg & Eg). now apply (N g).
Qed.

Lemma gac_pass_consistent memo : let t' := fst (gac_pass vars vals excluded memo t) in t_failed t' = false -> domain_consistent (t_domains t') vars separate.
Proof.
  cbn zeta. intro F. destruct (gac_pass_result memo F) as (f & P & R). pose proof (gac_pass_legit memo) as G'.
  set (t' := fst (gac_pass vars vals excluded memo t)) in *. clearbody t'. set (D' := t_domains t') in *.
  assert (OkD' : domains_ok D') by (now apply (legit_ok nv d)). assert (LenD' : length D' = nv) by (now apply (legit_length nv d)).
  intros v x Iv (a & Wa & Ea). apply (In_nth _ _ (VConst 0)) in Iv. destruct Iv as (k & Hk & <-). change (nth k vars (VConst 0)) with (handle vars k) in *.
  assert (Vx : view_member D' (handle vars k) x) by (rewrite <- Ea; apply value_possible; auto; now apply (at_known D')).
  pose proof (proj1 (R k x Hk) Vx) as [Vd Sx].
  assert (G : exists g, perfect edges n g /\ (g k < length vals -> x = value_at vals (g k)) /\ (length vals <= g k -> In x excluded)).
  { destruct (position x) as [j|] eqn:Px.
    - apply position_some in Px. destruct Px as [Hj Ej]. destruct (Sx j Hj (eq_sym Ej)) as (g & Pg & Eg). exists g. split; [assumption|]. rewrite Eg. split; [auto|lia].
    - apply position_none in Px.
      assert (Ix : In x excluded).
      { apply view_member_iff in Vd; [|assumption|now apply (at_known D)]. destruct Vd as (b & Wb & Eb). destruct (Li b k Wb Hk) as [I|I]; rewrite Eb in I; tauto. }
      assert (O : opts_out vars excluded D k = true) by (apply opts_out_spec; eauto).
      exists (put f k (phantom vars vals excluded D k)). split; [|].
      + apply replace_perfect; [assumption|apply edges_In; auto|]. intros i Hi N E. apply N. destruct P as [P1 _]. specialize (P1 i Hi).
        apply (edges_phantom vars vals excluded D) in P1; [|rewrite E; apply phantom_above]. destruct P1 as [Oi Ei]. apply (phantom_inj vars vals excluded D); auto. congruence.
      + rewrite put_same. split; [intro L; pose proof (phantom_above vars vals excluded D k); lia|auto]. }
  destruct G as (g & Pg & G1 & G2).
  set (z := fun i => if Nat.eqb i k then x else if g i <? length vals then value_at vals (g i) else
     match find (in_domain D (handle vars i)) excluded with Some y => y | None => 0%Z end).
  assert (Zv : forall i, i < n -> g i < length vals -> z i = value_at vals (g i)).
  { intros i Hi L. unfold z. destruct (Nat.eqb_spec i k) as [->|N]; [now apply G1|]. apply Nat.ltb_lt in L. now rewrite L. }
  assert (Zx : forall i, i < n -> length vals <= g i -> In (z i) excluded /\ view_member D (handle vars i) (z i)).
  { intros i Hi L. unfold z. destruct (Nat.eqb_spec i k) as [->|N]; [now split; [apply G2|]|].
    assert (L' : (g i <? length vals) = false) by (apply Nat.ltb_ge; assumption). rewrite L'.
    destruct (proj2 (perfect_possible D OkD LenD g i Pg Hi) L) as (y & Iy & Vy). destruct (find (in_domain D (handle vars i)) excluded) as [y'|] eqn:Fy.
    - apply find_some in Fy. destruct Fy as [I' V']. split; [assumption|]. apply in_domain_spec in V'; auto. now apply (at_known D).
    - apply (find_none _ _ Fy) in Iy. apply (in_domain_spec D (handle vars i) y OkD (at_known D LenD i)) in Vy. congruence. }
  destruct (choose_values D' z OkD' LenD') as (b & Wb & Eb).
  { intros i Hi. apply R; [assumption|]. destruct (Nat.lt_ge_cases (g i) (length vals)) as [L|L].
    - rewrite (Zv i Hi L). split; [now apply (perfect_possible D OkD LenD g i Pg Hi)|]. intros j Hj E. exists g. split; [assumption|]. now apply value_at_inj.
    - destruct (Zx i Hi L) as [I V]. split; [assumption|]. intros j Hj E. exfalso. apply (Dj (z i)); [rewrite E; now apply value_at_In|assumption]. }
  exists b. split; [assumption|]. split.
  - rewrite (Eb k Hk). unfold z. now rewrite Nat.eqb_refl.
  - apply (perfect_separate D g b Pg).
    + intros i Hi L. rewrite (Eb i Hi). now apply Zv.
    + intros i Hi L. rewrite (Eb i Hi). now apply Zx.
Qed.
End Unaliased.

(** Everything fixed afterwards. *)
Lemma gac_pass_claims memo a : NoDup (underlying_list vars) -> live nv d (fst (gac_pass vars vals excluded memo t)) a ->
  Forall (fixed (t_domains (fst (gac_pass vars vals excluded memo t)))) vars -> separate a.
Proof.
  intros Ua (_ & F & Wa) Fx. pose proof (gac_pass_consistent Ua memo F) as C. cbn zeta in C. set (t' := fst (gac_pass vars vals excluded memo t)) in *. clearbody t'.
  intros i k Hi Hk N E. rewrite Forall_forall in Fx.
  destruct (C (handle vars i) (var_value a (handle vars i))) as (b & Wb & Eb & Sb); [now apply nth_In|eauto|].
  rewrite <- Eb. apply (Sb i k Hi Hk N). destruct (Fx (handle vars i)) as (x & X); [now apply nth_In|]. destruct (Fx (handle vars k)) as (y & Y); [now apply nth_In|].
  rewrite (X b Wb), (Y b Wb), <- (X a Wa), <- (Y a Wa). exact E.
Qed.
End Run.

Lemma listed_inside D D' : inside D D' -> listed D -> listed D'.
Proof. intros I L a i Wa. apply L. now apply I. Qed.

Lemma not_aliased (p : propagator) l : p_on_change p ++ p_on_bounds p ++ p_on_instantiated p ++ p_scope_only p = l -> ~ aliased p -> NoDup (underlying_list l).
Proof.
  intros E N. destruct (claims_ignored p) eqn:C; [exfalso; apply N; now apply claims_ignored_spec|].
  subst l. unfold claims_ignored, positions in C. rewrite !underlying_list_app. now apply has_duplicate_spec.
Qed.

(** ** The propagation functions *)

Lemma except_body_ok d0 alias m : listed d0 -> body_ok nv d0 alias (at_memo (except_body vars vals excluded) m) vars separate.
Proof.
  intro L0.
  assert (K : forall d, at_memo (except_body vars vals excluded) m d = (fst (gac_pass vars vals excluded m (track d)), Enable)).
  { intro d. unfold at_memo, except_body. now destruct (gac_pass vars vals excluded m (track d)). }
  apply body_ok_intro; intros d; rewrite ?K; cbn [fst snd]; try discriminate.
  - intros Hd Ld Id. apply gac_pass_honest; auto; [now apply honest_track|]. now apply (listed_inside d0).
  - intros a Hd Ld Id Fx Lv. revert Lv. apply gac_pass_checks with (sat := separate); auto; [now apply honest_track].
Qed.

Lemma gac_body_ok d0 (p : propagator) m : excluded = [] -> listed d0 -> p_on_change p ++ p_on_bounds p ++ p_on_instantiated p ++ p_scope_only p = vars ->
  body_ok nv d0 (aliased p) (at_memo (gac_body vars vals) m) vars separate.
Proof.
  intros Ex L0 Po.
  assert (K : forall d, at_memo (gac_body vars vals) m d = (fst (gac_pass vars vals excluded m (track d)), EnableButIdempotent)).
  { intro d. unfold at_memo, gac_body. rewrite Ex. now destruct (gac_pass vars vals [] m (track d)). }
  apply body_ok_intro; intros d; rewrite ?K; cbn [fst snd]; try discriminate.
  - intros Hd Ld Id. apply gac_pass_honest; auto; [now apply honest_track|]. now apply (listed_inside d0).
  - intros a Hd Ld Id Fx Lv. revert Lv. apply gac_pass_checks with (sat := separate); auto; [now apply honest_track].
  - intros a Hd Ld Id Na _ Lv Fx. revert Lv Fx. apply gac_pass_claims with (sat := separate); auto; [now apply honest_track|now apply (listed_inside d0)|]. now apply (not_aliased p).
Qed.
End Pass.

(** ** In stages *)

(** Value consistency only says that handles differ from values. *)
Definition refusals (vars : list var_id) (t : tracker) : Prop := Forall (fun l => exists i x, i < length vars /\ l = LCond (cond_ne (handle vars i) x)) (t_lits t).

Lemma refusals_tell vars i x t : i < length vars -> refusals vars t -> refusals vars (tell_ne (handle vars i) x t).
Proof.
  intros Hi R. unfold refusals, tell_ne, tell in *. destruct (t_failed t); [assumption|]. destruct (infer (t_domains t) (LCond (cond_ne (handle vars i) x))). cbn [t_lits]. constructor; eauto.
Qed.

Lemma refusals_take_away vars x fuel : forall kept rest work t U W t', length rest <= fuel ->
  Forall (fun i => i < length vars) (kept ++ rest ++ map fst work) -> refusals vars t -> take_away fuel vars x kept rest work t = (U, W, t') ->
  refusals vars t' /\ Forall (fun i => i < length vars) (U ++ map fst W).
Proof.
  induction fuel as [|fuel IH]; intros kept rest work t U W t' L F R E.
  - destruct rest; [|simpl in L; lia]. simpl in E. injection E as <- <- <-. split; [assumption|]. rewrite app_nil_r. rewrite !Forall_app in *. destruct F as (F1 & _ & F3). split; [now apply Forall_rev|assumption].
  - destruct rest as [|s r]; cbn [take_away] in E.
    + injection E as <- <- <-. split; [assumption|]. rewrite app_nil_r. rewrite !Forall_app in *. destruct F as (F1 & _ & F3). split; [now apply Forall_rev|assumption].
    + rewrite !Forall_app in F. destruct F as (F1 & F2 & F3). apply Forall_cons_iff in F2. destruct F2 as [Fs Fr].
      set (t1 := tell_ne (handle vars s) x t) in *. assert (R1 : refusals vars t1) by (now apply refusals_tell).
      destruct (t_failed t1).
      * injection E as <- <- <-. split; [assumption|]. rewrite !Forall_app. split; [split; [now apply Forall_rev|now constructor]|assumption].
      * simpl in L. destruct (optional_single_value (t_domains t1) (handle vars s)) as [y|]; revert E; apply IH; auto.
        -- rewrite swap_pop_length. lia.
        -- rewrite !Forall_app. split; [assumption|]. split; [apply (Permutation_Forall (Permutation_sym (swap_pop_perm r))); assumption|now constructor].
        -- lia.
        -- rewrite !Forall_app. split; [now constructor|]. split; assumption.
Qed.

Lemma refusals_for_each vars s x (work : list (nat * Z)) t : s < length vars -> refusals vars t ->
  refusals vars (for_each work (fun '(_, y) t => if (y =? x)%Z then tell_ne (handle vars s) x t else t) t).
Proof.
  intro Hs. unfold for_each. revert t. induction work as [|[j y] r IH]; intros t R; [assumption|]. cbn [fold_left]. apply IH. destruct (y =? x)%Z; [now apply refusals_tell|assumption].
Qed.

Lemma refusals_drain vars fuel : forall U W t U' t', Forall (fun i => i < length vars) (U ++ map fst W) -> refusals vars t -> drain fuel vars U W t = (U', t') -> refusals vars t'.
Proof.
  induction fuel as [|fuel IH]; intros U W t U' t' F R E; cbn [drain] in E.
  - destruct W; injection E as _ <-; assumption.
  - destruct W as [|[s x] r]; [injection E as _ <-; assumption|]. rewrite Forall_app in F. destruct F as [FU FW]. apply Forall_cons_iff in FW. destruct FW as [Fs Fr]. cbn [fst] in Fs.
    set (t1 := for_each (rev r) _ t) in E. assert (R1 : refusals vars t1) by (now apply refusals_for_each).
    destruct (t_failed t1); [injection E as _ <-; assumption|].
    destruct (take_away (length U) vars x [] U r t1) as [[U2 W2] t2] eqn:T. destruct (refusals_take_away vars x (length U) [] U r t1 U2 W2 t2) as [R2 F2]; auto.
    { cbn [app]. rewrite Forall_app. auto. }
    destruct (t_failed t2); [injection E as _ <-; assumption|]. now apply (IH U2 W2 t2 U').
Qed.

Lemma refusals_value_consistency vars d U0 U t : Forall (fun i => i < length vars) U0 -> value_consistency vars d U0 = (U, t) -> refusals vars t.
Proof.
  intros F E. unfold value_consistency, continue_different in E. cbn [track t_domains] in E. destruct (collect (length U0) d vars [] U0 []) as [U1 W] eqn:Co.
  apply (collect_spec (length d) vars d eq_refl) in Co; [|lia]. destruct Co as (P & _). cbn [rev app map] in P. rewrite app_nil_r in P.
  revert E. apply refusals_drain; [|constructor]. now apply (Permutation_Forall (Permutation_sym P)).
Qed.

(** If everything is fixed it changes nothing. *)
Lemma fixed_quiet nv vars d t : domains_ok d -> length d = nv -> legit nv d t -> t_failed t = false -> refusals vars t -> Forall (fixed d) vars -> progressed d t = false.
Proof.
  intros Hd Ld G F R Fx. unfold progressed. rewrite (apply_lits_implied (rev (t_lits t)) d Hd); [reflexivity| |].
  - apply Forall_rev. apply (lits_known nv); auto. apply (lg_below _ _ _ G).
  - destruct (within_exists (t_domains t) (legit_ok nv d Hd Ld t G F)) as (b & Wb). intros a Wa. apply Forall_rev.
    assert (Kb : keeps b t) by (apply (legit_within nv d Hd Ld t b G F) in Wb; apply Wb). pose proof (legit_inside nv d Hd Ld t G F b Wb) as Wbd.
    unfold keeps in Kb. unfold refusals in R. rewrite Forall_forall in *. intros l I. destruct (R l I) as (i & x & Hi & ->). specialize (Kb _ I). simpl in *. unfold cond_holds in *. simpl in *.
    destruct (Fx (handle vars i)) as (y & Y); [now apply nth_In|]. now rewrite (Y a Wa), <- (Y b Wbd).
Qed.

Lemma quiet_unchanged nv d t : domains_ok d -> length d = nv -> legit nv d t -> t_failed t = false -> progressed d t = false -> t_domains t = d.
Proof.
  intros Hd Ld G F P. destruct (lg_apply _ _ _ G) as (evs & A). unfold progressed in P. rewrite A, F in *. destruct evs; [|discriminate P].
  apply (apply_lits_quiet _ _ _ Hd) in A; [assumption|]. apply Forall_rev. apply (lits_known nv); auto. apply (lg_below _ _ _ G).
Qed.

Lemma separate_pairwise vars a : separate vars [] a <-> pairwise vars a.
Proof. unfold separate, pairwise. split; intros H i k Hi Hk N; [intro E; now apply (H i k)|intro E; exfalso; now apply (H i k)]. Qed.

Lemma honest_ext nv d (sat sat' : assignment -> Prop) t : (forall a, sat a <-> sat' a) -> honest nv d sat t -> honest nv d sat' t.
Proof. intros E [G K]. split; [assumption|]. intros a Wa Sa. apply K; [assumption|]. now apply E. Qed.

(** What the state always is. *)
Definition staged_own (vars : list var_id) (D : domains) (s : cstate) : Prop := exists U, s = map Z.of_nat U /\ NoDup U /\ Forall (fun i => i < length vars) U.

Lemma staged_body_cases nv vars vals d s m : Forall (var_below nv) vars -> domains_ok d -> length d = nv -> staged_own vars d s ->
  exists U t, honest nv d (separate vars []) t /\ refusals vars t /\ (t_failed t = false -> NoDup U /\ Forall (fun i => i < length vars) U) /\
  ((t_failed t = true \/ progressed d t = true) /\ staged_body vars vals d s m = mk_effect t (map Z.of_nat U) m Enable \/
   t_failed t = false /\ progressed d t = false /\ t_domains t = d /\
   staged_body vars vals d s m = mk_effect (fst (gac_pass vars vals [] m t)) (map Z.of_nat U) (snd (gac_pass vars vals [] m t)) EnableButIdempotent).
Proof.
  intros Bs Hd Ld (U0 & -> & ND & Bo). unfold staged_body. rewrite to_of_nat. destruct (value_consistency vars d U0) as [U t] eqn:V.
  destruct (value_consistency_spec nv vars Bs d Hd Ld (pairwise vars) (fun _ H => H) False U0 U t ND Bo ltac:(tauto) V) as ((Ho & Fi) & _).
  exists U, t. split; [apply (honest_ext nv d (pairwise vars)); [intro; symmetry; apply separate_pairwise|assumption]|].
  split; [now apply (refusals_value_consistency vars d U0 U)|]. split; [intro F; destruct (Fi F); tauto|].
  destruct (t_failed t) eqn:F; cbn [orb]; [left; auto|]. destruct (progressed d t) eqn:P; [left; auto|]. right. split; [reflexivity|]. split; [reflexivity|].
  split; [apply (quiet_unchanged nv); auto; apply Ho|]. now destruct (gac_pass vars vals [] m t).
Qed.

Lemma staged_body_ok nv vars vals d0 (p : propagator) : Forall (var_below nv) vars -> NoDup vals -> listed vars vals [] d0 ->
  p_on_change p ++ p_on_bounds p ++ p_on_instantiated p ++ p_scope_only p = vars ->
  state_body_ok nv d0 (staged_own vars) (aliased p) (staged_body vars vals) vars (separate vars []).
Proof.
  intros Bs Nv L0 Po.
  assert (Dj : forall x, In x vals -> ~ In x []) by (intros x _ []).
  constructor.
  - intros d s m Hd Ld Id O. destruct (staged_body_cases nv vars vals d s m Bs Hd Ld O) as (U & t & Ho & R & _ & [(_ & ->)|(F & _ & E & ->)]); cbn [e_tracker]; [assumption|].
    apply gac_pass_honest; auto. rewrite E. now apply (listed_inside vars vals [] d0).
  - intros d s m Hd Ld Id O. destruct (staged_body_cases nv vars vals d s m Bs Hd Ld O) as (U & t & Ho & R & BU & [(_ & ->)|(F & _ & E & ->)]); cbn [e_tracker e_state]; intro F'.
    + exists U. split; [reflexivity|]. now apply BU.
    + exists U. split; [reflexivity|]. now apply BU.
  - intros d s m a Hd Ld Id O Fx. destruct (staged_body_cases nv vars vals d s m Bs Hd Ld O) as (U & t & Ho & R & _ & [([F|P] & ->)|(F & _ & E & ->)]); cbn [e_tracker]; intro Lv.
    + exfalso. destruct Lv as (_ & F' & _). congruence.
    + exfalso. destruct Lv as (_ & F' & _). rewrite (fixed_quiet nv vars) in P; auto; [discriminate|apply Ho].
    + revert Lv. apply gac_pass_checks with (sat := separate vars []); auto. now rewrite E.
  - intros d s m a Hd Ld Id O Na. destruct (staged_body_cases nv vars vals d s m Bs Hd Ld O) as (U & t & Ho & R & _ & [(_ & ->)|(F & _ & E & ->)]); cbn [e_tracker e_result]; [discriminate|].
    intros _. apply gac_pass_claims with (sat := separate vars []); auto; [|now apply (not_aliased p)]. rewrite E. now apply (listed_inside vars vals [] d0).
  - intros d s m a Hd Ld Id O Rs. exfalso. destruct (staged_body_cases nv vars vals d s m Bs Hd Ld O) as (U & t & Ho & R & _ & [(_ & E)|(F & _ & _ & E)]); rewrite E in Rs; discriminate.
Qed.

(** ** Values *)

Lemma add_value_In vals x y : In y (add_value vals x) <-> In y vals \/ y = x.
Proof.
  unfold add_value. destruct (existsb (Z.eqb x) vals) eqn:E.
  - apply existsb_exists in E. destruct E as (z & I & E). apply Z.eqb_eq in E. subst z. split; [auto|]. intros [J| ->]; assumption.
  - rewrite in_app_iff. simpl. intuition.
Qed.

Lemma add_value_NoDup vals x : NoDup vals -> NoDup (add_value vals x).
Proof.
  intro N. unfold add_value. destruct (existsb (Z.eqb x) vals) eqn:E; [assumption|]. apply NoDup_app_disj; [assumption|repeat constructor; simpl; tauto|].
  intros y I [<-|[]]. assert (existsb (Z.eqb x) vals = true); [|congruence]. apply existsb_exists. exists x. split; [assumption|apply Z.eqb_refl].
Qed.

Lemma add_values l : forall acc, NoDup acc -> NoDup (fold_left add_value l acc) /\ forall y, In y (fold_left add_value l acc) <-> In y acc \/ In y l.
Proof.
  induction l as [|x r IH]; intros acc N; simpl; [split; [assumption|]; intros; tauto|].
  destruct (IH (add_value acc x) (add_value_NoDup acc x N)) as [H1 H2]. split; [assumption|]. intro y. rewrite H2, add_value_In. intuition.
Qed.

Lemma mem_In x l : existsb (Z.eqb x) l = true <-> In x l.
Proof. rewrite existsb_exists. split; [intros (y & I & E); apply Z.eqb_eq in E; now subst|]. intro I. exists x. split; [assumption|apply Z.eqb_refl]. Qed.

Lemma values_met_NoDup d vars excluded : NoDup (values_met d vars excluded).
Proof. apply add_values. constructor. Qed.

Lemma values_met_In d vars excluded x : In x (values_met d vars excluded) <-> ~ In x excluded /\ exists v, In v vars /\ In x (each_value d v).
Proof.
  unfold values_met. rewrite (proj2 (add_values _ [] (NoDup_nil _))), filter_In, in_flat_map, negb_true_iff, <- not_true_iff_false, mem_In. simpl. tauto.
Qed.

Lemma values_met_listed nv d vars excluded : Forall (var_below nv) vars -> domains_ok d -> length d = nv -> listed vars (values_met d vars excluded) excluded d.
Proof.
  intros Bs Hd Ld a i Wa Hi. destruct (in_dec Z.eq_dec (var_value a (handle vars i)) excluded) as [I|N]; [now right|left]. apply values_met_In. split; [assumption|].
  exists (handle vars i). split; [now apply nth_In|]. apply value_listed; auto. apply (var_below_known nv); [assumption|]. now apply handle_below.
Qed.

(** ** Posting *)

Lemma positions_only (l : list var_id) : l ++ [] ++ [] ++ [] = l.
Proof. simpl. apply app_nil_r. Qed.

Lemma all_different_means d0 vars : Forall (var_known d0) vars -> means d0 (all_different vars) vars (fun a => NoDup (map (var_value a) vars)).
Proof.
  intros K. assert (B : Forall (var_below (length d0)) vars) by now apply known_below_all.
  destruct (adjacent_equal (sort_vars vars)) eqn:Dup.
  - assert (N : ~ NoDup vars) by (intro N; apply duplicates_found in N; congruence).
    destruct (duplicate_means d0 vars K N) as (M1 & M2 & M3). split; [assumption|]. split; [assumption|]. intros hidden cs Hd. destruct (M3 hidden cs Hd) as (sol & Own & M).
    exists sol, Own. unfold all_different. rewrite Dup. exact M.
  - split; [assumption|]. split; [now apply different_local|]. intros hidden cs Hd.
    set (sv := sort_vars vars) in *. assert (P : Permutation sv vars) by apply sort_vars_perm.
    assert (Bs : Forall (var_below (length d0)) sv) by now apply (Permutation_Forall (Permutation_sym P)).
    assert (Le : length d0 <= length (d0 ++ hidden)) by (unfold domains, iset in *; rewrite app_length; lia).
    assert (Bh : forall nv, length (d0 ++ hidden) <= nv -> Forall (var_below nv) sv).
    { intros nv Ln. eapply Forall_impl; [|exact Bs]. intros v. apply below_more. lia. }
    assert (Bv : Forall (var_below (length (d0 ++ hidden))) vars) by (eapply Forall_impl; [|exact B]; intros v; now apply below_more).
    set (vals := values_met (d0 ++ hidden) sv []).
    assert (L0 : listed sv vals [] (d0 ++ hidden)) by (now apply (values_met_listed (length (d0 ++ hidden))); [apply Bh| |]).
    assert (Eq : forall a, NoDup (map (var_value a) vars) <-> separate sv [] a) by (intro a; rewrite separate_pairwise; symmetry; apply sorted_pairwise).
    destruct (is_staged sv vals) eqn:St.
    + exists (fun a => NoDup (map (var_value a) vars)), (owned (length cs) (staged_own sv)). unfold all_different. cbv zeta. fold sv. rewrite Dup. match goal with |- context [values_met ?x sv []] => change (values_met x sv []) with vals end. rewrite St.
      apply state_installs; auto.
      * now apply different_local.
      * cbn [app]. rewrite app_nil_r. intros v I. now apply (Permutation_in _ (Permutation_sym P)).
      * intros more Hm. exists (initially_unassigned sv (d0 ++ hidden)). split; [reflexivity|]. unfold initially_unassigned. split; [apply NoDup_filter, seq_NoDup|].
        apply Forall_forall. intros i I. apply filter_In in I. destruct I as [I _]. apply in_seq in I. lia.
      * intros nv Ln. apply (state_body_ok_ext _ _ _ _ _ sv vars (separate sv [])).
        -- intro a. symmetry. apply Eq.
        -- intros v I. now apply (Permutation_in _ P).
        -- apply staged_body_ok; auto; [apply values_met_NoDup|apply positions_only].
    + assert (C : means d0 (simple_at 0 (fun d => if adjacent_equal sv then ([], []) else ([memo_propagator (gac_body sv (values_met d sv [])) sv [] []], []))) vars (fun a => NoDup (map (var_value a) vars))).
      { rewrite Dup. apply simple_means; [lia|now apply different_local|assumption|]. clear - Bs P Eq B.
        intros hidden Hd. assert (Le : length d0 <= length (d0 ++ hidden)) by (unfold domains, iset in *; rewrite app_length; lia).
        apply (one_memo_correct _ _ (gac_body sv (values_met (d0 ++ hidden) sv [])) sv vars (separate sv [])); auto.
        - eapply Forall_impl; [|exact B]. intros v Bv. apply (var_below_known (length (d0 ++ hidden))); [reflexivity|]. now apply (below_more (length d0)).
        - intros v I. now apply (Permutation_in _ (Permutation_sym P)).
        - intros nv m Ln.
          assert (Bh : Forall (var_below nv) sv) by (eapply Forall_impl; [|exact Bs]; intros v; apply below_more; unfold domains, iset in *; lia).
          assert (Bl : Forall (var_below (length (d0 ++ hidden))) sv) by (eapply Forall_impl; [|exact Bs]; intros v; now apply below_more).
          apply (body_ok_incl _ _ _ _ sv); [intros v I; now apply (Permutation_in _ P)|].
          apply (gac_body_ok nv sv (values_met (d0 ++ hidden) sv []) [] Bh (values_met_NoDup _ _ _)); auto; [|apply positions_only].
          now apply (values_met_listed (length (d0 ++ hidden))). }
      destruct C as (_ & _ & C). destruct (C hidden cs Hd) as (sol & Own & M). exists sol, Own. unfold all_different. cbv zeta. fold sv. rewrite Dup. match goal with |- context [values_met ?x sv []] => change (values_met x sv []) with vals end. rewrite St.
      rewrite Dup in M. unfold simple_at in M. exact M.
Qed.

(** ** Consistency *)

Lemma domain_consistent_ext d vs vs' (sat sat' : assignment -> Prop) : incl vs' vs -> (forall a, sat a -> sat' a) -> domain_consistent d vs sat -> domain_consistent d vs' sat'.
Proof. intros I S C v x Iv E. destruct (C v x (I v Iv) E) as (a & W & V & Sa). exists a. auto. Qed.

Lemma underlying_list_perm l l' : Permutation l l' -> Permutation (underlying_list l) (underlying_list l').
Proof.
  induction 1 as [|x l l' P IH|x y l|l l1 l2 P1 IH1 P2 IH2].
  - constructor.
  - change (x :: l) with ([x] ++ l). change (x :: l') with ([x] ++ l'). rewrite !underlying_list_app. now apply Permutation_app_head.
  - change (y :: x :: l) with ([y] ++ [x] ++ l). change (x :: y :: l) with ([x] ++ [y] ++ l). rewrite !underlying_list_app, !app_assoc. apply Permutation_app_tail, Permutation_app_comm.
  - now transitivity (underlying_list l1).
Qed.

Lemma all_different_consistent d0 cs vars p : domains_ok d0 -> Forall (var_known d0) vars -> NoDup (underlying_list vars) ->
  in_states (all_different vars d0 cs) = [] -> in_props (all_different vars d0 cs) = [p] ->
  forall D, ConsistencySpec.outcome (length d0) (fun d _ => inside d0 d) p D -> domain_consistent D vars (fun a => NoDup (map (var_value a) vars)).
Proof.
  intros Hd0 K Ua. unfold all_different. cbv zeta. set (sv := sort_vars vars). assert (P : Permutation sv vars) by apply sort_vars_perm.
  destruct (adjacent_equal sv); [discriminate|]. set (vals := values_met d0 sv []). destruct (is_staged sv vals); [discriminate|]. intros _ [= <-] D (i & evs & (H1 & H2 & H3) & A).
  assert (Bs : Forall (var_below (length d0)) sv) by (apply (Permutation_Forall (Permutation_sym P)); now apply known_below_all).
  cbn [memo_propagator p_run] in A. unfold memo_run, gac_body in A. pose proof (values_met_NoDup d0 sv []) as Nv. fold vals in Nv.
  assert (L0 : listed sv vals [] (i_domains i)) by (apply (listed_inside sv vals [] d0); [assumption|]; now apply (values_met_listed (length d0))).
  assert (Dj : forall x, In x vals -> ~ In x []) by (intros x _ []).
  destruct (gac_pass sv vals [] (i_memo i) (track (i_domains i))) as [t m'] eqn:G. cbn [o_infer] in A.
  pose proof (gac_pass_honest (length d0) sv vals [] Bs Nv Dj (i_domains i) H1 H2 (track (i_domains i)) (honest_track _ _ _) eq_refl L0 (i_memo i)) as Ho. rewrite G in Ho. cbn [fst] in Ho.
  destruct (lg_apply _ _ _ (proj1 Ho)) as (ev & A'). rewrite A' in A. injection A as <- _ F.
  assert (Us : NoDup (underlying_list sv)) by (apply (Permutation_NoDup (Permutation_sym (underlying_list_perm _ _ P))); assumption).
  pose proof (gac_pass_consistent (length d0) sv vals [] Bs Nv Dj (i_domains i) H1 H2 (track (i_domains i)) (honest_track _ _ (fun _ => True)) eq_refl L0 Us (i_memo i)) as C. cbn zeta in C. rewrite G in C. cbn [fst] in C.
  apply (domain_consistent_ext _ sv vars (separate sv [])); [intros v I; now apply (Permutation_in _ (Permutation_sym P))| |now apply C].
  intros a S. apply sorted_pairwise. now apply separate_pairwise.
Qed.

Lemma staged_consistent d0 cs vars p s0 : domains_ok d0 -> Forall (var_known d0) vars -> NoDup (underlying_list vars) ->
  in_states (all_different vars d0 cs) = [s0] -> in_props (all_different vars d0 cs) = [p] ->
  forall i s D evs, lives p (length cs) d0 s0 (i_domains i) s -> nth_error (i_cstates i) (length cs) = Some s ->
    apply_lits (i_domains i) (o_infer (p_run p i)) = (D, evs, false) -> evs = [] \/ o_result (p_run p i) = EnableButIdempotent ->
    domain_consistent D vars (fun a => NoDup (map (var_value a) vars)).
Proof.
  intros Hd0 K Ua. unfold all_different. cbv zeta. set (sv := sort_vars vars). assert (P : Permutation sv vars) by apply sort_vars_perm.
  destruct (adjacent_equal sv); [discriminate|]. set (vals := values_met d0 sv []). destruct (is_staged sv vals); [|discriminate]. cbn [in_states in_props]. intros [= <-] [= <-] i s D evs L E A Q.
  assert (Bs : Forall (var_below (length d0)) sv) by (apply (Permutation_Forall (Permutation_sym P)); now apply known_below_all).
  pose proof (values_met_NoDup d0 sv []) as Nv. fold vals in Nv.
  assert (L0 : listed sv vals [] d0) by (now apply (values_met_listed (length d0))).
  assert (Dj : forall x, In x vals -> ~ In x []) by (intros x _ []).
  assert (Us : NoDup (underlying_list sv)) by (apply (Permutation_NoDup (Permutation_sym (underlying_list_perm _ _ P))); assumption).
  set (p := state_propagator (length cs) (staged_body sv vals) sv [] []) in *.
  pose proof (staged_body_ok (length d0) sv vals d0 p Bs Nv L0 (positions_only sv)) as Ok.
  destruct (lives_own (length d0) d0 (staged_body sv vals) (map Z.of_nat (initially_unassigned sv d0)) (length cs) (staged_own sv) (aliased p) sv (separate sv []) sv [] [] Hd0 eq_refl) with (D := i_domains i) (s := s)
    as (H1 & H2 & H3 & O); auto.
  { exists (initially_unassigned sv d0). split; [reflexivity|]. unfold initially_unassigned. split; [apply NoDup_filter, seq_NoDup|].
    apply Forall_forall. intros k I. apply filter_In in I. destruct I as [I _]. apply in_seq in I. lia. }
  cbn [p state_propagator p_run state_run o_infer o_result] in A, Q. rewrite (nth_error_nth _ _ _ E) in A, Q.
  destruct (staged_body_cases (length d0) sv vals (i_domains i) s (i_memo i) Bs H1 H2 O) as (U & t & Ho & _ & _ & [(Pr & Es)|(F & _ & Et & Es)]); rewrite Es in A, Q; cbn [e_tracker e_result] in A, Q.
  - exfalso. destruct Q as [->|Q]; [|discriminate Q]. destruct Pr as [Pr|Pr].
    + destruct (lg_apply _ _ _ (proj1 Ho)) as (ev & A'). rewrite A' in A. injection A as _ _ F. congruence.
    + unfold progressed in Pr. rewrite A in Pr. discriminate.
  - assert (Lt : listed sv vals [] (t_domains t)) by (rewrite Et; now apply (listed_inside sv vals [] d0)).
    pose proof (gac_pass_honest (length d0) sv vals [] Bs Nv Dj (i_domains i) H1 H2 t Ho F Lt (i_memo i)) as Hg.
    destruct (lg_apply _ _ _ (proj1 Hg)) as (ev & A'). rewrite A' in A. injection A as <- _ F'.
    pose proof (gac_pass_consistent (length d0) sv vals [] Bs Nv Dj (i_domains i) H1 H2 t Ho F Lt Us (i_memo i) F') as C.
    apply (domain_consistent_ext _ sv vars (separate sv [])); [intros v I; now apply (Permutation_in _ (Permutation_sym P))| |now apply C].
    intros a S. apply sorted_pairwise. now apply separate_pairwise.
Qed.

(** ** AllDifferentExcept *)

Definition counted (excluded : list Z) (x : Z) : bool := negb (existsb (Z.eqb x) excluded).

Lemma counted_spec excluded x : counted excluded x = true <-> ~ In x excluded.
Proof. unfold counted. rewrite negb_true_iff, <- not_true_iff_false, mem_In. tauto. Qed.

(** The relation, without positions. *)
Definition apart (vars : list var_id) (excluded : list Z) (a : assignment) : Prop :=
  (forall v w, In v vars -> In w vars -> v <> w -> var_value a v = var_value a w -> In (var_value a v) excluded) /\
  (forall v, 1 < length (filter (var_eqb v) vars) -> In (var_value a v) excluded).

Lemma var_eqb_spec v w : var_eqb v w = true <-> v = w.
Proof.
  destruct v as [n|n b x|x], w as [m|m c y|y]; simpl; try (split; [discriminate|congruence]).
  - rewrite Nat.eqb_eq. split; congruence.
  - rewrite !andb_true_iff, Nat.eqb_eq, Z.eqb_eq, Bool.eqb_true_iff. split; [intros [[-> ->] ->]; reflexivity|]. intros [= -> -> ->]. auto.
  - rewrite Z.eqb_eq. split; congruence.
Qed.

Lemma apart_NoDup vars excluded a : apart vars excluded a <-> NoDup (filter (counted excluded) (map (var_value a) vars)).
Proof.
  induction vars as [|v r IH].
  - split; [constructor|]. intros _. split; [intros ? ? []|]. simpl. lia.
  - assert (X : apart (v :: r) excluded a <-> apart r excluded a /\ (In (var_value a v) (map (var_value a) r) -> In (var_value a v) excluded)).
    { split.
      - intros [A B]. split; [split|].
        + intros u w Iu Iw. apply A; now right.
        + intros u H. apply B. simpl. destruct (var_eqb u v); simpl; lia.
        + intro I. apply in_map_iff in I. destruct I as (w & E & Iw). destruct (var_eqb v w) eqn:Ev.
          * apply var_eqb_spec in Ev. subst w. apply B. simpl. rewrite (proj2 (var_eqb_spec v v) eq_refl). simpl.
            assert (In v (filter (var_eqb v) r)) as J by (apply filter_In; split; [assumption|now apply var_eqb_spec]). destruct (filter (var_eqb v) r); [destruct J|simpl; lia].
          * apply (A v w); [now left|now right| |now symmetry]. intro Eq. apply var_eqb_spec in Eq. congruence.
      - intros [[A B] C]. split.
        + intros u w [<-|Iu] [<-|Iw] N E; [congruence| | |now apply (A u w)].
          * apply C. rewrite E. now apply in_map.
          * rewrite E. apply C. rewrite <- E. now apply in_map.
        + intros u H. simpl in H. destruct (var_eqb u v) eqn:Ev; [|now apply B]. apply var_eqb_spec in Ev. subst u. simpl in H. apply C.
          destruct (filter (var_eqb v) r) as [|w l] eqn:F; [simpl in H; lia|]. assert (J : In w (filter (var_eqb v) r)) by (rewrite F; now left).
          apply filter_In in J. destruct J as [J E]. apply var_eqb_spec in E. subst w. now apply in_map. }
    rewrite X, IH. simpl. destruct (counted excluded (var_value a v)) eqn:C.
    + apply counted_spec in C. rewrite NoDup_cons_iff, filter_In, counted_spec. tauto.
    + assert (In (var_value a v) excluded) by (destruct (in_dec Z.eq_dec (var_value a v) excluded) as [|N]; [assumption|apply counted_spec in N; congruence]). tauto.
Qed.

Lemma once vars v : NoDup vars -> ~ 1 < length (filter (var_eqb v) vars).
Proof.
  intro N. induction N as [|w r I N IH]; simpl; [lia|]. destruct (var_eqb v w) eqn:E; [|assumption].
  apply var_eqb_spec in E. subst w. simpl. intro H. destruct (filter (var_eqb v) r) as [|u l] eqn:F; [simpl in H; lia|].
  assert (J : In u (filter (var_eqb v) r)) by (rewrite F; now left). apply filter_In in J. destruct J as [J E]. apply var_eqb_spec in E. now subst u.
Qed.

(** With distinct variables positions are as good. *)
Lemma apart_separate vars excluded a : NoDup vars -> (apart vars excluded a <-> separate vars excluded a).
Proof.
  intro N. split.
  - intros [A _] i k Hi Hk Ne E. apply (A (handle vars i) (handle vars k)); auto; [now apply nth_In|now apply nth_In|].
    intro Eq. apply Ne. exact (proj1 (NoDup_nth vars (VConst 0)) N i k Hi Hk Eq).
  - intro S. split.
    + intros v w Iv Iw Ne E. apply (In_nth _ _ (VConst 0)) in Iv, Iw. destruct Iv as (i & Hi & <-), Iw as (k & Hk & <-). apply (S i k Hi Hk); [congruence|assumption].
    + intros v H. destruct (once vars v N H).
Qed.

Lemma filter_perm {X} (f : X -> bool) l l' : Permutation l l' -> Permutation (filter f l) (filter f l').
Proof.
  induction 1 as [|x l l' P IH|x y l|l l1 l2 P1 IH1 P2 IH2]; simpl; auto.
  - destruct (f x); auto.
  - destruct (f x), (f y); auto. apply perm_swap.
  - now transitivity (filter f l1).
Qed.

Lemma apart_perm vars vars' excluded a : Permutation vars vars' -> apart vars excluded a -> apart vars' excluded a.
Proof.
  intros P [A B]. split.
  - intros v w Iv Iw. apply A; now apply (Permutation_in _ (Permutation_sym P)).
  - intros v H. apply B. now rewrite (Permutation_length (filter_perm _ _ _ P)).
Qed.

Lemma drop_repeats_In l v : In v (drop_repeats l) <-> In v l.
Proof.
  induction l as [|x r IH]; [simpl; tauto|]. destruct r as [|y r]; [simpl; tauto|]. change (drop_repeats (x :: y :: r)) with (if var_eqb x y then drop_repeats (y :: r) else x :: drop_repeats (y :: r)).
  destruct (var_eqb x y) eqn:E.
  - apply var_eqb_spec in E. subst y. rewrite IH. simpl. tauto.
  - simpl. rewrite IH. simpl. tauto.
Qed.

Lemma drop_repeats_NoDup l : ascending l -> NoDup (drop_repeats l).
Proof.
  induction l as [|x r IH]; intro A; [constructor|]. destruct r as [|y r]; [repeat constructor; simpl; tauto|].
  change (drop_repeats (x :: y :: r)) with (if var_eqb x y then drop_repeats (y :: r) else x :: drop_repeats (y :: r)). inversion A as [|? ? F Ar]; subst.
  destruct (var_eqb x y) eqn:E; [now apply IH|]. constructor; [|now apply IH]. rewrite drop_repeats_In. intro I.
  assert (x = y); [|subst y; rewrite (proj2 (var_eqb_spec x x) eq_refl) in E; discriminate].
  apply Forall_cons_iff in F. destruct F as [Lxy _]. destruct I as [->|I]; [reflexivity|]. inversion Ar as [|? ? Fy _]; subst. rewrite Forall_forall in Fy.
  apply var_leb_antisym; [assumption|now apply Fy].
Qed.

Lemma repeated_vars_In l v : In v (repeated_vars l) <-> 1 < length (filter (var_eqb v) l).
Proof.
  unfold repeated_vars. rewrite filter_In, drop_repeats_In, Nat.ltb_lt. split; [tauto|]. intro H. split; [|assumption].
  destruct (filter (var_eqb v) l) as [|u r] eqn:F; [simpl in H; lia|]. assert (J : In u (filter (var_eqb v) l)) by (rewrite F; now left).
  apply filter_In in J. destruct J as [J E]. apply var_eqb_spec in E. now subst u.
Qed.

Lemma apart_split l excluded a : ascending l ->
  (apart l excluded a <-> separate (drop_repeats l) excluded a /\ forall v, In v (repeated_vars l) -> In (var_value a v) excluded).
Proof.
  intro As. rewrite <- apart_separate by now apply drop_repeats_NoDup. split.
  - intros [A B]. split; [split|].
    + intros v w Iv Iw. apply A; now apply drop_repeats_In.
    + intros v H. destruct (once _ v (drop_repeats_NoDup l As) H).
    + intros v I. apply B. now apply repeated_vars_In.
  - intros [[A _] B]. split.
    + intros v w Iv Iw. apply A; now apply drop_repeats_In.
    + intros v H. apply B. now apply repeated_vars_In.
Qed.

(** Only excluded values that a variable can take matter. *)
Lemma usable_excluded_In d vars excluded v a : domains_ok d -> Forall (var_known d) vars -> In v vars -> within a d ->
  (In (var_value a v) (usable_excluded d vars excluded) <-> In (var_value a v) excluded).
Proof.
  intros Hd K I Wa. unfold usable_excluded. rewrite filter_In, existsb_exists. split; [tauto|]. intro E. split; [assumption|]. exists v. split; [assumption|].
  apply value_in_domain; auto. rewrite Forall_forall in K. now apply K.
Qed.

Lemma apart_excluded vars excluded excluded' a : (forall v, In v vars -> (In (var_value a v) excluded <-> In (var_value a v) excluded')) -> apart vars excluded a -> apart vars excluded' a.
Proof.
  intros E [A B]. split.
  - intros v w Iv Iw N Eq. apply E; [assumption|]. now apply (A v w).
  - intros v H. apply E; [|now apply B]. apply repeated_vars_In in H. apply filter_In in H. now apply drop_repeats_In.
Qed.

(** Forcing. *)
Lemma force_excluded_spec nv d repeated excluded (sat : assignment -> Prop) : domains_ok d -> length d = nv -> Forall (var_below nv) repeated ->
  (forall a, within a d -> sat a -> forall v, In v repeated -> In (var_value a v) excluded) ->
  honest nv d sat (force_excluded repeated excluded d) /\
  forall a, live nv d (force_excluded repeated excluded d) a -> forall v, In v repeated -> In (var_value a v) excluded.
Proof.
  intros Hd Ld B S. unfold force_excluded. rewrite Forall_forall in B.
  set (f := fun v t => for_each (filter (fun x => negb (existsb (Z.eqb x) excluded)) (each_value (t_domains t) v)) (tell_ne v) t).
  assert (Ho : forall v t, In v repeated -> honest nv d sat t -> honest nv d sat (f v t)).
  { intros v t I H. apply honest_for_each; auto. intros x u Ix Hu. apply honest_tell; auto; [simpl; now apply B|]. intros _ _ _ a Wa _ Sa. simpl. unfold cond_holds; simpl. intro E.
    apply filter_In in Ix. destruct Ix as [_ Ix]. apply counted_spec in Ix. apply Ix. rewrite <- E. now apply (S a Wa Sa). }
  split; [apply honest_for_each; auto; now apply honest_track|].
  intros a Lv v Iv.
  assert (Bk : forall w t, In w repeated -> legit nv d t -> legit nv d (f w t)).
  { intros w t I H. apply legit_for_each; [|assumption]. intros x u _ G. apply legit_tell; auto. simpl. now apply B. }
  apply (for_each_back nv d (fun w => In (var_value a w) excluded) a repeated) in Lv.
  - destruct Lv as [_ F]. rewrite Forall_forall in F. now apply F.
  - intros w t I G. now apply Bk.
  - intros w t I G L. unfold f in L.
    apply (for_each_back nv d (fun x => var_value a w <> x) a _) in L.
    + destruct L as [Lt F]. split; [assumption|]. destruct (in_dec Z.eq_dec (var_value a w) excluded) as [|N]; [assumption|exfalso].
      rewrite Forall_forall in F. apply (F (var_value a w)); [|reflexivity]. apply filter_In. split; [|now apply counted_spec].
      destruct Lt as (Gt & Ft & Wt). apply value_listed; auto; [now apply (legit_ok nv d)|]. apply (var_below_known nv); [now apply (legit_length nv d)|now apply B].
    + intros x u _ Gu. apply legit_tell; auto. simpl. now apply B.
    + intros x u _ Gu Lu. exact (tell_back nv d Hd Ld _ u a (B w I : lit_below nv (LCond (cond_ne w x))) Gu Lu).
    + assumption.
  - now apply legit_track.
Qed.

Lemma except_local vars excluded n : Forall (var_below n) vars -> local n (fun a => NoDup (filter (counted excluded) (map (var_value a) vars))).
Proof.
  intros B a a' S. rewrite (map_ext_in (var_value a) (var_value a') vars); [auto|]. intros v I. apply (same_below_value n); [assumption|]. rewrite Forall_forall in B. now apply B.
Qed.

Lemma supports_scope nv (Inv : domains -> list cstate -> Prop) p scope scope' sat part : incl scope scope' -> supports nv Inv p scope sat part -> supports nv Inv p scope' sat part.
Proof.
  intros I (W & So & ok & dead & Wk & C). split; [assumption|]. split; [assumption|]. exists ok, dead. split; [assumption|]. intros d Hd L H F. apply (C d Hd L H).
  rewrite Forall_forall in *. auto.
Qed.

Lemma all_different_except_correct d0 vars excluded : domains_ok d0 -> Forall (var_known d0) vars ->
  correct_on d0 (all_different_except vars excluded) vars (fun a => NoDup (filter (counted excluded) (map (var_value a) vars))).
Proof.
  intros Hd0 K. set (sv := sort_vars vars). assert (P : Permutation sv vars) by apply sort_vars_perm.
  assert (Ks : Forall (var_known d0) sv) by now apply (Permutation_Forall (Permutation_sym P)).
  set (ex := usable_excluded d0 sv excluded). set (vals := values_met d0 sv ex).
  assert (Eq : forall a, NoDup (filter (counted excluded) (map (var_value a) vars)) <-> apart sv excluded a).
  { intro a. rewrite <- apart_NoDup. split; apply apart_perm; [now symmetry|assumption]. }
  assert (Us : forall a, within a d0 -> (apart sv excluded a <-> apart sv ex a)).
  { intros a Wa. split; apply apart_excluded; intros v I; [symmetry|]; now apply usable_excluded_In. }
  assert (Bk : forall nv, length d0 <= nv -> Forall (var_below nv) vars) by (intros nv Ln; eapply Forall_impl; [|exact K]; intros v Kv; now apply (known_below_more d0)).
  assert (Vv : forall l, incl sv l -> incl l sv -> forall nv, length d0 <= nv -> Forall (var_below nv) l /\ listed l vals ex d0).
  { intros l I1 I2 nv Ln.
    assert (Bl : forall m, length d0 <= m -> Forall (var_below m) l) by (intros m Lm; rewrite Forall_forall in *; intros v I; apply (proj1 (Forall_forall _ _) (Bk m Lm)); apply (Permutation_in _ P); auto).
    split; [now apply Bl|]. intros a i Wa Hi. destruct (in_dec Z.eq_dec (var_value a (handle l i)) ex) as [I|N]; [now right|left]. apply values_met_In. split; [assumption|].
    exists (handle l i). assert (J : In (handle l i) sv) by (apply I2; now apply nth_In). split; [assumption|]. apply value_listed; auto. rewrite Forall_forall in Ks. now apply Ks. }
  assert (Dj : forall x, In x vals -> ~ In x ex) by (intros x I; now apply values_met_In in I).
  apply (correct_intro _ _ _ (apart sv excluded)); auto. intros nv Inv Ln St I0. unfold all_different_except. cbv zeta. fold sv ex vals.
  split; [now apply Bk|].
  destruct (adjacent_equal sv) eqn:Dup.
  - assert (Nd : ~ NoDup sv) by (intro N; apply adjacent_equal_spec in N; [congruence|apply sort_vars_ascending]).
    destruct (list_eq_dec Z.eq_dec excluded []) as [E|N].
    + rewrite E. cbn [fst snd]. assert (No : forall a, ~ apart sv [] a).
      { intros a [A B]. apply Nd. clear - B. induction sv as [|v r IH]; [constructor|]. constructor.
        - intro I. apply (B v). simpl. rewrite (proj2 (var_eqb_spec v v) eq_refl). simpl. assert (J : In v (filter (var_eqb v) r)) by (apply filter_In; split; [assumption|now apply var_eqb_spec]).
          destruct (filter (var_eqb v) r); [destruct J|simpl; lia].
        - apply IH. intros u H. apply (B u). simpl. destruct (var_eqb u v); simpl; lia. }
      exists [], [fun _ => False]. split; [constructor|]. split; [|intros a _ _ F; apply Forall_inv in F; destruct F].
      constructor; [|constructor]. apply (body_initialises nv d0); auto.
      * intros d Hd Ld Id. apply legit_tell; [exact Logic.I|apply legit_track].
      * intros d a Hd Ld Id Wa Sa. destruct (No a Sa).
      * intros d a Hd Ld Id F. discriminate F.
    + assert (M : forall A B : list propagator * list initialiser, match excluded with [] => A | _ :: _ => B end = B) by (intros A B; destruct excluded; [congruence|reflexivity]).
      rewrite M. cbn [fst snd]. set (ds := drop_repeats sv). pose proof (sort_vars_ascending vars) as As. fold sv in As.
      assert (I1 : incl sv ds) by (intros v I; unfold ds; apply drop_repeats_In; assumption). assert (I2 : incl ds sv) by (intros v I; revert I; apply drop_repeats_In).
      destruct (Vv ds I1 I2 nv Ln) as [Bd Ld0].
      exists [separate ds ex], [fun a => forall v, In v (repeated_vars sv) -> In (var_value a v) ex]. split; [|split].
      * constructor; [|constructor]. apply (supports_stronger nv d0 Inv _ _ (separate ds ex)); auto.
        { intros a Wa Sa. apply (Us a Wa) in Sa. now apply apart_split in Sa. }
        apply (supports_scope nv Inv _ ds); [intros v I; apply (Permutation_in _ P); now apply I2|].
        apply (memo_supports nv d0); auto; [apply incl_refl|]. intro m. apply except_body_ok; auto. apply values_met_NoDup.
      * assert (Br : Forall (var_below nv) (repeated_vars sv)).
        { apply Forall_forall. intros v I. apply filter_In in I. rewrite Forall_forall in Bd. now apply Bd. }
        assert (Sr : forall a, within a d0 -> apart sv excluded a -> forall v, In v (repeated_vars sv) -> In (var_value a v) ex) by (intros a Wa Sa; apply (Us a Wa) in Sa; now apply apart_split in Sa).
        constructor; [|constructor]. apply (body_initialises nv d0); auto.
        -- intros d Hd Ld Id. apply (force_excluded_spec nv d (repeated_vars sv) ex (apart sv excluded)); auto.
        -- intros d a Hd Ld Id Wa Sa. apply (force_excluded_spec nv d (repeated_vars sv) ex (apart sv excluded)); auto.
        -- intros d a Hd Ld Id F Wa. destruct (force_excluded_spec nv d (repeated_vars sv) ex (apart sv excluded)) as [[G _] S]; auto. apply S. split; auto.
      * intros a Wa F1 F2. apply Forall_inv in F1, F2. apply (Us a Wa). apply apart_split; auto.
  - assert (Nd : NoDup sv) by (apply adjacent_equal_spec; [apply sort_vars_ascending|assumption]).
    destruct (Vv sv (incl_refl _) (incl_refl _) nv Ln) as [Bs Ls]. cbn [fst snd].
    exists [separate sv ex], []. split; [|split; [constructor|]].
    + constructor; [|constructor]. apply (supports_stronger nv d0 Inv _ _ (separate sv ex)); auto.
      { intros a Wa Sa. apply (Us a Wa) in Sa. now apply apart_separate. }
      apply (supports_scope nv Inv _ sv); [intros v I; now apply (Permutation_in _ P)|].
      apply (memo_supports nv d0); auto; [apply incl_refl|]. intro m. apply except_body_ok; auto. apply values_met_NoDup.
    + intros a Wa F _. apply Forall_inv in F. apply (Us a Wa). now apply apart_separate.
Qed.

Lemma all_different_except_means d0 vars excluded : Forall (var_known d0) vars ->
  means d0 (simple (all_different_except vars excluded)) vars (fun a => NoDup (filter (counted excluded) (map (var_value a) vars))).
Proof.
  intro K. assert (B : Forall (var_below (length d0)) vars) by now apply known_below_all. apply simple_means; [lia|now apply except_local|assumption|].
  intros hidden Hd. apply all_different_except_correct; [assumption|]. eapply Forall_impl; [|exact B]. intros v Bv. apply (var_below_known (length (d0 ++ hidden))); [reflexivity|].
  apply (below_more (length d0)); [|assumption]. unfold domains, iset in *. rewrite app_length. lia.
Qed.

Lemma all_different_except_consistent d0 vars excluded p : domains_ok d0 -> Forall (var_known d0) vars -> NoDup vars -> NoDup (underlying_list vars) ->
  fst (all_different_except vars excluded d0) = [p] ->
  forall D, ConsistencySpec.outcome (length d0) (fun d _ => inside d0 d) p D -> domain_consistent D vars (fun a => NoDup (filter (counted excluded) (map (var_value a) vars))).
Proof.
  intros Hd0 K Nd Ua. unfold all_different_except. cbv zeta. set (sv := sort_vars vars). assert (P : Permutation sv vars) by apply sort_vars_perm.
  assert (Ks : Forall (var_known d0) sv) by now apply (Permutation_Forall (Permutation_sym P)).
  assert (Dup : adjacent_equal sv = false) by now apply duplicates_found. rewrite Dup.
  set (ex := usable_excluded d0 sv excluded). set (vals := values_met d0 sv ex). cbn [fst]. intros [= <-] D (i & evs & (H1 & H2 & H3) & A).
  assert (Bs : Forall (var_below (length d0)) sv) by now apply known_below_all.
  assert (Dj : forall x, In x vals -> ~ In x ex) by (intros x I; now apply values_met_In in I).
  cbn [memo_propagator p_run] in A. unfold memo_run, except_body in A. pose proof (values_met_NoDup d0 sv ex) as Nv. fold vals in Nv.
  assert (L0 : listed sv vals ex (i_domains i)) by (apply (listed_inside sv vals ex d0); [assumption|]; now apply (values_met_listed (length d0))).
  destruct (gac_pass sv vals ex (i_memo i) (track (i_domains i))) as [t m'] eqn:G. cbn [o_infer] in A.
  pose proof (gac_pass_honest (length d0) sv vals ex Bs Nv Dj (i_domains i) H1 H2 (track (i_domains i)) (honest_track _ _ _) eq_refl L0 (i_memo i)) as Ho. rewrite G in Ho. cbn [fst] in Ho.
  destruct (lg_apply _ _ _ (proj1 Ho)) as (ev & A'). rewrite A' in A. injection A as <- _ F.
  assert (Us : NoDup (underlying_list sv)) by (apply (Permutation_NoDup (Permutation_sym (underlying_list_perm _ _ P))); assumption).
  pose proof (gac_pass_consistent (length d0) sv vals ex Bs Nv Dj (i_domains i) H1 H2 (track (i_domains i)) (honest_track _ _ (fun _ => True)) eq_refl L0 Us (i_memo i)) as C. cbn zeta in C. rewrite G in C. cbn [fst] in C.
  specialize (C F). intros v x Iv E. destruct (C v x (Permutation_in _ (Permutation_sym P) Iv) E) as (a & Wa & V & S). exists a. split; [assumption|]. split; [assumption|].
  assert (W0 : within a d0) by (apply H3; now apply (legit_inside (length d0) (i_domains i) H1 H2 t (proj1 Ho) F)).
  apply apart_NoDup. apply (apart_perm sv); [assumption|]. apply apart_separate in S; [|apply (Permutation_NoDup (Permutation_sym P)); assumption].
  revert S. apply apart_excluded. intros w I. now apply usable_excluded_In.
Qed.

Lemma except_pairs excluded l : NoDup (filter (counted excluded) l) <-> ForallOrdPairs (fun x y => x = y -> In x excluded) l.
Proof.
  induction l as [|x r IH]; [split; constructor|]. simpl. destruct (counted excluded x) eqn:C.
  - apply counted_spec in C. rewrite NoDup_cons_iff, filter_In, counted_spec, IH. split.
    + intros [N F]. constructor; [|assumption]. apply Forall_forall. intros y I <-. exfalso. apply N. auto.
    + inversion 1 as [|? ? F O]; subst. split; [|assumption]. intros [I _]. rewrite Forall_forall in F. apply C. now apply (F x).
  - assert (I : In x excluded) by (destruct (in_dec Z.eq_dec x excluded) as [|N]; [assumption|apply counted_spec in N; congruence]). rewrite IH. split.
    + intro O. constructor; [|assumption]. apply Forall_forall. auto.
    + now inversion 1.
Qed.

Lemma except_pairs_correct d0 vars excluded : domains_ok d0 -> Forall (var_known d0) vars ->
  correct_on d0 (all_different_except vars excluded) vars (fun a => ForallOrdPairs (fun x y => x = y -> In x excluded) (map (var_value a) vars)).
Proof. intros Hd K. eapply correct_ext; [|now apply all_different_except_correct]. intro a. symmetry. apply except_pairs. Qed.

Lemma except_pairs_consistent d0 vars excluded p : domains_ok d0 -> Forall (var_known d0) vars -> NoDup vars -> NoDup (underlying_list vars) ->
  fst (all_different_except vars excluded d0) = [p] ->
  forall D, ConsistencySpec.outcome (length d0) (fun d _ => inside d0 d) p D ->
    domain_consistent D vars (fun a => ForallOrdPairs (fun x y => x = y -> In x excluded) (map (var_value a) vars)).
Proof.
  intros Hd K N Ua E D O. apply (domain_consistent_ext D vars vars (fun a => NoDup (filter (counted excluded) (map (var_value a) vars)))); [apply incl_refl| |].
  - intros a. apply except_pairs.
  - now apply (all_different_except_consistent d0 vars excluded p).
Qed.
