(** Lemmas about Circuit with strongly connected components. *)
From Coq Require Import ZArith List Bool Arith Lia Permutation.
From Verif Require Import IntervalSet IntervalSetSpec IntervalSetProofs Vars VarsSpec VarsProofs State StateSpec StateProofs Epochs
  Engine EngineSpec EngineProofs EngineQueueProofs SessionSpec SessionInvProofs Tracker ContractSpec ContractProofs RunProofs Solve SolveSpec SolveProofs
  Stateful StatefulSpec StatefulProofs AllDifferent AllDifferentSpec AllDifferentProofs Element ElementProofs EngineLoopProofs Inverse PartsProofs NValueProofs InverseProofs
  CircuitSpec Circuit TourProofs CircuitProofs TourSetProofs CircuitScc.
Import ListNotations.
Local Open Scope nat_scope.

(** ** Numbering *)

(** The nodes numbered so far, in that order. *)
Definition ordered (n : nat) (dt : scc_data) (order : list nat) : Prop :=
  length (dt_visit dt) = n /\ length (dt_low dt) = n /\ dt_count dt = Z.of_nat (length order) /\ NoDup order /\ Forall (fun x => x < n) order /\
  (forall k x, nth_error order k = Some x -> number dt x = Z.of_nat k) /\ forall x, x < n -> ~ In x order -> number dt x = (-1)%Z.

Lemma ordered_number n dt order x : ordered n dt order -> In x order -> exists k, nth_error order k = Some x /\ number dt x = Z.of_nat k /\ k < length order.
Proof.
  intros (_ & _ & _ & _ & _ & Nu & _) I. apply In_nth_error in I. destruct I as (k & E). exists k. split; [assumption|]. split; [now apply Nu|]. apply nth_error_Some. congruence.
Qed.

Lemma ordered_new n dt order x : ordered n dt order -> x < n -> (number dt x = (-1)%Z <-> ~ In x order).
Proof.
  intros O H. split.
  - intros E I. destruct (ordered_number n dt order x O I) as (k & _ & E' & _). lia.
  - now apply O.
Qed.

Lemma ordered_more n dt dt' order more x : ordered n dt order -> ordered n dt' (order ++ more) -> In x order -> number dt' x = number dt x.
Proof.
  intros O O' I. destruct (ordered_number n dt order x O I) as (k & E & -> & L). apply O'. now rewrite nth_error_app1.
Qed.

Lemma ordered_early n dt order k x : ordered n dt order -> In x order -> (In x (firstn k order) <-> (number dt x < Z.of_nat k)%Z).
Proof.
  intros O I. pose proof O as (_ & _ & _ & ND & _ & Nu & _). split.
  - intro J. apply In_nth_error in J. destruct J as (i & E). assert (Hi : i < length (firstn k order)) by (apply nth_error_Some; congruence).
    pose proof (firstn_length k order). rewrite nth_error_firstn' in E by lia. rewrite (Nu i x E). lia.
  - intro L. destruct (ordered_number n dt order x O I) as (i & E & En & Li). apply (nth_error_In _ i). rewrite nth_error_firstn'; [assumption|lia].
Qed.

Lemma ordered_late n dt before after x : ordered n dt (before ++ after) -> In x (before ++ after) -> (In x after <-> (Z.of_nat (length before) <= number dt x)%Z).
Proof.
  intros O I. destruct (ordered_number _ _ _ x O I) as (i & E & En & Li). rewrite En. destruct (Nat.lt_ge_cases i (length before)) as [L|L].
  - split; [|lia]. intro J. exfalso. apply In_nth_error in J. destruct J as (j & Ej). pose proof O as (_ & _ & _ & _ & _ & Nu & _).
    assert (E' : nth_error (before ++ after) (length before + j) = Some x) by (rewrite nth_error_app2 by lia; now replace (length before + j - length before) with j by lia).
    apply Nu in E'. lia.
  - split; [lia|]. intros _. rewrite nth_error_app2 in E by assumption. now apply nth_error_In in E.
Qed.

Lemma low_set_low n dt order x v y : ordered n dt order -> x < n -> low (set_low dt x v) y = if Nat.eqb y x then v else low dt y.
Proof.
  intros (_ & L & _) H. unfold low, set_low; cbn [dt_low]. destruct (Nat.eqb_spec y x) as [E|N].
  - subst y. rewrite nth_set_nth by lia. now rewrite Nat.eqb_refl.
  - now apply nth_set_nth_other.
Qed.

Lemma ordered_set_low n dt order x v : ordered n dt order -> ordered n (set_low dt x v) order.
Proof. intros (A & L & R). split; [assumption|]. split; [cbn [set_low dt_low]; now rewrite set_nth_length|exact R]. Qed.

(** The next number is given to a node. *)
Definition numbered (dt : scc_data) (node : nat) : scc_data :=
  mk_data (dt_count dt + 1) (set_nth (dt_low dt) node (dt_count dt)) (set_nth (dt_visit dt) node (dt_count dt)) (dt_start dt) (dt_end dt).

Lemma ordered_numbered n dt order x : ordered n dt order -> x < n -> ~ In x order ->
  ordered n (numbered dt x) (order ++ [x]) /\ low (numbered dt x) x = Z.of_nat (length order) /\ number (numbered dt x) x = Z.of_nat (length order) /\
  forall y, y <> x -> low (numbered dt x) y = low dt y.
Proof.
  intros (A & L & C & ND & Lt & Nu & Un) H N. unfold numbered. set (dt' := mk_data _ _ _ _ _).
  assert (Nx : number dt' x = Z.of_nat (length order)) by (unfold number, dt'; cbn [dt_visit]; rewrite nth_set_nth by lia; now rewrite Nat.eqb_refl, C).
  assert (Ny : forall y, y <> x -> number dt' y = number dt y) by (intros y Hy; unfold number, dt'; cbn [dt_visit]; now apply nth_set_nth_other).
  split; [|split; [|split]].
  - split; [cbn; now rewrite set_nth_length|]. split; [cbn; now rewrite set_nth_length|]. split; [cbn; rewrite app_length, C; cbn [length]; lia|].
    split; [now apply NoDup_snoc|]. split; [apply Forall_app; split; [assumption|now repeat constructor]|]. split.
    + intros k y E. destruct (Nat.lt_ge_cases k (length order)) as [Lk|Lk].
      * rewrite nth_error_app1 in E by assumption. rewrite Ny; [now apply Nu|]. intros ->. apply N. now apply nth_error_In in E.
      * rewrite nth_error_app2 in E by assumption. destruct (k - length order) as [|q] eqn:Q; [|destruct q; discriminate]. injection E as <-. rewrite Nx. f_equal. lia.
    + intros y Hy Ni. rewrite in_app_iff in Ni. rewrite Ny; [apply Un; [assumption|tauto]|]. intros ->. apply Ni. right. now left.
  - unfold low, dt'; cbn [dt_low]. rewrite nth_set_nth by lia. now rewrite Nat.eqb_refl, C.
  - exact Nx.
  - intros y Hy. unfold low, dt'; cbn [dt_low]. now apply nth_set_nth_other.
Qed.

Lemma pos_min_min a b : (0 <= a)%Z -> (0 <= b)%Z -> pos_min a b = Z.min a b.
Proof. intros Ha Hb. unfold pos_min. destruct (Z.eqb_spec b (-1)); [lia|]. destruct (Z.eqb_spec a (-1)); [lia|reflexivity]. Qed.

(** ** Ways *)

Lemma leads_trans D succ i j k : leads_to D succ i j -> leads_to D succ j k -> leads_to D succ i k.
Proof. intros P Q. induction P as [|i m j E P IH]; [assumption|]. eapply leads_on; eauto. Qed.

Lemma leads_edge D succ i j : may_follow D succ i j -> leads_to D succ i j.
Proof. intro E. eapply leads_on; [exact E|constructor]. Qed.

Lemma leads_snoc D succ i j k : leads_to D succ i j -> may_follow D succ j k -> leads_to D succ i k.
Proof. intros P E. eapply leads_trans; [exact P|now apply leads_edge]. Qed.

Lemma as_node_spec n x j : as_node n x = Some j <-> x = Z.of_nat j /\ j < n.
Proof.
  unfold as_node. destruct (Z.leb_spec 0 x), (Z.ltb_spec x (Z.of_nat n)); cbn [andb]; split; try discriminate; try (intros [-> L]; lia).
  - intro E. injection E as <-. lia.
  - intros [-> L]. now rewrite Nat2Z.id.
Qed.

Lemma node_values_In succ D i j : In j (node_values succ D i) <-> j < length succ /\ view_member D (handle succ i) (Z.of_nat j).
Proof.
  unfold node_values. rewrite in_flat_map. split.
  - intros (x & Ix & Ij). apply each_value_In in Ix. destruct (as_node (length succ) x) as [j'|] eqn:E; [|destruct Ij]. destruct Ij as [<-|[]]. apply as_node_spec in E. destruct E as [-> L]. now split.
  - intros [L V]. exists (Z.of_nat j). split; [now apply each_value_In|]. rewrite (proj2 (as_node_spec _ _ _) (conj eq_refl L)). now left.
Qed.

(** ** Exploring *)

Section Explore.
Variable nv : nat.
Variable succ : list var_id.
Hypothesis Bs : Forall (var_below nv) succ.
Let n := length succ.
Variable o : scc_options.
Variable d : domains.
Hypothesis Hd : domains_ok d.
Hypothesis Ld : length d = nv.
(** The tracker when the exploration starts. *)
Variable t0 : tracker.
Hypothesis G0 : legit nv d t0.
Hypothesis F0 : t_failed t0 = false.

Let leads := leads_to (t_domains t0) succ.

Definition after (t : tracker) : Prop := legit nv d t /\ forall b, live nv d t b -> live nv d t0 b.

Lemma after_tell l t : lit_below nv l -> after t -> after (tell l t).
Proof. intros B [G L]. split; [now apply legit_tell|]. intros b Lb. apply L. now apply (tell_back nv d Hd Ld l t b B G) in Lb. Qed.

Lemma after_edge t x w : after t -> t_failed t = false -> x < n -> In w (node_values succ (t_domains t) x) -> w < n /\ may_follow (t_domains t0) succ x w.
Proof.
  intros [G L] F Hx I. apply node_values_In in I. destruct I as [Hw M]. split; [exact Hw|]. split; [assumption|]. split; [assumption|].
  apply view_member_iff in M; [|now apply (legit_ok nv d)|apply (handle_known nv succ Bs d Hd Ld); assumption]. destruct M as (b & Wb & E).
  apply view_member_iff; [now apply (legit_ok nv d)|apply (handle_known nv succ Bs d Hd Ld); assumption|]. exists b. split; [|assumption]. apply (L b). split; [assumption|]. now split.
Qed.

Lemma live_tell_on l t a : lit_below nv l -> live nv d t a -> lit_holds a l -> live nv d (tell l t) a.
Proof.
  intros B (G & F & W) H. pose proof (legit_tell nv d l t B G) as G'. split; [assumption|]. apply (legit_within nv d Hd Ld t a G F) in W. destruct W as [Wd K].
  apply (keeps_alive nv d Hd Ld _ a G' Wd). now apply keeps_tell.
Qed.

Section Tour.
Variable a : assignment.
Hypothesis Ca : circuit succ a.
Let f := next_node succ a.

Lemma the_tour : tour n f.
Proof. apply circuit_tour in Ca. apply Ca. Qed.

Lemma the_value x : x < n -> var_value a (handle succ x) = Z.of_nat (f x).
Proof. intro H. apply (next_value succ a x (f x)); [apply Ca|assumption|reflexivity]. Qed.

Lemma still_there t x : live nv d t a -> x < n -> In (f x) (node_values succ (t_domains t) x).
Proof.
  intros (G & F & W) H. apply node_values_In. split; [apply the_tour; exact H|]. rewrite <- the_value by assumption.
  apply value_possible; [now apply (legit_ok nv d)|apply (handle_known nv succ Bs d Hd Ld); assumption|assumption].
Qed.

Lemma live_not_edge t x w : x < n -> live nv d t a -> f x <> w -> live nv d (tell_ne (handle succ x) (Z.of_nat w) t) a.
Proof.
  intros H L N. apply live_tell_on; [apply (handle_below nv succ Bs)|assumption|]. intro E. change (var_value a (handle succ x) = Z.of_nat w) in E. rewrite the_value in E by assumption. apply N. lia.
Qed.

Lemma live_edge t x w : x < n -> live nv d t a -> f x = w -> live nv d (tell_eq (handle succ x) (Z.of_nat w) t) a.
Proof.
  intros H L E. apply live_tell_on; [apply (handle_below nv succ Bs)|assumption|]. change (var_value a (handle succ x) = Z.of_nat w). rewrite the_value by assumption. now rewrite E.
Qed.
End Tour.

Section Subtree.
(** The nodes numbered before this subtree, and the numbers of the previous one. *)
Variable base : list nat.
Variable st : nat.
Variable en : Z.
Hypothesis Root : In root base.
Hypothesis Start : st <= length base.
Hypothesis End : (en < Z.of_nat (length base))%Z.

Definition no_skip (f : nat -> nat) : Prop := prune_skip o = true -> forall x, x < n -> ~ In x base -> ~ In (f x) (firstn st base).

(** What is known about the edge of a tour from [x]. *)
Definition edge_seen (f : nat -> nat) (dt : scc_data) (order : list nat) (back : list (nat * nat)) (lo : Z) (x : nat) : Prop :=
  In (f x) order /\ (lo <= number dt (f x))%Z /\ ((Z.of_nat st <= number dt (f x) <= en)%Z -> In (x, f x) back).

Definition lower (dt : scc_data) (order : list nat) (x : nat) : Prop := exists y, In y order /\ (number dt y < number dt x)%Z /\ leads x y.

Record outcome (order : list nat) (dt : scc_data) (t : tracker) (w : nat) (new : list nat) (dt' : scc_data) (t' : tracker) (back : list (nat * nat)) : Prop :=
  { oc_order : ordered n dt' (order ++ w :: new);
    oc_bounds : dt_start dt' = dt_start dt /\ dt_end dt' = dt_end dt;
    oc_low : forall x, In x order -> low dt' x = low dt x;
    oc_pos : (0 <= low dt' w)%Z;
    oc_after : after t';
    oc_quiet : no_pruning o -> t_failed t' = false -> t' = t;
    oc_tour : forall a, circuit succ a -> live nv d t a -> no_skip (next_node succ a) ->
      live nv d t' a /\ (low dt' w < number dt' w)%Z /\ forall x, In x (w :: new) -> edge_seen (next_node succ a) dt' (order ++ w :: new) back (low dt' w) x;
    oc_graph : t_failed t' = false -> (low dt' w < number dt' w)%Z /\
      (forall x, In x (w :: new) -> leads w x /\ lower dt' (order ++ w :: new) x) /\
      exists y, In y (order ++ w :: new) /\ number dt' y = low dt' w /\ leads w y }.

Definition explores (m : nat) (ex : nat -> scc_data -> tracker -> explored) : Prop :=
  forall rest dt t w, ordered n dt (base ++ rest) -> dt_start dt = Z.of_nat st -> dt_end dt = en -> after t -> t_failed t = false ->
    w < n -> ~ In w (base ++ rest) -> n <= m + length (base ++ rest) ->
    forall dt' t' back, ex w dt t = (dt', t', back) -> exists new, outcome (base ++ rest) dt t w new dt' t' back.

(** While the values of the successor of [node] are gone through. *)
Record part_way (order : list nat) (dt0 : scc_data) (tI : tracker) (node : nat) (done new : list nat) (dt : scc_data) (t : tracker) (back : list (nat * nat)) : Prop :=
  { pw_order : ordered n dt (order ++ node :: new);
    pw_bounds : dt_start dt = Z.of_nat st /\ dt_end dt = en;
    pw_low : forall x, In x order -> low dt x = low dt0 x;
    pw_pos : (0 <= low dt node <= number dt node)%Z;
    pw_after : after t;
    pw_quiet : no_pruning o -> t_failed t = false -> t = tI;
    pw_tour : forall a, circuit succ a -> live nv d tI a -> no_skip (next_node succ a) ->
      live nv d t a /\ forall x, In x new \/ x = node /\ In (next_node succ a node) done -> edge_seen (next_node succ a) dt (order ++ node :: new) back (low dt node) x;
    pw_graph : t_failed t = false -> (forall x, In x (node :: new) -> leads node x) /\ (forall x, In x new -> lower dt (order ++ node :: new) x) /\
      exists y, In y (order ++ node :: new) /\ number dt y = low dt node /\ leads node y }.

Lemma edge_seen_more f dt dt' order more back back' lo lo' x : ordered n dt order -> ordered n dt' (order ++ more) ->
  incl back back' -> (lo' <= lo)%Z -> edge_seen f dt order back lo x -> edge_seen f dt' (order ++ more) back' lo' x.
Proof.
  intros O O' Ib Le (I & L & Bk). pose proof (ordered_more n dt dt' order more (f x) O O' I) as E. split; [apply in_or_app; now left|]. rewrite E. split; [lia|]. intro R. apply Ib. now apply Bk.
Qed.

Lemma lower_more dt dt' order more x : ordered n dt order -> ordered n dt' (order ++ more) -> In x order -> lower dt order x -> lower dt' (order ++ more) x.
Proof.
  intros O O' Ix (y & Iy & Ly & P). exists y. split; [apply in_or_app; now left|]. now rewrite (ordered_more n dt dt' order more y O O' Iy), (ordered_more n dt dt' order more x O O' Ix).
Qed.

Lemma number_set_low dt x v y : number (set_low dt x v) y = number dt y.
Proof. reflexivity. Qed.

Lemma edge_seen_low f dt order back lo x v y : edge_seen f (set_low dt y v) order back lo x <-> edge_seen f dt order back lo x.
Proof. reflexivity. Qed.

Lemma lower_low dt order x v y : lower (set_low dt y v) order x <-> lower dt order x.
Proof. reflexivity. Qed.

Lemma each_edge_spec m ex rest dt0 tI node : explores m ex -> node < n -> n <= m + S (length (base ++ rest)) ->
  forall ws done new dt t back dt' t' back',
    (forall w, In w ws -> w < n /\ may_follow (t_domains t0) succ node w) ->
    part_way (base ++ rest) dt0 tI node done new dt t back ->
    each_edge ex o succ node ws dt t back = (dt', t', back') ->
    exists new' done', part_way (base ++ rest) dt0 tI node done' new' dt' t' back' /\ (t_failed t' = false -> done' = done ++ ws).
Proof.
  intros Ex Hn Le. set (order := base ++ rest) in *. induction ws as [|w ws IH]; intros done new dt t back dt' t' back' Hw P E; cbn [each_edge] in E.
  { injection E as <- <- <-. exists new, done. split; [assumption|]. now rewrite app_nil_r. }
  destruct (t_failed t) eqn:F.
  { injection E as <- <- <-. exists new, done. split; [assumption|]. congruence. }
  destruct (Hw w (or_introl eq_refl)) as [Lw Ew]. assert (Hw' : forall z, In z ws -> z < n /\ may_follow (t_domains t0) succ node z) by (intros z Iz; apply Hw; now right).
  assert (K : forall q, (done ++ [w]) ++ q = done ++ w :: q) by (intro q; now rewrite <- app_assoc).
  pose proof P as [Po [Ps Pe] Pl Pp Pa Pq Pt Pg]. set (O1 := order ++ node :: new) in *.
  assert (Inode : In node O1) by (apply in_or_app; right; now left).
  destruct (Z.eqb_spec (number dt w) (-1)) as [En|En].
  - (* another node *)
    destruct (ex w dt t) as [[dt1 t1] b] eqn:Exw. assert (Nw : ~ In w O1) by now apply (ordered_new n dt O1 w Po Lw).
    assert (As : O1 = base ++ (rest ++ node :: new)) by (unfold O1, order; now rewrite app_assoc).
    destruct (Ex (rest ++ node :: new) dt t w) with (dt' := dt1) (t' := t1) (back := b) as (nw & [Oo [Obs Obe] Ol Op Oa Oq Ot Og]); rewrite <- ?As; auto.
    { unfold O1. rewrite app_length. cbn [length]. fold order in Le. lia. }
    rewrite <- As in *.
    assert (Pm : pos_min (low dt1 node) (low dt1 w) = Z.min (low dt node) (low dt1 w)) by (rewrite (Ol node Inode); apply pos_min_min; lia). rewrite Pm in E.
    assert (Lset : forall y, low (set_low dt1 node (Z.min (low dt node) (low dt1 w))) y = if Nat.eqb y node then Z.min (low dt node) (low dt1 w) else low dt1 y) by (intro y; now apply (low_set_low n dt1 (O1 ++ w :: nw))).
    assert (As2 : order ++ node :: new ++ w :: nw = O1 ++ w :: nw) by (unfold O1; now rewrite <- app_assoc).
    set (lo := Z.min (low dt node) (low dt1 w)) in *. set (dt2 := set_low dt1 node lo) in *.
    assert (Lo2 : low dt2 node = lo) by (rewrite Lset; now rewrite Nat.eqb_refl).
    assert (Nn : number dt2 node = number dt node) by (unfold dt2; rewrite number_set_low; apply (ordered_more n dt dt1 O1 (w :: nw)); auto).
    apply (IH (done ++ [w]) (new ++ w :: nw)) in E; auto; [rewrite K in E; exact E|]. constructor; fold O1; rewrite ?As2.
    + now apply ordered_set_low.
    + unfold dt2. cbn [set_low dt_start dt_end]. now rewrite Obs, Obe.
    + intros x Ix. rewrite Lset. destruct (Nat.eqb_spec x node) as [Exn|Nx].
      * exfalso. subst x. destruct Po as (_ & _ & _ & ND & _). unfold O1 in ND. apply NoDup_remove_2 in ND. apply ND. apply in_or_app. now left.
      * rewrite Ol by (apply in_or_app; now left). now apply Pl.
    + rewrite Lo2, Nn. unfold lo. lia.
    + assumption.
    + intros Q F1. rewrite (Oq Q F1). apply Pq; auto.
    + intros a Ca La Ns. destruct (Pt a Ca La Ns) as [Lt Et]. destruct (Ot a Ca Lt Ns) as (Lt1 & Lw1 & Et1). split; [assumption|]. rewrite Lo2. intros x Ix. unfold dt2. rewrite edge_seen_low.
      assert (Cases : (In x new \/ x = node /\ In (next_node succ a node) done) \/ In x (w :: nw) \/ x = node /\ next_node succ a node = w).
      { destruct Ix as [Ix|[-> Ix]]; [apply in_app_iff in Ix; tauto|]. apply in_app_iff in Ix. destruct Ix as [Ix|[Ix|[]]]; auto. }
      destruct Cases as [Ix'|[Ix'|[-> Ew']]].
      * eapply edge_seen_more; [exact Po|exact Oo| | |now apply Et]; [now apply incl_appl, incl_refl|unfold lo; lia].
      * destruct (Et1 x Ix') as (I1 & I2 & I3). split; [assumption|]. split; [unfold lo; lia|]. intro R. apply in_or_app. right. now apply I3.
      * unfold edge_seen. rewrite Ew'. split; [apply in_or_app; right; now left|]. split; [unfold lo; lia|]. intros R. exfalso.
        assert (Iw : In w (O1 ++ w :: nw)) by (apply in_or_app; right; now left). pose proof (proj1 (ordered_late n dt1 O1 (w :: nw) w Oo Iw) (or_introl eq_refl)) as Lt'.
        rewrite As, app_length in Lt'. lia.
    + intros F1. destruct (Og F1) as (Lw1 & Ow & y & Iy & Ny & Py). destruct (Pg F) as (Rw & Lr & y0 & Iy0 & Ny0 & Py0).
      assert (Nw' : leads node w) by now apply leads_edge. split; [|split].
      * intros x [Ix|Ix]; [apply Rw; now left|]. apply in_app_iff in Ix. destruct Ix as [Ix|Ix]; [apply Rw; now right|]. eapply leads_trans; [exact Nw'|]. now apply Ow.
      * intros x Ix. unfold dt2. rewrite lower_low. apply in_app_iff in Ix. destruct Ix as [Ix|Ix]; [|now apply Ow].
        apply (lower_more dt dt1 O1 (w :: nw)); auto. apply in_or_app. right. now right.
      * rewrite Lo2. unfold lo. destruct (Z.min_spec (low dt node) (low dt1 w)) as [[_ ->]|[_ ->]].
        -- exists y0. split; [apply in_or_app; now left|]. unfold dt2. rewrite number_set_low. rewrite (ordered_more n dt dt1 O1 (w :: nw) y0 Po Oo Iy0). now split.
        -- exists y. split; [assumption|]. unfold dt2. rewrite number_set_low. split; [assumption|]. eapply leads_trans; eauto.
  - (* a node numbered before *)
    assert (Iw : In w O1). { destruct (in_dec Nat.eq_dec w O1) as [|N]; [assumption|]. destruct En. now apply (ordered_new n dt O1 w Po Lw). }
    destruct (ordered_number n dt O1 w Po Iw) as (kw & Ek & Nk & Lk).
    assert (Pm : pos_min (low dt node) (number dt w) = Z.min (low dt node) (number dt w)) by (apply pos_min_min; lia). rewrite Pm in E.
    rewrite Ps, Pe in E.
    set (ip := ((Z.of_nat st <=? number dt w) && (number dt w <=? en))%Z) in *.
    set (lo := Z.min (low dt node) (number dt w)) in *. set (dt2 := set_low dt node lo) in *.
    assert (Lset : forall y, low dt2 y = if Nat.eqb y node then lo else low dt y) by (intro y; now apply (low_set_low n dt O1)).
    assert (Lo2 : low dt2 node = lo) by (rewrite Lset; now rewrite Nat.eqb_refl).
    set (sk := negb ip && prune_skip o && (number dt w <? Z.of_nat st)%Z) in *.
    apply (IH (done ++ [w]) new) in E; auto; [rewrite K in E; exact E|]. constructor; fold O1.
    + now apply ordered_set_low.
    + unfold dt2. cbn [set_low dt_start dt_end]. now split.
    + intros x Ix. rewrite Lset. destruct (Nat.eqb_spec x node) as [Exn|Nx]; [|now apply Pl].
      exfalso. subst x. destruct Po as (_ & _ & _ & ND & _). unfold O1 in ND. apply NoDup_remove_2 in ND. apply ND. apply in_or_app. now left.
    + rewrite Lo2. unfold dt2. rewrite number_set_low. unfold lo. lia.
    + destruct sk; [|assumption]. apply after_tell; [apply (handle_below nv succ Bs)|assumption].
    + intros Q _. assert (Sk : sk = false) by (unfold sk; rewrite (proj1 (proj2 Q)), andb_false_r; reflexivity). rewrite Sk. now apply Pq.
    + intros a Ca La Ns. destruct (Pt a Ca La Ns) as [Lt Et]. assert (Nb : ~ In node base).
      { intro I. destruct Po as (_ & _ & _ & ND & _). unfold O1 in ND. apply NoDup_remove_2 in ND. apply ND. apply in_or_app. left. unfold order. apply in_or_app. now left. }
      split.
      * destruct sk eqn:Sk; [|assumption]. apply live_not_edge; auto. intro Ef. unfold sk in Sk. apply andb_true_iff in Sk. destruct Sk as [Sk L]. apply andb_true_iff in Sk. destruct Sk as [_ Sk].
        apply Z.ltb_lt in L. apply (Ns Sk node Hn Nb). rewrite Ef.
        apply (ordered_early n dt O1 st w Po Iw) in L. unfold O1, order in L. rewrite <- app_assoc, firstn_app in L. replace (st - length base) with 0 in L by lia. cbn [firstn] in L. now rewrite app_nil_r in L.
      * rewrite Lo2. intros x Ix. unfold dt2. rewrite edge_seen_low.
        assert (Cases : (In x new \/ x = node /\ In (next_node succ a node) done) \/ x = node /\ next_node succ a node = w).
        { destruct Ix as [Ix|[-> Ix]]; [tauto|]. apply in_app_iff in Ix. destruct Ix as [Ix|[Ix|[]]]; auto. }
        destruct Cases as [Ix'|[-> Ew']].
        -- destruct (Et x Ix') as (I1 & I2 & I3). split; [assumption|]. split; [unfold lo; lia|]. intro R. destruct ip; [apply in_or_app; left|]; now apply I3.
        -- unfold edge_seen. rewrite Ew'. split; [assumption|]. split; [unfold lo; lia|]. intro R. unfold ip. destruct (Z.leb_spec (Z.of_nat st) (number dt w)), (Z.leb_spec (number dt w) en); try lia. cbn [andb]. apply in_or_app. right. now left.
    + intros _. destruct (Pg F) as (Rw & Lr & y0 & Iy0 & Ny0 & Py0). split; [assumption|]. split; [assumption|].
      rewrite Lo2. unfold lo. destruct (Z.min_spec (low dt node) (number dt w)) as [[_ ->]|[_ ->]]; [eauto|].
      exists w. split; [assumption|]. split; [reflexivity|]. now apply leads_edge.
Qed.

Lemma explore_spec fuel : explores fuel (explore fuel o succ).
Proof.
  induction fuel as [|fuel IH]; intros rest dt t w O Es Ee A F Hw Nw Le dt' t' back E.
  { exfalso. destruct O as (_ & _ & _ & ND & Lt & _). apply Nw. assert (I : incl (seq 0 n) (base ++ rest)).
    { apply NoDup_length_incl; [assumption|rewrite seq_length; lia|]. intros x Ix. rewrite Forall_forall in Lt. apply in_seq. specialize (Lt x Ix). lia. }
    apply I. apply in_seq. lia. }
  cbn [explore] in E. fold (numbered dt w) in E. set (order := base ++ rest) in *. destruct (ordered_numbered n dt order w O Hw Nw) as (O1 & Lw1 & Nw1 & Ly).
  destruct (each_edge (explore fuel o succ) o succ w (node_values succ (t_domains t) w) (numbered dt w) t []) as [[dt1 t1] b] eqn:Ed.
  destruct (each_edge_spec fuel (explore fuel o succ) rest (numbered dt w) t w IH Hw) with (ws := node_values succ (t_domains t) w) (done := @nil nat) (new := @nil nat) (dt := numbered dt w) (t := t) (back := @nil (nat * nat)) (dt' := dt1) (t' := t1) (back' := b)
    as (new & done & [Po [Ps Pe] Pl Pp Pa Pq Pt Pg] & Dn); fold order.
  { fold order in Le. lia. }
  { intros x Ix. now apply (after_edge t). }
  { constructor.
    - exact O1.
    - now split.
    - auto.
    - lia.
    - assumption.
    - auto.
    - intros a Ca La Ns. split; [assumption|]. intros x [[]|[_ []]].
    - intros _. split; [|split].
      + intros x [->|[]]. constructor.
      + intros x [].
      + exists w. split; [apply in_or_app; right; now left|]. split; [lia|constructor]. }
  { exact Ed. }
  cbn [app] in Dn. exists new. fold order in Po, Pl, Pt, Pg |- *.
  assert (Iw : In w (order ++ w :: new)) by (apply in_or_app; right; now left).
  assert (Nn : number dt1 w = Z.of_nat (length order)).
  { apply Po. rewrite nth_error_app2 by lia. now rewrite Nat.sub_diag. }
  assert (Lo : forall x, In x order -> low dt1 x = low dt x).
  { intros x Ix. rewrite Pl by assumption. apply Ly. intros ->. contradiction. }
  destruct (t_failed t1) eqn:F1.
  { injection E as <- <- <-. constructor; auto.
    - now rewrite Ps, Pe, Es, Ee.
    - lia.
    - congruence.
    - intros a Ca La Ns. destruct (Pt a Ca La Ns) as [(_ & Ft & _) _]. congruence.
    - congruence. }
  specialize (Dn eq_refl). subst done.
  assert (Tr : forall a, circuit succ a -> live nv d t a -> no_skip (next_node succ a) ->
    live nv d t1 a /\ forall x, In x (w :: new) -> edge_seen (next_node succ a) dt1 (order ++ w :: new) b (low dt1 w) x).
  { intros a Ca La Ns. destruct (Pt a Ca La Ns) as [L1 E1]. split; [assumption|]. intros x [<-|Ix]; [|apply E1; now left]. apply E1. right. split; [reflexivity|]. now apply still_there. }
  destruct (Z.eqb_spec (low dt1 w) (number dt1 w)) as [El|El].
  - injection E as <- <- <-. constructor; auto.
    + now rewrite Ps, Pe, Es, Ee.
    + lia.
    + apply after_tell; [exact Logic.I|assumption].
    + now rewrite tell_false_fails.
    + intros a Ca La Ns. exfalso. destruct (Tr a Ca La Ns) as [L1 E1]. pose proof (the_tour a Ca) as T.
      destruct (left_somewhere n (next_node succ a) T root) with (new := w :: new) (x := w) as (z & Hz & Iz & Nz); auto.
      * apply circuit_tour in Ca. unfold root. lia.
      * now left.
      * intro I. destruct (ordered_late n dt1 order (w :: new) root Po) as [K _]; [apply in_or_app; now right|]. specialize (K I).
        assert (Ib : In root order) by (apply in_or_app; now left). destruct (ordered_number n dt order root O Ib) as (k & _ & Ek & Lk). rewrite <- (ordered_more n dt dt1 order (w :: new) root O Po Ib) in Ek. lia.
      * destruct (E1 z Iz) as (I1 & I2 & _). apply Nz. apply (ordered_late n dt1 order (w :: new)); [assumption|assumption|]. lia.
    + now rewrite tell_false_fails.
  - injection E as <- <- <-. assert (Lt : (low dt1 w < number dt1 w)%Z) by lia. constructor; auto.
    + now rewrite Ps, Pe, Es, Ee.
    + lia.
    + intros a Ca La Ns. destruct (Tr a Ca La Ns) as [L1 E1]. auto.
    + intros _. destruct (Pg eq_refl) as (R1 & R2 & y & Iy & Ny & Py). split; [assumption|]. split; [|eauto].
      intros x Ix. split; [now apply R1|]. destruct Ix as [<-|Ix]; [|now apply R2]. exists y. split; [assumption|]. split; [lia|assumption].
Qed.
End Subtree.

(** Between two subtrees of the root. *)
Record level (order : list nat) (done : list nat) (dt : scc_data) (t : tracker) : Prop :=
  { lv_order : ordered n dt order;
    lv_root : nth_error order 0 = Some root;
    lv_end : dt_end dt = (dt_count dt - 1)%Z;
    lv_start : order = [root] /\ dt_start dt = 0%Z \/ (1 <= dt_start dt < Z.of_nat (length order))%Z;
    lv_after : after t;
    lv_quiet : no_pruning o -> t_failed t = false -> t = t0;
    lv_tour : forall a, circuit succ a -> live nv d t0 a ->
      live nv d t a /\ closed_until n (next_node succ a) root (fun x => In x order) /\
      closed_until n (next_node succ a) root (fun x => In x (firstn (Z.to_nat (dt_start dt)) order)) /\ forall v, In v done -> In v order;
    lv_graph : t_failed t = false -> forall x, In x order -> leads root x /\ (x = root \/ lower dt order x) }.

Lemma level_no_skip order done dt t a : level order done dt t -> circuit succ a -> live nv d t0 a ->
  forall x, x < n -> ~ In x order -> ~ In (next_node succ a x) (firstn (Z.to_nat (dt_start dt)) order).
Proof.
  intros [O Rt En St _ _ Tr _] Ca La x Hx Nx I. destruct (Tr a Ca La) as (_ & C1 & C2 & _). destruct St as [[-> Es]|Bd].
  { rewrite Es in I. destruct I. }
  set (k := Z.to_nat (dt_start dt)) in *. assert (Hk : k < length order) by lia. destruct (nth_error order k) as [y|] eqn:Ey; [|apply nth_error_None in Ey; lia].
  assert (Iy : In y order) by now apply nth_error_In in Ey. pose proof O as (_ & _ & _ & _ & Lt & Nu & _). rewrite Forall_forall in Lt.
  apply (no_way_round n (next_node succ a) (the_tour a Ca) root) with (C := fun z => In z order) (L := fun z => In z (firstn k order)) (x := x) (y := y); auto.
  - apply Lt. now apply nth_error_In in Rt.
  - now apply nth_error_In in Rt.
  - intro I'. apply (ordered_early n dt order k y O Iy) in I'. rewrite (Nu k y Ey) in I'. lia.
  - intros ->. pose proof (Nu k root Ey) as K1. pose proof (Nu 0 root Rt) as K2. lia.
Qed.

Lemma required_edge_after back t : after t -> after (required_edge o succ back t).
Proof.
  intro A. unfold required_edge. destruct back as [|[x y] [|]]; [apply after_tell; [exact Logic.I|assumption]| |assumption].
  destruct (_ && _); [|assumption]. apply after_tell; [apply (handle_below nv succ Bs)|assumption].
Qed.

Lemma each_subtree_spec : forall vs order done dt t dt' t', (forall v, In v vs -> v < n /\ may_follow (t_domains t0) succ root v) ->
  level order done dt t -> each_subtree o succ vs dt t = (dt', t') ->
  exists order' done', (t_failed t' = false -> level order' done' dt' t' /\ done' = done ++ vs) /\ after t' /\ (forall a, circuit succ a -> live nv d t0 a -> live nv d t' a).
Proof.
  induction vs as [|v vs IH]; intros order done dt t dt' t' Hv L E; cbn [each_subtree] in E.
  { injection E as <- <-. exists order, done. rewrite app_nil_r. split; [auto|]. split; [apply L|]. intros a Ca La. now apply (lv_tour _ _ _ _ L a Ca La). }
  destruct (t_failed t) eqn:F.
  { injection E as <- <-. exists order, done. split; [congruence|]. split; [apply L|]. intros a Ca La. now apply (lv_tour _ _ _ _ L a Ca La). }
  destruct (Hv v (or_introl eq_refl)) as [Lv Ev]. assert (Hv' : forall z, In z vs -> z < n /\ may_follow (t_domains t0) succ root z) by (intros z Iz; apply Hv; now right).
  assert (K : forall q, (done ++ [v]) ++ q = done ++ v :: q) by (intro q; now rewrite <- app_assoc).
  pose proof L as [O Rt En St Af Qu Tr Gr]. assert (Ir : In root order) by now apply nth_error_In in Rt.
  assert (Nr : number dt root = 0%Z) by (pose proof O as (_ & _ & _ & _ & _ & Nu & _); exact (Nu 0 root Rt)).
  destruct (Z.eqb_spec (number dt v) (-1)) as [Ne|Ne].
  - destruct (explore (length succ) o succ v dt t) as [[dt1 t1] back] eqn:Ex.
    assert (Nv : ~ In v order) by now apply (ordered_new n dt order v O Lv).
    pose proof O as (_ & _ & Ct & ND & Lt & _). assert (St0 : (0 <= dt_start dt)%Z) by (destruct St as [[_ ->]|]; lia).
    set (st := Z.to_nat (dt_start dt)). assert (Est : dt_start dt = Z.of_nat st) by (unfold st; lia).
    assert (Stl : st <= length order). { destruct St as [[_ S0]|S1]; lia. }
    assert (Pos : 0 < length order) by (destruct order; [destruct Ir|simpl; lia]).
    destruct (explore_spec order st (dt_end dt) Ir Stl ltac:(lia) (length succ) [] dt t v) with (dt' := dt1) (t' := t1) (back := back) as (new & [Oo [Obs Obe] Ol Op Oa Oq Ot Og]); rewrite ?app_nil_r; auto.
    { unfold n. lia. }
    rewrite app_nil_r in *.
    assert (Lives : forall a, circuit succ a -> live nv d t0 a -> live nv d t1 a /\ forall x, In x (v :: new) -> edge_seen st (dt_end dt) (next_node succ a) dt1 (order ++ v :: new) back (low dt1 v) x).
    { intros a Ca La. destruct (Ot a Ca) as (L1 & _ & E1); [now apply Tr| |now split]. intros _. unfold st. now apply (level_no_skip order done dt t). }
    destruct (t_failed t1) eqn:F1.
    { injection E as <- <-. exists order, done. split; [congruence|]. split; [assumption|]. intros a Ca La. now apply Lives. }
    assert (Req : forall a, circuit succ a -> live nv d t0 a -> live nv d (required_edge o succ back t1) a).
    { intros a Ca La. destruct (Lives a Ca La) as [L1 E1]. rewrite Forall_forall in Lt. pose proof (the_tour a Ca) as T.
      destruct (left_somewhere n (next_node succ a) T root) with (new := v :: new) (x := v) as (z & Hz & Iz & Nz); auto.
      { now left. }
      { intro I. pose proof (proj1 (ordered_late n dt1 order (v :: new) root Oo ltac:(apply in_or_app; now left)) I) as X. rewrite (ordered_more n dt dt1 order (v :: new) root O Oo Ir) in X. lia. }
      destruct (E1 z Iz) as (I1 & _ & I3). assert (If : In (next_node succ a z) order) by (apply in_app_iff in I1; tauto).
      assert (Nzo : ~ In z order). { intro I. pose proof (proj1 (ordered_late n dt1 order (v :: new) z Oo ltac:(apply in_or_app; now left)) Iz) as X. rewrite (ordered_more n dt dt1 order (v :: new) z O Oo I) in X. destruct (ordered_number n dt order z O I) as (q & _ & Eq & Lq). lia. }
      assert (Ib : In (z, next_node succ a z) back).
      { apply I3. rewrite (ordered_more n dt dt1 order (v :: new) _ O Oo If). destruct (ordered_number n dt order _ O If) as (q & Eq & Nq & Lq).
        pose proof (level_no_skip order done dt t a L Ca La z Hz Nzo) as Ns. fold st in Ns. rewrite (ordered_early n dt order st _ O If) in Ns. lia. }
      unfold required_edge. destruct back as [|[x y] [|e r]]; [destruct Ib| |assumption]. destruct Ib as [Ib|[]]. injection Ib as -> ->.
      destruct (_ && _); [|assumption]. now apply live_edge. }
    apply (IH (order ++ v :: new) (done ++ [v])) in E; [rewrite K in E; exact E|assumption|].
    destruct (Og eq_refl) as (_ & Ow & _).
    assert (Cnt : dt_count dt1 = Z.of_nat (length (order ++ v :: new))) by apply Oo. rewrite app_length in Cnt. cbn [length] in Cnt.
    assert (Fi : firstn (Z.to_nat (dt_end dt1 + 1)) (order ++ v :: new) = order).
    { rewrite Obe, En, Ct. replace (Z.to_nat (Z.of_nat (length order) - 1 + 1)) with (length order) by lia. rewrite firstn_app, Nat.sub_diag, firstn_all. apply app_nil_r. }
    constructor; cbn [dt_start dt_end dt_count].
    + exact Oo.
    + destruct order; [destruct Ir|exact Rt].
    + reflexivity.
    + right. rewrite Obe, app_length. cbn [length]. lia.
    + now apply required_edge_after.
    + intros Q F2. assert (Et1 : t1 = t) by now apply Oq. rewrite Et1 in *. rewrite <- (Qu Q F1) in *. destruct Q as (_ & _ & Q). unfold required_edge in *. rewrite Q in *. cbn [andb] in *.
      destruct back as [|[x y] [|]]; [rewrite tell_false_fails in F2; discriminate|reflexivity|reflexivity].
    + intros a Ca La. destruct (Lives a Ca La) as [L1 E1]. destruct (Tr a Ca La) as (_ & C1 & _ & Dn). rewrite Fi. split; [now apply Req|]. split; [|split; [assumption|]].
      * intros x Hx Ix Nx. apply in_app_iff in Ix. destruct Ix as [Ix|Ix]; [apply in_or_app; left; now apply C1|]. apply (E1 x Ix).
      * intros z Iz. apply in_app_iff in Iz. apply in_or_app. destruct Iz as [Iz|[<-|[]]]; [left; now apply Dn|right; now left].
    + intros _ x Ix. change (leads root x /\ (x = root \/ lower dt1 (order ++ v :: new) x)). apply in_app_iff in Ix. destruct Ix as [Ix|Ix].
      * destruct (Gr F x Ix) as [P Q]. split; [assumption|]. destruct Q as [Q|Q]; [now left|]. right. now apply (lower_more dt dt1 order (v :: new)).
      * destruct (Ow x Ix) as [P Q]. split; [|now right]. eapply leads_on; eauto.
  - assert (Iv : In v order). { destruct (in_dec Nat.eq_dec v order) as [|N]; [assumption|]. destruct Ne. now apply (ordered_new n dt order v O Lv). }
    apply (IH order (done ++ [v])) in E; [rewrite K in E; exact E|assumption|]. constructor; auto. intros a Ca La. destruct (Tr a Ca La) as (T1 & T2 & T3 & T4). repeat (split; [assumption|]).
    intros z Iz. apply in_app_iff in Iz. destruct Iz as [Iz|[<-|[]]]; auto.
Qed.

Hypothesis Some_node : 0 < n.

Lemma initial_level : level [root] [] (initial_data n) t0.
Proof.
  assert (Lr : forall q, length (set_nth (repeat (-1)%Z n) root q) = n) by (intro q; now rewrite set_nth_length, repeat_length).
  assert (Nr : number (initial_data n) root = 0%Z) by (unfold number, initial_data; cbn [dt_visit]; rewrite nth_set_nth by (rewrite repeat_length; exact Some_node); reflexivity).
  constructor; cbn [initial_data dt_start dt_end dt_count].
  - split; [apply Lr|]. split; [apply Lr|]. split; [reflexivity|]. split; [repeat constructor; auto|]. split; [repeat constructor; exact Some_node|]. split.
    + intros [|k] x Ex; [injection Ex as <-; exact Nr|destruct k; discriminate].
    + intros x Hx N. unfold number, initial_data; cbn [dt_visit]. rewrite nth_set_nth_other; [apply nth_repeat|]. intros ->. apply N. now left.
  - reflexivity.
  - reflexivity.
  - left. now split.
  - split; [assumption|auto].
  - auto.
  - intros a Ca La. split; [assumption|]. split; [|split].
    + intros x _ [<-|[]] N. congruence.
    + intros x _ [].
    + intros v [].
  - intros _ x [<-|[]]. split; [constructor|now left].
Qed.

Lemma from_root_after dt t : after t -> after (from_root o succ dt t).
Proof.
  intro A. unfold from_root. destruct (_ && _); [|assumption]. apply for_each_ind; [|assumption]. intros v u _ Au. destruct (_ <? _)%Z; [|assumption]. apply after_tell; [apply (handle_below nv succ Bs)|assumption].
Qed.

Lemma check_sccs_spec t' : check_sccs o succ t0 = t' -> after t' /\ (no_pruning o -> t_failed t' = false -> t' = t0) /\
  (forall a, circuit succ a -> live nv d t0 a -> live nv d t' a) /\ (t_failed t' = false -> forall i j, i < n -> j < n -> leads i j).
Proof.
  intro E. unfold check_sccs in E. fold n in E. destruct (each_subtree o succ (node_values succ (t_domains t0) root) (initial_data n) t0) as [dt t1] eqn:Es.
  assert (Hr : root < n) by exact Some_node. assert (A0 : after t0) by (split; auto).
  destruct (each_subtree_spec _ [root] [] _ _ _ _ (fun v Iv => after_edge t0 root v A0 F0 Hr Iv) initial_level Es) as (order & done & Lv & A1 & Tr).
  destruct (t_failed t1) eqn:F1.
  { subst t'. split; [assumption|]. split; [congruence|]. split; [assumption|]. congruence. }
  destruct (Lv eq_refl) as [L Dn]. cbn [app] in Dn. subst done. pose proof L as [O Rt En St _ Qu Tr' Gr]. pose proof O as (_ & _ & Ct & ND & Lt & Nu & _). rewrite Forall_forall in Lt.
  assert (Ir : In root order) by now apply nth_error_In in Rt.
  assert (All : forall a, circuit succ a -> live nv d t0 a -> forall x, x < n -> In x order).
  { intros a Ca La x Hx. destruct (Tr' a Ca La) as (_ & C1 & _ & Dn). apply (closed_everywhere n (next_node succ a) (the_tour a Ca) (fun z => In z order) root); auto.
    intros z Hz Iz. destruct (Nat.eq_dec z root) as [->|Nz]; [|now apply C1]. apply Dn. now apply still_there. }
  rewrite Ct in E. destruct (Z.eqb_spec (Z.of_nat (length order)) (Z.of_nat n)) as [Ec|Ec].
  - assert (Le : length order = n) by lia. assert (Full : forall x, x < n -> In x order).
    { intros x Hx. assert (I : incl (seq 0 n) order) by (apply NoDup_length_incl; [assumption|rewrite seq_length; lia|intros z Iz; apply in_seq; specialize (Lt z Iz); lia]). apply I. apply in_seq. lia. }
    subst t'. split; [now apply from_root_after|]. split; [|split].
    + intros Q F2. unfold from_root in *. rewrite (proj1 Q) in *. cbn [andb] in *. now apply Qu.
    + intros a Ca La. unfold from_root. destruct (prune_root o && (1 <? dt_start dt)%Z) eqn:Pr; [|now apply Tr]. apply andb_true_iff in Pr. destruct Pr as [_ Pr]. apply Z.ltb_lt in Pr.
      destruct St as [[_ X]|St]; [lia|]. set (k := Z.to_nat (dt_start dt)) in *. destruct (Tr' a Ca La) as (_ & _ & C2 & _). fold k in C2.
      apply (for_each_ind (fun u => live nv d u a)); [|now apply Tr]. intros v u _ Lu. destruct (Z.ltb_spec (number dt v) (dt_start dt)) as [Lv'|]; [|assumption].
      apply live_not_edge; auto. intro Ef. destruct (nth_error order k) as [y|] eqn:Ey; [|apply nth_error_None in Ey; lia].
      assert (Iy : In y order) by now apply nth_error_In in Ey. assert (Iv : In v order) by (apply Full; rewrite <- Ef; now apply (the_tour a Ca)).
      assert (X : In y (firstn k order)).
      { apply (closed_from_root n (next_node succ a) (the_tour a Ca) root Hr (fun z => In z (firstn k order))); auto.
        - rewrite Ef. apply (ordered_early n dt order k v O Iv). lia.
        - intros ->. pose proof (Nu k root Ey) as K1. pose proof (Nu 0 root Rt) as K2. lia. }
      apply (ordered_early n dt order k y O Iy) in X. rewrite (Nu k y Ey) in X. lia.
    + intros _. assert (To : forall x, x < n -> leads root x) by (intros x Hx; now apply (Gr F1 x (Full x Hx))).
      assert (Back : forall q x, x < n -> (number dt x < Z.of_nat q)%Z -> leads x root).
      { induction q as [|q IHq]; intros x Hx Lq.
        - destruct (ordered_number n dt order x O (Full x Hx)) as (z & _ & Ez & _). lia.
        - destruct (Gr F1 x (Full x Hx)) as [_ [->|(y & Iy & Ny & P)]]; [constructor|]. eapply leads_trans; [exact P|]. apply IHq; [now apply Lt|lia]. }
      intros i j Hi Hj. apply (leads_trans _ _ i root j); [|now apply To]. apply (Back n); [assumption|]. destruct (ordered_number n dt order i O (Full i Hi)) as (z & _ & Ez & Lz). lia.
  - subst t'. split; [apply after_tell; [exact Logic.I|assumption]|]. rewrite tell_false_fails. split; [discriminate|]. split; [|discriminate]. intros a Ca La. exfalso. apply Ec. f_equal.
    apply Nat.le_antisymm.
    + apply (NoDup_incl_length (l' := seq 0 n)) in ND; [now rewrite seq_length in ND|]. intros z Iz. apply in_seq. specialize (Lt z Iz). lia.
    + rewrite <- (seq_length n 0). apply NoDup_incl_length; [apply seq_NoDup|]. intros z Iz. apply in_seq in Iz. apply (All a Ca La). lia.
Qed.
End Explore.

(** ** Following fixed successors *)

Section Walk.
Variable succ : list var_id.
Variable D : domains.
Let n := length succ.

Lemma single_node_bound i j : single_node succ D i = Some j -> j < n.
Proof. unfold single_node. destruct (optional_single_value D (handle succ i)); [|discriminate]. intro E. now apply as_node_spec in E. Qed.

Definition walk_ends (f : nat -> nat) (j0 e len : nat) : Prop := e = Nat.iter len f j0 /\ single_node succ D e = None /\ (forall k, 0 < k <= len -> Nat.iter k f j0 <> j0) /\ forall k, k < len -> single_node succ D (Nat.iter k f j0) <> None.
Definition walk_closes (f : nat -> nat) (j0 : nat) : Prop := exists len, Nat.iter (S len) f j0 = j0 /\ forall k, k <= len -> single_node succ D (Nat.iter k f j0) <> None.

Lemma walk_spec f j0 : (forall i j, i < n -> single_node succ D i = Some j -> f i = j) -> j0 < n -> forall fuel j len w, walk fuel succ D j0 j len = Some w ->
  j < n -> j = Nat.iter len f j0 -> (forall k, 0 < k <= len -> Nat.iter k f j0 <> j0) -> (forall k, k < len -> single_node succ D (Nat.iter k f j0) <> None) ->
  match w with Closed => walk_closes f j0 | Ended e l => walk_ends f j0 e l end.
Proof.
  intros Fol H0. induction fuel as [|fuel IH]; intros j len w E Hj Ej Ns Al; [discriminate|]. cbn [walk] in E. destruct (single_node succ D j) as [j'|] eqn:Sj.
  - pose proof (Fol j j' Hj Sj) as Ef. assert (Al' : forall k, k < S len -> single_node succ D (Nat.iter k f j0) <> None).
    { intros k Hk. destruct (Nat.eq_dec k len) as [->|N]; [rewrite <- Ej; congruence|apply Al; lia]. }
    destruct (Nat.eqb_spec j' j0) as [Ec|Ec].
    + injection E as <-. exists len. rewrite iter_next, <- Ej. split; [congruence|]. intros k Hk. apply Al'. lia.
    + apply IH in E; auto.
      * now apply single_node_bound in Sj.
      * rewrite iter_next, <- Ej. now symmetry.
      * intros k Hk. destruct (Nat.eq_dec k (S len)) as [->|N]; [rewrite iter_next, <- Ej; congruence|apply Ns; lia].
  - injection E as <-. now repeat (split; [assumption|]).
Qed.

(** A walk along successors that are all different comes to an end. *)
Lemma walk_returns j0 : (forall i j x, i < n -> j < n -> single_node succ D i = Some x -> single_node succ D j = Some x -> i = j) ->
  forall fuel j len seen, n < fuel + length seen -> NoDup (j :: seen) -> Forall (fun x => x < n) (j :: seen) ->
  (forall s, In s (j :: seen) -> s = j0 \/ exists p, In p seen /\ single_node succ D p = Some s) -> walk fuel succ D j0 j len <> None.
Proof.
  intro Inj. induction fuel as [|fuel IH]; intros j len seen Le ND Lt Pr.
  - exfalso. apply (NoDup_incl_length (l' := seq 0 n)) in ND; [rewrite seq_length in ND; cbn [length] in *; lia|]. intros x Ix. rewrite Forall_forall in Lt. apply in_seq. specialize (Lt x Ix). lia.
  - cbn [walk]. destruct (single_node succ D j) as [j'|] eqn:Sj; [|discriminate]. destruct (Nat.eqb_spec j' j0) as [|Nj]; [discriminate|].
    apply (IH j' (S len) (j :: seen)).
    + cbn [length]. lia.
    + constructor; [|assumption]. intro I. destruct (Pr j' I) as [|(p & Ip & Sp)]; [contradiction|]. rewrite Forall_forall in Lt.
      assert (p = j) by (apply (Inj p j j'); auto; apply Lt; [now right|now left]). subst p. apply NoDup_cons_iff in ND. now apply ND.
    + constructor; [now apply single_node_bound in Sj|assumption].
    + intros s [<-|Is]; [right; exists j; split; [now left|assumption]|]. destruct (Pr s Is) as [->|(p & Ip & Sp)]; [now left|]. right. exists p. split; [now right|assumption].
Qed.

Definition found_by_walk (c : chain_found) : Prop := let '(i, e, len) := c in i < n /\ exists fuel, walk fuel succ D i i 0 = Some (Ended e len).

Lemma gather_spec fuel : forall vals found r, Forall (fun j => j < n) vals -> gather fuel succ D vals found = Some r -> Forall found_by_walk found ->
  match r with
  | None => exists j0, In j0 vals /\ walk fuel succ D j0 j0 0 = Some Closed
  | Some found' => Forall found_by_walk found' /\ incl found found' /\ forall j, In j vals -> single_node succ D j <> None -> exists e len, In (j, e, len) found'
  end.
Proof.
  induction vals as [|j0 vals IH]; intros found r Lt E Q; cbn [gather] in E.
  { injection E as <-. split; [assumption|]. split; [apply incl_refl|]. intros j []. }
  apply Forall_cons_iff in Lt. destruct Lt as [L0 Lt]. destruct (single_node succ D j0) as [x|] eqn:S0.
  - destruct (existsb (fun '(i, _, _) => Nat.eqb i j0) found) eqn:Ex.
    + apply IH in E; auto. destruct r as [found'|]; [|destruct E as (q & Iq & Wq); exists q; split; [now right|assumption]]. destruct E as (E1 & E2 & E3). split; [assumption|]. split; [assumption|]. intros j [<-|Ij]; [|now apply E3]. intros _.
      apply existsb_exists in Ex. destruct Ex as ([[i e] len] & Ic & Ei). apply Nat.eqb_eq in Ei. subst i. exists e, len. now apply E2.
    + destruct (walk fuel succ D j0 j0 0) as [[|e len]|] eqn:W; [injection E as <-; exists j0; split; [now left|assumption]| |discriminate].
      apply IH in E; auto.
      * destruct r as [found'|]; [|destruct E as (q & Iq & Wq); exists q; split; [now right|assumption]]. destruct E as (E1 & E2 & E3). split; [assumption|]. split; [intros c Ic; apply E2; now right|]. intros j [<-|Ij]; [|now apply E3]. intros _. exists e, len. apply E2. now left.
      * constructor; [|assumption]. split; [assumption|]. eauto.
  - apply IH in E; auto. destruct r as [found'|]; [|destruct E as (q & Iq & Wq); exists q; split; [now right|assumption]]. destruct E as (E1 & E2 & E3). split; [assumption|]. split; [assumption|]. intros j [<-|Ij]; [congruence|now apply E3].
Qed.

Lemma gather_returns fuel : (forall i j x, i < n -> j < n -> single_node succ D i = Some x -> single_node succ D j = Some x -> i = j) -> n < fuel ->
  forall vals found, Forall (fun j => j < n) vals -> gather fuel succ D vals found <> None.
Proof.
  intros Inj Le. induction vals as [|j0 vals IH]; intros found Lt; cbn [gather]; [discriminate|]. apply Forall_cons_iff in Lt. destruct Lt as [L0 Lt].
  destruct (single_node succ D j0); [|now apply IH]. match goal with |- context [existsb ?p found] => destruct (existsb p found) end; [now apply IH|]. destruct (walk fuel succ D j0 j0 0) as [[|e len]|] eqn:W; [discriminate|now apply IH|].
  exfalso. revert W. apply (walk_returns j0 Inj fuel j0 0 []); cbn [length]; [lia|repeat constructor; auto|repeat constructor; auto|]. intros s [<-|[]]. now left.
Qed.
End Walk.

(** ** The propagation function *)

Section Run.
Variable nv : nat.
Variable succ : list var_id.
Hypothesis Bs : Forall (var_below nv) succ.
Let n := length succ.
Hypothesis Some_node : 0 < n.
Variable o : scc_options.
Variable d : domains.
Hypothesis Hd : domains_ok d.
Hypothesis Ld : length d = nv.

Lemma single_follows t a i j : legit nv d t -> t_failed t = false -> within a (t_domains t) -> single_node succ (t_domains t) i = Some j -> next_node succ a i = j.
Proof.
  intros G F W. unfold single_node. destruct (optional_single_value (t_domains t) (handle succ i)) as [x|] eqn:E; [|discriminate]. intro As. apply as_node_spec in As. destruct As as [-> _].
  unfold next_node. fold (handle succ i). rewrite (alive_single nv succ Bs d Hd Ld t i _ G F E a W). apply Nat2Z.id.
Qed.

Lemma close_chain_later c t : later nv d t (close_chain succ c t).
Proof. destruct c as [[i e] len]. unfold close_chain. destruct (_ <? _); apply later_tell; auto; apply (handle_below nv succ Bs). Qed.

Lemma small_cycles_spec fuel U t t' : legit nv d t -> t_failed t = false -> Forall (fun i => i < n) U -> (forall i, In i U -> optional_single_value (t_domains t) (handle succ i) = None) ->
  small_cycles fuel succ U t = Some t' ->
  later nv d t t' /\ (forall a, circuit succ a -> live nv d t a -> live nv d t' a).
Proof.
  intros G F Bu Nu E. unfold small_cycles in E. set (vals := flat_map _ U) in E. assert (Lv : Forall (fun j => j < length succ) vals).
  { apply Forall_forall. intros j Ij. apply in_flat_map in Ij. destruct Ij as (u & _ & Ij). now apply node_values_In in Ij. }
  destruct (gather fuel succ (t_domains t) vals []) as [[found|]|] eqn:Ga; [| |discriminate]; injection E as <-.
  - apply gather_spec in Ga; [|assumption|constructor]. destruct Ga as (Q & _ & _). split; [apply later_for_each; intros c u _; apply close_chain_later|].
    intros a Ca La. pose proof La as (_ & _ & Wa). rewrite Forall_forall in Q. apply (for_each_ind (fun u => live nv d u a)); [|assumption]. intros [[i e] len] u Ic Lu. destruct (Q _ Ic) as [Hi (fl & W)].
    assert (T := the_tour succ a Ca). assert (Fo : forall x j, x < length succ -> single_node succ (t_domains t) x = Some j -> next_node succ a x = j) by (intros x j _; now apply single_follows).
    apply (walk_spec succ (t_domains t) (next_node succ a) i Fo Hi) in W; [|assumption|reflexivity|intros; lia|intros; lia]. destruct W as (Ee & _ & Ns & _).
    assert (He : e < n) by (rewrite Ee; apply iter_bound; [apply T|assumption]). unfold close_chain. destruct (Nat.ltb_spec len (length succ - 1)) as [Ll|Ll].
    + apply (live_not_edge nv succ Bs d Hd Ld a Ca); auto. rewrite Ee, <- iter_next. apply (tour_away _ _ T i Hi); lia.
    + apply (live_edge nv succ Bs d Hd Ld a Ca); auto. rewrite Ee, <- iter_next. pose proof (tour_period _ _ T i Hi) as Tp.
      destruct (Nat.eq_dec (S len) (length succ)) as [->|N]; [exact Tp|]. destruct (Ns (length succ)); [lia|exact Tp].
  - apply gather_spec in Ga; [|assumption|constructor]. destruct Ga as (j0 & Ij & W). assert (Hj : j0 < length succ) by (now apply (proj1 (Forall_forall _ _) Lv)). split; [apply later_tell; auto; exact Logic.I|]. intros a Ca La. exfalso. pose proof La as (_ & _ & Wa).
    assert (T := the_tour succ a Ca). assert (Fo : forall x j, x < length succ -> single_node succ (t_domains t) x = Some j -> next_node succ a x = j) by (intros x j _; now apply single_follows).
    apply (walk_spec succ (t_domains t) (next_node succ a) j0 Fo Hj) in W; [|assumption|reflexivity|intros; lia|intros; lia]. destruct W as (len & Ec & Al).
    pose proof (no_short_cycle _ _ (S len) j0 T Hj (Nat.lt_0_succ _) Ec) as Lc.
    assert (exists u, In u U) as (u & Iu). { apply in_flat_map in Ij. destruct Ij as (u & Iu & _). eauto. }
    rewrite Forall_forall in Bu. destruct (tour_position _ _ T j0 Hj u (Bu u Iu)) as (k & Lk & Ek). apply (Al k); [lia|]. rewrite Ek. unfold single_node. now rewrite (Nu u Iu).
Qed.

(** Only what is fixed stops being unassigned. *)
Lemma take_away_fixed x fuel : forall kept rest work u V Y u', take_away fuel succ x kept rest work u = (V, Y, u') -> legit nv d u -> t_failed u = false -> length rest <= fuel ->
  later nv d u u' /\ (t_failed u' = false -> (forall i, In i (rev kept ++ rest) -> ~ In i V -> fixed (t_domains u') (handle succ i))).
Proof.
  induction fuel as [|fuel IH]; intros kept rest work u V Y u' E G F Le; cbn [take_away] in E.
  - destruct rest; [|cbn [length] in Le; lia]. injection E as <- <- <-. split; [apply later_refl|]. intros _ i I N. contradiction.
  - destruct rest as [|r rest]; [injection E as <- <- <-; split; [apply later_refl|]; intros _ i I N; contradiction|].
    cbn [length] in Le. set (u1 := tell_ne (handle succ r) x u) in *. assert (L1 : later nv d u u1) by (apply later_tell; auto; apply (handle_below nv succ Bs)). destruct (L1 G) as [G1 _].
    destruct (t_failed u1) eqn:F1; [injection E as <- <- <-; split; [assumption|congruence]|].
    destruct (optional_single_value (t_domains u1) (handle succ r)) as [y|] eqn:Os.
    + apply IH in E; auto; [|rewrite swap_pop_length; lia]. destruct E as [L2 K]. split; [eapply later_trans; eauto|]. intros F' i I N. destruct (Nat.eq_dec i r) as [->|Nr].
      * apply (fixed_mono (t_domains u1)); [|apply (alive_fixed nv succ Bs d Hd Ld u1 r G1 F1); eauto]. intros b. now apply (later_inside nv d u1 u' G1 L2 F').
      * apply K; auto. rewrite in_app_iff in *. destruct I as [I|[->|I]]; [now left|congruence|right]. now apply (Permutation_in _ (Permutation_sym (swap_pop_perm rest))).
    + apply IH in E; auto; [|lia]. destruct E as [L2 K]. split; [eapply later_trans; eauto|]. intros F' i I N. apply K; auto. cbn [rev]. now rewrite <- app_assoc.
Qed.

Lemma drain_fixed fuel : forall U W t U' t', drain fuel succ U W t = (U', t') -> legit nv d t -> t_failed t = false ->
  t_failed t' = false -> forall i, In i U -> ~ In i U' -> fixed (t_domains t') (handle succ i).
Proof.
  induction fuel as [|fuel IH]; intros U W t U' t' E G F F' i I N; cbn [drain] in E; [injection E as <- <-; contradiction|].
  destruct W as [|[s x] rest]; [injection E as <- <-; contradiction|].
  set (t1 := for_each (rev rest) _ t) in E. assert (L1 : later nv d t t1).
  { apply later_for_each. intros [s' y] u _. destruct (_ =? _)%Z; [|apply later_refl]. apply later_tell; auto. apply (handle_below nv succ Bs). }
  destruct (L1 G) as [G1 _]. destruct (t_failed t1) eqn:F1; [injection E as <- <-; congruence|].
  destruct (take_away (length U) succ x [] U rest t1) as [[U1 W1] t2] eqn:Ta. apply take_away_fixed in Ta; auto. destruct Ta as [L2 K]. destruct (L2 G1) as [G2 _].
  destruct (t_failed t2) eqn:F2; [injection E as <- <-; congruence|]. destruct (in_dec Nat.eq_dec i U1) as [I1|N1]; [now apply (IH U1 W1 t2 U' t')|].
  assert (L3 : later nv d t2 t'). { clear -E Bs Hd Ld. revert U1 W1 t2 E. assert (Ta : forall z fl kept rest work u V Y u', take_away fl succ z kept rest work u = (V, Y, u') -> later nv d u u').
    { intro z. induction fl as [|fl IH]; intros kept rest work u V Y u' E; cbn [take_away] in E; [injection E as <- <- <-; apply later_refl|].
      destruct rest as [|r rest]; [injection E as <- <- <-; apply later_refl|]. assert (L1 : later nv d u (tell_ne (handle succ r) z u)) by (apply later_tell; auto; apply (handle_below nv succ Bs)).
      destruct (t_failed _); [injection E as <- <- <-; assumption|]. destruct (optional_single_value _ _); (eapply later_trans; [exact L1|eapply IH; exact E]). }
    induction fuel as [|fuel IH]; intros U W t E; cbn [drain] in E; [injection E as <- <-; apply later_refl|]. destruct W as [|[s x] rest]; [injection E as <- <-; apply later_refl|].
    set (t1 := for_each (rev rest) _ t) in E. assert (L1 : later nv d t t1).
    { apply later_for_each. intros [s' y] u _. destruct (_ =? _)%Z; [|apply later_refl]. apply later_tell; auto. apply (handle_below nv succ Bs). }
    destruct (t_failed t1); [injection E as <- <-; assumption|]. destruct (take_away (length U) succ x [] U rest t1) as [[U1 W1] t2] eqn:T2. apply Ta in T2.
    destruct (t_failed t2); [injection E as <- <-; eapply later_trans; eauto|]. eapply later_trans; [exact L1|]. eapply later_trans; [exact T2|]. eapply IH. exact E. }
  apply (fixed_mono (t_domains t2)); [intros b; now apply (later_inside nv d t2 t' G2 L3 F')|]. now apply K.
Qed.

Lemma continue_fixed U0 t1 U t : continue_different succ U0 t1 = (U, t) -> legit nv d t1 -> t_failed t1 = false -> t_failed t = false ->
  forall i, In i U0 -> ~ In i U -> fixed (t_domains t) (handle succ i).
Proof.
  intros E G F F' i I N. pose proof (continue_later nv succ Bs d Hd Ld U0 t1 U t G E) as Lt. unfold continue_different in E.
  destruct (collect (length U0) (t_domains t1) succ [] U0 []) as [U1 W] eqn:Co. destruct (in_dec Nat.eq_dec i U1) as [I1|N1]; [now apply (drain_fixed _ _ _ _ _ _ E)|].
  destruct (collect_spec nv succ d Ld _ _ _ _ _ _ _ (le_n _) Co) as (P & _ & S1). cbn [rev app map] in P. rewrite app_nil_r in P.
  assert (Iw : In i (map fst W)). { apply (Permutation_in i (Permutation_sym P)) in I. apply in_app_iff in I. tauto. }
  apply in_map_iff in Iw. destruct Iw as ([i' x] & Ei & Iw). cbn in Ei. subst i'. destruct (S1 i x Iw) as [[]|Os].
  apply (fixed_mono (t_domains t1)); [intros b; now apply (later_inside nv d t1 t G Lt F')|]. apply (alive_fixed nv succ Bs d Hd Ld t1 i G F). eauto.
Qed.

Definition scc_hand (D : domains) (U : list nat) : Prop :=
  NoDup U /\ Forall (fun i => i < n) U /\ (forall i, i < n -> ~ In i U -> fixed D (handle succ i)) /\ (no_pruning o -> forall i, i < n -> ~ In i U -> covered succ D i).

Lemma leads_before t i j : legit nv d t -> t_failed t = false -> leads_to (t_domains t) succ i j -> leads_to d succ i j.
Proof.
  intros G F P. induction P as [|i m j (H1 & H2 & H3) P IH]; [constructor|]. eapply leads_on; [|exact IH]. split; [assumption|]. split; [assumption|].
  apply (member_before nv d Hd Ld t); auto. apply (handle_below nv succ Bs).
Qed.

(** The run up to the last part. *)
Lemma scc_first U U1 t1 : scc_hand d U -> continue_different succ U (track d) = (U1, t1) ->
  honest nv d (circuit succ) t1 /\
  (t_failed t1 = false -> forall t2, check_sccs o succ t1 = t2 -> honest nv d (circuit succ) t2 /\
    (t_failed t2 = false -> forall U2, U2 = fst (collect (length U1) (t_domains t2) succ [] U1 []) ->
      scc_hand (t_domains t2) U2 /\ (forall i, In i U2 -> optional_single_value (t_domains t2) (handle succ i) = None) /\ (forall i j, i < n -> j < n -> leads_to d succ i j) /\ incl U2 U1 /\ (forall i, In i U1 -> ~ fixed (t_domains t1) (handle succ i)))).
Proof.
  intros (ND & Bu & Fx & Co) Cd. assert (Sp : forall a, circuit succ a -> pairwise succ a) by (intros a Sa; now apply circuit_one_each).
  destruct (continue_spec nv succ Bs d Hd Ld (circuit succ) Sp (no_pruning o) U U1 (track d) t1 (honest_track nv d _) eq_refl ND Bu Co Cd) as ([H1 Fi] & Nf).
  split; [assumption|]. intros F1 t2 Ck. destruct (Fi F1) as (ND1 & Bu1 & Co1). specialize (Nf F1). pose proof (proj1 H1) as G1.
  destruct (check_sccs_spec nv succ Bs o d Hd Ld t1 G1 F1 Some_node t2 Ck) as ([G2 Bk] & Qu & Tr & Co2).
  split.
  { split; [assumption|]. intros a Wa Ca. destruct (honest_within nv d Hd Ld _ t1 a H1 Wa Ca) as [_ W1]. destruct (Tr a Ca (conj G1 (conj F1 W1))) as (_ & F2 & W2). now apply (legit_within nv d Hd Ld t2 a G2 F2) in W2. }
  intros F2 U2 ->. destruct (collect (length U1) (t_domains t2) succ [] U1 []) as [U2 W] eqn:C2. cbn [fst].
  destruct (collect_spec nv succ d Ld _ _ _ _ _ _ _ (le_n _) C2) as (P & N2 & S2). cbn [rev app map] in P. rewrite app_nil_r in P.
  assert (NDa : NoDup (U2 ++ map fst W)) by (apply (Permutation_NoDup (Permutation_sym P)); assumption).
  assert (In12 : inside (t_domains t1) (t_domains t2)) by (intros b Wb; apply (Bk b); split; [assumption|now split]).
  assert (Sub : incl U2 U1) by (intros i I; apply (Permutation_in i P); apply in_or_app; now left).
  assert (Fx2 : forall i, i < n -> ~ In i U2 -> fixed (t_domains t2) (handle succ i)).
  { intros i Hi Ni. destruct (in_dec Nat.eq_dec i U1) as [I1|N1].
    - apply (Permutation_in i (Permutation_sym P)) in I1. apply in_app_iff in I1. destruct I1 as [I1|I1]; [contradiction|]. apply in_map_iff in I1. destruct I1 as ([i' x] & Ei & Iw). cbn in Ei. subst i'.
      destruct (S2 i x Iw) as [[]|Os]. apply (alive_fixed nv succ Bs d Hd Ld t2 i G2 F2). eauto.
    - apply (fixed_mono (t_domains t1)); [assumption|]. destruct (in_dec Nat.eq_dec i U) as [I0|N0]; [now apply (continue_fixed U (track d) U1 t1 Cd (legit_track nv d) eq_refl F1)|].
      apply (fixed_mono d); [|now apply Fx]. intros b. now apply (legit_inside nv d Hd Ld t1 G1 F1). }
  split; [|split; [|split; [|split; [assumption|assumption]]]].
  - split; [|split; [|split; [assumption|]]].
    + clear -NDa. induction U2 as [|x r IH]; [constructor|]. cbn in NDa. apply NoDup_cons_iff in NDa. constructor; [|now apply IH]. intro I. apply (proj1 NDa). apply in_or_app. now left.
    + apply Forall_forall. intros i I. rewrite Forall_forall in Bu1. apply Bu1. now apply Sub.
    + intros Q i Hi Ni. rewrite (Qu Q F2). apply (Co1 Q i Hi). intro I. rewrite (Qu Q F2) in S2. apply (Permutation_in i (Permutation_sym P)) in I. apply in_app_iff in I. destruct I as [I|I]; [contradiction|].
      apply in_map_iff in I. destruct I as ([i' x] & Ei & Iw). cbn in Ei. subst i'. destruct (S2 i x Iw) as [[]|Os]. apply (Nf i).
      * apply (Permutation_in i P). apply in_or_app. right. apply in_map_iff. exists (i, x). now split.
      * apply (alive_fixed nv succ Bs d Hd Ld t1 i G1 F1). eauto.
  - intros i I. destruct (N2 i I) as [[]|Os]. exact Os.
  - intros i j Hi Hj. apply (leads_before t1); auto.
Qed.

Lemma hand_more D D' U : inside D D' -> scc_hand D U -> scc_hand D' U.
Proof.
  intros I (H1 & H2 & H3 & H4). split; [assumption|]. split; [assumption|]. split.
  - intros i Hi Ni. apply (fixed_mono D); auto.
  - intros Q i Hi Ni. apply (covered_inside succ D); auto.
Qed.

(** With all successors in a cycle fixed but one, the cycle is not closed. *)
Lemma chain_not_closed fuel U t t' a : legit nv d t -> t_failed t = false -> Forall (fun i => i < n) U -> 
  small_cycles fuel succ U t = Some t' -> t_failed t' = false -> live nv d t' a -> all_nodes succ a ->
  forall e p, In e U -> optional_single_value (t_domains t) (handle succ e) = None -> 1 < p -> p < n -> Nat.iter p (next_node succ a) e = e ->
  (forall k, Nat.iter k (next_node succ a) e <> e -> exists x, optional_single_value (t_domains t) (handle succ (Nat.iter k (next_node succ a) e)) = Some x) ->
  next_node succ a e <> e -> False.
Proof.
  intros G F Bu E F' La An e p Ie Oe P1 Pn Ec Ot Ns. set (f := next_node succ a) in *. pose proof (next_bounded succ a An) as Ba. fold n f in Ba.
  assert (He : e < n) by (rewrite Forall_forall in Bu; now apply Bu).
  unfold small_cycles in E. set (vals := flat_map _ U) in E. assert (Lv : Forall (fun j => j < length succ) vals).
  { apply Forall_forall. intros j Ij. apply in_flat_map in Ij. destruct Ij as (u & _ & Ij). now apply node_values_In in Ij. }
  destruct (gather fuel succ (t_domains t) vals []) as [[found|]|] eqn:Ga; [| |discriminate]; injection E as <-; [|rewrite tell_false_fails in F'; discriminate].
  assert (Lt : later nv d t (for_each found (close_chain succ) t)) by (apply later_for_each; intros c u _; apply close_chain_later).
  destruct (Lt G) as [G' Bk]. pose proof (Bk a La) as (_ & _ & Wa).
  apply gather_spec in Ga; [|assumption|constructor]. destruct Ga as (Q & _ & Al).
  assert (Single : forall x, x < n -> (exists z, optional_single_value (t_domains t) (handle succ x) = Some z) -> single_node succ (t_domains t) x = Some (f x)).
  { intros x Hx (z & Oz). unfold single_node. rewrite Oz. pose proof (alive_single nv succ Bs d Hd Ld t x z G F Oz a Wa) as Vz. apply as_node_spec. unfold f, next_node. fold (handle succ x). rewrite Vz.
    assert (I : In (handle succ x) succ) by now apply nth_In. specialize (An _ I). rewrite Vz in An. split; [rewrite Z2Nat.id; lia|fold n in An; lia]. }
  assert (Ij : In (f e) vals).
  { apply in_flat_map. exists e. split; [assumption|]. apply node_values_In. split; [now apply Ba|]. 
    unfold f, next_node. fold (handle succ e). rewrite Z2Nat.id; [|apply An; now apply nth_In]. apply value_possible; auto; [now apply (legit_ok nv d Hd Ld)|now apply (handle_known nv succ Bs d Hd Ld)]. }
  destruct (Al (f e) Ij) as (e' & len & Ic).
  { rewrite Single; [discriminate|now apply Ba|]. apply (Ot 1). exact Ns. }
  rewrite Forall_forall in Q. destruct (Q _ Ic) as [Hf (fl & W)].
  assert (Fo : forall x j, x < length succ -> single_node succ (t_domains t) x = Some j -> f x = j) by (intros x j _; now apply single_follows).
  apply (walk_spec succ (t_domains t) f (f e) Fo Hf) in W; [|assumption|reflexivity|intros; lia|intros; lia]. destruct W as (Ee & Se & Nb & _).
  assert (Ee' : e' = e).
  { destruct (Nat.eq_dec e' e) as [|N]; [assumption|exfalso]. rewrite Ee, <- iter_S in N. destruct (Ot (S len) N) as (x & Ox). rewrite iter_S, <- Ee in Ox.
    rewrite (Single e') in Se; [discriminate| |now exists x]. rewrite Ee. now apply iter_bound. }
  rewrite Ee' in Ic. assert (Ll : len < p). { destruct (Nat.lt_ge_cases len p) as [|Ge]; [assumption|exfalso]. apply (Nb p); [lia|]. rewrite <- iter_S, iter_next. now rewrite Ec. }
  assert (X : live nv d t a /\ Forall (fun c : chain_found => let '(i, e, l) := c in l < n - 1 -> var_value a (handle succ e) <> Z.of_nat i) found).
  { apply (for_each_back nv d (fun c : chain_found => let '(i, e, l) := c in l < n - 1 -> var_value a (handle succ e) <> Z.of_nat i) a found (close_chain succ)); auto.
    - intros c u _ Gu. now apply close_chain_later.
    - intros [[i1 e1] l1] u _ Gu Lu. pose proof (close_chain_later (i1, e1, l1) u) as Lc. split; [now apply Lc|]. revert Lu. unfold close_chain. destruct (Nat.ltb_spec l1 (length succ - 1)) as [_|Ge]; [|intros _ Hl; lia]. intros Lu _.
      apply tell_back in Lu; auto; [|apply (handle_below nv succ Bs)]. destruct Lu as [_ Hl]. exact Hl. }
  destruct X as [_ X]. rewrite Forall_forall in X. specialize (X _ Ic). cbv beta iota in X. apply X; [lia|].
  unfold f, next_node. fold (handle succ e). rewrite Z2Nat.id; [reflexivity|]. apply An. now apply nth_In.
Qed.

(** With all successors in a set fixed there is no way out of it but along them. *)
Lemma fixed_way a i j : within a d -> leads_to d succ i j -> i < n -> (forall k, fixed d (handle succ (Nat.iter k (next_node succ a) i))) -> exists k, Nat.iter k (next_node succ a) i = j.
Proof.
  intros Wa P. induction P as [i|i m j (_ & Hm & Vm) P IH]; intros Hi Fx; [exists 0; reflexivity|].
  assert (E : next_node succ a i = m).
  { destruct (Fx 0) as (x & Ex). change (forall b, within b d -> var_value b (handle succ i) = x) in Ex. apply (view_member_iff d (handle succ i) (Z.of_nat m) Hd) in Vm; [|now apply (handle_known nv succ Bs d Hd Ld (track d) i (legit_track nv d))].
    destruct Vm as (b & Wb & Eb). unfold next_node. fold (handle succ i). rewrite (Ex a Wa), <- (Ex b Wb), Eb. apply Nat2Z.id. }
  destruct IH as (k & Ek); [assumption| |].
  - intro k. specialize (Fx (S k)). now rewrite iter_S, E in Fx.
  - exists (S k). now rewrite iter_S, E.
Qed.

Lemma scc_run_spec fuel U U' t : scc_hand d U -> scc_run fuel o succ d U = Some (U', t) ->
  honest nv d (circuit succ) t /\
  (t_failed t = false -> scc_hand (t_domains t) U' /\ (forall i j, i < n -> j < n -> leads_to d succ i j) /\
    forall a, within a (t_domains t) -> all_nodes succ a -> no_cycle_closing d (t_domains t) succ a).
Proof.
  intros Hh E. unfold scc_run in E. destruct (continue_different succ U (track d)) as [U1 t1] eqn:Cd. destruct (scc_first U U1 t1 Hh Cd) as [H1 N1].
  destruct (t_failed t1) eqn:F1; [injection E as <- <-; split; [assumption|congruence]|]. destruct (N1 eq_refl (check_sccs o succ t1) eq_refl) as [H2 N2]. clear N1. set (t2 := check_sccs o succ t1) in *.
  destruct (t_failed t2) eqn:F2; [injection E as <- <-; split; [assumption|congruence]|]. destruct (N2 eq_refl _ eq_refl) as (Ha & Un & Co & Sub & Nf). clear N2. set (U2 := fst (collect (length U1) (t_domains t2) succ [] U1 [])) in *.
  destruct (small_cycles fuel succ U2 t2) as [t3|] eqn:Sm; [|discriminate]. injection E as <- <-. pose proof (proj1 H2) as G2. pose proof (proj1 (proj2 Ha)) as Bu.
  destruct (small_cycles_spec fuel U2 t2 t3 G2 F2 Bu Un Sm) as [Lt Tr]. destruct (Lt G2) as [G3 Bk]. split.
  { split; [assumption|]. intros a Wa Ca. destruct (honest_within nv d Hd Ld _ t2 a H2 Wa Ca) as [_ W2]. destruct (Tr a Ca (conj G2 (conj F2 W2))) as (_ & F3 & W3). now apply (legit_within nv d Hd Ld t3 a G3 F3) in W3. }
  intro F3. assert (In23 : inside (t_domains t2) (t_domains t3)) by (intros b; now apply (later_inside nv d t2 t3 G2 Lt F3)).
  split; [now apply (hand_more (t_domains t2))|]. split; [assumption|]. intros a W3 An r p Hr P0 Pn Ec Ns (x & Nx). set (f := next_node succ a) in *. pose proof (next_bounded succ a An) as Ba. fold n f in Ba.
  set (e := Nat.iter x f r) in *. assert (He : e < n) by now apply iter_bound. change (~ fixed (t_domains t3) (handle succ e)) in Nx.
  assert (Dec : forall y, fixed d (handle succ y) \/ ~ fixed d (handle succ y)).
  { intro y. pose proof (alive_fixed nv succ Bs d Hd Ld (track d) y (legit_track nv d) eq_refl) as Af. cbn [t_domains track] in Af. rewrite Af. destruct (optional_single_value d (handle succ y)); [left; eauto|right]. intros (z & Ez). discriminate. }
  assert (Nd : ~ fixed d (handle succ e)) by (intro Q; apply Nx; apply (fixed_mono d); [|assumption]; now apply (legit_inside nv d Hd Ld t3 G3 F3)).
  assert (Dx : forall m, (exists y, y < m /\ Nat.iter y f r <> e /\ ~ fixed d (handle succ (Nat.iter y f r))) \/ forall y, y < m -> Nat.iter y f r <> e -> fixed d (handle succ (Nat.iter y f r))).
  { induction m as [|m [(y & Hy & Y)|IH]]; [right; intros; lia|left; exists y; split; [lia|assumption]|]. destruct (Nat.eq_dec (Nat.iter m f r) e) as [Em|Em].
    - right. intros y Hy Ne. apply IH; [|assumption]. destruct (Nat.eq_dec y m) as [->|]; [contradiction|lia].
    - destruct (Dec (Nat.iter m f r)) as [Fm|Fm]; [right; intros y Hy Ne; destruct (Nat.eq_dec y m) as [->|]; [assumption|apply IH; [lia|assumption]]|left; exists m; split; [lia|now split]]. }
  destruct (Dx p) as [(y & _ & Ny & Fy)|Al].
  { exists x, y. split; [now apply not_eq_sym|]. split; [exact Nd|exact Fy]. }
  exfalso. assert (Al' : forall y, Nat.iter y f r <> e -> fixed d (handle succ (Nat.iter y f r))).
  { intros y Ne. rewrite (cycle_mod f p r y P0 Ec) in *. apply Al; [apply Nat.mod_upper_bound; lia|assumption]. }
  assert (Ie : In e U2).
  { destruct (in_dec Nat.eq_dec e U2) as [I|Ni]; [assumption|]. exfalso. apply Nx. apply (fixed_mono (t_domains t2)); [assumption|]. now apply Ha. }
  assert (Ece : Nat.iter p f e = e). { unfold e. rewrite <- iter_add, Nat.add_comm, iter_add. now rewrite Ec. }
  assert (Nse : f e <> e).
  { intro Q. assert (St : forall k, Nat.iter k f e = e) by (induction k as [|k IHk]; [reflexivity|rewrite iter_next, IHk; exact Q]). apply Ns.
    assert (Er : r = e). { rewrite <- (St (x * p - x)). unfold e. rewrite <- iter_add. replace (x + (x * p - x)) with (x * p) by nia. rewrite (cycle_mod f p r (x * p) P0 Ec), Nat.mod_mul by lia. reflexivity. }
    rewrite Er. exact Q. }
  apply (chain_not_closed fuel U2 t2 t3 a G2 F2 Bu Sm F3 (conj G3 (conj F3 W3)) An e p Ie (Un e Ie)); auto.
  - destruct (Nat.eq_dec p 1) as [->|]; [|lia]. contradiction.
  - intros k Nk. apply (alive_fixed nv succ Bs d Hd Ld t2 _ G2 F2). apply (fixed_mono d); [now apply (legit_inside nv d Hd Ld t2 G2 F2)|].
    fold f in Nk |- *. unfold e in Nk |- *. rewrite <- iter_add in Nk |- *. now apply Al'.
Qed.

(** With no pruning every run comes to an end. *)
Lemma scc_run_returns U : no_pruning o -> scc_hand d U -> forall fuel, n < fuel -> scc_run fuel o succ d U <> None.
Proof.
  intros Np Hh fuel Le. unfold scc_run. destruct (continue_different succ U (track d)) as [U1 t1] eqn:Cd. destruct (scc_first U U1 t1 Hh Cd) as [H1 N1].
  destruct (t_failed t1) eqn:F1; [discriminate|]. destruct (N1 eq_refl (check_sccs o succ t1) eq_refl) as [H2 N2]. clear N1. set (t2 := check_sccs o succ t1) in *.
  destruct (t_failed t2) eqn:F2; [discriminate|]. destruct (N2 eq_refl _ eq_refl) as ((ND & Bu & Fx & Cv) & Un & Co & _). clear N2. set (U2 := fst (collect (length U1) (t_domains t2) succ [] U1 [])) in *.
  destruct (small_cycles fuel succ U2 t2) as [t3|] eqn:Sm; [discriminate|]. exfalso. revert Sm. unfold small_cycles. set (vals := flat_map _ U2). assert (Lv : Forall (fun j => j < length succ) vals).
  { apply Forall_forall. intros j Ij. apply in_flat_map in Ij. destruct Ij as (u & _ & Ij). now apply node_values_In in Ij. }
  pose proof (proj1 H2) as G2. destruct (gather fuel succ (t_domains t2) vals []) as [[found|]|] eqn:Ga; [discriminate|discriminate|]. intros _. revert Ga. apply gather_returns; auto.
  intros i j x Hi Hj Si Sj. destruct (Nat.eq_dec i j) as [|N]; [assumption|exfalso]. destruct (within_exists _ (legit_ok nv d Hd Ld t2 G2 F2)) as (a & Wa).
  unfold single_node in Si, Sj. destruct (optional_single_value (t_domains t2) (handle succ i)) as [zi|] eqn:Oi; [|discriminate]. destruct (optional_single_value (t_domains t2) (handle succ j)) as [zj|] eqn:Oj; [|discriminate].
  apply as_node_spec in Si. apply as_node_spec in Sj. destruct Si as [-> _]. destruct Sj as [-> _].
  apply (Cv Np j Hj) with (a := a) (j := i); auto; [intro I; rewrite (Un j I) in Oj; discriminate|].
  now rewrite (alive_single nv succ Bs d Hd Ld t2 i _ G2 F2 Oi a Wa), (alive_single nv succ Bs d Hd Ld t2 j _ G2 F2 Oj a Wa).
Qed.

(** With all successors fixed every run comes to an end. *)
Lemma scc_run_fixed U fuel : scc_hand d U -> Forall (fixed d) succ -> scc_run fuel o succ d U <> None.
Proof.
  intros Hh Fx. unfold scc_run. destruct (continue_different succ U (track d)) as [U1 t1] eqn:Cd. destruct (scc_first U U1 t1 Hh Cd) as [H1 N1].
  destruct (t_failed t1) eqn:F1; [discriminate|]. destruct (N1 eq_refl (check_sccs o succ t1) eq_refl) as [H2 N2]. clear N1. set (t2 := check_sccs o succ t1) in *.
  destruct (t_failed t2) eqn:F2; [discriminate|]. destruct (N2 eq_refl _ eq_refl) as ((ND & Bu & _) & Un & _). set (U2 := fst (collect (length U1) (t_domains t2) succ [] U1 [])) in *. pose proof (proj1 H2) as G2.
  assert (Em : U2 = []).
  { destruct U2 as [|i r]; [reflexivity|exfalso]. apply Forall_cons_iff in Bu. destruct Bu as [Hi _]. specialize (Un i (or_introl eq_refl)).
    assert (Fi : fixed (t_domains t2) (handle succ i)) by (apply (fixed_mono d); [now apply (legit_inside nv d Hd Ld t2 G2 F2)|]; rewrite Forall_forall in Fx; apply Fx; now apply nth_In).
    apply (alive_fixed nv succ Bs d Hd Ld t2 i G2 F2) in Fi. destruct Fi as (z & Ez). congruence. }
  rewrite Em. cbn. discriminate.
Qed.
End Run.

Definition scc_own (o : scc_options) (succ : list var_id) (D : domains) (s : cstate) : Prop := exists U, s = map Z.of_nat U /\ scc_hand succ o D U.

Lemma scc_own_more o succ D D' s : inside D D' -> scc_own o succ D s -> scc_own o succ D' s.
Proof. intros I (U & -> & Hh). exists U. split; [reflexivity|]. now apply (hand_more succ o D). Qed.

Lemma scc_own_start o succ D : scc_own o succ D (map Z.of_nat (seq 0 (length succ))).
Proof.
  exists (seq 0 (length succ)). split; [reflexivity|]. split; [apply seq_NoDup|]. split; [apply Forall_forall; intros i I; apply in_seq in I; lia|].
  split; [|intros _]; intros i Hi N; destruct N; apply in_seq; lia.
Qed.

Lemma scc_body_run nv o succ d s m : Forall (var_below nv) succ -> 0 < length succ -> domains_ok d -> length d = nv -> scc_own o succ d s ->
  honest nv d (circuit succ) (e_tracker (scc_body o succ d s m)) /\
  (t_failed (e_tracker (scc_body o succ d s m)) = false -> scc_own o succ (t_domains (e_tracker (scc_body o succ d s m))) (e_state (scc_body o succ d s m))) /\
  e_result (scc_body o succ d s m) = Enable.
Proof.
  intros Bs So Hd Ld (U & -> & Hh). unfold scc_body. rewrite to_of_nat. destruct (scc_run (S (length succ)) o succ d U) as [[U' t]|] eqn:E; cbn [e_tracker e_state e_result].
  - destruct (scc_run_spec nv succ Bs So o d Hd Ld _ _ _ _ Hh E) as [H Q]. split; [assumption|]. split; [|reflexivity]. intro F. exists U'. split; [reflexivity|]. now apply Q.
  - split; [apply honest_track|]. split; [|reflexivity]. intros _. exists U. now split.
Qed.

Lemma scc_meets nv d0 alias o succ : Forall (var_below nv) succ -> 0 < length succ ->
  state_meets nv d0 (scc_own o succ) alias (scc_body o succ) succ (circuit succ) (fun a => all_nodes succ a -> circuit succ a).
Proof.
  intros Bs So. constructor.
  - intros d s m Hd Ld _ Ow. now apply (scc_body_run nv o succ d s m).
  - intros d s m Hd Ld _ Ow. now apply (scc_body_run nv o succ d s m).
  - intros d s m a Hd Ld _ (U & -> & Hh) Fx Lv A. unfold scc_body in Lv. rewrite to_of_nat in Lv. pose proof (scc_run_fixed nv succ Bs So o d Hd Ld U (S (length succ)) Hh Fx) as Nn.
    destruct (scc_run (S (length succ)) o succ d U) as [[U' t]|] eqn:E; [|congruence]. cbn [e_tracker] in Lv. destruct (scc_run_spec nv succ Bs So o d Hd Ld _ _ _ _ Hh E) as [H Q].
    destruct (Q (proj1 (proj2 Lv))) as (_ & Co & _). split; [assumption|]. intros i j Hi Hj. pose proof (next_bounded succ a A) as Ba.
    apply (fixed_way nv succ Bs d Hd Ld a); auto.
    + now apply (live_within nv d Hd Ld t).
    + intro k. rewrite Forall_forall in Fx. apply Fx. apply nth_In. now apply iter_bound.
  - intros d s m a Hd Ld _ Ow _ R. destruct (scc_body_run nv o succ d s m Bs So Hd Ld Ow) as (_ & _ & Re). congruence.
  - intros d s m a Hd Ld _ Ow R. destruct (scc_body_run nv o succ d s m Bs So Hd Ld Ow) as (_ & _ & Re). congruence.
Qed.

(** ** Posting *)

Lemma circuit_scc_refused o succ a : circuit_scc o succ = None -> ~ circuit succ a.
Proof. intro E. apply circuit_prevent_refused. unfold circuit_scc in E. unfold circuit_prevent. now destruct (repeats_variable succ). Qed.

Lemma circuit_scc_means d0 o succ k : succ <> [] -> Forall (var_known d0) succ -> circuit_scc o succ = Some k -> means d0 k succ (circuit succ).
Proof.
  intros Ne K E. unfold circuit_scc in E. destruct (repeats_variable succ); [discriminate|]. injection E as <-. assert (So : 0 < length succ) by (destruct succ; [congruence|cbn [length]; lia]).
  assert (B : Forall (var_below (length d0)) succ) by now apply known_below_all. split; [assumption|]. split; [now apply circuit_local|]. intros hidden cs Hd.
  assert (Bd : Forall (var_below (length (d0 ++ hidden))) succ).
  { eapply Forall_impl; [|exact B]. intros v. apply below_more. unfold domains, iset in *. rewrite app_length. lia. }
  assert (Kd : Forall (var_known (d0 ++ hidden)) succ) by now apply known_below_all.
  exists (circuit succ), (owned (length cs) (scc_own o succ)).
  apply (parts_installs (d0 ++ hidden) cs _ _ succ [] [] _ _ succ (circuit succ) (fun _ => True) (fun a => all_nodes succ a -> circuit succ a) (all_nodes succ)); auto.
  - now apply circuit_local.
  - rewrite app_nil_r. apply incl_refl.
  - intros D D' s _ _ I Ow. now apply (scc_own_more o succ D).
  - intros more _. apply scc_own_start.
  - intros nv Ln. apply scc_meets; [|assumption]. eapply Forall_impl; [|exact Bd]. intros v. now apply below_more.
  - now apply self_loops_carried.
  - now apply node_bounds_established.
Qed.

(** ** Consistency *)

Lemma lives_scc o succ d0 s0 h : domains_ok d0 -> Forall (var_known d0) succ -> 0 < length succ -> s0 = map Z.of_nat (seq 0 (length succ)) ->
  forall D s, lives (state_propagator h (scc_body o succ) succ [] []) h d0 s0 D s -> domains_ok D /\ length D = length d0 /\ scc_own o succ D s.
Proof.
  intros Hd K So -> D s L. assert (B : Forall (var_below (length d0)) succ) by now apply known_below_all.
  induction L as [|D D' s L IH HD' Le I|i D' evs s L IH E A].
  - split; [assumption|]. split; [reflexivity|]. apply scc_own_start.
  - destruct IH as (H1 & H2 & Ow). split; [assumption|]. split; [now transitivity (length D)|]. now apply (scc_own_more o succ D).
  - destruct IH as (H1 & H2 & Ow). cbn [state_propagator p_run state_run o_infer o_cstates] in *. rewrite (nth_error_nth _ _ _ E) in *.
    assert (Hh : h < length (i_cstates i)) by (apply nth_error_Some; congruence).
    rewrite (nth_error_nth _ _ _ (nth_error_set_nth (i_cstates i) h (e_state (scc_body o succ (i_domains i) s (i_memo i))) Hh)).
    destruct (scc_body_run (length d0) o succ (i_domains i) s (i_memo i) B So H1 H2 Ow) as ([G _] & Q & _). set (e := scc_body o succ (i_domains i) s (i_memo i)) in *.
    destruct (lg_apply _ _ _ G) as (ev & A'). rewrite A' in A. injection A as A1 _ A2. subst D'.
    split; [now apply (legit_ok (length d0) (i_domains i))|]. split; [now apply (legit_length (length d0) (i_domains i))|]. now apply Q.
Qed.

Lemma circuit_connected d0 cs o succ k : domains_ok d0 -> Forall (var_known d0) succ -> succ <> [] -> circuit_scc o succ = Some k ->
  exists ps p s0, in_props (k d0 cs) = ps ++ [p] /\ in_states (k d0 cs) = [s0] /\
  forall i s D evs u t, lives p (length cs) d0 s0 (i_domains i) s -> nth_error (i_cstates i) (length cs) = Some s ->
    scc_run (S (length succ)) o succ (i_domains i) (map Z.to_nat s) = Some (u, t) ->
    apply_lits (i_domains i) (o_infer (p_run p i)) = (D, evs, false) ->
    (forall i1 j, i1 < length succ -> j < length succ -> leads_to (i_domains i) succ i1 j) /\
    forall a, within a D -> all_nodes succ a -> no_cycle_closing (i_domains i) D succ a.
Proof.
  intros Hd K Ne E. unfold circuit_scc in E. destruct (repeats_variable succ); [discriminate|]. injection E as <-. cbn [in_props in_states]. assert (So : 0 < length succ) by (destruct succ; [congruence|cbn [length]; lia]).
  eexists _, _, _. split; [reflexivity|]. split; [reflexivity|]. intros i s D evs u t L En Er A.
  assert (B : Forall (var_below (length d0)) succ) by now apply known_below_all.
  destruct (lives_scc o succ d0 _ _ Hd K So eq_refl _ _ L) as (H1 & H2 & (U & -> & Hh)).
  cbn [state_propagator p_run state_run o_infer] in A. rewrite (nth_error_nth _ _ _ En) in A. unfold scc_body in A. rewrite Er in A. cbn [e_tracker] in A. rewrite to_of_nat in Er.
  destruct (scc_run_spec (length d0) succ B So o (i_domains i) H1 H2 _ _ _ _ Hh Er) as [[G _] Q]. destruct (lg_apply _ _ _ G) as (ev & A'). rewrite A' in A. injection A as <- _ F.
  destruct (Q F) as (_ & Co & Cl). now split.
Qed.

Lemma circuit_returns d0 cs o succ k : domains_ok d0 -> Forall (var_known d0) succ -> succ <> [] -> circuit_scc o succ = Some k ->
  exists ps p s0, in_props (k d0 cs) = ps ++ [p] /\ in_states (k d0 cs) = [s0] /\
  forall D s, lives p (length cs) d0 s0 D s -> no_pruning o \/ Forall (fixed D) succ -> scc_run (S (length succ)) o succ D (map Z.to_nat s) <> None.
Proof.
  intros Hd K Ne E. unfold circuit_scc in E. destruct (repeats_variable succ); [discriminate|]. injection E as <-. cbn [in_props in_states]. assert (So : 0 < length succ) by (destruct succ; [congruence|cbn [length]; lia]).
  eexists _, _, _. split; [reflexivity|]. split; [reflexivity|]. intros D s L Or.
  assert (B : Forall (var_below (length d0)) succ) by now apply known_below_all.
  destruct (lives_scc o succ d0 _ _ Hd K So eq_refl _ _ L) as (H1 & H2 & (U & -> & Hh)). rewrite to_of_nat. destruct Or as [Np|Fx].
  - apply (scc_run_returns (length d0) succ B So); auto.
  - now apply (scc_run_fixed (length d0) succ B So).
Qed.

(** ** A run that does not return *)

Lemma gather_unfixed fuel succ D j r found : single_node succ D j = None -> gather fuel succ D (j :: r) found = gather fuel succ D r found.
Proof. intro E. cbn [gather]. now rewrite E. Qed.

Lemma gather_walk fuel succ D j r found x : single_node succ D j = Some x -> existsb (fun '(i, _, _) => Nat.eqb i j) found = false ->
  gather fuel succ D (j :: r) found = match walk fuel succ D j j 0 with None => None | Some Closed => Some None | Some (Ended e len) => gather fuel succ D r ((j, e, len) :: found) end.
Proof. intros E F. cbn [gather]. now rewrite E, F. Qed.

(** A walk that comes to two nodes that lead to each other goes on between them. *)
Lemma walk_between succ D j0 x y : single_node succ D x = Some y -> single_node succ D y = Some x -> x <> j0 -> y <> j0 ->
  forall fuel len, walk fuel succ D j0 x len = None /\ walk fuel succ D j0 y len = None.
Proof.
  intros Ex Ey Nx Ny. induction fuel as [|fuel IH]; intro len; [now split|]. cbn [walk]. rewrite Ex, Ey. destruct (Nat.eqb_spec y j0); [contradiction|]. destruct (Nat.eqb_spec x j0); [contradiction|]. split; now apply IH.
Qed.

Definition endless_domains : domains := [[(1,2);(8,8)];[(0,0);(4,4)];[(1,1);(4,5)];[(6,6)];[(0,1)];[(1,2);(4,4)];[(1,1);(3,3)];[(1,1);(3,3)];[(2,2);(5,5);(7,7)]]%Z.

Definition endless_successors : list var_id := map VSimple (seq 0 9).
Definition endless_first : list nat * tracker := continue_different endless_successors (seq 0 9) (track endless_domains).
Definition endless_second : tracker := check_sccs default_options endless_successors (snd endless_first).
Definition endless_left : list nat := fst (collect (length (fst endless_first)) (t_domains endless_second) endless_successors [] (fst endless_first) []).

Lemma endless_single j : single_node endless_successors (t_domains endless_second) j =
  match j with 0 => Some 8 | 1 | 2 | 4 | 5 | 8 => None | 3 => Some 6 | 6 => Some 3 | 7 => Some 3 | _ => Some 0 end.
Proof. do 9 (destruct j as [|j]; [vm_compute; reflexivity|]). unfold single_node, handle. rewrite nth_overflow by (vm_compute; lia). vm_compute. reflexivity. Qed.

Lemma default_endless : forall fuel, scc_run fuel default_options endless_successors endless_domains (seq 0 9) = None.
Proof.
  intro fuel. unfold scc_run. fold endless_first. rewrite (surjective_pairing endless_first). replace (t_failed (snd endless_first)) with false by (vm_compute; reflexivity).
  fold endless_second. cbv zeta. replace (t_failed endless_second) with false by (vm_compute; reflexivity). fold endless_left. unfold small_cycles.
  replace (flat_map (node_values endless_successors (t_domains endless_second)) endless_left) with [1; 2; 4; 0; 4; 1; 4; 5; 2; 5; 7; 0; 1] by (vm_compute; reflexivity).
  do 3 rewrite gather_unfixed by apply endless_single. rewrite (gather_walk _ _ _ _ _ _ _ (endless_single 0)) by reflexivity.
  destruct (walk fuel endless_successors (t_domains endless_second) 0 0 0) as [w|] eqn:W; [|reflexivity].
  assert (Ew : w = Ended 8 1). { destruct fuel as [|[|fuel]]; cbn [walk] in W; [discriminate|rewrite endless_single in W; cbn in W; discriminate|]. rewrite !endless_single in W. cbn in W. congruence. }
  rewrite Ew. do 6 rewrite gather_unfixed by apply endless_single. rewrite (gather_walk _ _ _ _ _ _ _ (endless_single 7)) by reflexivity.
  destruct fuel as [|fuel]; [reflexivity|]. cbn [walk]. rewrite endless_single. change (3 =? 7) with false. cbv iota.
  destruct (walk_between endless_successors (t_domains endless_second) 7 3 6 (endless_single 3) (endless_single 6)) with (fuel := fuel) (len := 1) as [-> _]; [discriminate|discriminate|reflexivity].
Qed.

Lemma default_does_not_return : exists d0 succ k, domains_ok d0 /\ Forall (var_known d0) succ /\ succ <> [] /\ circuit_scc default_options succ = Some k /\
  in_states (k d0 []) = [map Z.of_nat (seq 0 (length succ))] /\
  forall fuel, scc_run fuel default_options succ d0 (seq 0 (length succ)) = None.
Proof.
  exists endless_domains, endless_successors. eexists. split; [|split; [|split; [discriminate|split; [reflexivity|split; [reflexivity|exact default_endless]]]]].
  - intros [|[|[|[|[|[|[|[|[|k]]]]]]]]] Hk; simpl in *; try lia; (split; [lia|]); [exists 1%Z|exists 0%Z|exists 1%Z|exists 6%Z|exists 0%Z|exists 1%Z|exists 1%Z|exists 1%Z|exists 2%Z]; apply member_cons; lia.
  - repeat constructor; simpl; lia.
Qed.
