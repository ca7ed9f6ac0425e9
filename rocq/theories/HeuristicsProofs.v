From Coq Require Import ZArith List Bool Arith Lia Permutation.
From Verif Require Import IntervalSet IntervalSetSpec IntervalSetProofs Vars VarsSpec State StateSpec StateProofs Epochs Engine EngineSpec
  Tracker SessionSpec ContractSpec ContractProofs Search SearchSpec Heuristics HeuristicsSpec.
Import ListNotations.
Local Open Scope Z_scope.

Section OneHandle.
Variables (d : domains) (v : var_id).
Hypothesis Hd : domains_ok d.
Hypothesis Hk : var_known d v.

Lemma values_possible x : In x (each_value d v) <-> possible d v x.
Proof. now destruct (view_accessors d v Hd Hk) as (_ & _ & _ & _ & _ & _ & _ & (P & _) & _). Qed.

Lemma values_length : Z.of_nat (length (each_value d v)) = domain_size d v.
Proof. now destruct (view_accessors d v Hd Hk) as (_ & _ & _ & _ & _ & _ & _ & (_ & _ & P) & _). Qed.

Lemma values_NoDup : NoDup (each_value d v).
Proof. now apply each_value_NoDup. Qed.

Lemma two_values (l : list Z) : NoDup l -> ((2 <= length l)%nat <-> exists x y, x <> y /\ In x l /\ In y l).
Proof.
  intro N. split.
  - destruct l as [|x [|y r]]; simpl; try lia. intros _. inversion_clear N as [|? ? Nx _]. exists x, y.
    split; [|split; simpl; auto]. intros ->. apply Nx. now left.
  - intros (x & y & D & Ix & Iy). destruct l as [|a [|b r]]; simpl in *; [tauto| |lia].
    destruct Ix as [<-|[]], Iy as [<-|[]]. congruence.
Qed.

Lemma undecided_size : undecided d v <-> 2 <= domain_size d v.
Proof.
  rewrite <- values_length. transitivity (2 <= length (each_value d v))%nat; [|lia].
  rewrite two_values by apply values_NoDup. split; intros (x & y & D & Px & Py); exists x, y; (split; [assumption|split; now apply values_possible]).
Qed.

Lemma decided_fixed : ~ undecided d v -> fixed d v.
Proof.
  intro N. destruct (view_accessors d v Hd Hk) as ((L & _) & _). exists (lower_bound d v).
  intros a Wa. destruct (Z.eq_dec (var_value a v) (lower_bound d v)) as [|D]; [assumption|].
  exfalso. apply N. exists (var_value a v), (lower_bound d v). split; [assumption|]. split; [|assumption]. now exists a.
Qed.

(** A condition and its negation. *)
Lemma two_way c : c_var c = v ->
  (exists x, possible d v x /\ op_holds (c_op c) x (c_value c) (c_upper c)) ->
  (exists x, possible d v x /\ ~ op_holds (c_op c) x (c_value c) (c_upper c)) ->
  partitions d v [c; cond_not c] /\ partitions d v [cond_not c; c].
Proof.
  intros Ev Y N.
  assert (V : c_var (cond_not c) = v) by (destruct c as [w op x y]; destruct op; exact Ev).
  assert (Not : forall x, op_holds (c_op (cond_not c)) x (c_value (cond_not c)) (c_upper (cond_not c)) <-> ~ op_holds (c_op c) x (c_value c) (c_upper c)).
  { intro x. destruct c as [w op p q]; destruct op; cbn [cond_not c_op c_value c_upper op_holds]; lia. }
  assert (Dec : forall x, op_holds (c_op c) x (c_value c) (c_upper c) \/ ~ op_holds (c_op c) x (c_value c) (c_upper c)).
  { intro x. destruct c as [w op p q]; destruct op; cbn [c_op c_value c_upper op_holds]; lia. }
  assert (Y' : exists x, possible d v x /\ op_holds (c_op (cond_not c)) x (c_value (cond_not c)) (c_upper (cond_not c))).
  { destruct N as (x & P & H). exists x. split; [assumption|]. now apply Not. }
  assert (N' : exists x, possible d v x /\ ~ op_holds (c_op (cond_not c)) x (c_value (cond_not c)) (c_upper (cond_not c))).
  { destruct Y as (x & P & H). exists x. split; [assumption|]. rewrite Not. tauto. }
  split; constructor.
  - repeat (constructor; [assumption|]). constructor.
  - intros x _. destruct (Dec x) as [H|H]; [left|right; left; apply Not]; assumption.
  - intro x. constructor; [|constructor; constructor]. constructor; [|constructor]. intros H H'. apply Not in H'. tauto.
  - repeat (constructor; [assumption|]). constructor.
  - repeat (constructor; [assumption|]). constructor.
  - repeat (constructor; [assumption|]). constructor.
  - intros x _. destruct (Dec x) as [H|H]; [right; left|left; apply Not]; assumption.
  - intro x. constructor; [|constructor; constructor]. constructor; [|constructor]. intros H H'. apply Not in H. tauto.
  - repeat (constructor; [assumption|]). constructor.
  - repeat (constructor; [assumption|]). constructor.
Qed.

Lemma each_in l : (forall x, In x l <-> possible d v x) -> NoDup l -> undecided d v -> partitions d v (map (cond_eq v) l).
Proof.
  intros P N (x & y & D & Px & Py). constructor.
  - apply Forall_map. apply Forall_forall. reflexivity.
  - intros z Pz. apply Exists_exists. exists (cond_eq v z). split; [apply in_map; now apply P|reflexivity].
  - intro z. clear P. induction N as [|w r Nw _ IH]; [constructor|]. simpl. constructor; [|assumption].
    apply Forall_map. apply Forall_forall. intros w' Iw'. cbn. intros -> ->. contradiction.
  - apply Forall_map. apply Forall_forall. intros z Iz. exists z. split; [now apply P|reflexivity].
  - apply Forall_map. apply Forall_forall. intros z Iz. destruct (Z.eq_dec z x) as [->|E]; [exists y|exists x]; cbn; split; auto.
Qed.

Lemma at_value x : possible d v x -> undecided d v ->
  partitions d v [cond_eq v x; cond_ne v x] /\ partitions d v [cond_ne v x; cond_eq v x].
Proof.
  intros P (y & z & D & Py & Pz). apply (two_way (cond_eq v x)); [reflexivity|now exists x|].
  destruct (Z.eq_dec x y) as [->|E]; [exists z|exists y]; cbn; split; auto.
Qed.

Lemma cut_at x y z : possible d v y -> possible d v z -> y <= x < z ->
  partitions d v [cond_le v x; cond_gt v x] /\ partitions d v [cond_gt v x; cond_le v x].
Proof.
  intros Py Pz L. apply (two_way (cond_le v x)); [reflexivity|exists y|exists z]; cbn; split; auto; lia.
Qed.

Lemma increasing_nth (l : list Z) i j x y : strictly_increasing l -> nth_error l i = Some x -> nth_error l j = Some y -> (i < j)%nat -> x < y.
Proof.
  revert i j. induction l as [|a r IH]; intros [|i] [|j] S; try discriminate; simpl in *; try lia; destruct S as [F S].
  - intros [= ->] Ej _. apply F. now apply nth_error_In in Ej.
  - intros Ei Ej L. apply (IH i j S Ei Ej). lia.
Qed.

Lemma nth_some (l : list Z) i : (i < length l)%nat -> exists x, nth_error l i = Some x /\ In x l.
Proof. intro L. destruct (nth_error l i) as [x|] eqn:E; [exists x; split; auto; now apply nth_error_In in E|]. apply nth_error_None in E. lia. Qed.

Lemma increasing_map (f : Z -> Z) l : (forall x y, x < y -> f x < f y) -> strictly_increasing l -> strictly_increasing (map f l).
Proof.
  intro M. induction l as [|x r IH]; [auto|]. intros [F S]. cbn [map]. split; [|now apply IH].
  intros y Iy. apply in_map_iff in Iy. destruct Iy as (z & <- & Iz). apply M. now apply F.
Qed.

Lemma values_increasing : ~ negated v -> strictly_increasing (each_value d v).
Proof.
  intro N. destruct v as [n|n neg add|c]; unfold each_value; simpl.
  - apply increasing_map; [intros; unfold apply_view; lia|]. apply each_incr. apply (Hd n Hk).
  - destruct neg; [exfalso; apply N; exact Logic.I|]. apply increasing_map; [intros; unfold apply_view; lia|]. apply each_incr. apply (Hd n Hk).
  - split; [intros y []|exact Logic.I].
Qed.

Lemma split_spec : undecided d v -> ~ negated v -> exists x, split_at d v = Some x /\
  partitions d v [cond_le v x; cond_gt v x] /\ partitions d v [cond_gt v x; cond_le v x].
Proof.
  intros U N. apply undecided_size in U. pose proof values_length as L. unfold split_at.
  set (n := length (each_value d v)) in *.
  assert (Q : 1 <= domain_size d v / 2) by (apply Z.div_le_lower_bound; lia).
  assert (Q' : domain_size d v / 2 < domain_size d v) by (apply Z.div_lt; lia).
  destruct (nth_some (each_value d v) (Z.to_nat (domain_size d v / 2 - 1))) as (x & Ex & Ix); [fold n; lia|].
  destruct (nth_some (each_value d v) (n - 1)) as (y & Ey & Iy); [fold n; lia|].
  exists x. split; [assumption|]. apply (cut_at x x y); try (now apply values_possible). split; [lia|].
  apply (increasing_nth _ _ _ _ _ (values_increasing N) Ex Ey). lia.
Qed.

Lemma reversed_values : (forall x, In x (each_reversed (copy_of_values d v)) <-> possible d v x) /\ NoDup (each_reversed (copy_of_values d v)).
Proof.
  destruct (view_accessors d v Hd Hk) as (_ & _ & _ & _ & _ & _ & _ & _ & (W & P)). rewrite each_reversed_rev. split.
  - intro x. rewrite <- in_rev, each_In. apply P.
  - apply NoDup_rev. apply incr_NoDup. now apply each_incr.
Qed.

Lemma guesses_spec r o : honest r -> undecided d v -> (splitting o -> ~ negated v) -> exists cs, guesses r o d v = Some cs /\ partitions d v cs.
Proof.
  intros [Dr Sh] U Sp. pose proof U as U'. rewrite undecided_size, <- values_length in U'.
  destruct (view_accessors d v Hd Hk) as ((Lo & _) & (Up & _) & _).
  assert (Any : forall n, exists x, nth_error (each_value d v) (draw r n 0 (length (each_value d v) - 1)) = Some x /\ possible d v x).
  { intro n. destruct (nth_some (each_value d v) (draw r n 0 (length (each_value d v) - 1))) as (x & E & I).
    - specialize (Dr n 0%nat (length (each_value d v) - 1)%nat). lia.
    - exists x. split; [assumption|now apply values_possible]. }
  assert (Out : exists cs, option_map (fun x => [cond_ne v x; cond_eq v x]) (nth_error (each_value d v) (draw r 1 0 (length (each_value d v) - 1))) = Some cs /\ partitions d v cs).
  { destruct (Any 1%nat) as (x & -> & P). eexists. split; [reflexivity|]. now apply at_value. }
  destruct o; cbn [guesses].
  - eexists. split; [reflexivity|]. apply each_in; [|eapply Permutation_NoDup; [apply Sh|apply values_NoDup]|assumption].
    intro x. rewrite <- values_possible. split; apply Permutation_in; [apply Permutation_sym|]; apply Sh.
  - exact Out.
  - destruct v as [n|n neg add|c] eqn:Ev; try exact Out. rewrite <- Ev in *. destruct (Nat.leb 3 _) eqn:E3; [|exact Out]. apply Nat.leb_le in E3.
    set (len := length (each_value d v)) in *.
    pose proof (Dr 1%nat 1%nat (len - 2)%nat) as D1. pose proof (Dr 2%nat 1%nat (len - 2)%nat) as D2.
    set (i := draw r 1 1 (len - 2)) in *. set (j := draw r 2 1 (len - 2)) in *.
    destruct (nth_some (each_value d v) (Nat.min i j)) as (lo & El & Il); [fold len; lia|].
    destruct (nth_some (each_value d v) (Nat.max i j)) as (hi & Eh & Ih); [fold len; lia|].
    destruct (nth_some (each_value d v) 0) as (first & Ef & If); [fold len; lia|]. rewrite El, Eh.
    assert (Inc : strictly_increasing (each_value d v)) by (apply values_increasing; rewrite Ev; intros []).
    assert (Lf : first < lo) by (apply (increasing_nth _ _ _ _ _ Inc Ef El); lia).
    assert (Lh : lo <= hi).
    { destruct (Nat.eq_dec (Nat.min i j) (Nat.max i j)) as [E|E]; [rewrite E in El; rewrite El in Eh; injection Eh; lia|].
      apply Z.lt_le_incl. apply (increasing_nth _ _ _ _ _ Inc El Eh). lia. }
    apply values_possible in Il, Ih, If.
    unfold cond_not_in_range, cond_in_range. destruct (Z.ltb_spec hi lo); [lia|]. destruct (Z.eqb_spec lo hi) as [E|E]; cbn [both].
    + eexists. split; [reflexivity|]. apply (at_value lo Il U).
    + eexists. split; [reflexivity|]. apply (two_way (mk_cond v OpInRange lo hi)); [reflexivity|exists lo|exists first]; cbn; split; auto; lia.
  - eexists. split; [reflexivity|]. now apply at_value.
  - eexists. split; [reflexivity|]. now apply at_value.
  - eexists. split; [reflexivity|]. apply each_in; auto using values_possible, values_NoDup.
  - destruct (split_spec U (Sp ltac:(red; auto))) as (x & -> & P & _). eexists. split; [reflexivity|assumption].
  - destruct (split_spec U (Sp ltac:(red; auto))) as (x & -> & _ & P). eexists. split; [reflexivity|assumption].
  - destruct (split_spec U (Sp ltac:(red; auto))) as (x & -> & P & P'). eexists. split; [reflexivity|]. now destruct (Nat.eqb _ 0).
  - eexists. split; [reflexivity|]. now apply at_value.
  - eexists. split; [reflexivity|]. now apply at_value.
  - eexists. split; [reflexivity|]. destruct reversed_values. now apply each_in.
  - destruct (nth_some (each_value d v) (length (each_value d v) / 2)) as (x & -> & I); [apply Nat.div_lt; lia|].
    eexists. split; [reflexivity|]. apply at_value; [now apply values_possible|assumption].
Qed.

End OneHandle.

Lemma in_order_of_spec comp (d : domains) vs : domains_ok d -> Forall (var_known d) vs -> picks d vs (in_order_of comp vs d).
Proof.
  intros Hd Hk. unfold in_order_of.
  set (f := fun result v => _).
  assert (H : forall rest sofar r, Forall (var_known d) rest -> picks d sofar r -> picks d (sofar ++ rest) (fold_left f rest r)).
  { induction rest as [|v rest IH]; intros sofar r K P; [now rewrite app_nil_r|]. inversion_clear K as [|? ? Kv Kr].
    cbn [fold_left]. replace (sofar ++ v :: rest) with ((sofar ++ [v]) ++ rest) by (rewrite <- app_assoc; reflexivity).
    apply IH; [assumption|]. unfold f, assigned. destruct (Z.ltb_spec (domain_size d v) 2) as [L|L].
    - destruct r as [w|]; simpl in *.
      + destruct P as [I U]. split; [apply in_or_app; now left|assumption].
      + apply Forall_app. split; [assumption|]. constructor; [|constructor]. rewrite undecided_size by assumption. lia.
    - assert (U : undecided d v) by (apply undecided_size; assumption).
      assert (Here : picks d (sofar ++ [v]) (Some v)) by (split; [apply in_or_app; right; now left|assumption]).
      destruct r as [w|]; [|assumption]. destruct (comp v w); [assumption|]. destruct P as [I Uw]. split; [apply in_or_app; now left|assumption]. }
  apply (H vs [] None Hk). constructor.
Qed.

Lemma in_order_spec (d : domains) vs : domains_ok d -> Forall (var_known d) vs -> picks d vs (in_order vs d).
Proof.
  intros Hd Hk. unfold in_order. induction Hk as [|v r Kv Kr IH]; [constructor|]. simpl. unfold assigned at 1.
  destruct (Z.ltb_spec (domain_size d v) 2) as [L|L]; simpl.
  - destruct (find _ r) as [w|]; simpl in *.
    + destruct IH. split; [now right|assumption].
    + constructor; [|assumption]. rewrite undecided_size by assumption. lia.
  - split; [now left|]. now apply undecided_size.
Qed.

Lemma random_variable_spec r (d : domains) vs : honest r -> domains_ok d -> Forall (var_known d) vs -> picks d vs (random_variable r vs d).
Proof.
  intros [Dr _] Hd Hk. unfold random_variable. pose proof (proj1 (Forall_forall _ _) Hk) as K.
  destruct (filter _ vs) as [|w l] eqn:E.
  - simpl. apply Forall_forall. intros v Iv U. apply undecided_size in U; auto.
    assert (I : In v (filter (fun v => 2 <=? domain_size d v) vs)) by (apply filter_In; split; [assumption|now apply Z.leb_le]). rewrite E in I. destruct I.
  - specialize (Dr 0%nat 0%nat (length (w :: l) - 1)%nat ltac:(lia)).
    destruct (nth_error (w :: l) _) as [v|] eqn:Ev.
    + apply nth_error_In in Ev. rewrite <- E in Ev. apply filter_In in Ev. destruct Ev as [Iv S]. split; [assumption|]. apply undecided_size; auto. now apply Z.leb_le.
    + apply nth_error_None in Ev. simpl length in *. lia.
Qed.

Lemma select_spec r o k (d : domains) vs : honest r -> domains_ok d -> Forall (var_known d) vs -> picks d vs (select r o k vs d).
Proof.
  intros Hr Hd Hk. destruct o; simpl; [now apply random_variable_spec|now apply in_order_spec|now apply in_order_of_spec].
Qed.

Lemma holds_op (d : domains) v cs : partitions d v cs -> forall a c, In c cs -> (cond_holds a c <-> op_holds (c_op c) (var_value a v) (c_value c) (c_upper c)).
Proof. intros P a c I. pose proof (proj1 (Forall_forall _ _) (pa_var _ _ _ P) c I) as E. cbn in E. subst v. reflexivity. Qed.

Lemma not_all_fixed (d : domains) v : domains_ok d -> undecided d v -> ~ fixed d v.
Proof. intros Hd (x & y & D & (a & Wa & Ea) & (b & Wb & Eb)) (z & Fz). apply D. rewrite <- Ea, <- Eb. now rewrite (Fz a Wa), (Fz b Wb). Qed.

(** What one node's guesses have to satisfy. *)
Definition node_ok (d : domains) (vs : list var_id) (cs : list cond) : Prop :=
  match cs with
  | [] => Forall (fixed d) vs
  | _ => exists v, In v vs /\ partitions d v cs
  end.

Lemma branch_node_ok rngs h k (d : domains) : (forall k, honest (rngs k)) -> domains_ok d -> Forall (var_known d) (handles h) -> splits_forwards h ->
  node_ok d (handles h) (branch_of rngs h k d).
Proof.
  intros Hr Hd. induction h as [vs var val|a IHa b IHb]; simpl; intros Hk Sf.
  - pose proof (select_spec (rngs k) var k d vs (Hr k) Hd Hk) as P. destruct (select (rngs k) var k vs d) as [v|]; simpl in P.
    + destruct P as [Iv U]. pose proof (proj1 (Forall_forall _ _) Hk v Iv) as Kv.
      destruct (guesses_spec d v Hd Kv (rngs k) val (Hr k) U) as (cs & -> & Pa).
      { intro S. apply (proj1 (Forall_forall _ _) (Sf S) v Iv). }
      destruct cs as [|c cs]; [|exists v; auto]. exfalso. destruct U as (x & _ & _ & Px & _). pose proof (pa_cover _ _ _ Pa x Px) as E. inversion E.
    + simpl. rewrite Forall_forall in *. intros v Iv. apply decided_fixed; auto.
  - destruct Sf as [Sa Sb]. apply Forall_app in Hk. destruct Hk as [Ka Kb]. specialize (IHa Ka Sa). specialize (IHb Kb Sb).
    destruct (branch_of rngs a k d) as [|c cs].
    + destruct (branch_of rngs b k d) as [|c cs].
      * simpl in *. apply Forall_app. auto.
      * destruct IHb as (v & I & P). exists v. split; [apply in_or_app; now right|assumption].
    + destruct IHa as (v & I & P). exists v. split; [apply in_or_app; now left|assumption].
Qed.

Lemma node_ok_splits nv vs (branch : nat -> domains -> list cond) : Forall (var_below nv) vs ->
  (forall k d, domains_ok d -> length d = nv -> node_ok d vs (branch k d)) -> splits nv vs branch.
Proof.
  intros B H.
  assert (P : forall k d c, domains_ok d -> length d = nv -> In c (branch k d) -> exists v, In v vs /\ c_var c = v /\ partitions d v (branch k d)).
  { intros k d c Hd L I. pose proof (H k d Hd L) as N. destruct (branch k d) as [|c0 cs] eqn:E; [destruct I|]. destruct N as (v & Iv & Pa). exists v.
    split; [assumption|]. split; [|assumption]. apply (proj1 (Forall_forall _ _) (pa_var _ _ _ Pa) c I). }
  constructor.
  - assumption.
  - intros k d Hd L E. pose proof (H k d Hd L) as N. now rewrite E in N.
  - intros k d a Hd L NE Wa. destruct (branch k d) as [|c cs] eqn:E; [congruence|]. rewrite <- E in *.
    destruct (P k d c Hd L) as (v & _ & _ & Pa); [rewrite E; now left|].
    pose proof (pa_cover _ _ _ Pa (var_value a v) (ex_intro _ a (conj Wa eq_refl))) as X. apply Exists_exists in X. destruct X as (c' & I & Hh).
    apply Exists_exists. exists c'. split; [assumption|]. now apply (holds_op _ _ _ Pa).
  - intros k d a Hd L. pose proof (H k d Hd L) as N. destruct (branch k d) as [|c cs] eqn:E; [constructor|]. rewrite <- E in *.
    destruct (P k d c Hd L) as (v & _ & _ & Pa); [rewrite E; now left|].
    pose proof (pa_apart _ _ _ Pa (var_value a v)) as F. pose proof (holds_op _ _ _ Pa a) as HO. revert F HO. clear. generalize (branch k d) as l.
    induction 1 as [|c l Fc _ IH]; intro HO; constructor; [|apply IH; intros; apply HO; now right].
    rewrite Forall_forall in *. intros c' I'. rewrite !HO by (simpl; auto). now apply Fc.
  - intros k d c Hd L I a a' Ag. destruct (P k d c Hd L I) as (v & Iv & Ev & Pa). rewrite !(holds_op _ _ _ Pa) by assumption.
    now rewrite (proj1 (Forall_forall _ _) Ag v Iv).
  - intros k d c Hd L I. destruct (P k d c Hd L I) as (v & Iv & Ev & Pa). red. rewrite Ev.
    pose proof (proj1 (Forall_forall _ _) B v Iv) as Bv. unfold var_below, var_known in *. destruct v; simpl in *; auto; rewrite L; assumption.
  - intros k d c Hd L I. destruct (P k d c Hd L I) as (v & Iv & Ev & Pa).
    destruct (proj1 (Forall_forall _ _) (pa_leaves _ _ _ Pa) c I) as (x & (a & Wa & <-) & Hx). exists a. split; [assumption|]. now apply (holds_op _ _ _ Pa).
  - intros k d c Hd L I. destruct (P k d c Hd L I) as (v & Iv & Ev & Pa).
    destruct (proj1 (Forall_forall _ _) (pa_removes _ _ _ Pa) c I) as (x & (a & Wa & <-) & Hx). exists a. split; [assumption|]. now rewrite (holds_op _ _ _ Pa).
Qed.

Lemma below_known nv (d : domains) v : var_below nv v -> length d = nv -> var_known d v.
Proof. intros B L. subst nv. destruct v; simpl; auto; apply B; reflexivity. Qed.

(** Every provided heuristic is exhaustive for its handles. *)
Lemma heuristic_splits nv rngs h : (forall k, honest (rngs k)) -> Forall (var_below nv) (handles h) -> splits_forwards h ->
  splits nv (handles h) (branch_of rngs h).
Proof.
  intros Hr B Sf. apply node_ok_splits; [assumption|]. intros k d Hd L. apply branch_node_ok; auto.
  eapply Forall_impl; [|exact B]. intros v Bv. now apply (below_known nv).
Qed.

(** Splitting a negated view with two values left: the first guess is certain. *)
Lemma split_negated : exists (d : domains) v r, domains_ok d /\ var_known d v /\ undecided d v /\ honest r /\
  exists c c', guesses r SplitSmallestFirst d v = Some [c; c'] /\ guesses r SplitLargestFirst d v = Some [c'; c] /\
    (forall a, within a d -> cond_holds a c) /\ (forall a, within a d -> ~ cond_holds a c').
Proof.
  set (r := mk_rng (fun _ lo _ => lo) (fun l => l)).
  assert (W : forall a, within a [[(0, 1)]] -> 0 <= a 0%nat <= 1).
  { intros a Wa. specialize (Wa 0%nat ltac:(simpl; lia)). simpl in Wa. apply member_cons in Wa. destruct Wa as [?|(? & ? & [] & _)]; lia. }
  assert (I : forall x, 0 <= x <= 1 -> within (fun _ => x) [[(0, 1)]]).
  { intros x Hx [|n] Hn; simpl in *; [|lia]. apply member_cons. lia. }
  exists [[(0, 1)]], (VView 0 true 0), r. split; [|split; [simpl; lia|split; [|split]]].
  - intros [|n] Hn; simpl in *; [|lia]. split; [lia|]. exists 0. apply member_cons. lia.
  - exists 0, (-1). split; [lia|]. split; [exists (fun _ => 0)|exists (fun _ => 1)]; (split; [apply I; lia|reflexivity]).
  - split; [intros n lo hi L; simpl; lia|intro l; apply Permutation_refl].
  - exists (cond_le (VView 0 true 0) 0), (cond_gt (VView 0 true 0) 0). split; [reflexivity|]. split; [reflexivity|].
    split; intros a Wa; apply W in Wa; unfold cond_holds; simpl; lia.
Qed.
