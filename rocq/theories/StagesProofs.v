(** Lemmas about linear inequalities as parts of a propagator. *)
From Coq Require Import ZArith List Bool Arith Lia.
From Verif Require Import IntervalSet IntervalSetSpec IntervalSetProofs Vars VarsSpec VarsProofs State StateSpec StateProofs Expressions ExpressionsSpec Epochs
  Engine EngineSpec EngineProofs SessionSpec SessionInvProofs Tracker ContractSpec ContractProofs RunProofs Quiet QuietProofs Settle SettleProofs
  Linear LinearSpec LinearProofs Passes PassesProofs ProductBounds Multiply MultiplyProofs Stages.
Import ListNotations.
Local Open Scope Z_scope.

Definition infers (ls : list literal) (rest : prog) : prog := fold_right Infer rest ls.

Lemma infers_says nv (P : assignment -> Prop) ls rest : Forall (lit_below nv) ls -> (forall a, P a -> Forall (lit_holds a) ls) -> says nv P rest -> says nv P (infers ls rest).
Proof.
  induction ls as [|l r IH]; intros B H R; [exact R|]. apply Forall_cons_iff in B. destruct B as [Bl B]. cbn [infers fold_right says]. split; [assumption|].
  split; [intros a Pa; specialize (H a Pa); now inversion H|]. apply IH; auto. intros a Pa. specialize (H a Pa). now inversion H.
Qed.

Lemma infers_still ls rest d : still (infers ls rest) d -> still rest d /\ forall a, within a d -> Forall (lit_holds a) ls.
Proof.
  induction ls as [|l r IH]; intro S; [split; [exact S|constructor]|]. destruct IH as [A B].
  - intros a Wa. specialize (S a Wa). now inversion S.
  - split; [assumption|]. intros a Wa. constructor; [|auto]. specialize (S a Wa). now inversion S.
Qed.

Lemma sweep_infers u value sum ts : forall bs rest, sweep u value sum ts bs rest = infers (sweep_lits u value sum ts bs) rest.
Proof.
  induction ts as [|[c n] r IH]; intros bs rest; [reflexivity|]. destruct bs as [|b bs]; [reflexivity|]. cbn [sweep sweep_lits]. rewrite IH.
  unfold infers. rewrite fold_right_app. destruct (step_for u c (value - (sum - contribution c b)) b); reflexivity.
Qed.

(** ** One inequality *)

Section Inequality.
Variable nv : nat.
Variable s : tidied.
Variable value : Z.
Hypothesis Ts : tidy s.
Hypothesis Bs : below nv (terms s).

Lemma inequality_says (P : assignment -> Prop) rest : (forall a, P a -> lin a (terms s) <= value) -> says nv P rest -> says nv P (inequality s value rest).
Proof.
  intros H R. unfold inequality. destruct (terms s) as [|t r] eqn:E.
  - apply says_when; [|assumption]. intro N. split; [exact Logic.I|]. intros a Pa. specialize (H a Pa). cbn [lin] in H. lia.
  - rewrite <- E. cbn [says]. intros d Hd L. rewrite looks_vars, sweep_infers. apply infers_says.
    + apply sweep_lits_below. now rewrite E.
    + intros a [Pa Wa]. apply (sweep_lits_hold nv (units s) d value _ (terms s) a); auto; [now rewrite E|now apply tidy_usable|].
      apply (sound_swept nv d (terms s) a value); auto; [now rewrite E|]. rewrite E. now apply H.
    + apply (says_weaken nv rest P); [tauto|assumption].
Qed.

(** The sum is as small as it has to be. *)
Definition bounded (d : domains) : Prop := if terms s then 0 <= value else settled d (terms s) value.

Lemma inequality_still d rest : domains_ok d -> length d = nv -> still (inequality s value rest) d -> still rest d /\ bounded d.
Proof.
  intros Hd L S. unfold inequality in S. unfold bounded. destruct (terms s) as [|t r] eqn:E.
  - apply still_when in S. destruct S as [S R]. split; [assumption|]. destruct (Z.ltb_spec value 0) as [N|N]; [|assumption].
    destruct (within_exists d Hd) as [a Wa]. destruct (S eq_refl a Wa).
  - rewrite <- E in *. assert (S' : still (sweep (units s) value (lower_sum 1 (terms s) (map (bounds d) (term_vars s))) (terms s) (map (bounds d) (term_vars s)) rest) d) by exact S.
    rewrite looks_vars, sweep_infers in S'. apply infers_still in S'. destruct S' as [R A]. split; [assumption|]. intros a Wa. specialize (A a Wa).
    apply (sweep_lits_hold nv (units s) d value _ (terms s) a) in A; auto. now apply tidy_usable.
Qed.

Lemma least_sum_others d ts a c n : domains_ok d -> length d = nv -> below nv ts -> NoDup (map snd ts) -> within a d -> In (c, n) ts ->
  (forall m, In m (map snd ts) -> m = n \/ fixed d (VSimple m)) -> least_sum d ts - contribution c (look d n) = lin a ts - c * a n.
Proof.
  intros Hd L B ND Wa. unfold below in B. clear Ts Bs. induction ts as [|[c' m] r IH]; [contradiction|]. intros I F. rewrite least_sum_cons. cbn [lin]. cbn [map snd] in B, ND, F.
  apply Forall_cons_iff in B. destruct B as [Bm B]. apply NoDup_cons_iff in ND. destruct ND as [Nm ND']. destruct I as [E|I].
  - injection E as -> ->. assert (X : least_sum d r = lin a r).
    { apply fixed_lin; auto; [now rewrite L|]. apply Forall_forall. intros w Iw. apply in_map_iff in Iw. destruct Iw as ([e k] & <- & Ik). cbn [snd].
      apply (in_map snd) in Ik. cbn [snd] in Ik. destruct (F k (or_intror Ik)) as [E|E]; [subst k; contradiction|assumption]. }
    lia.
  - assert (Nn : m <> n) by (intros ->; apply Nm; apply (in_map snd) in I; exact I). assert (Fm : fixed d (VSimple m)) by (destruct (F m (or_introl eq_refl)); [contradiction|assumption]).
    assert (X : contribution c' (look d m) = c' * a m).
    { assert (Km : var_known d (VSimple m)) by (simpl; unfold domains, iset in *; lia). unfold look, contribution. rewrite bounds_spec.
      destruct (fixed_bounds d (VSimple m) a Hd Km Fm Wa) as [A1 A2]. rewrite A1, A2. cbn [fst snd var_value]. now destruct (0 <=? c'). }
    assert (Q : least_sum d r - contribution c (look d n) = lin a r - c * a n); [|lia]. apply IH; auto. intros k Ik. apply F. now right.
Qed.

(** When at most one of the variables is not fixed, all that is left is allowed. *)
Lemma bounded_but_one d n a : domains_ok d -> length d = nv -> bounded d -> within a d ->
  (forall m, In m (map snd (terms s)) -> m = n \/ fixed d (VSimple m)) -> lin a (terms s) <= value.
Proof.
  intros Hd L H Wa F. unfold bounded in H. destruct (terms s) as [|t r] eqn:E; [exact H|]. rewrite <- E in *. assert (N : terms s <> []) by now rewrite E. clear E t r.
  destruct (in_dec Nat.eq_dec n (map snd (terms s))) as [I|I].
  - apply in_map_iff in I. destruct I as ([c m] & E & I). cbn [snd] in E. subst m. specialize (H a Wa). unfold swept in H. rewrite Forall_forall in H. specialize (H _ I). cbn [fst snd] in H.
    rewrite (least_sum_others d (terms s) a c n) in H; auto; [lia|apply Ts].
  - assert (B : Forall (fun n => (n < length d)%nat) (map snd (terms s))) by now rewrite L. pose proof (settled_least d _ _ Hd B N H) as X. rewrite (fixed_lin d (terms s) a) in X; auto.
    apply Forall_forall. intros w Iw. apply in_map_iff in Iw. destruct Iw as ([e k] & <- & Ik). cbn [snd].
    apply (in_map snd) in Ik. cbn [snd] in Ik. destruct (F k Ik) as [E|E]; [subst k; contradiction|assumption].
Qed.
End Inequality.

(** ** Gates *)

(** The gates there are. *)
Definition gate_fine (nv : nat) (g : option cond) : Prop :=
  match g with None => True | Some c => var_below nv (c_var c) /\ exists v x, c = cond_ge v x \/ c = cond_lt v x \/ c = cond_eq v x end.

Definition open (a : assignment) (g : option cond) : Prop := match g with None => True | Some c => cond_holds a c end.

Lemma gate_holds_all d c nv a : domains_ok d -> length d = nv -> gate_fine nv (Some c) -> gate_holds d c = true -> within a d -> cond_holds a c.
Proof.
  intros Hd L (Bc & v & x & [->|[->| ->]]) G Wa; unfold gate_holds in G; cbn in G, Bc |- *; pose proof (value_bounds d v a Hd (known_here nv d v L Bc) Wa); unfold cond_holds; cbn; lia.
Qed.

Lemma gate_holds_found d c nv : domains_ok d -> length d = nv -> gate_fine nv (Some c) -> (forall a, within a d -> cond_holds a c) -> gate_holds d c = true.
Proof.
  intros Hd L (Bc & v & x & [->|[->| ->]]) G; unfold gate_holds; cbn in Bc |- *.
  - destruct (lower_at d v Hd (known_here nv d v L Bc)) as (a & Wa & E). specialize (G a Wa). unfold cond_holds in G; cbn in G. lia.
  - destruct (upper_at d v Hd (known_here nv d v L Bc)) as (a & Wa & E). specialize (G a Wa). unfold cond_holds in G; cbn in G. lia.
  - destruct (lower_at d v Hd (known_here nv d v L Bc)) as (a & Wa & E). destruct (upper_at d v Hd (known_here nv d v L Bc)) as (b & Wb & F). pose proof (G a Wa) as G1. pose proof (G b Wb) as G2.
    unfold cond_holds in G1, G2; cbn in G1, G2. apply andb_true_iff. lia.
Qed.

Lemma cond_not_holds a v x c : c = cond_ge v x \/ c = cond_lt v x \/ c = cond_eq v x -> (lit_holds a (LCond (cond_not c)) <-> ~ cond_holds a c).
Proof. intros [->|[->| ->]]; unfold lit_holds, cond_holds; cbn; lia. Qed.

Section Stage.
Variable nv : nat.
Variable cv : sum_of var_id.
Variable value : Z.
Variable gate : option cond.
Hypothesis Bv : Forall (var_below nv) (map snd cv).
Hypothesis Gf : gate_fine nv gate.

Lemma terms_below s m : tidy_up_linear cv = (s, m) -> below nv (terms s).
Proof.
  intro E. destruct (tidy_up_spec cv s m E) as (_ & _ & V). apply Forall_forall. intros n I. destruct (V n I) as (v & Iv & U).
  pose proof (proj1 (Forall_forall _ _) Bv v Iv) as Kv. destruct v as [x|x neg add|c]; simpl in U, Kv; try discriminate; injection U as ->; exact Kv.
Qed.

Lemma stage_says (P : assignment -> Prop) rest : (forall a, P a -> open a gate -> weighted_sum cv a <= value) -> says nv P rest -> says nv P (run_stage (le_stage cv value gate) rest).
Proof.
  intros H R. unfold le_stage. destruct (tidy_up_linear cv) as [s m] eqn:E. destruct (tidy_up_spec cv s m E) as (Ts & Sm & _). pose proof (terms_below s m E) as B.
  unfold run_stage. cbn [st_gate st_terms st_value]. destruct gate as [c|].
  - cbn [says]. intros d Hd L. assert (R' : says nv (fun a => P a /\ within a d) rest) by (apply (says_weaken nv rest P); [tauto|assumption]).
    destruct (gate_holds d c) eqn:G.
    + apply inequality_says; auto. intros a [Pa Wa]. specialize (H a Pa). rewrite Sm in H. assert (X : open a (Some c)) by now apply (gate_holds_all d c nv). specialize (H X). lia.
    + apply says_when; [|assumption]. intro N. destruct Gf as (Bc & v & x & Ec). split; [destruct Ec as [->|[->| ->]]; exact Bc|]. intros a [Pa Wa]. apply (cond_not_holds a v x); [assumption|]. intro C.
      specialize (H a Pa C). rewrite Sm in H. rewrite looks_vars in N. fold (least_sum d (terms s)) in N. pose proof (least_sum_least nv d (terms s) a Hd L B Wa). lia.
  - apply inequality_says; auto. intros a Pa. specialize (H a Pa Logic.I). rewrite Sm in H. lia.
Qed.

Lemma stage_still d rest : domains_ok d -> length d = nv -> still (run_stage (le_stage cv value gate) rest) d ->
  still rest d /\ ((forall a, within a d -> open a gate) -> forall n a, (forall v, In v (map snd cv) -> v = VSimple n \/ fixed d v) -> within a d -> weighted_sum cv a <= value).
Proof.
  intros Hd L S. unfold le_stage in S. destruct (tidy_up_linear cv) as [s m] eqn:E. destruct (tidy_up_spec cv s m E) as (Ts & Sm & V). pose proof (terms_below s m E) as B.
  unfold run_stage in S. cbn [st_gate st_terms st_value] in S.
  assert (X : still (inequality s (value + m) rest) d -> still rest d /\ forall n a, (forall v, In v (map snd cv) -> v = VSimple n \/ fixed d v) -> within a d -> weighted_sum cv a <= value).
  { intro S'. apply (inequality_still nv s (value + m) Ts B) in S'; auto. destruct S' as [R Bd]. split; [assumption|]. intros n a F Wa. rewrite Sm.
    enough (lin a (terms s) <= value + m) by lia. apply (bounded_but_one nv s (value + m) Ts B d n a); auto.
    intros k I. destruct (V k I) as (v & Iv & U). destruct (F v Iv) as [->|Fv]; [left; simpl in U; congruence|right].
    apply (fixed_underlying d v k); auto. pose proof (proj1 (Forall_forall _ _) B k I). simpl. unfold domains, iset in *. lia. }
  destruct gate as [c|].
  - assert (S' : still (if gate_holds d c then inequality s (value + m) rest
      else infer_when (value + m <? lower_sum 1 (terms s) (map (bounds d) (term_vars s))) (LCond (cond_not c)) rest) d) by exact S. clear S. rename S' into S.
    destruct (gate_holds d c) eqn:G; [destruct (X S); auto|]. apply still_when in S. destruct S as [_ S]. split; [assumption|]. intro Hc.
    rewrite (gate_holds_found d c nv) in G; auto; discriminate.
  - destruct (X S); auto.
Qed.
End Stage.
