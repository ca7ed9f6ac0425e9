(** Lemmas about sums and differences. *)
From Coq Require Import ZArith List Bool Arith Lia.
From Verif Require Import IntervalSet IntervalSetSpec IntervalSetProofs Vars VarsSpec VarsProofs State StateSpec StateProofs Epochs
  Engine EngineSpec EngineProofs SessionSpec SessionInvProofs Tracker ContractSpec ContractProofs Quiet QuietProofs ConsistencySpec Plus.
Import ListNotations.
Local Open Scope Z_scope.

(** ** A relation enforced by a pass that is repeated until quiet *)

Record pass_ok (nv : nat) (pass : domains -> list literal) (scope : list var_id) (sat : assignment -> Prop) : Prop :=
  { ps_below : forall d, domains_ok d -> length d = nv -> Forall (lit_below nv) (pass d);
    ps_sound : forall d a, domains_ok d -> length d = nv -> within a d -> sat a -> Forall (lit_holds a) (pass d);
    ps_checks : forall d a, domains_ok d -> length d = nv -> Forall (fixed d) scope -> within a d -> Forall (lit_holds a) (pass d) -> sat a }.

Lemma quiet_body_ok nv d0 alias pass scope sat : Forall (var_below nv) scope -> pass_ok nv pass scope sat ->
  body_ok nv d0 alias (quiet_body pass) scope sat.
Proof.
  intros Sc [Pb Ps Pc].
  assert (Q : forall d, domains_ok d -> length d = nv -> legit nv d (fst (quiet_body pass d)) /\ snd (quiet_body pass d) = EnableButIdempotent /\
     (t_failed (fst (quiet_body pass d)) = false -> at_rest pass (t_domains (fst (quiet_body pass d))))).
  { intros d Hd L. now apply quiet_body_spec. }
  assert (C : forall d, domains_ok d -> length d = nv -> t_failed (fst (quiet_body pass d)) = false ->
     Forall (fixed (t_domains (fst (quiet_body pass d)))) scope -> forall a, within a (t_domains (fst (quiet_body pass d))) -> sat a).
  { intros d Hd L F Fx a Wa. destruct (Q d Hd L) as (G & _ & R).
    apply (Pc (t_domains (fst (quiet_body pass d)))); auto; [now apply (legit_ok nv d)|now apply (legit_length nv d)|now apply R]. }
  constructor.
  - intros d Hd L _. now apply Q.
  - intros d a Hd L _ Wa Sa. apply (quiet_body_keeps nv); auto.
  - intros d Hd L _ Fx F a Wa. apply (C d Hd L F); auto.
    eapply Forall_impl; [|exact Fx]. intros v. apply fixed_mono. apply (legit_inside nv d); auto. now apply Q.
  - intros d Hd L _ _ _ F Fx a Wa. now apply (C d Hd L F).
  - intros d Hd L _ R. destruct (Q d Hd L) as (_ & E & _). congruence.
Qed.

Lemma quiet_correct (d0 : domains) pass scope (sat : assignment -> Prop) on_change on_bounds on_instantiated :
  Forall (var_known d0) scope -> incl scope (on_change ++ on_bounds ++ on_instantiated) -> (forall nv, (length d0 <= nv)%nat -> pass_ok nv pass scope sat) ->
  correct_on d0 (fun _ => ([body_propagator (quiet_body pass) on_change on_bounds on_instantiated], [])) scope sat.
Proof.
  intros K Inc P. apply (correct_intro _ _ _ sat); [tauto|]. intros nv Inv Ln St In0. apply known_below_all in K. apply (below_more_all _ _ _ Ln) in K. split; [assumption|].
  exists [sat], []. split; [|split; [constructor|]].
  - constructor; [|constructor]. apply (propagates_supports _ _ _ scope); [apply incl_refl|].
    apply (body_propagates _ d0); auto.
    + intros v x Hv U. specialize (Inc v Hv). rewrite !in_app_iff in Inc. unfold subscribes. cbn.
      destruct Inc as [H|[H|H]]; [left|right; left|right; right]; exists v; auto.
    + apply quiet_body_ok; auto.
  - intros a _ F _. now inversion F.
Qed.

(** Running a quiet body again. *)
Lemma quiet_rerun (d0 : domains) pass scope (sat : assignment -> Prop) on_change on_bounds on_instantiated Inv d :
  let p := body_propagator (quiet_body pass) on_change on_bounds on_instantiated in
  pass_ok (length d0) pass scope sat -> outcome (length d0) Inv p d ->
  domains_ok d /\ length d = length d0 /\ at_rest pass d /\ rerun_is_quiet p d.
Proof.
  intros p P (i & evs & (Hd & L & HI) & A).
  destruct (quiet_body_spec (length d0) (i_domains i) Hd L pass (ps_below _ _ _ _ P)) as (G & _ & R).
  destruct (body_run_out (quiet_body pass) i) as (E & _). destruct (lg_apply _ _ _ G) as [ev A'].
  simpl in A. rewrite E, A' in A. injection A as <- <- F.
  specialize (R F). pose proof (legit_ok _ _ Hd L _ G F) as Ok. pose proof (legit_length _ _ Hd L _ G) as Ln.
  split; [assumption|]. split; [assumption|]. split; [assumption|].
  intros j Ej. simpl. destruct (body_run_out (quiet_body pass) j) as (E' & _). rewrite E', Ej.
  set (D := t_domains (fst (quiet_body pass (i_domains i)))) in *.
  destruct (quiet_body_again (length d0) D Ok Ln pass (ps_below _ _ _ _ P) R) as [F2 D2].
  destruct (quiet_body_spec (length d0) D Ok Ln pass (ps_below _ _ _ _ P)) as (G2 & _).
  destruct (lg_apply _ _ _ G2) as [ev2 A2]. rewrite F2, D2 in A2. rewrite A2.
  assert (K : Forall (lit_known D) (rev (t_lits (fst (quiet_body pass D))))).
  { apply Forall_rev. apply (lits_known (length d0)); auto. apply G2. }
  pose proof (apply_lits_size _ _ _ _ _ Ok K A2 eq_refl). destruct ev2; [reflexivity|simpl in *; lia].
Qed.

(** ** Plus and Minus *)

Section Plus.
Variable nv : nat.
Variable a b r : var_id.
Hypothesis Ba : var_below nv a.
Hypothesis Bb : var_below nv b.
Hypothesis Br : var_below nv r.

Lemma plus_pass_ok : pass_ok nv (plus_pass a b r) [a; b; r] (fun s => var_value s a + var_value s b = var_value s r).
Proof.
  constructor.
  - intros d _ _. unfold plus_pass. rewrite !bounds_spec. repeat constructor; assumption.
  - intros d s Hd L Ws E. unfold plus_pass. rewrite !bounds_spec.
    pose proof (value_bounds d a s Hd (var_below_known nv d a L Ba) Ws).
    pose proof (value_bounds d b s Hd (var_below_known nv d b L Bb) Ws).
    pose proof (value_bounds d r s Hd (var_below_known nv d r L Br) Ws).
    repeat constructor; unfold lit_holds, cond_holds; simpl; lia.
  - intros d s Hd L F Ws Hp. rewrite Forall_forall in F.
    destruct (fixed_bounds d a s Hd (var_below_known nv d a L Ba) (F a (or_introl eq_refl)) Ws) as [A1 A2].
    destruct (fixed_bounds d b s Hd (var_below_known nv d b L Bb) (F b (or_intror (or_introl eq_refl))) Ws) as [B1 B2].
    unfold plus_pass in Hp. rewrite !bounds_spec in Hp. inversion Hp as [|? ? P1 Hp1]; subst. inversion Hp1 as [|? ? P2 _]; subst.
    unfold lit_holds, cond_holds in P1, P2. simpl in P1, P2. lia.
Qed.

Lemma minus_pass_ok : pass_ok nv (minus_pass a b r) [a; b; r] (fun s => var_value s a - var_value s b = var_value s r).
Proof.
  constructor.
  - intros d _ _. unfold minus_pass. rewrite !bounds_spec. repeat constructor; assumption.
  - intros d s Hd L Ws E. unfold minus_pass. rewrite !bounds_spec.
    pose proof (value_bounds d a s Hd (var_below_known nv d a L Ba) Ws).
    pose proof (value_bounds d b s Hd (var_below_known nv d b L Bb) Ws).
    pose proof (value_bounds d r s Hd (var_below_known nv d r L Br) Ws).
    repeat constructor; unfold lit_holds, cond_holds; simpl; lia.
  - intros d s Hd L F Ws Hp. rewrite Forall_forall in F.
    destruct (fixed_bounds d a s Hd (var_below_known nv d a L Ba) (F a (or_introl eq_refl)) Ws) as [A1 A2].
    destruct (fixed_bounds d b s Hd (var_below_known nv d b L Bb) (F b (or_intror (or_introl eq_refl))) Ws) as [B1 B2].
    unfold minus_pass in Hp. rewrite !bounds_spec in Hp. inversion Hp as [|? ? P1 Hp1]; subst. inversion Hp1 as [|? ? P2 _]; subst.
    unfold lit_holds, cond_holds in P1, P2. simpl in P1, P2. lia.
Qed.

(** Bounds are attained. *)
Lemma bound_attained d v x : domains_ok d -> var_known d v -> x = lower_bound d v \/ x = upper_bound d v ->
  exists s, within s d /\ var_value s v = x.
Proof.
  intros Hd K [->| ->].
  - destruct (lower_bound_spec d v Hd K) as [A _]. now apply view_member_iff in A.
  - destruct (upper_bound_spec d v Hd K) as [A _]. now apply view_member_iff in A.
Qed.

Lemma split_sum al au bl bu z : al <= au -> bl <= bu -> al + bl <= z <= au + bu -> exists x y, al <= x <= au /\ bl <= y <= bu /\ x + y = z.
Proof.
  intros H1 H2 H3. destruct (Z_le_gt_dec (z - bl) au).
  - exists (z - bl), bl. lia.
  - exists au, (z - au). lia.
Qed.

Definition rest_bounds (d : domains) : Prop :=
  lower_bound d a <= upper_bound d a /\ lower_bound d b <= upper_bound d b /\ lower_bound d r <= upper_bound d r.

Lemma have_bounds d v : domains_ok d -> var_known d v -> lower_bound d v <= upper_bound d v.
Proof. intros Hd K. destruct (within_exists d Hd) as [s Ws]. pose proof (value_bounds d v s Hd K Ws). lia. Qed.

(** What being at rest says about the bounds. *)
Lemma lit_at_lower d v x : domains_ok d -> var_known d v -> (forall s, within s d -> var_value s v >= x) -> lower_bound d v >= x.
Proof. intros Hd K H. destruct (bound_attained d v (lower_bound d v) Hd K (or_introl eq_refl)) as (s & Ws & <-). auto. Qed.

Lemma lit_at_upper d v x : domains_ok d -> var_known d v -> (forall s, within s d -> var_value s v < x) -> upper_bound d v < x.
Proof. intros Hd K H. destruct (bound_attained d v (upper_bound d v) Hd K (or_intror eq_refl)) as (s & Ws & <-). auto. Qed.

Lemma rest_six d (l1 u1 l2 u2 l3 u3 : Z) : domains_ok d -> length d = nv ->
  (forall s, within s d -> Forall (lit_holds s)
     [LCond (cond_ge r l1); LCond (cond_le r u1); LCond (cond_ge a l2); LCond (cond_le a u2); LCond (cond_ge b l3); LCond (cond_le b u3)]) ->
  lower_bound d r >= l1 /\ upper_bound d r <= u1 /\ lower_bound d a >= l2 /\ upper_bound d a <= u2 /\ lower_bound d b >= l3 /\ upper_bound d b <= u3.
Proof.
  intros Hd L H. pose proof (var_below_known nv d a L Ba) as Ka. pose proof (var_below_known nv d b L Bb) as Kb. pose proof (var_below_known nv d r L Br) as Kr.
  assert (G : forall s, within s d -> var_value s r >= l1 /\ var_value s r < u1 + 1 /\ var_value s a >= l2 /\ var_value s a < u2 + 1 /\
    var_value s b >= l3 /\ var_value s b < u3 + 1).
  { intros s Ws. specialize (H s Ws). repeat match goal with F : Forall _ (_ :: _) |- _ => inversion F; clear F; subst end.
    unfold lit_holds, cond_holds in *. simpl in *. auto 10. }
  assert (A1 := lit_at_lower d r l1 Hd Kr ltac:(intros s Ws; apply (G s Ws))).
  assert (A2 := lit_at_upper d r (u1 + 1) Hd Kr ltac:(intros s Ws; apply (G s Ws))).
  assert (A3 := lit_at_lower d a l2 Hd Ka ltac:(intros s Ws; apply (G s Ws))).
  assert (A4 := lit_at_upper d a (u2 + 1) Hd Ka ltac:(intros s Ws; apply (G s Ws))).
  assert (A5 := lit_at_lower d b l3 Hd Kb ltac:(intros s Ws; apply (G s Ws))).
  assert (A6 := lit_at_upper d b (u3 + 1) Hd Kb ltac:(intros s Ws; apply (G s Ws))).
  lia.
Qed.

Definition sums (xs : list Z) : Prop := match xs with [x; y; z] => x + y = z | _ => False end.
Definition differences (xs : list Z) : Prop := match xs with [x; y; z] => x - y = z | _ => False end.

Lemma three d x y z (rel : list Z -> Prop) k w : between_bounds d a x -> between_bounds d b y -> between_bounds d r z -> rel [x; y; z] ->
  nth_error [x; y; z] k = Some w -> exists xs, Forall2 (between_bounds d) [a; b; r] xs /\ nth_error xs k = Some w /\ rel xs.
Proof. intros. exists [x; y; z]. auto. Qed.

Lemma plus_rest d : domains_ok d -> length d = nv -> at_rest (plus_pass a b r) d -> bounds_consistent d [a; b; r] sums.
Proof.
  intros Hd L R. unfold at_rest, plus_pass in R. rewrite !bounds_spec in R.
  destruct (rest_six d _ _ _ _ _ _ Hd L R) as (R1 & R2 & R3 & R4 & R5 & R6). clear R.
  pose proof (have_bounds d a Hd (var_below_known nv d a L Ba)) as Oa.
  pose proof (have_bounds d b Hd (var_below_known nv d b L Bb)) as Ob.
  pose proof (have_bounds d r Hd (var_below_known nv d r L Br)) as Or.
  intros k v x Ek Ex. destruct k as [|[|[|k]]]; simpl in Ek; [| | |destruct k; discriminate].
  - injection Ek as <-.
    destruct (split_sum (lower_bound d r) (upper_bound d r) (- upper_bound d b) (- lower_bound d b) x) as (z & y & Hz & Hy & E); try lia.
    apply (three d x (- y) z sums); unfold between_bounds, sums; try lia; reflexivity.
  - injection Ek as <-.
    destruct (split_sum (lower_bound d r) (upper_bound d r) (- upper_bound d a) (- lower_bound d a) x) as (z & y & Hz & Hy & E); try lia.
    apply (three d (- y) x z sums); unfold between_bounds, sums; try lia; reflexivity.
  - injection Ek as <-.
    destruct (split_sum (lower_bound d a) (upper_bound d a) (lower_bound d b) (upper_bound d b) x) as (z & y & Hz & Hy & E); try lia.
    apply (three d z y x sums); unfold between_bounds, sums; try lia; reflexivity.
Qed.

Lemma minus_rest d : domains_ok d -> length d = nv -> at_rest (minus_pass a b r) d -> bounds_consistent d [a; b; r] differences.
Proof.
  intros Hd L R. unfold at_rest, minus_pass in R. rewrite !bounds_spec in R.
  destruct (rest_six d _ _ _ _ _ _ Hd L R) as (R1 & R2 & R3 & R4 & R5 & R6). clear R.
  pose proof (have_bounds d a Hd (var_below_known nv d a L Ba)) as Oa.
  pose proof (have_bounds d b Hd (var_below_known nv d b L Bb)) as Ob.
  pose proof (have_bounds d r Hd (var_below_known nv d r L Br)) as Or.
  intros k v x Ek Ex. destruct k as [|[|[|k]]]; simpl in Ek; [| | |destruct k; discriminate].
  - injection Ek as <-.
    destruct (split_sum (lower_bound d r) (upper_bound d r) (lower_bound d b) (upper_bound d b) x) as (z & y & Hz & Hy & E); try lia.
    apply (three d x y z differences); unfold between_bounds, differences; try lia; reflexivity.
  - injection Ek as <-.
    destruct (split_sum (lower_bound d a) (upper_bound d a) (- upper_bound d r) (- lower_bound d r) x) as (z & y & Hz & Hy & E); try lia.
    apply (three d z x (- y) differences); unfold between_bounds, differences; try lia; reflexivity.
  - injection Ek as <-.
    destruct (split_sum (lower_bound d a) (upper_bound d a) (- upper_bound d b) (- lower_bound d b) x) as (z & y & Hz & Hy & E); try lia.
    apply (three d z (- y) x differences); unfold between_bounds, differences; try lia; reflexivity.
Qed.

End Plus.

Lemma plus_correct d0 a b r : Forall (var_known d0) [a; b; r] ->
  correct_on d0 (plus_bc a b r) [a; b; r] (fun s => var_value s a + var_value s b = var_value s r) /\
  forall Inv p d, In p (fst (plus_bc a b r d0)) -> outcome (length d0) Inv p d -> bounds_consistent d [a; b; r] sums /\ rerun_is_quiet p d.
Proof.
  intro K. pose proof K as K'. apply known_below_all in K'. inversion K' as [|? ? Ka K1]; subst. inversion K1 as [|? ? Kb K2]; subst. inversion K2 as [|? ? Kr _]; subst.
  pose proof (plus_pass_ok (length d0) a b r Ka Kb Kr) as P. split.
  - apply (quiet_correct d0 (plus_pass a b r)); auto; [apply incl_refl|]. intros nv Ln. apply plus_pass_ok; now apply (below_more (length d0)).
  - intros Inv p d [<-|[]] O. destruct (quiet_rerun d0 (plus_pass a b r) _ _ _ _ _ Inv d P O) as (Hd & L & R & Q).
    split; [|assumption]. now apply (plus_rest (length d0)).
Qed.

Lemma minus_correct d0 a b r : Forall (var_known d0) [a; b; r] ->
  correct_on d0 (minus_bc a b r) [a; b; r] (fun s => var_value s a - var_value s b = var_value s r) /\
  forall Inv p d, In p (fst (minus_bc a b r d0)) -> outcome (length d0) Inv p d -> bounds_consistent d [a; b; r] differences /\ rerun_is_quiet p d.
Proof.
  intro K. pose proof K as K'. apply known_below_all in K'. inversion K' as [|? ? Ka K1]; subst. inversion K1 as [|? ? Kb K2]; subst. inversion K2 as [|? ? Kr _]; subst.
  pose proof (minus_pass_ok (length d0) a b r Ka Kb Kr) as P. split.
  - apply (quiet_correct d0 (minus_pass a b r)); auto; [apply incl_refl|]. intros nv Ln. apply minus_pass_ok; now apply (below_more (length d0)).
  - intros Inv p d [<-|[]] O. destruct (quiet_rerun d0 (minus_pass a b r) _ _ _ _ _ Inv d P O) as (Hd & L & R & Q).
    split; [|assumption]. now apply (minus_rest (length d0)).
Qed.
