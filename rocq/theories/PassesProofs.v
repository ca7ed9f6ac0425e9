(** Lemmas about sequences of reads and inferences. *)
From Coq Require Import ZArith List Bool Arith Lia.
From Verif Require Import IntervalSet IntervalSetSpec IntervalSetProofs Vars VarsSpec VarsProofs State StateSpec StateProofs Epochs
  Engine EngineSpec EngineProofs SessionSpec SessionInvProofs Tracker ContractSpec ContractProofs RunProofs PartsProofs Quiet QuietProofs Settle SettleProofs ConsistencySpec Passes.
Import ListNotations.
Local Open Scope Z_scope.

(** Whatever is inferred holds in the assignments [P] that are among the domains seen. *)
Fixpoint says (nv : nat) (P : assignment -> Prop) (p : prog) : Prop :=
  match p with
  | Stop => True
  | Infer l rest => lit_below nv l /\ (forall a, P a -> lit_holds a l) /\ says nv P rest
  | Look f => forall d, domains_ok d -> length d = nv -> says nv (fun a => P a /\ within a d) (f d)
  end.

(** What is inferred while the domains stay as they are. *)
Fixpoint inferred (p : prog) (d : domains) : list literal :=
  match p with
  | Stop => []
  | Infer l rest => l :: inferred rest d
  | Look f => inferred (f d) d
  end.

Lemma says_weaken nv p : forall (P Q : assignment -> Prop), (forall a, Q a -> P a) -> says nv P p -> says nv Q p.
Proof.
  induction p as [|l r IH|f IH]; intros P Q H S; simpl in *; [exact Logic.I| |].
  - destruct S as (B & L & S). split; [assumption|]. split; [auto|]. now apply (IH P).
  - intros d Hd Ld. apply (IH d (fun a => P a /\ within a d)); [|auto]. intros a [Qa Wa]. auto.
Qed.

Lemma says_when nv (P : assignment -> Prop) b l rest : (b = true -> lit_below nv l /\ forall a, P a -> lit_holds a l) -> says nv P rest -> says nv P (infer_when b l rest).
Proof. unfold infer_when. destruct b; intros H S; [|assumption]. destruct (H eq_refl). simpl. auto. Qed.

Lemma inferred_when b l rest d : inferred (infer_when b l rest) d = (if b then [l] else []) ++ inferred rest d.
Proof. destruct b; reflexivity. Qed.

(** Programs that infer nothing they should not mention. *)
Lemma says_below nv P p d : says nv P p -> domains_ok d -> length d = nv -> Forall (lit_below nv) (inferred p d).
Proof.
  intros S Hd Ld. revert P S. induction p as [|l r IH|f IH]; intros P S; simpl in *; [constructor| |].
  - destruct S as (B & _ & S). constructor; [assumption|]. now apply (IH P).
  - apply (IH d (fun a => P a /\ within a d)). now apply S.
Qed.

Lemma exec_failed p : forall t, t_failed t = true -> exec p t = t.
Proof.
  induction p as [|l r IH|f IH]; intros t F; simpl; [reflexivity| |now apply IH]. rewrite tell_failed by assumption. now apply IH.
Qed.

Lemma extends_exec p : forall t, extends t (exec p t).
Proof.
  induction p as [|l r IH|f IH]; intro t; simpl; [apply extends_refl| |apply IH]. eapply extends_trans; [apply extends_tell|apply IH].
Qed.

Section Exec.
Variable nv : nat.
Variable d : domains.
Hypothesis Hd : domains_ok d.
Hypothesis Ld : length d = nv.

Lemma exec_honest (sat : assignment -> Prop) p : forall (P : assignment -> Prop) t, (forall a, within a d -> sat a -> keeps a t -> P a) -> says nv P p -> honest nv d sat t -> honest nv d sat (exec p t).
Proof.
  induction p as [|l r IH|f IH]; intros P t HP S H; simpl in *; [assumption| |].
  - destruct S as (B & L & S). apply (IH P); [|assumption|].
    + intros a Wa Sa K. apply HP; [assumption|assumption|]. destruct H as [_ H]. now apply H.
    + apply honest_tell; auto. intros F Ok Ln a Wa W Sa. apply L. apply HP; auto. destruct H as [_ H]. now apply H.
  - destruct (t_failed t) eqn:F; [now rewrite exec_failed|]. pose proof (proj1 H) as G.
    apply (IH _ (fun a => P a /\ within a (t_domains t))); [| |assumption].
    + intros a Wa Sa K. split; [auto|]. now apply (keeps_alive nv d Hd Ld t a).
    + apply S; [now apply (legit_ok nv d)|now apply (legit_length nv d)].
Qed.

(** Nothing that is inferred is new. *)
Definition still (p : prog) (D : domains) : Prop := forall a, within a D -> Forall (lit_holds a) (inferred p D).

Lemma exec_legit p : forall P t, says nv P p -> legit nv d t -> legit nv d (exec p t).
Proof.
  induction p as [|l r IH|f IH]; intros P t S G; simpl in *; [assumption| |].
  - destruct S as (B & _ & S). apply (IH P); [assumption|]. now apply legit_tell.
  - destruct (t_failed t) eqn:F; [now rewrite exec_failed|]. apply (IH _ (fun a => P a /\ within a (t_domains t))); [|assumption].
    apply S; [now apply (legit_ok nv d)|now apply (legit_length nv d)].
Qed.

Lemma lit_known_at (t : tracker) l : legit nv d t -> lit_below nv l -> lit_known (t_domains t) l.
Proof.
  intros G B. pose proof (legit_length nv d Hd Ld t G) as Ln. assert (X : Forall (lit_known (t_domains t)) [l]) by (apply (lits_known nv); auto). now inversion X.
Qed.

Lemma exec_size p : forall P t, says nv P p -> legit nv d t -> t_failed (exec p t) = false ->
  (total_size (t_domains (exec p t)) <= total_size (t_domains t))%nat /\
  (total_size (t_domains (exec p t)) = total_size (t_domains t) -> t_domains (exec p t) = t_domains t /\ still p (t_domains t)).
Proof.
  induction p as [|l r IH|f IH]; intros P t S G F; simpl in *.
  - split; [lia|]. intros _. split; [reflexivity|]. intros a _. constructor.
  - destruct S as (B & _ & S). assert (F1 : t_failed (tell l t) = false).
    { destruct (t_failed (tell l t)) eqn:E; [|reflexivity]. rewrite exec_failed in F by assumption. congruence. }
    assert (F0 : t_failed t = false) by (destruct (t_failed t) eqn:E; [rewrite tell_failed in F1 by assumption; congruence|reflexivity]).
    assert (G1 : legit nv d (tell l t)) by now apply legit_tell.
    destruct (IH P (tell l t) S G1 F) as [Le Eq]. pose proof (legit_ok nv d Hd Ld t G F0) as Ok. pose proof (lit_known_at t l G B) as Kl.
    assert (A : exists evs, apply_lits (t_domains t) [l] = (t_domains (tell l t), evs, false)).
    { unfold tell in *. rewrite F0 in *. simpl. destruct (infer (t_domains t) l) as [i d1]. simpl in *. destruct i; try discriminate; destruct (lit_underlying l); eauto. }
    destruct A as (evs & A). pose proof (apply_lits_size _ _ _ _ _ Ok (Forall_cons _ Kl (Forall_nil _)) A eq_refl) as Sz.
    split; [lia|]. intro E. assert (evs = []) as -> by (destruct evs; [reflexivity|simpl in Sz; lia]).
    pose proof (apply_lits_quiet _ _ _ Ok (Forall_cons _ Kl (Forall_nil _)) A) as E1. rewrite E1 in *. destruct (Eq E) as [E2 St]. split; [assumption|].
    intros a Wa. constructor; [|now apply St]. pose proof (apply_lits_within _ _ _ _ _ Ok (Forall_cons _ Kl (Forall_nil _)) A a) as W. try rewrite E1 in W.
    apply W in Wa. destruct Wa as [_ X]. now inversion X.
  - assert (F0 : t_failed t = false) by (destruct (t_failed t) eqn:E; [rewrite exec_failed in F by assumption; congruence|reflexivity]).
    apply (IH (t_domains t) (fun a => P a /\ within a (t_domains t))); auto. apply S; [now apply (legit_ok nv d)|now apply (legit_length nv d)].
Qed.
End Exec.

(** Inferring what is known already. *)
Lemma exec_still nv d P p : domains_ok d -> length d = nv -> says nv P p -> still p d ->
  forall t, legit nv d t -> t_failed t = false -> t_domains t = d -> t_failed (exec p t) = false /\ t_domains (exec p t) = d.
Proof.
  intros Hd Ld. revert P. induction p as [|l r IH|f IH]; intros P S St t G F E; simpl in *; [auto| |].
  - destruct S as (B & _ & S). assert (K : t_failed (tell l t) = false /\ t_domains (tell l t) = d).
    { destruct (tell_keeps_all nv d Hd Ld l t G B F) as [A1 A2]; [|now rewrite E in A2].
      rewrite E. intros a Wa. specialize (St a Wa). now inversion St. }
    destruct K as [F1 E1]. apply (IH P); auto; [|now apply legit_tell].
    intros a Wa. specialize (St a Wa). now inversion St.
  - rewrite E in *. apply (IH d (fun a => P a /\ within a d)); auto.
Qed.

(** ** The loop *)

Section Settling.
Variable nv : nat.
Variable p : prog.
Variable sat : assignment -> Prop.
Hypothesis Says : says nv sat p.

Lemma settling_spec d : domains_ok d -> length d = nv ->
  honest nv d sat (fst (settling p d)) /\ snd (settling p d) = EnableButIdempotent /\
  (t_failed (fst (settling p d)) = false -> still p (t_domains (fst (settling p d)))).
Proof.
  intros Hd Ld. set (J := fun s : tracker * unit => honest nv d sat (fst s)).
  assert (Step : forall s, J s -> t_failed (fst s) = false -> J (exec p (fst s), snd s) /\ extends (fst s) (fst (exec p (fst s), snd s))).
  { intros s Js _. split; [|apply extends_exec]. apply (exec_honest nv d Hd Ld sat p sat); auto. }
  destruct (settle_done nv d Hd Ld (fun s => (exec p (fst s), snd s)) J (fun s Js => proj1 Js) Step tt) as ((t & []) & E & Jt & R).
  { unfold J. apply honest_track. }
  unfold settling. rewrite E. cbn [fst snd] in *. split; [exact Jt|]. split; [reflexivity|]. intro F. destruct (R F) as (u & Ju & Fu & Eu & Du).
  injection Eu as Et. assert (Fx : t_failed (exec p (fst u)) = false) by now rewrite Et.
  destruct (exec_size nv d Hd Ld p sat (fst u) Says (proj1 Ju) Fx) as [_ X]. rewrite Et in X. rewrite <- Du. apply X. now rewrite Du.
Qed.

Lemma settling_again d : domains_ok d -> length d = nv -> still p d -> t_failed (fst (settling p d)) = false /\ t_domains (fst (settling p d)) = d.
Proof.
  intros Hd Ld St. destruct (exec_still nv d sat p Hd Ld Says St (track d) (legit_track nv d) eq_refl eq_refl) as [F E].
  pose proof (exec_legit nv d Hd Ld p sat (track d) Says (legit_track nv d)) as G.
  unfold settling. unfold enough_fuel. cbn [settle fst snd]. rewrite F.
  assert (C : count_inferences d (exec p (track d)) = 0%nat).
  { unfold count_inferences. destruct (lg_apply _ _ _ G) as [evs A]. rewrite F, E in A. rewrite A. simpl.
    assert (K : Forall (lit_known d) (rev (t_lits (exec p (track d))))) by (apply Forall_rev, (lits_known nv); auto; apply G).
    pose proof (apply_lits_size _ _ _ _ _ Hd K A eq_refl). lia. }
  rewrite C. simpl. auto.
Qed.

Lemma settling_ok d0 alias scope :
  (forall d a, domains_ok d -> length d = nv -> Forall (fixed d) scope -> still p d -> within a d -> sat a) ->
  body_ok nv d0 alias (settling p) scope sat.
Proof.
  intro Ck.
  assert (C : forall d, domains_ok d -> length d = nv -> t_failed (fst (settling p d)) = false ->
     Forall (fixed (t_domains (fst (settling p d)))) scope -> forall a, within a (t_domains (fst (settling p d))) -> sat a).
  { intros d Hd L F Fx a Wa. destruct (settling_spec d Hd L) as ([G _] & _ & R).
    apply (Ck (t_domains (fst (settling p d)))); auto; [now apply (legit_ok nv d)|now apply (legit_length nv d)]. }
  constructor.
  - intros d Hd L _. now apply settling_spec.
  - intros d a Hd L _ Wa Sa. destruct (settling_spec d Hd L) as ([_ H] & _). now apply H.
  - intros d Hd L _ Fx F a Wa. apply (C d Hd L F); auto.
    eapply Forall_impl; [|exact Fx]. intros v. apply fixed_mono. apply (legit_inside nv d); auto. now apply settling_spec.
  - intros d Hd L _ _ _ F Fx a Wa. now apply (C d Hd L F).
  - intros d Hd L _ R. destruct (settling_spec d Hd L) as (_ & E & _). congruence.
Qed.

(** The same for a function that is one of several. *)
Lemma settling_meets d0 alias scope (part : assignment -> Prop) :
  (forall d a, domains_ok d -> length d = nv -> Forall (fixed d) scope -> still p d -> within a d -> part a) ->
  meets nv d0 alias (settling p) scope sat part.
Proof.
  intro Ck.
  assert (C : forall d a, domains_ok d -> length d = nv -> Forall (fixed (t_domains (fst (settling p d)))) scope -> live nv d (fst (settling p d)) a -> part a).
  { intros d a Hd L Fx (G & F & Wa). destruct (settling_spec d Hd L) as (_ & _ & R).
    apply (Ck (t_domains (fst (settling p d)))); auto; [now apply (legit_ok nv d)|now apply (legit_length nv d)]. }
  constructor.
  - intros d Hd L _. now apply settling_spec.
  - intros d a Hd L _ Fx Lv. apply (C d a Hd L); [|assumption]. destruct Lv as (G & F & Wa).
    eapply Forall_impl; [|exact Fx]. intros v. apply fixed_mono. now apply (legit_inside nv d).
  - intros d a Hd L _ _ _ Lv Fx. now apply (C d a Hd L).
  - intros d a Hd L _ R. destruct (settling_spec d Hd L) as (_ & E & _). congruence.
Qed.

(** After a run, the program has nothing more to say. *)
Lemma settling_rerun on_change on_bounds on_instantiated Inv d :
  let q := body_propagator (settling p) on_change on_bounds on_instantiated in
  outcome nv Inv q d -> domains_ok d /\ length d = nv /\ still p d /\ rerun_is_quiet q d.
Proof.
  intros q (i & evs & (Hd & L & HI) & A).
  destruct (settling_spec (i_domains i) Hd L) as ([G _] & _ & R).
  destruct (body_run_out (settling p) i) as (E & _). destruct (lg_apply _ _ _ G) as [ev A'].
  simpl in A. rewrite E, A' in A. injection A as <- <- F.
  specialize (R F). pose proof (legit_ok _ _ Hd L _ G F) as Ok. pose proof (legit_length _ _ Hd L _ G) as Ln.
  split; [assumption|]. split; [assumption|]. split; [assumption|].
  intros j Ej. simpl. destruct (body_run_out (settling p) j) as (E' & _). rewrite E', Ej.
  set (D := t_domains (fst (settling p (i_domains i)))) in *.
  destruct (settling_again D Ok Ln R) as [F2 D2]. destruct (settling_spec D Ok Ln) as ([G2 _] & _).
  destruct (lg_apply _ _ _ G2) as [ev2 A2]. rewrite F2, D2 in A2. rewrite A2.
  assert (K : Forall (lit_known D) (rev (t_lits (fst (settling p D))))).
  { apply Forall_rev. apply (lits_known nv); auto. apply G2. }
  pose proof (apply_lits_size _ _ _ _ _ Ok K A2 eq_refl). destruct ev2; [reflexivity|simpl in *; lia].
Qed.
End Settling.
