(** Lemmas about propagation functions that run once, and remember what they have read. *)
From Coq Require Import ZArith List Bool Arith Lia.
From Verif Require Import IntervalSet IntervalSetSpec IntervalSetProofs Vars VarsSpec VarsProofs State StateSpec StateProofs Epochs
  Engine EngineSpec EngineProofs SessionSpec SessionInvProofs Tracker ContractSpec ContractProofs RunProofs PartsProofs ConsistencySpec QuietProofs Passes PassesProofs.
Import ListNotations.
Local Open Scope Z_scope.

(** Whatever is inferred holds in the assignments [P] that are among the domains seen,
    where each domains seen are inside those seen before. *)
Fixpoint tells (nv : nat) (D : domains) (P : assignment -> Prop) (p : prog) : Prop :=
  match p with
  | Stop => True
  | Infer l rest => lit_below nv l /\ (forall a, P a -> lit_holds a l) /\ tells nv D P rest
  | Look f => forall d, domains_ok d -> length d = nv -> inside D d -> tells nv d (fun a => P a /\ within a d) (f d)
  end.

(** What a run that did not fail has inferred holds of [a]. *)
Fixpoint obeys (nv : nat) (a : assignment) (p : prog) (d : domains) : Prop :=
  match p with
  | Stop => True
  | Infer l rest => lit_holds a l /\ exists d', domains_ok d' /\ length d' = nv /\ inside d d' /\ within a d' /\ obeys nv a rest d'
  | Look f => obeys nv a (f d) d
  end.

Lemma inside_refl d : inside d d.
Proof. intros a W. exact W. Qed.

Lemma inside_trans d1 d2 d3 : inside d1 d2 -> inside d2 d3 -> inside d1 d3.
Proof. intros A B a W. auto. Qed.

Lemma tells_weaken nv p : forall D E (P Q : assignment -> Prop), (forall a, Q a -> P a) -> inside D E -> tells nv D P p -> tells nv E Q p.
Proof.
  induction p as [|l r IH|f IH]; intros D E P Q H I S; simpl in *; [exact Logic.I| |].
  - destruct S as (B & L & S). split; [assumption|]. split; [auto|]. now apply (IH D E P).
  - intros d Hd Ld Id. apply (IH d d d (fun a => P a /\ within a d)); [|apply inside_refl|apply S; auto; now apply (inside_trans D E)].
    intros a [Qa Wa]. auto.
Qed.

Lemma tells_when nv D (P : assignment -> Prop) b l rest : (b = true -> lit_below nv l /\ forall a, P a -> lit_holds a l) -> tells nv D P rest -> tells nv D P (infer_when b l rest).
Proof. unfold infer_when. destruct b; intros H S; [|assumption]. destruct (H eq_refl). simpl. auto. Qed.

(** A loop, each turn of which is followed by anything. *)
Lemma tells_sequence {X} nv (f : X -> prog -> prog) rest (xs : list X) : forall D (P : assignment -> Prop),
  (forall E x r, In x xs -> inside D E -> (forall F, inside E F -> tells nv F P r) -> tells nv E P (f x r)) ->
  (forall E, inside D E -> tells nv E P rest) -> forall E, inside D E -> tells nv E P (sequence xs f rest).
Proof.
  induction xs as [|x r IH]; intros D P H R E I; [now apply R|]. cbn [sequence fold_right]. apply H; [now left|assumption|].
  intros F IF. apply (IH D P); auto; [intros; apply H; auto; now right|]. now apply (inside_trans D E).
Qed.

Section Once.
Variable nv : nat.
Variable d : domains.
Hypothesis Hd : domains_ok d.
Hypothesis Ld : length d = nv.

Lemma tells_honest (sat : assignment -> Prop) p : forall D (P : assignment -> Prop) t, (t_failed t = false -> inside D (t_domains t)) ->
  (forall a, within a d -> sat a -> keeps a t -> P a) -> tells nv D P p -> honest nv d sat t -> honest nv d sat (exec p t).
Proof.
  induction p as [|l r IH|f IH]; intros D P t HD HP S H; simpl in *; [assumption| |].
  - destruct S as (B & L & S). apply (IH D P); [| |assumption|].
    + intro F. assert (F0 : t_failed t = false) by (destruct (t_failed t) eqn:E; [rewrite tell_failed in F by assumption; congruence|reflexivity]).
      intros a Wa. apply HD; [assumption|]. apply (tell_live nv d Hd Ld l t a (proj1 H) B F Wa).
    + intros a Wa Sa K. apply HP; [assumption|assumption|]. destruct H as [_ H]. now apply H.
    + apply honest_tell; auto. intros F Ok Ln a Wa W Sa. apply L. apply HP; auto. destruct H as [_ H]. now apply H.
  - destruct (t_failed t) eqn:F; [now rewrite exec_failed|]. pose proof (proj1 H) as G.
    apply (IH _ (t_domains t) (fun a => P a /\ within a (t_domains t))); [intros; apply inside_refl| | |assumption].
    + intros a Wa Sa K. split; [auto|]. now apply (keeps_alive nv d Hd Ld t a).
    + apply S; [now apply (legit_ok nv d)|now apply (legit_length nv d)|auto].
Qed.

Lemma exec_obeys (a : assignment) p : forall D (P : assignment -> Prop) t, (t_failed t = false -> inside D (t_domains t)) -> tells nv D P p -> legit nv d t -> live nv d (exec p t) a ->
  t_failed t = false /\ within a (t_domains t) /\ obeys nv a p (t_domains t).
Proof.
  induction p as [|l r IH|f IH]; intros D P t HD S G Lv; simpl in *.
  - destruct Lv as (_ & F & W). auto.
  - destruct S as (B & _ & S). assert (G' : legit nv d (tell l t)) by now apply legit_tell.
    assert (HD' : t_failed (tell l t) = false -> inside (t_domains t) (t_domains (tell l t))).
    { intros F b Wb. apply (tell_live nv d Hd Ld l t b G B F Wb). }
    assert (HD2 : t_failed (tell l t) = false -> inside D (t_domains (tell l t))).
    { intro F. assert (F0 : t_failed t = false) by (destruct (t_failed t) eqn:E; [rewrite tell_failed in F by assumption; congruence|reflexivity]).
      apply (inside_trans D (t_domains t)); auto. }
    destruct (IH D P (tell l t) HD2 S G' Lv) as (F' & W' & O'). destruct (tell_live nv d Hd Ld l t a G B F' W') as (F0 & W0 & L0).
    split; [assumption|]. split; [assumption|]. split; [assumption|]. exists (t_domains (tell l t)).
    split; [now apply (legit_ok nv d)|]. split; [now apply (legit_length nv d)|]. auto.
  - assert (F0 : t_failed t = false) by (destruct (t_failed t) eqn:E; [rewrite exec_failed in Lv by assumption; destruct Lv as (_ & F & _); congruence|reflexivity]).
    apply (IH (t_domains t) (t_domains t) (fun b => P b /\ within b (t_domains t)) t); auto; [intros; apply inside_refl|].
    apply S; [now apply (legit_ok nv d)|now apply (legit_length nv d)|auto].
Qed.
End Once.

(** What comes after is obeyed too. *)
Definition passes (nv : nat) (a : assignment) (f : prog -> prog) (Q : domains -> Prop) : Prop :=
  forall rest d, domains_ok d -> length d = nv -> within a d -> obeys nv a (f rest) d ->
    Q d /\ exists d', domains_ok d' /\ length d' = nv /\ within a d' /\ inside d d' /\ obeys nv a rest d'.

Lemma passes_weaken nv a f (Q R : domains -> Prop) : (forall d, domains_ok d -> length d = nv -> within a d -> Q d -> R d) -> passes nv a f Q -> passes nv a f R.
Proof. intros H Pf rest d Hd Ld Wa O. destruct (Pf rest d Hd Ld Wa O) as [A B]. split; auto. Qed.

Lemma passes_id nv a : passes nv a (fun rest => rest) (fun _ => True).
Proof. intros rest d Hd Ld Wa O. split; [exact Logic.I|]. exists d. repeat (split; [assumption|]). split; [apply inside_refl|assumption]. Qed.

Lemma passes_infer nv a l : passes nv a (Infer l) (fun _ => lit_holds a l).
Proof. intros rest d Hd Ld Wa (L & d' & A & B & C & D & O). split; [assumption|]. exists d'. auto. Qed.

Lemma passes_when nv a b l : passes nv a (infer_when b l) (fun _ => b = true -> lit_holds a l).
Proof.
  destruct b; cbn [infer_when].
  - apply (passes_weaken _ _ _ (fun _ => lit_holds a l)); [auto|]. apply passes_infer.
  - apply (passes_weaken _ _ _ (fun _ => True)); [discriminate|apply passes_id].
Qed.

Lemma passes_look nv a (f : domains -> prog -> prog) (Q : domains -> domains -> Prop) : (forall d, domains_ok d -> length d = nv -> passes nv a (f d) (Q d)) ->
  passes nv a (fun rest => Look (fun d => f d rest)) (fun d => Q d d).
Proof. intros H rest d Hd Ld Wa O. cbn [obeys] in O. now apply (H d Hd Ld rest d). Qed.

Lemma passes_then nv a f g (Q R : domains -> Prop) : passes nv a f Q -> passes nv a g R -> passes nv a (fun rest => f (g rest)) (fun d => Q d /\ exists d', domains_ok d' /\ length d' = nv /\ within a d' /\ inside d d' /\ R d').
Proof.
  intros Pf Pg rest d Hd Ld Wa O. destruct (Pf (g rest) d Hd Ld Wa O) as (Qd & d1 & H1 & L1 & W1 & I1 & O1). destruct (Pg rest d1 H1 L1 W1 O1) as (Rd & d2 & H2 & L2 & W2 & I2 & O2).
  split; [split; [assumption|exists d1; auto]|]. exists d2. repeat (split; [assumption|]). split; [|assumption]. now apply (inside_trans d d1).
Qed.

Lemma passes_sequence {X} nv a (f : X -> prog -> prog) (Q : X -> domains -> Prop) (xs : list X) :
  (forall x, In x xs -> passes nv a (f x) (Q x)) -> passes nv a (sequence xs f) (fun d => forall x, In x xs -> exists d', domains_ok d' /\ length d' = nv /\ within a d' /\ inside d d' /\ Q x d').
Proof.
  induction xs as [|x r IH]; intros H.
  - intros rest d Hd Ld Wa O. split; [intros x []|]. exists d. repeat (split; [assumption|]). split; [apply inside_refl|assumption].
  - intros rest d Hd Ld Wa O. cbn [sequence fold_right] in O. destruct (H x (or_introl eq_refl) _ d Hd Ld Wa O) as (Qd & d1 & H1 & L1 & W1 & I1 & O1).
    destruct (IH (fun y I => H y (or_intror I)) rest d1 H1 L1 W1 O1) as (Fa & d2 & H2 & L2 & W2 & I2 & O2). split.
    + intros y [<-|Iy]; [exists d; repeat (split; [assumption|]); split; [apply inside_refl|assumption]|]. destruct (Fa y Iy) as (d3 & H3 & L3 & W3 & I3 & Q3). exists d3. repeat (split; [assumption|]). split; [|assumption]. now apply (inside_trans d d1).
    + exists d2. repeat (split; [assumption|]). split; [|assumption]. now apply (inside_trans d d1).
Qed.

Lemma once_meets nv d0 alias p scope (sat part : assignment -> Prop) :
  (forall d, domains_ok d -> length d = nv -> inside d0 d -> tells nv d (fun a => sat a /\ within a d) p) ->
  (forall d a, domains_ok d -> length d = nv -> inside d0 d -> Forall (fixed d) scope -> within a d -> obeys nv a p d -> part a) ->
  meets nv d0 alias (once p) scope sat part.
Proof.
  intros T C. constructor; cbn [once fst snd]; try discriminate.
  - intros d Hd Ld I. apply (tells_honest nv d Hd Ld sat p d (fun a => sat a /\ within a d)); auto; [intros _; apply inside_refl|now apply honest_track].
  - intros d a Hd Ld I F Lv. destruct (exec_obeys nv d Hd Ld a p d (fun a => sat a /\ within a d) (track d)) as (_ & Wa & O); auto; [intros _; apply inside_refl|apply legit_track|].
    now apply (C d a).
Qed.

(** ** Steps that say nothing wrong *)
Definition goes (nv : nat) (D : domains) (P : assignment -> Prop) (f : prog -> prog) : Prop :=
  forall E (Q : assignment -> Prop) rest, (forall a, Q a -> P a) -> inside D E -> (forall F, inside E F -> tells nv F Q rest) -> tells nv E Q (f rest).

Lemma goes_weaken nv D E (P Q : assignment -> Prop) f : (forall a, Q a -> P a) -> inside D E -> goes nv D P f -> goes nv E Q f.
Proof. intros H I G F R rest HR IF T. apply G; auto. now apply (inside_trans D E). Qed.

Lemma goes_id nv D P : goes nv D P (fun r => r).
Proof. intros E Q rest H I T. apply T, inside_refl. Qed.

Lemma goes_infer nv D (P : assignment -> Prop) l : lit_below nv l -> (forall a, P a -> lit_holds a l) -> goes nv D P (Infer l).
Proof. intros B L E Q rest H I T. cbn [tells]. split; [assumption|]. split; [auto|]. apply T, inside_refl. Qed.

Lemma goes_when nv D (P : assignment -> Prop) b l : (b = true -> lit_below nv l /\ forall a, P a -> lit_holds a l) -> goes nv D P (infer_when b l).
Proof. intros H. destruct b; cbn [infer_when]; [|apply goes_id]. destruct (H eq_refl). now apply goes_infer. Qed.

Lemma goes_look nv D (P : assignment -> Prop) (f : domains -> prog -> prog) :
  (forall d, domains_ok d -> length d = nv -> inside D d -> goes nv d (fun a => P a /\ within a d) (f d)) -> goes nv D P (fun rest => Look (fun d => f d rest)).
Proof.
  intros H E Q rest HQ I T. cbn [tells]. intros d Hd Ld Id. apply (H d); auto; [now apply (inside_trans D E)|intros a [A B]; auto|apply inside_refl|].
  intros F IF. apply (tells_weaken nv rest F F Q); [tauto|apply inside_refl|]. apply T. now apply (inside_trans E d).
Qed.

Lemma goes_then nv D P f g : goes nv D P f -> goes nv D P g -> goes nv D P (fun rest => f (g rest)).
Proof. intros F G E Q rest H I T. apply F; auto. intros E' I'. apply G; auto; [now apply (inside_trans D E)|]. intros F' IF'. apply T. now apply (inside_trans E E'). Qed.

Lemma goes_sequence {X} nv D P (f : X -> prog -> prog) xs : (forall x, In x xs -> goes nv D P (f x)) -> goes nv D P (sequence xs f).
Proof.
  induction xs as [|x r IH]; intro H; [apply goes_id|]. unfold sequence. cbn [fold_right].
  apply (goes_then nv D P (f x) (fun rest => fold_right f rest r)); [apply H; now left|]. apply IH. intros y Iy. apply H. now right.
Qed.

(** ** What is there when nothing changes *)
Section Rests.
Variable d : domains.

Definition rests (f : prog -> prog) (Q : Prop) : Prop := forall rest, still (f rest) d -> Q /\ still rest d.

Lemma rests_weaken f (Q R : Prop) : (Q -> R) -> rests f Q -> rests f R.
Proof. intros H G rest S. destruct (G rest S). auto. Qed.

Lemma rests_id : rests (fun r => r) True.
Proof. intros rest S. auto. Qed.

Lemma rests_infer l : rests (Infer l) (forall a, within a d -> lit_holds a l).
Proof. intros rest S. split; intros a Wa; specialize (S a Wa); now inversion S. Qed.

Lemma rests_when b l : rests (infer_when b l) (b = true -> forall a, within a d -> lit_holds a l).
Proof. destruct b; cbn [infer_when]; [apply (rests_weaken _ (forall a, within a d -> lit_holds a l)); [auto|apply rests_infer]|apply (rests_weaken _ True); [discriminate|apply rests_id]]. Qed.

Lemma rests_look (f : domains -> prog -> prog) Q : rests (f d) Q -> rests (fun rest => Look (fun d => f d rest)) Q.
Proof. intros H rest S. apply H. exact S. Qed.

Lemma rests_then f g Q R : rests f Q -> rests g R -> rests (fun rest => f (g rest)) (Q /\ R).
Proof. intros F G rest S. destruct (F _ S) as [A B]. destruct (G _ B). auto. Qed.

Lemma rests_sequence {X} (f : X -> prog -> prog) (Q : X -> Prop) xs : (forall x, In x xs -> rests (f x) (Q x)) -> rests (sequence xs f) (forall x, In x xs -> Q x).
Proof.
  induction xs as [|x r IH]; intro H; [apply (rests_weaken _ True); [intros _ x []|apply rests_id]|]. unfold sequence. cbn [fold_right].
  apply (rests_weaken _ (Q x /\ forall y, In y r -> Q y)); [intros [A B] y [<-|I]; auto|]. apply (rests_then (f x) (fun rest => fold_right f rest r)); [apply H; now left|]. apply IH. intros y I. apply H. now right.
Qed.

End Rests.

(** ** A run that changes nothing *)
Section Quiet.
Variable nv : nat.
Variable d : domains.
Hypothesis Hd : domains_ok d.
Hypothesis Ld : length d = nv.

Lemma exec_size_tells p : forall D (P : assignment -> Prop) t, (t_failed t = false -> inside D (t_domains t)) -> tells nv D P p -> legit nv d t ->
  legit nv d (exec p t) /\ (t_failed (exec p t) = false -> (total_size (t_domains (exec p t)) <= total_size (t_domains t))%nat /\
  (total_size (t_domains (exec p t)) = total_size (t_domains t) -> still p (t_domains t))).
Proof.
  induction p as [|l r IH|f IH]; intros D P t HD T G; cbn [exec].
  - split; [assumption|]. intros _. split; [lia|]. intros _ a _. constructor.
  - cbn [tells] in T. destruct T as (B & _ & T). assert (G1 : legit nv d (tell l t)) by now apply legit_tell.
    assert (HD2 : t_failed (tell l t) = false -> inside D (t_domains (tell l t))).
    { intro F. assert (F0 : t_failed t = false) by (destruct (t_failed t) eqn:E; [rewrite tell_failed in F by assumption; congruence|reflexivity]).
      apply (inside_trans D (t_domains t)); auto. intros b Wb. apply (tell_live nv d Hd Ld l t b G B F Wb). }
    destruct (IH D P (tell l t) HD2 T G1) as [G2 Sz]. split; [assumption|]. intro F. destruct (Sz F) as [Le Eq]. clear IH Sz.
    assert (F1 : t_failed (tell l t) = false) by (destruct (t_failed (tell l t)) eqn:E; [rewrite exec_failed in F by assumption; congruence|reflexivity]).
    assert (F0 : t_failed t = false) by (destruct (t_failed t) eqn:E; [rewrite tell_failed in F1 by assumption; congruence|reflexivity]).
    pose proof (legit_ok nv d Hd Ld t G F0) as Ok. pose proof (lit_known_at nv d Hd Ld t l G B) as Kl.
    assert (A : exists evs, apply_lits (t_domains t) [l] = (t_domains (tell l t), evs, false)).
    { unfold tell in *. rewrite F0 in *. simpl. destruct (infer (t_domains t) l) as [i d1]. simpl in *. destruct i; try discriminate; destruct (lit_underlying l); eauto. }
    destruct A as (evs & A). pose proof (apply_lits_size _ _ _ _ _ Ok (Forall_cons _ Kl (Forall_nil _)) A eq_refl) as Sz.
    split; [lia|]. intro E. assert (evs = []) as -> by (destruct evs; [reflexivity|simpl in Sz; lia]).
    pose proof (apply_lits_quiet _ _ _ Ok (Forall_cons _ Kl (Forall_nil _)) A) as E1. rewrite E1 in *. specialize (Eq E).
    intros a Wa. constructor; [|now apply Eq]. pose proof (apply_lits_within _ _ _ _ _ Ok (Forall_cons _ Kl (Forall_nil _)) A a) as W. try rewrite E1 in W.
    apply W in Wa. destruct Wa as [_ X]. now inversion X.
  - destruct (t_failed t) eqn:F; [rewrite exec_failed by assumption; split; [assumption|congruence]|]. 
    apply (IH (t_domains t) (t_domains t) (fun a => P a /\ within a (t_domains t))); auto; [intros; apply inside_refl|].
    apply T; [now apply (legit_ok nv d)|now apply (legit_length nv d)|auto].
Qed.

Lemma quiet_still p (P : assignment -> Prop) on_change on_bounds on_instantiated : tells nv d P p ->
  rerun_is_quiet (body_propagator (once p) on_change on_bounds on_instantiated) d -> still p d.
Proof.
  intros T Q. destruct (exec_size_tells p d P (track d)) as [G Sz]; [intros _; apply inside_refl|assumption|apply legit_track|].
  pose (i := mk_in d [] [] [] [] (fun _ => false)). specialize (Q i eq_refl). cbn [p_run body_propagator] in Q. destruct (body_run_out (once p) i) as (E & _). rewrite E in Q. cbn [once fst i_domains i] in Q.
  destruct (lg_apply _ _ _ G) as [ev A]. rewrite A in Q. injection Q as Ed _ F. destruct (Sz F) as [_ S]. apply S. rewrite Ed. reflexivity.
Qed.
End Quiet.

