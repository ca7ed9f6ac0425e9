(** Lemmas for reasoning about runs of propagation functions step by step. *)
From Coq Require Import ZArith List Bool Arith Lia.
From Verif Require Import IntervalSet IntervalSetSpec IntervalSetProofs Vars VarsSpec VarsProofs State StateSpec StateProofs Epochs
  Engine EngineSpec EngineProofs SessionSpec SessionInvProofs Tracker ContractSpec ContractProofs.
Import ListNotations.
Local Open Scope Z_scope.

(** ** Reading domains, given an assignment within them *)

Section Reads.
Variable d : domains.
Variable v : var_id.
Variable a : assignment.
Hypothesis Hd : domains_ok d.
Hypothesis Hv : var_known d v.
Hypothesis Wa : within a d.

Lemma value_possible : view_member d v (var_value a v).
Proof. apply view_member_iff; eauto. Qed.

Lemma value_in_domain : in_domain d v (var_value a v) = true.
Proof. apply in_domain_spec; auto. apply value_possible. Qed.

Lemma value_listed : In (var_value a v) (each_value d v).
Proof. apply each_value_In. apply value_possible. Qed.

Lemma not_in_domain x : in_domain d v x = false -> var_value a v <> x.
Proof. intros E <-. rewrite value_in_domain in E. discriminate. Qed.

Lemma value_copied : member (var_value a v) (copy_of_values d v).
Proof. apply copy_of_values_spec; auto. apply value_possible. Qed.

Section Fixed.
Hypothesis Fx : fixed d v.

Lemma fixed_only x : view_member d v x <-> x = var_value a v.
Proof.
  destruct Fx as (y & F). rewrite view_member_iff by assumption. split.
  - intros (b & Wb & <-). now rewrite (F a Wa), (F b Wb).
  - intros ->. eauto.
Qed.

Lemma fixed_in_domain x : in_domain d v x = (x =? var_value a v).
Proof. apply eq_true_iff_eq. rewrite in_domain_spec, Z.eqb_eq by assumption. apply fixed_only. Qed.

Lemma fixed_single_value : optional_single_value d v = Some (var_value a v).
Proof. apply optional_single_value_spec; auto. intro y. apply fixed_only. Qed.

Lemma fixed_each_value : each_value d v = [var_value a v].
Proof.
  assert (A : forall x, In x (each_value d v) <-> x = var_value a v) by (intro x; rewrite each_value_In; apply fixed_only).
  pose proof (each_value_NoDup d v Hd Hv) as N. destruct (each_value d v) as [|x [|y r]].
  - exfalso. apply (A (var_value a v)). reflexivity.
  - f_equal. apply A. now left.
  - exfalso. inversion_clear N as [|? ? Nx _]. apply Nx. left. transitivity (var_value a v); [apply A; simpl; auto|symmetry; apply A; simpl; auto].
Qed.

Lemma fixed_lower : lower_bound d v = var_value a v.
Proof. apply (fixed_bounds d v a); auto. Qed.

Lemma fixed_upper : upper_bound d v = var_value a v.
Proof. apply (fixed_bounds d v a); auto. Qed.

Lemma fixed_copied x : member x (copy_of_values d v) <-> x = var_value a v.
Proof. destruct (copy_of_values_spec d v Hd Hv) as [_ C]. rewrite (C x). apply fixed_only. Qed.

End Fixed.
End Reads.

(** ** Honest runs *)

(** The run has inferred only what follows from [sat] and the domains it started with. *)
Definition honest (nv : nat) (d : domains) (sat : assignment -> Prop) (t : tracker) : Prop :=
  legit nv d t /\ forall a, within a d -> sat a -> keeps a t.

Section Honest.
Variable nv : nat.
Variable d : domains.
Hypothesis Hd : domains_ok d.
Hypothesis Ld : length d = nv.
Variable sat : assignment -> Prop.

Lemma honest_track : honest nv d sat (track d).
Proof. split; [apply legit_track|intros; apply keeps_track]. Qed.

(** The assignments a run may still be relied on to keep. *)
Lemma honest_within t a : honest nv d sat t -> within a d -> sat a -> t_failed t = false /\ within a (t_domains t).
Proof. intros [G K] Wa Sa. apply (keeps_alive nv d Hd Ld t a G Wa). auto. Qed.

Lemma honest_tell l t : lit_below nv l -> honest nv d sat t ->
  (t_failed t = false -> domains_ok (t_domains t) -> length (t_domains t) = nv ->
   forall a, within a d -> within a (t_domains t) -> sat a -> lit_holds a l) ->
  honest nv d sat (tell l t).
Proof.
  intros B H J. pose proof H as [G K]. split; [now apply legit_tell|]. intros a Wa Sa. apply keeps_tell; [auto|]. intro F.
  apply J; auto.
  - now apply (legit_ok nv d).
  - now apply (legit_length nv d).
  - now apply honest_within.
Qed.

Lemma honest_not_in_range v lo hi t : var_below nv v -> honest nv d sat t ->
  (t_failed t = false -> domains_ok (t_domains t) -> length (t_domains t) = nv ->
   forall a, within a d -> within a (t_domains t) -> sat a -> ~ (lo <= var_value a v <= hi)) ->
  honest nv d sat (tell_not_in_range v lo hi t).
Proof.
  intros B H J. unfold tell_not_in_range. destruct (hi <? lo); [assumption|]. apply honest_tell; auto.
Qed.

Lemma honest_for_each {X} (xs : list X) f : (forall x t, In x xs -> honest nv d sat t -> honest nv d sat (f x t)) ->
  forall t, honest nv d sat t -> honest nv d sat (for_each xs f t).
Proof. apply for_each_ind. Qed.

Lemma honest_tell_all ls t : Forall (lit_below nv) ls -> honest nv d sat t -> (forall a, within a d -> sat a -> Forall (lit_holds a) ls) ->
  honest nv d sat (tell_all ls t).
Proof.
  intros B H J. apply (for_each_ind (honest nv d sat) ls tell); [|assumption]. intros l t' I H'. rewrite Forall_forall in B. apply honest_tell; auto.
  intros _ _ _ a Wa _ Sa. specialize (J a Wa Sa). rewrite Forall_forall in J. auto.
Qed.

End Honest.

(** ** What a run that has not failed has established *)

Section Live.
Variable nv : nat.
Variable d : domains.
Hypothesis Hd : domains_ok d.
Hypothesis Ld : length d = nv.

(** The run can go on, and [a] is still possible. *)
Definition live (t : tracker) (a : assignment) : Prop := legit nv d t /\ t_failed t = false /\ within a (t_domains t).

Lemma live_ok t a : live t a -> domains_ok (t_domains t).
Proof. intros (G & F & _). now apply (legit_ok nv d). Qed.

Lemma live_length t a : live t a -> length (t_domains t) = nv.
Proof. intros (G & F & _). now apply (legit_length nv d). Qed.

Lemma live_within t a : live t a -> within a d.
Proof. intros (G & F & W). now apply (legit_inside nv d Hd Ld t G F). Qed.

Lemma live_fixed t a v : live t a -> fixed d v -> fixed (t_domains t) v.
Proof. intros (G & F & W). apply fixed_mono. now apply (legit_inside nv d). Qed.

(** [t'] is reached from [t], and everything inferred on the way holds of [a] whenever [t'] is live. *)
Lemma tell_back l t a : lit_below nv l -> legit nv d t -> live (tell l t) a -> live t a /\ lit_holds a l.
Proof.
  intros B G (_ & F & W). destruct (tell_live nv d Hd Ld l t a G B F W) as (F' & W' & H). split; [split|]; auto.
Qed.

Lemma not_in_range_back v lo hi t a : var_below nv v -> legit nv d t -> live (tell_not_in_range v lo hi t) a ->
  live t a /\ ~ (lo <= var_value a v <= hi).
Proof.
  intros B G. unfold tell_not_in_range. destruct (Z.ltb_spec hi lo) as [Lt|Ge].
  - intro H. split; [assumption|]. lia.
  - intro H. apply (tell_back (LCond (mk_cond v OpNotInRange lo hi)) t a) in H; auto.
Qed.

Lemma for_each_back {X} (P : X -> Prop) a (xs : list X) f :
  (forall x t, In x xs -> legit nv d t -> legit nv d (f x t)) ->
  (forall x t, In x xs -> legit nv d t -> live (f x t) a -> live t a /\ P x) ->
  forall t, legit nv d t -> live (for_each xs f t) a -> live t a /\ Forall P xs.
Proof.
  unfold for_each. induction xs as [|x r IH]; intros Lg Bk t G H; simpl in *; [split; [assumption|constructor]|].
  destruct (IH (fun y t I => Lg y t (or_intror I)) (fun y t I => Bk y t (or_intror I)) (f x t)) as [A F]; auto.
  destruct (Bk x t) as [B P']; auto.
Qed.

Lemma tell_all_back a ls t : Forall (lit_below nv) ls -> legit nv d t -> live (tell_all ls t) a -> live t a /\ Forall (lit_holds a) ls.
Proof.
  intros B G H. rewrite Forall_forall in B. apply (for_each_back (lit_holds a) a ls tell) in H; auto.
  - intros. apply legit_tell; auto.
  - intros l t' I G' H'. apply tell_back; auto.
Qed.

Lemma live_track a : within a d -> live (track d) a.
Proof. intro W. split; [apply legit_track|]. split; [reflexivity|exact W]. Qed.

(** [t'] comes after [t] in a run. *)
Definition later (t t' : tracker) : Prop := legit nv d t -> legit nv d t' /\ forall a, live t' a -> live t a.

Lemma later_refl t : later t t.
Proof. intro G. auto. Qed.

Lemma later_trans t1 t2 t3 : later t1 t2 -> later t2 t3 -> later t1 t3.
Proof. intros A B G. destruct (A G) as [G2 L2]. destruct (B G2) as [G3 L3]. auto. Qed.

Lemma later_tell l t : lit_below nv l -> later t (tell l t).
Proof. intros B G. split; [now apply legit_tell|]. intros a Lv. now apply tell_back in Lv. Qed.

Lemma later_not_in_range v lo hi t : var_below nv v -> later t (tell_not_in_range v lo hi t).
Proof. intro B. unfold tell_not_in_range. destruct (hi <? lo); [apply later_refl|now apply later_tell]. Qed.

Lemma later_for_each {X} (xs : list X) f : (forall x t, In x xs -> later t (f x t)) -> forall t, later t (for_each xs f t).
Proof.
  unfold for_each. induction xs as [|x r IH]; intros H t; simpl; [apply later_refl|].
  apply (later_trans t (f x t)); [apply H; now left|]. apply IH. intros y t' I. apply H. now right.
Qed.

Lemma for_each_later {X} (P : X -> Prop) a (xs : list X) f : (forall x t, In x xs -> later t (f x t)) ->
  (forall x t, In x xs -> legit nv d t -> live (f x t) a -> live t a -> P x) ->
  forall t, legit nv d t -> live (for_each xs f t) a -> live t a /\ Forall P xs.
Proof.
  intros St H. apply for_each_back.
  - intros x t I G. now apply St.
  - intros x t I G Lv. destruct (St x t I G) as [_ Bk]. split; [auto|]. apply (H x t I G); auto.
Qed.

(** The same, given something else that holds at every step. *)
Lemma for_each_later_inv {X} (J : tracker -> Prop) (P : X -> Prop) a (xs : list X) f : (forall x t, In x xs -> later t (f x t)) ->
  (forall x t, In x xs -> legit nv d t -> J t -> J (f x t)) ->
  (forall x t, In x xs -> legit nv d t -> J t -> live (f x t) a -> live t a -> P x) ->
  forall t, legit nv d t -> J t -> live (for_each xs f t) a -> live t a /\ Forall P xs.
Proof.
  unfold for_each. induction xs as [|x r IH]; intros St Pr H t G Jt Lv; simpl in *; [split; [assumption|constructor]|].
  destruct (St x t (or_introl eq_refl) G) as [G' Bk].
  destruct (IH (fun y t I => St y t (or_intror I)) (fun y t I => Pr y t (or_intror I)) (fun y t I => H y t (or_intror I)) (f x t) G'
    (Pr x t (or_introl eq_refl) G Jt) Lv) as [A F].
  split; [auto|]. constructor; [|assumption]. apply (H x t (or_introl eq_refl) G Jt A). auto.
Qed.

(** What an inference leaves of a variable. *)
Lemma view_member_same (d1 d2 : domains) v x : (forall n, underlying v = Some n -> nth n d1 [] = nth n d2 []) -> (view_member d1 v x <-> view_member d2 v x).
Proof. intro H. destruct v as [n|n neg add|c]; simpl in *; try (pose proof (H n eq_refl) as E; clear H; unfold domains, iset in *; rewrite E); tauto. Qed.

Lemma tell_elsewhere v op x y t w z : var_below nv v -> legit nv d t -> unrelated w v ->
  (view_member (t_domains (tell (LCond (mk_cond v op x y)) t)) w z <-> view_member (t_domains t) w z).
Proof.
  intros B G U. unfold tell. destruct (t_failed t) eqn:F; [tauto|].
  destruct (infer (t_domains t) (LCond (mk_cond v op x y))) as [i d'] eqn:E. simpl. apply view_member_same. intros n En.
  destruct (infer_exact (t_domains t) (LCond (mk_cond v op x y)) _ _ (legit_ok nv d Hd Ld t G F) (var_below_known nv _ v (legit_length nv d Hd Ld t G) B) E) as (_ & _ & _ & O).
  apply O. simpl. intro X. exact (U n En X).
Qed.

Lemma tell_here l t w z : lit_below nv l -> legit nv d t -> var_below nv w -> t_failed (tell l t) = false ->
  (view_member (t_domains (tell l t)) w z <-> exists a, within a (t_domains t) /\ lit_holds a l /\ var_value a w = z).
Proof.
  intros B G Bw F. pose proof (legit_tell nv d l t B G) as G'. rewrite view_member_iff.
  - split.
    + intros (a & W & E). destruct (tell_live nv d Hd Ld l t a G B F W) as (_ & W' & H). eauto.
    + intros (a & W & H & E). exists a. split; [|assumption].
      assert (Ft : t_failed t = false) by (unfold tell in F; destruct (t_failed t) eqn:X; [congruence|reflexivity]).
      apply (legit_within nv d Hd Ld _ a G' F). apply (legit_within nv d Hd Ld t a G Ft) in W. destruct W as [W K]. split; [assumption|]. now apply keeps_tell.
  - now apply (legit_ok nv d).
  - apply (var_below_known nv); [now apply (legit_length nv d)|assumption].
Qed.

Lemma tell_ne_here v x t z : var_below nv v -> legit nv d t -> t_failed (tell_ne v x t) = false ->
  (view_member (t_domains (tell_ne v x t)) v z <-> view_member (t_domains t) v z /\ z <> x).
Proof.
  intros B G F. assert (Ft : t_failed t = false) by (unfold tell_ne, tell in F; destruct (t_failed t) eqn:X; [congruence|reflexivity]).
  unfold tell_ne. rewrite tell_here by assumption. rewrite (view_member_iff (t_domains t)); [|now apply (legit_ok nv d)|apply (var_below_known nv); [now apply (legit_length nv d)|assumption]].
  split.
  - intros (a & W & H & <-). split; [eauto|]. exact H.
  - intros [(a & W & <-) N]. exists a. split; [assumption|]. split; [exact N|reflexivity].
Qed.

(** Nothing gains values. *)
Lemma member_before t v z : legit nv d t -> t_failed t = false -> var_below nv v -> view_member (t_domains t) v z -> view_member d v z.
Proof.
  intros G F B M. apply view_member_iff in M; [|now apply (legit_ok nv d)|apply (var_below_known nv); [now apply (legit_length nv d)|assumption]].
  destruct M as (a & W & E). apply view_member_iff; [assumption|now apply (var_below_known nv)|]. exists a. split; [now apply (legit_inside nv d Hd Ld t G F)|assumption].
Qed.

End Live.

(** Honest runs can be followed by anything that keeps what satisfies the relation. *)
Lemma honest_later nv d sat t t' : honest nv d sat t -> (legit nv d t -> legit nv d t') ->
  (forall a, within a d -> sat a -> keeps a t -> keeps a t') -> honest nv d sat t'.
Proof. intros [G K] G' K'. split; auto. Qed.

(** ** From honest runs to the contract *)

(** A body whose runs are honest, and establish the relation when they should. *)
Lemma body_ok_intro nv d0 alias f scope sat :
  (forall d, domains_ok d -> length d = nv -> inside d0 d -> honest nv d sat (fst (f d))) ->
  (forall d a, domains_ok d -> length d = nv -> inside d0 d -> Forall (fixed d) scope -> live nv d (fst (f d)) a -> sat a) ->
  (forall d a, domains_ok d -> length d = nv -> inside d0 d -> ~ alias -> snd (f d) = EnableButIdempotent -> live nv d (fst (f d)) a ->
     Forall (fixed (t_domains (fst (f d)))) scope -> sat a) ->
  (forall d a, domains_ok d -> length d = nv -> inside d0 d -> snd (f d) = DisableUntilBacktrack -> live nv d (fst (f d)) a -> sat a) ->
  body_ok nv d0 alias f scope sat.
Proof.
  intros Ho Ch Cl En. constructor.
  - intros d Hd L I. apply Ho; auto.
  - intros d a Hd L I Wa Sa. apply (Ho d Hd L I); auto.
  - intros d Hd L I F Ft a Wa. apply (Ch d a Hd L I F). split; [apply Ho; auto|auto].
  - intros d Hd L I NA R Ft F a Wa. apply (Cl d a Hd L I NA R); auto. split; [apply Ho; auto|auto].
  - intros d Hd L I R Ft a Wa. apply (En d a Hd L I R). split; [apply Ho; auto|auto].
Qed.

(** A constraint consisting of one stateless propagator, and initialisers that only simplify. *)
Lemma one_propagator_correct d0 (k : constraint) f on_change on_bounds on_instantiated inits scope (sat sat' : assignment -> Prop) :
  k d0 = ([body_propagator f on_change on_bounds on_instantiated], map body_initialiser inits) ->
  (forall a, sat' a <-> sat a) ->
  Forall (var_known d0) scope ->
  incl scope (on_change ++ on_bounds ++ on_instantiated) ->
  (forall nv, (length d0 <= nv)%nat -> body_ok nv d0 (aliased (body_propagator f on_change on_bounds on_instantiated)) f scope sat) ->
  (forall nv g d, (length d0 <= nv)%nat -> In g inits -> domains_ok d -> length d = nv -> inside d0 d -> honest nv d sat (g d)) ->
  correct_on d0 k scope sat'.
Proof.
  intros E Eq K Su Ok In_. apply (correct_intro _ _ _ sat); auto. intros nv Inv Ln St I0. rewrite E. cbn [fst snd].
  split. { eapply Forall_impl; [|exact K]. intros v Kv. now apply (known_below_more d0). }
  exists [sat], (map (fun _ => (fun _ : assignment => True)) inits). split; [|split].
  - constructor; [|constructor]. apply (propagates_supports nv Inv _ scope); [apply incl_refl|]. apply (body_propagates nv d0); auto.
    + eapply Forall_impl; [|exact K]. intros v Kv. now apply (known_below_more d0).
    + intros v x Iv Ux. unfold subscribes, body_propagator; simpl. apply Su in Iv. apply in_app_or in Iv. destruct Iv as [Iv|Iv]; [|apply in_app_or in Iv; destruct Iv]; eauto 10.
  - assert (A : forall g, In g inits -> initialises nv Inv (body_initialiser g) sat (fun _ => True)).
    { intros g Ig. apply (body_initialises nv d0); auto.
      - intros d Hd L I. apply (In_ nv g d); auto.
      - intros d a Hd L I Wa Sa. apply (In_ nv g d); auto. }
    clear In_ E. induction inits as [|g r IH]; simpl; constructor; [apply A; now left|]. apply IH. intros. apply A. now right.
  - intros a _ F _. now inversion F.
Qed.

(** An initialiser that establishes the whole relation is all that is needed. *)
Lemma initialiser_correct d0 (k : constraint) f scope (sat sat' : assignment -> Prop) :
  k d0 = ([], [body_initialiser f]) -> (forall a, sat' a <-> sat a) -> Forall (var_known d0) scope ->
  (forall nv d, (length d0 <= nv)%nat -> domains_ok d -> length d = nv -> inside d0 d ->
     honest nv d sat (f d) /\ forall a, live nv d (f d) a -> sat a) ->
  correct_on d0 k scope sat'.
Proof.
  intros E Eq K H. apply (correct_intro _ _ _ sat); auto. intros nv Inv Ln St I0. rewrite E. cbn [fst snd].
  split. { eapply Forall_impl; [|exact K]. intros v Kv. now apply (known_below_more d0). }
  exists [], [sat]. split; [constructor|]. split.
  - constructor; [|constructor]. apply (body_initialises nv d0); auto.
    + intros d Hd L I. apply (H nv d); auto.
    + intros d a Hd L I Wa Sa. apply (H nv d); auto.
    + intros d a Hd L I F W. destruct (H nv d Ln Hd L I) as [[G _] S]. apply S. split; auto.
  - intros a _ _ F. now inversion F.
Qed.

Lemma correct_ext d0 k scope (sat sat' : assignment -> Prop) : (forall a, sat' a <-> sat a) -> correct_on d0 k scope sat -> correct_on d0 k scope sat'.
Proof. intros E C. apply (correct_intro d0 k scope sat sat' E). intros nv Inv L S I. apply (C nv Inv L S I). Qed.

Lemma scope_more d0 k scope scope' sat : incl scope scope' -> Forall (var_known d0) scope' -> correct_on d0 k scope sat -> correct_on d0 k scope' sat.
Proof.
  intros Sub K C nv Inv L S I. destruct (C nv Inv L S I) as (En & B & pp & ip & FP & FI & Con). split; [assumption|].
  split. { eapply Forall_impl; [|exact K]. intros v Kv. apply (below_more (length d0)); [assumption|]. now apply known_below. }
  exists pp, ip. split; [|auto]. eapply Forall2_weaken; [|exact FP]. intros p s (W & So & ok & dead & Wk & Ck). split; [assumption|]. split; [assumption|].
  exists ok, dead. split; [assumption|]. intros d Hd Ld O Fx. apply (Ck d Hd Ld O). rewrite Forall_forall in *. auto.
Qed.

(** What the propagators and initialisers of a stateless constraint have to do if one
    of the propagators establishes the whole relation, and the rest only simplify. *)
Definition sound_body (d0 : domains) (sat : assignment -> Prop) (p : propagator) : Prop :=
  exists f on_change on_bounds on_instantiated, p = body_propagator f on_change on_bounds on_instantiated /\
  forall nv d, (length d0 <= nv)%nat -> domains_ok d -> length d = nv -> inside d0 d -> honest nv d sat (fst (f d)).

Definition sound_start (d0 : domains) (sat : assignment -> Prop) (i : initialiser) : Prop :=
  exists g, i = body_initialiser g /\ forall nv d, (length d0 <= nv)%nat -> domains_ok d -> length d = nv -> inside d0 d -> honest nv d sat (g d).

Lemma sound_body_supports nv d0 Inv sat p scope : stable nv Inv -> (forall d cs, Inv d cs -> inside d0 d) -> (length d0 <= nv)%nat ->
  sound_body d0 sat p -> supports nv Inv p scope sat (fun _ => True).
Proof.
  intros St I0 Ln (f & ch & bo & ins & -> & H). apply supports_redundant.
  - constructor.
    + intros i (Hd & L & Iv). cbn [body_propagator p_run]. rewrite (proj1 (body_run_out f i)). destruct (H nv (i_domains i) Ln Hd L (I0 _ _ Iv)) as [G _].
      apply Forall_rev. apply (lits_known nv); auto. exact (lg_below _ _ _ G).
    + intros i d evs (Hd & L & Iv) E. cbn [body_propagator p_run] in *. destruct (body_run_out f i) as (Eo & _ & Ec & _). rewrite Eo in E. rewrite Ec.
      destruct (H nv (i_domains i) Ln Hd L (I0 _ _ Iv)) as [G _]. apply (stable_lits nv Inv _ (rev (t_lits (fst (f (i_domains i))))) (i_domains i) d evs St Hd L); auto.
      apply Forall_rev. apply (lits_known nv); auto. exact (lg_below _ _ _ G).
  - intros i a (Hd & L & Iv) Wa Sa. cbn [body_propagator p_run]. rewrite (proj1 (body_run_out f i)). apply Forall_rev.
    apply (H nv (i_domains i) Ln Hd L (I0 _ _ Iv)); auto.
Qed.

Lemma sound_start_initialises nv d0 Inv sat i : stable nv Inv -> (forall d cs, Inv d cs -> inside d0 d) -> (length d0 <= nv)%nat ->
  sound_start d0 sat i -> initialises nv Inv i sat (fun _ => True).
Proof.
  intros St I0 Ln (g & -> & H). apply (body_initialises nv d0); auto.
  - intros d Hd L I. apply (H nv d); auto.
  - intros d a Hd L I Wa Sa. apply (H nv d); auto.
Qed.

Lemma Forall2_const {X Y} (P : X -> Y -> Prop) (y : Y) xs : Forall (fun x => P x y) xs -> Forall2 P xs (map (fun _ => y) xs).
Proof. induction 1; simpl; constructor; auto. Qed.

Lemma checker_correct d0 (k : constraint) f on_change on_bounds on_instantiated scope scope' (sat sat' : assignment -> Prop) :
  (forall a, sat' a <-> sat a) -> Forall (var_known d0) scope ->
  In (body_propagator f on_change on_bounds on_instantiated) (fst (k d0)) ->
  incl scope' scope -> incl scope' (on_change ++ on_bounds ++ on_instantiated) ->
  (forall nv, (length d0 <= nv)%nat -> body_ok nv d0 (aliased (body_propagator f on_change on_bounds on_instantiated)) f scope' sat) ->
  Forall (sound_body d0 sat) (fst (k d0)) -> Forall (sound_start d0 sat) (snd (k d0)) ->
  correct_on d0 k scope sat'.
Proof.
  intros Eq K Ip Sc Su Ok Bs Is. apply (correct_intro _ _ _ sat); auto. intros nv Inv Ln St I0.
  assert (Kb : Forall (var_below nv) scope). { eapply Forall_impl; [|exact K]. intros v Kv. now apply (known_below_more d0). }
  split; [assumption|]. set (T := fun _ : assignment => True).
  assert (A : forall p, sound_body d0 sat p -> supports nv Inv p scope sat T) by (intros p Hp; now apply (sound_body_supports nv d0)).
  destruct (in_split _ _ Ip) as (l1 & l2 & E). rewrite E in Bs |- *. apply Forall_app in Bs. destruct Bs as [B1 B2]. inversion_clear B2 as [|? ? _ B3].
  exists (map (fun _ => T) l1 ++ sat :: map (fun _ => T) l2), (map (fun _ => T) (snd (k d0))). split; [|split].
  - apply Forall2_app; [|constructor].
    + apply Forall2_const. eapply Forall_impl; [|exact B1]. exact A.
    + apply (propagates_supports nv Inv _ scope' scope); [assumption|]. apply (body_propagates nv d0); auto.
      * rewrite Forall_forall in *. auto.
      * intros v x Iv Ux. unfold subscribes, body_propagator; simpl. apply Su in Iv. apply in_app_or in Iv. destruct Iv as [Iv|Iv]; [|apply in_app_or in Iv; destruct Iv]; eauto 10.
    + apply Forall2_const. eapply Forall_impl; [|exact B3]. exact A.
  - apply Forall2_const. eapply Forall_impl; [|exact Is]. intros i Hi. now apply (sound_start_initialises nv d0).
  - intros a _ F _. rewrite Forall_app in F. destruct F as [_ F]. now inversion F.
Qed.
