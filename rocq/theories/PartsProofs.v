(** Constraints whose propagators and initialisers each establish a part of the relation. *)
From Coq Require Import ZArith List Bool Arith Lia.
From Verif Require Import IntervalSet IntervalSetSpec IntervalSetProofs Vars VarsSpec VarsProofs State StateSpec StateProofs Epochs
  Engine EngineSpec EngineProofs SessionSpec SessionInvProofs Tracker ContractSpec ContractProofs RunProofs Solve Stateful StatefulProofs Element.
Import ListNotations.
Local Open Scope Z_scope.

(** Whatever the surrounding problem, the propagators remove nothing that satisfies
    [sat], and together they establish [Q]. *)
Definition carried (d0 : domains) (scope : list var_id) (sat : assignment -> Prop) (ps : list propagator) (Q : assignment -> Prop) : Prop :=
  exists parts, (forall nv Inv, (length d0 <= nv)%nat -> stable nv Inv -> (forall d cs, Inv d cs -> inside d0 d) ->
      Forall2 (fun p s => supports nv Inv p scope sat s) ps parts) /\
    forall a, within a d0 -> Forall (fun s => s a) parts -> Q a.

Definition established (d0 : domains) (sat : assignment -> Prop) (is : list initialiser) (Q : assignment -> Prop) : Prop :=
  exists parts, (forall nv Inv, (length d0 <= nv)%nat -> stable nv Inv -> (forall d cs, Inv d cs -> inside d0 d) ->
      Forall2 (fun i s => initialises nv Inv i sat s) is parts) /\
    forall a, within a d0 -> Forall (fun s => s a) parts -> Q a.

Lemma parts_correct d0 (k : constraint) scope (sat Q1 Q2 : assignment -> Prop) : Forall (var_known d0) scope ->
  carried d0 scope sat (fst (k d0)) Q1 -> established d0 sat (snd (k d0)) Q2 ->
  (forall a, within a d0 -> Q1 a -> Q2 a -> sat a) -> correct_on d0 k scope sat.
Proof.
  intros K (pp & P1 & P2) (ip & I1 & I2) H. apply (correct_intro _ _ _ sat); [tauto|]. intros nv Inv Ln St I0.
  split; [eapply Forall_impl; [|exact K]; intros v Kv; now apply (known_below_more d0)|].
  exists pp, ip. split; [now apply P1|]. split; [now apply I1|]. intros a Wa F1 F2. apply H; auto.
Qed.

Lemma carried_nil d0 scope sat : carried d0 scope sat [] (fun _ => True).
Proof. exists []. split; [constructor|auto]. Qed.

Lemma carried_app d0 scope sat ps qs Q R : carried d0 scope sat ps Q -> carried d0 scope sat qs R -> carried d0 scope sat (ps ++ qs) (fun a => Q a /\ R a).
Proof.
  intros (pp & P1 & P2) (qq & Q1 & Q2). exists (pp ++ qq). split.
  - intros. apply Forall2_app; auto.
  - intros a Wa F. apply Forall_app in F. split; [now apply P2|now apply Q2].
Qed.

Lemma carried_ext d0 scope sat ps (Q R : assignment -> Prop) : (forall a, within a d0 -> Q a -> R a) -> carried d0 scope sat ps Q -> carried d0 scope sat ps R.
Proof. intros H (pp & P1 & P2). exists pp. split; auto. Qed.

Lemma carried_map {X} d0 scope sat (f : X -> propagator) (Q : X -> assignment -> Prop) xs :
  (forall x, In x xs -> carried d0 scope sat [f x] (Q x)) -> carried d0 scope sat (map f xs) (fun a => forall x, In x xs -> Q x a).
Proof.
  induction xs as [|x r IH]; intro H; [apply (carried_ext _ _ _ _ (fun _ => True)); [intros a _ _ x []|apply carried_nil]|].
  cbn [map]. change (f x :: map f r) with ([f x] ++ map f r).
  apply (carried_ext _ _ _ _ (fun a => Q x a /\ forall y, In y r -> Q y a)).
  - intros a _ [A B] y [<-|I]; auto.
  - apply carried_app; [apply H; now left|apply IH; intros y I; apply H; now right].
Qed.

(** A propagation function that keeps what satisfies [sat], and establishes [part]. *)
Record meets (nv : nat) (d0 : domains) (alias : Prop) (f : body) (scope : list var_id) (sat part : assignment -> Prop) : Prop :=
  { me_honest : forall d, domains_ok d -> length d = nv -> inside d0 d -> honest nv d sat (fst (f d));
    me_checks : forall d a, domains_ok d -> length d = nv -> inside d0 d -> Forall (fixed d) scope -> live nv d (fst (f d)) a -> part a;
    me_claims : forall d a, domains_ok d -> length d = nv -> inside d0 d -> ~ alias -> snd (f d) = EnableButIdempotent -> live nv d (fst (f d)) a ->
      Forall (fixed (t_domains (fst (f d)))) scope -> part a;
    me_entails : forall d a, domains_ok d -> length d = nv -> inside d0 d -> snd (f d) = DisableUntilBacktrack -> live nv d (fst (f d)) a -> part a }.

Lemma body_ok_meets nv d0 alias f scope (sat part : assignment -> Prop) : (forall a, within a d0 -> sat a -> part a) -> body_ok nv d0 alias f scope part -> meets nv d0 alias f scope sat part.
Proof.
  intros Im [Lg So Ch Cl En]. constructor.
  - intros d Hd L I. split; [auto|]. intros a Wa Sa. apply So; auto.
  - intros d a Hd L I F (_ & Ff & W). now apply (Ch d).
  - intros d a Hd L I NA R (_ & Ff & W) F. now apply (Cl d).
  - intros d a Hd L I R (_ & Ff & W). now apply (En d).
Qed.

(** A run is that of one of a family of functions, which one depending on private data. *)
Lemma meets_supports nv d0 (Inv : domains -> list cstate -> Prop) p (f : list Z -> body) scope scope' (sat part : assignment -> Prop) :
  (forall i, o_infer (p_run p i) = rev (t_lits (fst (f (i_memo i) (i_domains i)))) /\
     o_result (p_run p i) = snd (f (i_memo i) (i_domains i)) /\ o_cstates (p_run p i) = i_cstates i) ->
  stable nv Inv -> (forall d cs, Inv d cs -> inside d0 d) -> Forall (var_below nv) scope -> incl scope' scope ->
  (forall v x, In v scope' -> underlying v = Some x -> subscribes p x Instantiated) ->
  (forall m, meets nv d0 (aliased p) (f m) scope' sat part) ->
  supports nv Inv p scope sat part.
Proof.
  intros Run St In0 Kn Sc Su Me.
  assert (LG : forall i, usable nv Inv i -> legit nv (i_domains i) (fst (f (i_memo i) (i_domains i)))).
  { intros i (Hd & L & I). apply (me_honest _ _ _ _ _ _ _ (Me (i_memo i))); auto. eapply In0. exact I. }
  assert (KN : forall i, usable nv Inv i -> Forall (lit_known (i_domains i)) (o_infer (p_run p i))).
  { intros i U. pose proof (LG i U) as G. destruct U as (Hd & L & I). destruct (Run i) as (-> & _). apply Forall_rev. apply (lits_known nv); auto. exact (lg_below _ _ _ G). }
  assert (LV : forall i d evs a, usable nv Inv i -> apply_lits (i_domains i) (o_infer (p_run p i)) = (d, evs, false) -> within a d ->
     t_domains (fst (f (i_memo i) (i_domains i))) = d /\ live nv (i_domains i) (fst (f (i_memo i) (i_domains i))) a).
  { intros i d evs a U E Wa. pose proof (LG i U) as G. destruct (Run i) as (Eo & _). rewrite Eo in E. destruct (lg_apply _ _ _ G) as (ev & A). rewrite A in E. injection E as E1 _ E2.
    split; [assumption|]. split; [assumption|]. split; [assumption|]. now rewrite E1. }
  split; [|split].
  - constructor; [exact KN|]. intros i d evs U E. destruct (Run i) as (_ & _ & ->). pose proof (KN i U) as K. destruct U as (Hd & L & I). eapply stable_lits; eauto.
  - intros i a (Hd & L & I) Wa Sa. destruct (Run i) as (-> & _). apply Forall_rev. apply (me_honest _ _ _ _ _ _ _ (Me (i_memo i))); auto. eapply In0. exact I.
  - assert (Kn' : Forall (var_below nv) scope') by (rewrite Forall_forall in *; auto).
    exists (checked scope' part), (entailed part). split.
    + constructor.
      * intros i d evs U E NS _ F a Wa. destruct (LV i d evs a U E Wa) as [_ Lv]. pose proof (KN i U) as Kl. destruct U as (Hd & L & I).
        apply (me_checks _ _ _ _ _ _ _ (Me (i_memo i)) (i_domains i) a); eauto. exact (fixed_all_back_lits nv p scope' _ _ _ _ Hd L Kn' Su Kl E NS F).
      * intros i d evs U NA E R F a Wa. destruct (LV i d evs a U E Wa) as [Ed Lv]. destruct U as (Hd & L & I). destruct (Run i) as (_ & Rr & _). rewrite Rr in R.
        apply (me_claims _ _ _ _ _ _ _ (Me (i_memo i)) (i_domains i) a); eauto. now rewrite Ed.
      * intros i d evs U E R a Wa. destruct (LV i d evs a U E Wa) as [_ Lv]. destruct U as (Hd & L & I). destruct (Run i) as (_ & Rr & _). rewrite Rr in R.
        apply (me_entails _ _ _ _ _ _ _ (Me (i_memo i)) (i_domains i) a); eauto.
      * intros d l k d' Hd L Kl Ok E N NS F a Wa. apply Ok.
        -- exact (fixed_all_back nv p scope' d l k d' Hd L Kn' Su Kl E N NS F).
        -- now apply (infer_within _ _ _ _ a Hd Kl E N) in Wa.
      * intros d l k d' Hd L Kl Ok E N a Wa. apply Ok. now apply (infer_within _ _ _ _ a Hd Kl E N) in Wa.
    + intros d _ _ [C|E]; [now apply (checked_incl scope')|]. intros _. exact E.
Qed.

Lemma listed_subscribes (v : var_id) x (ch bo ins : list var_id) run so re : In v (ch ++ bo ++ ins) -> underlying v = Some x ->
  subscribes (mk_propagator run ch bo ins so re) x Instantiated.
Proof. intros Iv Ux. unfold subscribes; simpl. apply in_app_or in Iv. destruct Iv as [Iv|Iv]; [|apply in_app_or in Iv; destruct Iv]; eauto 10. Qed.

Lemma carried_body d0 scope scope' (sat part : assignment -> Prop) f on_change on_bounds on_instantiated :
  let p := body_propagator f on_change on_bounds on_instantiated in
  Forall (var_known d0) scope -> incl scope' scope -> incl scope' (on_change ++ on_bounds ++ on_instantiated) ->
  (forall nv, (length d0 <= nv)%nat -> meets nv d0 (aliased p) f scope' sat part) ->
  carried d0 scope sat [p] part.
Proof.
  intros p K Sc Su Ok. exists [part]. split; [|intros a _ F; now inversion F]. intros nv Inv Ln St I0. constructor; [|constructor].
  apply (meets_supports nv d0 Inv p (fun _ => f) scope scope'); auto.
  - intro i. cbn [p p_run body_propagator]. destruct (body_run_out f i) as (A & B & C & _). auto.
  - eapply Forall_impl; [|exact K]. intros v Kv. now apply (known_below_more d0).
  - intros v x Iv. apply listed_subscribes. auto.
Qed.

Lemma carried_memo d0 scope scope' (sat part : assignment -> Prop) f on_change on_bounds on_instantiated :
  let p := memo_propagator f on_change on_bounds on_instantiated in
  Forall (var_known d0) scope -> incl scope' scope -> incl scope' (on_change ++ on_bounds ++ on_instantiated) ->
  (forall nv m, (length d0 <= nv)%nat -> meets nv d0 (aliased p) (at_memo f m) scope' sat part) ->
  carried d0 scope sat [p] part.
Proof.
  intros p K Sc Su Ok. exists [part]. split; [|intros a _ F; now inversion F]. intros nv Inv Ln St I0. constructor; [|constructor].
  apply (meets_supports nv d0 Inv p (at_memo f) scope scope'); auto.
  - intro i. cbn [p p_run memo_propagator]. destruct (memo_run_same f i) as (-> & -> & ->). destruct (body_run_out (at_memo f (i_memo i)) i) as (A & B & C & _). auto.
  - eapply Forall_impl; [|exact K]. intros v Kv. now apply (known_below_more d0).
  - intros v x Iv. apply listed_subscribes. auto.
Qed.

(** A propagator that only simplifies. *)
Lemma carried_sound d0 scope sat p : sound_body d0 sat p -> carried d0 scope sat [p] (fun _ => True).
Proof.
  intros H. exists [fun _ => True]. split; [|auto]. intros nv Inv Ln St I0. constructor; [|constructor]. now apply (sound_body_supports nv d0).
Qed.

Lemma established_nil d0 sat : established d0 sat [] (fun _ => True).
Proof. exists []. split; [constructor|auto]. Qed.

Lemma established_app d0 sat is js Q R : established d0 sat is Q -> established d0 sat js R -> established d0 sat (is ++ js) (fun a => Q a /\ R a).
Proof.
  intros (pp & P1 & P2) (qq & Q1 & Q2). exists (pp ++ qq). split.
  - intros. apply Forall2_app; auto.
  - intros a Wa F. apply Forall_app in F. split; [now apply P2|now apply Q2].
Qed.

Lemma established_ext d0 sat is (Q R : assignment -> Prop) : (forall a, within a d0 -> Q a -> R a) -> established d0 sat is Q -> established d0 sat is R.
Proof. intros H (pp & P1 & P2). exists pp. split; auto. Qed.

Lemma established_flat_map {X} d0 sat (f : X -> list initialiser) (Q : X -> assignment -> Prop) xs :
  (forall x, In x xs -> established d0 sat (f x) (Q x)) -> established d0 sat (flat_map f xs) (fun a => forall x, In x xs -> Q x a).
Proof.
  induction xs as [|x r IH]; intro H; [apply (established_ext _ _ _ (fun _ => True)); [intros a _ _ x []|apply established_nil]|].
  cbn [flat_map]. apply (established_ext _ _ _ (fun a => Q x a /\ forall y, In y r -> Q y a)).
  - intros a _ [A B] y [<-|I]; auto.
  - apply established_app; [apply H; now left|apply IH; intros y I; apply H; now right].
Qed.

Lemma established_body d0 (sat part : assignment -> Prop) g :
  (forall nv d, (length d0 <= nv)%nat -> domains_ok d -> length d = nv -> inside d0 d -> honest nv d sat (g d)) ->
  (forall nv d a, (length d0 <= nv)%nat -> domains_ok d -> length d = nv -> inside d0 d -> live nv d (g d) a -> part a) ->
  established d0 sat [body_initialiser g] part.
Proof.
  intros Ho Es. exists [part]. split; [|intros a _ F; now inversion F]. intros nv Inv Ln St I0. constructor; [|constructor].
  apply (body_initialises nv d0); auto.
  - intros d Hd L I. apply (Ho nv d); auto.
  - intros d a Hd L I Wa Sa. apply (Ho nv d); auto.
  - intros d a Hd L I F W. apply (Es nv d a); auto. split; [now apply Ho|auto].
Qed.

(** A contradiction. *)
Lemma established_false d0 (sat : assignment -> Prop) : (forall a, within a d0 -> ~ sat a) ->
  established d0 sat [body_initialiser (fun d => tell_false (track d))] (fun _ => False).
Proof.
  intro No. apply established_body.
  - intros nv d Ln Hd Ld Id. apply honest_tell; auto; [exact Logic.I|apply honest_track|]. intros _ _ _ a Wa _ Sa. exfalso. apply (No a); auto.
  - intros nv d a Ln Hd Ld Id Lv. apply (tell_back nv d Hd Ld) in Lv; [|exact Logic.I|apply legit_track]. destruct Lv as [_ []].
Qed.

(** Bounds that follow from the relation. *)
Lemma established_lower d0 (sat : assignment -> Prop) v x : domains_ok d0 -> var_known d0 v -> (forall a, within a d0 -> sat a -> x <= var_value a v) ->
  established d0 sat (define_lower d0 v x) (fun a => x <= var_value a v).
Proof.
  intros H0 K H. unfold define_lower. destruct (Z.leb_spec x (lower_bound d0 v)) as [L|L].
  - apply (established_ext _ _ _ (fun _ => True)); [|apply established_nil]. intros a Wa _. pose proof (value_bounds d0 v a H0 K Wa). lia.
  - apply established_body.
    + intros nv d Ln Hd Ld Id. assert (Bv : var_below nv v) by now apply (known_below_more d0). apply honest_tell; auto; [apply honest_track|].
      intros _ _ _ a Wa _ Sa. unfold lit_holds, cond_holds; cbn. specialize (H a (Id a Wa) Sa). lia.
    + intros nv d a Ln Hd Ld Id Lv. assert (Bv : var_below nv v) by now apply (known_below_more d0).
      apply (tell_back nv d Hd Ld) in Lv; [|exact Bv|apply legit_track]. destruct Lv as [_ Lv]. unfold lit_holds, cond_holds in Lv; cbn in Lv. lia.
Qed.

Lemma established_upper d0 (sat : assignment -> Prop) v x : domains_ok d0 -> var_known d0 v -> (forall a, within a d0 -> sat a -> var_value a v <= x) ->
  established d0 sat (define_upper d0 v x) (fun a => var_value a v <= x).
Proof.
  intros H0 K H. unfold define_upper. destruct (Z.leb_spec (upper_bound d0 v) x) as [L|L].
  - apply (established_ext _ _ _ (fun _ => True)); [|apply established_nil]. intros a Wa _. pose proof (value_bounds d0 v a H0 K Wa). lia.
  - apply established_body.
    + intros nv d Ln Hd Ld Id. assert (Bv : var_below nv v) by now apply (known_below_more d0). apply honest_tell; auto; [apply honest_track|].
      intros _ _ _ a Wa _ Sa. unfold lit_holds, cond_holds; cbn. specialize (H a (Id a Wa) Sa). lia.
    + intros nv d a Ln Hd Ld Id Lv. assert (Bv : var_below nv v) by now apply (known_below_more d0).
      apply (tell_back nv d Hd Ld) in Lv; [|exact Bv|apply legit_track]. destruct Lv as [_ Lv]. unfold lit_holds, cond_holds in Lv; cbn in Lv. lia.
Qed.
