(** A problem in which a watched condition becomes true unnoticed: u = x, u = y,
    written as sums, and not both x = 1 and y = 1, over 0..1. *)
From Coq Require Import ZArith List Bool Arith Lia.
From Verif Require Import IntervalSet IntervalSetSpec IntervalSetProofs Vars VarsSpec State StateSpec StateProofs Epochs Engine EngineSpec
  Session SessionSpec Tracker ContractSpec ContractProofs Reify ReifySpec Comparison ComparisonProofs Plus PlusProofs NegativeTable TableSpec NegativeTableProofs WatchSpec.
Import ListNotations.
Local Open Scope Z_scope.

Definition gap_domains : domains := [[(0, 1)]; [(0, 1)]; [(0, 1)]].
Definition gap_state : estate := mk_state [gap_domains] [[]] [[]] [].
Definition gap_inv (d : domains) (_ : list cstate) : Prop := inside gap_domains d.

Definition gap_first : constraint := plus_bc (VSimple 0) (VConst 0) (VSimple 1).
Definition gap_second : constraint := plus_bc (VSimple 0) (VConst 0) (VSimple 2).
Definition gap_tuples : list tuple := [[Some 1; Some 1]].
Definition gap_vars : list var_id := [VSimple 1; VSimple 2].

(** What the two sums and NegativeTable{{x, y}, {{1, 1}}} install. *)
Definition gap_props : list propagator :=
  fst (gap_first gap_domains) ++ fst (gap_second gap_domains) ++ [mk_propagator (propagate_negative_table gap_vars gap_tuples) [] [] [] gap_vars []].

Lemma gap_table : exists k, negative_table gap_vars gap_tuples = Some k /\
  fst (k gap_domains) = [mk_propagator (propagate_negative_table gap_vars gap_tuples) [] [] [] gap_vars []] /\
  Forall (fun init => t_failed (fst (init gap_domains [])) = false /\ t_lits (fst (init gap_domains [])) = []) (snd (k gap_domains)).
Proof. eexists. split; [reflexivity|]. split; [reflexivity|]. constructor; [|constructor]. vm_compute. auto. Qed.

Definition gap_sol (a : assignment) : Prop := a 0%nat = a 1%nat /\ a 0%nat = a 2%nat /\ ~ (a 1%nat = 1 /\ a 2%nat = 1).

Lemma gap_ok : domains_ok gap_domains.
Proof. intros [|[|[|n]]] Hn; simpl in *; try lia; (split; [lia|]); exists 0; apply member_cons; lia. Qed.

Lemma gap_startable : startable 3 gap_inv gap_state.
Proof. constructor; simpl; auto using gap_ok; try (repeat split; discriminate). intros a W. exact W. Qed.

Lemma gap_stable : stable 3 gap_inv.
Proof. apply stable_inside. Qed.

Lemma gap_known : Forall (var_below 3) gap_vars.
Proof. repeat constructor; unfold var_below; simpl; lia. Qed.

Lemma gap_sized : Forall (fun t : tuple => length t = length gap_vars) gap_tuples.
Proof. repeat constructor. Qed.

Lemma gap_first_ok : implements 3 gap_domains gap_inv (fst (gap_first gap_domains)) (snd (gap_first gap_domains)) [VSimple 0; VConst 0; VSimple 1]
  (fun a => var_value a (VSimple 0) + var_value a (VConst 0) = var_value a (VSimple 1)).
Proof.
  destruct (plus_correct gap_domains (VSimple 0) (VConst 0) (VSimple 1)) as [H _]; [repeat constructor; simpl; lia|].
  apply (H 3%nat gap_inv (le_n 3) gap_stable). intros d cs I. exact I.
Qed.

Lemma gap_second_ok : implements 3 gap_domains gap_inv (fst (gap_second gap_domains)) (snd (gap_second gap_domains)) [VSimple 0; VConst 0; VSimple 2]
  (fun a => var_value a (VSimple 0) + var_value a (VConst 0) = var_value a (VSimple 2)).
Proof.
  destruct (plus_correct gap_domains (VSimple 0) (VConst 0) (VSimple 2)) as [H _]; [repeat constructor; simpl; lia|].
  apply (H 3%nat gap_inv (le_n 3) gap_stable). intros d cs I. exact I.
Qed.

Lemma implements_part nv d0 (Inv : domains -> list cstate -> Prop) ps is scope (sat : assignment -> Prop) p : implements nv d0 Inv ps is scope sat -> In p ps ->
  well_behaved nv Inv p /\ sound_for nv Inv sat p.
Proof.
  intros (_ & psats & isats & FP & _) I. clear -FP I. induction FP as [|x y l l' (W & Z & _) _ IH]; [destruct I|].
  destruct I as [->|I]; [auto|]. now apply IH.
Qed.

Lemma gap_behaved : forall p, In p gap_props -> well_behaved 3 gap_inv p.
Proof.
  intros p I. unfold gap_props in I. rewrite !in_app_iff in I. destruct I as [I|[I|[<-|[]]]].
  - exact (proj1 (implements_part _ _ _ _ _ _ _ p gap_first_ok I)).
  - exact (proj1 (implements_part _ _ _ _ _ _ _ p gap_second_ok I)).
  - apply (table_behaved 3 gap_vars gap_known gap_tuples gap_sized _ gap_stable).
Qed.

Lemma gap_sound : forall p, In p gap_props -> sound_for 3 gap_inv gap_sol p.
Proof.
  intros p I. unfold gap_props in I. rewrite !in_app_iff in I. destruct I as [I|[I|[<-|[]]]].
  - destruct (implements_part _ _ _ _ _ _ _ p gap_first_ok I) as [_ H]. intros i a U W (Sa & _). apply (H i a U W). simpl. lia.
  - destruct (implements_part _ _ _ _ _ _ _ p gap_second_ok I) as [_ H]. intros i a U W (_ & Sa & _). apply (H i a U W). simpl. lia.
  - intros i a U W (_ & _ & Sa). apply (table_sound 3 gap_vars gap_known gap_tuples gap_sized gap_inv i a U W).
    constructor; [|constructor]. intro G. apply Sa. inversion G as [|? ? ? ? G1 G2]; subst. inversion G2; subst. simpl in *. auto.
Qed.

Lemma body_arms nv (Inv : domains -> list cstate -> Prop) f on_change on_bounds on_instantiated :
  arms_unmet nv Inv (body_propagator f on_change on_bounds on_instantiated).
Proof. split; [reflexivity|]. intros i l payload _ Il. cbn [body_propagator p_run] in Il. unfold body_run in Il. destruct (f (i_domains i)). destruct Il. Qed.

Lemma gap_arms : forall p, In p gap_props -> arms_unmet 3 gap_inv p.
Proof.
  intros p I. unfold gap_props in I. rewrite !in_app_iff in I. destruct I as [[<-|[]]|[[<-|[]]|[<-|[]]]]; [apply body_arms|apply body_arms|].
  apply (table_arms 3 gap_vars gap_known gap_tuples gap_sized).
Qed.

Definition gap_guess : literal := LCond (cond_eq (VSimple 0) 1).
Definition gap_never (k : nat) : bool := false.
Definition gap_none (p : nat) : bool := false.

Definition gap_config (o : option config) : config :=
  match o with Some c => c | None => mk_config (installed_engine []) gap_state [] [] Aborted end.

Definition gap_root : config := gap_config (open_root gap_props gap_none gap_never 100 gap_state).
Definition gap_node : config := gap_config (run_moves gap_props gap_none gap_never 100 [Down gap_guess []] gap_root).

Lemma gap_opened : open_root gap_props gap_none gap_never 100 gap_state = Some gap_root.
Proof. vm_compute. reflexivity. Qed.

Lemma gap_guessed : run_moves gap_props gap_none gap_never 100 [Down gap_guess []] gap_root = Some gap_node.
Proof. vm_compute. reflexivity. Qed.

Lemma gap_live : c_status gap_node = Live.
Proof. vm_compute. reflexivity. Qed.

Lemma gap_current : current (c_state gap_node) = [[(1, 1)]; [(1, 1)]; [(1, 1)]].
Proof. vm_compute. reflexivity. Qed.

(** The node u = 1 is accepted with x = 1 and y = 1, and the watch on x = 1 has not
    fired. *)
Lemma gap_watches : map w_lit (watches_on (e_watch (c_engine gap_node)) 1) = [LCond (cond_eq (VSimple 1) 1)].
Proof. vm_compute. reflexivity. Qed.

Lemma one_watch (ws : list watch) l : map w_lit ws = [l] -> exists w, In w ws /\ w_lit w = l.
Proof. destruct ws as [|w r]; intro E; [discriminate|]. exists w. split; [now left|]. now injection E. Qed.

Lemma gap_waiting : exists w, In w (watches_on (e_watch (c_engine gap_node)) 1) /\ w_lit w = LCond (cond_eq (VSimple 1) 1).
Proof. exact (one_watch _ _ gap_watches). Qed.

Lemma gap_within a : within a [[(1, 1)]; [(1, 1)]; [(1, 1)]] <-> a 0%nat = 1 /\ a 1%nat = 1 /\ a 2%nat = 1.
Proof.
  assert (M : forall x, member x [(1, 1)] <-> x = 1).
  { intro x. rewrite member_cons. split; [intros [H|H]; [lia|destruct H as (? & ? & [] & _)]|intro; left; lia]. }
  split.
  - intro W. repeat split; apply M; [apply (W 0%nat)|apply (W 1%nat)|apply (W 2%nat)]; simpl; lia.
  - intros (A & B & C) [|[|[|n]]] Hn; simpl in *; try lia; now apply M.
Qed.

Lemma gap_not_alert : ~ alert gap_node.
Proof.
  destruct gap_waiting as (w & I & E). intro A. destruct (A _ _ I) as (a & W & N). rewrite E in N. rewrite gap_current in W.
  apply gap_within in W. apply N. simpl. unfold cond_holds. simpl. tauto.
Qed.

Lemma watch_lost : exists nv Inv props disabled abort fuel st l c0 c,
  stable nv Inv /\ startable nv Inv st /\
  (forall p, In p props -> well_behaved nv Inv p /\ arms_unmet nv Inv p) /\
  open_root props disabled abort fuel st = Some c0 /\
  run_moves props disabled abort fuel [Down l []] c0 = Some c /\ c_status c = Live /\ ~ alert c.
Proof.
  exists 3%nat, gap_inv, gap_props, gap_none, gap_never, 100%nat, gap_state, gap_guess, gap_root, gap_node.
  split; [exact gap_stable|]. split; [exact gap_startable|]. split; [intros p I; split; [now apply gap_behaved|now apply gap_arms]|].
  split; [exact gap_opened|]. split; [exact gap_guessed|]. split; [exact gap_live|exact gap_not_alert].
Qed.

Lemma forbidden_accepted : exists c,
  run_moves gap_props gap_none gap_never 100 [Down gap_guess []] gap_root = Some c /\ c_status c = Live /\
  (exists a, within a (current (c_state c))) /\
  (forall a, within a (current (c_state c)) -> agrees a gap_vars [Some 1; Some 1]).
Proof.
  exists gap_node. split; [exact gap_guessed|]. split; [exact gap_live|]. rewrite gap_current. split.
  - exists (fun _ => 1). now apply gap_within.
  - intros a W. apply gap_within in W. destruct W as (_ & A & B). repeat constructor; assumption.
Qed.

(** ** A problem in which no propagator claims that a run was idempotent: x < y, with
    x = 1, z = 2 and x = 2 forbidden, over 0..3. *)

Definition calm_domains : domains := [[(0, 3)]; [(0, 3)]; [(0, 3)]].
Definition calm_state : estate := mk_state [calm_domains] [[]] [[]] [].
Definition calm_inv (d : domains) (_ : list cstate) : Prop := inside calm_domains d.
Definition calm_less : constraint := reified_less (VSimple 0) (VSimple 1) RMustHold false.
Definition calm_tuples : list tuple := [[Some 1; Some 2]; [Some 2; None]].
Definition calm_vars : list var_id := [VSimple 0; VSimple 2].
Definition calm_props : list propagator := fst (calm_less calm_domains) ++ [table_propagator calm_vars calm_tuples].

Lemma calm_ok : domains_ok calm_domains.
Proof. intros [|[|[|n]]] Hn; simpl in *; try lia; (split; [lia|]); exists 0; apply member_cons; lia. Qed.

Lemma calm_startable : startable 3 calm_inv calm_state.
Proof. constructor; simpl; auto using calm_ok; try (repeat split; discriminate). intros a W. exact W. Qed.

Lemma calm_known : Forall (var_below 3) calm_vars.
Proof. repeat constructor; unfold var_below; simpl; lia. Qed.

Lemma calm_sized : Forall (fun t : tuple => length t = length calm_vars) calm_tuples.
Proof. repeat constructor. Qed.

Lemma calm_less_ok : implements 3 calm_domains calm_inv (fst (calm_less calm_domains)) (snd (calm_less calm_domains)) [VSimple 0; VSimple 1]
  (fun a => var_value a (VSimple 0) < var_value a (VSimple 1)).
Proof.
  pose proof (comparison_posts calm_domains (VSimple 0) (VSimple 1) calm_ok) as H. destruct H as [H _]; simpl; try lia.
  apply (H 3%nat calm_inv (le_n 3) (stable_inside 3 calm_domains)). intros d cs I. exact I.
Qed.

Lemma body_claims nv (Inv : domains -> list cstate -> Prop) f on_change on_bounds on_instantiated :
  (forall d, snd (f d) <> EnableButIdempotent) -> claims_nothing nv Inv (body_propagator f on_change on_bounds on_instantiated).
Proof. intro H. right. intros i _. cbn [body_propagator p_run]. unfold body_run. specialize (H (i_domains i)). now destruct (f (i_domains i)). Qed.

Lemma table_claims nv (Inv : domains -> list cstate -> Prop) vars tuples : Forall (var_below nv) vars -> Forall (fun t : tuple => length t = length vars) tuples ->
  claims_nothing nv Inv (table_propagator vars tuples).
Proof. intros K S. right. intros i (Hd & L & _). destruct (run_fine nv vars K tuples S i Hd L) as (s & _ & _ & _ & _ & R). rewrite R. discriminate. Qed.

Lemma calm_all : forall p, In p calm_props -> well_behaved 3 calm_inv p /\ arms_unmet 3 calm_inv p /\ claims_nothing 3 calm_inv p.
Proof.
  intros p I. unfold calm_props in I. rewrite in_app_iff in I. destruct I as [I|[<-|[]]].
  - split; [exact (proj1 (implements_part _ _ _ _ _ _ _ p calm_less_ok I))|]. destruct I as [<-|[]]. split; [apply body_arms|].
    apply body_claims. intro d. unfold enforce_less. destruct (bounds d (VSimple 0)), (bounds d (VSimple 1)).
    destruct (t_failed _); [discriminate|]. cbv zeta. destruct (t_failed _); [discriminate|]. now destruct (_ <? _).
  - split; [apply (table_behaved 3 calm_vars calm_known calm_tuples calm_sized _ (stable_inside 3 calm_domains))|].
    split; [apply (table_arms 3 calm_vars calm_known calm_tuples calm_sized)|apply (table_claims 3 _ _ _ calm_known calm_sized)].
Qed.

Definition calm_guess : literal := LCond (cond_eq (VSimple 2) 2).
Definition calm_root : config := gap_config (open_root calm_props gap_none gap_never 100 calm_state).
Definition calm_node : config := gap_config (run_moves calm_props gap_none gap_never 100 [Down calm_guess []] calm_root).

Lemma calm_run : open_root calm_props gap_none gap_never 100 calm_state = Some calm_root /\ c_status calm_root = Live /\
  current (c_state calm_root) = [[(0, 1)]; [(1, 3)]; [(0, 3)]] /\
  map w_lit (watches_on (e_watch (c_engine calm_root)) 0) = [LCond (cond_eq (VSimple 0) 1); LCond (cond_eq (VSimple 0) 2)] /\
  map w_lit (watches_on (e_watch (c_engine calm_root)) 2) = [LCond (cond_eq (VSimple 2) 2)] /\
  run_moves calm_props gap_none gap_never 100 [Down calm_guess []] calm_root = Some calm_node /\ c_status calm_node = Live /\
  current (c_state calm_node) = [[(0, 0)]; [(1, 3)]; [(2, 2)]].
Proof. repeat (apply conj; [vm_compute; reflexivity|]). vm_compute. reflexivity. Qed.
