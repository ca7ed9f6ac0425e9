(** Search over any number of passes. *)
From Coq Require Import ZArith List Bool Arith Lia.
From Verif Require Import IntervalSet IntervalSetSpec IntervalSetProofs Vars VarsSpec VarsProofs State StateSpec StateProofs Epochs EpochsProofs
  Engine EngineSpec EngineQueueProofs EngineWatchProofs EngineProofs EngineLoopProofs EngineCallProofs Session SessionSpec SessionProofs SessionInvProofs SessionResults
  Tracker ContractSpec ContractProofs Search SearchSpec SearchProofs.
Import ListNotations.
Local Open Scope Z_scope.

Section Again.
Variable props : list propagator.
Variable disabled : nat -> bool.
Variable abort : nat -> bool.
Variable fuel : nat.
Notation n := (length props).
Notation the := (the_prop props).
Variable nv : nat.
Variable Inv : domains -> list cstate -> Prop.
Variable d0 : domains.
Variable Sol : assignment -> Prop.
Variable ok dead : nat -> domains -> Prop.
Hypothesis HW : forall p, (p < n)%nat -> well_behaved nv Inv (the p).
Hypothesis HI : stable nv Inv.
Hypothesis HA : stays_set abort.
Hypothesis HS : forall p, (p < n)%nat -> sound_for nv Inv Sol (the p).
Hypothesis HK : forall x, (x < n)%nat -> wakeable nv Inv (the x) (ok x) (dead x).

(** A root node that another pass may start from. *)
Record rooted (c : config) (seeded : bool) : Prop :=
  { ro_open : c_open c = [];
    ro_path : exists p, c_path c = [p];
    ro_status : c_status c = Live;
    ro_balanced : balanced (c_state c);
    ro_state : state_fit nv Inv (c_state c);
    ro_engine : engine_fit props [] (c_engine c);
    ro_settled : seeded = true -> engine_ok n (c_engine c) /\ settled props disabled ok dead (c_engine c) (current (c_state c));
    ro_inside : forall a, within a (current (c_state c)) -> within a d0 /\ path_holds a c;
    ro_keeps : forall a, within a d0 -> path_holds a c -> Sol a -> within a (current (c_state c)) }.

Lemma add_bounds_balanced extra : forall st fine st1 ch, add_bounds st extra = (fine, st1, ch) -> balanced st -> balanced st1.
Proof.
  induction extra as [|l r IH]; intros st fine st1 ch E B; simpl in E.
  - now injection E as _ <- _.
  - unfold state_infer in E. destruct (infer (current st) l) as [i d].
    assert (B' : balanced (with_domains st d)) by (destruct B; split; cbn; (etransitivity; [apply set_top_length|]); assumption).
    destruct i; try (now injection E as _ <- _); try (eapply IH; eassumption);
      destruct (add_bounds (with_domains st d) r) as [[? ?] ?] eqn:E'; injection E as <- <- _; eapply IH; eassumption.
Qed.

Lemma again_rooted c extra c' : rooted c (match extra with [] => false | _ => true end) -> Forall (lit_below nv) extra ->
  run_move props disabled abort fuel (Again extra) c = Some c' ->
  good props disabled nv Inv d0 Sol ok dead c' /\ c_open c' = [] /\ (exists p, c_path c' = [p]) /\
  (forall a, path_holds a c' <-> path_holds a c /\ Forall (lit_holds a) extra).
Proof.
  intros [Op (p & Pa) Li Bl F FE Se W1 W2] Kx E. cbn [run_move] in E. rewrite Op, Pa in E. unfold is_live in E. rewrite Li in E.
  destruct (add_bounds (c_state c) extra) as [[fine st1] ch] eqn:AB.
  destruct (bounds_fit props disabled nv Inv HI _ _ _ _ _ F (fit_known nv Inv _ _ F Kx) AB) as (HE1 & L1 & Inc & R1).
  pose proof (add_bounds_balanced _ _ _ _ _ AB Bl) as Bl1.
  assert (FE' : engine_fit props ch (c_engine c)).
  { destruct extra; [cbn in AB; injection AB as <- <- <-; exact FE|]. apply engine_ok_fit. now apply Se. }
  assert (PH : forall a e st s, path_holds a (mk_config e st [] [p ++ extra] s) <-> path_holds a c /\ Forall (lit_holds a) extra).
  { intros. unfold path_holds. rewrite Pa. cbn [c_path concat]. rewrite !app_nil_r, Forall_app. tauto. }
  destruct fine.
  - destruct R1 as (F1 & W3 & S3 & _).
    destruct (propagate_node props disabled abort fuel ch (c_engine c) st1) as [[[s e2] st2]|] eqn:P; [|discriminate].
    injection E as <-. split; [|split; [reflexivity|split; [eexists; reflexivity|intro; apply PH]]].
    assert (SB : ch <> [] -> settled_but props disabled ok dead ch (c_engine c) (current st1)).
    { intros Nc. destruct extra; [cbn in AB; injection AB as <- <-; congruence|]. destruct (Se eq_refl) as [O Se'].
      apply (S3 ok dead []); [assumption|]. apply settled_start. auto. }
    destruct (node_call props disabled abort fuel nv Inv ok dead HW HA HK _ _ _ _ _ _ FE' F1 SB P) as (O4 & (u & U) & HE4 & _ & R4).
    apply (good_root _ _ _ _ _ _ _ _ _ (p ++ extra)); auto.
    + cbn. rewrite U. now apply opened_balanced.
    + unfold node. cbn [c_status c_state c_engine]. destruct s; [| |exact Logic.I].
      * destruct R4 as (F4 & (Na & Nb) & S4). split; [assumption|]. split; [assumption|]. split.
        -- intros a Wa. rewrite PH. apply Na, W3 in Wa. destruct Wa as [Wa X]. apply W1 in Wa. tauto.
        -- intros a Wa X Sa. rewrite PH in X. destruct X as (X1 & X2). apply (Nb Sol HS); auto.
           apply W3. split; [|assumption]. apply W2; auto.
      * intros a Wa X. rewrite PH in X. destruct X as (X1 & X2). intro Sa. apply (R4 Sol HS a); auto.
        apply W3. split; [|assumption]. apply W2; auto.
  - injection E as <-. split; [|split; [reflexivity|split; [eexists; reflexivity|intro; apply PH]]].
    assert (O : engine_ok n (c_engine c)).
    { destruct extra; [cbn in AB; discriminate|]. now apply Se. }
    apply (good_root _ _ _ _ _ _ _ _ _ (p ++ extra)); auto. unfold node. cbn [c_status].
    intros a Wa X Sa. rewrite PH in X. destruct X as (X1 & X2). apply (R1 a); [|assumption]. apply W2; auto.
Qed.

Lemma good_rooted c : good props disabled nv Inv d0 Sol ok dead c -> c_open c = [] -> (exists p, c_path c = [p]) -> c_status c = Live -> rooted c true.
Proof.
  intros G Op Pa Li. pose proof (good_node _ _ _ _ _ _ _ _ _ G) as Nd. unfold node in Nd. rewrite Li in Nd. destruct Nd as (F & Se & W1 & W2).
  pose proof (good_engine _ _ _ _ _ _ _ _ _ G) as O. constructor; auto.
  - exact (good_balanced _ _ _ _ _ _ _ _ _ G).
  - now apply engine_ok_fit.
Qed.

End Again.

Lemma rooted_transfer props props' disabled nv Inv d0 (Sol Sol' : assignment -> Prop) (ok dead ok' dead' : nat -> domains -> Prop) c seeded seeded' :
  length props' = length props -> (forall a, Sol' a -> Sol a) ->
  (seeded' = true -> seeded = true /\ forall x d, (ok x d -> ok' x d) /\ (dead x d -> dead' x d)) ->
  rooted props disabled nv Inv d0 Sol ok dead c seeded -> rooted props' disabled nv Inv d0 Sol' ok' dead' c seeded'.
Proof.
  intros L HS HO [A B C D E F G W1 W2]. constructor; auto.
  - unfold engine_fit in *. rewrite L. exact F.
  - intros X. destruct (HO X) as [X' M]. destruct (G X') as [O Se]. rewrite L. split; [assumption|].
    intros x Hx Dx. rewrite L in Hx. destruct (Se x Hx Dx) as [S1 S2]. split; intro Q; apply M; auto.
Qed.

Section Passes.
Variable props : list nogood -> list propagator.
Variable disabled : nat -> bool.
Variable abort : nat -> bool.
Variable fuel depth : nat.
Variable objective : option var_id.
Variable branch : nat -> domains -> list cond.
Variable on_solution : list domains -> bool.
Variable on_trace : nat -> domains -> bool.
Variable schedule : option (nat -> nat).
Variable nv : nat.
Variable Inv : domains -> list cstate -> Prop.
Variable d0 : domains.
Variable Sat : assignment -> Prop.
Variable Check : list nogood -> assignment -> Prop.
Variable vs : list var_id.
Variable ok dead : list nogood -> nat -> domains -> Prop.

Hypothesis HL : forall S, length (props S) = length (props []).
Hypothesis HW : forall S p, Forall (legible nv vs) S -> In p (props S) -> well_behaved nv Inv p.
Hypothesis HI : stable nv Inv.
Hypothesis HA : stays_set abort.
Hypothesis HS : forall S p, Forall (legible nv vs) S -> In p (props S) -> sound_for nv Inv (remaining Sat S) p.
Hypothesis HK : forall S x, Forall (legible nv vs) S -> (x < length (props []))%nat -> wakeable nv Inv (the_prop (props S) x) (ok S x) (dead S x).
Hypothesis HC : forall S (d : domains) a, Forall (legible nv vs) S -> domains_ok d -> length d = nv -> inside d0 d -> Forall (fixed d) vs ->
  (forall x, (x < length (props []))%nat -> disabled x = false -> ok S x d \/ dead S x d) -> within a d -> Check S a.
Hypothesis HM : forall v, objective = Some v -> forall S S' x d, (ok S x d -> ok S' x d) /\ (dead S x d -> dead S' x d).
Hypothesis HB : splits nv vs branch.
Hypothesis HO : forall v, objective = Some v -> var_below nv v /\ forall d : domains, domains_ok d -> length d = nv -> Forall (fixed d) vs -> fixed d v.

Definition seeded (g : progress) : bool := match objective, g_best g with Some _, Some _ => true | _, _ => false end.

Notation learning := (match schedule with Some _ => true | None => false end).

(** What is true before each pass. *)
Record between (g : progress) : Prop :=
  { bt_root : rooted (props (g_learned g)) disabled nv Inv d0 (remaining Sat (g_learned g)) (ok (g_learned g)) (dead (g_learned g)) (g_config g) (seeded g);
    bt_learned : Forall (nogood_ok objective nv d0 Sat vs g) (g_learned g);
    bt_path : forall a, within a d0 -> path_holds a (g_config g) \/ covered objective g a }.

Lemma bound_seeded g : (match objective_bound objective g with [] => false | _ => true end) = seeded g.
Proof using Type. clear HM HO. unfold objective_bound, seeded. destruct objective; [|reflexivity]. now destruct (g_best g). Qed.

Lemma pass_spec cutoff g v g' : between g ->
  run_pass (props (g_learned g)) disabled abort fuel objective branch on_solution on_trace learning cutoff depth g = Some (v, g') ->
  v <> Threw /\ (v = CutoffHit -> cutoff <> None) /\
  (exists log, g_log g' = log ++ g_log g /\ answered v log /\ Forall (report_ok nv d0 (Check (g_learned g)) vs (fun _ => True)) (reported log) /\
    ForallOrdPairs (apart vs) (reported log) /\ improves objective (g_best g) (reported log) (g_best g') /\
    (v = CutoffHit -> learning = true -> Forall (caught vs g') (reported log))) /\
  (v = Complete -> forall a, within a d0 -> Sat a -> covered objective g' a) /\
  (exists more, g_learned g' = g_learned g ++ more) /\
  (v = CutoffHit -> between g').
Proof.
  intros [Ro Le Pa] E. unfold run_pass in E. set (S := g_learned g) in *.
  assert (LS : Forall (legible nv vs) S) by (eapply Forall_impl; [|exact Le]; intros N [HN _]; exact HN). set (g1 := enter (set_conflicts g 0)) in *.
  assert (HW' : forall p, (p < length (props S))%nat -> well_behaved nv Inv (the_prop (props S) p)) by (intros p Hp; apply (HW S); [assumption|now apply nth_In]).
  assert (HS' : forall p, (p < length (props S))%nat -> sound_for nv Inv (remaining Sat S) (the_prop (props S) p)) by (intros p Hp; apply (HS S); [assumption|now apply nth_In]).
  assert (HK' : forall x, (x < length (props S))%nat -> wakeable nv Inv (the_prop (props S) x) (ok S x) (dead S x)) by (intros x Hx; apply HK; [assumption|now rewrite <- (HL S)]).
  destruct (spent cutoff g1) eqn:Sp.
  { injection E as <- <-. split; [discriminate|]. split; [intros _ X; unfold spent in Sp; now rewrite X in Sp|]. split.
    { exists []. cbn. repeat (split; [constructor; auto|]). constructor. }
    split; [discriminate|]. split; [exists []; now rewrite app_nil_r|]. intros _. constructor; auto. }
  destruct (run_move (props S) disabled abort fuel (Again (objective_bound objective g1)) (g_config g1)) as [c|] eqn:Ag; [|discriminate].
  destruct (again_rooted (props S) disabled abort fuel nv Inv d0 (remaining Sat S) (ok S) (dead S) HW' HI HA HS' HK' (g_config g) (objective_bound objective g) c) as (G & Op & Pth & PH).
  { rewrite bound_seeded. exact Ro. }
  { apply (objective_below objective nv vs HO). }
  { exact Ag. }
  set (g2 := at_config g1 c) in *.
  assert (X : explored (props S) objective learning cutoff nv d0 Sat (Check S) vs (fun a => path_holds a c) c v g2 g').
  { eapply (explore_spec (props S) disabled abort fuel objective branch on_solution on_trace learning cutoff nv Inv d0 Sat (Check S) S vs (ok S) (dead S)
      HW' HI HA HS' HK' _ HB HO depth [] g2 v g' E G).
    - exact Le.
    - intros w b Ow Eb a Ha. apply PH in Ha. apply (objective_bounded objective nv vs HO g a w b Ow Eb). apply Ha.
    - intros _ a Wa Sa _. destruct (Pa a Wa) as [Pa'|Ca]; [|now right]. destruct (covered_or objective nv vs HO g a) as [Ca|Oa]; [now right|].
      left. cbn [g2 at_config g_config]. apply PH. now split.
    - intros _. split; [constructor|]. intros a _. constructor.
    Unshelve. intros d a D1 D2 D3 D4 D5 D6. apply (HC S d a); auto. intros x Hx. apply D5. now rewrite (HL S). }
  split; [apply X|]. split; [apply X|]. split.
  { destruct (ex_log _ _ _ _ _ _ _ _ _ _ _ _ _ _ X) as (log & X1 & X2 & X3 & X4 & X5 & X6). exists log. repeat (split; [assumption|]). split; [|auto].
    eapply Forall_impl; [|exact X3]. intros d. apply report_ok_weaken. auto. }
  assert (CM : forall a, covered objective g a -> covered objective g' a) by (intros a Ca; eapply covered_mono; [exact HO|exact X|exact Ca]).
  split.
  { intros Ev a Wa Sa. destruct (Pa a Wa) as [Pa'|Ca]; [|auto]. destruct (covered_or objective nv vs HO g a) as [Ca|Oa]; [auto|].
    apply (ex_complete _ _ _ _ _ _ _ _ _ _ _ _ _ _ X Ev a Wa Sa). apply PH. now split. }
  destruct (ex_learned _ _ _ _ _ _ _ _ _ _ _ _ _ _ X) as (more & M1 & M2 & M3). split; [exists more; exact M1|].
  intros Ev. pose proof (ex_sim _ _ _ _ _ _ _ _ _ _ _ _ _ _ X) as Si. pose proof (ex_engine _ _ _ _ _ _ _ _ _ _ _ _ _ _ X) as Oe.
  constructor.
  - apply (rooted_transfer (props S) (props (g_learned g')) disabled nv Inv d0 (remaining Sat S) _ (ok S) (dead S) _ _ _ true).
    + now rewrite !HL.
    + intros a [Sa Fa]. split; [assumption|]. rewrite M1 in Fa. cbn in Fa. apply Forall_app in Fa. apply Fa.
    + intros Hs. split; [reflexivity|]. unfold seeded in Hs. destruct objective as [w|]; [|discriminate]. intros x d. apply (HM w eq_refl).
    + pose proof (sim_good _ _ _ _ _ _ _ _ _ _ Si Oe G) as G'. apply good_rooted; auto.
      * rewrite (si_open _ _ _ Si). exact Op.
      * rewrite (si_path _ _ _ Si). exact Pth.
      * rewrite (si_status _ _ _ Si). clear - E Ev. destruct depth; [discriminate|]. cbn [explore] in E. cbn [g2 at_config g_config] in E.
        destruct (c_status c); [reflexivity| |]; injection E as E _; congruence.
  - rewrite M1. apply Forall_app. split; [|exact M2]. eapply Forall_impl; [|exact Le]. intros N [H0 HN]. split; [assumption|]. intros a Wa Sa Na. apply CM. now apply HN.
  - intros a Wa. unfold path_holds. rewrite (si_path _ _ _ Si). destruct (Pa a Wa) as [Pa'|Ca]; [|right; auto].
    destruct (covered_or objective nv vs HO g a) as [Ca|Oa]; [right; auto|]. left. apply PH. now split.
Qed.

(** Reports agree with the base conditions, whichever pass they are from. *)
Variable Base : assignment -> Prop.
Hypothesis HBase : forall S a, Check S a -> Base a.

(** The nogoods of a pass are respected by its reports. *)
Definition respected : Prop := objective = None -> schedule <> None -> forall S a, Check S a -> Forall (fun N => ~ nogood_holds a N) S.

Lemma passes_spec tries : forall index g v g', between g ->
  Forall (fun e => ~ refusal e) (g_log g) -> Forall (report_ok nv d0 Base vs (fun _ => True)) (g_reports g) ->
  improves objective None (g_reports g) (g_best g) ->
  (respected -> ForallOrdPairs (apart vs) (g_reports g)) -> (schedule <> None -> Forall (caught vs g) (g_reports g)) -> (schedule = None -> g_reports g = []) ->
  passes props disabled abort fuel depth objective branch on_solution on_trace schedule tries index g = Some (v, g') ->
  (v = Complete \/ v = Stop) /\ answered v (g_log g') /\ Forall (report_ok nv d0 Base vs (fun _ => True)) (g_reports g') /\
  improves objective None (g_reports g') (g_best g') /\ (respected -> ForallOrdPairs (apart vs) (g_reports g')) /\
  (v = Complete -> forall a, within a d0 -> Sat a -> covered objective g' a).
Proof.
  induction tries as [|tries IH]; intros index g v g' B A1 A2 A3 A4 A5 A6 E; cbn [passes] in E; [discriminate|].
  set (cutoff := match schedule with Some s => Some (s index) | None => None end) in *.
  destruct (run_pass (props (g_learned g)) disabled abort fuel objective branch on_solution on_trace learning cutoff depth g) as [[v1 g1]|] eqn:R; [|discriminate].
  destruct (pass_spec cutoff g v1 g1 B R) as (P1 & P2 & (log & L1 & L2 & L3 & L4 & L5 & L6) & P4 & (more & P5) & P6).
  assert (RA : g_reports g1 = reported log ++ g_reports g) by (unfold g_reports; rewrite L1; apply reported_app).
  assert (B2 : Forall (report_ok nv d0 Base vs (fun _ => True)) (g_reports g1)).
  { rewrite RA. apply Forall_app. split; [|assumption]. eapply Forall_impl; [|exact L3].
    intros d (D1 & D2 & D3 & D4). split; [assumption|]. split; [assumption|]. split; [assumption|]. intros a Wa. destruct (D4 a Wa) as (W & C & _).
    split; [assumption|]. split; [|exact Logic.I]. eapply HBase; eauto. }
  assert (B3 : improves objective None (g_reports g1) (g_best g1)) by (rewrite RA; eapply improves_app; eauto).
  assert (B1 : answered v1 (g_log g1)) by (rewrite L1; now apply answered_app).
  assert (B4 : respected -> ForallOrdPairs (apart vs) (g_reports g1)).
  { intros Rs. specialize (A4 Rs). rewrite RA.
    assert (CR : forall d d', In d (reported log) -> In d' (g_reports g) -> apart vs d d').
    { intros d d' Id Id' a a' Wa Wa' Ag. destruct objective as [w|] eqn:Ob.
      - assert (V : forall l b b', improves (Some w) b l b' -> forall d, In d l -> exists x y, has_value d w x /\ (b' = Some y /\ y <= x)).
        { clear. induction 1 as [b|b d new b' O H IH|b d new b' v x O H IH Hv L]; intros d1 Hd; [destruct Hd|discriminate|].
          injection O as <-. destruct Hd as [<-|Hd]; [exists x, x; split; [assumption|split; [reflexivity|lia]]|].
          destruct (IH d1 Hd) as (x1 & y1 & V1 & -> & L1). exists x1, x. split; [assumption|]. split; [reflexivity|]. specialize (L y1 eq_refl). lia. }
        assert (V' : forall l b b', improves (Some w) b l b' -> forall y d, b = Some y -> In d l -> exists x, has_value d w x /\ x < y).
        { clear. induction 1 as [b|b d new b' O H IH|b d new b' v x O H IH Hv L]; intros y d1 -> Hd; [destruct Hd|discriminate|].
          injection O as <-. destruct Hd as [<-|Hd].
          - exists x. split; [assumption|]. destruct (improves_le _ _ _ _ H y eq_refl) as (z & -> & Lz). specialize (L z eq_refl). lia.
          - now apply IH. }
        destruct (V _ _ _ A3 d' Id') as (x & y & Hx & Ey & Lx). destruct (V' _ _ _ L5 y d Ey Id) as (x' & Hx' & Lt).
        specialize (Hx a' Wa'). specialize (Hx' a Wa).
        destruct (HO w eq_refl) as [Bw Fw]. pose proof (agree_determined nv vs w a a' (sp_handles _ _ _ HB) Bw Fw Ag). lia.
      - destruct schedule as [s|] eqn:Sc.
        + specialize (A5 ltac:(discriminate)). rewrite Forall_forall in A5. specialize (A5 d' Id' a' a Wa' (agree_sym _ _ _ Ag)).
          rewrite Forall_forall in L3. destruct (L3 d Id) as (_ & _ & _ & D4). destruct (D4 a Wa) as (_ & Ck & _).
          assert (Rs' := Rs Ob ltac:(rewrite Sc; discriminate) _ _ Ck). apply Exists_exists in A5. destruct A5 as (N & IN & HN).
          rewrite Forall_forall in Rs'. exact (Rs' N IN HN).
        + rewrite (A6 eq_refl) in Id'. destruct Id'. }
    clear - A4 L4 CR. induction (reported log) as [|d r IH]; simpl; [assumption|]. inversion L4; subst. constructor.
    - apply Forall_app. split; [assumption|]. apply Forall_forall. intros d' Id'. apply CR; [now left|assumption].
    - apply IH; auto. intros x y Hx Hy. apply CR; [now right|assumption]. }
  assert (FIN : v1 <> CutoffHit -> Some (v1, g1) = Some (v, g') ->
    (v = Complete \/ v = Stop) /\ answered v (g_log g') /\ Forall (report_ok nv d0 Base vs (fun _ => True)) (g_reports g') /\
    improves objective None (g_reports g') (g_best g') /\ (respected -> ForallOrdPairs (apart vs) (g_reports g')) /\
    (v = Complete -> forall a, within a d0 -> Sat a -> covered objective g' a)).
  { intros Nc X. injection X as <- <-. split; [destruct v1; auto; congruence|]. auto 10. }
  destruct v1; try (apply FIN; [discriminate|exact E]).
  specialize (P6 eq_refl). simpl in B1. apply (IH (S index) g1 v g'); auto.
  - intros Sc. rewrite RA. apply Forall_app. split.
    + apply L6; [reflexivity|]. destruct schedule; congruence.
    + eapply Forall_impl; [|exact (A5 Sc)]. intros d. now apply (caught_mono _ _ _ _ more).
  - intros Sc. exfalso. apply (P2 eq_refl). unfold cutoff. now rewrite Sc.
Qed.

(** ** From the start *)

Lemma start_between st : startable nv Inv st -> current st = d0 -> between (unopened (props []) st).
Proof.
  clear HM HO. intros St E. destruct (startable_fit nv Inv st St) as [F B]. constructor; cbn [unopened g_learned g_config].
  - constructor; cbn [c_open c_path c_status c_state c_engine]; auto.
    + eauto.
    + apply installed_fit.
    + unfold seeded. cbn. destruct objective; discriminate.
    + intros a Wa. split; [now rewrite <- E|constructor].
    + intros a Wa _ _. now rewrite E.
  - constructor.
  - intros a _. left. constructor.
Qed.

Lemma search_spec st tries v g : startable nv Inv st -> current st = d0 ->
  search props disabled abort fuel depth objective branch on_solution on_trace schedule tries st = Some (v, g) ->
  (v = Complete \/ v = Stop) /\ answered v (g_log g) /\ Forall (report_ok nv d0 Base vs (fun _ => True)) (g_reports g) /\
  improves objective None (g_reports g) (g_best g) /\ (respected -> ForallOrdPairs (apart vs) (g_reports g)) /\
  (v = Complete -> forall a, within a d0 -> Sat a -> covered objective g a).
Proof.
  intros St Ed E. apply (passes_spec tries 1 (unopened (props []) st)); auto.
  - now apply start_between.
  - constructor.
  - constructor.
  - constructor.
  - intros _. constructor.
  - intros _. constructor.
Qed.

End Passes.
