(** Lemmas about tabulation. *)
From Coq Require Import ZArith List Bool Arith Lia.
From Verif Require Import IntervalSet IntervalSetSpec IntervalSetProofs Vars VarsSpec VarsProofs State StateSpec StateProofs Epochs Expressions ExpressionsSpec
  Engine EngineSpec EngineQueueProofs EngineProofs Tracker ContractSpec ContractProofs RunProofs Reify ReifySpec ReifyProofs Equals EqualsProofs Plus PlusProofs Solve SolveSpec SolveProofs
  StatefulSpec StatefulProofs NegativeTable Table TableSpec TableProofs Linear LinearSpec LinearProofs LogicalProofs Tabulation ConsistencySpec.
Import ListNotations.
Local Open Scope Z_scope.

(** ** Enumeration *)

Lemma set_nth_done (zs values : list Z) p : length values = length zs -> (p < length zs)%nat ->
  (forall j, j <> p -> nth j values 0 = nth j zs 0) -> set_nth values p (nth p zs 0) = zs.
Proof.
  intros L Hp A. apply nth_ext with (d := 0) (d' := 0); [now rewrite set_nth_length|]. intros j _. rewrite nth_set_nth by lia.
  destruct (Nat.eqb_spec j p) as [E|N]; [now rewrite E|now apply A].
Qed.

Lemma enum_sound d vars accept last b rest : forall values t, In t (enumerate d vars accept last b rest values) ->
  exists zs, t = map Some zs /\ length zs = length values /\ accept zs = true.
Proof.
  induction rest as [|p r IH]; intros values t I; cbn [enumerate] in I.
  - destruct (accept values) eqn:A; [|destruct I]. destruct I as [<-|[]]. eauto.
  - assert (Gen : In t (flat_map (fun x => enumerate d vars accept last b r (set_nth values p x)) (each_value d (nth p vars (VConst 0)))) ->
      exists zs, t = map Some zs /\ length zs = length values /\ accept zs = true).
    { intro J. apply in_flat_map in J. destruct J as (x & _ & J). apply IH in J. destruct J as (zs & E & L & A). rewrite set_nth_length in L. eauto. }
    destruct r as [|q r']; [destruct last as [f|]; [destruct b|]|]; try exact (Gen I).
    destruct (f values) as [x|]; [|destruct I]. destruct (in_domain d (nth p vars (VConst 0)) x); [|destruct I].
    destruct (accept (set_nth values p x)) eqn:A; [|destruct I]. destruct I as [<-|[]]. exists (set_nth values p x). rewrite set_nth_length. auto.
Qed.

Lemma enum_complete d vars accept last b zs :
  accept zs = true -> (forall p, (p < length zs)%nat -> In (nth p zs 0) (each_value d (nth p vars (VConst 0))) /\ in_domain d (nth p vars (VConst 0)) (nth p zs 0) = true) ->
  forall rest values, length values = length zs -> Forall (fun p => (p < length zs)%nat) rest ->
  (forall j, ~ In j rest -> nth j values 0 = nth j zs 0) ->
  (forall f before q, last = Some f -> b = Holds -> rest = before ++ [q] ->
     forall vals, length vals = length zs -> (forall j, j <> q -> nth j vals 0 = nth j zs 0) -> f vals = Some (nth q zs 0)) ->
  In (map Some zs) (enumerate d vars accept last b rest values).
Proof.
  intros A Dom. induction rest as [|p r IH]; intros values L F V De.
  - cbn [enumerate]. assert (E : values = zs) by (apply nth_ext with (d := 0) (d' := 0); [assumption|]; intros j _; apply V; intros []). rewrite E, A. now left.
  - apply Forall_cons_iff in F. destruct F as [Hp F]. destruct (Dom p Hp) as [I Ind].
    assert (Gen : In (map Some zs) (flat_map (fun x => enumerate d vars accept last b r (set_nth values p x)) (each_value d (nth p vars (VConst 0))))).
    { apply in_flat_map. exists (nth p zs 0). split; [assumption|]. apply IH; [now rewrite set_nth_length|assumption| |].
      - intros j Nj. rewrite nth_set_nth by lia. destruct (Nat.eqb_spec j p) as [E|N]; [now rewrite E|]. apply V. intros [X|X]; [now apply N|now apply Nj].
      - intros f before q El Eb Er. apply (De f (p :: before) q); auto. now rewrite Er. }
    cbn [enumerate]. destruct r as [|q r']; [destruct last as [f|]; [destruct b|]|]; try exact Gen.
    assert (Vp : forall j, j <> p -> nth j values 0 = nth j zs 0) by (intros j N; apply V; intros [X|[]]; now apply N).
    rewrite (De f [] p eq_refl eq_refl eq_refl values L Vp), Ind, (set_nth_done zs values p L Hp Vp), A. now left.
Qed.

(** ** Plans *)

(** What becomes of the relation once the variable of the reification has its value. *)
Definition branch_of (pl : plan) (zs : list Z) : branch :=
  match pl_reification pl with None => Holds | Some (p, br) => br (nth p zs 0) end.

(** The promises that a plan makes are kept: a variable said to be determined has one
    possible value at most, given the others, where the relation must hold; and
    anything goes where the relation is free. Only values in the domains matter. *)
Record plan_ok_in (d : domains) (pl : plan) : Prop :=
  { po_determined : forall p f, In (p, f) (pl_determined pl) -> (p < length (pl_vars pl))%nat /\ (forall q br, pl_reification pl = Some (q, br) -> p <> q) /\
      forall a values, within a d -> let zs := map (var_value a) (pl_vars pl) in length values = length zs -> pl_accept pl zs = true -> branch_of pl zs = Holds ->
        (forall j, j <> p -> nth j values 0 = nth j zs 0) -> f values = Some (nth p zs 0);
    po_reified : forall p br, pl_reification pl = Some (p, br) -> (p < length (pl_vars pl))%nat /\
      forall zs, length zs = length (pl_vars pl) -> br (nth p zs 0) = Free -> pl_accept pl zs = true }.

(** The same for all values. *)
Record plan_ok (pl : plan) : Prop :=
  { pk_determined : forall p f, In (p, f) (pl_determined pl) -> (p < length (pl_vars pl))%nat /\ (forall q br, pl_reification pl = Some (q, br) -> p <> q) /\
      forall zs values, length zs = length (pl_vars pl) -> length values = length zs -> pl_accept pl zs = true -> branch_of pl zs = Holds ->
        (forall j, j <> p -> nth j values 0 = nth j zs 0) -> f values = Some (nth p zs 0);
    pk_reified : forall p br, pl_reification pl = Some (p, br) -> (p < length (pl_vars pl))%nat /\
      forall zs, length zs = length (pl_vars pl) -> br (nth p zs 0) = Free -> pl_accept pl zs = true }.

Lemma plan_in d pl : plan_ok pl -> plan_ok_in d pl.
Proof.
  intros [D R]. constructor; [|exact R]. intros p f I. destruct (D p f I) as (A & B & C). split; [assumption|]. split; [assumption|].
  intros a values _ zs. apply C. apply map_length.
Qed.

Lemma pick_in d vars ds : forall best p f, pick_determined d vars ds best = Some (p, f) -> In (p, f) ds \/ best = Some (p, f).
Proof.
  induction ds as [|(q, g) r IH]; intros best p f E; simpl in E; [now right|]. apply IH in E. destruct E as [I|E]; [left; now right|].
  destruct best as [(s, h)|]; [|injection E as <- <-; left; now left]. destruct (size_at d vars s <? size_at d vars q); [injection E as <- <-; left; now left|now right].
Qed.

Lemma insert_by_size_In d vars p ps x : In x (insert_by_size d vars p ps) <-> x = p \/ In x ps.
Proof.
  induction ps as [|q r IH]; simpl; [intuition congruence|]. destruct (size_at d vars p <=? size_at d vars q); simpl; [intuition congruence|]. rewrite IH. intuition congruence.
Qed.

Lemma is_at_spec o p : is_at o p = true <-> o = Some p.
Proof. destruct o as [q|]; simpl; [|split; discriminate]. rewrite Nat.eqb_eq. split; congruence. Qed.

Lemma middle_order_In d vars o1 o2 x : In x (middle_order d vars o1 o2) <-> (x < length vars)%nat /\ o1 <> Some x /\ o2 <> Some x.
Proof.
  unfold middle_order. assert (H : forall l, In x (fold_right (insert_by_size d vars) [] l) <-> In x l).
  { induction l as [|y l IH]; simpl; [tauto|]. rewrite insert_by_size_In, IH. intuition congruence. }
  rewrite H, filter_In, in_seq, negb_true_iff, orb_false_iff. rewrite <- !is_at_spec. destruct (is_at o1 x), (is_at o2 x); split; intros; repeat split; intuition (try lia; try congruence).
Qed.

Lemma only_at_agrees a vars p x : (p < length vars)%nat -> (agrees a vars (only_at (length vars) p x) <-> var_value a (nth p vars (VConst 0)) = x).
Proof.
  unfold agrees, only_at. assert (Wild : forall l, Forall2 (fun v e => match e with None => True | Some x => var_value a v = x end) l (repeat None (length l))).
  { induction l; simpl; constructor; auto. }
  revert p. induction vars as [|v r IH]; intros p Hp; simpl in Hp; [lia|]. destruct p as [|p]; simpl.
  - split; intro H; [now inversion H|]. constructor; [assumption|apply Wild].
  - rewrite <- (IH p) by lia. split; intro H; [now inversion H|]. constructor; [exact Logic.I|assumption].
Qed.

Lemma agrees_all a vars zs : agrees a vars (map Some zs) <-> map (var_value a) vars = zs.
Proof.
  unfold agrees. revert zs. induction vars as [|v r IH]; intro zs; destruct zs as [|z zs]; simpl; split; intro H; try (now inversion H).
  - inversion H; subst. f_equal. now apply IH.
  - injection H as E1 E2. constructor; [assumption|now apply IH].
Qed.

Lemma build_length d pl : plan_ok_in d pl -> Forall (fun t => length t = length (pl_vars pl)) (build_table d pl).
Proof.
  intro Ok. assert (En : forall last b rest values, length values = length (pl_vars pl) ->
    Forall (fun t => length t = length (pl_vars pl)) (enumerate d (pl_vars pl) (pl_accept pl) last b rest values)).
  { intros last b rest values L. apply Forall_forall. intros t I. apply enum_sound in I. destruct I as (zs & -> & Lz & _). rewrite map_length. lia. }
  unfold build_table. cbv zeta. destruct (pl_reification pl) as [(p, br)|] eqn:Er.
  - apply Forall_forall. intros t I. apply in_flat_map in I. destruct I as (x & _ & I).
    assert (X : forall b rest, In t (enumerate d (pl_vars pl) (pl_accept pl) (option_map snd (pick_determined d (pl_vars pl) (pl_determined pl) None)) b rest (set_nth (repeat 0 (length (pl_vars pl))) p x)) -> length t = length (pl_vars pl)).
    { intros b rest J. refine (proj1 (Forall_forall _ _) (En _ b rest _ _) t J). now rewrite set_nth_length, repeat_length. }
    destruct (br x); [|exact (X _ _ I)|exact (X _ _ I)]. destruct I as [<-|[]]. unfold only_at. now rewrite set_nth_length, repeat_length.
  - apply En. apply repeat_length.
Qed.

(** The table has the tuples it should have. *)
Lemma build_table_spec d pl a : plan_ok_in d pl -> domains_ok d -> Forall (var_below (length d)) (pl_vars pl) -> within a d ->
  (listed_in a (pl_vars pl) (build_table d pl) <-> pl_accept pl (map (var_value a) (pl_vars pl)) = true).
Proof.
  intros Ok Hd B Wa. set (vars := pl_vars pl) in *. set (zs := map (var_value a) vars).
  assert (Lz : length zs = length vars) by apply map_length.
  assert (Nz : forall p, (p < length vars)%nat -> nth p zs 0 = var_value a (nth p vars (VConst 0))).
  { intros p Hp. unfold zs. rewrite nth_indep with (d' := var_value a (VConst 0)) by (now rewrite map_length). apply map_nth. }
  assert (Kn : forall p, (p < length vars)%nat -> var_known d (nth p vars (VConst 0))).
  { intros p Hp. apply (var_below_known (length d)); [reflexivity|]. apply (proj1 (Forall_forall _ _) B). now apply nth_In. }
  assert (Dom : forall p, (p < length zs)%nat -> In (nth p zs 0) (each_value d (nth p vars (VConst 0))) /\ in_domain d (nth p vars (VConst 0)) (nth p zs 0) = true).
  { intros p Hp. rewrite Lz in Hp. rewrite Nz by assumption. split; [apply value_listed|apply value_in_domain]; auto. }
  assert (En : forall last b rest values t, length values = length vars -> In t (enumerate d vars (pl_accept pl) last b rest values) -> agrees a vars t -> pl_accept pl zs = true).
  { intros last b rest values t L I A. apply enum_sound in I. destruct I as (ys & -> & _ & Ac). apply agrees_all in A. unfold zs. now rewrite A. }
  unfold build_table. cbv zeta. fold vars. unfold listed_in. rewrite Exists_exists. set (last := pick_determined d vars (pl_determined pl) None).
  set (order := middle_order d vars (option_map fst (pl_reification pl)) (option_map fst last) ++ match last with Some (p, _) => [p] | None => [] end).
  assert (Lst : forall p f, last = Some (p, f) -> In (p, f) (pl_determined pl)).
  { intros p f E. apply pick_in in E. destruct E as [I|X]; [assumption|discriminate X]. }
  assert (Ford : Forall (fun p => (p < length zs)%nat) order).
  { apply Forall_forall. intros p I. rewrite Lz. unfold order in I. apply in_app_iff in I. destruct I as [I|I]; [now apply middle_order_In in I|].
    destruct last as [(q, f)|] eqn:El; [|destruct I]. destruct I as [<-|[]]. apply (po_determined d pl Ok q f). now apply Lst. }
  assert (Cov : forall p, (p < length vars)%nat -> option_map fst (pl_reification pl) <> Some p -> In p order).
  { intros p Hp Nr. unfold order. apply in_app_iff. destruct last as [(q, f)|]; [destruct (Nat.eq_dec p q) as [->|N]; [right; now left|]|]; left; apply middle_order_In; (split; [assumption|split; [assumption|]]); simpl; congruence. }
  assert (Det : forall f before q, option_map snd last = Some f -> order = before ++ [q] -> branch_of pl zs = Holds -> pl_accept pl zs = true ->
     forall vals, length vals = length zs -> (forall j, j <> q -> nth j vals 0 = nth j zs 0) -> f vals = Some (nth q zs 0)).
  { intros f before q El Eo Br Ac vals Lv V. unfold order in Eo. destruct last as [(p, g)|] eqn:E; [|discriminate]. injection El as ->. apply app_inj_tail in Eo. destruct Eo as [_ <-].
    destruct (po_determined d pl Ok p f (Lst p f eq_refl)) as (_ & _ & H). now apply H. }
  clearbody order last. destruct (pl_reification pl) as [(p, br)|] eqn:Er.
  - destruct (po_reified d pl Ok p br Er) as (Hp & Fr). fold vars in Hp, Fr. assert (Bo : branch_of pl zs = br (nth p zs 0)) by (unfold branch_of; now rewrite Er). split.
    + intros (t & I & A). apply in_flat_map in I. destruct I as (x & _ & I).
      assert (L0 : length (set_nth (repeat 0 (length vars)) p x) = length vars) by now rewrite set_nth_length, repeat_length.
      destruct (br x) eqn:Eb; [|exact (En _ _ _ _ t L0 I A)|exact (En _ _ _ _ t L0 I A)].
      destruct I as [<-|[]]. apply only_at_agrees in A; [|assumption]. apply Fr; [assumption|]. rewrite Nz, A by assumption. exact Eb.
    + intro Ac. destruct (br (nth p zs 0)) eqn:Eb.
      * exists (only_at (length vars) p (nth p zs 0)). split; [|apply only_at_agrees; [assumption|now rewrite Nz]]. apply in_flat_map. exists (nth p zs 0). split; [apply Dom; lia|]. rewrite Eb. now left.
      * exists (map Some zs). split; [|now apply agrees_all]. apply in_flat_map. exists (nth p zs 0). split; [apply Dom; lia|]. rewrite Eb.
        apply enum_complete; auto; [now rewrite set_nth_length, repeat_length| |].
        -- intros j Nj. rewrite nth_set_nth by (rewrite repeat_length; lia). destruct (Nat.eqb_spec j p) as [E|N]; [now rewrite E|].
           destruct (Nat.lt_ge_cases j (length vars)) as [H|H]; [destruct Nj; apply Cov; [assumption|simpl; congruence]|]. rewrite !nth_overflow; [reflexivity|lia|rewrite repeat_length; lia].
        -- intros f before q El _ Eo. now apply (Det f before q).
      * exists (map Some zs). split; [|now apply agrees_all]. apply in_flat_map. exists (nth p zs 0). split; [apply Dom; lia|]. rewrite Eb.
        apply enum_complete; auto; [now rewrite set_nth_length, repeat_length| |].
        -- intros j Nj. rewrite nth_set_nth by (rewrite repeat_length; lia). destruct (Nat.eqb_spec j p) as [E|N]; [now rewrite E|].
           destruct (Nat.lt_ge_cases j (length vars)) as [H|H]; [destruct Nj; apply Cov; [assumption|simpl; congruence]|]. rewrite !nth_overflow; [reflexivity|lia|rewrite repeat_length; lia].
        -- discriminate.
  - assert (Bo : branch_of pl zs = Holds) by (unfold branch_of; now rewrite Er). split.
    + intros (t & I & A). apply (En _ _ _ _ t (repeat_length _ _) I A).
    + intro Ac. exists (map Some zs). split; [|now apply agrees_all]. apply enum_complete; auto; [now rewrite repeat_length| |].
      * intros j Nj. destruct (Nat.lt_ge_cases j (length vars)) as [H|H]; [destruct Nj; apply Cov; [assumption|discriminate]|]. rewrite !nth_overflow; [reflexivity|lia|rewrite repeat_length; lia].
      * intros f before q El _ Eo. now apply (Det f before q).
Qed.

(** ** Installing a table *)

Lemma extensional_installs d cs vars tuples change sat : domains_ok d -> Forall (var_below (length d)) vars -> tuples <> [] ->
  Forall (fun t => length t = length vars) tuples -> change = vars \/ change = vars ++ [VSimple (length d)] ->
  (forall a, within a d -> (listed_in a vars tuples <-> sat a)) ->
  installs d cs (mk_installation [[(0, Z.of_nat (length tuples) - 1)]] [] [body_propagator (extensional_pass (VSimple (length d)) vars tuples) change [] []] [])
    vars sat (selects (length d) vars tuples) (fun _ _ => True).
Proof.
  intros Hd B Ne Ln Ch Sat. assert (Pos : (0 < length tuples)%nat) by (destruct tuples; [now destruct Ne|simpl; lia]).
  assert (Le : length (d ++ [[(0, Z.of_nat (length tuples) - 1)]]) = S (length d)) by (rewrite app_length; simpl; lia).
  constructor; cbn [in_vars in_states in_props in_inits map length]; auto.
  - now apply selector_ok.
  - unfold domains, iset in *. rewrite Le. apply selects_local; [lia|]. eapply Forall_impl; [|exact B]. intros v. apply below_more. lia.
  - intros a Wa S. apply Sat in S; [|assumption]. now apply selector_chosen.
  - intros nv Inv Lv St Id Fr. assert (Lv' : (S (length d) <= nv)%nat) by (rewrite <- Le; exact Lv). exists [selects (length d) vars tuples], []. split; [|split; [constructor|]].
    + constructor; [|constructor]. apply (propagates_supports _ _ _ vars); [apply incl_refl|].
      assert (Bn : Forall (var_below nv) vars) by (eapply Forall_impl; [|exact B]; intros v; apply below_more; lia).
      apply (body_propagates nv (d ++ [[(0, Z.of_nat (length tuples) - 1)]])); auto.
      * intros D c I. apply (Id D c I).
      * intros v x I U. left. exists v. split; [simpl; destruct Ch as [->| ->]; [assumption|rewrite in_app_iff; auto]|split; [assumption|auto]].
      * apply extensional_body_ok; auto.
        -- intros a Wa. now apply selector_range in Wa.
        -- intro Na. unfold aliased in Na. cbn [body_propagator p_on_change p_on_bounds p_on_instantiated p_scope_only app] in Na. rewrite !app_nil_r in Na.
           destruct (ListDec.NoDup_dec Nat.eq_dec (underlying_list change)) as [ND|N]; [|now apply Na in N]. destruct Ch as [->| ->]; [now apply underlying_list_fresh|assumption].
    + intros a Wa F _. apply Forall_inv in F. apply Sat; [now apply within_prefix in Wa|]. apply (selected_listed (length d)); [|assumption]. now apply selector_range in Wa.
Qed.

(** A constraint without solutions. *)
Lemma failing_installs d cs priority ps scope sat : domains_ok d -> (priority < 3)%nat -> (forall a, within a d -> ~ sat a) -> local (length d) sat ->
  ps = [] \/ ps = [body_propagator (fun d => (track d, DisableUntilBacktrack)) scope [] []] -> Forall (var_below (length d)) scope ->
  installs d cs (mk_installation [] [] ps [(priority, body_initialiser (fun d => tell_false (track d)))]) scope sat sat (fun _ _ => True).
Proof.
  intros Hd P No Lo Ps B. constructor; cbn [in_vars in_states in_props in_inits map length fst snd]; rewrite ?app_nil_r; auto.
  - intros a Wa Sa. now destruct (No a Wa).
  - intros nv Inv Lv St Id Fr. exists (map (fun _ => fun _ => True) ps), [fun _ => False]. split; [|split].
    + destruct Ps as [->| ->]; [constructor|]. constructor; [|constructor].
      apply (supports_stronger nv d Inv _ scope (fun _ => True)); [intros D c I; apply (Id D c I)|auto|]. apply (propagates_supports _ _ _ scope); [apply incl_refl|].
      apply (body_propagates nv d); auto.
      * intros D c I. apply (Id D c I).
      * eapply Forall_impl; [|exact B]. intros v. now apply below_more.
      * intros v x I U. left. exists v. split; [now simpl|]. split; [assumption|auto].
      * constructor; auto; cbn [fst]; intros D H1 H2 H3; [apply legit_track|]. intros _ _. constructor.
    + constructor; [|constructor]. apply (fail_initialises d); auto. intros D c I. apply (Id D c I).
    + intros a Wa _ F. apply Forall_inv in F. destruct F.
Qed.

(** Only the meaning within the domains matters; what is fixed by the scope may be
    fixed by another. *)
Lemma installs_rescope d cs i scope scope' sat sat' sol Own : (forall a, within a d -> (sat a <-> sat' a)) ->
  (forall D, domains_ok D -> (length d <= length D)%nat -> Forall (fixed D) scope' -> Forall (fixed D) scope) ->
  installs d cs i scope sat sol Own -> installs d cs i scope' sat' sol Own.
Proof.
  intros E Sc [Ok Pr Lo Ex Ow St Fu]. constructor; auto.
  - intros a Wa Sa. apply Ex; [assumption|]. now apply E.
  - intros nv Inv Ln Sb Id Fr. destruct (Fu nv Inv Ln Sb Id Fr) as (pp & ip & FP & FI & Con). exists pp, ip. split; [|split; [assumption|]].
    + eapply Forall2_weaken; [|exact FP]. intros p s (W & So & ok & dead & Wk & Ck). split; [assumption|]. split; [assumption|].
      exists ok, dead. split; [assumption|]. intros D Hd Ld O Fx. apply (Ck D Hd Ld O). apply Sc; auto. unfold domains, iset in *. rewrite app_length in Ln. lia.
    + intros a Wa F1 F2. apply E; [now apply within_prefix in Wa|]. now apply Con.
Qed.

(** A constraint and a table for the same relation. *)
Lemma installs_beside d cs (k : constraint) i scope sat sol Own : correct_on d k scope sat -> local (length d) sat -> installs d cs i scope sat sol Own ->
  installs d cs (mk_installation (in_vars i) (in_states i) (fst (k d) ++ in_props i) (map (fun x => (0%nat, x)) (snd (k d)) ++ in_inits i)) scope sat
    (fun a => sat a /\ sol a) Own.
Proof.
  intros C Ls [Ok Pr Lo Ex Ow St Fu]. constructor; cbn [in_vars in_states in_props in_inits]; auto.
  - apply Forall_app. split; [|assumption]. apply Forall_map. apply Forall_forall. intros x _. simpl. lia.
  - intros a a' Sm [H1 H2]. split; [|now apply (Lo a)]. apply (local_more (length d) (length (d ++ in_vars i)) sat) with (a := a); auto. unfold domains, iset in *. rewrite app_length. lia.
  - intros a Wa Sa. destruct (Ex a Wa Sa) as (a' & Sm & W' & S'). exists a'. split; [assumption|]. split; [assumption|]. split; [|assumption]. now apply (Ls a).
  - intros nv Inv Ln Sb Id Fr. destruct (Fu nv Inv Ln Sb Id Fr) as (pp & ip & FP & FI & Con).
    assert (Ln' : (length d <= nv)%nat) by (unfold domains, iset in *; rewrite app_length in Ln; lia).
    assert (Id' : forall D c, Inv D c -> inside d D) by (intros D c I a Wa; apply (Id D c I) in Wa; now apply within_prefix in Wa).
    destruct (C nv Inv Ln' Sb Id') as (_ & _ & kp & ki & KP & KI & _).
    exists (kp ++ pp), (ki ++ ip). split; [|split].
    + apply Forall2_app.
      * eapply Forall2_weaken; [|exact KP]. intros p s. apply (supports_stronger nv d); [assumption|]. now intros a _ [H _].
      * eapply Forall2_weaken; [|exact FP]. intros p s. apply (supports_stronger nv d); [assumption|]. now intros a _ [_ H].
    + rewrite map_app, map_map. cbn [snd]. rewrite map_id. apply Forall2_app.
      * eapply Forall2_weaken; [|exact KI]. intros f s H D c t c' H1 H2 H3 H4. destruct (H D c t c' H1 H2 H3 H4) as (A1 & A2 & A3 & A4). split; [assumption|]. split; [assumption|]. split; [|assumption]. intros a Wa [Sa _]. now apply A3.
      * eapply Forall2_weaken; [|exact FI]. intros f s H D c t c' H1 H2 H3 H4. destruct (H D c t c' H1 H2 H3 H4) as (A1 & A2 & A3 & A4). split; [assumption|]. split; [assumption|]. split; [|assumption]. intros a Wa [_ Sa]. now apply A3.
    + intros a Wa F1 F2. apply Forall_app in F1. apply Forall_app in F2. apply Con; tauto.
Qed.

(** ** Tabulation *)

Lemma accept_local n vars (f : list Z -> bool) : Forall (var_below n) vars -> local n (fun a => f (map (var_value a) vars) = true).
Proof.
  intros B a a' Sm H. rewrite <- H. f_equal. apply map_ext_in. intros v I. symmetry. apply (same_below_value n); [assumption|]. now apply (proj1 (Forall_forall _ _) B).
Qed.

Lemma tabulation_installs d cs pl : plan_ok_in d pl -> domains_ok d -> Forall (var_below (length d)) (pl_vars pl) ->
  exists sol, installs d cs (install_tabulation pl d cs) (pl_vars pl) (fun a => pl_accept pl (map (var_value a) (pl_vars pl)) = true) sol (fun _ _ => True).
Proof.
  intros Ok Hd B. pose proof (fun a => build_table_spec d pl a Ok Hd B) as Sp. unfold install_tabulation. destruct (build_table d pl) as [|t0 r] eqn:E.
  - exists (fun a => pl_accept pl (map (var_value a) (pl_vars pl)) = true). apply failing_installs; auto; [intros a Wa Sa; apply (Sp a Wa) in Sa; inversion Sa|now apply accept_local].
  - exists (selects (length d) (pl_vars pl) (build_table d pl)). cbv zeta. rewrite <- E in *. apply extensional_installs; auto; [congruence|now apply build_length].
Qed.

(** A constraint with a table, if a table is wanted. *)
Lemma tabulated_means d0 l k pl scope sat : Forall (var_below (length d0)) scope -> local (length d0) sat -> plan_ok pl -> Forall (var_below (length d0)) (pl_vars pl) ->
  (forall hidden, domains_ok (d0 ++ hidden) -> correct_on (d0 ++ hidden) k scope sat) ->
  (forall a, pl_accept pl (map (var_value a) (pl_vars pl)) = true <-> sat a) ->
  (forall D, domains_ok D -> (length d0 <= length D)%nat -> Forall (fixed D) scope -> Forall (fixed D) (pl_vars pl)) ->
  means d0 (tabulated l k pl) scope sat.
Proof.
  intros Bs Lo Ok B C Ac Sc. split; [assumption|]. split; [assumption|]. intros hidden cs Hd.
  assert (Lm : (length d0 <= length (d0 ++ hidden))%nat) by (unfold domains, iset in *; rewrite app_length; lia).
  unfold tabulated. match goal with |- context [want_tabulation ?x ?y ?z] => destruct (want_tabulation x y z) end.
  - destruct (tabulation_installs (d0 ++ hidden) cs pl (plan_in _ _ Ok) Hd) as (sol & In). { eapply Forall_impl; [|exact B]. intros v. now apply below_more. }
    exists (fun a => sat a /\ sol a), (fun _ _ => True). cbv zeta. apply installs_beside; [now apply C|now apply (local_more (length d0))|].
    refine (installs_rescope _ _ _ _ scope _ sat _ _ _ _ In); [intros a _; apply Ac|]. intros D H1 H2 H3. apply Sc; auto. exact (Nat.le_trans _ _ _ Lm H2).
  - destruct (simple_means 0 d0 k scope sat ltac:(lia) Lo Bs C) as (_ & _ & M). exact (M hidden cs Hd).
Qed.

Lemma tabulation_means d0 pl scope sat : Forall (var_below (length d0)) scope -> local (length d0) sat -> plan_ok pl -> Forall (var_below (length d0)) (pl_vars pl) ->
  (forall a, pl_accept pl (map (var_value a) (pl_vars pl)) = true <-> sat a) ->
  (forall D, domains_ok D -> (length d0 <= length D)%nat -> Forall (fixed D) scope -> Forall (fixed D) (pl_vars pl)) ->
  means d0 (install_tabulation pl) scope sat.
Proof.
  intros Bs Lo Ok B Ac Sc. split; [assumption|]. split; [assumption|]. intros hidden cs Hd.
  assert (Lm : (length d0 <= length (d0 ++ hidden))%nat) by (unfold domains, iset in *; rewrite app_length; lia).
  destruct (tabulation_installs (d0 ++ hidden) cs pl (plan_in _ _ Ok) Hd) as (sol & In). { eapply Forall_impl; [|exact B]. intros v. now apply below_more. }
  exists sol, (fun _ _ => True). refine (installs_rescope _ _ _ _ scope _ sat _ _ _ _ In); [intros a _; apply Ac|]. intros D H1 H2 H3. apply Sc; auto. exact (Nat.le_trans _ _ _ Lm H2).
Qed.

(** After a run of the table's propagator, every value that is left is in a solution. *)
Lemma tabulation_consistent d0 cs pl p : plan_ok_in d0 pl -> domains_ok d0 -> Forall (var_below (length d0)) (pl_vars pl) -> NoDup (underlying_list (pl_vars pl)) ->
  in_props (install_tabulation pl d0 cs) = [p] -> in_inits (install_tabulation pl d0 cs) = [] ->
  forall D, ConsistencySpec.outcome (S (length d0)) (fun d _ => inside (d0 ++ in_vars (install_tabulation pl d0 cs)) d) p D ->
  (exists a, within a D /\ pl_accept pl (map (var_value a) (pl_vars pl)) = true) /\ domain_consistent D (pl_vars pl) (fun a => pl_accept pl (map (var_value a) (pl_vars pl)) = true) /\ rerun_is_quiet p D.
Proof.
  intros Ok Hd0 B Ua. pose proof (fun a => build_table_spec d0 pl a Ok Hd0 B) as Sp. pose proof (build_length d0 pl Ok) as Ln.
  unfold install_tabulation. destruct (build_table d0 pl) as [|t0 r] eqn:Et; [discriminate|]. cbv zeta. rewrite <- Et in *. assert (Ne : build_table d0 pl <> []) by congruence. clear Et. set (tuples := build_table d0 pl) in *. clearbody tuples. set (vars := pl_vars pl) in *.
  cbn [in_props in_vars]. intros [= <-] _ D (i & evs & (H1 & H2 & H3) & A).
  unfold domains, iset in *. cbn [body_propagator p_run] in A. destruct (body_run_out (extensional_pass (VSimple (length d0)) vars tuples) i) as (Eo & _). rewrite Eo in A. clear Eo.
  assert (Bn : Forall (var_below (S (length d0))) vars) by (eapply Forall_impl; [|exact B]; intros v; apply below_more; lia).
  pose proof (pass_honest (S (length d0)) (length d0) vars tuples ltac:(lia) Bn (i_domains i) H1 H2) as Ho. destruct (lg_apply _ _ _ (proj1 Ho)) as (ev & A'). rewrite A' in A. injection A as <- _ F.
  assert (Rng : forall a, within a (i_domains i) -> 0 <= a (length d0) < Z.of_nat (length tuples)) by (intros a Wa; apply H3 in Wa; now apply selector_range in Wa).
  assert (Ux : NoDup (underlying_list (vars ++ [VSimple (length d0)]))) by now apply underlying_list_fresh.
  assert (Dc : domain_consistent (t_domains (fst (extensional_pass (VSimple (length d0)) vars tuples (i_domains i)))) vars (fun a => pl_accept pl (map (var_value a) vars) = true)).
  { assert (Dc : domain_consistent (t_domains (fst (extensional_pass (VSimple (length d0)) vars tuples (i_domains i)))) vars (fun a => listed_in a vars tuples)).
    { refine (pass_consistent (S (length d0)) (length d0) vars tuples _ Bn Ln (i_domains i) H1 H2 Rng Ux F). lia. }
    intros v x Iv Ex. destruct (Dc v x Iv Ex) as (a & Wa & Va & La). exists a. split; [assumption|]. split; [assumption|]. apply Sp; [|assumption].
    apply (legit_inside _ _ H1 H2 _ (proj1 Ho) F) in Wa. apply H3 in Wa. now apply within_prefix in Wa. }
  split; [|split; [exact Dc|]].
  - destruct (within_exists _ (legit_ok _ _ H1 H2 _ (proj1 Ho) F)) as (a & Wa). destruct vars as [|v vs] eqn:Ev.
    + exists a. split; [exact Wa|]. apply Sp; [apply (legit_inside _ _ H1 H2 _ (proj1 Ho) F) in Wa; apply H3 in Wa; now apply within_prefix in Wa|].
      destruct tuples as [|t ts]; [now destruct Ne|]. apply Exists_cons_hd. apply Forall_inv in Ln. destruct t; [constructor|discriminate Ln].
    + destruct (Dc v (var_value a v) (or_introl eq_refl)) as (b & Wb & _ & Sb); eauto.
  - intros j Ej. cbn [body_propagator p_run]. destruct (body_run_out (extensional_pass (VSimple (length d0)) vars tuples) j) as (-> & _). rewrite Ej.
    pose proof (pass_quiet (S (length d0)) (length d0) vars tuples ltac:(lia) Bn Ln (i_domains i) H1 H2 Rng Ux F) as Q.
    match goal with |- context [t_lits ?u] => assert (E : u = track (t_domains (fst (extensional_pass (VSimple (length d0)) vars tuples (i_domains i))))) by exact Q end.
    rewrite E. reflexivity.
Qed.

(** ** Positions *)

Lemma position_of_spec v : forall vs vs' p, position_of v vs = (vs', p) -> nth_error vs' p = Some v /\ (vs' = vs \/ (vs' = vs ++ [v] /\ ~ In v vs)).
Proof.
  induction vs as [|w r IH]; simpl; intros vs' p E; [injection E as <- <-; split; [reflexivity|right; split; [reflexivity|intros []]]|].
  destruct (var_eqb w v) eqn:Ew.
  - injection E as <- <-. apply var_eqb_spec in Ew. subst w. split; [reflexivity|now left].
  - destruct (position_of v r) as [r' q]. injection E as <- <-. destruct (IH r' q eq_refl) as (N & D). split; [assumption|]. destruct D as [->|[-> Nv]]; [now left|right].
    split; [reflexivity|]. intros [X|X]; [|now apply Nv]. subst w. assert (T : var_eqb v v = true) by now apply var_eqb_spec. congruence.
Qed.

Lemma position_of_keeps v vs vs' p i x : position_of v vs = (vs', p) -> nth_error vs i = Some x -> nth_error vs' i = Some x.
Proof.
  intros E N. destruct (position_of_spec v vs vs' p E) as (_ & [->|[-> _]]); [assumption|]. rewrite nth_error_app1; [assumption|]. apply nth_error_Some. congruence.
Qed.

(** The slot is about what the affine form is about. *)
Definition slot_for (vs : list var_id) (f : affine) (s : slot) : Prop :=
  match f, s with
  | (None, c, o), (None, c', o') => c' = c /\ o' = o
  | (Some n, c, o), (Some p, c', o') => nth_error vs p = Some (VSimple n) /\ c' = c /\ o' = o
  | _, _ => False
  end.

Lemma slot_for_more vs vs' f s : (forall i x, nth_error vs i = Some x -> nth_error vs' i = Some x) -> slot_for vs f s -> slot_for vs' f s.
Proof. intros H. destruct f as (([n|], c), o), s as (([p|], c'), o'); simpl; try tauto. intros (A & B). split; [now apply H|assumption]. Qed.

Definition mentions_var (fs : list affine) (v : var_id) : Prop := exists n c o, In (Some n, c, o) fs /\ v = VSimple n.

Lemma place_slots_spec : forall fs vs vs' ss, place_slots fs vs = (vs', ss) ->
  (forall i x, nth_error vs i = Some x -> nth_error vs' i = Some x) /\ Forall2 (slot_for vs') fs ss /\
  (NoDup vs -> NoDup vs') /\ (forall v, In v vs' -> In v vs \/ mentions_var fs v).
Proof.
  induction fs as [|((on, c), o) r IH]; intros vs vs' ss E; cbn [place_slots] in E; [injection E as <- <-; split; [auto|split; [constructor|auto]]|].
  destruct on as [n|].
  - destruct (position_of (VSimple n) vs) as [vs1 p] eqn:Ep. destruct (place_slots r vs1) as [vs2 ss2] eqn:Er. injection E as <- <-.
    destruct (IH vs1 vs2 ss2 Er) as (Kp & F & ND & Me). destruct (position_of_spec _ _ _ _ Ep) as (Np & Dj).
    split; [intros i x N; apply Kp; now apply (position_of_keeps _ _ _ _ _ _ Ep)|]. split; [constructor; [simpl; auto|assumption]|]. split.
    + intro N. apply ND. destruct Dj as [->|[-> Nv]]; [assumption|]. clear - N Nv. induction vs as [|w l IH]; simpl; [constructor; [intros []|constructor]|].
      apply NoDup_cons_iff in N. destruct N as [Nw N]. constructor; [|apply IH; [intro X; apply Nv; now right|assumption]]. rewrite in_app_iff. intros [X|[X|[]]]; [now apply Nw|]. apply Nv. now left.
    + intros v I. destruct (Me v I) as [J|(m & c' & o' & J & ->)]; [|right; exists m, c', o'; split; [now right|reflexivity]].
      destruct Dj as [->|[-> _]]; [now left|]. apply in_app_iff in J. destruct J as [J|[<-|[]]]; [now left|]. right. exists n, c, o. split; [now left|reflexivity].
  - destruct (place_slots r vs) as [vs2 ss2] eqn:Er. injection E as <- <-. destruct (IH vs vs2 ss2 Er) as (Kp & F & ND & Me).
    split; [assumption|]. split; [constructor; [simpl; auto|assumption]|]. split; [assumption|]. intros v I. destruct (Me v I) as [J|(m & c' & o' & J & ->)]; [now left|right; exists m, c', o'; split; [now right|reflexivity]].
Qed.

Lemma slot_value_of a vs v s : slot_for vs (affine_of v) s -> slot_value s (map (var_value a) vs) = var_value a v.
Proof.
  assert (N : forall p n, nth_error vs p = Some (VSimple n) -> nth p (map (var_value a) vs) 0 = a n).
  { intros p n E. apply (map_nth_error (var_value a)) in E. now apply nth_error_nth with (d := 0) in E. }
  destruct v as [n|n neg add|c]; destruct s as (([p|], c'), o'); simpl; try tauto.
  - intros (E & -> & ->). rewrite (N p n E). lia.
  - intros (E & -> & ->). rewrite (N p n E). destruct neg; lia.
Qed.

Lemma affine_var v n c o : affine_of v = (Some n, c, o) -> underlying v = Some n.
Proof. destruct v as [m|m neg add|x]; simpl; intros [= <- _ _]; reflexivity. Qed.

(** ** Sums *)

Definition sum_rel (sign : Z) (a b r : var_id) (s : assignment) : Prop := var_value s a + sign * var_value s b = var_value s r.

Lemma split_slot pos s values : slot_value s values = net_at pos s * nth pos values 0 + other_than pos values s.
Proof. destruct s as (([q|], c), o); simpl; [|lia]. destruct (Nat.eqb_spec q pos) as [->|N]; lia. Qed.

Lemma other_same pos s values zs : (forall j, j <> pos -> nth j values 0 = nth j zs 0) -> other_than pos values s = other_than pos zs s.
Proof. intro H. destruct s as (([q|], c), o); simpl; [|reflexivity]. destruct (Nat.eqb_spec q pos) as [->|N]; [reflexivity|]. now rewrite H. Qed.

Lemma solved_for net x other : net <> 0 -> net * x + other = 0 -> Z.rem (- other) net =? 0 = true /\ Z.quot (- other) net = x.
Proof.
  intros N E. assert (X : - other = x * net) by lia. rewrite X. split; [apply Z.eqb_eq; now apply Z.rem_mul|now apply Z.quot_mul].
Qed.

Lemma sum_plan_ok sign a b r : plan_ok (sum_plan sign a b r).
Proof.
  unfold sum_plan. destruct (place_slots [affine_of a; affine_of b; affine_of r] []) as [vars slots] eqn:E. cbv zeta.
  set (sa := nth 0 slots (None, 0, 0)). set (sb := nth 1 slots (None, 0, 0)). set (sr := nth 2 slots (None, 0, 0)). constructor; cbn [pl_vars pl_determined pl_reification pl_accept]; [|discriminate].
  intros p f I. unfold sum_determined in I. apply in_flat_map in I. destruct I as (pos & Ip & I). apply in_seq in Ip.
  destruct (net_at pos sa + sign * net_at pos sb - net_at pos sr =? 0) eqn:En; [destruct I|]. apply Z.eqb_neq in En. destruct I as [[= <- <-]|[]].
  split; [lia|]. split; [discriminate|]. intros zs values Lz Lv Ac _ Ag. apply Z.eqb_eq in Ac. rewrite !(split_slot pos) in Ac.
  rewrite !(other_same pos _ values zs Ag). set (other := other_than pos zs sa + sign * other_than pos zs sb - other_than pos zs sr).
  destruct (solved_for _ (nth pos zs 0) other En) as (-> & ->); [unfold other; lia|reflexivity].
Qed.

(** Variables that handles stand for. *)
Lemma placed_vars d ws vars slots : Forall (var_known d) ws -> place_slots (map affine_of ws) [] = (vars, slots) ->
  Forall (var_below (length d)) vars /\ NoDup (underlying_list vars) /\
  Forall2 (fun w s => forall a, slot_value s (map (var_value a) vars) = var_value a w) ws slots /\
  (forall D, domains_ok D -> (length d <= length D)%nat -> Forall (fixed D) ws -> Forall (fixed D) vars).
Proof.
  intros K E. destruct (place_slots_spec _ _ _ _ E) as (_ & F & ND & Me). specialize (ND (NoDup_nil _)).
  assert (Of : forall v, In v vars -> exists w n, In w ws /\ underlying w = Some n /\ v = VSimple n).
  { intros v I. destruct (Me v I) as [[]|(n & c & o & J & ->)]. apply in_map_iff in J. destruct J as (w & Ew & Iw). exists w, n. split; [assumption|]. split; [now apply affine_var with c o|reflexivity]. }
  split; [|split; [|split]].
  - apply Forall_forall. intros v I. destruct (Of v I) as (w & n & Iw & U & ->). apply (proj1 (Forall_forall _ _) K) in Iw. apply known_below in Iw. unfold var_below in *. rewrite U in Iw. exact Iw.
  - assert (Simp : forall l, (forall v, In v l -> exists w n, In w ws /\ underlying w = Some n /\ v = VSimple n) -> NoDup l -> NoDup (underlying_list l)).
    { clear. induction l as [|v l IH]; intros Sm N; [constructor|]. apply NoDup_cons_iff in N. destruct N as [Nv N]. destruct (Sm v (or_introl eq_refl)) as (_ & n & _ & _ & ->).
      change (NoDup (n :: underlying_list l)). constructor; [|apply IH; auto; intros w I; apply Sm; now right].
      intro I. apply in_underlying_list in I. destruct I as (w & Iw & U). destruct (Sm w (or_intror Iw)) as (_ & m & _ & _ & ->). injection U as ->. now apply Nv. }
    now apply Simp.
  - clear - F. remember (map affine_of ws) as fs eqn:Ef. revert ws Ef. induction F as [|f s fs ss H F IH]; intros [|w ws] Ef; try discriminate; [constructor|]. injection Ef as -> Ef. constructor; [|now apply IH].
    intro a. now apply slot_value_of.
  - intros D Hd Ln Fx. apply Forall_forall. intros v I. destruct (Of v I) as (w & n & Iw & U & ->).
    apply (fixed_underlying D w n Hd); [|assumption|now apply (proj1 (Forall_forall _ _) Fx)]. apply (proj1 (Forall_forall _ _) K) in Iw. apply known_below in Iw. unfold var_below in Iw. rewrite U in Iw. exact (Nat.lt_le_trans _ _ _ Iw Ln).
Qed.

Lemma sum_plan_vars sign a b r d : Forall (var_known d) [a; b; r] -> let pl := sum_plan sign a b r in
  Forall (var_below (length d)) (pl_vars pl) /\ NoDup (underlying_list (pl_vars pl)) /\
  (forall s, pl_accept pl (map (var_value s) (pl_vars pl)) = true <-> sum_rel sign a b r s) /\
  (forall D, domains_ok D -> (length d <= length D)%nat -> Forall (fixed D) [a; b; r] -> Forall (fixed D) (pl_vars pl)).
Proof.
  intros K pl. unfold sum_plan in pl. destruct (place_slots [affine_of a; affine_of b; affine_of r] []) as [vars slots] eqn:E.
  destruct (placed_vars d [a; b; r] vars slots K E) as (B & ND & F & Sc). unfold pl. cbn [pl_vars pl_accept]. split; [assumption|]. split; [assumption|]. split; [|assumption].
  intro s. inversion F as [|? sa ? ? Fa F1 E1 E2]; subst. inversion F1 as [|? sb ? ? Fb F2 E1 E2]; subst. inversion F2 as [|? sr ? ? Fr F3 E1 E2]; subst. cbn [nth].
  rewrite Fa, Fb, Fr. apply Z.eqb_eq.
Qed.

(** What is consistent for the handles the relation is about is so for all others. *)
Lemma consistent_handles d vs ws (sat : assignment -> Prop) : (exists a, within a d /\ sat a) -> (forall a b, map (var_value a) vs = map (var_value b) vs -> sat a -> sat b) ->
  domain_consistent d vs sat -> domain_consistent d ws sat.
Proof.
  intros (s & Ws & Ss) Lo Dc w x _ (a & Wa & Va). destruct (underlying w) as [n|] eqn:U.
  - assert (Same : forall b : assignment, b n = a n -> var_value b w = x).
    { intros b E. rewrite <- Va. destruct w as [m|m neg add|c]; simpl in U; try discriminate; injection U as ->; cbn [var_value]; now rewrite E. }
    destruct (in_dec Nat.eq_dec n (underlying_list vs)) as [I|N].
    + apply in_underlying_list in I. destruct I as (v & Iv & Uv). destruct (Dc v (var_value a v) Iv) as (b & Wb & Vb & Sb); [eauto|]. exists b. split; [assumption|]. split; [|assumption].
      apply Same. destruct v as [m|m neg add|c]; simpl in Uv; try discriminate; injection Uv as ->; cbn [var_value] in Vb; destruct neg || idtac; lia.
    + exists (fun k => if Nat.eqb k n then a k else s k). split; [intros k Hk; destruct (Nat.eqb_spec k n) as [->|_]; [now apply Wa|now apply Ws]|]. split; [apply Same; now rewrite Nat.eqb_refl|].
      apply (Lo s); [|assumption]. apply map_ext_in. intros v Iv. assert (Nv : underlying v <> Some n) by (intro X; apply N; apply in_underlying_list; eauto).
      destruct v as [m|m neg add|c]; simpl in *; try reflexivity; destruct (Nat.eqb_spec m n) as [->|_]; try reflexivity; now destruct Nv.
  - destruct w as [m|m neg add|c]; simpl in U; try discriminate. exists s. split; [assumption|]. split; [exact Va|assumption].
Qed.

Lemma sum_local n sign a b r : Forall (var_below n) [a; b; r] -> local n (sum_rel sign a b r).
Proof.
  intros B s s' Sm H. unfold sum_rel in *. pose proof (proj1 (Forall_forall _ _) B) as Bv.
  rewrite <- !(same_below_value n s s') by (auto; apply Bv; simpl; auto). exact H.
Qed.

Lemma known_hidden d0 hidden vs : Forall (var_known d0) vs -> Forall (var_known (d0 ++ hidden)) vs.
Proof.
  intro K. apply known_below_all in K. eapply Forall_impl; [|exact K]. intros v Bv. apply (var_below_known (length (d0 ++ hidden))); [reflexivity|].
  apply (below_more (length d0)); [|assumption]. unfold domains, iset in *. rewrite app_length. lia.
Qed.

Lemma tabulated_sum_means d0 l k sign a b r sat : Forall (var_known d0) [a; b; r] -> (forall s, sat s <-> sum_rel sign a b r s) ->
  (forall d, Forall (var_known d) [a; b; r] -> correct_on d k [a; b; r] sat) -> means d0 (tabulated l k (sum_plan sign a b r)) [a; b; r] sat.
Proof.
  intros K Es C. destruct (sum_plan_vars sign a b r d0 K) as (B & _ & Ac & Sc). pose proof (proj1 (known_below_all _ _) K) as Bs.
  apply tabulated_means; auto.
  - intros s s' Sm H. apply Es in H. apply Es. revert Sm H. now apply (sum_local (length d0)).
  - apply sum_plan_ok.
  - intros hidden Hd. apply C. now apply known_hidden.
  - intro s. rewrite Es. apply Ac.
Qed.

Lemma plus_means d0 l a b r : Forall (var_known d0) [a; b; r] -> means d0 (plus l a b r) [a; b; r] (fun s => var_value s a + var_value s b = var_value s r).
Proof.
  intro K. apply (tabulated_sum_means d0 l _ 1); [assumption|intro s; unfold sum_rel; lia|]. intros d Kd. apply (plus_correct d a b r Kd).
Qed.

Lemma minus_means d0 l a b r : Forall (var_known d0) [a; b; r] -> means d0 (minus l a b r) [a; b; r] (fun s => var_value s a - var_value s b = var_value s r).
Proof.
  intro K. apply (tabulated_sum_means d0 l _ (-1)); [assumption|intro s; unfold sum_rel; lia|]. intros d Kd. apply (minus_correct d a b r Kd).
Qed.

(** Once there is a solution, there is a table. *)
Lemma solvable_table d cs pl : plan_ok_in d pl -> domains_ok d -> Forall (var_below (length d)) (pl_vars pl) ->
  (exists a, within a d /\ pl_accept pl (map (var_value a) (pl_vars pl)) = true) ->
  in_inits (install_tabulation pl d cs) = [] /\ (exists p, in_props (install_tabulation pl d cs) = [p]) /\ length (d ++ in_vars (install_tabulation pl d cs)) = S (length d).
Proof.
  intros Ok Hd B (a & Wa & Sa). apply (build_table_spec d pl a Ok Hd B Wa) in Sa. unfold install_tabulation. destruct (build_table d pl) as [|t0 r]; [inversion Sa|]. cbv zeta. cbn [in_inits in_props in_vars].
  split; [reflexivity|]. split; [eauto|]. rewrite app_length. simpl. lia.
Qed.

(** The propagator for the table leaves what the relation supports. *)
Lemma tabulation_gives d0 cs pl scope (sat : assignment -> Prop) : plan_ok_in d0 pl -> domains_ok d0 -> Forall (var_below (length d0)) (pl_vars pl) -> NoDup (underlying_list (pl_vars pl)) ->
  (forall a, pl_accept pl (map (var_value a) (pl_vars pl)) = true <-> sat a) -> (exists a, within a d0 /\ sat a) ->
  let i := install_tabulation pl d0 cs in
  exists q, in_props i = [q] /\ forall D, ConsistencySpec.outcome (length (d0 ++ in_vars i)) (fun d _ => inside (d0 ++ in_vars i) d) q D ->
  domain_consistent D scope sat /\ rerun_is_quiet q D.
Proof.
  intros Ok Hd B ND Ac (a & Wa & Sa) i. destruct (solvable_table d0 cs pl Ok Hd B) as (Ei & (q & Ep) & Le); [exists a; split; [assumption|now apply Ac]|].
  unfold i. exists q. split; [assumption|]. intros D O. rewrite Le in O. destruct (tabulation_consistent d0 cs pl q Ok Hd B ND Ep Ei D O) as ((u & Wu & Su) & Dc & Q). split; [|assumption].
  intros v x Iv Ex. assert (X : domain_consistent D scope (fun a => pl_accept pl (map (var_value a) (pl_vars pl)) = true)).
  { apply (consistent_handles D (pl_vars pl)); eauto. intros s1 s2 E. now rewrite E. }
  destruct (X v x Iv Ex) as (w & Ww & Vw & Sw). exists w. split; [assumption|]. split; [assumption|]. now apply Ac.
Qed.

Lemma tabulated_gives d0 cs l k pl scope (sat : assignment -> Prop) : plan_ok_in d0 pl -> domains_ok d0 -> Forall (var_below (length d0)) (pl_vars pl) -> NoDup (underlying_list (pl_vars pl)) ->
  want_tabulation l d0 pl = true -> (forall a, pl_accept pl (map (var_value a) (pl_vars pl)) = true <-> sat a) -> (exists a, within a d0 /\ sat a) ->
  let i := tabulated l k pl d0 cs in
  exists q, in_props i = fst (k d0) ++ [q] /\ forall D, ConsistencySpec.outcome (length (d0 ++ in_vars i)) (fun d _ => inside (d0 ++ in_vars i) d) q D ->
  domain_consistent D scope sat /\ rerun_is_quiet q D.
Proof.
  intros Ok Hd B ND W Ac Ex i. destruct (tabulation_gives d0 cs pl scope sat Ok Hd B ND Ac Ex) as (q & Ep & H). unfold i, tabulated. rewrite W. cbv zeta. cbn [in_props in_vars].
  exists q. split; [now rewrite Ep|exact H].
Qed.

(** ** Small enough *)

Lemma size_positive s : well_formed s -> (exists x, member x s) -> 1 <= size s.
Proof.
  intros W (x & M). rewrite <- (each_length s W). apply each_In in M. destruct (each s); [destruct M|simpl; lia].
Qed.

Lemma domain_size_positive d v : domains_ok d -> var_known d v -> 1 <= domain_size d v.
Proof.
  intros Hd K. destruct v as [n|n neg add|c]; unfold domain_size; simpl in *; try lia; destruct (Hd n K) as [W N]; now apply size_positive.
Qed.

Lemma domain_size_underlying d v n : underlying v = Some n -> domain_size d v = domain_size d (VSimple n).
Proof. destruct v as [m|m neg add|c]; simpl; intros [= <-]; reflexivity. Qed.

(** The number of ways to give each handle one of its values. *)
Definition sizes (d : domains) (vs : list var_id) : Z := fold_right Z.mul 1 (map (domain_size d) vs).

Lemma sizes_positive d vs : domains_ok d -> Forall (var_known d) vs -> 1 <= sizes d vs.
Proof.
  intros Hd K. induction K as [|v vs Kv K IH]; [unfold sizes; simpl; lia|]. change (sizes d (v :: vs)) with (domain_size d v * sizes d vs). pose proof (domain_size_positive d v Hd Kv). nia.
Qed.

Lemma sizes_app d vs ws : sizes d (vs ++ ws) = sizes d vs * sizes d ws.
Proof. induction vs as [|v vs IH]; [change (sizes d []) with 1; now rewrite Z.mul_1_l|]. change (sizes d ((v :: vs) ++ ws)) with (domain_size d v * sizes d (vs ++ ws)). change (sizes d (v :: vs)) with (domain_size d v * sizes d vs). rewrite IH. lia. Qed.

Lemma placed_sizes d : domains_ok d -> forall ws vs vs' ss, Forall (var_known d) ws -> Forall (var_known d) vs -> place_slots (map affine_of ws) vs = (vs', ss) -> sizes d vs' <= sizes d vs * sizes d ws.
Proof.
  intro Hd. induction ws as [|w ws IH]; intros vs vs' ss Kw Kv E; cbn [map place_slots] in E; [injection E as <- _; unfold sizes; simpl; lia|].
  apply Forall_cons_iff in Kw. destruct Kw as [Kw Kws]. change (sizes d (w :: ws)) with (domain_size d w * sizes d ws). pose proof (domain_size_positive d w Hd Kw) as Pw. pose proof (sizes_positive d vs Hd Kv) as Pv. pose proof (sizes_positive d ws Hd Kws) as Ps.
  destruct (affine_of w) as ((on, c), o) eqn:Ea. destruct on as [n|].
  - apply affine_var in Ea. destruct (position_of (VSimple n) vs) as [vs1 p] eqn:Ep. destruct (place_slots (map affine_of ws) vs1) as [vs2 ss2] eqn:Er. injection E as <- <-.
    destruct (position_of_spec _ _ _ _ Ep) as (_ & Dj).
    assert (Kn : var_known d (VSimple n)) by (destruct w as [m|m neg add|x]; simpl in *; try discriminate; now injection Ea as ->).
    assert (K1 : Forall (var_known d) vs1) by (destruct Dj as [->|[-> _]]; [assumption|apply Forall_app; auto]).
    specialize (IH vs1 vs2 ss2 Kws K1 Er). assert (S1 : sizes d vs1 <= sizes d vs * domain_size d w).
    { rewrite (domain_size_underlying d w n Ea) in *. destruct Dj as [->|[-> _]]; [nia|]. rewrite sizes_app. unfold sizes at 2. simpl. lia. }
    nia.
  - destruct (place_slots (map affine_of ws) vs) as [vs2 ss2] eqn:Er. injection E as <- <-. specialize (IH vs vs2 ss2 Kws Kv Er). nia.
Qed.

Lemma skipped_size d vars skip : domains_ok d -> Forall (var_known d) vars ->
  fold_left (fun size p => if is_at skip p then size else size * size_at d vars p) (seq 0 (length vars)) 1 <= sizes d vars.
Proof.
  intros Hd K. assert (H : forall more done s, vars = done ++ more -> 1 <= s -> s <= sizes d done ->
    fold_left (fun size p => if is_at skip p then size else size * size_at d vars p) (seq (length done) (length more)) s <= sizes d vars).
  { induction more as [|v more IH]; intros done s Ev P L; [subst vars; rewrite app_nil_r; exact L|]. simpl. assert (Ev' : vars = (done ++ [v]) ++ more) by now rewrite <- app_assoc.
    assert (Kv : var_known d v) by (apply (proj1 (Forall_forall _ _) K); rewrite Ev; apply in_or_app; right; now left). pose proof (domain_size_positive d v Hd Kv) as Pv.
    assert (Ln : S (length done) = length (done ++ [v])) by (rewrite app_length; simpl; lia). rewrite Ln.
    assert (Sz : sizes d (done ++ [v]) = sizes d done * domain_size d v) by (rewrite sizes_app; unfold sizes at 2; simpl; lia).
    destruct (is_at skip (length done)).
    - apply IH; auto. rewrite Sz. nia.
    - assert (Ea : size_at d vars (length done) = domain_size d v) by (unfold size_at; rewrite Ev, app_nth2, Nat.sub_diag by lia; reflexivity). rewrite Ea. apply IH; auto; [nia|]. rewrite Sz. nia. }
  apply (H vars [] 1); [reflexivity|lia|unfold sizes; simpl; lia].
Qed.

Lemma small_plan d ws vars slots determined reification accept threshold : domains_ok d -> Forall (var_known d) ws -> place_slots (map affine_of ws) [] = (vars, slots) ->
  sizes d ws <= threshold -> want_tabulation (Auto threshold) d (mk_plan vars determined reification accept) = true.
Proof.
  intros Hd K E L. destruct (placed_vars d ws vars slots K E) as (B & _). assert (Kv : Forall (var_known d) vars) by now apply known_below_all.
  unfold want_tabulation. apply Z.leb_le. eapply Z.le_trans; [now apply skipped_size|]. cbn [pl_vars].
  pose proof (placed_sizes d Hd ws [] vars slots K (Forall_nil _) E) as P. change (sizes d []) with 1 in P. lia.
Qed.

Lemma small_sums d sign a b r threshold : domains_ok d -> Forall (var_known d) [a; b; r] -> domain_size d a * domain_size d b * domain_size d r <= threshold ->
  want_tabulation (Auto threshold) d (sum_plan sign a b r) = true.
Proof.
  intros Hd K L. unfold sum_plan. destruct (place_slots [affine_of a; affine_of b; affine_of r] []) as [vars slots] eqn:E. cbv zeta.
  apply (small_plan d [a; b; r] vars slots); auto. change (sizes d [a; b; r]) with (domain_size d a * (domain_size d b * (domain_size d r * 1))). lia.
Qed.

Lemma plus_consistent d0 cs l a b r : domains_ok d0 -> Forall (var_known d0) [a; b; r] ->
  l = Tabulated \/ (exists threshold, l = Auto threshold /\ domain_size d0 a * domain_size d0 b * domain_size d0 r <= threshold) ->
  (exists s, within s d0 /\ var_value s a + var_value s b = var_value s r) ->
  let i := plus l a b r d0 cs in exists p q, in_props i = [p; q] /\
  forall D, ConsistencySpec.outcome (length (d0 ++ in_vars i)) (fun d _ => inside (d0 ++ in_vars i) d) q D ->
  domain_consistent D [a; b; r] (fun s => var_value s a + var_value s b = var_value s r) /\ rerun_is_quiet q D.
Proof.
  intros Hd K Lv Ex. assert (W : want_tabulation l d0 (sum_plan (1) a b r) = true) by (destruct Lv as [->|(t & -> & L)]; [reflexivity|now apply small_sums]).
  destruct (sum_plan_vars (1) a b r d0 K) as (B & ND & Ac & _).
  destruct (tabulated_gives d0 cs l (plus_bc a b r) (sum_plan (1) a b r) [a; b; r] (fun s => var_value s a + var_value s b = var_value s r) (plan_in _ _ (sum_plan_ok _ _ _ _)) Hd B ND W) as (q & Ep & H); [|assumption|].
  - intro s. rewrite Ac. unfold sum_rel. lia.
  - eexists. exists q. split; [exact Ep|exact H].
Qed.

Lemma minus_consistent d0 cs l a b r : domains_ok d0 -> Forall (var_known d0) [a; b; r] ->
  l = Tabulated \/ (exists threshold, l = Auto threshold /\ domain_size d0 a * domain_size d0 b * domain_size d0 r <= threshold) ->
  (exists s, within s d0 /\ var_value s a - var_value s b = var_value s r) ->
  let i := minus l a b r d0 cs in exists p q, in_props i = [p; q] /\
  forall D, ConsistencySpec.outcome (length (d0 ++ in_vars i)) (fun d _ => inside (d0 ++ in_vars i) d) q D ->
  domain_consistent D [a; b; r] (fun s => var_value s a - var_value s b = var_value s r) /\ rerun_is_quiet q D.
Proof.
  intros Hd K Lv Ex. assert (W : want_tabulation l d0 (sum_plan (-1) a b r) = true) by (destruct Lv as [->|(t & -> & L)]; [reflexivity|now apply small_sums]).
  destruct (sum_plan_vars (-1) a b r d0 K) as (B & ND & Ac & _).
  destruct (tabulated_gives d0 cs l (minus_bc a b r) (sum_plan (-1) a b r) [a; b; r] (fun s => var_value s a - var_value s b = var_value s r) (plan_in _ _ (sum_plan_ok _ _ _ _)) Hd B ND W) as (q & Ep & H); [|assumption|].
  - intro s. rewrite Ac. unfold sum_rel. lia.
  - eexists. exists q. split; [exact Ep|exact H].
Qed.

(** ** Reification *)

Lemma condition_at a c : condition_holds_at c (var_value a (c_var c)) = true <-> cond_holds a c.
Proof.
  unfold condition_holds_at, cond_holds. destruct (c_op c); simpl; rewrite ?Z.eqb_eq, ?negb_true_iff, ?Z.eqb_neq, ?Z.leb_le, ?Z.ltb_lt, ?andb_true_iff, ?orb_true_iff, ?Z.leb_le, ?Z.ltb_lt; try tauto; lia.
Qed.

(** A base relation on the values of the first [n] variables, and what it determines. *)
Definition base_ok (n : nat) (determined : list (nat * (list Z -> option Z))) (accept : list Z -> bool) : Prop :=
  (forall zs more, length zs = n -> accept (zs ++ more) = accept zs) /\
  forall p f, In (p, f) determined -> (p < n)%nat /\ forall zs values, (n <= length zs)%nat -> length values = length zs -> accept zs = true ->
    (forall j, j <> p -> nth j values 0 = nth j zs 0) -> f values = Some (nth p zs 0).

Section Reified.
Variable r : reif.
Variable vars : list var_id.
Variable determined : list (nat * (list Z -> option Z)).
Variable accept : list Z -> bool.
Hypothesis Bo : base_ok (length vars) determined accept.

Let pl := reify_tabulation r vars determined accept.

Lemma place_length v vs' p : position_of v vars = (vs', p) -> (length vars <= length vs')%nat /\ (p < length vs')%nat /\ forall a, accept (map (var_value a) vs') = accept (map (var_value a) vars) /\ nth p (map (var_value a) vs') 0 = var_value a v.
Proof.
  intro E. destruct (position_of_spec v vars vs' p E) as (N & Dj). split; [destruct Dj as [->|[-> _]]; rewrite ?app_length; lia|]. split; [apply nth_error_Some; congruence|].
  intro a. split.
  - destruct Dj as [->|[-> _]]; [reflexivity|]. rewrite map_app. apply (proj1 Bo). apply map_length.
  - apply (map_nth_error (var_value a)) in N. now apply nth_error_nth with (d := 0) in N.
Qed.

Lemma reified_plan_ok : plan_ok pl.
Proof.
  destruct Bo as [_ De]. unfold pl, reify_tabulation. destruct r as [| |c|c|c].
  - constructor; cbn [pl_vars pl_determined pl_reification pl_accept]; [|discriminate]. intros p f I. destruct (De p f I) as (Hp & H). split; [assumption|]. split; [discriminate|]. intros zs values L1 L2 A _ Ag. apply H; auto. lia.
  - constructor; cbn [pl_vars pl_determined pl_reification pl_accept]; [intros p f []|discriminate].
  - destruct (position_of (c_var c) vars) as [vs' p] eqn:E. destruct (place_length _ _ _ E) as (L1 & Lp & _). constructor; cbn [pl_vars pl_determined pl_reification pl_accept].
    + intros q f I. apply filter_In in I. destruct I as [I Nq]. simpl in Nq. apply negb_true_iff, Nat.eqb_neq in Nq. destruct (De q f I) as (Hq & H). split; [lia|]. split; [intros ? ? [= <- _]; assumption|].
      intros zs values L2 L3 A B Ag. unfold branch_of in B. cbn [pl_reification] in B. apply H; auto; [lia|]. destruct (condition_holds_at c (nth p zs 0)); [exact A|discriminate B].
    + intros ? ? [= <- <-]. split; [assumption|]. intros zs L2 B. destruct (condition_holds_at c (nth p zs 0)); [discriminate B|reflexivity].
  - destruct (position_of (c_var c) vars) as [vs' p] eqn:E. destruct (place_length _ _ _ E) as (L1 & Lp & _). constructor; cbn [pl_vars pl_determined pl_reification pl_accept]; [intros ? ? []|].
    intros ? ? [= <- <-]. split; [assumption|]. intros zs L2 B. destruct (condition_holds_at c (nth p zs 0)); [discriminate B|reflexivity].
  - destruct (position_of (c_var c) vars) as [vs' p] eqn:E. destruct (place_length _ _ _ E) as (L1 & Lp & _). constructor; cbn [pl_vars pl_determined pl_reification pl_accept].
    + intros q f I. apply filter_In in I. destruct I as [I Nq]. simpl in Nq. apply negb_true_iff, Nat.eqb_neq in Nq. destruct (De q f I) as (Hq & H). split; [lia|]. split; [intros ? ? [= <- _]; assumption|].
      intros zs values L2 L3 A B Ag. unfold branch_of in B. cbn [pl_reification] in B. apply H; auto; [lia|]. destruct (condition_holds_at c (nth p zs 0)); [destruct (accept zs); [reflexivity|discriminate A]|discriminate B].
    + intros ? ? [= <- <-]. split; [assumption|]. intros zs L2 B. destruct (condition_holds_at c (nth p zs 0)); discriminate B.
Qed.

Lemma reified_vars v : In v (pl_vars pl) <-> In v vars \/ In v (reif_scope r).
Proof.
  unfold pl, reify_tabulation, reif_scope. destruct r as [| |c|c|c]; cbn [reif_cond pl_vars]; [simpl; tauto|simpl; tauto| | |]; destruct (position_of (c_var c) vars) as [vs' p] eqn:E; cbn [pl_vars];
    destruct (position_of_spec _ _ _ _ E) as (N & [->|[-> _]]); rewrite ?in_app_iff; simpl; try tauto; apply nth_error_In in N; split; intro H; try tauto; destruct H as [H|[<-|[]]]; assumption.
Qed.

Lemma reified_accept a : pl_accept pl (map (var_value a) (pl_vars pl)) = true <-> reif_sat r (fun a => accept (map (var_value a) vars) = true) a.
Proof.
  unfold pl, reify_tabulation. destruct r as [| |c|c|c]; cbn [pl_accept pl_vars reif_sat]; [tauto|rewrite negb_true_iff; destruct (accept (map (var_value a) vars)); split; congruence| | |];
    destruct (position_of (c_var c) vars) as [vs' p] eqn:E; cbn [pl_accept pl_vars]; destruct (place_length _ _ _ E) as (_ & _ & H); destruct (H a) as [-> ->]; rewrite <- (condition_at a c);
    destruct (condition_holds_at c (var_value a (c_var c))), (accept (map (var_value a) vars)); simpl; split; intuition congruence.
Qed.

Lemma reified_unrelated : NoDup (underlying_list vars) -> NoDup (underlying_list (vars ++ reif_scope r)) \/ incl (reif_scope r) vars -> NoDup (underlying_list (pl_vars pl)).
Proof.
  intros ND Sc. unfold pl, reify_tabulation. unfold reif_scope in Sc. destruct r as [| |c|c|c]; cbn [reif_cond pl_vars] in *; try assumption; destruct (position_of (c_var c) vars) as [vs' p] eqn:E; cbn [pl_vars];
    destruct (position_of_spec _ _ _ _ E) as (_ & [->|[-> Nv]]); try assumption; destruct Sc as [H|H]; try assumption; destruct Nv; apply H; now left.
Qed.
End Reified.

(** ** Linear equalities *)

Lemma terms_value_app ts zs more : length zs = length ts -> terms_value ts (zs ++ more) = terms_value ts zs.
Proof. revert zs. induction ts as [|(c, n) ts IH]; intros [|z zs] L; simpl in *; try lia; try (rewrite IH by lia); try reflexivity; destruct more; reflexivity. Qed.

Lemma terms_value_at ts : forall zs p, (p < length ts)%nat -> (length ts <= length zs)%nat -> terms_value ts zs = fst (nth p ts (0, O)) * nth p zs 0 + terms_value ts (set_nth zs p 0).
Proof.
  induction ts as [|(c, n) ts IH]; intros [|z zs] p Hp L; simpl in *; try lia. destruct p as [|p]; simpl; [lia|]. rewrite (IH zs p) by lia. lia.
Qed.

Lemma set_nth_same (zs values : list Z) p x : length values = length zs -> (forall j, j <> p -> nth j values 0 = nth j zs 0) -> set_nth values p x = set_nth zs p x.
Proof.
  intros L A. apply nth_ext with (d := 0) (d' := 0); [now rewrite !set_nth_length|]. intros j Hj. rewrite set_nth_length in Hj.
  destruct (Nat.eq_dec j p) as [->|N]; [rewrite !nth_set_nth by lia; now rewrite Nat.eqb_refl|]. rewrite !nth_set_nth_other by assumption. now apply A.
Qed.

Lemma terms_base_ok ts value : Forall (fun t => fst t <> 0) ts -> base_ok (length ts) (terms_determined ts value) (fun values => terms_value ts values =? value).
Proof.
  intro Nz. split; [intros zs more L; now rewrite terms_value_app|]. intros p f I. unfold terms_determined in I. apply in_map_iff in I. destruct I as (pos & [= <- <-] & Ip). apply in_seq in Ip.
  split; [lia|]. intros zs values L1 L2 A Ag. apply Z.eqb_eq in A. cbv zeta. rewrite (set_nth_same zs values pos 0 L2 Ag). rewrite (terms_value_at ts zs pos) in A by lia.
  set (c := fst (nth pos ts (0, O))) in *. set (other := terms_value ts (set_nth zs pos 0)) in *. assert (Nc : c <> 0) by (apply (proj1 (Forall_forall _ _) Nz); apply nth_In; lia).
  assert (X : value - other = - (other - value)) by lia. rewrite X. destruct (solved_for c (nth pos zs 0) (other - value) Nc) as (-> & ->); [lia|reflexivity].
Qed.

Lemma terms_value_lin a s : terms_value (terms s) (map (var_value a) (term_vars s)) = lin a (terms s).
Proof. unfold term_vars. induction (terms s) as [|(c, n) ts IH]; simpl; [reflexivity|]. rewrite IH. reflexivity. Qed.

Lemma term_vars_length s : length (term_vars s) = length (terms s).
Proof. unfold term_vars. apply map_length. Qed.

Lemma underlying_term_vars s : underlying_list (term_vars s) = map snd (terms s).
Proof. unfold term_vars. induction (terms s) as [|(c, n) ts IH]; simpl; [reflexivity|]. change (n :: underlying_list (map (fun t => VSimple (snd t)) ts) = n :: map snd ts). now rewrite IH. Qed.

Lemma tabulated_linear_accepts cv value r s m a : tidy_up_linear cv = (s, m) ->
  reif_sat r (fun a => (terms_value (terms s) (map (var_value a) (term_vars s)) =? value + m) = true) a <-> reif_sat r (fun a => weighted_sum cv a = value) a.
Proof.
  intro E. destruct (tidy_up_spec cv s m E) as (_ & Sm & _).
  assert (X : (terms_value (terms s) (map (var_value a) (term_vars s)) =? value + m) = true <-> weighted_sum cv a = value) by (rewrite Z.eqb_eq, terms_value_lin, Sm; lia).
  destruct r; simpl; tauto.
Qed.

Lemma tabulated_linear_means d0 cv value r : Forall (var_known d0) (map snd cv ++ reif_scope r) ->
  means d0 (tabulated_linear cv value r) (map snd cv ++ reif_scope r) (reif_sat r (fun a => weighted_sum cv a = value)).
Proof.
  intro K. pose proof (proj1 (known_below_all _ _) K) as B. pose proof K as K'. apply Forall_app in K'. destruct K' as [Kc Kr].
  unfold tabulated_linear. destruct (tidy_up_linear cv) as [s m] eqn:E. destruct (tidy_up_spec cv s m E) as (Ts & Sm & V).
  pose proof (terms_base_ok (terms s) (value + m) (td_nonzero _ Ts)) as Bo. rewrite <- term_vars_length in Bo.
  pose proof (reified_accept r (term_vars s) _ _ Bo) as Ac.
  apply tabulation_means; auto.
  - assert (Kb : forall a a', same_below (length d0) a a' -> forall v, In v (map snd cv ++ reif_scope r) -> var_value a v = var_value a' v).
    { intros a a' S v I. apply (same_below_value (length d0)); [assumption|]. now apply (proj1 (Forall_forall _ _) B). }
    intros a a' S. assert (W : weighted_sum cv a' = weighted_sum cv a).
    { rewrite !Sm. f_equal. assert (T : forall ts, (forall n, In n (map snd ts) -> In n (map snd (terms s))) -> lin a' ts = lin a ts).
      { induction ts as [|(c, n) ts IH]; intro I; simpl; [reflexivity|]. rewrite IH by (intros k Ik; apply I; now right). rewrite (S n); [reflexivity|].
        destruct (V n (I n (or_introl eq_refl))) as (v & Iv & U). assert (Bv : var_below (length d0) v) by (apply (proj1 (Forall_forall _ _) B); apply in_or_app; now left). unfold var_below in Bv. now rewrite U in Bv. }
      now apply T. }
    unfold reif_scope in Kb. assert (C : forall c, reif_cond r = Some c -> (cond_holds a c <-> cond_holds a' c)).
    { intros c Ec. unfold cond_holds. rewrite (Kb a a' S (c_var c)); [tauto|]. rewrite Ec. apply in_or_app. right. now left. }
    destruct r; simpl; rewrite ?W; try tauto; try (intro H; now rewrite <- (C _ eq_refl)).
  - now apply reified_plan_ok.
  - apply Forall_forall. intros v I. apply (reified_vars r (term_vars s) (terms_determined (terms s) (value + m)) (fun values => terms_value (terms s) values =? value + m)) in I. destruct I as [I|I].
    + apply (proj1 (Forall_forall _ _) (term_vars_below _ s (tidied_below d0 cv Kc (length d0) s m (le_n _) E)) v I).
    + apply (proj1 (Forall_forall _ _) B). apply in_or_app. now right.
  - intro a. rewrite Ac. now apply tabulated_linear_accepts.
  - intros D Hd Ln F. apply Forall_forall. intros v I. apply (reified_vars r (term_vars s) (terms_determined (terms s) (value + m)) (fun values => terms_value (terms s) values =? value + m)) in I. apply Forall_app in F. destruct F as [F1 F2]. destruct I as [I|I].
    + apply (proj1 (Forall_forall _ _) (terms_fixed d0 cv Kc s m E D Hd Ln F1) v I).
    + now apply (proj1 (Forall_forall _ _) F2).
Qed.

Lemma tabulated_linear_gives d0 cs cv value r ws : domains_ok d0 -> Forall (var_known d0) (map snd cv ++ reif_scope r) ->
  (forall v n, In v (reif_scope r) -> underlying v = Some n -> v = VSimple n \/ ~ In n (underlying_list (map snd cv))) ->
  (exists a, within a d0 /\ reif_sat r (fun a => weighted_sum cv a = value) a) ->
  let i := tabulated_linear cv value r d0 cs in exists p, in_props i = [p] /\
  forall D, ConsistencySpec.outcome (length (d0 ++ in_vars i)) (fun d _ => inside (d0 ++ in_vars i) d) p D ->
  domain_consistent D ws (reif_sat r (fun a => weighted_sum cv a = value)) /\ rerun_is_quiet p D.
Proof.
  intros Hd K Ap (a & Wa & Sa). pose proof (proj1 (known_below_all _ _) K) as B. pose proof K as K'. apply Forall_app in K'. destruct K' as [Kc Kr].
  unfold tabulated_linear. destruct (tidy_up_linear cv) as [s m] eqn:E. destruct (tidy_up_spec cv s m E) as (Ts & Sm & V). cbv zeta.
  pose proof (terms_base_ok (terms s) (value + m) (td_nonzero _ Ts)) as Bo. rewrite <- term_vars_length in Bo.
  pose proof (reified_accept r (term_vars s) _ _ Bo) as Ac. pose proof (reified_plan_ok r (term_vars s) _ _ Bo) as Ok.
  pose proof (reified_vars r (term_vars s) (terms_determined (terms s) (value + m)) (fun values => terms_value (terms s) values =? value + m)) as Vs.
  assert (ND : NoDup (underlying_list (pl_vars (reify_tabulation r (term_vars s) (terms_determined (terms s) (value + m)) (fun values => terms_value (terms s) values =? value + m))))).
  { apply reified_unrelated; [rewrite underlying_term_vars; apply (td_nodup _ Ts)|]. unfold reif_scope in *. destruct (reif_cond r) as [c|]; [|left; rewrite app_nil_r, underlying_term_vars; apply (td_nodup _ Ts)].
    assert (Fresh : forall n, underlying (c_var c) = Some n -> ~ In n (map snd (terms s)) -> NoDup (underlying_list (term_vars s ++ [c_var c]))).
    { intros n U N. rewrite underlying_list_app, underlying_term_vars. assert (X : underlying_list [c_var c] = [n]) by (unfold underlying_list; simpl; now rewrite U). rewrite X. clear - N Ts. pose proof (td_nodup _ Ts) as ND. induction (map snd (terms s)) as [|k l IH]; simpl; [constructor; [intros []|constructor]|].
      apply NoDup_cons_iff in ND. destruct ND as [Nk ND]. constructor; [|apply IH; [|assumption]; intro I; apply N; now right]. rewrite in_app_iff. intros [I|[<-|[]]]; [now apply Nk|]. apply N. now left. }
    destruct (underlying (c_var c)) as [n|] eqn:U.
    - destruct (Ap (c_var c) n (or_introl eq_refl) U) as [Ev|N].
      + destruct (in_dec Nat.eq_dec n (map snd (terms s))) as [I|N]; [right|left; now apply (Fresh n)]. intros v [<-|[]]. rewrite Ev. unfold term_vars. apply in_map_iff in I. destruct I as ([c' n'] & <- & I). apply in_map_iff. exists (c', n'). auto.
      + left. apply (Fresh n); [reflexivity|]. intro I. apply N. destruct (V n I) as (v & Iv & Uv). apply in_underlying_list. eauto.
    - left. rewrite underlying_list_app, underlying_term_vars. assert (X : underlying_list [c_var c] = []) by (unfold underlying_list; simpl; now rewrite U). rewrite X, app_nil_r. apply (td_nodup _ Ts). }
  set (pl := reify_tabulation r (term_vars s) (terms_determined (terms s) (value + m)) (fun values => terms_value (terms s) values =? value + m)) in *.
  assert (Bp : Forall (var_below (length d0)) (pl_vars pl)).
  { apply Forall_forall. intros v I. apply Vs in I. destruct I as [I|I].
    - apply (proj1 (Forall_forall _ _) (term_vars_below _ s (tidied_below d0 cv Kc (length d0) s m (le_n _) E)) v I).
    - apply (proj1 (Forall_forall _ _) B). apply in_or_app. now right. }
  assert (Ac' : forall b, pl_accept pl (map (var_value b) (pl_vars pl)) = true <-> reif_sat r (fun a => weighted_sum cv a = value) b) by (intro b; rewrite Ac; now apply tabulated_linear_accepts).
  apply (tabulation_gives d0 cs pl); auto using plan_in. exists a. auto.
Qed.

Lemma tabulated_linear_consistent d0 cs cv value r : domains_ok d0 -> Forall (var_known d0) (map snd cv ++ reif_scope r) ->
  (forall v n, In v (reif_scope r) -> underlying v = Some n -> v = VSimple n \/ ~ In n (underlying_list (map snd cv))) ->
  (exists a, within a d0 /\ reif_sat r (fun a => weighted_sum cv a = value) a) ->
  let i := tabulated_linear cv value r d0 cs in exists p, in_props i = [p] /\
  forall D, ConsistencySpec.outcome (length (d0 ++ in_vars i)) (fun d _ => inside (d0 ++ in_vars i) d) p D ->
  domain_consistent D (map snd cv ++ reif_scope r) (reif_sat r (fun a => weighted_sum cv a = value)) /\ rerun_is_quiet p D.
Proof. exact (tabulated_linear_gives d0 cs cv value r (map snd cv ++ reif_scope r)). Qed.
