(** Lemmas about Circuit. *)
From Coq Require Import ZArith List Bool Arith Lia Permutation.
From Verif Require Import IntervalSet IntervalSetSpec IntervalSetProofs Vars VarsSpec VarsProofs State StateSpec StateProofs Epochs
  Engine EngineSpec EngineProofs EngineQueueProofs SessionSpec SessionInvProofs Tracker ContractSpec ContractProofs RunProofs Solve SolveSpec SolveProofs
  Stateful StatefulSpec StatefulProofs AllDifferent AllDifferentSpec AllDifferentProofs Element Inverse PartsProofs NValueProofs InverseProofs CircuitSpec Circuit TourProofs.
Import ListNotations.
Local Open Scope nat_scope.

(** ** A state propagator that establishes a part of the relation *)

Record state_meets (nv : nat) (d0 : domains) (Own : domains -> cstate -> Prop) (alias : Prop) (f : state_body)
  (scope : list var_id) (sat part : assignment -> Prop) : Prop :=
  { sm_honest : forall d s m, domains_ok d -> length d = nv -> inside d0 d -> Own d s -> honest nv d sat (e_tracker (f d s m));
    sm_own : forall d s m, domains_ok d -> length d = nv -> inside d0 d -> Own d s -> t_failed (e_tracker (f d s m)) = false ->
      Own (t_domains (e_tracker (f d s m))) (e_state (f d s m));
    sm_checks : forall d s m a, domains_ok d -> length d = nv -> inside d0 d -> Own d s -> Forall (fixed d) scope ->
      live nv d (e_tracker (f d s m)) a -> part a;
    sm_claims : forall d s m a, domains_ok d -> length d = nv -> inside d0 d -> Own d s -> ~ alias -> e_result (f d s m) = EnableButIdempotent ->
      live nv d (e_tracker (f d s m)) a -> Forall (fixed (t_domains (e_tracker (f d s m)))) scope -> part a;
    sm_entails : forall d s m a, domains_ok d -> length d = nv -> inside d0 d -> Own d s -> e_result (f d s m) = DisableUntilBacktrack ->
      live nv d (e_tracker (f d s m)) a -> part a }.

Lemma state_supports nv d0 (Inv : domains -> list cstate -> Prop) h Own f scope (sat part : assignment -> Prop) on_change on_bounds on_instantiated :
  let p := state_propagator h f on_change on_bounds on_instantiated in
  (forall d cs, Inv d cs -> inside d0 d /\ owned h Own d cs) ->
  framed nv Inv h 1 (owned h Own) -> Forall (var_below nv) scope ->
  incl scope (on_change ++ on_bounds ++ on_instantiated) ->
  state_meets nv d0 Own (aliased p) f scope sat part ->
  supports nv Inv p scope sat part.
Proof.
  intros p In0 Fr Kn Inc [Ho Ow Ch Cl En].
  assert (Su : forall v x, In v scope -> underlying v = Some x -> subscribes p x Instantiated) by (intros v x Iv; apply listed_subscribes; auto).
  assert (ST : forall i, usable nv Inv i -> domains_ok (i_domains i) /\ length (i_domains i) = nv /\ inside d0 (i_domains i) /\
      h < length (i_cstates i) /\ Own (i_domains i) (nth h (i_cstates i) [])).
  { intros i (Hd & L & I). destruct (In0 _ _ I) as (Id & s & E & O). split; [assumption|]. split; [assumption|]. split; [assumption|].
    split; [apply nth_error_Some; congruence|]. now rewrite (nth_error_nth _ _ _ E). }
  assert (RUN : forall i d evs, usable nv Inv i -> apply_lits (i_domains i) (o_infer (p_run p i)) = (d, evs, false) ->
     let e := f (i_domains i) (nth h (i_cstates i) []) (i_memo i) in t_failed (e_tracker e) = false /\ t_domains (e_tracker e) = d).
  { intros i d evs U E. destruct (ST i U) as (Hd & L & Id & _ & O). cbn [p p_run state_propagator state_run o_infer] in E.
    destruct (Ho _ _ (i_memo i) Hd L Id O) as [Lg _]. destruct (lg_apply _ _ _ Lg) as (ev & A). rewrite A in E. injection E as E1 _ E2. auto. }
  assert (KN : forall i, usable nv Inv i -> Forall (lit_known (i_domains i)) (o_infer (p_run p i))).
  { intros i U. destruct (ST i U) as (Hd & L & Id & _ & O). apply Forall_rev. apply (lits_known nv); auto.
    apply (lg_below _ _ _ (proj1 (Ho _ _ (i_memo i) Hd L Id O))). }
  assert (LIVE : forall i d evs a, usable nv Inv i -> apply_lits (i_domains i) (o_infer (p_run p i)) = (d, evs, false) -> within a d ->
      live nv (i_domains i) (e_tracker (f (i_domains i) (nth h (i_cstates i) []) (i_memo i))) a).
  { intros i d evs a U E Wa. destruct (RUN i d evs U E) as [F Ed]. destruct (ST i U) as (Hd & L & Id & _ & O). split; [apply (Ho _ _ (i_memo i) Hd L Id O)|]. split; [exact F|].
    now rewrite Ed. }
  split; [|split].
  - constructor; [exact KN|]. intros i d evs U E. destruct (RUN i d evs U E) as [F Ed]. destruct (ST i U) as (Hd & L & Id & Hh & O).
    pose proof (Ho _ _ (i_memo i) Hd L Id O) as [Lg _]. subst d.
    apply (Fr (i_domains i) (i_cstates i)); auto.
    + apply U.
    + apply (legit_ok nv (i_domains i) Hd L _ Lg F).
    + apply (legit_length nv (i_domains i) Hd L _ Lg).
    + apply (legit_inside nv (i_domains i) Hd L _ Lg F).
    + apply same_elsewhere_set.
    + eexists. split; [apply nth_error_set_nth; assumption|]. now apply Ow.
  - intros i a U Wa Sa. destruct (ST i U) as (Hd & L & Id & _ & O). apply Forall_rev. now apply (proj2 (Ho _ _ (i_memo i) Hd L Id O)).
  - exists (checked scope part), (entailed part). split.
    + constructor.
      * intros i d evs U E NS _ F a Wa. pose proof (LIVE i d evs a U E Wa) as Lv. pose proof (KN i U) as Kl. destruct (ST i U) as (Hd & L & Id & _ & O).
        apply (Ch _ _ (i_memo i) a Hd L Id O); [|assumption]. exact (fixed_all_back_lits nv p scope _ _ _ _ Hd L Kn Su Kl E NS F).
      * intros i d evs U NA E R F a Wa. destruct (ST i U) as (Hd & L & Id & _ & O). apply (Cl _ _ (i_memo i) a Hd L Id O NA R); [eapply LIVE; eauto|].
        destruct (RUN i d evs U E) as [_ Ed]. now rewrite Ed.
      * intros i d evs U E R a Wa. destruct (ST i U) as (Hd & L & Id & _ & O). apply (En _ _ (i_memo i) a Hd L Id O R). eapply LIVE; eauto.
      * intros d l k d' Hd L Kl Ok E N NS F a Wa. apply Ok.
        -- exact (fixed_all_back nv p scope d l k d' Hd L Kn Su Kl E N NS F).
        -- now apply (infer_within _ _ _ _ a Hd Kl E N) in Wa.
      * intros d l k d' Hd L Kl Ok E N a Wa. apply Ok. now apply (infer_within _ _ _ _ a Hd Kl E N) in Wa.
    + intros d _ _ [C|E]; [assumption|]. intros _. exact E.
Qed.

(** Such a propagator with its state, other propagators and initialisers. *)
Lemma parts_installs d (cs : list cstate) f s0 on_change on_bounds on_instantiated ps is scope (sat Q1 part Q2 : assignment -> Prop) (Own : domains -> cstate -> Prop) :
  let p := state_propagator (length cs) f on_change on_bounds on_instantiated in
  domains_ok d -> local (length d) sat -> Forall (var_below (length d)) scope ->
  incl scope (on_change ++ on_bounds ++ on_instantiated) ->
  (forall D D' s, domains_ok D' -> length D' = length D -> inside D D' -> Own D s -> Own D' s) ->
  (forall more, domains_ok (d ++ more) -> Own (d ++ more) s0) ->
  (forall nv, length d <= nv -> state_meets nv d Own (aliased p) f scope sat part) ->
  carried d scope sat ps Q1 -> established d sat is Q2 ->
  (forall a, within a d -> Q1 a -> part a -> Q2 a -> sat a) ->
  installs d cs (mk_installation [] [s0] (ps ++ [p]) (map (fun i => (0, i)) is)) scope sat sat (owned (length cs) Own).
Proof.
  intros p Hd Lo Sc Inc Mono Start Ok (pp & P1 & P2) (ip & I1 & I2) Final. constructor; cbn [in_vars in_states in_props in_inits length map]; rewrite ?app_nil_r; auto.
  - apply Forall_forall. intros x Ix. apply in_map_iff in Ix. destruct Ix as (i & <- & _). simpl. lia.
  - intros a Wa Sa. exists a. split; [apply same_below_refl|]. auto.
  - intros D D' c c' HD' L I Sw (s & E & O). exists s. split; [|eauto]. rewrite (Sw (length cs)); [assumption|]. lia.
  - intros more states Hm. exists s0. split; [|auto]. rewrite <- app_assoc. rewrite nth_error_app2 by lia. now rewrite Nat.sub_diag.
  - intros nv Inv Ln St Id Fr. exists (pp ++ [part]), ip. split; [|split].
    + apply Forall2_app; [apply P1; auto; intros D c I; now apply (Id D c)|]. constructor; [|constructor]. apply (state_supports nv d Inv (length cs) Own); auto.
      eapply Forall_impl; [|exact Sc]. intros v B. now apply (below_more (length d)).
    + rewrite map_map. cbn [snd]. rewrite map_id. apply I1; auto. intros D c I. now apply (Id D c).
    + intros a Wa F1 F2. apply Forall_app in F1. destruct F1 as [F1 F3]. apply Forall_inv in F3. apply Final; auto.
Qed.

(** ** Circuits *)

Definition one_each (succ : list var_id) (a : assignment) : Prop := pairwise succ a /\ all_nodes succ a.

Lemma handle_node succ a i : all_nodes succ a -> i < length succ -> (0 <= var_value a (handle succ i) < Z.of_nat (length succ))%Z.
Proof. intros A H. apply A. now apply nth_In. Qed.

Lemma next_bounded succ a : all_nodes succ a -> bounded (length succ) (next_node succ a).
Proof. intros A i H. pose proof (handle_node succ a i A H) as X. unfold next_node. fold (handle succ i). lia. Qed.

Lemma one_each_one_to_one succ a : one_each succ a -> one_to_one (length succ) (next_node succ a).
Proof.
  intros [P A] i j Hi Hj E. unfold next_node in E. fold (handle succ i) (handle succ j) in E. pose proof (handle_node succ a i A Hi). pose proof (handle_node succ a j A Hj).
  destruct (Nat.eq_dec i j) as [|N]; [assumption|]. destruct (P i j Hi Hj N). lia.
Qed.

Lemma circuit_tour succ a : circuit succ a <-> all_nodes succ a /\ tour (length succ) (next_node succ a).
Proof.
  split.
  - intros [A R]. split; [assumption|]. split; [now apply next_bounded|assumption].
  - intros [A [_ R]]. now split.
Qed.

Lemma circuit_one_each succ a : circuit succ a -> one_each succ a.
Proof.
  intro C. apply circuit_tour in C. destruct C as [A T]. split; [|assumption]. intros i j Hi Hj N E. apply N.
  apply (tour_one_to_one _ _ (next_bounded succ a A) T); auto. unfold next_node. fold (handle succ i) (handle succ j). now rewrite E.
Qed.

Lemma next_value succ a i x : all_nodes succ a -> i < length succ -> next_node succ a i = x <-> var_value a (handle succ i) = Z.of_nat x.
Proof. intros A H. unfold next_node. fold (handle succ i). pose proof (handle_node succ a i A H). lia. Qed.

Lemma circuit_ext succ a a' : (forall v, In v succ -> var_value a v = var_value a' v) -> circuit succ a -> circuit succ a'.
Proof.
  intros E. assert (N : forall i, i < length succ -> next_node succ a i = next_node succ a' i).
  { intros i Hi. unfold next_node. rewrite (E (nth i succ (VConst 0))); [reflexivity|]. now apply nth_In. }
  intros [A R]. assert (A' : all_nodes succ a') by (intros v I; rewrite <- E by assumption; now apply A). split; [assumption|].
  intros i j Hi Hj. destruct (R i j Hi Hj) as (k & Ek). exists k. rewrite <- Ek. clear j Hj Ek. induction k as [|k IH]; [reflexivity|].
  rewrite !iter_next, IH. symmetry. apply N. apply iter_bound; [now apply next_bounded|assumption].
Qed.

Lemma circuit_local succ n : Forall (var_below n) succ -> local n (circuit succ).
Proof.
  intros B a a' Sa. apply circuit_ext. intros v I. apply (same_below_value n); [assumption|]. rewrite Forall_forall in B. now apply B.
Qed.

(** ** Splicing *)

Definition chains_hold (succ : list var_id) (V : list nat) (c : chains) (a : assignment) : Prop :=
  chained (length succ) (next_node succ a) V (at_node (ch_orig c)) (at_node (ch_dest c)) (at_node (ch_len c)).

Definition shaped (n : nat) (V : list nat) (c : chains) : Prop :=
  NoDup V /\ (forall e, In e V -> e < n) /\ length (ch_orig c) = n /\ length (ch_dest c) = n /\ length (ch_len c) = n.

Definition linked (succ : list var_id) (D : domains) (V : list nat) (c : chains) : Prop :=
  shaped (length succ) V c /\ forall a, within a D -> one_each succ a ->
    chains_hold succ V c a /\ prevented (length succ) (next_node succ a) V (at_node (ch_orig c)) (at_node (ch_len c)).

Lemma at_set l k x e : k < length l -> at_node (set_nth l k x) e = if Nat.eq_dec e k then x else at_node l e.
Proof.
  intro H. unfold at_node. destruct (Nat.eq_dec e k) as [->|N].
  - apply nth_error_nth. now apply nth_error_set_nth.
  - revert k e H N. induction l as [|y r IH]; intros k e H N; [reflexivity|]. destruct k, e; simpl in *; try reflexivity; [congruence|]. apply IH; lia.
Qed.

Section Pass.
Variable nv : nat.
Variable succ : list var_id.
Hypothesis Bs : Forall (var_below nv) succ.
Let n := length succ.
Variable d : domains.
Hypothesis Hd : domains_ok d.
Hypothesis Ld : length d = nv.
Let sat := circuit succ.

Lemma later_inside t t' : legit nv d t -> later nv d t t' -> t_failed t' = false -> forall a, within a (t_domains t') -> within a (t_domains t).
Proof. intros G L F a Wa. destruct (L G) as [G' B]. apply B. split; [assumption|auto]. Qed.

Lemma tell_false_fails t : t_failed (tell_false t) = true.
Proof. unfold tell_false, tell. destruct (t_failed t) eqn:F; [assumption|reflexivity]. Qed.

Lemma splice_step V V' i x c t c' t' fx : honest nv d sat t -> t_failed t = false -> linked succ (t_domains t) V c -> In i V ->
  NoDup V' -> (forall e, In e V' <-> In e V /\ e <> i) -> optional_single_value (t_domains t) (handle succ i) = Some x ->
  splice succ i (Z.to_nat x) c t = (c', t', fx) ->
  honest nv d sat t' /\ later nv d t t' /\
  (t_failed t' = false -> linked succ (t_domains t') V' c' /\
     (fx = false -> forall w, var_below nv w -> ~ fixed (t_domains t) w -> ~ fixed (t_domains t') w)).
Proof.
  intros H F [(ND & BV & L1 & L2 & L3) Ch] Ii ND' EV O E. set (j := Z.to_nat x) in *.
  assert (Vi : forall a, within a (t_domains t) -> next_node succ a i = j).
  { intros a Wa. unfold next_node. fold (handle succ i). now rewrite (alive_single nv succ Bs d Hd Ld t i x (proj1 H) F O a Wa). }
  assert (IC : forall a, within a (t_domains t) -> one_each succ a -> in_chains n (next_node succ a) V (at_node (ch_orig c)) (at_node (ch_dest c)) (at_node (ch_len c))).
  { intros a Wa Ra. destruct (Ch a Wa Ra) as [[[-> _]|C] _]; [destruct Ii|exact C]. }
  assert (SAT : forall a, sat a -> one_each succ a /\ tour n (next_node succ a)).
  { intros a Sa. split; [now apply circuit_one_each|]. now apply circuit_tour in Sa. }
  assert (BV' : forall e, In e V' -> e < n) by (intros e Ie; apply EV in Ie; now apply BV).
  unfold splice in E. fold n in E. set (o := at_node (ch_orig c) i) in *. destruct (Nat.eqb_spec j o) as [Ej|Nj].
  - (* the edge closes a chain *)
    assert (Cl : forall a, within a (t_domains t) -> next_node succ a i = at_node (ch_orig c) i) by (intros a Wa; rewrite Vi by assumption; exact Ej).
    injection E as <- <- <-. destruct (Nat.ltb_spec (at_node (ch_len c) o + 1) n) as [S1|S1].
    + split; [|split].
      * apply honest_tell; auto; [exact Logic.I|]. intros _ _ _ a _ Wt Sa. exfalso. destruct (SAT a Sa) as [Ra Ta].
        apply (closes_short n _ V _ _ _ (IC a Wt Ra) i Ii (Cl a Wt) S1 Ta).
      * apply later_tell; auto. exact Logic.I.
      * rewrite tell_false_fails. discriminate.
    + split; [assumption|]. split; [apply later_refl; auto|]. intros _. split; [|auto]. split; [now repeat (split; [assumption|])|].
      intros a Wa Ra. pose proof (next_bounded succ a (proj2 Ra)) as Ba. pose proof (one_each_one_to_one succ a Ra) as Ja.
      pose proof (closes_full n _ V V' _ _ _ BV Ba Ja (IC a Wa Ra) i Ii EV (Cl a Wa) S1) as X. split; [now left|]. destruct X as [-> _]. intros e [].
  - set (e := at_node (ch_dest c) j) in *. set (nl := at_node (ch_len c) o + 1 + at_node (ch_len c) j) in *.
    set (c1 := mk_chains (set_nth (ch_orig c) e o) (set_nth (ch_dest c) o e) (set_nth (ch_len c) o nl)) in *.
    assert (C1 : forall a, within a (t_domains t) -> one_each succ a ->
        in_chains n (next_node succ a) V' (at_node (ch_orig c1)) (at_node (ch_dest c1)) (at_node (ch_len c1)) /\ In e V' /\ o < n /\
        at_node (ch_orig c1) e = o /\ at_node (ch_len c1) o = nl /\
        ((S nl < n -> next_node succ a e <> o) -> prevented n (next_node succ a) V' (at_node (ch_orig c1)) (at_node (ch_len c1)))).
    { intros a Wa Ra. pose proof (next_bounded succ a (proj2 Ra)) as Ba. pose proof (one_each_one_to_one succ a Ra) as Ja. pose proof (IC a Wa Ra) as C.
      assert (Ne : next_node succ a i <> at_node (ch_orig c) i) by (rewrite Vi by assumption; exact Nj).
      destruct (goes_to_start n _ V _ _ _ BV Ba Ja C i Ii Ne) as (e' & Ie & _ & _ & De). rewrite Vi in De by assumption. fold e in De. subst e'.
      assert (He : e < n) by now apply BV. assert (Ho : o < n) by apply (proj1 C i Ii).
      assert (E1 : forall y, at_node (ch_orig c1) y = if Nat.eq_dec y e then o else at_node (ch_orig c) y) by (intro y; apply at_set; now rewrite L1).
      assert (E2 : forall y, at_node (ch_dest c1) y = if Nat.eq_dec y o then e else at_node (ch_dest c) y) by (intro y; apply at_set; now rewrite L2).
      assert (E3 : forall y, at_node (ch_len c1) y = if Nat.eq_dec y o then nl else at_node (ch_len c) y) by (intro y; apply at_set; now rewrite L3).
      pose proof (spliced_chains n _ V V' _ _ _ BV Ba Ja C i Ii EV (at_node (ch_orig c1)) (at_node (ch_dest c1)) (at_node (ch_len c1)) Ne) as Sp.
      cbv zeta in Sp. rewrite (Vi a Wa) in Sp. destruct (Sp E1 E2 E3) as [S1 S2]. split; [exact S2|]. split; [exact S1|]. split; [assumption|].
      rewrite E1, E3. destruct (Nat.eq_dec e e) as [_|X]; [|congruence]. destruct (Nat.eq_dec o o) as [_|X]; [|congruence]. split; [reflexivity|]. split; [reflexivity|]. intro Nw.
      pose proof (spliced_prevented n _ V V' _ _ _ C i Ii EV (at_node (ch_orig c1)) (at_node (ch_dest c1)) (at_node (ch_len c1)) Ne (proj2 (Ch a Wa Ra))) as Pv.
      cbv zeta in Pv. rewrite (Vi a Wa) in Pv. exact (Pv E1 E2 E3 Nw). }
    assert (Sh : shaped n V' c1).
    { unfold shaped, c1; cbn [ch_orig ch_dest ch_len]. rewrite !set_nth_length. auto. }
    assert (Li : forall u, later nv d t u -> t_failed u = false -> (forall a, within a (t_domains u) -> one_each succ a -> e < n -> S nl < n -> next_node succ a e <> o) -> linked succ (t_domains u) V' c1).
    { intros u Lu Fu Nw. split; [assumption|]. intros a Wa Ra. pose proof (later_inside t u (proj1 H) Lu Fu a Wa) as Wt. destruct (C1 a Wt Ra) as (C & Ie & _ & _ & _ & Pv).
      split; [right; exact C|]. apply Pv. apply Nw; auto. }
    destruct (Nat.ltb_spec nl (n - 1)) as [S1|S1]; injection E as <- <- <-.
    + assert (Lt : later nv d t (tell_ne (handle succ e) (Z.of_nat o) t)) by (apply later_tell; auto; now apply handle_below).
      assert (Ht : honest nv d sat (tell_ne (handle succ e) (Z.of_nat o) t)).
      { apply honest_tell; auto; [now apply handle_below|]. intros _ _ _ a _ Wt Sa. destruct (SAT a Sa) as [Ra Ta]. destruct (C1 a Wt Ra) as (C & Ie & Ho & Eo & El & _).
        intro Ex. change (var_value a (handle succ e) = Z.of_nat o) in Ex. apply next_value in Ex; [|apply Ra|now apply BV'].
        apply (closes_short n _ V' _ _ _ C e Ie); auto; [now rewrite Eo|]. rewrite Eo, El. lia. }
      split; [assumption|]. split; [assumption|]. intro F'. split.
      { apply Li; auto. intros a Wa Ra He _. assert (Lv : live nv d (tell_ne (handle succ e) (Z.of_nat o) t) a) by (split; [apply Ht|auto]).
        apply (tell_back nv d Hd Ld) in Lv; [|now apply handle_below|apply H]. destruct Lv as [_ Nx]. intro X. apply Nx. change (var_value a (handle succ e) = Z.of_nat o). apply next_value; auto. apply Ra. }
      intros Sv w Bw Nf Fw.
      assert (Fe : fixed (t_domains (tell_ne (handle succ e) (Z.of_nat o) t)) (handle succ e)).
      { apply (tell_ne_fixes nv succ d Hd Ld (handle succ e) (Z.of_nat o) w t); auto; [now apply handle_below|apply H]. }
      apply (alive_fixed nv succ Bs d Hd Ld) in Fe; [|apply Ht|assumption]. destruct Fe as (y & Ey). unfold single_valued in Sv. rewrite Ey in Sv. discriminate.
    + assert (Lt : later nv d t (tell_eq (handle succ e) (Z.of_nat o) t)) by (apply later_tell; auto; now apply handle_below).
      split; [|split; [assumption|]].
      * apply honest_tell; auto; [now apply handle_below|]. intros _ _ _ a _ Wt Sa. destruct (SAT a Sa) as [Ra Ta]. destruct (C1 a Wt Ra) as (C & Ie & Ho & Eo & El & _).
        change (var_value a (handle succ e) = Z.of_nat o). apply next_value; [apply Ra|now apply BV'|].
        pose proof (fun k => end_new n _ V' _ _ _ C e k Ie) as Nw. rewrite Eo, El in Nw.
        pose proof (path_closes n _ (next_bounded succ a (proj2 Ra)) (one_each_one_to_one succ a Ra) o nl Ho Nw ltac:(lia)) as P.
        destruct (proj1 C e Ie) as (_ & _ & Ee & _). rewrite Eo, El in Ee. now rewrite Ee in P.
      * intro F'. split; [|discriminate]. apply Li; auto. lia.
Qed.

(** Nothing in [U] is fixed, unless the flag is set. *)
Definition calm (U : list nat) (fx : bool) (t : tracker) : Prop := fx = false -> forall i, In i U -> ~ fixed (t_domains t) (handle succ i).

Lemma swap_out (kept r : list nat) i e : NoDup (rev kept ++ i :: r) -> In e (rev kept ++ swap_pop r) <-> In e (rev kept ++ i :: r) /\ e <> i.
Proof.
  intro ND. pose proof (NoDup_remove _ _ _ ND) as [_ N]. rewrite !in_app_iff in *. cbn [In]. assert (P : In e (swap_pop r) <-> In e r).
  { split; apply Permutation_in; [|apply Permutation_sym]; apply swap_pop_perm. }
  rewrite P. split; [intros [I|I]; (split; [tauto|intros ->; tauto])|intros [[I|[I|I]] X]; [tauto|congruence|tauto]].
Qed.

Lemma splice_pass_spec U fuel : forall kept rest c t fx pr s, length rest <= fuel -> honest nv d sat t ->
  (t_failed t = false -> linked succ (t_domains t) (rev kept ++ rest) c /\ calm U fx t) ->
  splice_pass fuel succ kept rest c t fx pr = s ->
  honest nv d sat (sp_tracker s) /\ later nv d t (sp_tracker s) /\
  (t_failed (sp_tracker s) = false -> linked succ (t_domains (sp_tracker s)) (sp_nodes s) (sp_chains s) /\ calm U (sp_fixed s) (sp_tracker s)) /\
  length (sp_nodes s) <= length kept + length rest /\
  (sp_progress s = true -> pr = true \/ length (sp_nodes s) < length kept + length rest) /\
  (sp_fixed s = true -> fx = true \/ length (sp_nodes s) < length kept + length rest) /\
  (t_failed (sp_tracker s) = false -> sp_progress s = false -> forall i, In i (sp_nodes s) -> In i kept \/ ~ fixed (t_domains t) (handle succ i)) /\
  (sp_progress s = false -> sp_tracker s = t).
Proof.
  assert (Done : forall kept c t fx pr, honest nv d sat t -> (t_failed t = false -> linked succ (t_domains t) (rev kept ++ []) c /\ calm U fx t) ->
     honest nv d sat t /\ later nv d t t /\ (t_failed t = false -> linked succ (t_domains t) (rev kept ++ []) c /\ calm U fx t) /\
     length (rev kept ++ []) <= length kept + 0 /\ (pr = true -> pr = true \/ length (rev kept ++ []) < length kept + 0) /\
     (fx = true -> fx = true \/ length (rev kept ++ []) < length kept + 0) /\
     (t_failed t = false -> pr = false -> forall i, In i (rev kept ++ []) -> In i kept \/ ~ fixed (t_domains t) (handle succ i)) /\ (pr = false -> t = t)).
  { intros kept c t fx pr H L. split; [assumption|]. split; [apply later_refl; auto|]. split; [assumption|]. rewrite app_nil_r, rev_length.
    split; [lia|]. split; [auto|]. split; [auto|]. split; [|auto]. intros _ _ i I. left. now apply in_rev. }
  induction fuel as [|fuel IH]; intros kept rest c t fx pr s Le H L E.
  - destruct rest; [|simpl in Le; lia]. simpl in E. subst s. cbn [sp_nodes sp_chains sp_tracker sp_fixed sp_progress length]. now apply Done.
  - destruct rest as [|i r]; cbn [splice_pass] in E.
    { subst s. cbn [sp_nodes sp_chains sp_tracker sp_fixed sp_progress length]. now apply Done. }
    simpl in Le. destruct (t_failed t) eqn:F.
    { subst s. cbn [sp_nodes sp_chains sp_tracker sp_fixed sp_progress]. split; [assumption|]. split; [apply later_refl; auto|]. split; [congruence|].
      rewrite app_length, rev_length. split; [lia|]. split; [auto|]. split; [auto|]. split; [congruence|auto]. }
    destruct (L eq_refl) as [Li Ca]. destruct (optional_single_value (t_domains t) (handle succ i)) as [x|] eqn:O.
    + destruct (splice succ i (Z.to_nat x) c t) as [[c' t'] f] eqn:Sp. pose proof Li as [(ND & _) _].
      assert (NDs : NoDup (rev kept ++ swap_pop r)).
      { apply (Permutation_NoDup (l := rev kept ++ r)); [apply Permutation_app_head, Permutation_sym, swap_pop_perm|]. now apply NoDup_remove in ND. }
      destruct (splice_step (rev kept ++ i :: r) (rev kept ++ swap_pop r) i x c t c' t' f H F Li) as (H' & Lt & Nx); auto.
      { rewrite in_app_iff. right. now left. }
      { intro e. now apply swap_out. }
      destruct (IH kept (swap_pop r) c' t' (fx || f) true s) as (R1 & R2 & R3 & R4 & R5 & R6 & R7 & R8); auto; [rewrite swap_pop_length; lia| |].
      { intro F'. destruct (Nx F') as [Li' Nf]. split; [assumption|]. intros Ef k Ik. apply orb_false_iff in Ef. destruct Ef as [Ef1 Ef2]. apply (Nf Ef2); [now apply handle_below|]. now apply Ca. }
      rewrite swap_pop_length in *. split; [assumption|]. split; [eapply later_trans; eauto|]. split; [assumption|]. cbn [length]. split; [lia|].
      assert (X : length (sp_nodes s) < length kept + S (length r)) by lia. split; [auto|]. split; [auto|].
      split; intros; exfalso; assert (Y : sp_progress s = true); [|congruence| |congruence]; subst s.
      * clear. generalize (fx || f). generalize t'. generalize c'. generalize kept. generalize (swap_pop r). induction fuel as [|q IHq]; intros l0 l1 c0 u b; [reflexivity|]. destruct l0; cbn [splice_pass]; [reflexivity|].
        destruct (t_failed u); [reflexivity|]. destruct (optional_single_value _ _); [|apply IHq]. destruct (splice _ _ _ _ _) as [[? ?] ?]. apply IHq.
      * clear. generalize (fx || f). generalize t'. generalize c'. generalize kept. generalize (swap_pop r). induction fuel as [|q IHq]; intros l0 l1 c0 u b; [reflexivity|]. destruct l0; cbn [splice_pass]; [reflexivity|].
        destruct (t_failed u); [reflexivity|]. destruct (optional_single_value _ _); [|apply IHq]. destruct (splice _ _ _ _ _) as [[? ?] ?]. apply IHq.
    + destruct (IH (i :: kept) r c t fx pr s) as (R1 & R2 & R3 & R4 & R5 & R6 & R7 & R8); auto; [lia| |].
      { intros _. cbn [rev]. rewrite <- app_assoc. now split. }
      cbn [length] in *. split; [assumption|]. split; [assumption|]. split; [assumption|]. split; [lia|].
      split; [intro P; destruct (R5 P); [now left|right; lia]|]. split; [intro P; destruct (R6 P); [now left|right; lia]|].
      split; [|assumption]. intros F' P k Ik. destruct (R7 F' P k Ik) as [[<-|Ik']|Nk]; auto. right. intro Fx. apply (alive_fixed nv succ Bs d Hd Ld) in Fx; [|apply H|assumption]. destruct Fx as (y & Ey). congruence.
Qed.

Lemma splice_all_spec U fuel : forall V c t fx V' c' t' fx', length V < fuel -> honest nv d sat t ->
  (t_failed t = false -> linked succ (t_domains t) V c /\ calm U fx t) ->
  splice_all fuel succ V c t fx = (V', c', t', fx') ->
  honest nv d sat t' /\ later nv d t t' /\ length V' <= length V /\ (fx' = true -> fx = true \/ length V' < length V) /\
  (t_failed t' = false -> linked succ (t_domains t') V' c' /\ calm U fx' t' /\ forall i, In i V' -> ~ fixed (t_domains t') (handle succ i)).
Proof.
  induction fuel as [|fuel IH]; intros V c t fx V' c' t' fx' Le H L E; [lia|]. cbn [splice_all] in E.
  set (s := splice_pass (length V) succ [] V c t fx false) in *.
  destruct (splice_pass_spec U (length V) [] V c t fx false s (le_n _) H L eq_refl) as (R1 & R2 & R3 & R4 & R5 & R6 & R7 & R8). cbn [length Nat.add] in *.
  destruct (t_failed (sp_tracker s)) eqn:F; cbn [negb andb] in E.
  - injection E as <- <- <- <-. split; [assumption|]. split; [assumption|]. split; [assumption|]. split; [assumption|]. congruence.
  - destruct (sp_progress s) eqn:P.
    + destruct (R5 eq_refl) as [X|Sm]; [discriminate|]. apply IH in E; [|lia|assumption|rewrite F; assumption]. destruct E as (Q1 & Q2 & Q3 & Q4 & Q5). split; [assumption|]. split; [eapply later_trans; eauto|]. split; [lia|]. split; [|assumption].
      intros ->. right. lia.
    + injection E as <- <- <- <-. split; [assumption|]. split; [assumption|]. split; [assumption|]. split; [assumption|]. intros _. destruct (R3 eq_refl) as [Li Ca]. split; [assumption|]. split; [assumption|].
      intros i Ii. rewrite (R8 eq_refl). destruct (R7 eq_refl eq_refl i Ii) as [[]|N]; exact N.
Qed.

(** What is true between runs of the alternation. *)
Definition in_hand (D : domains) (U V : list nat) (c : chains) : Prop :=
  NoDup U /\ Forall (fun i => i < n) U /\ (forall i, i < n -> ~ In i U -> covered succ D i) /\ linked succ D V c.

Lemma alternate_spec fuel : forall U V c t U' V' c' t', length V < fuel -> honest nv d sat t -> t_failed t = false -> in_hand (t_domains t) U V c ->
  alternate fuel succ U V c t = (U', V', c', t') ->
  honest nv d sat t' /\
  (t_failed t' = false -> in_hand (t_domains t') U' V' c' /\ (forall i, In i U' -> ~ fixed (t_domains t') (handle succ i)) /\ forall i, In i V' -> ~ fixed (t_domains t') (handle succ i)).
Proof.
  induction fuel as [|fuel IH]; intros U V c t U' V' c' t' Le H F (ND & Bu & Co & Li) E; [lia|]. cbn [alternate] in E.
  destruct (continue_different succ U t) as [U1 t1] eqn:Cd.
  assert (Sp : forall a, sat a -> pairwise succ a) by (intros a Sa; now apply circuit_one_each).
  destruct (continue_spec nv succ Bs d Hd Ld sat Sp True U U1 t t1 H F ND Bu (fun _ => Co) Cd) as ([H1 Fi] & Nf).
  pose proof (continue_later nv succ Bs d Hd Ld U t U1 t1 (proj1 H) Cd) as Lt1.
  destruct (t_failed t1) eqn:F1.
  { injection E as <- <- <- <-. split; [assumption|]. congruence. }
  destruct (Fi eq_refl) as (ND1 & Bu1 & Co1). specialize (Nf eq_refl). specialize (Co1 Logic.I).
  assert (Li1 : linked succ (t_domains t1) V c).
  { destruct Li as [Sh Ch]. split; [assumption|]. intros a Wa. apply Ch. now apply (later_inside t t1 (proj1 H) Lt1 F1). }
  destruct (splice_all (S (length V)) succ V c t1 false) as [[[V2 c2] t2] fx] eqn:Sa.
  destruct (splice_all_spec U1 (S (length V)) V c t1 false V2 c2 t2 fx) as (H2 & Lt2 & Le2 & Sm & Q); auto.
  { intros _. split; [assumption|]. intros _. exact Nf. }
  destruct (t_failed t2) eqn:F2; cbn [negb andb] in E.
  { injection E as <- <- <- <-. split; [assumption|]. congruence. }
  destruct (Q eq_refl) as (Li2 & Ca2 & Nv).
  assert (Ih : in_hand (t_domains t2) U1 V2 c2).
  { split; [assumption|]. split; [assumption|]. split; [|assumption]. intros i Hi Ni. apply (covered_inside succ (t_domains t1)); [|now apply Co1].
    intros a. now apply (later_inside t1 t2 (proj1 H1) Lt2 F2). }
  destruct fx.
  - destruct (Sm eq_refl) as [X|Sm']; [discriminate|]. apply IH in E; auto. lia.
  - injection E as <- <- <- <-. split; [assumption|]. intros _. split; [assumption|]. split; [|assumption]. now apply Ca2.
Qed.
End Pass.

(** ** The propagation function *)

Definition prevent_own (succ : list var_id) (D : domains) (s : cstate) : Prop := exists U V c, s = pack U V c /\ in_hand succ D U V c.

Lemma unpack_pack n U V c : length (ch_orig c) = n -> length (ch_dest c) = n -> length (ch_len c) = n -> unpack n (pack U V c) = (U, V, c).
Proof.
  intros L1 L2 L3. unfold unpack, pack. rewrite to_of_nat. destruct c as [o e l]; cbn [ch_orig ch_dest ch_len] in *.
  assert (K : forall (x y : list nat), length x = n -> firstn n (x ++ y) = x /\ skipn n (x ++ y) = y).
  { intros x y <-. split; [rewrite firstn_app, Nat.sub_diag, firstn_all; apply app_nil_r|rewrite skipn_app, Nat.sub_diag, skipn_all; reflexivity]. }
  destruct (K o (e ++ l ++ length V :: V ++ U) L1) as [-> ->]. destruct (K e (l ++ length V :: V ++ U) L2) as [-> ->]. destruct (K l (length V :: V ++ U) L3) as [-> ->].
  cbn [nth skipn]. rewrite firstn_app, Nat.sub_diag, firstn_all, firstn_O, app_nil_r, skipn_app, Nat.sub_diag, skipn_all. reflexivity.
Qed.

Lemma in_hand_inside succ D D' U V c : inside D D' -> in_hand succ D U V c -> in_hand succ D' U V c.
Proof.
  intros I (H1 & H2 & H3 & H4 & H5). split; [assumption|]. split; [assumption|]. split; [intros i Hi Ni; eapply covered_inside; eauto|]. split; [assumption|]. intros a Wa. apply H5. now apply I.
Qed.

Lemma initial_in_hand succ D : in_hand succ D (seq 0 (length succ)) (seq 0 (length succ)) (initial_chains (length succ)).
Proof.
  set (n := length succ). split; [apply seq_NoDup|]. split; [apply Forall_forall; intros i I; apply in_seq in I; fold n; lia|]. split.
  { intros i Hi N. destruct N. apply in_seq. fold n in Hi. lia. }
  assert (Sq : forall e, e < n -> at_node (seq 0 n) e = e) by (intros e He; unfold at_node; now rewrite seq_nth).
  assert (Z0 : forall e, at_node (repeat 0 n) e = 0) by (intro e; unfold at_node; apply nth_repeat). split.
  - unfold shaped, initial_chains; cbn [ch_orig ch_dest ch_len]. rewrite seq_length, repeat_length. split; [apply seq_NoDup|]. split; [|auto]. intros e I. apply in_seq in I. fold n. lia.
  - intros a _ _. fold n. unfold chains_hold, initial_chains; cbn [ch_orig ch_dest ch_len]. fold n. split.
    + right. split.
      * intros e I. apply in_seq in I. cbv zeta. rewrite Sq, Z0 by lia. split; [lia|]. split; [apply Sq; lia|]. split; [reflexivity|]. intros k Hk. lia.
      * intros v Hv. exists v, 0. split; [apply in_seq; lia|]. rewrite Sq by assumption. split; [lia|reflexivity].
    + intros e I. apply in_seq in I. rewrite Sq by lia. congruence.
Qed.

Lemma prevent_run nv succ d s m : Forall (var_below nv) succ -> domains_ok d -> length d = nv -> prevent_own succ d s ->
  exists U V c t, prevent_body succ d s m = mk_effect t (pack U V c) m (if t_failed t then Enable else EnableButIdempotent) /\
    honest nv d (circuit succ) t /\
    (t_failed t = false -> in_hand succ (t_domains t) U V c /\ (forall i, In i U -> ~ fixed (t_domains t) (handle succ i)) /\ forall i, In i V -> ~ fixed (t_domains t) (handle succ i)).
Proof.
  intros Bs Hd Ld (U0 & V0 & c0 & -> & Ih). pose proof Ih as (_ & _ & _ & (_ & _ & L1 & L2 & L3) & _). unfold prevent_body. rewrite (unpack_pack (length succ)) by assumption.
  destruct (alternate (S (length V0)) succ U0 V0 c0 (track d)) as [[[U V] c] t] eqn:A. exists U, V, c, t. split; [reflexivity|].
  apply (alternate_spec nv succ Bs d Hd Ld (S (length V0)) U0 V0 c0 (track d)); auto. apply honest_track.
Qed.

Lemma all_fixed_circuit succ D U V c a : in_hand succ D U V c -> (forall i, In i U -> ~ fixed D (handle succ i)) -> (forall i, In i V -> ~ fixed D (handle succ i)) ->
  Forall (fixed D) succ -> within a D -> all_nodes succ a -> circuit succ a.
Proof.
  intros (_ & Bu & Co & (_ & BV & _) & Ch) NU NV Fx Wa A. rewrite Forall_forall in Fx, Bu.
  assert (Fi : forall i, i < length succ -> fixed D (handle succ i)) by (intros i Hi; apply Fx; now apply nth_In).
  assert (P : pairwise succ a).
  { intros i j Hi Hj N. apply (Co j); auto. intro I. apply (NU j I). now apply Fi. }
  assert (Ve : V = []). { destruct V as [|e r]; [reflexivity|]. destruct (NV e); [now left|]. apply Fi. apply BV. now left. }
  apply circuit_tour. split; [assumption|]. destruct (Ch a Wa (conj P A)) as [[[_ T]|[_ Cv]] _]; [exact T|]. subst V. split; [now apply next_bounded|].
  intros i j Hi _. destruct (Cv i Hi) as (e & k & [] & _).
Qed.

Lemma prevent_meets nv d0 alias succ : Forall (var_below nv) succ ->
  state_meets nv d0 (prevent_own succ) alias (prevent_body succ) succ (circuit succ) (fun a => all_nodes succ a -> circuit succ a).
Proof.
  intro Bs. constructor.
  - intros d s m Hd Ld _ O. destruct (prevent_run nv succ d s m Bs Hd Ld O) as (U & V & c & t & -> & H & _). exact H.
  - intros d s m Hd Ld _ O. destruct (prevent_run nv succ d s m Bs Hd Ld O) as (U & V & c & t & -> & H & Q). cbn [e_tracker e_state]. intro F. exists U, V, c. split; [reflexivity|]. now apply Q.
  - intros d s m a Hd Ld _ O Fx. destruct (prevent_run nv succ d s m Bs Hd Ld O) as (U & V & c & t & -> & H & Q). cbn [e_tracker]. intros Lv A. destruct (Q (proj1 (proj2 Lv))) as (Ih & NU & NV).
    apply (all_fixed_circuit succ (t_domains t) U V c a Ih NU NV); [|apply Lv|assumption]. eapply Forall_impl; [|exact Fx]. intros v. apply (live_fixed nv d Hd Ld t a v Lv).
  - intros d s m a Hd Ld _ O _ _. destruct (prevent_run nv succ d s m Bs Hd Ld O) as (U & V & c & t & -> & H & Q). cbn [e_tracker]. intros Lv Fx A. destruct (Q (proj1 (proj2 Lv))) as (Ih & NU & NV).
    now apply (all_fixed_circuit succ (t_domains t) U V c a Ih NU NV); [|apply Lv|].
  - intros d s m a Hd Ld _ O R. destruct (prevent_run nv succ d s m Bs Hd Ld O) as (U & V & c & t & E & _). rewrite E in R. cbn [e_result] in R. destruct (t_failed t); discriminate.
Qed.

(** ** Posting *)

Lemma self_loops_carried d0 succ : Forall (var_known d0) succ -> carried d0 succ (circuit succ) (self_loop_propagators succ) (fun _ => True).
Proof.
  intro K. unfold self_loop_propagators. destruct (Nat.ltb_spec 1 (length succ)) as [L|L]; [|apply carried_nil].
  apply (carried_body d0 succ [] (circuit succ) (fun _ => True)); [assumption|intros v []|intros v []|]. intros nv Ln. constructor; auto.
  intros d Hd Ld Id. unfold no_self_loops. cbn [fst]. apply honest_for_each; auto; [|apply honest_track]. intros [i v] t I H. pose proof I as Iv. apply in_combine_r in Iv. apply combine_seq_nth in I.
  assert (Bv : var_below nv v) by (apply (known_below_more d0); [assumption|]; now apply (proj1 (Forall_forall _ _) K)).
  apply honest_tell; auto. intros _ _ _ a _ _ Sa Ex. change (var_value a v = Z.of_nat i) in Ex. apply circuit_tour in Sa. destruct Sa as [A T].
  assert (Hi : i < length succ) by (apply nth_error_Some; congruence). apply nth_error_nth with (d := VConst 0%Z) in I.
  assert (S1 : next_node succ a i = i) by (apply next_value; auto; unfold handle; now rewrite I).
  pose proof (no_short_cycle _ _ 1 i T Hi (le_n _) S1). lia.
Qed.

Lemma node_bounds_established d0 succ : domains_ok d0 -> Forall (var_known d0) succ -> established d0 (circuit succ) (node_bounds succ d0) (all_nodes succ).
Proof.
  intros Hd K. rewrite Forall_forall in K.
  apply (established_ext _ _ _ (fun a => (forall v, In v succ -> (0 <= var_value a v)%Z) /\ forall v, In v succ -> (var_value a v <= Z.of_nat (length succ) - 1)%Z)).
  - intros a _ [A B] v I. specialize (A v I). specialize (B v I). lia.
  - apply established_app; apply established_flat_map.
    + intros v I. apply established_lower; auto. intros a _ [A _]. now apply A.
    + intros v I. apply established_upper; auto. intros a _ [A _]. specialize (A v I). lia.
Qed.

Lemma circuit_prevent_refused succ a : circuit_prevent succ = None -> ~ circuit succ a.
Proof.
  unfold circuit_prevent. destruct (repeats_variable succ) eqn:R; [|discriminate]. intros _ C. apply circuit_one_each in C. destruct C as [P _].
  destruct (repeats_means succ R) as (i & k & v & N & A & B). pose proof (nth_error_nth _ _ (VConst 0%Z) A) as A'. pose proof (nth_error_nth _ _ (VConst 0%Z) B) as B'.
  apply (P i k); auto; [apply nth_error_Some; congruence|apply nth_error_Some; congruence|]. unfold handle. now rewrite A', B'.
Qed.

Lemma circuit_prevent_means d0 succ k : Forall (var_known d0) succ -> circuit_prevent succ = Some k -> means d0 k succ (circuit succ).
Proof.
  intros K E. unfold circuit_prevent in E. destruct (repeats_variable succ); [discriminate|]. injection E as <-.
  assert (B : Forall (var_below (length d0)) succ) by now apply known_below_all. split; [assumption|]. split; [now apply circuit_local|]. intros hidden cs Hd.
  assert (Bd : Forall (var_below (length (d0 ++ hidden))) succ).
  { eapply Forall_impl; [|exact B]. intros v. apply below_more. unfold domains, iset in *. rewrite app_length. lia. }
  assert (Kd : Forall (var_known (d0 ++ hidden)) succ) by now apply known_below_all.
  exists (circuit succ), (owned (length cs) (prevent_own succ)).
  apply (parts_installs (d0 ++ hidden) cs _ _ [] [] succ _ _ succ (circuit succ) (fun _ => True) (fun a => all_nodes succ a -> circuit succ a) (all_nodes succ)); auto.
  - now apply circuit_local.
  - apply incl_refl.
  - intros D D' s _ _ I (U & V & c & -> & Ih). exists U, V, c. split; [reflexivity|]. now apply (in_hand_inside succ D).
  - intros more _. eexists _, _, _. split; [reflexivity|]. apply initial_in_hand.
  - intros nv Ln. apply prevent_meets. eapply Forall_impl; [|exact Bd]. intros v. now apply below_more.
  - now apply self_loops_carried.
  - now apply node_bounds_established.
Qed.

(** ** Consistency *)

Lemma lives_in_hand succ d0 s0 h : domains_ok d0 -> Forall (var_known d0) succ -> s0 = pack (seq 0 (length succ)) (seq 0 (length succ)) (initial_chains (length succ)) ->
  forall D s, lives (state_propagator h (prevent_body succ) [] [] succ) h d0 s0 D s -> domains_ok D /\ length D = length d0 /\ prevent_own succ D s.
Proof.
  intros Hd K -> D s L. assert (B : Forall (var_below (length d0)) succ) by now apply known_below_all.
  induction L as [|D D' s L IH HD' Le I|i D' evs s L IH E A].
  - split; [assumption|]. split; [reflexivity|]. eexists _, _, _. split; [reflexivity|]. apply initial_in_hand.
  - destruct IH as (H1 & H2 & U & V & c & -> & Ih). split; [assumption|]. split; [now transitivity (length D)|]. exists U, V, c. split; [reflexivity|]. now apply (in_hand_inside succ D).
  - destruct IH as (H1 & H2 & O). cbn [state_propagator p_run state_run o_infer o_cstates] in *. rewrite (nth_error_nth _ _ _ E) in *.
    assert (Hh : h < length (i_cstates i)) by (apply nth_error_Some; congruence).
    rewrite (nth_error_nth _ _ _ (nth_error_set_nth (i_cstates i) h (e_state (prevent_body succ (i_domains i) s (i_memo i))) Hh)).
    destruct (prevent_run (length d0) succ (i_domains i) s (i_memo i) B H1 H2 O) as (U & V & c & t & Et & [G _] & Q). rewrite Et in *. cbn [e_tracker e_state] in *.
    destruct (lg_apply _ _ _ G) as (ev & A'). rewrite A' in A. injection A as A1 _ A2. subst D'.
    split; [now apply (legit_ok (length d0) (i_domains i))|]. split; [now apply (legit_length (length d0) (i_domains i))|]. exists U, V, c. split; [reflexivity|]. now apply Q.
Qed.

Lemma circuit_prevents d0 cs succ k : domains_ok d0 -> Forall (var_known d0) succ -> circuit_prevent succ = Some k ->
  exists ps p s0, in_props (k d0 cs) = ps ++ [p] /\ in_states (k d0 cs) = [s0] /\
  forall i s D evs, lives p (length cs) d0 s0 (i_domains i) s -> nth_error (i_cstates i) (length cs) = Some s ->
    apply_lits (i_domains i) (o_infer (p_run p i)) = (D, evs, false) ->
    no_clash_with_fixed D succ /\
    forall a, within a D -> NoDup (map (var_value a) succ) -> all_nodes succ a -> no_nearly_fixed_cycle D succ a.
Proof.
  intros Hd K E. unfold circuit_prevent in E. destruct (repeats_variable succ); [discriminate|]. injection E as <-. cbn [in_props in_states].
  eexists _, _, _. split; [reflexivity|]. split; [reflexivity|]. intros i s D evs L En A.
  assert (B : Forall (var_below (length d0)) succ) by now apply known_below_all.
  destruct (lives_in_hand succ d0 _ _ Hd K eq_refl _ _ L) as (H1 & H2 & O).
  cbn [state_propagator p_run state_run o_infer] in A. rewrite (nth_error_nth _ _ _ En) in A.
  destruct (prevent_run (length d0) succ (i_domains i) s (i_memo i) B H1 H2 O) as (U & V & c & t & Et & [G _] & Q). rewrite Et in A. cbn [e_tracker] in A.
  destruct (lg_apply _ _ _ G) as (ev & A'). rewrite A' in A. injection A as <- _ F. destruct (Q F) as ((_ & _ & Co & (_ & BV & _) & Ch) & NU & NV). split.
  - apply positions_no_clash. intros j Hj Fx. apply Co; [assumption|]. intro I. now apply (NU j).
  - intros a Wa ND An r p Hr P0 Pn Ec Ns. apply pairwise_NoDup in ND. pose proof (conj ND An) as Ra. pose proof (next_bounded succ a An) as Ba. pose proof (one_each_one_to_one succ a Ra) as Ja.
    destruct (Ch a Wa Ra) as [[[_ T]|C] Pv]; [pose proof (no_short_cycle _ _ p r T Hr P0 Ec); lia|].
    destruct (two_ends _ _ V _ _ _ BV Ba Ja C r p Pv Hr P0 Pn Ec Ns) as (x & y & N & Ix & Iy).
    exists x, y. split; [assumption|]. split; [exact (NV _ Ix)|exact (NV _ Iy)].
Qed.

(** ** Circuits as lists *)

Lemma circuit_order succ a : circuit succ a <-> all_nodes succ a /\ exists order, goes_round succ a order.
Proof.
  rewrite circuit_tour. set (n := length succ). set (f := next_node succ a). split.
  - intros [A T]. split; [assumption|]. pose proof (next_bounded succ a A) as Ba. fold n f in Ba. pose proof (tour_one_to_one n f Ba T) as J.
    destruct n as [|m] eqn:En.
    { exists []. split; [fold n; rewrite En; constructor|]. fold n. rewrite En. lia. }
    assert (N : forall k, k < m -> Nat.iter k f 0 <> Nat.iter m f 0).
    { intros k Hk E. replace m with ((m - k) + k) in E by lia. rewrite iter_add in E. apply (iter_back (S m) f Ba J) in E; [|lia|apply iter_bound; [assumption|lia]].
      assert (S m <= m - k) by (apply (no_short_cycle (S m) f (m - k) 0); auto; lia). lia. }
    exists (map (fun k => Nat.iter k f 0) (seq 0 (S m))). unfold goes_round. fold n f. rewrite En. split.
    + apply NoDup_Permutation; [apply (path_distinct (S m) f Ba J 0 m); [lia|assumption]|apply seq_NoDup|]. intro x. rewrite in_map_iff. split.
      * intros (k & <- & _). apply in_seq. assert (Nat.iter k f 0 < S m) by (apply iter_bound; [assumption|lia]). lia.
      * intro I. apply in_seq in I. destruct (path_covers (S m) f Ba J 0 m) with (v := x) as (k & Lk & Ek); auto; try lia. exists k. split; [assumption|]. apply in_seq. lia.
    + intros k Hk. assert (At : forall x, x < S m -> nth x (map (fun k => Nat.iter k f 0) (seq 0 (S m))) 0 = Nat.iter x f 0).
      { intros x Hx. transitivity (nth x (map (fun k => Nat.iter k f 0) (seq 0 (S m))) (Nat.iter 0 f 0)); [reflexivity|]. rewrite (map_nth (fun k => Nat.iter k f 0)), seq_nth by assumption. reflexivity. }
      rewrite !At; [|apply Nat.mod_upper_bound; lia|assumption]. rewrite <- iter_next. destruct (Nat.eq_dec k m) as [->|Nk].
      * rewrite Nat.mod_same by lia. apply (path_closes (S m) f Ba J 0 m); [lia|assumption|lia].
      * rewrite Nat.mod_small by lia. reflexivity.
  - intros [A (order & P & G)]. split; [assumption|]. split; [now apply next_bounded|]. fold n f in P, G.
    assert (Lo : length order = n) by (apply Permutation_length in P; now rewrite seq_length in P).
    assert (It : forall k x, x < n -> Nat.iter k f (nth x order 0) = nth ((x + k) mod n) order 0).
    { induction k as [|k IH]; intros x Hx; [rewrite Nat.add_0_r, Nat.mod_small by assumption; reflexivity|]. rewrite iter_next, IH by assumption. unfold f. rewrite G by (apply Nat.mod_upper_bound; lia).
      f_equal. replace (x + S k) with (S (x + k)) by lia. rewrite <- (Nat.add_1_r ((x + k) mod n)), Nat.add_mod_idemp_l by lia. f_equal. lia. }
    assert (At : forall i, i < n -> exists x, x < n /\ nth x order 0 = i).
    { intros i Hi. assert (I : In i order) by (apply (Permutation_in _ (Permutation_sym P)); apply in_seq; lia). apply (In_nth _ _ 0) in I. destruct I as (x & Hx & E). exists x. split; [lia|assumption]. }
    intros i j Hi Hj. destruct (At i Hi) as (x & Hx & <-). destruct (At j Hj) as (y & Hy & <-). exists (y + n - x). rewrite It by assumption. f_equal.
    replace (x + (y + n - x)) with (y + 1 * n) by lia. rewrite Nat.mod_add by lia. now apply Nat.mod_small.
Qed.
