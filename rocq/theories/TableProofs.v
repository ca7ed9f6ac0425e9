(** Lemmas about tables. *)
From Coq Require Import ZArith List Bool Arith Lia.
From Verif Require Import IntervalSet IntervalSetSpec IntervalSetProofs Vars VarsSpec VarsProofs State StateSpec StateProofs Epochs
  Engine EngineSpec EngineProofs EngineQueueProofs SessionSpec SessionInvProofs Tracker ContractSpec ContractProofs RunProofs ChoiceProofs ConsistencySpec
  Solve SolveSpec SolveProofs NegativeTable TableSpec Table.
Import ListNotations.
Local Open Scope Z_scope.

(** ** Residues make no difference *)

Lemma remembered_supported d sel tuples idx row x : domains_ok d -> var_known d sel -> remembered d sel tuples idx row x = true -> supported d sel tuples idx x = true.
Proof.
  intros Hd K R. unfold remembered in R. destruct (offset row x) as [o|]; [|discriminate]. destruct (nth o (snd row) None) as [k|]; [|discriminate].
  apply andb_true_iff in R. destruct R as [I M]. unfold supported, find_support. apply in_domain_spec in I; [|assumption|assumption]. apply each_value_In in I.
  destruct (find _ (each_value d sel)) eqn:F; [reflexivity|]. exfalso. apply (find_none _ _ F) in I. simpl in I. congruence.
Qed.

Section Residues.
Variable nv : nat.
Variable d : domains.
Hypothesis Hd : domains_ok d.
Hypothesis Ld : length d = nv.
Variable sel : var_id.
Hypothesis Bsel : var_below nv sel.
Variable tuples : list tuple.

Definition support_value (idx : nat) (v : var_id) (x : Z) (u : tracker) : tracker :=
  if supported (t_domains u) sel tuples idx x then u else tell_ne v x u.

Lemma check_value_same idx v u row x : legit nv d u -> fst (check_value sel tuples idx v (u, row) x) = support_value idx v x u.
Proof.
  intro G. unfold check_value, support_value. destruct (remembered (t_domains u) sel tuples idx row x) eqn:R.
  - destruct (t_failed u) eqn:F.
    + cbn [fst]. destruct (supported _ _ _ _ _); [reflexivity|]. unfold tell_ne, tell. now rewrite F.
    + apply remembered_supported in R; [now rewrite R|now apply (legit_ok nv d)|apply (var_below_known nv); [now apply (legit_length nv d)|assumption]].
  - unfold supported. destruct (find_support _ _ _ _ _); reflexivity.
Qed.

Lemma support_value_legit idx v x u : var_below nv v -> legit nv d u -> legit nv d (support_value idx v x u).
Proof. intros B G. unfold support_value. destruct (supported _ _ _ _ _); [assumption|]. now apply legit_tell. Qed.

Lemma check_values_same idx v xs : var_below nv v -> forall u row, legit nv d u ->
  fst (fold_left (check_value sel tuples idx v) xs (u, row)) = for_each xs (support_value idx v) u.
Proof.
  intro B. unfold for_each. induction xs as [|x r IH]; intros u row G; cbn [fold_left]; [reflexivity|].
  pose proof (check_value_same idx v u row x G) as E. destruct (check_value sel tuples idx v (u, row) x) as [u' row']. cbn [fst] in E. subst u'.
  apply IH. now apply support_value_legit.
Qed.

Lemma drop_unsupported_as idx v t : drop_unsupported sel tuples (idx, v) t = for_each (each_value (t_domains t) v) (support_value idx v) t.
Proof. reflexivity. Qed.

Lemma drop_unsupported_legit iv t : var_below nv (snd iv) -> legit nv d t -> legit nv d (drop_unsupported sel tuples iv t).
Proof. destruct iv as [idx v]. intros B G. rewrite drop_unsupported_as. apply legit_for_each; [|assumption]. intros x u _. now apply support_value_legit. Qed.

Lemma check_rows_same ivs : Forall (fun iv => var_below nv (snd iv)) ivs -> forall rows t, length rows = length ivs -> legit nv d t ->
  fst (check_rows sel tuples ivs rows t) = for_each ivs (drop_unsupported sel tuples) t.
Proof.
  unfold for_each. induction 1 as [|[idx v] ivs B F IH]; intros rows t L G; [reflexivity|]. destruct rows as [|row rest]; [discriminate|]. cbn [check_rows fold_left].
  pose proof (check_values_same idx v (each_value (t_domains t) v) B t row G) as E. destruct (fold_left _ _ (t, row)) as [u row']. cbn [fst] in E.
  rewrite <- drop_unsupported_as in E. subst u. pose proof (IH rest (drop_unsupported sel tuples (idx, v) t) ltac:(now injection L) (drop_unsupported_legit (idx, v) t B G)) as E.
  destruct (check_rows _ _ ivs rest _) as [u' rest']. exact E.
Qed.

Lemma check_rows_length ivs : forall rows t, length rows = length ivs -> length (snd (check_rows sel tuples ivs rows t)) = length ivs.
Proof.
  induction ivs as [|[idx v] ivs IH]; intros rows t L; [assumption|]. destruct rows as [|row rest]; [discriminate|]. cbn [check_rows].
  destruct (fold_left _ _ (t, row)) as [u row']. pose proof (IH rest u ltac:(now injection L)) as E. destruct (check_rows _ _ ivs rest u). cbn [snd length] in *. now rewrite E.
Qed.
End Residues.

Lemma positions_below nv vars : Forall (var_below nv) vars -> Forall (fun iv => var_below nv (snd iv)) (positions vars).
Proof. intro B. rewrite Forall_forall in *. intros [i v] I. apply in_combine_r in I. now apply B. Qed.

Lemma positions_length vars : length (positions vars) = length vars.
Proof. unfold positions. rewrite combine_length, seq_length. apply Nat.min_id. Qed.

Lemma positions_In vars i v : In (i, v) (positions vars) <-> nth_error vars i = Some v.
Proof.
  unfold positions. assert (G : forall o, In (i, v) (combine (seq o (length vars)) vars) <-> (o <= i)%nat /\ nth_error vars (i - o) = Some v).
  { induction vars as [|w r IH]; intro o; cbn [length seq combine In].
    - split; [intros []|]. intros [_ E]. destruct (i - o)%nat; discriminate E.
    - rewrite (IH (S o)). split.
      + intros [[= -> ->]|[L E]]; [split; [lia|]; now rewrite Nat.sub_diag|]. split; [lia|]. replace (i - o)%nat with (S (i - S o)) by lia. exact E.
      + intros [L E]. destruct (Nat.eq_dec o i) as [->|N]; [rewrite Nat.sub_diag in E; injection E as ->; auto|]. right. split; [lia|].
        replace (i - o)%nat with (S (i - S o)) in E by lia. exact E. }
  rewrite G, Nat.sub_0_r. split; [tauto|]. intro E. split; [lia|assumption].
Qed.

Lemma drop_infeasible_legit nv d sel vars tuples t : var_below nv sel -> legit nv d t -> legit nv d (drop_infeasible sel vars tuples t).
Proof. intros B G. apply legit_for_each; [|assumption]. intros k u _ Gu. destruct (tuple_feasible _ _ _); [assumption|]. now apply legit_tell. Qed.

(** The pass that remembers supports infers exactly what the other does, whatever it
    remembers. *)
Lemma residual_pass_same nv d sel vars tuples rows : domains_ok d -> length d = nv -> var_below nv sel -> Forall (var_below nv) vars ->
  (forall r, rows = Some r -> length r = length vars) ->
  fst (residual_pass sel vars tuples rows d) = fst (extensional_pass sel vars tuples d) /\ length (snd (residual_pass sel vars tuples rows d)) = length vars.
Proof.
  intros Hd Ld Bs Bv Lr. unfold residual_pass, extensional_pass. cbn [fst].
  assert (L : forall t, length (match rows with Some r => r | None => map (empty_row (t_domains t)) vars end) = length (positions vars)).
  { intro t. rewrite positions_length. destruct rows; [now apply Lr|apply map_length]. }
  split; [|now rewrite check_rows_length, positions_length].
  apply (check_rows_same nv d Hd Ld sel Bs tuples); [now apply positions_below|apply L|]. apply drop_infeasible_legit; [assumption|apply legit_track].
Qed.

(** ** The pass *)

Section Pass.
Variable nv s : nat.
Variable vars : list var_id.
Variable tuples : list tuple.
Hypothesis Hs : (s < nv)%nat.
Hypothesis Bv : Forall (var_below nv) vars.
Hypothesis Len : Forall (fun t => length t = length vars) tuples.
Let sel := VSimple s.

Lemma sel_below : var_below nv sel.
Proof. exact Hs. Qed.

(** The selected tuple is the right one. *)
Definition selects (a : assignment) : Prop := agrees a vars (tuple_at tuples (a s)).

Definition entry_possible (d : domains) (v : var_id) (e : entry) : Prop := match e with None => True | Some x => view_member d v x end.

Lemma tuple_length k : 0 <= k < Z.of_nat (length tuples) -> length (tuple_at tuples k) = length vars.
Proof. intro Hk. unfold tuple_at. rewrite Forall_forall in Len. apply Len. apply nth_In. lia. Qed.

Lemma feasible_spec D t : domains_ok D -> length D = nv -> length t = length vars -> (tuple_feasible D vars t = true <-> Forall2 (entry_possible D) vars t).
Proof.
  intros HD LD. unfold tuple_feasible. clear Len. revert t. induction Bv as [|v r B Br IH]; intros [|e t] L; try discriminate; cbn [combine forallb].
  - split; [constructor|reflexivity].
  - injection L as L. rewrite andb_true_iff, (IH Br t L). split.
    + intros [F R]. constructor; [|assumption]. destruct e as [x|]; [|exact Logic.I]. simpl in *. apply in_domain_spec in F; auto. now apply (var_below_known nv).
    + intro F. inversion_clear F as [|? ? ? ? P R]. split; [|assumption]. destruct e as [x|]; [|reflexivity]. simpl in *. apply in_domain_spec; auto. now apply (var_below_known nv).
Qed.

Lemma agrees_length a t : agrees a vars t -> length t = length vars.
Proof. unfold agrees. intro A. clear Bv Len. induction A; simpl; congruence. Qed.

Lemma agrees_possible D a t : domains_ok D -> length D = nv -> within a D -> agrees a vars t -> Forall2 (entry_possible D) vars t.
Proof.
  intros HD LD Wa A. unfold agrees in A. revert A. clear Len. revert t. induction Bv as [|v r B Br IH]; intros t A; inversion_clear A as [|? e ? t' P R]; constructor; auto.
  destruct e as [x|]; [|exact Logic.I]. simpl. rewrite <- P. apply value_possible; auto. now apply (var_below_known nv).
Qed.

Lemma agrees_entry a t i v : agrees a vars t -> nth_error vars i = Some v -> fits (nth i t None) (var_value a v) = true.
Proof.
  unfold agrees. clear Bv Len. revert t i. induction vars as [|w r IH]; intros t i A E; [destruct i; discriminate|]. inversion_clear A as [|? e ? t' P R].
  destruct i as [|i]; simpl in *; [injection E as ->; destruct e as [x|]; [|reflexivity]; simpl; now apply Z.eqb_eq|]. now apply IH.
Qed.

Section Run.
Variable d : domains.
Hypothesis Hd : domains_ok d.
Hypothesis Ld : length d = nv.
Let t1 := drop_infeasible sel vars tuples (track d).
Let t2 := fst (extensional_pass sel vars tuples d).

Lemma live_known t a v : live nv d t a -> var_below nv v -> var_known (t_domains t) v.
Proof. intros Lv B. apply (var_below_known nv); [now apply (live_length nv d Hd Ld t a)|assumption]. Qed.

Lemma infeasible_step k u : later nv d u (if tuple_feasible (t_domains u) vars (tuple_at tuples k) then u else tell_ne sel k u).
Proof. destruct (tuple_feasible _ _ _); [apply later_refl|]. apply later_tell; auto; exact sel_below. Qed.

Lemma t1_legit : legit nv d t1.
Proof. apply drop_infeasible_legit; [exact sel_below|apply legit_track]. Qed.

(** The selected tuple is still feasible. *)
Lemma t1_feasible a : live nv d t1 a -> 0 <= a s < Z.of_nat (length tuples) -> Forall2 (entry_possible d) vars (tuple_at tuples (a s)).
Proof.
  intros Lv R. pose proof (live_within nv d Hd Ld t1 a Lv) as Wd.
  unfold t1, drop_infeasible in Lv. cbn [track t_domains] in Lv.
  apply (for_each_later nv d (fun k => a s = k -> Forall2 (entry_possible d) vars (tuple_at tuples (a s))) a) in Lv; [| | |apply legit_track].
  - destruct Lv as [_ F]. rewrite Forall_forall in F. apply (F (a s)); [|reflexivity]. apply (value_listed d sel a); auto. apply (var_below_known nv); [assumption|exact sel_below].
  - intros k u _. apply infeasible_step.
  - intros k u _ G Lf Lu E. subst k. destruct (tuple_feasible (t_domains u) vars (tuple_at tuples (a s))) eqn:T.
    + apply feasible_spec in T; [|now apply (live_ok nv d Hd Ld u a)|now apply (live_length nv d Hd Ld u a)|now apply tuple_length].
      clear - T Bv Hd Ld G Lu. induction T as [|v e vs es P T IH]; constructor.
      * apply Forall_cons_iff in Bv. destruct Bv as [B _]. destruct e as [x|]; [|exact Logic.I]. apply (member_before nv d Hd Ld u); auto. apply Lu.
      * apply IH. now apply Forall_cons_iff in Bv.
    + exfalso. apply (tell_back nv d Hd Ld) in Lf; auto; try exact sel_below. destruct Lf as [_ X]. now apply X.
Qed.

(** What a support gives. *)
Lemma supported_spec D i x : domains_ok D -> var_known D sel -> (supported D sel tuples i x = true <-> exists k, view_member D sel k /\ fits (entry_at tuples k i) x = true).
Proof.
  intros HD K. unfold supported, find_support. destruct (find _ _) as [k|] eqn:F.
  - split; [|reflexivity]. intros _. apply find_some in F. destruct F as [I F]. apply each_value_In in I. eauto.
  - split; [discriminate|]. intros (k & V & M). apply each_value_In in V. apply (find_none _ _ F) in V. simpl in V. congruence.
Qed.

Lemma pass_honest : honest nv d selects t2.
Proof.
  unfold t2, extensional_pass. cbn [fst]. apply honest_for_each; auto.
  - intros [i v] t I H. apply positions_In in I. rewrite drop_unsupported_as. apply honest_for_each; auto. intros x u _ Hu. unfold support_value. destruct (supported _ _ _ _ _) eqn:S; [assumption|].
    assert (B : var_below nv v) by (rewrite Forall_forall in Bv; apply Bv; now apply nth_error_In in I).
    apply honest_tell; auto. intros F HD LD a Wa WD Sa. simpl. unfold cond_holds; simpl. intro V.
    assert (X : supported (t_domains u) sel tuples i x = true); [|congruence]. pose proof (var_below_known nv (t_domains u) sel LD sel_below) as K.
    apply supported_spec; auto. exists (a s). split; [apply (value_possible (t_domains u) sel a); auto|]. rewrite <- V. now apply agrees_entry.
  - apply honest_for_each; auto; [|apply honest_track; auto]. intros k u _ Hu. destruct (tuple_feasible _ _ _) eqn:T; [assumption|].
    apply honest_tell; auto; try exact sel_below. intros F HD LD a Wa WD Sa. simpl. unfold cond_holds; simpl. intro E.
    assert (X : tuple_feasible (t_domains u) vars (tuple_at tuples k) = true); [|congruence]. rewrite <- E. apply feasible_spec; auto; [now apply agrees_length in Sa|].
    now apply (agrees_possible _ a).
Qed.

Lemma support_step i v x u : var_below nv v -> later nv d u (support_value sel tuples i v x u).
Proof. intro B. unfold support_value. destruct (supported _ _ _ _ _); [apply later_refl|]. now apply later_tell. Qed.

Lemma unsupported_step i v t : var_below nv v -> later nv d t (drop_unsupported sel tuples (i, v) t).
Proof. intro B. rewrite drop_unsupported_as. apply later_for_each. intros x u _. now apply support_step. Qed.

Hypothesis Rng : forall a, within a d -> 0 <= a s < Z.of_nat (length tuples).

Lemma var_at i v : nth_error vars i = Some v -> var_below nv v.
Proof. intro E. rewrite Forall_forall in Bv. apply Bv. now apply nth_error_In in E. Qed.

Lemma t2_later : forall a, live nv d t2 a -> live nv d t1 a.
Proof.
  intros a Lv. unfold t2, extensional_pass in Lv. cbn [fst] in Lv. fold t1 in Lv.
  refine (proj2 (later_for_each nv d (positions vars) (drop_unsupported sel tuples) _ t1 t1_legit) a Lv).
  intros [i v] t I. apply positions_In in I. apply unsupported_step. now apply (var_at i).
Qed.

Lemma t2_feasible a : live nv d t2 a -> Forall2 (entry_possible d) vars (tuple_at tuples (a s)).
Proof. intro Lv. pose proof (t2_later a Lv) as L1. apply t1_feasible; [assumption|]. apply Rng. now apply (live_within nv d Hd Ld t1 a). Qed.

(** Every value left has a support. *)
Lemma t2_supported a i v : live nv d t2 a -> nth_error vars i = Some v ->
  exists b, live nv d t1 b /\ fits (entry_at tuples (b s) i) (var_value a v) = true.
Proof.
  intros Lv E. unfold t2, extensional_pass in Lv. cbn [fst] in Lv. fold t1 in Lv.
  set (J := fun u => forall b, live nv d u b -> live nv d t1 b).
  apply (for_each_later_inv nv d J (fun iv : nat * var_id => exists b, live nv d t1 b /\ fits (entry_at tuples (b s) (fst iv)) (var_value a (snd iv)) = true)) in Lv.
  - destruct Lv as [_ F]. rewrite Forall_forall in F. apply (F (i, v)). now apply positions_In.
  - intros [j w] t I. apply positions_In in I. apply unsupported_step. now apply (var_at j).
  - intros [j w] t I G Jt b Lb. apply Jt. apply positions_In in I. now apply (proj2 (unsupported_step j w t (var_at j w I) G)).
  - intros [j w] t I G Jt Lw Lt. apply positions_In in I. pose proof (var_at j w I) as B. cbn [fst snd]. rewrite drop_unsupported_as in Lw.
    apply (for_each_later_inv nv d J (fun x => var_value a w = x -> exists b, live nv d t1 b /\ fits (entry_at tuples (b s) j) (var_value a w) = true)) in Lw; auto.
    + destruct Lw as [_ F]. rewrite Forall_forall in F. apply (F (var_value a w)); [|reflexivity]. apply (value_listed (t_domains t) w a); [now apply (live_ok nv d Hd Ld t a)|now apply (live_known t a)|apply Lt].
    + intros x u _. now apply support_step.
    + intros x u _ Gu Ju b Lb. apply Ju. now apply (proj2 (support_step j w x u B Gu)).
    + intros x u _ Gu Ju Lf Lu <-. unfold support_value in Lf. destruct (supported _ _ _ _ _) eqn:S.
      * pose proof (live_ok nv d Hd Ld u a Lu) as HD. pose proof (live_known u a sel Lu sel_below) as K.
        apply supported_spec in S; [|assumption|assumption]. destruct S as (k & V & M). apply view_member_iff in V; [|assumption|assumption]. destruct V as (b & Wb & <-).
        exists b. split; [|exact M]. apply Ju. split; [assumption|]. split; [apply Lu|assumption].
      * exfalso. apply (tell_back nv d Hd Ld) in Lf; auto. destruct Lf as [_ X]. now apply X.
  - exact t1_legit.
  - intros b Lb. exact Lb.
Qed.

(** Everything fixed beforehand. *)
Lemma pass_checks a : Forall (fixed d) vars -> live nv d t2 a -> selects a.
Proof.
  intros Fx Lv. pose proof (t2_feasible a Lv) as F. pose proof (live_within nv d Hd Ld t1 a (t2_later a Lv)) as Wa. unfold selects, agrees. clear Lv Len Rng t1 t2.
  revert F. generalize (tuple_at tuples (a s)). induction Bv as [|v r B Br IH]; intros t F; inversion_clear F as [|? e ? t' P R]; constructor.
  - apply Forall_cons_iff in Fx. destruct e as [x|]; [|exact Logic.I]. symmetry. apply (fixed_only d v a); auto; [now apply (var_below_known nv)|tauto].
  - apply IH; auto. now apply Forall_cons_iff in Fx.
Qed.

(** With handles that have nothing to do with each other, feasible tuples are possible. *)
Hypothesis Ua : NoDup (underlying_list (vars ++ [sel])).

Lemma fill D t : domains_ok D -> length D = nv -> Forall2 (entry_possible D) vars t ->
  forall i v x, nth_error vars i = Some v -> view_member D v x -> fits (nth i t None) x = true ->
  exists zs, Forall2 (view_member D) vars zs /\ nth_error zs i = Some x /\ Forall2 (fun z e => fits e z = true) zs t.
Proof.
  intros HD LD F. clear Ua Len. induction F as [|v e vs es P F IH]; intros i w x E V M; [destruct i; discriminate|].
  apply Forall_cons_iff in Bv. destruct Bv as [B Br].
  assert (Any : forall w, var_below nv w -> exists z, view_member D w z).
  { intros w' Bw. destruct (within_exists D HD) as (a & W). exists (var_value a w'). apply value_possible; auto. now apply (var_below_known nv). }
  assert (One : exists z, view_member D v z /\ fits e z = true).
  { destruct e as [y|]; [exists y; split; [exact P|apply Z.eqb_refl]|]. destruct (Any v B) as (z & Z1). exists z. split; [assumption|reflexivity]. }
  destruct i as [|i].
  - injection E as <-. clear IH.
    assert (G : exists zs, Forall2 (view_member D) vs zs /\ Forall2 (fun z e => fits e z = true) zs es).
    { clear - F Any Br. induction F as [|v e vs es P F IH]; [exists []; split; constructor|]. apply Forall_cons_iff in Br. destruct Br as [B Br]. destruct (IH Br) as (zs & A1 & A2).
      destruct e as [y|]; [exists (y :: zs); split; constructor; auto; apply Z.eqb_refl|]. destruct (Any v B) as (z & Z1). exists (z :: zs). split; constructor; auto. }
    destruct G as (zs & A1 & A2). exists (x :: zs). split; [constructor; auto|]. split; [reflexivity|]. constructor; auto.
  - destruct (IH Br i w x E V M) as (zs & A1 & A2 & A3). destruct One as (z & Z1 & Z2). exists (z :: zs). split; [constructor; auto|]. split; [assumption|]. constructor; auto.
Qed.

Lemma fits_agrees (b : assignment) zs t : map (var_value b) vars = zs -> Forall2 (fun z e => fits e z = true) zs t -> agrees b vars t.
Proof.
  intros <-. unfold agrees. clear Ua Bv Len. revert t. induction vars as [|v r IH]; intros t F; inversion_clear F as [|? e ? t' P R]; constructor; auto.
  destruct e as [x|]; [|exact Logic.I]. simpl in P. apply Z.eqb_eq in P. now symmetry.
Qed.

(** Each supported value belongs to an assignment that survives. *)
Lemma survivor i v x b : t_failed t2 = false -> live nv d t1 b -> nth_error vars i = Some v -> view_member d v x -> fits (entry_at tuples (b s) i) x = true ->
  exists c, within c (t_domains t2) /\ var_value c v = x /\ c s = b s /\ selects c.
Proof.
  intros F Lb E V M. pose proof (live_within nv d Hd Ld t1 b Lb) as Wb. pose proof (t1_feasible b Lb (Rng b Wb)) as Fe.
  destruct (fill d _ Hd Ld Fe i v x E V M) as (zs & Z1 & Z2 & Z3).
  assert (Ks : var_known d sel) by (apply (var_below_known nv); [assumption|exact sel_below]).
  destruct (choose_list d (vars ++ [sel]) (zs ++ [b s])) as (c & Wc & Ec); auto.
  - apply Forall_app. split; [|auto]. rewrite Forall_forall in *. intros w I. apply (var_below_known nv); auto.
  - apply Forall2_app; [assumption|]. constructor; [|constructor]. apply (value_possible d sel b); auto.
  - rewrite map_app in Ec. apply app_inj_tail in Ec. destruct Ec as [Ec Es]. simpl in Es.
    assert (S : selects c) by (unfold selects; rewrite Es; now apply (fits_agrees c zs)).
    exists c. split; [|split; [|split]]; auto.
    + now apply (honest_within nv d Hd Ld selects t2 c pass_honest).
    + pose proof (map_nth_error (var_value c) i vars E) as X. rewrite Ec in X. rewrite Z2 in X. now injection X.
Qed.

(** Everything fixed afterwards. *)
Lemma pass_claims a : live nv d t2 a -> Forall (fixed (t_domains t2)) vars -> selects a.
Proof.
  intros Lv Fx. pose proof (t2_feasible a Lv) as F. pose proof (t2_later a Lv) as L1. unfold selects, agrees.
  assert (P : forall i v e, nth_error vars i = Some v -> nth_error (tuple_at tuples (a s)) i = Some e -> match e with None => True | Some x => var_value a v = x end).
  { intros i v [x|] Ev Ee; [|exact Logic.I].
    assert (V : view_member d v x).
    { clear - F Ev Ee. revert i Ev Ee. induction F as [|w e vs es P F IH]; intros i Ev Ee; [destruct i; discriminate|]. destruct i as [|i]; simpl in *; [injection Ev as <-; injection Ee as ->; exact P|]. now apply (IH i). }
    destruct (survivor i v x a ltac:(apply Lv) L1 Ev V) as (c & Wc & Ec & _).
    - unfold entry_at. rewrite (nth_error_nth _ _ _ Ee). simpl. apply Z.eqb_refl.
    - rewrite Forall_forall in Fx. destruct (Fx v) as (y & Y); [now apply nth_error_In in Ev|]. rewrite (Y a) by apply Lv. rewrite <- (Y c Wc). assumption. }
  clear - F P. revert P. induction F as [|w e vs es _ F IH]; intro P; constructor.
  - exact (P O w e eq_refl eq_refl).
  - apply IH. intros i v e' Ev Ee. exact (P (S i) v e' Ev Ee).
Qed.

(** Every value left is in an allowed tuple of values left. *)
Lemma pass_consistent : t_failed t2 = false -> domain_consistent (t_domains t2) vars (fun a => listed_in a vars tuples).
Proof.
  intros F v x I (a & Wa & <-). apply In_nth_error in I. destruct I as (i & E).
  assert (Lv : live nv d t2 a) by (split; [apply pass_honest|auto]).
  destruct (t2_supported a i v Lv E) as (b & Lb & M).
  destruct (survivor i v (var_value a v) b F Lb E) as (c & Wc & Ec & Es & S); auto.
  - apply (member_before nv d Hd Ld t2); auto; [apply pass_honest|now apply (var_at i)|]. apply value_possible; auto; [now apply (live_ok nv d Hd Ld t2 a)|apply (live_known t2 a); auto; now apply (var_at i)].
  - exists c. split; [assumption|]. split; [assumption|]. unfold listed_in. apply Exists_exists. exists (tuple_at tuples (c s)). split; [|exact S].
    unfold tuple_at. apply nth_In. assert (R : 0 <= c s < Z.of_nat (length tuples)); [|lia]. apply Rng. apply (legit_inside nv d Hd Ld t2); auto. apply pass_honest.
Qed.

(** A second run finds nothing to do. *)
Lemma for_each_same {X} (xs : list X) f (t : tracker) : (forall x, In x xs -> f x t = t) -> for_each xs f t = t.
Proof. unfold for_each. induction xs as [|x r IH]; intro H; simpl; [reflexivity|]. rewrite H by now left. apply IH. intros y I. apply H. now right. Qed.

Lemma pass_quiet : t_failed t2 = false -> fst (extensional_pass sel vars tuples (t_domains t2)) = track (t_domains t2).
Proof.
  intro F. set (D := t_domains t2). pose proof (legit_ok nv d Hd Ld t2 (proj1 pass_honest) F) as HD. pose proof (legit_length nv d Hd Ld t2 (proj1 pass_honest)) as LD. fold D in HD, LD.
  assert (Ks : var_known D sel) by (apply (var_below_known nv); [assumption|exact sel_below]).
  assert (Lw : forall a, within a D -> live nv d t2 a) by (intros a W; split; [apply pass_honest|auto]).
  unfold extensional_pass. cbn [fst].
  assert (E1 : drop_infeasible sel vars tuples (track D) = track D).
  { apply for_each_same. intros k I. cbn [track t_domains] in *. apply each_value_In in I. apply view_member_iff in I; [|assumption|assumption]. destruct I as (b & Wb & <-).
    pose proof (Lw b Wb) as Lb. pose proof (t2_feasible b Lb) as Fe. pose proof (t2_later b Lb) as L1. simpl var_value.
    replace (tuple_feasible D vars (tuple_at tuples (b s))) with true; [reflexivity|]. symmetry. apply feasible_spec; [assumption|assumption|apply tuple_length; apply Rng; now apply (live_within nv d Hd Ld t1 b)|].
    assert (P : forall i v e, nth_error vars i = Some v -> nth_error (tuple_at tuples (b s)) i = Some e -> entry_possible D v e).
    { intros i v [x|] Ev Ee; [|exact Logic.I].
      assert (V : view_member d v x).
      { clear - Fe Ev Ee. revert i Ev Ee. induction Fe as [|w e vs es P F IH]; intros i Ev Ee; [destruct i; discriminate|]. destruct i as [|i]; simpl in *; [injection Ev as <-; injection Ee as ->; exact P|]. now apply (IH i). }
      destruct (survivor i v x b F L1 Ev V) as (c & Wc & <- & _).
      - unfold entry_at. rewrite (nth_error_nth _ _ _ Ee). simpl. apply Z.eqb_refl.
      - apply value_possible; auto. apply (var_below_known nv); [assumption|]. now apply (var_at i). }
    clear - Fe P. clearbody D. clear t2. revert P. induction Fe as [|w e vs es _ Fe IH]; intro P; constructor.
    - exact (P O w e eq_refl eq_refl).
    - apply IH. intros i v e' Ev Ee. exact (P (S i) v e' Ev Ee). }
  rewrite E1. apply for_each_same. intros [i v] I. apply positions_In in I. rewrite drop_unsupported_as. apply for_each_same. intros x J. cbn [track t_domains] in *.
  pose proof (var_below_known nv D v LD (var_at i v I)) as Kv. apply each_value_In in J. apply view_member_iff in J; [|assumption|assumption]. destruct J as (a & Wa & <-).
  unfold support_value. cbn [track t_domains]. replace (supported D sel tuples i (var_value a v)) with true; [reflexivity|]. symmetry. apply supported_spec; auto.
  destruct (t2_supported a i v (Lw a Wa) I) as (b & Lb & M). destruct (survivor i v (var_value a v) b F Lb I) as (c & Wc & Ec & Es & S); auto.
  - apply (member_before nv d Hd Ld t2); auto; [apply pass_honest|now apply (var_at i)|]. apply value_possible; auto.
  - exists (c s). split; [apply (value_possible D sel c); auto|]. now rewrite Es.
Qed.
End Run.

(** The propagation function does its duty. *)
Lemma extensional_body_ok d0 (alias : Prop) : (forall a, within a d0 -> 0 <= a s < Z.of_nat (length tuples)) -> (~ alias -> NoDup (underlying_list (vars ++ [sel]))) ->
  body_ok nv d0 alias (extensional_pass sel vars tuples) vars selects.
Proof.
  intros Rng Ua. apply body_ok_intro.
  - intros d Hd Ld _. now apply pass_honest.
  - intros d a Hd Ld Id Fx Lv. apply (pass_checks d Hd Ld); auto.
  - intros d a Hd Ld Id Na _ Lv Fx. apply (pass_claims d Hd Ld); auto.
  - intros d a Hd Ld Id E. discriminate E.
Qed.
End Pass.

(** ** The constraint *)

Lemma agrees_local n vars t a a' : Forall (var_below n) vars -> same_below n a a' -> agrees a vars t -> agrees a' vars t.
Proof.
  intros B Sm A. unfold agrees in *. revert B. induction A as [|v e vs es P A IH]; intro B; constructor; apply Forall_cons_iff in B; [|now apply IH].
  destruct e as [x|]; [|exact Logic.I]. rewrite <- P. symmetry. now apply (same_below_value n).
Qed.

Lemma listed_local n vars tuples : Forall (var_below n) vars -> local n (fun a => listed_in a vars tuples).
Proof. intros B a a' Sm. unfold listed_in. apply Exists_impl. intro t. now apply (agrees_local n). Qed.

Lemma selects_local n s vars tuples : (s < n)%nat -> Forall (var_below n) vars -> local n (selects s vars tuples).
Proof. intros Hs B a a' Sm. unfold selects. rewrite <- (Sm s Hs). now apply (agrees_local n). Qed.

(** The selector's domain. *)
Lemma selector_ok d n : domains_ok d -> (0 < n)%nat -> domains_ok (d ++ [[(0, Z.of_nat n - 1)]]).
Proof.
  intros Hd Hn k Hk. destruct (Nat.lt_ge_cases k (length d)) as [L|L]; [rewrite app_nth1 by assumption; now apply Hd|].
  rewrite app_length in Hk. simpl in Hk. assert (k = length d) by lia. subst k. rewrite app_nth2, Nat.sub_diag by lia. split; [simpl; lia|]. exists 0. exists 0, (Z.of_nat n - 1). split; [now left|lia].
Qed.

Lemma selector_range (d : domains) n a : within a (d ++ [[(0, Z.of_nat n - 1)]]) -> 0 <= a (length d) < Z.of_nat n.
Proof.
  intro W. specialize (W (length d)). rewrite app_length in W. specialize (W ltac:(simpl; lia)). rewrite app_nth2, Nat.sub_diag in W by lia.
  destruct W as (lo & hi & [[= <- <-]|[]] & L). lia.
Qed.

(** An assignment that agrees with one of the tuples can select it. *)
Lemma selector_chosen (d : domains) vars tuples a : Forall (var_below (length d)) vars -> within a d -> listed_in a vars tuples ->
  exists a', same_below (length d) a a' /\ within a' (d ++ [[(0, Z.of_nat (length tuples) - 1)]]) /\ selects (length d) vars tuples a'.
Proof.
  intros B Wa L. unfold listed_in in L. apply Exists_exists in L. destruct L as (t & I & A). apply In_nth_error in I. destruct I as (k & Ek).
  assert (Hk : (k < length tuples)%nat) by (apply nth_error_Some; congruence).
  set (a' := fun x => if Nat.eqb x (length d) then Z.of_nat k else a x). assert (Sm : same_below (length d) a a') by (intros x Hx; unfold a'; destruct (Nat.eqb_spec x (length d)); [lia|reflexivity]).
  exists a'. split; [assumption|]. split.
  - intros x Hx. rewrite app_length in Hx. simpl in Hx. destruct (Nat.lt_ge_cases x (length d)) as [L|L].
    + rewrite app_nth1 by assumption. rewrite <- Sm by assumption. now apply Wa.
    + assert (x = length d) by (unfold domains, iset in *; lia). subst x. rewrite app_nth2, Nat.sub_diag by lia. unfold a'. rewrite Nat.eqb_refl. exists 0, (Z.of_nat (length tuples) - 1). split; [now left|lia].
  - unfold selects. assert (E : a' (length d) = Z.of_nat k) by (unfold a'; now rewrite Nat.eqb_refl). rewrite E. unfold tuple_at. rewrite Nat2Z.id, (nth_error_nth _ _ _ Ek). now apply (agrees_local (length d) vars t a).
Qed.

Lemma selected_listed s vars tuples a : 0 <= a s < Z.of_nat (length tuples) -> selects s vars tuples a -> listed_in a vars tuples.
Proof. intros R S. unfold listed_in. apply Exists_exists. exists (tuple_at tuples (a s)). split; [|assumption]. unfold tuple_at. apply nth_In. lia. Qed.

(** The selector is nobody else's variable. *)
Lemma underlying_list_fresh n vars : Forall (var_below n) vars -> NoDup (underlying_list vars) -> NoDup (underlying_list (vars ++ [VSimple n])).
Proof.
  intros B ND. rewrite underlying_list_app. change (underlying_list [VSimple n]) with [n].
  assert (N : ~ In n (underlying_list vars)).
  { intro I. apply in_underlying_list in I. destruct I as (v & I & U). rewrite Forall_forall in B. apply B in I. unfold var_below in I. rewrite U in I. lia. }
  clear B. induction (underlying_list vars) as [|x r IH]; simpl; [constructor; [intros []|constructor]|]. apply NoDup_cons_iff in ND. destruct ND as [Nx ND]. simpl in N. constructor; [|apply IH; tauto].
  rewrite in_app_iff. simpl. intros [I|[<-|[]]]; [now apply Nx|]. apply N. now left.
Qed.

Lemma lengths_equal (vars : list var_id) (tuples : list tuple) : forallb (fun t => Nat.eqb (length t) (length vars)) tuples = true <-> Forall (fun t => length t = length vars) tuples.
Proof. rewrite forallb_forall, Forall_forall. split; intros H t I; apply Nat.eqb_eq; now apply H. Qed.

Lemma table_refuses vars tuples : table vars tuples = None <-> Exists (fun t => length t <> length vars) tuples.
Proof.
  unfold table. destruct tuples as [|t0 r]; [split; [discriminate|]; intro X; inversion X|]. remember (t0 :: r) as ts eqn:Ets. clear Ets. destruct (forallb (fun t => Nat.eqb (length t) (length vars)) ts) eqn:E.
  - apply lengths_equal in E. split; [discriminate|]. intro X. apply Exists_exists in X. destruct X as (t & I & N). rewrite Forall_forall in E. destruct (N (E t I)).
  - split; [|reflexivity]. intros _. apply Exists_exists.
    assert (X : exists t, In t ts /\ Nat.eqb (length t) (length vars) = false).
    { clear - E. induction ts as [|t r IH]; [discriminate|]. simpl in E. destruct (Nat.eqb (length t) (length vars)) eqn:Et; [|exists t; split; [now left|assumption]]. destruct (IH E) as (u & I & Eu). exists u. split; [now right|assumption]. }
    destruct X as (t & I & Et). exists t. split; [assumption|]. now apply Nat.eqb_neq.
Qed.

Lemma table_means d0 vars tuples k : Forall (var_known d0) vars -> table vars tuples = Some k -> means d0 k vars (fun a => listed_in a vars tuples).
Proof.
  intros K E. assert (B : Forall (var_below (length d0)) vars) by now apply known_below_all.
  unfold table in E. destruct tuples as [|t0 r] eqn:Et.
  - injection E as <-.
    enough (M : means d0 (simple_at 0 (fun _ => ([], [body_initialiser (fun d => tell_false (track d))]))) vars (fun a => listed_in a vars [])) by exact M.
    apply simple_means; [lia|now apply listed_local|assumption|]. intros hidden Hd.
    assert (No : forall a, ~ listed_in a vars []) by (intros a X; inversion X).
    apply (initialiser_correct _ _ (fun d => tell_false (track d)) vars (fun a => listed_in a vars [])); [reflexivity|reflexivity| |].
    + eapply Forall_impl; [|exact B]. intros v Bv. apply (var_below_known (length (d0 ++ hidden))); [reflexivity|]. apply (below_more (length d0)); [|assumption]. unfold domains, iset in *. rewrite app_length. lia.
    + intros nv d Ln Hd' Ld Id. split.
      * apply honest_tell; auto; [exact Logic.I|now apply honest_track|]. intros _ _ _ a _ _ X. destruct (No a X).
      * intros a Lv. apply (tell_back nv d Hd' Ld) in Lv; [|exact Logic.I|now apply legit_track]. destruct Lv as [_ []].
  - rewrite <- Et in *. assert (Pos : (0 < length tuples)%nat) by (rewrite Et; simpl; lia). clear Et. destruct (forallb (fun t => Nat.eqb (length t) (length vars)) tuples) eqn:Ln; [|discriminate]. apply lengths_equal in Ln. injection E as <-.
    split; [assumption|]. split; [now apply listed_local|]. intros hidden cs Hd. set (d := d0 ++ hidden) in *.
    assert (Bd : Forall (var_below (length d)) vars).
    { eapply Forall_impl; [|exact B]. intros v Bv. apply (below_more (length d0)); [|assumption]. unfold d, domains, iset in *. rewrite app_length. lia. }
    exists (selects (length d) vars tuples), (fun _ _ => True). cbv zeta.
    assert (Le : length (d ++ [[(0, Z.of_nat (length tuples) - 1)]]) = S (length d)) by (rewrite app_length; simpl; lia).
    constructor; cbn [in_vars in_states in_props in_inits map length]; auto.
    + now apply selector_ok.
    + unfold d, domains, iset in *. rewrite Le. apply selects_local; [lia|]. eapply Forall_impl; [|exact Bd]. intros v. apply below_more. lia.
    + intros a Wa S. now apply selector_chosen.
    + intros nv Inv Lv St Id Fr. assert (Lv' : (S (length d) <= nv)%nat) by (rewrite <- Le; exact Lv). exists [selects (length d) vars tuples], []. split; [|split; [constructor|]].
      * constructor; [|constructor]. apply (propagates_supports _ _ _ vars); [apply incl_refl|].
        assert (Bn : Forall (var_below nv) vars) by (eapply Forall_impl; [|exact Bd]; intros v; apply below_more; lia).
        apply (body_propagates nv (d ++ [[(0, Z.of_nat (length tuples) - 1)]])); auto.
        -- intros D c I. apply (Id D c I).
        -- intros v x I U. left. exists v. split; [simpl; rewrite in_app_iff; auto|split; [assumption|auto]].
        -- apply extensional_body_ok; auto.
           ++ intros a Wa. now apply selector_range in Wa.
           ++ intro Na. unfold aliased in Na. cbn [body_propagator p_on_change p_on_bounds p_on_instantiated p_scope_only app] in Na. rewrite !app_nil_r in Na.
              destruct (ListDec.NoDup_dec Nat.eq_dec (underlying_list (vars ++ [VSimple (length d)]))) as [|N]; [assumption|]. now apply Na in N.
      * intros a Wa F _. apply Forall_inv in F. apply (selected_listed (length d)); [|assumption]. now apply selector_range in Wa.
Qed.

Lemma table_consistent d0 cs vars tuples k p : domains_ok d0 -> Forall (var_known d0) vars -> NoDup (underlying_list vars) ->
  table vars tuples = Some k -> in_props (k d0 cs) = [p] ->
  forall D, ConsistencySpec.outcome (S (length d0)) (fun d _ => inside (d0 ++ in_vars (k d0 cs)) d) p D ->
  domain_consistent D vars (fun a => listed_in a vars tuples) /\ rerun_is_quiet p D.
Proof.
  intros Hd0 K Ua E. assert (B : Forall (var_below (length d0)) vars) by now apply known_below_all.
  unfold table in E. destruct tuples as [|t0 r] eqn:Et; [injection E as <-; discriminate|]. rewrite <- Et in *. clear Et.
  destruct (forallb (fun t => Nat.eqb (length t) (length vars)) tuples) eqn:Ln; [|discriminate]. apply lengths_equal in Ln. injection E as <-. cbv zeta. cbn [in_props in_vars]. intros [= <-] D (i & evs & (H1 & H2 & H3) & A).
  unfold domains, iset in *. cbn [body_propagator p_run] in A. destruct (body_run_out (extensional_pass (VSimple (length d0)) vars tuples) i) as (Eo & _). rewrite Eo in A. clear Eo.
  assert (Bn : Forall (var_below (S (length d0))) vars) by (eapply Forall_impl; [|exact B]; intros v; apply below_more; lia).
  pose proof (pass_honest (S (length d0)) (length d0) vars tuples ltac:(lia) Bn (i_domains i) H1 H2) as Ho. destruct (lg_apply _ _ _ (proj1 Ho)) as (ev & A'). rewrite A' in A. injection A as <- _ F.
  assert (Rng : forall a, within a (i_domains i) -> 0 <= a (length d0) < Z.of_nat (length tuples)) by (intros a Wa; apply H3 in Wa; now apply selector_range in Wa).
  assert (Ux : NoDup (underlying_list (vars ++ [VSimple (length d0)]))) by now apply underlying_list_fresh.
  split.
  - refine (pass_consistent (S (length d0)) (length d0) vars tuples _ Bn Ln (i_domains i) H1 H2 Rng Ux F). lia.
  - intros j Ej. cbn [body_propagator p_run]. destruct (body_run_out (extensional_pass (VSimple (length d0)) vars tuples) j) as (-> & _). rewrite Ej.
    pose proof (pass_quiet (S (length d0)) (length d0) vars tuples ltac:(lia) Bn Ln (i_domains i) H1 H2 Rng Ux F) as Q.
    match goal with |- context [t_lits ?u] => assert (E : u = track (t_domains (fst (extensional_pass (VSimple (length d0)) vars tuples (i_domains i))))) by exact Q end.
    rewrite E. reflexivity.
Qed.
