(** Lemmas about value precedence. *)
From Coq Require Import ZArith List Bool Arith Lia.
From Verif Require Import IntervalSet IntervalSetSpec IntervalSetProofs Vars VarsSpec VarsProofs State StateSpec StateProofs Epochs
  Engine EngineSpec EngineProofs SessionSpec SessionInvProofs Tracker ContractSpec ContractProofs RunProofs Solve Stateful StatefulProofs
  Element ElementProofs PartsProofs Precede ChannelSpec.
Import ListNotations.
Local Open Scope Z_scope.

Lemma first_possible_some d vars s : forall i, first_possible d vars s = Some i ->
  (i < length vars)%nat /\ in_domain d (nth i vars (VConst 0)) s = true /\ forall k v, (k < i)%nat -> nth_error vars k = Some v -> in_domain d v s = false.
Proof.
  induction vars as [|v r IH]; intros i E; [discriminate|]. cbn [first_possible] in E. destruct (in_domain d v s) eqn:D.
  - injection E as <-. split; [simpl; lia|]. split; [exact D|]. intros; lia.
  - destruct (first_possible d r s) as [j|]; [|discriminate]. injection E as <-. destruct (IH j eq_refl) as (L & I & B).
    split; [simpl; lia|]. split; [exact I|]. intros [|k] w H Ew; [simpl in Ew; congruence|]. apply (B k); [lia|exact Ew].
Qed.

Lemma first_possible_none d vars s : first_possible d vars s = None -> forall k v, nth_error vars k = Some v -> in_domain d v s = false.
Proof.
  induction vars as [|v r IH]; intros E [|k] w Ew; try discriminate; cbn [first_possible] in E; destruct (in_domain d v s) eqn:D; try discriminate.
  - simpl in Ew. congruence.
  - destruct (first_possible d r s); [discriminate|]. now apply (IH eq_refl k).
Qed.

Section Pair.
Variable nv : nat.
Variable vars : list var_id.
Variable s t : Z.
Hypothesis Bs : Forall (var_below nv) vars.
Variable d : domains.
Hypothesis Hd : domains_ok d.
Hypothesis Ld : length d = nv.

Lemma pair_known v : In v vars -> var_known d v.
Proof. intro I. apply (var_below_known nv); [assumption|]. now apply (proj1 (Forall_forall _ _) Bs). Qed.

(** Those that no earlier position can answer. *)
Definition unanswered : list var_id := match first_possible d vars s with None => vars | Some i => firstn (S i) vars end.

Lemma precede_body_is : fst (precede_body vars s t d) = remove_value t unanswered (track d).
Proof. unfold precede_body, unanswered. destruct (first_possible d vars s); reflexivity. Qed.

Lemma unanswered_In v : In v unanswered -> exists k, nth_error vars k = Some v /\ forall j w, (j < k)%nat -> nth_error vars j = Some w -> in_domain d w s = false.
Proof.
  unfold unanswered. destruct (first_possible d vars s) as [i|] eqn:E; intro I; apply In_nth_error in I; destruct I as (k & Ek).
  - destruct (first_possible_some d vars s i E) as (L & _ & B). assert (Lk : (k < S i)%nat).
    { assert (X : nth_error (firstn (S i) vars) k <> None) by congruence. apply nth_error_Some in X. rewrite firstn_length in X. lia. }
    exists k. split; [|intros j w H; apply B; lia]. rewrite <- (firstn_skipn (S i) vars), nth_error_app1; [exact Ek|]. rewrite firstn_length. lia.
  - exists k. split; [assumption|]. intros j w _. now apply (first_possible_none d vars s E).
Qed.

Lemma precede_honest : honest nv d (precedes s t vars) (fst (precede_body vars s t d)).
Proof.
  rewrite precede_body_is. unfold remove_value. apply honest_for_each; [|apply honest_track]. intros v u I Hu.
  destruct (in_domain (t_domains u) v t); [|assumption]. destruct (unanswered_In v I) as (k & Ek & B).
  apply honest_tell; auto; [apply (proj1 (Forall_forall _ _) Bs); now apply nth_error_In in Ek|].
  intros _ _ _ a Wa _ Sa. unfold lit_holds, cond_holds; cbn. intro E. destruct (Sa k v Ek E) as (i & x & Hi & Ei & Ex).
  assert (X : in_domain d x s = true); [|rewrite (B i x Hi Ei) in X; discriminate].
  rewrite <- Ex. apply value_in_domain; auto. apply pair_known. now apply nth_error_In in Ei.
Qed.

(** What has been removed. *)
Lemma removed us a : incl us vars -> forall u, legit nv d u -> live nv d (remove_value t us u) a ->
  forall v, In v us -> var_value a v <> t.
Proof.
  intros Iu u G Lv. unfold remove_value in Lv.
  apply (for_each_back nv d (fun v => var_value a v <> t) a us) in Lv; auto.
  - now apply Forall_forall.
  - intros v w I Gw. destruct (in_domain (t_domains w) v t); [|assumption]. apply legit_tell; auto. apply (proj1 (Forall_forall _ _) Bs). auto.
  - intros v w I Gw Lw. assert (Bv : var_below nv v) by (apply (proj1 (Forall_forall _ _) Bs); auto). destruct (in_domain (t_domains w) v t) eqn:D.
    + apply (tell_back nv d Hd Ld) in Lw; [|exact Bv|assumption]. exact Lw.
    + split; [assumption|]. intro E. assert (X : in_domain (t_domains w) v t = true); [|congruence]. rewrite <- E.
      apply value_in_domain; [now apply (live_ok nv d Hd Ld w a)| |apply Lw].
      apply (var_below_known nv); [now apply (live_length nv d Hd Ld w a)|assumption].
Qed.

Lemma unanswered_incl : incl unanswered vars.
Proof. unfold unanswered. destruct (first_possible d vars s); [|apply incl_refl]. intros v I. rewrite <- (firstn_skipn (S n) vars). apply in_or_app. now left. Qed.

(** An occurrence that is left has a position before it that can have the other value. *)
Lemma answered a j y : live nv d (fst (precede_body vars s t d)) a -> nth_error vars j = Some y -> var_value a y = t ->
  exists i, first_possible d vars s = Some i /\ (i < j)%nat.
Proof.
  rewrite precede_body_is. intros Lv Ej Ey. pose proof (removed unanswered a unanswered_incl (track d) (legit_track _ _) Lv) as R. unfold unanswered in R.
  destruct (first_possible d vars s) as [i|]; [|exfalso; apply (R y); [now apply nth_error_In in Ej|assumption]].
  exists i. split; [reflexivity|]. destruct (Nat.lt_ge_cases i j) as [|H]; [assumption|]. exfalso. apply (R y); [|assumption].
  apply nth_error_In with j. assert (X : nth_error vars j <> None) by congruence. apply nth_error_Some in X.
  rewrite <- (firstn_skipn (S i) vars), nth_error_app1 in Ej; [exact Ej|]. rewrite firstn_length. lia.
Qed.

Lemma precede_checks a : Forall (fixed d) vars -> live nv d (fst (precede_body vars s t d)) a -> precedes s t vars a.
Proof.
  intros Fx Lv j y Ej Ey. destruct (answered a j y Lv Ej Ey) as (i & Ei & Hi). destruct (first_possible_some d vars s i Ei) as (Li & Di & _).
  set (x := nth i vars (VConst 0)) in *. assert (Ix : In x vars) by now apply nth_In. exists i, x. split; [assumption|]. split; [now apply nth_error_nth'|].
  symmetry. apply (fixed_only d x a Hd (pair_known x Ix)); [|rewrite Forall_forall in Fx; auto|apply in_domain_spec; auto; now apply pair_known].
  now apply (live_within nv d Hd Ld (fst (precede_body vars s t d))).
Qed.

Lemma precede_entails a : snd (precede_body vars s t d) = DisableUntilBacktrack -> live nv d (fst (precede_body vars s t d)) a -> precedes s t vars a.
Proof.
  intros E Lv j y Ej Ey. destruct (answered a j y Lv Ej Ey) as (i & Ei & Hi). destruct (first_possible_some d vars s i Ei) as (Li & _ & _).
  unfold precede_body in E, Lv. rewrite Ei in E, Lv. cbn [fst snd] in E, Lv. set (tr := remove_value t (firstn (S i) vars) (track d)) in *. clearbody tr.
  set (x := nth i vars (VConst 0)) in *. assert (Ix : In x vars) by now apply nth_In. exists i, x. split; [assumption|]. split; [now apply nth_error_nth'|].
  pose proof (live_ok nv d Hd Ld tr a Lv) as Ok. assert (Kx : var_known (t_domains tr) x).
  { apply (var_below_known nv); [now apply (live_length nv d Hd Ld tr a)|]. now apply (proj1 (Forall_forall _ _) Bs). }
  destruct (has_single_value (t_domains tr) x && (lower_bound (t_domains tr) x =? s)) eqn:B; [|discriminate]. apply andb_true_iff in B. destruct B as [B1 B2].
  apply Z.eqb_eq in B2. rewrite <- B2. symmetry. apply fixed_lower; auto; [apply Lv|]. now apply single_fixed.
Qed.
End Pair.

Lemma precede_body_ok nv d0 alias vars s t : Forall (var_below nv) vars -> body_ok nv d0 alias (precede_body vars s t) vars (precedes s t vars).
Proof.
  intro Bs. apply body_ok_intro.
  - intros d Hd Ld _. now apply precede_honest.
  - intros d a Hd Ld _ Fx Lv. now apply (precede_checks nv vars s t Bs d Hd Ld).
  - intros d a Hd Ld _ _ E. exfalso. unfold precede_body in E. destruct (first_possible d vars s); [|discriminate]. cbn [snd] in E. destruct (_ && _); discriminate.
  - intros d a Hd Ld _ E Lv. now apply (precede_entails nv vars s t Bs d Hd Ld).
Qed.

(** ** Chains *)

Lemma pairs_nth (chain : list Z) s t : In (s, t) (combine chain (tl chain)) <-> exists k, nth_error chain k = Some s /\ nth_error chain (S k) = Some t.
Proof.
  assert (N : forall (l m : list Z) s t, In (s, t) (combine l m) <-> exists k, nth_error l k = Some s /\ nth_error m k = Some t).
  { induction l as [|x l IH]; intros m s' t'; [split; [intros []|intros ([|k] & E & _); discriminate]|]. destruct m as [|y m]; [split; [intros []|intros ([|k] & _ & E); discriminate]|].
    cbn [combine In]. rewrite IH. split.
    - intros [[= -> ->]|(k & A & B)]; [now exists O|now exists (S k)].
    - intros ([|k] & A & B); simpl in A, B; [left; congruence|right; eauto]. }
  rewrite N. destruct chain as [|x r]; [split; intros ([|k] & E & _); discriminate|]. reflexivity.
Qed.

Lemma chain_carried d0 chain vars (sat : assignment -> Prop) : Forall (var_known d0) vars -> (forall a, within a d0 -> sat a -> chain_precedes chain vars a) ->
  carried d0 vars sat (fst (value_precede chain vars d0)) (chain_precedes chain vars).
Proof.
  intros K Im. cbn [value_precede fst].
  apply (carried_ext _ _ _ _ (fun a => forall p, In p (combine chain (tl chain)) -> precedes (fst p) (snd p) vars a)).
  - intros a _ H k s t Es Et. apply (H (s, t)). apply pairs_nth. eauto.
  - rewrite (map_ext _ (fun p => body_propagator (precede_body vars (fst p) (snd p)) vars [] [])) by (now intros [s t]).
    apply carried_map. intros [s t] I. cbn [fst snd]. apply pairs_nth in I. destruct I as (k & Es & Et). apply (carried_body _ _ vars); auto.
    + apply incl_refl.
    + rewrite !app_nil_r. apply incl_refl.
    + intros nv Ln. apply body_ok_meets; [intros a Wa Sa; exact (Im a Wa Sa k s t Es Et)|]. apply precede_body_ok. eapply Forall_impl; [|exact K]. intros v Kv. now apply (known_below_more d0).
Qed.

Lemma value_precede_correct d0 chain vars : Forall (var_known d0) vars -> correct_on d0 (value_precede chain vars) vars (chain_precedes chain vars).
Proof.
  intro K. apply (parts_correct d0 _ _ _ (chain_precedes chain vars) (fun _ => True)); auto.
  - now apply chain_carried.
  - apply established_nil.
Qed.

(** ** Sequences *)

Lemma greatest_upper_spec d vars : (forall v, In v vars -> upper_bound d v <= greatest_upper d vars) /\ 0 <= greatest_upper d vars.
Proof.
  assert (X : forall vars m, m <= fold_left (fun m v => Z.max m (upper_bound d v)) vars m /\
     forall v, In v vars -> upper_bound d v <= fold_left (fun m v => Z.max m (upper_bound d v)) vars m).
  { clear vars. induction vars as [|w r IH]; intro m; cbn [fold_left]; [split; [lia|intros v []]|]. destruct (IH (Z.max m (upper_bound d w))) as [A B]. split; [lia|].
    intros v [<-|I]; [lia|auto]. }
  destruct (X vars 0) as [A B]. split; assumption.
Qed.

(** A value needs all the smaller ones before it. *)
Lemma sequence_small vars a : values_in_sequence vars a -> forall j v, nth_error vars j = Some v -> var_value a v <= Z.of_nat j + 1.
Proof.
  intro H. apply (well_founded_induction lt_wf (fun j => forall v, nth_error vars j = Some v -> var_value a v <= Z.of_nat j + 1)). intros j IH v E.
  destruct (Z_lt_le_dec 1 (var_value a v)) as [L|L]; [|lia]. destruct (H (var_value a v) L j v E eq_refl) as (i & x & Hi & Ei & Ex). specialize (IH i Hi x Ei). lia.
Qed.

Lemma zrange_nth l u k x : nth_error (zrange l u) k = Some x <-> x = l + Z.of_nat k /\ x <= u.
Proof.
  unfold zrange. assert (X : forall n l, nth_error (zseq l n) k = Some x <-> x = l + Z.of_nat k /\ (k < n)%nat).
  { clear. revert x. induction k as [|k IH]; intros x [|n] l; cbn [zseq nth_error]; try (split; [discriminate|lia]); [split; [intros [= <-]; lia|intros [-> _]; f_equal; lia]|].
    rewrite IH. split; intros [-> ?]; split; lia. }
  rewrite X. split; intros [-> H]; split; lia.
Qed.

Lemma sequence_chain n vars a : values_in_sequence vars a -> chain_precedes (zrange 1 n) vars a.
Proof. intros H k s t Es Et. apply zrange_nth in Es, Et. replace s with (t - 1) by lia. apply H. lia. Qed.

Lemma chain_sequence n vars a : (forall v, In v vars -> var_value a v <= n) -> chain_precedes (zrange 1 n) vars a -> values_in_sequence vars a.
Proof.
  intros B H v Hv j y Ej Ey. pose proof (B y (nth_error_In _ _ Ej)) as Le. refine (H (Z.to_nat (v - 2)) (v - 1) v _ _ j y Ej Ey); apply zrange_nth; lia.
Qed.

Lemma seq_precede_chain_correct d0 vars : domains_ok d0 -> Forall (var_known d0) vars -> correct_on d0 (seq_precede_chain vars) vars (values_in_sequence vars).
Proof.
  intros H0 K. destruct (greatest_upper_spec d0 vars) as [Gu G0]. unfold seq_precede_chain.
  assert (Up : forall a v, within a d0 -> In v vars -> var_value a v <= greatest_upper d0 vars).
  { intros a v Wa I. pose proof (value_bounds d0 v a H0 (proj1 (Forall_forall _ _) K v I) Wa). specialize (Gu v I). lia. }
  set (n := Z.of_nat (length vars)) in *. set (m := greatest_upper d0 vars) in *.
  assert (Small : forall a v, values_in_sequence vars a -> In v vars -> var_value a v <= n).
  { intros a v Sa I. apply In_nth_error in I. destruct I as (j & Ej). pose proof (sequence_small vars a Sa j v Ej).
    assert (X : nth_error vars j <> None) by congruence. apply nth_error_Some in X. lia. }
  destruct ((n =? 0) || (m <? 1)) eqn:E.
  - apply (parts_correct d0 _ _ _ (fun _ => True) (fun _ => True)); auto; cbv beta zeta; fold m; fold n; rewrite ?E; cbn [fst snd]; [apply carried_nil|apply established_nil|].
    intros a Wa _ _ v Hv j y Ej Ey. exfalso. apply orb_true_iff in E. rewrite Z.eqb_eq, Z.ltb_lt in E. pose proof (nth_error_In _ _ Ej) as Iy. specialize (Up a y Wa Iy).
    destruct E as [E|E]; [|lia]. destruct vars; [destruct Iy|simpl in n; lia].
  - apply orb_false_iff in E. rewrite Z.eqb_neq, Z.ltb_ge in E. set (e := Z.min m n).
    apply (parts_correct d0 _ _ _ (fun a => e < 2 \/ chain_precedes (zrange 1 e) vars a) (fun a => forall v, In v vars -> var_value a v <= e)); auto; cbv beta zeta; fold m; fold n;
      rewrite ?(proj2 (Z.eqb_neq n 0)), ?(proj2 (Z.ltb_ge m 1)) by lia; cbn [orb fst snd]; fold e.
    + destruct (Z.ltb_spec e 2) as [L|L].
      * apply (carried_ext _ _ _ _ (fun _ => True)); [auto|apply carried_nil].
      * apply (carried_ext _ _ _ _ (chain_precedes (zrange 1 e) vars)); [auto|]. apply chain_carried; auto. intros a _. apply sequence_chain.
    + destruct (Z.ltb_spec e m) as [L|L].
      * apply established_flat_map. intros v I. apply established_upper; auto; [now apply (proj1 (Forall_forall _ _) K)|].
        intros a Wa Sa. specialize (Small a v Sa I). unfold e. lia.
      * apply (established_ext _ _ _ (fun _ => True)); [|apply established_nil]. intros a Wa _ v I. specialize (Up a v Wa I). lia.
    + intros a Wa [L|C] B.
      * intros v Hv j y Ej Ey. exfalso. pose proof (B y (nth_error_In _ _ Ej)). lia.
      * now apply (chain_sequence e).
Qed.
