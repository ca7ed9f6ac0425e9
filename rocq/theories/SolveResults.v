From Coq Require Import ZArith List Lia.
From Verif Require Import IntervalSet IntervalSetSpec Vars VarsSpec State StateSpec StateProofs Epochs Engine EngineSpec Tracker SessionSpec
  ContractSpec ContractProofs Search SearchSpec SearchTermProofs Nogoods Solve SolveSpec SolveProofs LubyProofs
  Heuristics HeuristicsSpec HeuristicsProofs Catalogue CatalogueSpec CatalogueProofs.
Import ListNotations.
Local Open Scope Z_scope.

Lemma exists_exactly {A} (P : A -> Prop) (R : A -> A -> Prop) l : (forall x y, R x y -> P x -> ~ P y) ->
  ForallOrdPairs R l -> Exists P l -> exactly_one P l.
Proof.
  intros X F. induction F as [|x l Fx F IH]; intro E; [inversion E|].
  assert (D : P x \/ Exists P l) by (inversion E; auto). clear E. destruct D as [Px|E].
  - exists [], x, l. split; [reflexivity|]. split; [assumption|]. split; [constructor|]. eapply Forall_impl; [|exact Fx]. intros y Ry. now apply (X x y).
  - destruct (IH E) as (b & y & af & -> & Py & Fb & Fa). exists (x :: b), y, af. split; [reflexivity|]. split; [assumption|]. split; [|assumption].
    constructor; [|assumption]. intro Px. rewrite Forall_forall in Fx. apply (X x y); auto. apply Fx. apply in_or_app. right. now left.
Qed.

Lemma domains_inhabited (d : domains) : domains_ok d -> exists a, within a d.
Proof.
  intro Hd. induction d as [|s d IH].
  - exists (fun _ => 0). intros n Hn. inversion Hn.
  - destruct IH as (a & Wa). { intros n Hn. apply (Hd (S n)). simpl. lia. }
    destruct (Hd 0%nat ltac:(simpl; lia)) as (_ & x & Mx). exists (fun n => match n with O => x | S m => a m end).
    intros [|n] Hn; [exact Mx|]. apply Wa. simpl in Hn. lia.
Qed.

Lemma apart_shows vs (d d' : domains) a : domains_ok d -> domains_ok d' -> apart vs d d' -> shows vs d a -> ~ shows vs d' a.
Proof.
  intros Hd Hd' A S S'. destruct (domains_inhabited d Hd) as (b & Wb). destruct (domains_inhabited d' Hd') as (b' & Wb').
  apply (A b b' Wb Wb'). unfold agree, shows in *. rewrite Forall_forall in *. intros v Iv. rewrite (S v Iv b Wb). symmetry. apply (S' v Iv b' Wb').
Qed.

Section Solve.
Variable abort : nat -> bool.
Variable fuel depth tries : nat.
Variable cb : callbacks.
Variable pb : problem.
Variable rs : list relation.
Variable vs : list var_id.
Hypothesis HA : stays_set abort.
Hypothesis HP : poses pb rs.
Hypothesis HB : exhaustive pb vs (cb_branch cb).
Hypothesis HV : forall v, pb_minimise pb = Some v -> var_below (length (pb_domains pb)) v /\ decides vs v.
Variable oc : outcome.
Hypothesis HS : solve abort fuel depth tries cb pb = Some oc.

Lemma reports_satisfy : Forall (fun d => domains_ok d /\ Forall (fixed d) vs /\ forall a, within a d -> within a (pb_domains pb) /\
    Forall (fun r : relation => Forall (decides vs) (fst r) -> snd r a) rs) (reports oc).
Proof. now destruct (solve_spec abort fuel depth tries cb pb rs vs HA HP HB HV oc HS) as (_ & _ & R & _). Qed.

Lemma reports_solve : Forall (fun r : relation => Forall (decides vs) (fst r)) rs ->
  Forall (fun d => (exists a, within a d) /\ forall a, within a d -> solution pb rs a) (reports oc).
Proof.
  intro D. eapply Forall_impl; [|exact reports_satisfy]. intros d (Hd & _ & W). split; [now apply domains_inhabited|].
  intros a Wa. destruct (W a Wa) as [In0 R]. split; [assumption|]. rewrite Forall_forall in *. auto.
Qed.

Lemma solution_shown a : pb_minimise pb = None -> oc_completed oc = true -> solution pb rs a -> Exists (fun d => shows vs d a) (reports oc).
Proof.
  intros M C S. destruct (solve_spec abort fuel depth tries cb pb rs vs HA HP HB HV oc HS) as (_ & _ & R & _ & Cov & _).
  specialize (Cov M C a S). apply Exists_exists in Cov. destruct Cov as (d & Id & a' & Sb & Wa'). apply Exists_exists. exists d. split; [assumption|].
  pose proof (proj1 (Forall_forall _ _) R d Id) as (_ & Fx & _). destruct HB as [Bv _]. unfold shows. rewrite Forall_forall in *. intros v Iv b Wb.
  destruct (Fx v Iv) as (x & Fv). rewrite (Fv b Wb). rewrite (same_below_value _ a a' v Sb (Bv v Iv)). symmetry. now apply Fv.
Qed.

Lemma solution_shown_once a : pb_minimise pb = None -> (cb_restarts cb <> None -> cb_refined cb = false) -> oc_completed oc = true ->
  solution pb rs a -> exactly_one (fun d => shows vs d a) (reports oc).
Proof.
  intros M Rf C S. destruct (solve_spec abort fuel depth tries cb pb rs vs HA HP HB HV oc HS) as (_ & _ & R & Ap & _ & _).
  specialize (Ap (fun _ => Rf)). apply (exists_exactly _ (fun d d' => domains_ok d /\ domains_ok d' /\ apart vs d d')).
  - intros d d' (Hd & Hd' & A). now apply apart_shows.
  - clear -R Ap. induction Ap as [|d l Fd _ IH]; [constructor|]. inversion_clear R as [|? ? Rd Rl]. constructor; [|now apply IH].
    rewrite Forall_forall in *. intros d' Id'. split; [apply Rd|]. split; [apply (Rl d' Id')|now apply Fd].
  - now apply solution_shown.
Qed.

Lemma never_repeated : pb_minimise pb = None -> (cb_restarts cb <> None -> cb_refined cb = false) -> ForallOrdPairs (apart vs) (reports oc).
Proof. intros M Rf. destruct (solve_spec abort fuel depth tries cb pb rs vs HA HP HB HV oc HS) as (_ & _ & _ & Ap & _). now apply Ap. Qed.

Lemma optimum v : pb_minimise pb = Some v -> improving v (reports oc) /\
  (oc_completed oc = true -> match reports oc with
                             | [] => forall a, ~ solution pb rs a
                             | d :: _ => exists x, has_value d v x /\ forall a, solution pb rs a -> x <= var_value a v
                             end).
Proof. intro M. destruct (solve_spec abort fuel depth tries cb pb rs vs HA HP HB HV oc HS) as (_ & _ & _ & _ & _ & O). now apply O. Qed.

Lemma stopping : oc_threw oc = false /\ obeyed oc.
Proof. now destruct (solve_spec abort fuel depth tries cb pb rs vs HA HP HB HV oc HS) as (T & O & _). Qed.

End Solve.

(** The provided heuristics are exhaustive. *)
Lemma all_vars_long pb rs : poses pb rs -> (length (pb_domains pb) <= all_vars pb)%nat.
Proof.
  intros _. unfold all_vars, set_up. assert (H : forall ks s, (length (su_domains s) <= length (su_domains (fold_left install ks s)))%nat).
  { induction ks as [|k ks IH]; intro s; [apply le_n|]. simpl. eapply Nat.le_trans; [|apply IH]. simpl. rewrite app_length. unfold domains, iset in *. lia. }
  apply (H (pb_constraints pb) (mk_setup (pb_domains pb) [] [] [])).
Qed.

Lemma heuristic_exhaustive pb rs rngs h : poses pb rs -> (forall k, honest (rngs k)) -> Forall (var_known (pb_domains pb)) (handles h) -> splits_forwards h ->
  exhaustive pb (handles h) (branch_of rngs h).
Proof.
  intros P Hr K S. assert (B : Forall (var_below (length (pb_domains pb))) (handles h)).
  { eapply Forall_impl; [|exact K]. intros v Kv. now apply known_below. }
  split; [assumption|]. apply heuristic_splits; auto. eapply Forall_impl; [|exact B]. intros v Bv. apply (below_more (length (pb_domains pb))); [now apply (all_vars_long pb rs)|assumption].
Qed.

(** ** Problems made of modelled constraints, with provided heuristics *)
Section Modelled.
Variables (d : domains) (ps : list posted) (m : option var_id) (pb : problem).
Hypothesis Hd : domains_ok d.
Hypothesis Hw : Forall (well_posed d) ps.
Hypothesis Hpb : problem_of d ps m = Some pb.
Variables (rngs : nat -> rng) (h : heuristic).
Hypothesis Hr : forall k, honest (rngs k).
Hypothesis Hh : Forall (var_known d) (handles h).
Hypothesis Hs : splits_forwards h.
Variable cb : callbacks.
Hypothesis Hb : cb_branch cb = branch_of rngs h.
Hypothesis Hm : forall v, m = Some v -> var_known d v /\ decides (handles h) v.
Variable abort : nat -> bool.
Hypothesis HA : stays_set abort.
Variables fuel depth tries : nat.

Lemma modelled_poses : poses pb (map meaning ps).
Proof. now apply (problem_poses d ps m). Qed.

Lemma modelled_exhaustive : exhaustive pb (handles h) (cb_branch cb).
Proof.
  rewrite Hb. apply (heuristic_exhaustive pb (map meaning ps)); auto using modelled_poses. now rewrite (proj1 (problem_parts _ _ _ _ Hpb)).
Qed.

Lemma modelled_objective : forall v, pb_minimise pb = Some v -> var_below (length (pb_domains pb)) v /\ decides (handles h) v.
Proof.
  destruct (problem_parts _ _ _ _ Hpb) as [E1 E2]. rewrite E1, E2. intros v Ev. destruct (Hm v Ev). split; [now apply known_below|assumption].
Qed.

Lemma modelled_decided : decides_all (handles h) ps -> Forall (fun r : relation => Forall (decides (handles h)) (fst r)) (map meaning ps).
Proof. intro D. apply Forall_map. exact D. Qed.

Lemma modelled_reports oc : decides_all (handles h) ps -> solve abort fuel depth tries cb pb = Some oc ->
  Forall (fun e => (exists a, within a e) /\ forall a, within a e -> solves d ps a) (reports oc).
Proof.
  intros D E.
  pose proof (reports_solve abort fuel depth tries cb pb (map meaning ps) (handles h) HA modelled_poses modelled_exhaustive modelled_objective oc E (modelled_decided D)) as R.
  eapply Forall_impl; [|exact R]. intros e [I W]. split; [assumption|]. intros a Wa. apply (solves_solution d ps m pb a Hpb). now apply W.
Qed.

Lemma modelled_once oc a : m = None -> (cb_restarts cb <> None -> cb_refined cb = false) -> solve abort fuel depth tries cb pb = Some oc ->
  oc_completed oc = true -> solves d ps a -> exactly_one (fun e => shows (handles h) e a) (reports oc).
Proof.
  intros M Rf E C S. destruct (problem_parts _ _ _ _ Hpb) as [_ E2].
  apply (solution_shown_once abort fuel depth tries cb pb (map meaning ps) (handles h) HA modelled_poses modelled_exhaustive modelled_objective oc E a); auto; [congruence|].
  now apply (solves_solution d ps m pb a Hpb).
Qed.

Lemma modelled_optimum oc v : m = Some v -> solve abort fuel depth tries cb pb = Some oc ->
  improving v (reports oc) /\
  (oc_completed oc = true -> match reports oc with
                             | [] => forall a, ~ solves d ps a
                             | e :: _ => exists x, has_value e v x /\ forall a, solves d ps a -> x <= var_value a v
                             end).
Proof.
  intros M E. destruct (problem_parts _ _ _ _ Hpb) as [_ E2].
  destruct (optimum abort fuel depth tries cb pb (map meaning ps) (handles h) HA modelled_poses modelled_exhaustive modelled_objective oc E v) as [I O]; [congruence|].
  split; [assumption|]. intro C. specialize (O C). destruct (reports oc) as [|e l].
  - intros a S. apply (O a). now apply (solves_solution d ps m pb a Hpb).
  - destruct O as (x & Hx & Lx). exists x. split; [assumption|]. intros a S. apply Lx. now apply (solves_solution d ps m pb a Hpb).
Qed.

Lemma modelled_ends : (forall s, cb_restarts cb = Some s -> grows s) ->
  (S (total_size (su_domains (set_up pb))) * S (S (length (su_props (set_up pb)))) <= fuel)%nat ->
  (total_size (su_domains (set_up pb)) < depth)%nat ->
  exists tries oc, solve abort fuel depth tries cb pb = Some oc /\ oc_threw oc = false.
Proof.
  intros G F D.
  destruct (solve_ends abort fuel depth cb pb (map meaning ps) (handles h) HA modelled_poses modelled_exhaustive modelled_objective G F D) as (t & oc & E).
  exists t, oc. split; [assumption|].
  apply (stopping abort fuel depth t cb pb (map meaning ps) (handles h) HA modelled_poses modelled_exhaustive modelled_objective oc E).
Qed.

End Modelled.
