(** Proofs about SmartTable and LexSmartTable. *)
From Coq Require Import ZArith List Bool Lia Permutation Sorted.
From Verif Require Import IntervalSet IntervalSetSpec IntervalSetProofs Vars VarsSpec VarsProofs State StateSpec StateProofs Epochs Engine EngineSpec EngineProofs SessionSpec Tracker ContractSpec ContractProofs
  TabulationProofs Passes PassesProofs OnceProofs RunProofs PartsProofs Solve SolveSpec SolveProofs ConsistencySpec MultiplyProofs DivideModulusProofs PowerProofs.
From Verif Require KnapsackProofs.
From Verif Require Import SmartTable SmartTableSpec SmartTableTreeProofs SmartTableValueProofs.
Import ListNotations.
Local Open Scope Z_scope.

(** ** Literals that have been told *)
Fixpoint enforces (nv : nat) (a : assignment) (p : prog) (d : domains) : Prop :=
  match p with
  | Stop => True
  | Infer l rest => lit_holds a l /\ exists d', domains_ok d' /\ length d' = nv /\ inside d d' /\ within a d' /\ (forall b, within b d' -> lit_holds b l) /\ enforces nv a rest d'
  | Look f => enforces nv a (f d) d
  end.

Lemma exec_enforces nv d (Hd : domains_ok d) (Ld : length d = nv) (a : assignment) p : forall D (P : assignment -> Prop) t, (t_failed t = false -> inside D (t_domains t)) -> tells nv D P p -> legit nv d t -> live nv d (exec p t) a ->
  t_failed t = false /\ within a (t_domains t) /\ enforces nv a p (t_domains t).
Proof.
  induction p as [|l r IH|f IH]; intros D P t HD S G Lv; simpl in *.
  - destruct Lv as (_ & F & W). auto.
  - destruct S as (B & _ & S). assert (G' : legit nv d (tell l t)) by now apply legit_tell.
    assert (HD' : t_failed (tell l t) = false -> inside (t_domains t) (t_domains (tell l t))).
    { intros F b Wb. apply (tell_live nv d Hd Ld l t b G B F Wb). }
    assert (HD2 : t_failed (tell l t) = false -> inside D (t_domains (tell l t))).
    { intro F. assert (F0 : t_failed t = false) by (destruct (t_failed t) eqn:E; [rewrite tell_failed in F by assumption; congruence|reflexivity]).
      apply (inside_trans D (t_domains t)); auto. }
    destruct (IH D P (tell l t) HD2 S G' Lv) as (F' & W' & O'). destruct (tell_live nv d Hd Ld l t a G B F' W') as (F0 & W0 & L0).
    split; [assumption|]. split; [assumption|]. split; [assumption|]. exists (t_domains (tell l t)).
    split; [now apply (legit_ok nv d)|]. split; [now apply (legit_length nv d)|]. split; [auto|]. split; [assumption|]. split; [|assumption].
    intros b Wb. now apply (tell_live nv d Hd Ld l t b G B F' Wb).
  - assert (F0 : t_failed t = false) by (destruct (t_failed t) eqn:E; [rewrite exec_failed in Lv by assumption; destruct Lv as (_ & F & _); congruence|reflexivity]).
    apply (IH (t_domains t) (t_domains t) (fun b => P b /\ within b (t_domains t)) t); auto; [intros; apply inside_refl|].
    apply S; [now apply (legit_ok nv d)|now apply (legit_length nv d)|auto].
Qed.

Lemma once_meets_enforced nv d0 alias p scope (sat part : assignment -> Prop) :
  (forall d, domains_ok d -> length d = nv -> inside d0 d -> tells nv d (fun a => sat a /\ within a d) p) ->
  (forall d a, domains_ok d -> length d = nv -> inside d0 d -> Forall (fixed d) scope -> within a d -> enforces nv a p d -> part a) ->
  meets nv d0 alias (once p) scope sat part.
Proof.
  intros T C. constructor; cbn [once fst snd]; try discriminate.
  - intros d Hd Ld I. apply (tells_honest nv d Hd Ld sat p d (fun a => sat a /\ within a d)); auto; [intros _; apply inside_refl|now apply honest_track].
  - intros d a Hd Ld I F Lv. destruct (exec_enforces nv d Hd Ld a p d (fun a => sat a /\ within a d) (track d)) as (_ & Wa & O); auto; [intros _; apply inside_refl|apply legit_track|].
    now apply (C d a).
Qed.

(** ** The rows *)
Definition piece : Type := (var_id * row * list (list entry))%type.
Definition p_selector (x : piece) : var_id := fst (fst x).
Definition p_row (x : piece) : row := snd (fst x).
Definition p_trees (x : piece) : list (list entry) := snd x.

(** The trees of a row are its entries. *)
Definition whole (x : piece) : Prop := forall e, In e (concat (p_trees x)) <-> In e (p_row x).

Lemma in_list_iff vs v : in_list vs v = true <-> In v vs.
Proof.
  unfold in_list. rewrite existsb_exists. split; [intros (w & I & E); apply EqualsProofs.var_eqb_spec in E; now subst|]. intro I. exists v. split; [assumption|]. now apply EqualsProofs.var_eqb_spec.
Qed.

Lemma all_values_listed d vars v x : In v vars -> In x (each_value d v) -> In x (all_values d vars v).
Proof.
  intros I J. unfold all_values. apply in_flat_map. exists v. split; [assumption|]. assert (E : Equals.var_eqb v v = true) by now apply EqualsProofs.var_eqb_spec. now rewrite E.
Qed.

Lemma all_values_from d vars v x : In x (all_values d vars v) -> In v vars /\ In x (each_value d v).
Proof.
  unfold all_values. intro I. apply in_flat_map in I. destruct I as (w & I & J). destruct (Equals.var_eqb v w) eqn:E; [|destruct J]. apply EqualsProofs.var_eqb_spec in E. subst w. auto.
Qed.

Lemma all_values_single d vars v : NoDup vars -> In v vars -> all_values d vars v = each_value d v.
Proof.
  unfold all_values. induction 1 as [|w vars Nw N IH]; [intros []|]. intro I. cbn [flat_map].
  destruct (Equals.var_eqb v w) eqn:E.
  - apply EqualsProofs.var_eqb_spec in E. subst w. enough (flat_map (fun w => if Equals.var_eqb v w then each_value d w else []) vars = []) as -> by apply app_nil_r.
    clear IH I N. induction vars as [|u vars IH]; [reflexivity|]. cbn [flat_map]. destruct (Equals.var_eqb v u) eqn:E; [apply EqualsProofs.var_eqb_spec in E; subst u; exfalso; apply Nw; now left|].
    apply IH. intro J. apply Nw. now right.
  - destruct I as [->|I]; [rewrite (proj2 (EqualsProofs.var_eqb_spec v v) eq_refl) in E; discriminate|]. cbn [app]. exact (IH I).
Qed.

Lemma clear_all_In vs : forall u v, In v vs -> fold_left (fun u v => set_at u v []) vs u v = [].
Proof.
  assert (Nil : forall vs u v, u v = [] -> fold_left (fun (u : values_of) v => set_at u v []) vs u v = []).
  { intro l. induction l as [|w l IH]; intros u v E; [exact E|]. cbn [fold_left]. apply IH. unfold set_at. destruct (Equals.var_eqb v w); auto. }
  induction vs as [|w vs IH]; intros u v I; [destruct I|]. cbn [fold_left]. destruct I as [->|I]; [|now apply IH]. apply Nil. apply set_at_same.
Qed.

Lemma clear_all_incl vs : forall u v x, In x (fold_left (fun u v => set_at u v []) vs u v) -> In x (u v).
Proof.
  induction vs as [|w vs IH]; intros u v x I; [assumption|]. cbn [fold_left] in I. apply IH in I. unfold set_at in I. destruct (Equals.var_eqb v w); [destruct I|assumption].
Qed.

Section Pass.
Variable nv : nat.
Variable vars : list var_id.
Hypothesis B : Forall (var_below nv) vars.

Definition usable (e : entry) : Prop := forall v, In v (entry_vars e) -> no_constant v /\ In (VSimple (var_number v)) vars.

(** What is so of the pieces: their selectors are variables, and their entries are about the variables. *)
Definition piece_ok (x : piece) : Prop := var_below nv (p_selector x) /\ whole x /\ Forall usable (p_row x).

(** The selectors say which rows hold. *)
Definition selected (a : assignment) (x : piece) : Prop := (Forall (entry_holds a) (p_row x) -> var_value a (p_selector x) = 1) /\ (~ Forall (entry_holds a) (p_row x) -> var_value a (p_selector x) = 0).

Lemma is_zero_iff d v : domains_ok d -> length d = nv -> var_below nv v -> (is_zero d v = true <-> forall a, within a d -> var_value a v = 0).
Proof.
  intros Hd Ld Bv. assert (Kv : var_known d v) by now apply (MultiplyProofs.known_here nv). unfold is_zero. split.
  - destruct (optional_single_value d v) as [x|] eqn:E; [|discriminate]. intros Z a Wa. apply Z.eqb_eq in Z. subst x. now apply (osv_value d v 0 Hd Kv E).
  - intro H. destruct (within_exists d Hd) as [a Wa]. assert (F : fixed d v) by (exists 0; auto). rewrite (fixed_single_value d v a) by assumption. rewrite H by assumption. reflexivity.
Qed.

Lemma start_listed d a n : domains_ok d -> length d = nv -> within a d -> In (VSimple n) vars -> listed a (all_values d vars) n.
Proof.
  intros Hd Ld Wa I. unfold listed. apply all_values_listed; [assumption|]. apply (KnapsackProofs.value_listed nv d (VSimple n) a); auto. rewrite Forall_forall in B. auto.
Qed.

Lemma try_rows_tells finish rows : Forall piece_ok rows -> forall D (P : assignment -> Prop) U,
  (forall a, P a -> Forall (selected a) rows) ->
  (forall a, P a -> (exists x, In x rows /\ Forall (entry_holds a) (p_row x)) \/ forall v, In v vars -> ~ In (var_value a v) (U v)) ->
  (forall E (Q : assignment -> Prop) U', inside D E -> (forall a, Q a -> P a) -> (forall a, Q a -> forall v, In v vars -> ~ In (var_value a v) (U' v)) -> tells nv E Q (finish U')) ->
  tells nv D P (try_rows vars rows U finish).
Proof.
  induction rows as [|[[s r] ts] rows IH]; intros F D P U Sel Inv Fin; cbn [try_rows].
  - apply Fin; [apply inside_refl|auto|]. intros a Pa v I. destruct (Inv a Pa) as [(x & [] & _)|H]; auto.
  - apply Forall_cons_iff in F. destruct F as [Ok F]. destruct Ok as (Bs & Wh & Us). cbn [p_selector p_row p_trees fst snd] in *. cbn [tells]. intros d Hd Ld Id.
    assert (Sel' : forall a, P a -> selected a (s, r, ts) /\ Forall (selected a) rows) by (intros a Pa; apply Sel in Pa; now inversion Pa).
    destruct (is_zero d s) eqn:Z.
    + apply IH; auto.
      * intros a [Pa _]. now apply Sel'.
      * intros a [Pa Wa]. destruct (Inv a Pa) as [(x & [<-|I] & H)|H]; [|left; eauto|now right]. destruct (Sel' a Pa) as [[S1 _] _]. apply S1 in H. cbn [p_selector fst] in H.
        rewrite (proj1 (is_zero_iff d s Hd Ld Bs) Z a Wa) in H. discriminate.
      * intros E Q U' I HQ HU. apply Fin; auto; [now apply (inside_trans D d)|]. intros a Qa. now apply HQ.
    + destruct (try_trees (all_values d vars) ts U) as [U1 ok] eqn:Et.
      assert (Hold : forall a, P a -> within a d -> Forall (entry_holds a) r -> ok = true /\ forall e v, In e r -> In v (entry_vars e) -> ~ In (var_value a v) (U1 v)).
      { intros a Pa Wa H. destruct (try_trees_sound a (all_values d vars) ts U) as [A C].
        - intros e v Ie Iv. apply Wh in Ie. rewrite Forall_forall in Us. destruct (Us e Ie v Iv). split; [assumption|]. now apply start_listed.
        - apply Forall_forall. intros e Ie. apply Wh in Ie. rewrite Forall_forall in H. auto.
        - rewrite Et in A, C. cbn [fst snd] in A, C. split; [assumption|]. intros e v Ie. apply C. now apply Wh. }
      apply tells_when.
      * intro V. apply negb_true_iff in V. split; [exact Bs|]. intros a [Pa Wa]. cbn. destruct (Sel' a Pa) as [[_ S2] _]. apply S2. intro H. destruct (Hold a Pa Wa H). cbn [p_row fst snd] in *. congruence.
      * cbn [tells]. intros d' Hd' Ld' Id'. apply IH; auto.
        -- intros a [[Pa _] _]. now apply Sel'.
        -- intros a [[Pa Wa] Wa']. destruct (Inv a Pa) as [(x & [<-|I] & H)|H]; [|left; eauto|].
           ++ right. cbn [p_row fst snd] in H. destruct (Sel' a Pa) as [[S1 _] _]. apply S1 in H as H1. cbn [p_selector fst] in H1.
              destruct (is_zero d' s) eqn:Z'; [rewrite (proj1 (is_zero_iff d' s Hd' Ld' Bs) Z' a Wa') in H1; discriminate|].
              intros v Iv. destruct (in_list (flat_map entry_vars r) v) eqn:L.
              ** apply in_list_iff, in_flat_map in L. destruct L as (e & Ie & Iv'). intro X. apply clear_all_incl in X. revert X. destruct (Hold a Pa Wa H) as [_ G]. now apply (G e).
              ** rewrite clear_all_In; [intros []|]. apply filter_In. split; [assumption|]. now rewrite L.
           ++ right. intros v Iv X. apply (H v Iv). assert (X1 : In (var_value a v) (U1 v)) by (destruct (is_zero d' s); [assumption|now apply clear_all_incl in X]).
              replace U1 with (fst (try_trees (all_values d vars) ts U)) in X1 by now rewrite Et. now apply try_trees_incl in X1.
        -- intros E Q U' I HQ HU. apply Fin; auto; [apply (inside_trans D d); [assumption|now apply (inside_trans d d')]|]. intros a Qa. now apply HQ.
Qed.

Lemma smart_pass_tells rows D (P : assignment -> Prop) : Forall piece_ok rows -> (forall a, P a -> Forall (selected a) rows /\ exists x, In x rows /\ Forall (entry_holds a) (p_row x)) ->
  tells nv D P (smart_pass vars rows).
Proof.
  intros Ok H. unfold smart_pass. cbn [tells]. intros d Hd Ld Id. apply try_rows_tells; auto.
  - intros a [Pa _]. now apply H.
  - intros a [Pa _]. left. now apply H.
  - intros E Q U IE HQ HU. unfold remove_unsupported. cbn [tells]. intros d' Hd' Ld' Id'.
    destruct (forallb _ _) eqn:Z.
    + cbn [tells]. split; [exact Logic.I|]. split; [|exact Logic.I]. intros a [Qa Wa]. destruct (H a) as [Sel (x & I & Hx)]; [now apply HQ|]. exfalso.
      rewrite forallb_forall in Z. rewrite Forall_forall in Sel, Ok. destruct (Sel x I) as [S1 _]. apply S1 in Hx.
      rewrite (proj1 (is_zero_iff d' (p_selector x) Hd' Ld' (proj1 (Ok x I)))) in Hx; [discriminate| |assumption]. apply Z. apply in_map_iff. now exists x.
    + apply (tells_sequence nv) with (D := d'); [|intros; exact Logic.I|apply inside_refl]. intros F v rest Iv IF R.
      apply (tells_sequence nv) with (D := F); [|intros; now apply R|apply inside_refl]. intros G x r' Ix IG R'. cbn [tells]. split; [|split; [|apply R'; apply inside_refl]].
      * rewrite Forall_forall in B. now apply B.
      * intros a [Qa Wa] X. cbn in X. apply (HU a Qa v Iv). rewrite X. exact Ix.
Qed.

(** ** When the variables are known *)
Section Known.
Variable a : assignment.

Definition pinned (m : values_of) : Prop := forall n, In (VSimple n) vars -> m (VSimple n) = [a n].

Lemma pinned_get m v : pinned m -> no_constant v -> In (VSimple (var_number v)) vars -> get_values m v = [var_value a v].
Proof. intros Pm C I. destruct v as [n|n neg add|c]; [now apply Pm| |contradiction]. cbn [get_values var_number] in *. rewrite Pm by assumption. cbn [map]. f_equal. symmetry. exact (value_seen a (VView n neg add) C). Qed.

Lemma pinned_set m v : pinned m -> no_constant v -> pinned (set_values m v [var_value a v]).
Proof.
  intros Pm C n I. destruct (Nat.eq_dec n (var_number v)) as [->|N]; [|rewrite set_values_other by assumption; now apply Pm].
  destruct v as [n|n neg add|c]; [| |contradiction]; cbn [set_values var_number] in *; rewrite set_at_same; [reflexivity|]. rewrite Pm by assumption. cbn [length Nat.sub repeat map app]. f_equal.
  rewrite value_seen by assumption. exact (unsee_see (VView n neg add) (a n) C).
Qed.

Lemma fixed_edge e m : entry_suits vars e -> pinned m ->
  (entry_holds a e /\ pinned (filter_edge e m)) \/ (~ entry_holds a e /\ existsb (fun v => is_nil (get_values (filter_edge e m) v)) (entry_vars e) = true).
Proof.
  intros (Us & Si & Ap) Pm. assert (G : forall v, In v (entry_vars e) -> no_constant v /\ get_values m v = [var_value a v]).
  { intros v I. specialize (Us v I). assert (C : no_constant v) by (destruct v; [exact Logic.I|exact Logic.I|contradiction]). split; [assumption|]. apply pinned_get; auto. destruct v; auto; contradiction. }
  destruct e as [v w t|v x t|v values inside]; cbn [filter_edge entry_vars entry_holds] in *.
  - destruct (G v (or_introl eq_refl)) as [Cv Gv]. destruct (G w (or_intror (or_introl eq_refl))) as [Cw Gw]. rewrite Gv, Gw. cbn [sort_values fold_right insert_value]. rewrite filter_pair_single.
    destruct (passes_test t (var_value a v) (var_value a w)) eqn:T.
    + left. split; [now apply passes_test_iff|]. apply pinned_set; [|assumption]. now apply pinned_set.
    + right. assert (NT : ~ related t (var_value a v) (var_value a w)) by (rewrite <- passes_test_iff; congruence). split; [assumption|]. cbn [existsb]. rewrite orb_false_r.
      assert (Wn : forall m', simple w -> is_nil (get_values (set_values m' w []) w) = true) by (intros m' Sw; now rewrite set_values_simple).
      assert (Vn : forall m' l, simple v -> is_nil (get_values (set_values (set_values m' v []) w l) v) = true).
      { intros m' l Sv. rewrite (get_values_ext _ (set_values m' v [])) by now apply set_values_other. now rewrite set_values_simple. }
      apply orb_true_iff. destruct t; try (destruct Si as [Si|Si]; [left; now apply Vn|right; now apply Wn]). right. now apply Wn.
  - destruct (G v (or_introl eq_refl)) as [Cv Gv]. rewrite Gv. cbn [sort_values fold_right insert_value filter]. destruct (passes_test t (var_value a v) x) eqn:T.
    + left. split; [now apply passes_test_iff|now apply pinned_set].
    + right. split; [rewrite <- passes_test_iff; congruence|]. cbn [existsb]. rewrite set_values_simple by assumption. reflexivity.
  - destruct (G v (or_introl eq_refl)) as [Cv Gv]. rewrite Gv. cbn [sort_values fold_right insert_value]. fold (sort_values values).
    assert (S1 : StronglySorted Z.le [var_value a v]) by repeat constructor. assert (N1 : NoDup [var_value a v]) by (repeat constructor; intros []).
    assert (One : forall l : list Z, incl l [var_value a v] -> NoDup l -> (In (var_value a v) l /\ l = [var_value a v]) \/ (~ In (var_value a v) l /\ l = [])).
    { intros [|x [|y l]] I N; [right; split; [intros []|reflexivity]| |].
      - left. destruct (I x (or_introl eq_refl)) as [E|[]]. subst x. split; [now left|reflexivity].
      - exfalso. destruct (I x (or_introl eq_refl)) as [E|[]]. destruct (I y (or_intror (or_introl eq_refl))) as [E'|[]]. inversion N as [|? ? A _]. apply A. left. congruence. }
    destruct inside.
    + destruct (One (meet [var_value a v] (sort_values values))) as [[I E]|[I E]].
      * intros x I. now apply meet_both in I.
      * now apply meet_NoDup.
      * left. rewrite E. split; [|now apply pinned_set]. apply meet_both in I. now rewrite sort_values_In in I.
      * right. rewrite E. split; [|cbn [existsb]; now rewrite set_values_simple]. intro H. apply I. apply meet_In; [assumption|apply sort_values_sorted|now left|now apply sort_values_In].
    + destruct (One (minus [var_value a v] (sort_values values))) as [[I E]|[I E]].
      * intros x I. now apply minus_left in I.
      * now apply minus_NoDup.
      * left. rewrite E. split; [|now apply pinned_set]. apply minus_out in I; auto using sort_values_sorted. now rewrite sort_values_In in I.
      * right. rewrite E. split; [|cbn [existsb]; now rewrite set_values_simple]. intro H. apply I. apply minus_In; [now left|]. now rewrite sort_values_In.
Qed.

Lemma fixed_valid es : forall m m', Forall (entry_suits vars) es -> pinned m -> filter_valid es m = Some m' -> Forall (entry_holds a) es.
Proof.
  induction es as [|e es IH]; intros m m' S Pm E; [constructor|]. apply Forall_cons_iff in S. destruct S as [Se S]. cbn [filter_valid] in E.
  destruct (fixed_edge e m Se Pm) as [[H P']|[_ N]]; [|rewrite N in E; discriminate]. destruct (existsb _ _); [discriminate|]. constructor; [assumption|]. now apply (IH (filter_edge e m) m').
Qed.

Lemma fixed_trees start ts : forall u, Forall (entry_suits vars) (concat ts) -> pinned start -> snd (try_trees start ts u) = true -> Forall (entry_holds a) (concat ts).
Proof.
  induction ts as [|es ts IH]; intros u S Pm E; [constructor|]. cbn [concat] in *. apply Forall_app in S. destruct S as [S1 S2]. cbn [try_trees] in E.
  destruct (filter_valid es start) as [m|] eqn:V; [|discriminate]. apply Forall_app. split; [now apply (fixed_valid es start m)|]. now apply (IH (filter_again es m u)).
Qed.
End Known.

Lemma fixed_start d a : NoDup vars -> domains_ok d -> length d = nv -> Forall (fixed d) vars -> within a d -> pinned a (all_values d vars).
Proof.
  intros N Hd Ld F Wa n I. rewrite all_values_single by assumption. rewrite Forall_forall in F, B. apply (fixed_each_value d (VSimple n) a); auto. apply (MultiplyProofs.known_here nv); auto.
Qed.

Lemma is_zero_mono d d' v : domains_ok d -> length d = nv -> domains_ok d' -> length d' = nv -> var_below nv v -> inside d d' -> is_zero d v = true -> is_zero d' v = true.
Proof. intros Hd Ld Hd' Ld' Bv I Z. apply is_zero_iff; auto. intros a Wa. apply (proj1 (is_zero_iff d v Hd Ld Bv) Z). now apply I. Qed.

Lemma fixed_rows finish a rows : NoDup vars -> Forall (fun x => piece_ok x /\ Forall (entry_suits vars) (p_row x)) rows -> forall d U, domains_ok d -> length d = nv -> Forall (fixed d) vars -> within a d ->
  enforces nv a (try_rows vars rows U finish) d ->
  exists d' U', domains_ok d' /\ length d' = nv /\ inside d d' /\ within a d' /\ enforces nv a (finish U') d' /\
    forall x, In x rows -> Forall (entry_holds a) (p_row x) \/ is_zero d' (p_selector x) = true.
Proof.
  intros N. induction rows as [|[[s r] ts] rows IH]; intros Ok d U Hd Ld Fx Wa En; cbn [try_rows] in En.
  - exists d, U. repeat (split; [first [assumption|apply inside_refl]|]). intros x [].
  - apply Forall_cons_iff in Ok. destruct Ok as [[(Bs & Wh & Us) Su] Ok]. cbn [p_selector p_row p_trees fst snd] in *. cbn [enforces] in En.
    assert (Next : forall d1 U1, domains_ok d1 -> length d1 = nv -> inside d d1 -> within a d1 -> (Forall (entry_holds a) r \/ is_zero d1 s = true) -> enforces nv a (try_rows vars rows U1 finish) d1 ->
      exists d' U', domains_ok d' /\ length d' = nv /\ inside d d' /\ within a d' /\ enforces nv a (finish U') d' /\
        forall x, In x ((s, r, ts) :: rows) -> Forall (entry_holds a) (p_row x) \/ is_zero d' (p_selector x) = true).
    { intros d1 U1 Hd1 Ld1 I1 W1 St E1. destruct (IH Ok d1 U1) as (d' & U' & Hd' & Ld' & I' & W' & E' & R'); auto. { eapply Forall_impl; [|exact Fx]. intros v. now apply fixed_mono. }
      exists d', U'. repeat (split; [first [assumption|now apply (inside_trans d d1)]|]). intros x [<-|I]; [|auto]. cbn [p_row p_selector fst snd]. destruct St as [St|St]; [now left|right].
      now apply (is_zero_mono d1). }
    destruct (is_zero d s) eqn:Z; [apply (Next d U); auto; apply inside_refl|].
    destruct (try_trees (all_values d vars) ts U) as [U1 ok] eqn:Et. destruct ok; cbn [negb infer_when] in En.
    + cbn [enforces] in En. eapply Next; [exact Hd|exact Ld|apply inside_refl|exact Wa| |exact En]. left. apply Forall_forall. intros e Ie. apply Wh in Ie.
      assert (H : Forall (entry_holds a) (concat ts)); [|rewrite Forall_forall in H; auto]. apply (fixed_trees a (all_values d vars) ts U).
      * apply Forall_forall. intros e' Ie'. apply Wh in Ie'. rewrite Forall_forall in Su. auto.
      * now apply fixed_start.
      * now rewrite Et.
    + cbn [enforces] in En. destruct En as (_ & d1 & Hd1 & Ld1 & I1 & W1 & L1 & En). eapply Next; [exact Hd1|exact Ld1|exact I1|exact W1| |exact En]. right. apply is_zero_iff; auto.
Qed.

Lemma smart_pass_checks a rows d : NoDup vars -> Forall (fun x => piece_ok x /\ Forall (entry_suits vars) (p_row x)) rows -> domains_ok d -> length d = nv -> Forall (fixed d) vars -> within a d ->
  enforces nv a (smart_pass vars rows) d -> exists x, In x rows /\ Forall (entry_holds a) (p_row x).
Proof.
  intros N Ok Hd Ld Fx Wa En. unfold smart_pass in En. cbn [enforces] in En. destruct (fixed_rows _ a rows N Ok d _ Hd Ld Fx Wa En) as (d' & U' & Hd' & Ld' & I' & W' & E' & R').
  unfold remove_unsupported in E'. cbn [enforces] in E'. destruct (forallb (is_zero d') _) eqn:Z; [cbn [enforces] in E'; destruct E' as [[] _]|].
  assert (X : exists x, In x rows /\ is_zero d' (p_selector x) = false).
  { clear - Z. induction rows as [|x rows IH]; [discriminate|]. cbn [map forallb] in Z. destruct (is_zero d' (p_selector x)) eqn:E; [|exists x; split; [now left|assumption]].
    unfold p_selector in E. rewrite E in Z. destruct (IH Z) as (y & I & Ey). exists y. split; [now right|assumption]. }
  destruct X as (x & I & Zx). exists x. split; [assumption|]. destruct (R' x I) as [H|H]; [assumption|congruence].
Qed.
End Pass.

(** ** Posting it *)
Lemma related_dec t x y : {related t x y} + {~ related t x y}.
Proof. destruct (passes_test t x y) eqn:E; [left; now apply passes_test_iff|right; rewrite <- passes_test_iff; congruence]. Qed.

Lemma entry_holds_dec a e : {entry_holds a e} + {~ entry_holds a e}.
Proof.
  destruct e as [v w t|v x t|v values inside]; cbn [entry_holds]; try apply related_dec. destruct (in_dec Z.eq_dec (var_value a v) values) as [I|I], inside; auto.
Qed.

Lemma entry_same m vars a a' e : usable vars e -> Forall (var_below m) vars -> same_below m a a' -> (entry_holds a e <-> entry_holds a' e).
Proof.
  intros U Bm S. assert (V : forall v, In v (entry_vars e) -> var_value a v = var_value a' v).
  { intros v I. destruct (U v I) as [C J]. rewrite !value_seen by assumption. rewrite Forall_forall in Bm. specialize (Bm _ J). cbn in Bm. now rewrite (S _ Bm). }
  destruct e as [v w t|v x t|v values [|]]; cbn [entry_holds entry_vars] in *; rewrite ?(V v (or_introl eq_refl)), ?(V w (or_intror (or_introl eq_refl))); reflexivity.
Qed.

Lemma entries_same m vars a a' r : Forall (usable vars) r -> Forall (var_below m) vars -> same_below m a a' -> (Forall (entry_holds a) r <-> Forall (entry_holds a') r).
Proof.
  intros U Bm S. rewrite Forall_forall in U. rewrite !Forall_forall. split; intros H e I; apply (entry_same m vars a a' e); auto.
Qed.

Lemma suits_usable vars e : entry_suits vars e -> usable vars e.
Proof. intros (U & _) v I. specialize (U v I). destruct v; cbn in *; auto; contradiction. Qed.

Lemma suits_all_usable vars r : Forall (entry_suits vars) r -> Forall (usable vars) r.
Proof. intro S. eapply Forall_impl; [|exact S]. apply suits_usable. Qed.

Lemma suits_apart vars r : Forall (entry_suits vars) r -> forall v w t, In (Compare v w t) r -> var_number v <> var_number w.
Proof. intros S v w t I. rewrite Forall_forall in S. destruct (S _ I) as (_ & _ & A). exact A. Qed.

Lemma nth_same {X} (x y : X) n k : (k < n)%nat -> nth k (repeat x n) y = x.
Proof. intro H. rewrite (nth_indep _ y x) by (now rewrite repeat_length). apply nth_repeat. Qed.

Section Post.
Variable orders : list (list nat).
Variable vars : list var_id.
Variable rows : list row.
Hypothesis Suits : table_suits vars rows.

Definition pieces (n : nat) : list piece := map (fun i => (VSimple (n + i), nth i rows [], forest (nth i orders []) (nth i rows []))) (seq 0 (length rows)).

Lemma row_suits i : (i < length rows)%nat -> acyclic (nth i rows []) /\ Forall (entry_suits vars) (nth i rows []).
Proof. intro Hi. destruct Suits as [_ F]. rewrite Forall_forall in F. apply F. now apply nth_In. Qed.

Lemma pieces_ok m n : (n + length rows <= m)%nat -> Forall (fun x => piece_ok m vars x /\ Forall (entry_suits vars) (p_row x)) (pieces n).
Proof.
  intro L. apply Forall_forall. intros x I. apply in_map_iff in I. destruct I as (i & <- & I). apply in_seq in I. destruct (row_suits i) as [Ac Su]; [lia|]. cbn [p_row fst snd].
  split; [|assumption]. split; [unfold var_below; cbn; lia|]. split; [|now apply suits_all_usable]. intro e. cbn [p_trees p_row fst snd]. split; [apply (forest_of_row _ (suits_apart vars _ Su))|now apply (forest_all _ (suits_apart vars _ Su))].
Qed.

Lemma pieces_ok1 m n : (n + length rows <= m)%nat -> Forall (piece_ok m vars) (pieces n).
Proof. intro L. eapply Forall_impl; [|exact (pieces_ok m n L)]. intros x H. apply H. Qed.

Lemma pieces_some n a : (exists x, In x (pieces n) /\ Forall (entry_holds a) (p_row x)) <-> some_row rows a.
Proof.
  split.
  - intros (x & I & H). apply in_map_iff in I. destruct I as (i & <- & I). apply in_seq in I. exists (nth i rows []). split; [apply nth_In; lia|exact H].
  - intros (r & I & H). destruct (In_nth rows r [] I) as (i & Hi & <-). eexists. split; [apply in_map_iff; exists i; split; [reflexivity|apply in_seq; lia]|exact H].
Qed.

Definition chosen (n : nat) (a : assignment) : Prop := Forall (selected a) (pieces n) /\ some_row rows a.

Lemma some_row_local m : Forall (var_below m) vars -> local m (some_row rows).
Proof.
  intros Bm a a' Sm (r & I & H). exists r. split; [assumption|]. destruct (In_nth rows r [] I) as (i & Hi & <-). apply (entries_same m vars a a'); auto. apply suits_all_usable. now apply row_suits.
Qed.

Section Install.
Variables (d : domains) (cs : list cstate).
Hypothesis Hd : domains_ok d.
Hypothesis K : Forall (var_known d) vars.
Notation own := (repeat [(0, 1)] (length rows) : domains).

Lemma selectors_length : length (d ++ own) = (length d + length rows)%nat.
Proof. rewrite app_length, repeat_length. reflexivity. Qed.

Lemma vars_below m : (length (d ++ own) <= m)%nat -> Forall (var_below m) vars.
Proof. intro L. rewrite selectors_length in L. apply (below_more_all (length d)); [lia|]. now apply known_below_all. Qed.

Lemma selectors_ok : domains_ok (d ++ own).
Proof.
  apply own_ok; [assumption|]. intros k Hk. rewrite repeat_length in Hk.
  rewrite nth_same by assumption.
  split; [simpl; lia|]. exists 0. apply member_cons. lia.
Qed.

Lemma chosen_local : local (length (d ++ own)) (chosen (length d)).
Proof.
  intros a a' Sm [Se So]. pose proof (vars_below _ (Nat.le_refl _)) as Bm. split; [|now apply (some_row_local _ Bm a)].
  assert (Ok := pieces_ok1 (length (d ++ own)) (length d)). rewrite selectors_length in *. specialize (Ok (Nat.le_refl _)). rewrite Forall_forall in *. intros x I. destruct (Se x I) as [S1 S2]. destruct (Ok x I) as (Bs & _ & U).
  assert (E : Forall (entry_holds a) (p_row x) <-> Forall (entry_holds a') (p_row x)) by (apply (entries_same (length d + length rows) vars); auto; now apply Forall_forall).
  assert (Ev : var_value a (p_selector x) = var_value a' (p_selector x)) by now apply (same_below_value (length d + length rows)). unfold selected. rewrite <- E, <- Ev. auto.
Qed.

Lemma chosen_extends a : within a d -> some_row rows a -> exists a', same_below (length d) a a' /\ within a' (d ++ own) /\ chosen (length d) a'.
Proof.
  intros Wa So. assert (Bd : Forall (var_below (length d)) vars) by now apply known_below_all.
  destruct (own_values d own a (fun i => if Forall_dec _ (entry_holds_dec a) (nth i rows []) then 1 else 0) Wa) as (a' & Sm & W & V).
  - intros i Hi. rewrite repeat_length in Hi. rewrite nth_same by assumption.
    apply member_cons. left. destruct (Forall_dec _ _ _); lia.
  - exists a'. split; [assumption|]. split; [assumption|]. split; [|now apply (some_row_local _ Bd a)].
    apply Forall_forall. intros x I. apply in_map_iff in I. destruct I as (i & <- & I). apply in_seq in I. unfold selected. cbn [p_selector p_row fst snd var_value]. rewrite V.
    rewrite <- (entries_same (length d) vars a a') by (auto; apply suits_all_usable; apply row_suits; lia). destruct (Forall_dec _ _ _); split; intros; try reflexivity; contradiction.
Qed.

Lemma smart_table_installs : installs d cs (smart_table_install orders vars rows d cs) vars (some_row rows) (chosen (length d)) (fun _ _ => True).
Proof.
  unfold smart_table_install. fold (pieces (length d)). constructor; cbn [in_vars in_states in_props in_inits].
  - exact selectors_ok.
  - constructor.
  - exact chosen_local.
  - exact chosen_extends.
  - auto.
  - auto.
  - intros nv Inv Ln St I0 _.
    assert (C : carried (d ++ own) vars (chosen (length d)) [body_propagator (once (smart_pass vars (pieces (length d)))) vars [] []] (some_row rows)).
    { apply (carried_body (d ++ own) vars vars); [eapply Forall_impl; [|exact K]; intros v; apply prefix_known|apply incl_refl|apply incl_appl, incl_refl|]. intros m Lm. pose proof (vars_below m Lm) as Bm. assert (Lm' : (length d + length rows <= m)%nat) by (rewrite <- selectors_length; exact Lm).
      apply once_meets_enforced.
      - intros D HD LD ID. apply smart_pass_tells; auto; [now apply pieces_ok1|]. intros a [[Se So] _]. split; [assumption|]. now apply pieces_some.
      - intros D a HD LD ID Fx Wa En. apply (pieces_some (length d)). apply (smart_pass_checks m vars Bm a (pieces (length d)) D); auto; [apply Suits|now apply pieces_ok]. }
    destruct C as (pp & C1 & C2). exists pp, [].
    assert (I0' : forall D c, Inv D c -> inside (d ++ own) D) by (intros D c I; now apply (I0 D c)).
    split; [now apply (C1 nv Inv)|]. split; [constructor|]. intros a Wa F1 F2. now apply (C2 a Wa F1).
Qed.
End Install.

Lemma smart_table_means_all d0 : Forall (var_known d0) vars -> means d0 (smart_table_install orders vars rows) vars (some_row rows).
Proof.
  intro K. pose proof (proj1 (known_below_all _ _) K) as Bd. split; [assumption|]. split; [now apply some_row_local|]. intros hidden cs Hd.
  exists (chosen (length (d0 ++ hidden))), (fun _ _ => True). apply smart_table_installs; [assumption|]. now apply known_hidden.
Qed.
End Post.

Lemma aliased_iff v w : same_underlying v w = true <-> match v, w with VConst c, VConst c' => c = c' | VConst _, _ => False | _, VConst _ => False | _, _ => var_number v = var_number w end.
Proof. destruct v, w; cbn; rewrite ?Nat.eqb_eq, ?Z.eqb_eq; try reflexivity; split; try discriminate; contradiction. Qed.

Lemma suits_accepted vars rows : table_suits vars rows -> table_refused vars rows = false.
Proof.
  intros [_ F]. destruct (table_refused vars rows) eqn:E; [|reflexivity]. unfold table_refused in E. exfalso. apply existsb_exists in E. destruct E as (r & Ir & E). apply existsb_exists in E. destruct E as (e & Ie & E).
  rewrite Forall_forall in F. destruct (F r Ir) as [_ S]. rewrite Forall_forall in S. destruct (S e Ie) as (U & _ & A). apply orb_prop in E. destruct E as [E|E].
  - destruct e as [v w t| |]; try discriminate. apply aliased_iff in E. pose proof (U v (or_introl eq_refl)) as Uv. pose proof (U w (or_intror (or_introl eq_refl))) as Uw. destruct v, w; contradiction.
  - apply existsb_exists in E. destruct E as (v & Iv & E). specialize (U v Iv). destruct v as [n| |]; cbn in E; [|discriminate|contradiction]. apply negb_true_iff in E. apply in_list_iff in U. cbn in U. congruence.
Qed.

Lemma smart_table_means d0 orders vars rows k : table_suits vars rows -> Forall (var_known d0) vars -> smart_table orders vars rows = Some k -> means d0 k vars (some_row rows).
Proof. intros S K. unfold smart_table. rewrite suits_accepted by assumption. intros [= <-]. now apply smart_table_means_all. Qed.

Lemma smart_table_refused orders vars rows : smart_table orders vars rows = None <->
  exists r e, In r rows /\ In e r /\
    ((exists v w t, e = Compare v w t /\ match v, w with VConst c, VConst c' => c = c' | VConst _, _ => False | _, VConst _ => False | _, _ => var_number v = var_number w end) \/
     (exists v, In v (entry_vars e) /\ match v with VConst _ => True | VSimple _ => ~ In v vars | VView _ _ _ => False end)).
Proof.
  unfold smart_table. destruct (table_refused vars rows) eqn:E; unfold table_refused in E.
  - split; [intros _|reflexivity]. apply existsb_exists in E. destruct E as (r & Ir & E). apply existsb_exists in E. destruct E as (e & Ie & E). exists r, e. split; [assumption|]. split; [assumption|]. apply orb_prop in E. destruct E as [E|E].
    + left. destruct e as [v w t| |]; try discriminate. exists v, w, t. split; [reflexivity|]. now apply aliased_iff.
    + right. apply existsb_exists in E. destruct E as (v & Iv & E). exists v. split; [assumption|]. destruct v; cbn in E; [|discriminate|exact Logic.I]. apply negb_true_iff in E. intro X. apply in_list_iff in X. congruence.
  - split; [discriminate|]. intros (r & e & Ir & Ie & H). exfalso. assert (X : existsb (existsb (fun e => aliased_entry e || existsb (unusable vars) (entry_vars e))) rows = true); [|congruence].
    apply existsb_exists. exists r. split; [assumption|]. apply existsb_exists. exists e. split; [assumption|]. apply orb_true_iff. destruct H as [(v & w & t & -> & H)|(v & Iv & H)].
    + left. cbn [aliased_entry]. now apply aliased_iff.
    + right. apply existsb_exists. exists v. split; [assumption|]. destruct v; cbn; [|contradiction|reflexivity]. apply negb_true_iff. destruct (in_list vars _) eqn:L; [|reflexivity]. apply in_list_iff in L. contradiction.
Qed.

(** ** At rest *)
Lemma entry_ext a a' e : (forall v, In v (entry_vars e) -> var_value a v = var_value a' v) -> entry_holds a e -> entry_holds a' e.
Proof.
  intro V. destruct e as [v w t|v x t|v values [|]]; cbn [entry_holds entry_vars] in *; rewrite <- ?(V v (or_introl eq_refl)), <- ?(V w (or_intror (or_introl eq_refl))); auto.
Qed.

Definition change (b : assignment) (n : nat) (y : Z) : assignment := fun k => if Nat.eqb k n then y else b k.

Lemma change_same b n y : change b n y n = y.
Proof. unfold change. now rewrite Nat.eqb_refl. Qed.

Lemma change_other b n y k : k <> n -> change b n y k = b k.
Proof. intro N. unfold change. destruct (Nat.eqb_spec k n); [contradiction|reflexivity]. Qed.

Lemma plain_number v : simple v -> v = VSimple (var_number v).
Proof. destruct v; cbn; intros; [reflexivity|contradiction|contradiction]. Qed.

Lemma untouched_holds b n y e : plain_entry e -> touches n e = false -> entry_holds b e -> entry_holds (change b n y) e.
Proof.
  intros Pl T. apply entry_ext. intros v I. rewrite (plain_number v (Pl v I)). cbn [var_value]. symmetry. apply change_other. intro E.
  assert (touches n e = true) by (apply touches_iff; exists v; auto). congruence.
Qed.

Section Rest.
Variable vars : list var_id.

Definition full (m : values_of) : Prop := forall n, In (VSimple n) vars -> m (VSimple n) <> [] /\ NoDup (m (VSimple n)).
Definition apart_entry (e : entry) : Prop := match e with Compare v w _ => var_number v <> var_number w | _ => True end.

Lemma edge_less e m n : plain_entry e -> incl (filter_edge e m (VSimple n)) (m (VSimple n)).
Proof.
  intros Pl. assert (One : forall m v l, simple v -> incl l (m v) -> forall k, incl (set_values m v l (VSimple k)) (m (VSimple k))).
  { intros m0 v l Sv I k. destruct v as [i| |]; try contradiction. cbn [set_values]. unfold set_at. destruct (Equals.var_eqb (VSimple k) (VSimple i)) eqn:E; [|apply incl_refl].
    apply EqualsProofs.var_eqb_spec in E. now rewrite E. }
  destruct e as [v w t|v x t|v values inside]; cbn [filter_edge].
  - assert (Sv : simple v) by (apply Pl; now left). assert (Sw : simple w) by (apply Pl; right; now left).
    pose proof (filter_pair_left (sort_values (get_values m v)) (sort_values (get_values m w)) t) as L. pose proof (filter_pair_right (sort_values (get_values m v)) (sort_values (get_values m w)) t) as R.
    destruct (filter_pair t _ _) as [l k] eqn:Ep. cbn [fst snd] in L, R. destruct v as [i| |]; try contradiction. destruct w as [j| |]; try contradiction. cbn [get_values] in *.
    assert (L' : incl l (m (VSimple i))) by (intros z I; apply L in I; now rewrite sort_values_In in I). assert (R' : incl k (m (VSimple j))) by (intros z I; apply R in I; now rewrite sort_values_In in I).
    cbn [set_values]. unfold set_at. destruct (Equals.var_eqb (VSimple n) (VSimple j)) eqn:Ej; [apply EqualsProofs.var_eqb_spec in Ej; now rewrite Ej|].
    destruct (Equals.var_eqb (VSimple n) (VSimple i)) eqn:Ei; [apply EqualsProofs.var_eqb_spec in Ei; now rewrite Ei|apply incl_refl].
  - assert (Sv : simple v) by (apply Pl; now left). apply One; [assumption|]. destruct v; try contradiction. intros z I. apply filter_In in I. destruct I as [I _]. now rewrite sort_values_In in I.
  - assert (Sv : simple v) by (apply Pl; now left). apply One; [assumption|]. destruct v as [i| |]; try contradiction. intros z I. assert (I' : In z (sort_values (get_values m (VSimple i)))) by (destruct inside; [now apply meet_both in I|now apply minus_left in I]). now rewrite sort_values_In in I'.
Qed.

Lemma edge_full e m : plain_entry e -> usable vars e -> full m -> existsb (fun v => is_nil (get_values (filter_edge e m) v)) (entry_vars e) = false -> full (filter_edge e m).
Proof.
  intros Pl U Fm Ne n I. assert (N : NoDup (filter_edge e m (VSimple n))).
  { destruct e as [v w t|v x t|v values inside]; cbn [filter_edge].
    - assert (Sv : simple v) by (apply Pl; now left). assert (Sw : simple w) by (apply Pl; right; now left). destruct (U v (or_introl eq_refl)) as [_ Iv]. destruct (U w (or_intror (or_introl eq_refl))) as [_ Iw].
      destruct v as [i| |]; try contradiction. destruct w as [j| |]; try contradiction. cbn [get_values var_number] in *.
      destruct (filter_pair_NoDup (sort_values (m (VSimple i))) (sort_values (m (VSimple j))) t) as [N1 N2]; [apply sort_values_NoDup; now apply Fm|apply sort_values_NoDup; now apply Fm|].
      destruct (filter_pair t _ _) as [l k]. cbn [fst snd] in N1, N2. cbn [set_values]. unfold set_at. destruct (Equals.var_eqb (VSimple n) (VSimple j)); [assumption|]. destruct (Equals.var_eqb (VSimple n) (VSimple i)); [assumption|]. now apply Fm.
    - assert (Sv : simple v) by (apply Pl; now left). destruct (U v (or_introl eq_refl)) as [_ Iv]. destruct v as [i| |]; try contradiction. cbn [get_values var_number set_values] in *. unfold set_at. destruct (Equals.var_eqb (VSimple n) (VSimple i)); [|now apply Fm].
      apply NoDup_filter, sort_values_NoDup. now apply Fm.
    - assert (Sv : simple v) by (apply Pl; now left). destruct (U v (or_introl eq_refl)) as [_ Iv]. destruct v as [i| |]; try contradiction. cbn [get_values var_number set_values] in *. unfold set_at. destruct (Equals.var_eqb (VSimple n) (VSimple i)); [|now apply Fm].
      destruct inside; [apply meet_NoDup|apply minus_NoDup]; apply sort_values_NoDup; now apply Fm. }
  split; [|assumption]. destruct (in_dec Nat.eq_dec n (map var_number (entry_vars e))) as [J|J].
  - apply in_map_iff in J. destruct J as (v & <- & Iv). intro Nil. assert (X : existsb (fun v => is_nil (get_values (filter_edge e m) v)) (entry_vars e) = true); [|congruence].
    apply existsb_exists. exists v. split; [assumption|]. rewrite (plain_number v (Pl v Iv)). cbn [get_values var_number]. rewrite Nil. reflexivity.
  - replace (filter_edge e m (VSimple n)) with (m (VSimple n)); [now apply Fm|]. symmetry. assert (D : forall v, In v (entry_vars e) -> n <> var_number v) by (intros v Iv E; apply J; apply in_map_iff; exists v; auto).
    destruct e as [v w t|v x t|v values inside]; cbn [filter_edge entry_vars] in *; [destruct (filter_pair t _ _) as [l k]| |]; rewrite ?set_values_other; auto using in_eq, in_cons.
Qed.

Lemma tree_witness es : forall m m', Forall plain_entry es -> Forall (usable vars) es -> Forall apart_entry es -> ordered es -> full m -> filter_valid es m = Some m' ->
  exists b : assignment, (forall n, In (VSimple n) vars -> In (b n) (m (VSimple n))) /\ Forall (entry_holds b) es.
Proof.
  induction es as [|e es IH]; intros m m' Pl Us Ap Or Fm E.
  - exists (fun n => hd 0 (m (VSimple n))). split; [|constructor]. intros n I. destruct (Fm n I) as [Ne _]. destruct (m (VSimple n)); [congruence|now left].
  - apply Forall_cons_iff in Pl, Us, Ap. destruct Pl as [Pe Pl], Us as [Ue Us], Ap as [Ae Ap]. destruct Or as [Oe Or]. cbn [filter_valid] in E.
    destruct (existsb (fun v => is_nil (get_values (filter_edge e m) v)) (entry_vars e)) eqn:X; [discriminate|].
    pose proof (edge_full e m Pe Ue Fm X) as F1. destruct (IH (filter_edge e m) m' Pl Us Ap Or F1 E) as (b & Lb & Hb).
    destruct e as [v w t|v x t|v values inside].
    + destruct Oe as (p & c & Pc & Un). assert (Sv : simple v) by (apply Pe; now left). assert (Sw : simple w) by (apply Pe; right; now left). destruct (Ue v (or_introl eq_refl)) as [_ Iv]. destruct (Ue w (or_intror (or_introl eq_refl))) as [_ Iw].
      destruct v as [i| |]; try contradiction. destruct w as [j| |]; try contradiction. cbn [var_number apart_entry] in *.
      destruct (Fm i Iv) as [Ni Di]. destruct (Fm j Iw) as [Nj Dj]. pose proof (F1 i Iv) as [Ni1 _]. pose proof (F1 j Iw) as [Nj1 _]. pose proof (Lb i Iv) as Li. pose proof (Lb j Iw) as Lj.
      pose proof (filter_pair_supported (sort_values (m (VSimple i))) (sort_values (m (VSimple j))) (sort_values_sorted _) (sort_values_sorted _) t (sort_values_NoDup _ Di) (sort_values_NoDup _ Dj)) as Sp.
      assert (Ei : filter_edge (Compare (VSimple i) (VSimple j) t) m (VSimple i) = fst (filter_pair t (sort_values (m (VSimple i))) (sort_values (m (VSimple j))))).
      { cbn [filter_edge get_values]. destruct (filter_pair t _ _) as [l k]. cbn [set_values fst]. rewrite set_at_other by congruence. apply set_at_same. }
      assert (Ej : filter_edge (Compare (VSimple i) (VSimple j) t) m (VSimple j) = snd (filter_pair t (sort_values (m (VSimple i))) (sort_values (m (VSimple j))))).
      { cbn [filter_edge get_values]. destruct (filter_pair t _ _) as [l k]. cbn [set_values snd]. apply set_at_same. }
      rewrite <- Ei, <- Ej in Sp. destruct (Sp Ni1 Nj1) as [S1 S2].
      assert (Good : forall k y, In (VSimple k) vars -> In y (filter_edge (Compare (VSimple i) (VSimple j) t) m (VSimple k)) -> forall n, In (VSimple n) vars -> In (change b k y n) (m (VSimple n))).
      { intros k y Ik Iy n In0. apply (edge_less (Compare (VSimple i) (VSimple j) t) m n Pe). destruct (Nat.eq_dec n k) as [->|N]; [now rewrite change_same|]. rewrite change_other by assumption. auto. }
      assert (Rest : forall k y, (forall e', In e' es -> touches k e' = false) -> Forall (entry_holds (change b k y)) es).
      { intros k y T. rewrite Forall_forall in *. intros e' Ie. apply untouched_holds; auto. }
      destruct Pc as [[<- <-]|[<- <-]].
      * destruct (S1 (b i) Li) as (y & Iy & R). exists (change b j y). split; [now apply Good|]. constructor; [|now apply Rest]. cbn [entry_holds var_value]. rewrite change_same, change_other by assumption. exact R.
      * destruct (S2 (b j) Lj) as (y & Iy & R). exists (change b i y). split; [now apply Good|]. constructor; [|now apply Rest]. cbn [entry_holds var_value]. rewrite change_same, change_other by congruence. exact R.
    + assert (Sv : simple v) by (apply Pe; now left). destruct (Ue v (or_introl eq_refl)) as [_ Iv]. destruct v as [i| |]; try contradiction. exists b.
      split; [intros n I; apply (edge_less (CompareValue (VSimple i) x t) m n Pe); auto|]. constructor; [|assumption]. specialize (Lb i Iv). cbn [filter_edge set_values get_values] in Lb. rewrite set_at_same in Lb.
      apply filter_In in Lb. apply passes_test_iff. apply Lb.
    + assert (Sv : simple v) by (apply Pe; now left). destruct (Ue v (or_introl eq_refl)) as [_ Iv]. destruct v as [i| |]; try contradiction. exists b.
      split; [intros n I; apply (edge_less (InSet (VSimple i) values inside) m n Pe); auto|]. constructor; [|assumption]. destruct (Fm i Iv) as [_ Di]. cbn [var_number] in Iv. specialize (Lb i Iv). cbn [filter_edge set_values get_values] in Lb. rewrite set_at_same in Lb.
      destruct inside; cbn [entry_holds var_value].
      * apply meet_both in Lb. rewrite !sort_values_In in Lb. apply Lb.
      * apply minus_out in Lb; auto using sort_values_sorted, sort_values_NoDup. now rewrite sort_values_In in Lb.
Qed.

Lemma trees_witness start ts : forall u, Forall plain_entry (concat ts) -> Forall (usable vars) (concat ts) -> Forall apart_entry (concat ts) -> separate_trees ts -> full start -> snd (try_trees start ts u) = true ->
  exists b : assignment, (forall n, In (VSimple n) vars -> In (b n) (start (VSimple n))) /\ Forall (entry_holds b) (concat ts).
Proof.
  induction ts as [|es ts IH]; intros u Pl Us Ap Se Fs E.
  - exists (fun n => hd 0 (start (VSimple n))). split; [|constructor]. intros n I. destruct (Fs n I) as [Ne _]. destruct (start (VSimple n)); [congruence|now left].
  - cbn [concat] in *. rewrite !Forall_app in Pl, Us, Ap. destruct Pl as [P1 P2], Us as [U1 U2], Ap as [A1 A2], Se as (Or & Di & Se). cbn [try_trees] in E. destruct (filter_valid es start) as [m|] eqn:V; [|discriminate].
    destruct (tree_witness es start m P1 U1 A1 Or Fs V) as (b1 & L1 & H1). destruct (IH _ P2 U2 A2 Se Fs E) as (b2 & L2 & H2).
    exists (fun n => if existsb (touches n) es then b1 n else b2 n). split; [intros n I; destruct (existsb (touches n) es); auto|]. rewrite Forall_app, !Forall_forall in *. split; intros e Ie.
    + apply (entry_ext b1); [|now apply H1]. intros v Iv. rewrite (plain_number v (P1 e Ie v Iv)). cbn [var_value].
      replace (existsb (touches (var_number v)) es) with true; [reflexivity|]. symmetry. apply existsb_exists. exists e. split; [assumption|]. apply touches_iff. exists v. auto.
    + apply (entry_ext b2); [|now apply H2]. intros v Iv. rewrite (plain_number v (P2 e Ie v Iv)). cbn [var_value].
      destruct (existsb (touches (var_number v)) es) eqn:X; [|reflexivity]. exfalso. apply existsb_exists in X. destruct X as (e' & Ie' & T). apply (Di (var_number v) e' e Ie' Ie T). apply touches_iff. exists v. auto.
Qed.

(** The lists whose ends are read have some. *)
Lemma ends_exist_full es : forall m, Forall plain_entry es -> Forall (usable vars) es -> full m -> ends_exist es m.
Proof.
  induction es as [|e es IH]; intros m Pl Us Fm; [exact Logic.I|]. apply Forall_cons_iff in Pl, Us. destruct Pl as [Pe Pl], Us as [Ue Us]. cbn [ends_exist]. split.
  - intros v I. destruct (Ue v I) as [_ J]. rewrite (plain_number v (Pe v I)). cbn [get_values]. now apply Fm.
  - intro H. apply IH; auto. apply edge_full; auto. destruct (existsb _ _) eqn:X; [|reflexivity]. apply existsb_exists in X. destruct X as (v & Iv & N). specialize (H v Iv). destruct (get_values (filter_edge e m) v); [congruence|discriminate].
Qed.

(** In the second pass no list gets empty at all. *)
Lemma ends_exist_listed b es : forall m, Forall (usable vars) es -> Forall (entry_holds b) es -> (forall n, In (VSimple n) vars -> listed b m n) ->
  forall pre post, es = pre ++ post -> forall v e, In e post -> In v (entry_vars e) -> get_values (fold_left (fun m e => filter_edge e m) pre m) v <> [].
Proof.
  induction es as [|e es IH]; intros m Us Hb Lb pre post E v e' Ie Iv.
  - destruct pre; [|discriminate]. cbn in E. subst post. destruct Ie.
  - apply Forall_cons_iff in Us, Hb. destruct Us as [Ue Us], Hb as [He Hb]. destruct pre as [|e0 pre]; cbn [app fold_left] in *.
    + subst post. assert (U' : usable vars e') by (destruct Ie as [<-|Ie]; [assumption|rewrite Forall_forall in Us; auto]). destruct (U' v Iv) as [C J]. pose proof (listed_value b m v C (Lb _ J)) as L. destruct (get_values m v); [destruct L|discriminate].
    + injection E as <- E. apply (IH (filter_edge e m)) with (post := post) (e := e'); auto. intros n I. apply filter_edge_sound; auto. intros w Iw. destruct (Ue w Iw). auto.
Qed.
End Rest.

Lemma still_rows nv vars d finish rows : domains_ok d -> length d = nv -> Forall (fun x => var_below nv (p_selector x)) rows -> forall U,
  (forall a, within a d -> Forall (lit_holds a) (inferred (try_rows vars rows U finish) d)) ->
  (exists U', forall a, within a d -> Forall (lit_holds a) (inferred (finish U') d)) /\
  forall x, In x rows -> is_zero d (p_selector x) = true \/ exists U, snd (try_trees (all_values d vars) (p_trees x) U) = true.
Proof.
  intros Hd Ld. induction rows as [|[[s r] ts] rows IH]; intros Bs U St; cbn [try_rows] in St.
  - split; [eauto|intros x []].
  - apply Forall_cons_iff in Bs. destruct Bs as [Bs Br]. cbn [inferred] in St. cbn [p_selector fst] in Bs. destruct (is_zero d s) eqn:Z.
    + destruct (IH Br _ St) as [A C]. split; [assumption|]. intros x [<-|I]; [now left|auto].
    + destruct (try_trees (all_values d vars) ts U) as [U1 ok] eqn:Et. destruct ok; cbn [negb infer_when inferred] in St.
      * destruct (IH Br _ St) as [A C]. split; [assumption|]. intros x [<-|I]; [|auto]. right. exists U. cbn [p_trees snd]. now rewrite Et.
      * exfalso. assert (is_zero d s = true); [|congruence]. apply (is_zero_iff nv d s Hd Ld Bs). intros a Wa. specialize (St a Wa). apply Forall_cons_iff in St. apply St.
Qed.

Lemma smart_table_at_rest orders vars rows d0 d : table_suits vars rows -> Forall (Forall plain_entry) rows -> Forall (var_known d0) vars -> (length d0 + length rows <= length d)%nat -> domains_ok d ->
  Forall (fun p => rerun_is_quiet p d) (in_props (smart_table_install orders vars rows d0 [])) -> exists a, within a d /\ some_row rows a.
Proof.
  intros Su Pl K L Hd Q. unfold smart_table_install in Q. cbn [in_props] in Q. fold (pieces orders rows (length d0)) in Q. apply Forall_cons_iff in Q. destruct Q as [Q _].
  assert (Bm : Forall (var_below (length d)) vars) by (apply known_below_all in K; apply (below_more_all (length d0)); [unfold domains, iset in *; lia|assumption]).
  pose proof (pieces_ok orders vars rows Su (length d) (length d0) L) as Ok.
  assert (T : tells (length d) d (chosen orders rows (length d0)) (smart_pass vars (pieces orders rows (length d0)))).
  { apply smart_pass_tells; auto; [now apply (pieces_ok1 orders vars rows Su)|]. intros a [Se So]. split; [assumption|]. now apply pieces_some. }
  pose proof (quiet_still (length d) d Hd eq_refl _ _ _ _ _ T Q) as St. unfold still, smart_pass in St. cbn [inferred] in St.
  assert (Bp : Forall (fun x => var_below (length d) (p_selector x)) (pieces orders rows (length d0))) by (eapply Forall_impl; [|exact Ok]; intros x H; apply H).
  destruct (still_rows (length d) vars d _ (pieces orders rows (length d0)) Hd eq_refl Bp _ St) as [(U' & Fin) Each].
  destruct (within_exists d Hd) as [a0 W0]. specialize (Fin a0 W0). unfold remove_unsupported in Fin. cbn [inferred] in Fin. destruct (forallb (is_zero d) _) eqn:Z; [cbn [inferred] in Fin; apply Forall_cons_iff in Fin; destruct Fin as [[] _]|].
  assert (X : exists x, In x (pieces orders rows (length d0)) /\ is_zero d (p_selector x) = false).
  { clear - Z. induction (pieces orders rows (length d0)) as [|x l IH]; [discriminate|]. cbn [map forallb] in Z. destruct (is_zero d (p_selector x)) eqn:E; [|exists x; split; [now left|assumption]].
    unfold p_selector in E. rewrite E in Z. destruct (IH Z) as (y & I & Ey). exists y. split; [now right|assumption]. }
  destruct X as (x & I & Zx). destruct (Each x I) as [Zx'|(U & V)]; [congruence|]. rewrite Forall_forall in Ok. destruct (Ok x I) as [(Bs & Wh & Us) Sx]. 
  assert (Px : Forall plain_entry (p_row x) /\ separate_trees (p_trees x)).
  { apply in_map_iff in I. destruct I as (i & <- & Ii). apply in_seq in Ii. cbn [p_row p_trees fst snd] in *. split; [rewrite Forall_forall in Pl; apply Pl; apply nth_In; lia|]. apply forest_separate. exact (suits_apart vars _ Sx). }
  destruct Px as [Px Sep]. assert (Of : forall (R : entry -> Prop), Forall R (p_row x) -> Forall R (concat (p_trees x))) by (intros R H; rewrite Forall_forall in *; intros e Ie; apply H; now apply Wh).
  destruct (trees_witness vars (all_values d vars) (p_trees x) U) as (b & Lb & Hb); auto.
  - apply Of. eapply Forall_impl; [|exact Sx]. intros e (_ & _ & A). exact A.
  - intros n In0. rewrite all_values_single by (auto; apply Su). assert (Kn : var_known d (VSimple n)) by (apply (MultiplyProofs.known_here (length d)); auto; rewrite Forall_forall in Bm; auto). split; [|now apply each_value_NoDup].
    intro Nil. pose proof (KnapsackProofs.value_listed (length d) d (VSimple n) a0 Hd eq_refl (proj1 (Forall_forall _ _) Bm _ In0) W0) as Y. rewrite Nil in Y. destruct Y.
  - exists (fun n => if in_list vars (VSimple n) then b n else a0 n). split.
    + intros n Hn. destruct (in_list vars (VSimple n)) eqn:E; [|now apply W0]. apply in_list_iff in E. specialize (Lb n E). apply all_values_from in Lb. destruct Lb as [_ Lb]. apply each_value_In in Lb. exact Lb.
    + apply (pieces_some orders rows (length d0)). exists x. split; [assumption|]. apply Forall_forall. intros e Ie. rewrite Forall_forall in Us. apply (entry_ext b).
      * intros v Iv. destruct (Us e Ie v Iv) as [_ J]. rewrite Forall_forall in Px. rewrite (plain_number v (Px e Ie v Iv)) in *. cbn [var_value var_number] in *. apply in_list_iff in J. now rewrite J.
      * apply Wh in Ie. rewrite Forall_forall in Hb. auto.
Qed.

(** ** LexSmartTable *)
Lemma lex_greater_iff l : forall k, lex_greater l k <-> exists i, (i < Nat.min (length l) (length k))%nat /\ (forall j, (j < i)%nat -> nth j l 0 = nth j k 0) /\ nth i l 0 > nth i k 0.
Proof.
  induction l as [|x l IH]; intros [|y k]; cbn [lex_greater]; try (split; [contradiction|intros (i & H & _); cbn [length Nat.min] in H; lia]). split.
  - intros [G|[E G]].
    + exists O. cbn [length Nat.min nth]. split; [lia|]. split; [lia|assumption].
    + apply IH in G. destruct G as (i & Hi & A & G). exists (S i). cbn [length Nat.min nth]. split; [lia|]. split; [|assumption]. intros [|j] Hj; [assumption|]. apply A. lia.
  - intros ([|i] & Hi & A & G); cbn [length Nat.min nth] in *; [now left|]. right. split; [apply (A O); lia|]. apply IH. exists i. split; [lia|]. split; [|assumption]. intros j Hj. apply (A (S j)). lia.
Qed.

Section Lex.
Variables left right : list var_id.
Hypothesis Simple : Forall simple (left ++ right).
Hypothesis Distinct : NoDup (left ++ right).
Notation n := (Nat.min (length left) (length right)).
Notation lv j := (nth j left (VConst 0)).
Notation rv j := (nth j right (VConst 0)).

Lemma lex_values a i : (i < n)%nat -> nth i (map (var_value a) left) 0 = var_value a (lv i) /\ nth i (map (var_value a) right) 0 = var_value a (rv i).
Proof. intro Hi. change 0 with (var_value a (VConst 0)). now rewrite !map_nth. Qed.

Lemma lex_row_holds a i : (i < n)%nat -> (Forall (entry_holds a) (lex_row left right i) <->
  (forall j, (j < i)%nat -> nth j (map (var_value a) left) 0 = nth j (map (var_value a) right) 0) /\ nth i (map (var_value a) left) 0 > nth i (map (var_value a) right) 0).
Proof.
  intro Hi. unfold lex_row. rewrite Forall_map, Forall_forall. split.
  - intro H. split.
    + intros j Hj. destruct (lex_values a j) as [-> ->]; [lia|]. specialize (H j). rewrite in_seq in H. apply Nat.ltb_lt in Hj as T. rewrite T in H. apply H. lia.
    + destruct (lex_values a i) as [-> ->]; [lia|]. specialize (H i). rewrite in_seq, Nat.ltb_irrefl in H. apply H. lia.
  - intros [A G] j Ij. apply in_seq in Ij. destruct (lex_values a j) as [E1 E2]; [lia|]. destruct (Nat.ltb_spec j i) as [L|L]; cbn [entry_holds related]; rewrite <- E1, <- E2; [now apply A|]. replace j with i by lia. assumption.
Qed.

Lemma lex_rows_mean a : some_row (map (lex_row left right) (seq 0 n)) a <-> lex_greater (map (var_value a) left) (map (var_value a) right).
Proof.
  rewrite lex_greater_iff, !map_length. split.
  - intros (r & I & H). apply in_map_iff in I. destruct I as (i & <- & I). apply in_seq in I. exists i. split; [lia|]. apply lex_row_holds; [lia|assumption].
  - intros (i & Hi & H). exists (lex_row left right i). split; [apply in_map; apply in_seq; lia|]. now apply lex_row_holds.
Qed.

Lemma lex_entry i e : (i < n)%nat -> In e (lex_row left right i) -> exists j, (j < n)%nat /\ e = Compare (lv j) (rv j) (if Nat.ltb j i then IsEqual else IsGreater).
Proof. intros Hi I. apply in_map_iff in I. destruct I as (j & <- & I). apply in_seq in I. exists j. split; [lia|reflexivity]. Qed.

Lemma lex_left_in j : (j < n)%nat -> In (lv j) (left ++ right).
Proof. intro H. apply in_or_app. left. apply nth_In. lia. Qed.

Lemma lex_right_in j : (j < n)%nat -> In (rv j) (left ++ right).
Proof. intro H. apply in_or_app. right. apply nth_In. lia. Qed.

Lemma number_simple v w : In v (left ++ right) -> In w (left ++ right) -> var_number v = var_number w -> v = w.
Proof. intros Iv Iw E. rewrite Forall_forall in Simple. rewrite (plain_number v), (plain_number w) by auto. now rewrite E. Qed.

Lemma lex_at j v : (j < n)%nat -> nth j left v = lv j /\ nth (length left + j) (left ++ right) v = rv j.
Proof. intro H. split; [apply nth_indep; lia|]. rewrite app_nth2 by lia. replace (length left + j - length left)%nat with j by lia. apply nth_indep. lia. Qed.

Lemma lex_left_only i j : (i < n)%nat -> (j < n)%nat -> (var_number (lv i) = var_number (lv j) -> i = j) /\ var_number (lv i) <> var_number (rv j).
Proof.
  intros Hi Hj. pose proof (proj1 (NoDup_nth (left ++ right) (VConst 0)) Distinct) as N. split.
  - intro E. apply number_simple in E; try apply lex_left_in; auto. apply N; rewrite ?app_length; try lia. now rewrite !app_nth1 by lia.
  - intro E. apply number_simple in E; [|now apply lex_left_in|now apply lex_right_in].
    assert (X : i = (length left + j)%nat); [|lia]. apply N; rewrite ?app_length; try lia. rewrite app_nth1 by lia. destruct (lex_at j (VConst 0) Hj) as [_ ->]. exact E.
Qed.

Lemma connected_alone r x y : (forall v w t, In (Compare v w t) r -> var_number v <> x /\ var_number w <> x) -> connected r x y -> y = x.
Proof. intros H C. induction C as [|x y v w t C IH I z Z]; [reflexivity|]. destruct (H v w t I). rewrite (IH H) in Z. destruct Z as [[Z _]|[Z _]]; contradiction. Qed.

Lemma lex_suits : table_suits (left ++ right) (map (lex_row left right) (seq 0 n)).
Proof.
  split; [assumption|]. apply Forall_forall. intros r I. apply in_map_iff in I. destruct I as (i & <- & I). apply in_seq in I. assert (Hi : (i < n)%nat) by lia. split.
  - intros v w t Iv r' Inc Out C. destruct (lex_entry i _ Hi Iv) as (j & Hj & E). injection E as -> -> ->. destruct (lex_left_only j j Hj Hj) as [_ D]. apply D. symmetry. apply (connected_alone r'); [|assumption].
    intros v' w' t' I'. destruct (lex_entry i _ Hi (Inc _ I')) as (k & Hk & E'). injection E' as -> -> ->. destruct (Nat.eq_dec k j) as [->|N]; [contradiction|]. split; [intro X; apply N; now apply (lex_left_only k j)|].
    intro X. symmetry in X. revert X. now apply lex_left_only.
  - apply Forall_forall. intros e Ie. destruct (lex_entry i e Hi Ie) as (j & Hj & ->). pose proof (proj1 (Forall_forall _ _) Simple) as Sa. pose proof (Sa _ (lex_left_in j Hj)) as Sl. pose proof (Sa _ (lex_right_in j Hj)) as Sr. split; [|split].
    + assert (H : forall v, In v (left ++ right) -> match v with VConst _ => False | _ => In (VSimple (var_number v)) (left ++ right) end).
      { intros v J. pose proof (Sa v J) as Sv. pose proof J as J'. rewrite (plain_number v Sv) in J'. destruct v; auto; contradiction. }
      intros v [<-|[<-|[]]]; apply H; [now apply lex_left_in|now apply lex_right_in].
    + destruct (Nat.ltb j i); now left.
    + now apply lex_left_only.
Qed.

Lemma lex_smart_table_means d0 orders k : Forall (var_known d0) (left ++ right) -> lex_smart_table orders left right = Some k ->
  means d0 k (left ++ right) (fun a => lex_greater (map (var_value a) left) (map (var_value a) right)).
Proof.
  intros K E. destruct (smart_table_means d0 orders _ _ k lex_suits K E) as (Bd & Lo & In0). split; [assumption|]. split.
  - intros a a' Sm G. apply lex_rows_mean. apply (Lo a a' Sm). now apply lex_rows_mean.
  - intros hidden cs Hd. destruct (In0 hidden cs Hd) as (sol & Own & [A1 A2 A3 A4 A5 A6 A7]). exists sol, Own. constructor; auto.
    + intros a Wa G. apply A4; auto. now apply lex_rows_mean.
    + intros nv Inv Ln St I0 Fr. destruct (A7 nv Inv Ln St I0 Fr) as (pp & ip & C1 & C2 & C3). exists pp, ip. split; [assumption|]. split; [assumption|]. intros a Wa F1 F2. apply lex_rows_mean. now apply C3.
Qed.

Lemma lex_accepted orders : exists k, lex_smart_table orders left right = Some k.
Proof. unfold lex_smart_table, smart_table. rewrite suits_accepted by exact lex_suits. eauto. Qed.
End Lex.

(** ** What is read *)
Lemma separate_ordered ts es : separate_trees ts -> In es ts -> ordered es.
Proof. induction ts as [|t ts IH]; intros S I; [destruct I|]. destruct S as (O' & _ & S). destruct I as [<-|I]; auto. Qed.

Lemma all_values_full d vars : NoDup vars -> domains_ok d -> Forall (var_known d) vars -> full vars (all_values d vars).
Proof.
  intros N Hd K n I. rewrite all_values_single by assumption. rewrite Forall_forall in K. split; [|apply each_value_NoDup; auto]. destruct (within_exists d Hd) as [a Wa].
  intro Nil. pose proof (KnapsackProofs.value_listed (length d) d (VSimple n) a Hd eq_refl (K _ I) Wa) as Y. rewrite Nil in Y. destruct Y.
Qed.

Lemma reads_inside d vars rows order r es : domains_ok d -> Forall (var_known d) vars -> table_suits vars rows -> Forall (Forall plain_entry) rows -> In r rows -> In es (forest order r) ->
  ends_exist es (all_values d vars) /\
  forall m, filter_valid es (all_values d vars) = Some m -> forall pre e post v, es = pre ++ e :: post -> In v (entry_vars e) -> get_values (fold_left (fun m e => filter_edge e m) pre m) v <> [].
Proof.
  intros Hd K [N F] Pl Ir Ie. rewrite Forall_forall in F, Pl. destruct (F r Ir) as [_ Su]. specialize (Pl r Ir). pose proof (suits_apart vars r Su) as Ap.
  assert (Of : forall (R : entry -> Prop), Forall R r -> Forall R es).
  { intros R H. rewrite Forall_forall in *. intros e I. apply H. apply (forest_of_row r Ap order). apply in_concat. eauto. }
  pose proof (all_values_full d vars N Hd K) as Fs. pose proof (Of _ (suits_all_usable vars r Su)) as Us. pose proof (Of _ Pl) as Pe. split; [now apply (ends_exist_full vars)|].
  intros m V pre e post v E Iv. destruct (tree_witness vars es (all_values d vars) m) as (b & Lb & Hb); auto.
  - apply Of. eapply Forall_impl; [|exact Su]. intros e' (_ & _ & A). exact A.
  - apply (separate_ordered (forest order r)); [now apply forest_separate|assumption].
  - destruct (filter_valid_sound b es (all_values d vars)) as (m' & V' & Lm); auto.
    + intros e' w Ie' Iw. rewrite Forall_forall in Us. destruct (Us e' Ie' w Iw). split; [assumption|]. now apply Lb.
    + rewrite V in V'. injection V' as <-. apply (ends_exist_listed vars b es m) with (post := e :: post) (e := e); auto using in_eq. intros n I. apply Lm. now apply Lb.
Qed.
