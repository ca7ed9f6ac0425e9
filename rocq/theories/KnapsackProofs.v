(** Lemmas about Knapsack. *)
From Coq Require Import ZArith List Bool Arith Lia.
From Verif Require Import IntervalSet IntervalSetSpec IntervalSetProofs Vars VarsSpec VarsProofs State StateSpec StateProofs Epochs
  Engine EngineSpec EngineProofs SessionSpec SessionInvProofs Tracker ContractSpec ContractProofs RunProofs PartsProofs ConsistencySpec
  QuietProofs Passes PassesProofs OnceProofs MultiplyProofs ChoiceProofs AllDifferent AllDifferentProofs Expressions ExpressionsSpec LinearSpec
  KnapsackSpec Knapsack.
Import ListNotations.
Local Open Scope Z_scope.

(** ** Nodes *)
Lemma same_sums_spec s t : same_sums s t = true <-> s = t.
Proof. unfold same_sums. destruct (list_eq_dec Z.eq_dec s t); split; congruence. Qed.

Lemma same_sums_In s l : existsb (same_sums s) l = true <-> In s l.
Proof.
  rewrite existsb_exists. split; [intros (t & I & E); apply same_sums_spec in E; now subst|]. intro I. exists s. split; [assumption|]. now apply same_sums_spec.
Qed.

Lemma eqb_In x l : existsb (Z.eqb x) l = true <-> In x l.
Proof. rewrite existsb_exists. split; [intros (y & I & E); apply Z.eqb_eq in E; now subst|]. intro I. exists x. split; [assumption|]. apply Z.eqb_refl. Qed.

Lemma enter_sound s f v nodes n : In n (enter s f v nodes) -> In n nodes \/ (fst n = s /\ (snd n = [(f, v)] \/ exists preds, In (s, preds) nodes /\ snd n = preds ++ [(f, v)])).
Proof.
  induction nodes as [|(t, preds) more IH]; cbn [enter]; intro I.
  - destruct I as [<-|[]]. right. auto.
  - destruct (same_sums t s) eqn:E.
    + apply same_sums_spec in E. subst t. destruct I as [<-|I]; [|left; now right]. right. split; [reflexivity|]. right. exists preds. split; [now left|reflexivity].
    + destruct I as [<-|I]; [left; now left|]. destruct (IH I) as [A|(A & [B|(p & B & C)])]; [left; now right|right; auto|]. right. split; [assumption|]. right. exists p. split; [now right|assumption].
Qed.

Lemma enter_keeps s f v nodes t preds : In (t, preds) nodes -> exists preds', In (t, preds') (enter s f v nodes) /\ incl preds preds'.
Proof.
  induction nodes as [|(u, q) more IH]; intros []; cbn [enter].
  - injection H as -> ->. destruct (same_sums t s); eexists; (split; [now left|]); [intros x I; apply in_or_app; now left|apply incl_refl].
  - destruct (IH H) as (p & I & C). destruct (same_sums u s); [exists preds; split; [now right|apply incl_refl]|]. exists p. split; [now right|assumption].
Qed.

Lemma enter_new s f v nodes : exists preds, In (s, preds) (enter s f v nodes) /\ In (f, v) preds.
Proof.
  induction nodes as [|(t, p) more (q & A & B)]; cbn [enter].
  - eexists. split; [now left|now left].
  - destruct (same_sums t s) eqn:E.
    + apply same_sums_spec in E. subst t. eexists. split; [now left|]. apply in_or_app. right. now left.
    + exists q. split; [now right|assumption].
Qed.

Lemma grow_last es e : grow (es ++ [e]) = enter (snd e) (fst (fst e)) (snd (fst e)) (grow es).
Proof. unfold grow. now rewrite fold_left_app. Qed.

Lemma grow_sound es n : In n (grow es) -> snd n <> [] /\ forall f v, In (f, v) (snd n) -> In (f, v, fst n) es.
Proof.
  revert n. induction es as [|[[f0 v0] s0] es IH] using rev_ind; intros n I; [destruct I|]. rewrite grow_last in I. cbn [fst snd] in I.
  apply enter_sound in I. destruct I as [I|(E & [F|(p & Ip & F)])].
  - destruct (IH n I) as [A B]. split; [assumption|]. intros f v Ifv. apply in_or_app. left. auto.
  - rewrite F, E. split; [discriminate|]. intros f v [X|[]]. injection X as -> ->. apply in_or_app. right. now left.
  - rewrite F, E. split; [destruct p; discriminate|]. intros f v Ifv. apply in_or_app. apply in_app_or in Ifv. destruct Ifv as [Ifv|[X|[]]]; [left|right; injection X as -> ->; now left].
    destruct (IH _ Ip) as [_ B]. now apply B.
Qed.

Lemma grow_complete es f v s : In (f, v, s) es -> exists preds, In (s, preds) (grow es) /\ In (f, v) preds.
Proof.
  induction es as [|[[f0 v0] s0] es IH] using rev_ind; intro I; [destruct I|]. rewrite grow_last. cbn [fst snd]. apply in_app_or in I. destruct I as [I|[X|[]]].
  - destruct (IH I) as (p & A & B). destruct (enter_keeps s0 f0 v0 _ _ _ A) as (q & C & D). exists q. auto.
  - injection X as -> -> ->. apply enter_new.
Qed.

Lemma choices_In rows known i values before f v s :
  In (f, v, s) (choices rows known i values before) <-> known s = true /\ In f (map fst before) /\ In v values /\ s = advance rows i f v.
Proof.
  unfold choices. rewrite filter_In, in_flat_map. cbn [snd]. split.
  - intros [(n & In1 & I) K]. apply in_map_iff in I. destruct I as (w & E & Iw). injection E as <- <- <-. split; [assumption|]. split; [now apply in_map|]. auto.
  - intros (K & I & Iv & ->). apply in_map_iff in I. destruct I as (n & <- & In1). split; [|assumption]. exists n. split; [assumption|]. apply in_map_iff. exists v. auto.
Qed.

(** ** Sums *)
Section Sums.
Variable rows : list (list Z).
Local Notation k := (length rows).

Definition travel (s : list Z) (items : list nat) (g : nat -> Z) : list Z := fold_left (fun s i => advance rows i s (g i)) items s.
Definition adds (x : nat) (items : list nat) (g : nat -> Z) : Z := fold_right (fun i acc => g i * weight rows x i + acc) 0 items.

Lemma nth_advance x i s v : (x < k)%nat -> nth x (advance rows i s v) 0 = nth x s 0 + v * weight rows x i.
Proof.
  intro Lx. unfold advance. rewrite (nth_indep _ 0 ((fun x => nth x s 0 + v * weight rows x i) O)) by (rewrite map_length, seq_length; assumption).
  rewrite (map_nth (fun x => nth x s 0 + v * weight rows x i)), seq_nth by assumption. reflexivity.
Qed.

Lemma travel_nth x items g : (x < k)%nat -> forall s, nth x (travel s items g) 0 = nth x s 0 + adds x items g.
Proof.
  intro Lx. induction items as [|i r IH]; intro s; cbn [travel adds fold_left fold_right]; [lia|]. fold (travel (advance rows i s (g i)) r g). fold (adds x r g).
  rewrite IH, nth_advance by assumption. lia.
Qed.

Lemma travel_ext items g h : (forall i, In i items -> g i = h i) -> forall s, travel s items g = travel s items h.
Proof. induction items as [|i r IH]; intros H s; [reflexivity|]. cbn [travel fold_left]. rewrite (H i) by now left. apply IH. intros j J. apply H. now right. Qed.

Lemma adds_ext x items g h : (forall i, In i items -> g i = h i) -> adds x items g = adds x items h.
Proof. induction items as [|i r IH]; intros H; [reflexivity|]. cbn [adds fold_right]. rewrite (H i) by now left. f_equal. apply IH. intros j J. apply H. now right. Qed.

Lemma travel_app s l r g : travel s (l ++ r) g = travel (travel s l g) r g.
Proof. unfold travel. apply fold_left_app. Qed.

Lemma adds_app x l r g : adds x (l ++ r) g = adds x l g + adds x r g.
Proof. induction l as [|i l IH]; [reflexivity|]. cbn [app adds fold_right]. fold (adds x (l ++ r) g). fold (adds x l g). rewrite IH. lia. Qed.

Hypothesis Pos : forall x i, 0 <= weight rows x i.

Lemma adds_nonneg x items g : (forall i, In i items -> 0 <= g i) -> 0 <= adds x items g.
Proof.
  induction items as [|i r IH]; intro H; cbn [adds fold_right]; [lia|]. fold (adds x r g). pose proof (IH (fun j J => H j (or_intror J))). pose proof (H i (or_introl eq_refl)). pose proof (Pos x i). nia.
Qed.
End Sums.

(** ** Layers *)
Section Layers.
Variable rows : list (list Z).
Variables vars totals : list var_id.
Hypothesis Len : length rows = length totals.
Local Notation k := (length rows).
Let zeros := repeat 0 (length totals).
Local Notation travel := (travel rows).
Local Notation adds := (adds rows).

Lemma nth_zeros x : nth x zeros 0 = 0.
Proof. unfold zeros. destruct (Nat.lt_ge_cases x (length totals)); [now apply nth_repeat|]. apply nth_overflow. now rewrite repeat_length. Qed.

(** The layers have been made from values that are possible in [D]. *)
Fixpoint built (D : domains) (done : list nat) (layers : list (list node)) : Prop :=
  match done, layers with
  | [], [l] => forall n, In n l -> fst n = zeros
  | i :: more, layer :: lower =>
      match lower with
      | before :: _ => (forall n, In n layer -> snd n <> [] /\ forall f v, In (f, v) (snd n) -> In f (map fst before) /\ view_member D (handle vars i) v /\ fst n = advance rows i f v)
      | [] => False
      end /\ built D more lower
  | _, _ => False
  end.

Lemma built_prefix D done : forall layers n, NoDup done -> built D done layers -> In n (hd [] layers) ->
  exists g, (forall i, In i done -> view_member D (handle vars i) (g i)) /\ fst n = travel zeros (rev done) g.
Proof.
  induction done as [|i more IH]; intros layers n ND B I.
  - destruct layers as [|l [|l' r]]; try contradiction. cbn [built hd] in *. exists (fun _ => 0). split; [intros i []|]. cbn. auto.
  - destruct layers as [|layer lower]; [contradiction|]. cbn [built hd] in *. destruct B as [B Bl]. destruct lower as [|before r]; [contradiction|].
    destruct (B n I) as [Ne C]. destruct (snd n) as [|(f, v) p]; [congruence|]. destruct (C f v (or_introl eq_refl)) as (If & Mv & E).
    apply in_map_iff in If. destruct If as (m & Em & Im). apply NoDup_cons_iff in ND. destruct ND as [Ni ND]. destruct (IH _ m ND Bl Im) as (g & Mg & Eg).
    exists (fun j => if Nat.eqb j i then v else g j). split.
    + intros j [<-|J]; [now rewrite Nat.eqb_refl|]. destruct (Nat.eqb_spec j i) as [->|]; [contradiction|auto].
    + cbn [rev]. rewrite travel_app. cbn [Verif.KnapsackProofs.travel fold_left]. rewrite Nat.eqb_refl.
      rewrite (travel_ext rows (rev more) _ g) by (intros j J; apply in_rev in J; destruct (Nat.eqb_spec j i) as [->|]; [contradiction|reflexivity]).
      rewrite <- Eg, Em. assumption.
Qed.

(** The values of [g] are a path through the layers. *)
Fixpoint on_path (g : nat -> Z) (done : list nat) (layers : list (list node)) : Prop :=
  match done, layers with
  | [], [l] => In zeros (map fst l)
  | i :: more, layer :: lower =>
      (exists preds, In (travel zeros (rev (i :: more)) g, preds) layer /\ In (travel zeros (rev more) g, g i) preds) /\ on_path g more lower
  | _, _ => False
  end.

Lemma on_path_head g done layers : on_path g done layers -> In (travel zeros (rev done) g) (map fst (hd [] layers)).
Proof.
  destruct done as [|i more]; destruct layers as [|l r]; try contradiction; cbn [on_path hd].
  - destruct r; [auto|contradiction].
  - intros [(p & A & _) _]. apply in_map_iff. eexists. split; [|exact A]. reflexivity.
Qed.

Lemma on_path_filter g done layers (q : list Z -> bool) : q (travel zeros (rev done) g) = true -> on_path g done layers ->
  on_path g done (filter (fun n => q (fst n)) (hd [] layers) :: tl layers).
Proof.
  intros Q. destruct done as [|i more]; destruct layers as [|l r]; try contradiction; cbn [on_path hd tl].
  - destruct r; [|contradiction]. intro I. apply in_map_iff in I. destruct I as (n & E & I). apply in_map_iff. exists n. split; [assumption|]. apply filter_In. split; [assumption|]. rewrite E. exact Q.
  - intros [(p & A & B) C]. split; [|assumption]. exists p. split; [|assumption]. apply filter_In. split; assumption.
Qed.

(** *** What is said is right *)
Section Tells.
Variable nv : nat.
Hypothesis Bv : Forall (var_below nv) vars.
Hypothesis Bt : Forall (var_below nv) totals.

Lemma handle_below l i : Forall (var_below nv) l -> var_below nv (handle l i).
Proof.
  intro B. unfold handle. destruct (Nat.lt_ge_cases i (length l)) as [Li|Li]; [|rewrite nth_overflow by assumption; exact Logic.I].
  rewrite Forall_forall in B. apply B. now apply nth_In.
Qed.

Lemma value_listed d v a : domains_ok d -> length d = nv -> var_below nv v -> within a d -> In (var_value a v) (each_value d v).
Proof. intros Hd Ld B Wa. apply each_value_In. apply view_member_iff; [assumption|now apply (known_here nv)|]. eauto. Qed.

Lemma keep_supported_goes D (P : assignment -> Prop) d v sup : var_below nv v -> (forall a, P a -> In (var_value a v) sup) -> goes nv D P (keep_supported d v sup).
Proof.
  intros B H. apply goes_sequence. intros x _. apply goes_when. intro E. split; [exact B|]. intros a Pa. cbn. intro X. apply negb_true_iff in E.
  specialize (H a Pa). rewrite X in H. apply eqb_In in H. congruence.
Qed.

Let val (a : assignment) (i : nat) := var_value a (handle vars i).

Section Run.
Variable committed : list Z.
Variable items0 : list nat.
Variable known : nat -> list Z -> bool.
(** The assignments that satisfy the constraint, of which more is known. *)
Variable base : assignment -> Prop.
Hypothesis Base : forall a, base a -> (forall x, (x < k)%nat -> nth x committed 0 + adds x items0 (val a) = var_value a (handle totals x)) /\ forall i, 0 <= val a i.
Hypothesis Kn : forall done i post a, rev done ++ i :: post = items0 -> base a -> known i (travel zeros (rev (i :: done)) (val a)) = true.
Hypothesis Pos : forall x i, 0 <= weight rows x i.

Lemma not_too_large done items a caps : base a -> rev done ++ items = items0 -> length caps = k -> (forall x, (x < k)%nat -> var_value a (handle totals x) <= nth x caps 0) ->
  exceeds committed caps (travel zeros (rev done) (val a)) = false.
Proof.
  intros Ba E Lc C. destruct (exceeds committed caps (travel zeros (rev done) (val a))) eqn:X; [|reflexivity]. exfalso. unfold exceeds in X. apply existsb_exists in X. destruct X as (x & I & X).
  apply in_seq in I. apply Z.ltb_lt in X. rewrite travel_nth in X by lia. rewrite nth_zeros in X. specialize (C x ltac:(lia)). destruct (Base a Ba) as [S N].
  specialize (S x ltac:(lia)). rewrite <- E, adds_app in S. pose proof (adds_nonneg rows Pos x items (val a) (fun i _ => N i)). lia.
Qed.

Lemma forward_tells caps rest : (forall d, length (caps d) = k) -> forall items done layers D (P : assignment -> Prop), rev done ++ items = items0 ->
  (forall a, P a -> base a /\ on_path (val a) done layers) ->
  (forall d a, domains_ok d -> length d = nv -> inside D d -> P a -> within a d -> forall x, (x < k)%nat -> var_value a (handle totals x) <= nth x (caps d) 0) ->
  (forall layers' D' (P' : assignment -> Prop), inside D D' -> (forall a, P' a -> P a /\ on_path (val a) (rev items0) layers') -> tells nv D' P' (rest layers')) ->
  tells nv D P (forward rows committed caps known vars items layers rest).
Proof.
  intro Lc. induction items as [|i more IH]; intros done layers D P E HP HC HR; cbn [forward].
  - rewrite app_nil_r in E. apply (HR layers D P); [apply inside_refl|]. intros a Pa. split; [assumption|]. rewrite <- E, rev_involutive. now apply HP.
  - cbn [tells]. intros d Hd Ld Id.
    assert (Edge : forall a, P a -> within a d -> In (travel zeros (rev done) (val a), val a i, travel zeros (rev (i :: done)) (val a)) (choices rows (known i) i (each_value d (handle vars i)) (hd [] layers))).
    { intros a Pa Wa. destruct (HP a Pa) as [Ba On]. apply choices_In. split; [now apply (Kn done i more)|]. split; [now apply on_path_head|]. split.
      - apply value_listed; auto. now apply handle_below.
      - cbn [rev]. rewrite travel_app. reflexivity. }
    assert (Fit : forall a, P a -> within a d -> exceeds committed (caps d) (travel zeros (rev (i :: done)) (val a)) = false).
    { intros a Pa Wa. apply (not_too_large (i :: done) more a (caps d)); [now apply HP|cbn [rev]; rewrite <- app_assoc; exact E|apply Lc|]. intros x Lx. apply HC; auto. }
    apply (keep_supported_goes d (fun a => P a /\ within a d)); [now apply handle_below| |auto|apply inside_refl|].
    + intros a [Pa Wa]. apply in_map_iff. exists (travel zeros (rev done) (val a), val a i, travel zeros (rev (i :: done)) (val a)). split; [reflexivity|].
      apply filter_In. split; [now apply Edge|]. cbn [snd]. now rewrite Fit.
    + intros F IF. apply (IH (i :: done)).
      * cbn [rev]. rewrite <- app_assoc. exact E.
      * intros a [Pa Wa]. destruct (HP a Pa) as [Ba On]. split; [assumption|]. cbn [on_path]. split; [|assumption]. destruct (grow_complete _ _ _ _ (Edge a Pa Wa)) as (preds & A & B).
        exists preds. split; [|assumption]. apply filter_In. split; [assumption|]. cbn [fst]. now rewrite Fit.
      * intros d' a Hd' Ld' Id' [Pa Wa] Wa' x Lx. apply (HC d' a); auto. apply (inside_trans D d); [assumption|]. now apply (inside_trans d F).
      * intros layers' D' P' ID HP'. apply HR; [apply (inside_trans D d); [assumption|now apply (inside_trans d F)]|]. intros a Pa. destruct (HP' a Pa) as [[A B] C]. auto.
Qed.

Lemma backward_tells done : forall layers D (P : assignment -> Prop), (forall a, P a -> on_path (val a) done layers) -> tells nv D P (backward vars done layers).
Proof.
  induction done as [|i more IH]; intros layers D P HP; [exact Logic.I|]. destruct layers as [|layer [|before earlier]]; try exact Logic.I. cbn [backward tells].
  intros d Hd Ld Id. apply (keep_supported_goes d (fun a => P a /\ within a d)); [now apply handle_below| |auto|apply inside_refl|].
  - intros a [Pa Wa]. destruct (HP a Pa) as [(preds & A & B) _]. apply in_map_iff. exists (travel zeros (rev more) (val a), val a i). split; [reflexivity|]. apply in_flat_map. eexists. split; [exact A|exact B].
  - intros F IF. apply IH. intros a [Pa Wa]. destruct (HP a Pa) as [(preds & A & B) C].
    apply (on_path_filter _ _ (before :: earlier) (fun s => existsb (same_sums s) (map fst (flat_map snd layer)))); [|assumption].
    apply same_sums_In. apply in_map_iff. exists (travel zeros (rev more) (val a), val a i). split; [reflexivity|]. apply in_flat_map. eexists. split; [exact A|exact B].
Qed.

Lemma lowest_le y l : In y l -> lowest l <= y.
Proof. unfold lowest. generalize (hd 0 l). intro z. induction l as [|w l IH]; intros []; cbn [fold_right]; [subst; lia|]. specialize (IH H). lia. Qed.

Lemma highest_ge y l : In y l -> y <= highest l.
Proof. unfold highest. generalize (hd 0 l). intro z. induction l as [|w l IH]; intros []; cbn [fold_right]; [subst; lia|]. specialize (IH H). lia. Qed.

Lemma total_literals_hold finals d x a l : var_below nv (handle totals x) -> (exists n, In n finals /\ nth x committed 0 + nth x (fst n) 0 = var_value a (handle totals x)) ->
  In l (total_literals committed totals finals d x) -> lit_below nv l /\ lit_holds a l.
Proof.
  intros B (n & In1 & E) I. unfold total_literals in I. cbv zeta in I. set (sums := map _ finals) in I. assert (J : In (var_value a (handle totals x)) sums) by (apply in_map_iff; exists n; auto).
  destruct I as [<-|[<-|I]].
  - split; [exact B|]. apply lit_ge. now apply lowest_le.
  - split; [exact B|]. apply lit_lt. pose proof (highest_ge _ _ J). lia.
  - apply in_map_iff in I. destruct I as (v & <- & I). split; [exact B|]. cbn. intro X. apply filter_In in I. destruct I as [_ I]. rewrite !andb_true_iff in I. destruct I as [_ I].
    apply negb_true_iff in I. rewrite <- X in I. apply eqb_In in J. congruence.
Qed.

Lemma in_total d a x : domains_ok d -> length d = nv -> within a d -> in_domain d (handle totals x) (var_value a (handle totals x)) = true.
Proof.
  intros Hd Ld Wa. pose proof (handle_below totals x Bt) as B. pose proof (known_here nv d _ Ld B) as Kx. apply in_domain_spec; auto. apply view_member_iff; eauto.
Qed.

Lemma finish_tells floors layers D (P : assignment -> Prop) : (forall d, length (floors d) = k) -> (forall a, P a -> base a /\ on_path (val a) (rev items0) layers) ->
  (forall d a, domains_ok d -> length d = nv -> inside D d -> P a -> within a d -> forall x, (x < k)%nat -> nth x (floors d) 0 <= var_value a (handle totals x)) ->
  tells nv D P (finish committed floors vars totals items0 layers).
Proof.
  intros Lf HP HF. unfold finish. cbn [tells]. intros d Hd Ld Id.
  set (q1 := fun s => negb (falls_short committed (floors d) s)). set (q2 := fun s => negb (not_a_total d totals committed s)).
  change (filter (fun n : list Z * list (list Z * Z) => negb (falls_short committed (floors d) (fst n))) (hd [] layers)) with (filter (fun n : node => q1 (fst n)) (hd [] layers)).
  change (filter (fun n : list Z * list (list Z * Z) => negb (not_a_total d totals committed (fst n))) ?l) with (filter (fun n : node => q2 (fst n)) l).
  set (finals := filter (fun n : node => q2 (fst n)) (filter (fun n : node => q1 (fst n)) (hd [] layers))).
  assert (Sum : forall a x, P a -> (x < k)%nat -> nth x committed 0 + nth x (travel zeros (rev (rev items0)) (val a)) 0 = var_value a (handle totals x)).
  { intros a x Pa Lx. destruct (HP a Pa) as [Ba _]. rewrite rev_involutive, travel_nth, nth_zeros by assumption. destruct (Base a Ba) as [S _]. rewrite <- S by assumption. lia. }
  assert (On : forall a, P a /\ within a d -> on_path (val a) (rev items0) (finals :: tl layers)).
  { intros a [Pa Wa]. destruct (HP a Pa) as [Ba O].
    apply (on_path_filter _ _ (filter (fun n : node => q1 (fst n)) (hd [] layers) :: tl layers) q2); [|apply on_path_filter; [|assumption]].
    - unfold q2. apply negb_true_iff. destruct (not_a_total d totals committed (travel zeros (rev (rev items0)) (val a))) eqn:X; [exfalso|reflexivity].
      unfold not_a_total in X. apply existsb_exists in X. destruct X as (x & I & X). apply in_seq in I. rewrite Sum in X by (auto; lia). rewrite in_total in X by assumption. discriminate.
    - unfold q1. apply negb_true_iff. destruct (falls_short committed (floors d) (travel zeros (rev (rev items0)) (val a))) eqn:X; [exfalso|reflexivity].
      unfold falls_short in X. apply existsb_exists in X. destruct X as (x & I & X). apply in_seq in I. rewrite Lf in I. rewrite Sum in X by (auto; lia). apply Z.ltb_lt in X. specialize (HF d a Hd Ld Id Pa Wa x ltac:(lia)). lia. }
  assert (Have : forall a, P a /\ within a d -> exists n, In n finals /\ fst n = travel zeros (rev (rev items0)) (val a)).
  { intros a H. pose proof (on_path_head _ _ _ (On a H)) as I. cbn [hd] in I. apply in_map_iff in I. destruct I as (n & E & I). eauto. }
  destruct finals as [|n0 r] eqn:Ef.
  - cbn [tells]. split; [exact Logic.I|]. split; [|exact Logic.I]. intros a H. destruct (Have a H) as (n & [] & _).
  - rewrite <- Ef in *. clear Ef n0 r.
    assert (G : goes nv d (fun a => P a /\ within a d) (sequence (flat_map (total_literals committed totals finals d) (seq 0 (length totals))) Infer)).
    { apply goes_sequence. intros l Il. apply in_flat_map in Il. destruct Il as (x & Ix & Il). apply in_seq in Ix.
      assert (Hold : forall a, P a /\ within a d -> lit_below nv l /\ lit_holds a l).
      { intros a H. apply (total_literals_hold finals d x a l); [now apply handle_below| |assumption]. destruct (Have a H) as (n & In1 & En). exists n. split; [assumption|]. rewrite En. apply Sum; [tauto|lia]. }
      apply goes_infer; [|intros a H; now apply Hold].
      pose proof (handle_below totals x Bt) as B. unfold total_literals in Il. cbv zeta in Il. destruct Il as [<-|[<-|Il]]; [exact B|exact B|].
      apply in_map_iff in Il. destruct Il as (v & <- & _). exact B. }
    apply G; [auto|apply inside_refl|]. intros F IF. apply backward_tells. exact On.
Qed.
End Run.
End Tells.

(** *** Enough is said *)
Section Obeys.
Variable nv : nat.
Hypothesis Bv : Forall (var_below nv) vars.
Hypothesis Bt : Forall (var_below nv) totals.
Variable D : domains.
Hypothesis HD : domains_ok D.
Hypothesis LD : length D = nv.
Variable a : assignment.

Lemma keep_supported_passes d v sup : passes nv a (keep_supported d v sup) (fun _ => In (var_value a v) (each_value d v) -> In (var_value a v) sup).
Proof.
  eapply passes_weaken; [|apply (passes_sequence nv a _ (fun x _ => negb (existsb (Z.eqb x) sup) = true -> lit_holds a (LCond (cond_ne v x)))); intros x _; apply passes_when].
  intros d' _ _ _ H I. destruct (H _ I) as (d2 & _ & _ & _ & _ & Q). destruct (existsb (Z.eqb (var_value a v)) sup) eqn:E; [now apply eqb_In|]. exfalso. exact (Q eq_refl eq_refl).
Qed.

Lemma view_member_up d v x : domains_ok d -> length d = nv -> inside D d -> var_below nv v -> view_member d v x -> view_member D v x.
Proof.
  intros Hd Ld Id B V. apply view_member_iff in V; [|assumption|now apply (known_here nv)]. destruct V as (b & Wb & E). apply view_member_iff; [assumption|now apply (known_here nv)|]. exists b. auto.
Qed.

Variable committed : list Z.

Lemma forward_obeys caps known rest items : forall done layers d, domains_ok d -> length d = nv -> within a d -> inside D d -> built D done layers ->
  obeys nv a (forward rows committed caps known vars items layers rest) d ->
  exists layers' d', domains_ok d' /\ length d' = nv /\ within a d' /\ inside D d' /\ built D (rev items ++ done) layers' /\ obeys nv a (rest layers') d'.
Proof.
  induction items as [|i more IH]; intros done layers d Hd Ld Wa Id Bu O; cbn [forward obeys] in O.
  - exists layers, d. auto 10.
  - destruct (keep_supported_passes d (handle vars i) _ _ d Hd Ld Wa O) as (_ & d1 & Hd1 & Ld1 & Wa1 & I1 & O1).
    edestruct (IH (i :: done)) as (l & d2 & A1 & A2 & A3 & A4 & A5 & A6); [exact Hd1|exact Ld1|exact Wa1|now apply (inside_trans D d)| |exact O1|].
    2: { exists l, d2. cbn [rev]. rewrite <- app_assoc. auto 10. }
    cbn [built]. split; [|assumption]. destruct layers as [|before r]; [destruct done; contradiction|]. cbn [hd]. intros n I. apply filter_In in I. destruct I as [I _].
    apply grow_sound in I. destruct I as [Ne C]. split; [assumption|]. intros f v If. specialize (C f v If). apply choices_In in C. destruct C as (_ & J & V & E).
    split; [assumption|]. split; [|assumption]. apply each_value_In in V. apply (view_member_up d); auto. now apply (handle_below nv).
Qed.

(** The sums can be totals. *)
Definition good (s : list Z) : Prop := forall x, (x < k)%nat -> view_member D (handle totals x) (nth x committed 0 + nth x s 0).

Definition alive (later : list nat) (s : list Z) : Prop := exists g, (forall i, In i later -> view_member D (handle vars i) (g i)) /\ good (travel s later g).

Lemma built_filter done layers (q : node -> bool) : built D done layers -> built D done (filter q (hd [] layers) :: tl layers).
Proof.
  destruct done as [|i more]; destruct layers as [|l r]; try contradiction; cbn [built hd tl].
  - destruct r; [|contradiction]. intros H n I. apply filter_In in I. now apply H.
  - intros [H B]. split; [|assumption]. destruct r; [contradiction|]. intros n I. apply filter_In in I. now apply H.
Qed.

(** The values of [g] are possible, and lead to good sums. *)
Definition leads (items : list nat) (g : nat -> Z) : Prop := (forall i, In i items -> view_member D (handle vars i) (g i)) /\ good (travel zeros items g).

Lemma prefix_suffix done layers n later : NoDup (rev done ++ later) -> built D done layers -> In n (hd [] layers) -> forall h, (forall i, In i later -> view_member D (handle vars i) (h i)) -> good (travel (fst n) later h) ->
  exists g, leads (rev done ++ later) g /\ (forall i, In i later -> g i = h i) /\ travel zeros (rev done) g = fst n.
Proof.
  intros ND Bu I h Mh Gh. assert (NDd : NoDup done).
  { rewrite <- (rev_involutive done). apply NoDup_rev. clear -ND. revert ND. generalize (rev done). intro l. induction l as [|i l IH]; intro ND; [constructor|]. cbn [app] in ND. apply NoDup_cons_iff in ND. destruct ND as [N ND].
    constructor; [|auto]. intro I. apply N. apply in_or_app. now left. }
  destruct (built_prefix D done layers n NDd Bu I) as (p & Mp & Ep).
  assert (Apart : forall i, In i later -> ~ In i done).
  { clear -ND. intros i Il Id. apply in_rev in Id. revert ND Id. generalize (rev done). intro l. induction l as [|j l IH]; intros ND Id; [destruct Id|]. cbn [app] in ND. apply NoDup_cons_iff in ND. destruct ND as [N ND].
    destruct Id as [->|Id]; [apply N, in_or_app; now right|auto]. }
  assert (E1 : travel zeros (rev done) (fun i => if in_dec Nat.eq_dec i done then p i else h i) = fst n).
  { rewrite Ep. apply travel_ext. intros i Ii. apply in_rev in Ii. destruct (in_dec Nat.eq_dec i done); [reflexivity|contradiction]. }
  assert (E2 : forall i, In i later -> (fun i => if in_dec Nat.eq_dec i done then p i else h i) i = h i).
  { intros i Ii. destruct (in_dec Nat.eq_dec i done) as [J|]; [destruct (Apart i Ii J)|reflexivity]. }
  exists (fun i => if in_dec Nat.eq_dec i done then p i else h i). split; [|auto]. split.
  - intros i Ii. destruct (in_dec Nat.eq_dec i done) as [J|J]; [auto|]. apply Mh. apply in_app_or in Ii. destruct Ii as [Ii|Ii]; [apply in_rev in Ii; contradiction|assumption].
  - rewrite travel_app, E1, (travel_ext rows later _ h) by assumption. assumption.
Qed.

Lemma backward_obeys done : forall later layers d, NoDup (rev done ++ later) -> domains_ok d -> length d = nv -> within a d -> inside D d -> built D done layers ->
  (forall n, In n (hd [] layers) -> alive later (fst n)) -> obeys nv a (backward vars done layers) d ->
  forall i, In i done -> exists g, leads (rev done ++ later) g /\ g i = var_value a (handle vars i).
Proof.
  induction done as [|i more IH]; intros later layers d ND Hd Ld Wa Id Bu Al O j [].
  - subst j. destruct layers as [|layer [|before earlier]]; [contradiction|destruct Bu as [[] _]|]. cbn [backward obeys] in O.
    destruct (keep_supported_passes d (handle vars i) _ _ d Hd Ld Wa O) as (Q & _). specialize (Q (value_listed nv d _ a Hd Ld (handle_below nv vars i Bv) Wa)).
    apply in_map_iff in Q. destruct Q as ((f, v) & E & Q). cbn [snd] in E. apply in_flat_map in Q. destruct Q as (n & In1 & Q). cbn [built] in Bu. destruct Bu as [B Bl]. destruct (B n In1) as [_ C].
    destruct (C f v Q) as (If & Mv & En). apply in_map_iff in If. destruct If as (m & Em & Im). destruct (Al n In1) as (h & Mh & Gh).
    cbn [rev] in ND |- *. rewrite <- app_assoc in ND |- *. cbn [app] in ND |- *.
    assert (Ni : ~ In i later). { apply NoDup_remove_2 in ND. intro I. apply ND. apply in_or_app. now right. }
    destruct (prefix_suffix more (before :: earlier) m (i :: later) ND Bl Im (fun j => if Nat.eqb j i then v else h j)) as (g & Lg & Eg & _).
    + intros j [<-|J]; [now rewrite Nat.eqb_refl|]. destruct (Nat.eqb_spec j i) as [->|]; [contradiction|auto].
    + cbn [Verif.KnapsackProofs.travel fold_left]. rewrite Nat.eqb_refl, Em, <- En.
      change (good (travel (fst n) later (fun j => if Nat.eqb j i then v else h j))). rewrite (travel_ext rows later _ h); [assumption|]. intros j J. destruct (Nat.eqb_spec j i) as [->|]; [contradiction|reflexivity].
    + exists g. split; [assumption|]. rewrite Eg by now left. cbv beta. rewrite Nat.eqb_refl. assumption.
  - destruct layers as [|layer [|before earlier]]; [contradiction|destruct Bu as [[] _]|]. cbn [backward obeys] in O.
    destruct (keep_supported_passes d (handle vars i) _ _ d Hd Ld Wa O) as (_ & d1 & Hd1 & Ld1 & Wa1 & I1 & O1). cbn [built] in Bu. destruct Bu as [B Bl].
    cbn [rev] in ND |- *. rewrite <- app_assoc in ND |- *. cbn [app] in ND |- *.
    apply (IH (i :: later) (filter (fun n => existsb (same_sums (fst n)) (map fst (flat_map snd layer))) before :: earlier) d1); auto.
    + now apply (inside_trans D d).
    + apply (built_filter more (before :: earlier)). assumption.
    + cbn [hd]. intros m Im. apply filter_In in Im. destruct Im as [_ R]. apply same_sums_In in R. apply in_map_iff in R. destruct R as ((f, v) & Em & R). cbn [fst] in Em. apply in_flat_map in R. destruct R as (n & In1 & R).
      destruct (B n In1) as [_ C]. destruct (C f v R) as (_ & Mv & En). destruct (Al n In1) as (h & Mh & Gh).
      assert (Ni : ~ In i later). { apply NoDup_remove_2 in ND. intro I. apply ND. apply in_or_app. now right. }
      exists (fun j => if Nat.eqb j i then v else h j). split.
      * intros j' [<-|J]; [now rewrite Nat.eqb_refl|]. destruct (Nat.eqb_spec j' i) as [->|]; [contradiction|auto].
      * cbn [Verif.KnapsackProofs.travel fold_left]. rewrite Nat.eqb_refl, <- Em, <- En.
        change (good (travel (fst n) later (fun j => if Nat.eqb j i then v else h j))). rewrite (travel_ext rows later _ h); [assumption|]. intros j' J. destruct (Nat.eqb_spec j' i) as [->|]; [contradiction|reflexivity].
Qed.

(** What is left after the run: values that lead somewhere. *)
Definition covers (items : list nat) : Prop :=
  (exists g, leads items g) /\
  (forall i, In i items -> exists g, leads items g /\ g i = var_value a (handle vars i)) /\
  (forall x, (x < k)%nat -> exists g, leads items g /\ nth x committed 0 + nth x (travel zeros items g) 0 = var_value a (handle totals x)).

Lemma finish_obeys floors items layers d : NoDup items -> domains_ok d -> length d = nv -> within a d -> inside D d -> built D (rev items) layers ->
  obeys nv a (finish committed floors vars totals items layers) d -> covers items.
Proof.
  intros ND Hd Ld Wa Id Bu O. unfold finish in O. cbn [obeys] in O.
  set (finals := filter (fun n : node => negb (not_a_total d totals committed (fst n))) (filter (fun n : node => negb (falls_short committed (floors d) (fst n))) (hd [] layers))).
  change (obeys nv a match finals with [] => Infer LFalse Stop | _ :: _ => sequence (flat_map (total_literals committed totals finals d) (seq 0 (length totals))) Infer (backward vars (rev items) (finals :: tl layers)) end d) in O.
  assert (Sub : forall n, In n finals -> In n (hd [] layers) /\ good (fst n)).
  { intros n I. apply filter_In in I. destruct I as [I T]. apply filter_In in I. split; [apply I|]. intros x Lx. apply negb_true_iff in T.
    apply (view_member_up d); auto; [now apply (handle_below nv)|]. apply in_domain_spec; [assumption|apply (known_here nv); [assumption|now apply (handle_below nv)]|].
    destruct (in_domain d (handle totals x) (nth x committed 0 + nth x (fst n) 0)) eqn:X; [reflexivity|exfalso]. assert (Y : not_a_total d totals committed (fst n) = true); [|congruence].
    unfold not_a_total. apply existsb_exists. exists x. split; [apply in_seq; lia|]. now rewrite X. }
  destruct finals as [|n0 r] eqn:Ef; [destruct O as [[] _]|]. rewrite <- Ef in *. assert (I0 : In n0 finals) by (rewrite Ef; now left). clear Ef r.
  destruct (passes_sequence nv a Infer (fun l _ => lit_holds a l) (flat_map (total_literals committed totals finals d) (seq 0 (length totals))) (fun l _ => passes_infer nv a l) _ d Hd Ld Wa O) as (T & d1 & Hd1 & Ld1 & Wa1 & I1 & O1).
  assert (Path : forall n, In n finals -> exists g, leads items g /\ travel zeros items g = fst n).
  { intros n In1. destruct (Sub n In1) as [Ih G]. destruct (prefix_suffix (rev items) layers n [] ltac:(now rewrite app_nil_r, rev_involutive) Bu Ih (fun _ => 0) ltac:(intros ? []) G) as (g & Lg & _ & Eg).
    rewrite app_nil_r, rev_involutive in Lg. rewrite rev_involutive in Eg. eauto. }
  split; [destruct (Path n0 I0) as (g & Lg & _); eauto|]. split.
  - intros i Ii. destruct (backward_obeys (rev items) [] (finals :: tl layers) d1) with (i := i) as (g & Lg & Eg); auto.
    + now rewrite app_nil_r, rev_involutive.
    + now apply (inside_trans D d).
    + unfold finals. apply (built_filter (rev items) (_ :: tl layers)). now apply built_filter.
    + cbn [hd]. intros n In1. exists (fun _ => 0). split; [intros ? []|]. now apply Sub.
    + now apply -> in_rev.
    + rewrite app_nil_r, rev_involutive in Lg. eauto.
  - intros x Lx. assert (S : exists n, In n finals /\ nth x committed 0 + nth x (fst n) 0 = var_value a (handle totals x)).
    { set (t := handle totals x) in *. set (sums := map (fun n : node => nth x committed 0 + nth x (fst n) 0) finals).
      assert (Has : forall l, In l (total_literals committed totals finals d x) -> lit_holds a l).
      { intros l Il. destruct (T l) as (d2 & _ & _ & _ & _ & L); [|assumption]. apply in_flat_map. exists x. split; [apply in_seq; lia|assumption]. }
      unfold total_literals in Has. cbv zeta in Has. fold t sums in Has.
      pose proof (Has _ (or_introl eq_refl)) as A1. apply lit_ge in A1. pose proof (Has _ (or_intror (or_introl eq_refl))) as A2. apply (proj1 (lit_lt _ _ _)) in A2.
      destruct (existsb (Z.eqb (var_value a t)) sums) eqn:X.
      - apply eqb_In in X. apply in_map_iff in X. destruct X as (n & E & In1). exists n. auto.
      - exfalso. refine (Has (LCond (cond_ne t (var_value a t))) _ eq_refl). right. right. apply in_map_iff. eexists. split; [reflexivity|]. apply filter_In. split.
        + apply (value_listed nv); auto. now apply (handle_below nv).
        + cbv beta. match goal with |- context [existsb _ ?l] => change l with sums end. rewrite X. rewrite !andb_true_iff. repeat split; [apply Z.leb_le; assumption|apply Z.ltb_lt; assumption]. }
    destruct S as (n & In1 & En). destruct (Path n In1) as (g & Lg & Eg). exists g. split; [assumption|]. now rewrite Eg.
Qed.

Lemma first_built : built D [] [first_layer totals].
Proof. cbn [built first_layer]. intros n [<-|[]]. reflexivity. Qed.

Lemma run_obeys caps floors known items d : NoDup items -> domains_ok d -> length d = nv -> within a d -> inside D d ->
  obeys nv a (forward rows committed caps known vars items [first_layer totals] (finish committed floors vars totals items)) d -> covers items.
Proof.
  intros ND Hd Ld Wa Id O. destruct (forward_obeys caps known _ items [] _ d Hd Ld Wa Id first_built O) as (layers & d' & Hd' & Ld' & Wa' & Id' & Bu & O').
  rewrite app_nil_r in Bu. now apply (finish_obeys floors items layers d').
Qed.
End Obeys.
End Layers.

(** ** The two strategies *)
Section Whole.
Variable nv : nat.
Variable rows : list (list Z).
Variables vars totals : list var_id.
Hypothesis Len : length rows = length totals.
Hypothesis Wide : Forall (fun row => (length vars <= length row)%nat) rows.
Hypothesis Pos : Forall (Forall (fun c => 0 <= c)) rows.
Hypothesis Bv : Forall (var_below nv) vars.
Hypothesis Bt : Forall (var_below nv) totals.
Local Notation k := (length rows).
Local Notation n := (length vars).
Local Notation adds := (adds rows).
Local Notation travel := (travel rows).
Let zeros := repeat 0 (length totals).
Let val (a : assignment) (i : nat) := var_value a (handle vars i).

Lemma weight_nonneg x i : 0 <= weight rows x i.
Proof.
  unfold weight. destruct (Nat.lt_ge_cases x k) as [Lx|Lx]; [|rewrite (nth_overflow rows) by assumption; now destruct i].
  pose proof (proj1 (Forall_forall _ _) Pos _ (nth_In rows [] Lx)) as F. destruct (Nat.lt_ge_cases i (length (nth x rows []))) as [Li|Li]; [|rewrite nth_overflow by assumption; lia].
  apply (proj1 (Forall_forall _ _) F). now apply nth_In.
Qed.

Lemma weighted_row (row : list Z) a : forall vs off, (length vs <= length row)%nat ->
  weighted_sum (combine row vs) a = fold_right (fun i acc => var_value a (nth (i - off) vs (VConst 0)) * nth (i - off) row 0 + acc) 0 (seq off (length vs)).
Proof.
  induction row as [|c row IH]; intros [|v vs] off L; try reflexivity; [simpl in L; lia|]. cbn [combine length seq fold_right]. rewrite Nat.sub_diag. cbn [nth].
  unfold weighted_sum. cbn [sum_worth]. change (sum_worth (var_value a) (combine row vs)) with (weighted_sum (combine row vs) a). rewrite (IH vs (S off)) by (simpl in L; lia).
  unfold term_worth. cbn [fst snd]. rewrite Z.mul_comm. f_equal. clear IH L. generalize (seq_length (length vs) (S off)). 
  assert (G : forall l, (forall i, In i l -> (S off <= i)%nat) -> fold_right (fun i acc => var_value a (nth (i - S off) vs (VConst 0)) * nth (i - S off) row 0 + acc) 0 l = fold_right (fun i acc => var_value a (nth (i - off) (v :: vs) (VConst 0)) * nth (i - off) (c :: row) 0 + acc) 0 l).
  { induction l as [|i l IH]; intro H; [reflexivity|]. cbn [fold_right]. rewrite IH by (intros j J; apply H; now right). specialize (H i (or_introl eq_refl)). replace (i - off)%nat with (S (i - S off)) by lia. reflexivity. }
  intros _. apply G. intros i I. apply in_seq in I. lia.
Qed.

Lemma row_adds x a : (x < k)%nat -> weighted_sum (combine (nth x rows []) vars) a = adds x (seq 0 n) (val a).
Proof.
  intro Lx. pose proof (proj1 (Forall_forall _ _) Wide _ (nth_In rows [] Lx)) as W. rewrite (weighted_row _ a vars O W). unfold KnapsackProofs.adds, weight, val, handle.
  generalize (seq 0 n). induction l as [|i l IH]; [reflexivity|]. cbn [fold_right]. now rewrite Nat.sub_0_r, IH.
Qed.

Lemma adds_up_iff a : adds_up rows vars totals a <-> forall x, (x < k)%nat -> adds x (seq 0 n) (val a) = var_value a (handle totals x).
Proof.
  unfold adds_up. split.
  - intros F x Lx. rewrite <- row_adds by assumption. clear -F Lx. unfold handle. revert x Lx. induction F as [|row t rs ts E F IH]; intros [|x] Lx; simpl in Lx; [lia|lia|exact E|]. apply IH. lia.
  - intro H. assert (G : forall x, (x < k)%nat -> weighted_sum (combine (nth x rows []) vars) a = var_value a (nth x totals (VConst 0))) by (intros x Lx; rewrite row_adds by assumption; now apply H).
    clear -G Len. revert totals Len G. induction rows as [|row rs IH]; intros [|t ts] Len G; try discriminate; constructor; [exact (G O ltac:(simpl; lia))|].
    apply IH; [now injection Len|]. intros x Lx. exact (G (S x) ltac:(simpl; lia)).
Qed.

(** Possible values for the items, with possible totals. *)
Definition full (D : domains) (g : nat -> Z) : Prop :=
  (forall i, (i < n)%nat -> view_member D (handle vars i) (g i)) /\ forall x, (x < k)%nat -> view_member D (handle totals x) (adds x (seq 0 n) g).

Definition all_covered (D : domains) (a : assignment) : Prop :=
  (exists g, full D g) /\
  (forall i, (i < n)%nat -> exists g, full D g /\ g i = val a i) /\
  (forall x, (x < k)%nat -> exists g, full D g /\ adds x (seq 0 n) g = var_value a (handle totals x)).

Lemma zero_sum x items g : (x < k)%nat -> nth x (travel zeros items g) 0 = adds x items g.
Proof. intro Lx. rewrite travel_nth by assumption. unfold zeros. rewrite nth_zeros. lia. Qed.

Lemma upfront_obeyed d0 d a : domains_ok d -> length d = nv -> within a d -> obeys nv a (upfront_pass d0 rows vars totals) d -> all_covered d a.
Proof.
  intros Hd Ld Wa O. unfold upfront_pass in O. apply (run_obeys rows vars totals Len nv Bv Bt d Hd Ld a) in O; auto using inside_refl; [|apply seq_NoDup].
  destruct O as (C1 & C2 & C3). fold zeros in C1, C2, C3.
  assert (F : forall g, leads rows vars totals d zeros (seq 0 n) g -> full d g).
  { intros g [M G]. split; [intros i Li; apply M, in_seq; lia|]. intros x Lx. specialize (G x Lx). fold zeros in G. rewrite zero_sum in G by assumption. unfold zeros in G. rewrite nth_zeros in G. exact G. }
  split; [destruct C1 as (g & Lg); eauto|]. split.
  - intros i Li. destruct (C2 i) as (g & Lg & E); [apply in_seq; lia|]. eauto.
  - intros x Lx. destruct (C3 x Lx) as (g & Lg & E). exists g. split; [auto|]. rewrite zero_sum in E by assumption. unfold zeros in E. rewrite nth_zeros in E. exact E.
Qed.

Lemma committed_split d x h : (x < k)%nat -> (forall i v, optional_single_value d (handle vars i) = Some v -> h i = v) ->
  nth x (committed_sums d rows vars) 0 + adds x (undetermined_items d vars) h = adds x (seq 0 n) h.
Proof.
  intros Lx H. unfold committed_sums, undetermined_items.
  set (F := fun x => fold_left (fun sum i => match optional_single_value d (handle vars i) with Some v => sum + v * weight rows x i | None => sum end) (seq 0 n) 0).
  rewrite (nth_indep _ 0 (F O)) by (rewrite map_length, seq_length; assumption). rewrite (map_nth F), seq_nth by assumption. unfold F. cbn [Nat.add].
  assert (G : forall l s, fold_left (fun sum i => match optional_single_value d (handle vars i) with Some v => sum + v * weight rows x i | None => sum end) l s
    + adds x (filter (fun i => match optional_single_value d (handle vars i) with Some _ => false | None => true end) l) h = s + adds x l h).
  { induction l as [|i l IH]; intro s; cbn [fold_left filter]; [reflexivity|]. cbn [KnapsackProofs.adds fold_right]. fold (adds x l h). destruct (optional_single_value d (handle vars i)) as [v|] eqn:E.
    - rewrite IH, (H i v E). lia.
    - cbn [KnapsackProofs.adds fold_right]. match goal with |- ?A + (?B + fold_right _ _ ?L) = _ => change (A + (B + adds x L h) = s + (B + adds x l h)); specialize (IH s); change (A + adds x L h = s + adds x l h) in IH end. lia. }
  now rewrite G.
Qed.

Lemma per_call_obeyed d a : domains_ok d -> length d = nv -> within a d -> obeys nv a (per_call_pass rows vars totals) d -> all_covered d a.
Proof.
  intros Hd Ld Wa O. unfold per_call_pass in O. cbn [obeys] in O. set (committed := committed_sums d rows vars) in *. set (items := undetermined_items d vars) in *.
  assert (O' : exists d', domains_ok d' /\ length d' = nv /\ within a d' /\ inside d d' /\
    obeys nv a (sequence (seq 0 (length totals)) (fun x => Infer (LCond (cond_ge (handle totals x) (nth x committed 0)))) (per_call_gac rows vars totals committed items)) d').
  { destruct items as [|i0 r]; [|exists d; repeat (split; [assumption|]); split; [apply inside_refl|exact O]].
    destruct (passes_sequence nv a (fun x => Infer (LCond (cond_eq (handle totals x) (nth x committed 0)))) (fun x _ => lit_holds a (LCond (cond_eq (handle totals x) (nth x committed 0)))) (seq 0 (length totals)) (fun x _ => passes_infer nv a _) _ d Hd Ld Wa O) as (_ & d1 & A & B & C & E & F).
    exists d1. auto. }
  clear O. destruct O' as (d1 & Hd1 & Ld1 & Wa1 & I1 & O).
  destruct (passes_sequence nv a (fun x => Infer (LCond (cond_ge (handle totals x) (nth x committed 0)))) (fun x _ => lit_holds a (LCond (cond_ge (handle totals x) (nth x committed 0)))) (seq 0 (length totals)) (fun x _ => passes_infer nv a _) _ d1 Hd1 Ld1 Wa1 O) as (_ & d2 & Hd2 & Ld2 & Wa2 & I2 & O2).
  unfold per_call_gac in O2. cbn [obeys] in O2.
  apply (run_obeys rows vars totals Len nv Bv Bt d Hd Ld a) in O2; auto; [|unfold items, undetermined_items; apply NoDup_filter, seq_NoDup|now apply (inside_trans d d1)].
  destruct O2 as (C1 & C2 & C3). fold zeros in C1, C2, C3.
  pose (more := fun (g : nat -> Z) i => match optional_single_value d (handle vars i) with Some v => v | None => g i end).
  assert (S : forall g x, (x < k)%nat -> adds x (seq 0 n) (more g) = nth x committed 0 + nth x (travel zeros items g) 0).
  { intros g x Lx. rewrite zero_sum by assumption. rewrite <- (committed_split d x (more g) Lx) by (intros i v E; unfold more; now rewrite E). unfold committed, items. f_equal.
    apply adds_ext. intros i I. apply filter_In in I. destruct I as [_ I]. unfold more. destruct (optional_single_value d (handle vars i)); [discriminate|reflexivity]. }
  assert (F : forall g, leads rows vars totals d committed items g -> full d (more g)).
  { intros g [M G]. split.
    - intros i Li. unfold more. pose proof (known_here nv d _ Ld (handle_below nv vars i Bv)) as Ki. destruct (optional_single_value d (handle vars i)) as [v|] eqn:E.
      + rewrite optional_single_value_spec in E by assumption. now apply E.
      + apply M. apply filter_In. split; [apply in_seq; lia|]. now rewrite E.
    - intros x Lx. rewrite S by assumption. apply (G x Lx). }
  split; [destruct C1 as (g & Lg); exists (more g); auto|]. split.
  - intros i Li. destruct (optional_single_value d (handle vars i)) as [v|] eqn:E.
    + destruct C1 as (g & Lg). exists (more g). split; [auto|]. unfold more. rewrite E. symmetry. pose proof (known_here nv d _ Ld (handle_below nv vars i Bv)) as Ki. now apply (osv_value d _ v Hd Ki E a).
    + destruct (C2 i) as (g & Lg & Eg); [apply filter_In; split; [apply in_seq; lia|now rewrite E]|]. exists (more g). split; [auto|]. unfold more. now rewrite E.
  - intros x Lx. destruct (C3 x Lx) as (g & Lg & E). exists (more g). split; [auto|]. now rewrite S.
Qed.

Lemma first_on g : on_path rows totals g [] [first_layer totals].
Proof. cbn. now left. Qed.

Lemma nonneg_here d0 d a : inside d0 d -> domains_ok d0 -> (length d0 <= nv)%nat -> Forall (var_known d0) vars -> none_negative d0 vars -> within a d -> forall i, 0 <= val a i.
Proof.
  intros I H0 L K N Wa i. unfold val, handle. destruct (Nat.lt_ge_cases i n) as [Li|Li]; [|rewrite nth_overflow by assumption; cbn; lia].
  pose proof (nth_In vars (VConst 0) Li) as In1. pose proof (proj1 (Forall_forall _ _) K _ In1) as Ki. pose proof (proj1 (Forall_forall _ _) N _ In1) as Ni. cbv beta in Ni.
  pose proof (value_bounds d0 _ a H0 Ki (I a Wa)). lia.
Qed.

Lemma bounds_nth (f : var_id -> Z) x : (x < k)%nat -> nth x (map f totals) 0 = f (handle totals x).
Proof. intro Lx. unfold handle. rewrite (nth_indep _ 0 (f (VConst 0))) by (rewrite map_length; lia). apply map_nth. Qed.

Lemma per_call_tells d0 D (P : assignment -> Prop) : domains_ok d0 -> (length d0 <= nv)%nat -> Forall (var_known d0) vars -> none_negative d0 vars -> inside d0 D ->
  (forall a, P a -> adds_up rows vars totals a) -> tells nv D P (per_call_pass rows vars totals).
Proof.
  intros H0 L K N I0 HP. unfold per_call_pass. cbn [tells]. intros d Hd Ld Id. set (committed := committed_sums d rows vars). set (items := undetermined_items d vars).
  assert (B : forall a, P a /\ within a d -> (forall x, (x < k)%nat -> nth x committed 0 + adds x items (val a) = var_value a (handle totals x)) /\ forall i, 0 <= val a i).
  { intros a [Pa Wa]. split; [|apply (nonneg_here d0 d); auto; now apply (inside_trans d0 D)]. intros x Lx. unfold committed, items. rewrite committed_split; [|assumption|].
    - apply adds_up_iff; auto.
    - intros i v E. unfold val. apply (osv_value d _ v Hd (known_here nv d _ Ld (handle_below nv vars i Bv)) E a Wa). }
  assert (G : tells nv d (fun a => P a /\ within a d) (sequence (seq 0 (length totals)) (fun x => Infer (LCond (cond_ge (handle totals x) (nth x committed 0)))) (per_call_gac rows vars totals committed items))).
  { assert (G1 : goes nv d (fun a => P a /\ within a d) (sequence (seq 0 (length totals)) (fun x => Infer (LCond (cond_ge (handle totals x) (nth x committed 0)))))).
    { apply goes_sequence. intros x Ix. apply in_seq in Ix. apply goes_infer; [now apply (handle_below nv)|]. intros a Pa. apply lit_ge. destruct (B a Pa) as [S Ng]. specialize (S x ltac:(lia)).
      pose proof (adds_nonneg rows weight_nonneg x items (val a) (fun i _ => Ng i)). lia. }
    apply G1; [auto|apply inside_refl|]. intros F IF. unfold per_call_gac. cbn [tells]. intros d' Hd' Ld' Id'.
    apply (forward_tells rows vars totals Len nv Bv committed items (fun _ _ => true) (fun a => (P a /\ within a d) /\ within a d')) with (done := []); auto.
    - intros a [Pa _]. now apply B.
    - apply weight_nonneg.
    - intros _. rewrite map_length. now symmetry.
    - intros a Pa. split; [assumption|apply first_on].
    - intros d2 a _ _ _ [_ Wa] _ x Lx. rewrite bounds_nth by assumption. apply value_bounds; auto. apply (known_here nv); [assumption|now apply (handle_below nv)].
    - intros layers D' P' ID HP'. apply (finish_tells rows vars totals Len nv Bv Bt committed items (fun a => (P a /\ within a d) /\ within a d')); auto.
      + intros a [Pa _]. now apply B.
      + intros _. rewrite map_length. now symmetry.
      + intros d2 a _ _ _ Pa _ x Lx. destruct (HP' a Pa) as [[_ Wa] _]. rewrite bounds_nth by assumption. apply value_bounds; auto. apply (known_here nv); [assumption|now apply (handle_below nv)]. }
  destruct items as [|i0 r] eqn:Ei; [|exact G].
  assert (G2 : goes nv d (fun a => P a /\ within a d) (sequence (seq 0 (length totals)) (fun x => Infer (LCond (cond_eq (handle totals x) (nth x committed 0)))))).
  { apply goes_sequence. intros x Ix. apply in_seq in Ix. apply goes_infer; [now apply (handle_below nv)|]. intros a Pa. destruct (B a Pa) as [S _]. specialize (S x ltac:(lia)). cbn in S. cbn. lia. }
  apply G2; [auto|apply inside_refl|]. intros F IF. now apply (tells_weaken nv _ d F (fun a => P a /\ within a d)).
Qed.

Lemma adds_le x items g h : (forall i, In i items -> g i <= h i) -> adds x items g <= adds x items h.
Proof.
  induction items as [|i r IH]; intro H; cbn [KnapsackProofs.adds fold_right]; [lia|]. fold (adds x r g) (adds x r h). pose proof (IH (fun j J => H j (or_intror J))). pose proof (H i (or_introl eq_refl)). pose proof (weight_nonneg x i). nia.
Qed.

Lemma caps_nth d0 x : (x < k)%nat -> nth x (compute_caps d0 rows vars) 0 = adds x (seq 0 n) (fun i => upper_bound d0 (handle vars i)).
Proof.
  intro Lx. unfold compute_caps. set (F := fun x => fold_left (fun sum i => sum + upper_bound d0 (handle vars i) * weight rows x i) (seq 0 n) 0).
  rewrite (nth_indep _ 0 (F O)) by (rewrite map_length, seq_length; assumption). rewrite (map_nth F), seq_nth by assumption. unfold F. cbn [Nat.add].
  assert (G : forall l s, fold_left (fun sum i => sum + upper_bound d0 (handle vars i) * weight rows x i) l s = s + adds x l (fun i => upper_bound d0 (handle vars i))).
  { induction l as [|i l IH]; intro s; cbn [fold_left KnapsackProofs.adds fold_right]; [lia|]. fold (adds x l (fun i => upper_bound d0 (handle vars i))). rewrite IH. lia. }
  now rewrite G.
Qed.

Lemma static_has d0 a : domains_ok d0 -> Forall (var_known d0) vars -> within a d0 -> (forall i, 0 <= val a i) ->
  forall i, (i <= n)%nat -> In (travel zeros (seq 0 i) (val a)) (static_nodes d0 rows vars (compute_caps d0 rows vars) i).
Proof.
  intros H0 K Wa Ng. induction i as [|i IH]; intro Li.
  - cbn. left. unfold zeros. now rewrite Len.
  - assert (Ki : var_known d0 (handle vars i)) by (unfold handle; apply (proj1 (Forall_forall _ _) K), nth_In; lia).
    rewrite seq_S, travel_app. cbn [static_nodes]. unfold static_layer. apply filter_In. split.
    + apply in_flat_map. exists (travel zeros (seq 0 i) (val a)). split; [apply IH; lia|]. apply in_map_iff. exists (val a i). split; [reflexivity|]. apply each_value_In. apply view_member_iff; eauto.
    + rewrite <- travel_app, <- seq_S. apply negb_true_iff. destruct (existsb _ (seq 0 k)) eqn:X; [exfalso|reflexivity]. apply existsb_exists in X. destruct X as (x & Ix & X). apply in_seq in Ix. apply Z.ltb_lt in X.
      rewrite caps_nth, zero_sum in X by lia. replace n with (S i + (n - S i))%nat in X by lia. rewrite seq_app, adds_app in X.
      assert (A : adds x (seq 0 (S i)) (val a) <= adds x (seq 0 (S i)) (fun i => upper_bound d0 (handle vars i))).
      { apply adds_le. intros j J. apply in_seq in J. apply value_bounds; auto. unfold handle. apply (proj1 (Forall_forall _ _) K), nth_In. lia. }
      assert (C : 0 <= adds x (seq (0 + S i) (n - S i)) (fun i => upper_bound d0 (handle vars i))).
      { apply adds_nonneg; [apply weight_nonneg|]. intros j J. apply in_seq in J. assert (Kj : var_known d0 (handle vars j)) by (unfold handle; apply (proj1 (Forall_forall _ _) K), nth_In; lia).
        pose proof (value_bounds d0 _ a H0 Kj Wa). specialize (Ng j). unfold val in Ng. lia. }
      lia.
Qed.

Lemma seq_split_at done i post : rev done ++ i :: post = seq 0 n -> (i < n)%nat /\ rev (i :: done) = seq 0 (S i).
Proof.
  intro E. assert (Ln : n = (length done + S (length post))%nat) by (rewrite <- (seq_length n 0), <- E, app_length, rev_length; reflexivity).
  assert (Ei : i = length done).
  { assert (X : nth (length done) (rev done ++ i :: post) O = i) by (rewrite app_nth2; rewrite rev_length; [now rewrite Nat.sub_diag|lia]). rewrite E, seq_nth in X by lia. lia. }
  assert (Ed : rev done = seq 0 i).
  { assert (X : firstn (length done) (rev done ++ i :: post) = rev done) by (rewrite <- (rev_length done); rewrite firstn_app, firstn_all, Nat.sub_diag; cbn [firstn]; now rewrite app_nil_r).
    rewrite E in X. rewrite <- X, Ei. replace n with (length done + S (length post))%nat by lia. rewrite seq_app. rewrite <- (seq_length (length done) 0) at 1. rewrite firstn_app, firstn_all, Nat.sub_diag. cbn [firstn]. now rewrite app_nil_r. }
  split; [lia|]. cbn [rev]. now rewrite Ed, seq_S.
Qed.

Lemma upfront_tells d0 D (P : assignment -> Prop) : domains_ok d0 -> (length d0 <= nv)%nat -> Forall (var_known d0) vars -> none_negative d0 vars -> inside d0 D ->
  (forall a, P a -> adds_up rows vars totals a /\ within a d0) -> tells nv D P (upfront_pass d0 rows vars totals).
Proof.
  intros H0 L K N I0 HP. unfold upfront_pass. fold zeros.
  assert (B : forall a, P a -> (forall x, (x < k)%nat -> nth x zeros 0 + adds x (seq 0 n) (val a) = var_value a (handle totals x)) /\ forall i, 0 <= val a i).
  { intros a Pa. destruct (HP a Pa) as [S Wa]. split; [|apply (nonneg_here d0 d0); auto using inside_refl]. intros x Lx. unfold zeros. rewrite nth_zeros. cbn [Z.add]. now apply adds_up_iff. }
  apply (forward_tells rows vars totals Len nv Bv zeros (seq 0 n) (fun i sums => existsb (same_sums sums) (static_nodes d0 rows vars (compute_caps d0 rows vars) (S i))) P B) with (done := []); auto.
  - intros done i post a E Pa. destruct (seq_split_at done i post E) as [Li Ed]. rewrite Ed. apply same_sums_In. destruct (B a Pa) as [_ Ng]. apply static_has; auto. now apply HP.
  - apply weight_nonneg.
  - intros d. rewrite map_length. now symmetry.
  - intros a Pa. split; [assumption|apply first_on].
  - intros d a Hd Ld Id Pa Wa x Lx. rewrite bounds_nth by assumption. apply value_bounds; auto. apply (known_here nv); [assumption|now apply (handle_below nv)].
  - intros layers D' P' ID HP'. apply (finish_tells rows vars totals Len nv Bv Bt zeros (seq 0 n) P B); auto.
    + intros d. rewrite map_length. now symmetry.
    + intros d a Hd Ld Id Pa Wa x Lx. rewrite bounds_nth by assumption. apply value_bounds; auto. apply (known_here nv); [assumption|now apply (handle_below nv)].
Qed.

(** Everything is fixed. *)
Lemma covered_holds d a : domains_ok d -> length d = nv -> Forall (fixed d) (vars ++ totals) -> within a d -> all_covered d a -> adds_up rows vars totals a.
Proof.
  intros Hd Ld F Wa [(g & Mv & Mt) _]. apply adds_up_iff. intros x Lx.
  assert (One : forall v y, In v (vars ++ totals) -> view_member d v y -> y = var_value a v).
  { intros v y Iv V. pose proof (proj1 (Forall_forall _ _) F v Iv) as [z Fz]. assert (Kv : var_known d v).
    { apply (known_here nv); [assumption|]. apply in_app_or in Iv. destruct Iv as [Iv|Iv]; [exact (proj1 (Forall_forall _ _) Bv v Iv)|exact (proj1 (Forall_forall _ _) Bt v Iv)]. }
    apply view_member_iff in V; auto. destruct V as (b & Wb & <-). rewrite (Fz b Wb). symmetry. now apply Fz. }
  rewrite (adds_ext rows x (seq 0 n) (val a) g).
  - apply One; [|now apply Mt]. apply in_or_app. right. unfold handle. apply nth_In. lia.
  - intros i I. apply in_seq in I. symmetry. apply One; [|apply Mv; lia]. apply in_or_app. left. unfold handle. apply nth_In. lia.
Qed.

(** No variable is behind two of the handles: the values can be chosen together. *)
Lemma full_assigned d g : domains_ok d -> length d = nv -> NoDup (underlying_list (vars ++ totals)) -> full d g ->
  exists b, within b d /\ adds_up rows vars totals b /\ (forall i, (i < n)%nat -> val b i = g i) /\ forall x, (x < k)%nat -> var_value b (handle totals x) = adds x (seq 0 n) g.
Proof.
  intros Hd Ld ND [Mv Mt]. destruct (choose_list d (vars ++ totals) (map g (seq 0 n) ++ map (fun x => adds x (seq 0 n) g) (seq 0 k))) as (b & Wb & E); auto.
  - apply Forall_app. split; [eapply Forall_impl; [|exact Bv]|eapply Forall_impl; [|exact Bt]]; intros v Kv; now apply (known_here nv).
  - assert (Pairs : forall (vs : list var_id) (h : nat -> Z), (forall i, (i < length vs)%nat -> view_member d (handle vs i) (h i)) -> Forall2 (view_member d) vs (map h (seq 0 (length vs)))).
    { induction vs as [|v vs IH]; intros h H; [constructor|]. cbn [length seq map]. constructor; [exact (H O ltac:(simpl; lia))|]. rewrite <- seq_shift, map_map. apply IH. intros i Li. exact (H (S i) ltac:(simpl; lia)). }
    apply Forall2_app; [now apply Pairs|]. rewrite Len. apply Pairs. intros x Lx. apply Mt. lia.
  - assert (Ev : forall i, (i < n)%nat -> val b i = g i).
    { intros i Li. assert (X : nth i (map (var_value b) (vars ++ totals)) 0 = nth i (map g (seq 0 n) ++ map (fun x => adds x (seq 0 n) g) (seq 0 k)) 0) by now rewrite E.
      rewrite map_app, !app_nth1 in X by (rewrite map_length, ?seq_length; assumption). rewrite (nth_indep _ 0 (var_value b (VConst 0))), map_nth in X by (rewrite map_length; assumption). unfold val, handle. rewrite X.
      rewrite (nth_indep _ 0 (g O)), map_nth, seq_nth by (rewrite ?map_length, ?seq_length; assumption). reflexivity. }
    assert (Et : forall x, (x < k)%nat -> var_value b (handle totals x) = adds x (seq 0 n) g).
    { intros x Lx. assert (X : nth (n + x) (map (var_value b) (vars ++ totals)) 0 = nth (n + x) (map g (seq 0 n) ++ map (fun x => adds x (seq 0 n) g) (seq 0 k)) 0) by now rewrite E.
      rewrite map_app in X. rewrite (app_nth2 (map (var_value b) vars)), (app_nth2 (map g (seq 0 n))) in X by (rewrite map_length, ?seq_length; lia). rewrite !map_length, seq_length in X. replace (n + x - n)%nat with x in X by lia.
      rewrite (nth_indep _ 0 (var_value b (VConst 0))), map_nth in X by (rewrite map_length; lia). unfold handle. rewrite X.
      rewrite (nth_indep _ 0 ((fun x => adds x (seq 0 n) g) O)), (map_nth (fun x => adds x (seq 0 n) g)), seq_nth by (rewrite ?map_length, ?seq_length; assumption). reflexivity. }
    exists b. split; [assumption|]. split; [|auto]. apply adds_up_iff. intros x Lx. rewrite Et by assumption. apply adds_ext. intros i I. apply in_seq in I. apply Ev. lia.
Qed.
End Whole.

Section Shape.
Variable s : knapsack_strategy.
Variable rows : list (list Z).
Variables vars totals : list var_id.

Definition accepts : Prop :=
  exists width, well_filled width rows totals /\ match s with PerCall => (length vars <= width)%nat | Upfront => width = length vars end.

Lemma accepted_iff : knapsack_refused s rows vars totals = false <-> accepts.
Proof.
  unfold knapsack_refused, accepts, well_filled. rewrite !orb_false_iff. split.
  - intros ((((A & B) & C) & D) & E). apply negb_false_iff, Nat.eqb_eq in A. apply negb_false_iff in C. rewrite forallb_forall in C. exists (length (hd [] rows)). split; [split; [destruct rows; [discriminate|congruence]|split; [assumption|]]|].
    + apply Forall_forall. intros row I. split; [now apply Nat.eqb_eq, C|]. apply Forall_forall. intros c Ic. destruct (Z.le_gt_cases 0 c) as [|Neg]; [assumption|exfalso].
      assert (X : existsb (existsb (fun c => c <? 0)) rows = true) by (apply existsb_exists; exists row; split; [assumption|]; apply existsb_exists; exists c; split; [assumption|now apply Z.ltb_lt]). congruence.
    + destruct s; [now apply Nat.ltb_ge|now apply Nat.eqb_eq, negb_false_iff].
  - intros (width & (B & A & F) & D). assert (E : length (hd [] rows) = width) by (destruct rows; [congruence|apply Forall_cons_iff in F; apply F]). rewrite E. repeat split.
    + now apply negb_false_iff, Nat.eqb_eq.
    + now destruct rows.
    + apply negb_false_iff, forallb_forall. intros row I. apply Nat.eqb_eq. now apply (proj1 (Forall_forall _ _) F).
    + destruct s; [now apply Nat.ltb_ge|now apply negb_false_iff, Nat.eqb_eq].
    + destruct (existsb _ rows) eqn:X; [exfalso|reflexivity]. apply existsb_exists in X. destruct X as (row & I & X). apply existsb_exists in X. destruct X as (c & Ic & X). apply Z.ltb_lt in X.
      apply (proj1 (Forall_forall _ _) F) in I. destruct I as [_ I]. apply (proj1 (Forall_forall _ _) I) in Ic. lia.
Qed.

Lemma refused_iff : knapsack_refused s rows vars totals = true <-> ~ accepts.
Proof. rewrite <- accepted_iff. destruct (knapsack_refused s rows vars totals); split; congruence. Qed.

Lemma accepts_shape : accepts -> length rows = length totals /\ Forall (fun row => (length vars <= length row)%nat) rows /\ Forall (Forall (fun c => 0 <= c)) rows.
Proof.
  intros (width & (_ & L & F) & W). split; [assumption|]. split; (eapply Forall_impl; [|exact F]); intros row [Er Er2]; [|assumption]. destruct s; lia.
Qed.

End Shape.

Section Posting.
Variable d0 : domains.
Variable s : knapsack_strategy.
Variable rows : list (list Z).
Variables vars totals : list var_id.
Hypothesis H0 : domains_ok d0.
Hypothesis K : Forall (var_known d0) (vars ++ totals).
Hypothesis N : none_negative d0 (vars ++ totals).
Let accepts := accepts s rows vars totals.
Let pass := match s with PerCall => per_call_pass rows vars totals | Upfront => upfront_pass d0 rows vars totals end.

Lemma vars_below nv : (length d0 <= nv)%nat -> Forall (var_below nv) vars /\ Forall (var_below nv) totals.
Proof.
  intro Ln. apply Forall_app in K. destruct K as [Kx Ky]. split; (eapply Forall_impl; [|eassumption]); intros v Kv; now apply (known_below_more d0).
Qed.

Lemma pass_tells nv d : (length d0 <= nv)%nat -> accepts -> inside d0 d -> tells nv d (fun a => adds_up rows vars totals a /\ within a d) pass.
Proof.
  intros Ln A I. destruct (accepts_shape s rows vars totals A) as (L & W & P). destruct (vars_below nv Ln) as [Bv Bt]. apply Forall_app in K. destruct K as [Kv _]. unfold none_negative in N. apply Forall_app in N. destruct N as [Nv _].
  unfold pass. destruct s; [apply (per_call_tells nv rows vars totals L W P Bv Bt d0); auto; tauto|apply (upfront_tells nv rows vars totals L W P Bv Bt d0); auto]. intros a [S Wa]. auto.
Qed.

Lemma pass_obeyed nv d a : (length d0 <= nv)%nat -> accepts -> domains_ok d -> length d = nv -> within a d -> obeys nv a pass d -> all_covered rows vars totals d a.
Proof.
  intros Ln A Hd Ld Wa. destruct (accepts_shape s rows vars totals A) as (L & W & P). destruct (vars_below nv Ln) as [Bv Bt]. unfold pass.
  destruct s; [apply (per_call_obeyed nv rows vars totals); auto|apply (upfront_obeyed nv rows vars totals); auto].
Qed.

Lemma knapsack_correct : forall c, knapsack s rows vars totals = Some c -> correct_on d0 c (vars ++ totals) (adds_up rows vars totals).
Proof.
  unfold knapsack. destruct (knapsack_refused s rows vars totals) eqn:R; [discriminate|]. intros c E. injection E as <-. apply accepted_iff in R. fold pass.
  apply (parts_correct d0 _ _ _ (adds_up rows vars totals) (fun _ => True)); [assumption| |apply established_nil|auto]. cbn [fst].
  apply (carried_body d0 _ (vars ++ totals)); [assumption|apply incl_refl|cbn [app]; rewrite app_nil_r; apply incl_refl|].
  intros nv Ln. apply once_meets.
  - intros d Hd Ld Id. now apply pass_tells.
  - intros d a Hd Ld Id F Wa O. destruct (accepts_shape s rows vars totals R) as (L & W & P). destruct (vars_below nv Ln) as [Bv Bt]. apply (covered_holds nv rows vars totals L W Bv Bt d); auto. now apply (pass_obeyed nv).
Qed.

(** One run, on domains [d]. *)
Lemma knapsack_run c p i D evs failed : knapsack s rows vars totals = Some c -> fst (c d0) = [p] -> usable (length d0) (fun d _ => inside d0 d) i ->
  NoDup (underlying_list (vars ++ totals)) -> apply_lits (i_domains i) (o_infer (p_run p i)) = (D, evs, failed) ->
  (forall a, within a (i_domains i) -> adds_up rows vars totals a -> failed = false /\ within a D) /\
  (failed = false -> domains_ok D /\ length D = length d0 /\ forall a, within a D -> forall v, v = VConst 0 \/ In v (vars ++ totals) -> exists b, within b (i_domains i) /\ adds_up rows vars totals b /\ var_value b v = var_value a v).
Proof.
  unfold knapsack. destruct (knapsack_refused s rows vars totals) eqn:R; [discriminate|]. intros E Ep (Hd & Ld & Id) ND Ap. injection E as <-. apply accepted_iff in R. fold pass in Ep. injection Ep as <-.
  cbn [body_propagator p_run] in Ap. destruct (body_run_out (Passes.once pass) i) as (Eo & _). rewrite Eo in Ap. unfold Passes.once in Ap. cbn [fst] in Ap. set (d := i_domains i) in *. set (nv := length d0) in *.
  destruct (accepts_shape s rows vars totals R) as (L & W & P). destruct (vars_below nv (Nat.le_refl _)) as [Bv Bt].
  pose proof (pass_tells nv d (Nat.le_refl _) R Id) as T.
  assert (H : honest nv d (adds_up rows vars totals) (exec pass (track d))).
  { apply (tells_honest nv d Hd Ld _ _ d (fun a => adds_up rows vars totals a /\ within a d)); auto; [intros _; apply inside_refl|apply honest_track]. }
  destruct (lg_apply _ _ _ (proj1 H)) as (ev & A'). rewrite A' in Ap. injection Ap as <- _ <-. split.
  - intros a Wa Sa. now apply (honest_within nv d Hd Ld (adds_up rows vars totals)).
  - intro F. split; [apply (legit_ok nv d); auto; apply H|]. split; [apply (legit_length nv d); auto; apply H|]. intros a Wa v Iv.
    destruct (exec_obeys nv d Hd Ld a pass d _ (track d) (fun _ => inside_refl d) T) as (_ & _ & O); [apply (honest_track nv d (fun _ => True))|split; [apply H|split; assumption]|]. cbn in O.
    assert (Wd : within a d) by (apply (legit_inside nv d Hd Ld _ (proj1 H) F); assumption).
    apply pass_obeyed in O; auto. destruct O as (C1 & C2 & C3).
    assert (As : forall g, full rows vars totals d g -> exists b, within b d /\ adds_up rows vars totals b /\ (forall i, (i < length vars)%nat -> var_value b (handle vars i) = g i) /\ forall x, (x < length rows)%nat -> var_value b (handle totals x) = adds rows x (seq 0 (length vars)) g).
    { intros g Fg. now apply (full_assigned nv rows vars totals L W Bv Bt). }
    destruct Iv as [->|Iv].
    + destruct C1 as (g & Fg). destruct (As g Fg) as (b & Wb & Sb & _). exists b. auto.
    + apply in_app_or in Iv. destruct Iv as [Iv|Iv]; apply (In_nth _ _ (VConst 0)) in Iv; destruct Iv as (x & Lx & <-).
      * destruct (C2 x Lx) as (g & Fg & Eg). destruct (As g Fg) as (b & Wb & Sb & Eb & _). exists b. repeat split; auto. rewrite (Eb x Lx : var_value b (nth x vars (VConst 0)) = _). exact Eg.
      * rewrite <- L in Lx. destruct (C3 x Lx) as (g & Fg & Eg). destruct (As g Fg) as (b & Wb & Sb & _ & Eb). exists b. repeat split; auto. rewrite (Eb x Lx : var_value b (nth x totals (VConst 0)) = _). exact Eg.
Qed.
End Posting.

Lemma knapsack_none s rows vars totals : knapsack s rows vars totals = None <-> ~ accepts s rows vars totals.
Proof. unfold knapsack. rewrite <- refused_iff. destruct (knapsack_refused s rows vars totals); split; congruence. Qed.

Lemma knapsack_consistent d0 s rows vars totals c p : domains_ok d0 -> Forall (var_known d0) (vars ++ totals) -> none_negative d0 (vars ++ totals) -> NoDup (underlying_list (vars ++ totals)) ->
  knapsack s rows vars totals = Some c -> fst (c d0) = [p] ->
  forall D, ConsistencySpec.outcome (length d0) (fun d _ => inside d0 d) p D -> domain_consistent D (vars ++ totals) (adds_up rows vars totals).
Proof.
  intros H0 K N ND Ec Ep D (i & evs & U & Ap). destruct (knapsack_run d0 s rows vars totals H0 K N c p i D evs false Ec Ep U ND Ap) as [A B]. destruct (B eq_refl) as (_ & _ & C).
  intros v x Iv (a & Wa & <-). destruct (C a Wa v (or_intror Iv)) as (b & Wb & Sb & Eb). exists b. split; [now apply A|auto].
Qed.

Lemma knapsack_fails d0 s rows vars totals c p i D evs failed : domains_ok d0 -> Forall (var_known d0) (vars ++ totals) -> none_negative d0 (vars ++ totals) -> NoDup (underlying_list (vars ++ totals)) ->
  knapsack s rows vars totals = Some c -> fst (c d0) = [p] -> usable (length d0) (fun d _ => inside d0 d) i -> apply_lits (i_domains i) (o_infer (p_run p i)) = (D, evs, failed) ->
  (failed = true <-> forall a, within a (i_domains i) -> ~ adds_up rows vars totals a).
Proof.
  intros H0 K N ND Ec Ep U Ap. destruct (knapsack_run d0 s rows vars totals H0 K N c p i D evs failed Ec Ep U ND Ap) as [A B]. split.
  - intros -> a Wa Sa. destruct (A a Wa Sa). discriminate.
  - intro No. destruct failed; [reflexivity|exfalso]. destruct (B eq_refl) as (HD & _ & C). destruct (within_exists D HD) as (a & Wa). destruct (C a Wa (VConst 0) (or_introl eq_refl)) as (b & Wb & Sb & _). now apply (No b).
Qed.

Lemma knapsack_alike d0 rows vars totals c1 c2 p1 p2 i1 i2 D1 D2 evs1 evs2 f1 f2 : domains_ok d0 -> Forall (var_known d0) (vars ++ totals) -> none_negative d0 (vars ++ totals) -> NoDup (underlying_list (vars ++ totals)) ->
  knapsack PerCall rows vars totals = Some c1 -> knapsack Upfront rows vars totals = Some c2 -> fst (c1 d0) = [p1] -> fst (c2 d0) = [p2] ->
  usable (length d0) (fun d _ => inside d0 d) i1 -> usable (length d0) (fun d _ => inside d0 d) i2 -> i_domains i1 = i_domains i2 ->
  apply_lits (i_domains i1) (o_infer (p_run p1 i1)) = (D1, evs1, f1) -> apply_lits (i_domains i2) (o_infer (p_run p2 i2)) = (D2, evs2, f2) ->
  f1 = f2 /\ (f1 = false -> forall v x, In v (vars ++ totals) -> (exists a, within a D1 /\ var_value a v = x) <-> (exists a, within a D2 /\ var_value a v = x)).
Proof.
  intros H0 K N ND E1 E2 P1 P2 U1 U2 Ei A1 A2. destruct (knapsack_run d0 _ rows vars totals H0 K N c1 p1 i1 D1 evs1 f1 E1 P1 U1 ND A1) as [S1 C1]. destruct (knapsack_run d0 _ rows vars totals H0 K N c2 p2 i2 D2 evs2 f2 E2 P2 U2 ND A2) as [S2 C2].
  pose proof (knapsack_fails d0 _ rows vars totals c1 p1 i1 D1 evs1 f1 H0 K N ND E1 P1 U1 A1) as F1. pose proof (knapsack_fails d0 _ rows vars totals c2 p2 i2 D2 evs2 f2 H0 K N ND E2 P2 U2 A2) as F2. rewrite Ei in *.
  assert (Ef : f1 = f2) by (destruct f1, f2; try reflexivity; [symmetry; apply F2, F1; reflexivity|apply F1, F2; reflexivity]).
  split; [assumption|]. intros Ff v x Iv. subst f2 f1. destruct (C1 eq_refl) as (_ & _ & C1'). destruct (C2 eq_refl) as (_ & _ & C2').
  split; intros (a & Wa & <-); [destruct (C1' a Wa v (or_intror Iv)) as (b & Wb & Sb & Eb)|destruct (C2' a Wa v (or_intror Iv)) as (b & Wb & Sb & Eb)]; exists b; (split; [|assumption]); [now apply S2|now apply S1].
Qed.

Lemma adds_up_ext rows vars totals a b : (forall v, In v (vars ++ totals) -> var_value a v = var_value b v) -> adds_up rows vars totals a -> adds_up rows vars totals b.
Proof.
  unfold adds_up. intros E F. assert (W : forall row, weighted_sum (combine row vars) a = weighted_sum (combine row vars) b).
  { assert (Ev : forall v, In v vars -> var_value a v = var_value b v) by (intros v I; apply E, in_or_app; now left). clear E F. induction vars as [|v vs IH]; intro row; [now destruct row|]. destruct row as [|c row]; [reflexivity|].
    cbn [combine]. unfold weighted_sum in *. cbn [sum_worth]. rewrite (IH (fun v I => Ev v (or_intror I)) row). f_equal. unfold term_worth. cbn [snd]. rewrite (Ev v (or_introl eq_refl)). reflexivity. }
  assert (Et : forall t, In t totals -> var_value a t = var_value b t) by (intros v I; apply E, in_or_app; now right). clear E.
  induction F as [|row t rs ts X F IH]; constructor.
  - rewrite <- W, X. apply Et. now left.
  - apply IH. intros u I. apply Et. now right.
Qed.

Lemma strategies_differ : exists rows items totals, knapsack Upfront rows items totals = None /\ knapsack PerCall rows items totals <> None.
Proof. exists [[2; 3]], [VSimple 0], [VSimple 1]. split; [reflexivity|discriminate]. Qed.
