(** Lemmas about MinDistance. *)
From Coq Require Import ZArith List Bool Arith Lia Permutation.
From Verif Require Import IntervalSet IntervalSetSpec IntervalSetProofs Vars VarsSpec VarsProofs State StateSpec StateProofs Epochs
  Engine EngineSpec EngineProofs SessionSpec SessionInvProofs Tracker ContractSpec ContractProofs RunProofs PartsProofs ConsistencySpec QuietProofs Passes PassesProofs OnceProofs
  Element MinDistance MinDistanceSpec MinDistanceMatchingProofs.
From Verif Require MultiplyProofs KnapsackProofs.
Import ListNotations.
Local Open Scope Z_scope.

Lemma point_nth xs i v : nth_error xs i = Some v -> point xs i = v.
Proof. intro E. now apply nth_error_nth. Qed.

Lemma nth_point xs i : (i < length xs)%nat -> nth_error xs i = Some (point xs i).
Proof. intro L. now apply nth_error_nth'. Qed.

Definition values (xs : list var_id) (a : assignment) : list Z := map (var_value a) xs.

Lemma values_nth xs a i : (i < length xs)%nat -> nth i (values xs a) 0 = var_value a (point xs i).
Proof. intro L. unfold values, point. rewrite (nth_indep _ 0 (var_value a (VConst 0))) by (now rewrite map_length). apply map_nth. Qed.

Section Meaning.
Variable xs : list var_id.
Variable z : var_id.
Variable D : matrix.
Variable R : option matrix.
Hypothesis M : distance_matrix D.
Hypothesis MR : requirement_matrix (length xs) R.

Lemma sat_pair a i j : is_min_distance xs z D R a -> (i < j < length xs)%nat ->
  site D (var_value a (point xs i)) = true /\ site D (var_value a (point xs j)) = true /\
  var_value a z <= distance D (var_value a (point xs i)) (var_value a (point xs j)) /\
  requirement R i j <= distance D (var_value a (point xs i)) (var_value a (point xs j)).
Proof.
  intros [H _] L. destruct (H i j _ _ (proj1 L) (nth_point xs i ltac:(lia)) (nth_point xs j (proj2 L))) as (k & A & Z & F). apply (apart_iff D M) in A. destruct A as (Sx & Sy & ->).
  split; [assumption|]. split; [assumption|]. split; [assumption|]. unfold requirement. destruct R as [m|]; [|now apply distance_nonneg].
  apply (F m); [reflexivity|]. destruct (MR m eq_refl) as (Lm & Fm & _). apply (entry_cell m (length xs)); auto; lia.
Qed.

Definition distances (vs : list Z) : list Z := map (fun '(i, j) => distance D (nth i vs 0) (nth j vs 0)) (pairs (length vs)).

Lemma distances_in a k : In k (distances (values xs a)) <-> exists i j, (i < j < length xs)%nat /\ k = distance D (var_value a (point xs i)) (var_value a (point xs j)).
Proof.
  unfold distances. rewrite in_map_iff. unfold values at 3. rewrite map_length. split.
  - intros ((i, j) & <- & I). apply in_pairs in I. exists i, j. rewrite !values_nth by lia. auto.
  - intros (i & j & L & ->). exists (i, j). rewrite !values_nth by lia. split; [reflexivity|now apply in_pairs].
Qed.

Lemma sat_least a mu : is_min_distance xs z D R a -> least (distances (values xs a)) = Some mu -> var_value a z = mu.
Proof.
  intros Sa E. apply least_spec in E. destruct E as [I Le]. apply distances_in in I. destruct I as (i & j & L & ->). destruct (sat_pair a i j Sa L) as (_ & _ & Z & _).
  destruct Sa as (_ & i' & j' & v & w & L' & Ev & Ew & A). apply (apart_iff D M) in A. destruct A as (_ & _ & E). assert (Lj : (j' < length xs)%nat) by (apply nth_error_Some; congruence).
  apply point_nth in Ev, Ew. subst v w. specialize (Le (var_value a z)). rewrite E in Le. rewrite distances_in in Le. specialize (Le ltac:(exists i', j'; split; [lia|reflexivity])). lia.
Qed.

Lemma sat_intro a : (2 <= length xs)%nat -> forallb (site D) (values xs a) = true ->
  (forall i j, (i < j < length xs)%nat -> far_enough R i j (distance D (var_value a (point xs i)) (var_value a (point xs j)))) ->
  (forall mu, least (distances (values xs a)) = Some mu -> var_value a z = mu) -> is_min_distance xs z D R a.
Proof.
  intros Two Si Rq Mu. assert (Sp : forall i, (i < length xs)%nat -> site D (var_value a (point xs i)) = true).
  { intros i L. rewrite forallb_forall in Si. apply Si. unfold values. apply in_map. unfold point. now apply nth_In. }
  destruct (least (distances (values xs a))) as [mu|] eqn:E.
  - specialize (Mu mu eq_refl). apply least_spec in E. destruct E as [I Le]. split.
    + intros i j v w L Ev Ew. assert (Lj : (j < length xs)%nat) by (apply nth_error_Some; congruence). apply point_nth in Ev, Ew. subst v w.
      exists (distance D (var_value a (point xs i)) (var_value a (point xs j))). split; [apply (apart_iff D M); split; [apply Sp; lia|]; split; [now apply Sp|reflexivity]|]. split; [|apply Rq; lia].
      rewrite Mu. apply Le. apply distances_in. exists i, j. auto.
    + apply distances_in in I. destruct I as (i & j & L & Em). exists i, j, (point xs i), (point xs j). split; [lia|]. split; [apply nth_point; lia|]. split; [apply nth_point; lia|].
      apply (apart_iff D M). split; [apply Sp; lia|]. split; [apply Sp; lia|congruence].
  - apply least_none in E. assert (I : In (distance D (var_value a (point xs 0)) (var_value a (point xs 1))) (distances (values xs a))) by (apply distances_in; exists 0%nat, 1%nat; split; [lia|reflexivity]).
    rewrite E in I. destruct I.
Qed.

Lemma sat_sites a : (2 <= length xs)%nat -> is_min_distance xs z D R a -> forall v, In v xs -> site D (var_value a v) = true.
Proof.
  intros Two Sa v Iv. apply (In_nth xs v (VConst 0)) in Iv. destruct Iv as (i & L & <-). change (nth i xs (VConst 0)) with (point xs i).
  destruct i as [|i]; [apply (sat_pair a 0 1 Sa); lia|]. apply (sat_pair a 0 (S i) Sa). lia.
Qed.
End Meaning.

Section Passes.
Variable nv : nat.
Variable xs : list var_id.
Variable z : var_id.
Variable D : matrix.
Variable R : option matrix.
Hypothesis M : distance_matrix D.
Hypothesis MR : requirement_matrix (length xs) R.
Hypothesis Bx : Forall (var_below nv) xs.
Hypothesis Bz : var_below nv z.

Lemma point_below i : var_below nv (point xs i).
Proof. unfold point. destruct (nth_in_or_default i xs (VConst 0)) as [I|E]; [now apply (proj1 (Forall_forall _ _) Bx)|rewrite E; exact Logic.I]. Qed.

Lemma known_at d v : length d = nv -> var_below nv v -> var_known d v.
Proof. intros L B. now apply (var_below_known nv). Qed.

Lemma value_list_some d vs a : domains_ok d -> length d = nv -> within a d -> value_list d xs = Some vs -> vs = values xs a.
Proof.
  clear MR. intros Hd Ld Wa. revert vs. induction xs as [|v l IH]; intros vs; cbn [value_list fold_right values map]; [congruence|]. fold (value_list d l).
  destruct (proj1 (Forall_cons_iff _ _ _) Bx) as [Bv Bl]. destruct (optional_single_value d v) as [x|] eqn:E; [|discriminate]. destruct (value_list d l) as [ws|]; [|discriminate]. intros [= <-]. rewrite (IH Bl ws eq_refl).
  rewrite (osv_value d v x Hd (known_at d v Ld Bv) E a Wa). reflexivity.
Qed.

Lemma value_list_fixed d a : domains_ok d -> length d = nv -> within a d -> Forall (fixed d) xs -> value_list d xs = Some (values xs a).
Proof.
  clear MR. intros Hd Ld Wa F. induction xs as [|v l IH]; [reflexivity|]. destruct (proj1 (Forall_cons_iff _ _ _) F) as [Fv Fl]. destruct (proj1 (Forall_cons_iff _ _ _) Bx) as [Bv Bl]. cbn [value_list fold_right values map]. fold (value_list d l).
  rewrite (fixed_single_value d v a) by (auto; now apply known_at). rewrite IH; auto.
Qed.

Lemma pin_goes DD (P : assignment -> Prop) vs : (forall a, P a -> is_min_distance xs z D R a /\ vs = Some (values xs a)) \/ vs = None -> goes nv DD P (pin D vs z).
Proof.
  intros H. unfold pin. destruct vs as [vs|]; [|apply goes_id]. destruct H as [H|H]; [|discriminate]. destruct (forallb (site D) vs); [|apply goes_id].
  change (map _ (pairs (length vs))) with (distances D vs). destruct (least (distances D vs)) as [mu|] eqn:E; [|apply goes_id].
  assert (X : forall a, P a -> var_value a z = mu).
  { intros a Pa. destruct (H a Pa) as [Sa [= ->]]. now apply (sat_least xs z D R M MR a). }
  apply (goes_then nv DD P (Infer _) (Infer _)); apply goes_infer; try assumption; intros a Pa; specialize (X a Pa); cbn; lia.
Qed.

Lemma pin_seen DD (P : assignment -> Prop) d : domains_ok d -> length d = nv -> (forall a, P a -> is_min_distance xs z D R a /\ within a d) -> goes nv DD P (pin D (value_list d xs) z).
Proof.
  intros Hd Ld H. apply pin_goes. destruct (value_list d xs) as [vs|] eqn:E; [left|now right]. intros a Pa. destruct (H a Pa) as [Sa Wa]. split; [assumption|]. f_equal. now apply (value_list_some d).
Qed.

Lemma check_goes DD (P : assignment -> Prop) d i j : domains_ok d -> length d = nv -> (i < j < length xs)%nat -> (forall a, P a -> is_min_distance xs z D R a /\ within a d) ->
  goes nv DD P (check_pair d xs z D R (i, j)).
Proof.
  intros Hd Ld L H. unfold check_pair. destruct (optional_single_value d (point xs i)) as [x|] eqn:Ex; [|apply goes_id]. destruct (optional_single_value d (point xs j)) as [y|] eqn:Ey; [|apply goes_id].
  destruct (site D x && site D y); [|apply goes_id].
  assert (X : forall a, P a -> var_value a z <= distance D x y /\ requirement R i j <= distance D x y).
  { intros a Pa. destruct (H a Pa) as [Sa Wa]. destruct (sat_pair xs z D R M MR a i j Sa L) as (_ & _ & A & B).
    rewrite (osv_value d _ x Hd (known_at d _ Ld (point_below i)) Ex a Wa), (osv_value d _ y Hd (known_at d _ Ld (point_below j)) Ey a Wa) in A, B. auto. }
  destruct (match R with Some m => _ | None => false end) eqn:T.
  - apply goes_infer; [exact Logic.I|]. intros a Pa. destruct (X a Pa) as [_ B]. unfold requirement in B. destruct R as [m|]; [|discriminate]. apply Z.ltb_lt in T. lia.
  - apply goes_infer; [assumption|]. intros a Pa. destruct (X a Pa) as [A _]. cbn. lia.
Qed.

Lemma goes_tells DD P f : goes nv DD P f -> tells nv DD P (f Stop).
Proof. intro G. apply G; [auto|apply inside_refl|]. intros. exact Logic.I. Qed.

Lemma check_tells d : domains_ok d -> length d = nv -> tells nv d (fun a => is_min_distance xs z D R a /\ within a d) (check_pass xs z D R).
Proof.
  intros Hd Ld. unfold check_pass. apply (goes_tells d _ (fun rest => Look (fun d => sequence (pairs (length xs)) (check_pair d xs z D R) (pin D (value_list d xs) z rest)))).
  apply (goes_look nv d _ (fun d rest => sequence (pairs (length xs)) (check_pair d xs z D R) (pin D (value_list d xs) z rest))). intros e He Le Ie.
  apply (goes_then nv e _ (sequence _ _) (pin _ _ _)).
  - apply goes_sequence. intros (i, j) I. apply in_pairs in I. apply check_goes; auto. tauto.
  - apply pin_seen; auto. tauto.
Qed.

Lemma prune_goes DD (P : assignment -> Prop) tij v w : var_below nv v -> var_below nv w -> (forall a, P a -> tij <= distance D (var_value a v) (var_value a w)) -> goes nv DD P (forward_prune D tij v w).
Proof.
  intros Bv Bw H. unfold forward_prune.
  apply (goes_look nv DD P (fun d rest => match optional_single_value d v with
    | Some a => if site D a then sequence (each_value d w) (fun b => infer_when (site D b && (distance D a b <? tij)) (LCond (cond_ne w b))) rest else rest
    | None => rest end)). intros d Hd Ld Id. cbn beta. destruct (optional_single_value d v) as [x|] eqn:E; [|apply goes_id]. destruct (site D x); [|apply goes_id].
  apply goes_sequence. intros b _. apply goes_when. intro T. split; [assumption|]. intros a [Pa Wa]. apply andb_true_iff in T. destruct T as [_ T]. apply Z.ltb_lt in T.
  specialize (H a Pa). rewrite (osv_value d v x Hd (known_at d v Ld Bv) E a Wa) in H. cbn. intros Ev. rewrite Ev in H. lia.
Qed.

Lemma reachable_in d rij v w k : In k (reachable d D rij v w) <-> rij <= k /\ exists x y, In x (each_value d v) /\ site D x = true /\ In y (each_value d w) /\ site D y = true /\ k = distance D x y.
Proof.
  unfold reachable. rewrite filter_In, Z.leb_le, in_flat_map. split.
  - intros [(x & Ix & I) L]. split; [assumption|]. apply filter_In in Ix. apply in_map_iff in I. destruct I as (y & <- & Iy). apply filter_In in Iy. exists x, y. tauto.
  - intros (L & x & y & Ix & Sx & Iy & Sy & ->). split; [|assumption]. exists x. split; [apply filter_In; auto|]. apply in_map. apply filter_In. auto.
Qed.

Lemma bound_goes DD (P : assignment -> Prop) rij z_min v w : var_below nv v -> var_below nv w ->
  (forall a, P a -> site D (var_value a v) = true /\ site D (var_value a w) = true /\ rij <= distance D (var_value a v) (var_value a w) /\ z_min <= var_value a z <= distance D (var_value a v) (var_value a w)) ->
  goes nv DD P (pair_bound z D rij z_min v w).
Proof.
  intros Bv Bw H. unfold pair_bound.
  apply (goes_look nv DD P (fun d rest => match greatest (reachable d D rij v w) with
    | None => Infer LFalse rest
    | Some u => if u <? z_min then Infer LFalse rest else infer_when (u <? upper_bound d z) (LCond (cond_lt z (u + 1))) rest end)). intros d Hd Ld Id. cbn beta.
  assert (X : forall a, P a /\ within a d -> In (distance D (var_value a v) (var_value a w)) (reachable d D rij v w)).
  { intros a [Pa Wa]. destruct (H a Pa) as (Sv & Sw & Lr & _). apply reachable_in. split; [assumption|]. exists (var_value a v), (var_value a w). split; [apply value_listed; auto; now apply known_at|]. split; [assumption|].
    split; [apply value_listed; auto; now apply known_at|]. auto. }
  destruct (greatest (reachable d D rij v w)) as [u|] eqn:E.
  - apply greatest_spec in E. destruct E as [_ Gr]. destruct (Z.ltb_spec u z_min) as [L|L].
    + apply goes_infer; [exact Logic.I|]. intros a PW. specialize (Gr _ (X a PW)). destruct (H a (proj1 PW)) as (_ & _ & _ & A). lia.
    + apply goes_when. intros _. split; [assumption|]. intros a PW. specialize (Gr _ (X a PW)). destruct (H a (proj1 PW)) as (_ & _ & _ & A). cbn. lia.
  - apply greatest_none in E. apply goes_infer; [exact Logic.I|]. intros a PW. specialize (X a PW). rewrite E in X. destruct X.
Qed.

Lemma scan_goes DD (P : assignment -> Prop) tij v w : var_below nv v -> var_below nv w ->
  (forall a, P a -> site D (var_value a w) = true /\ tij <= distance D (var_value a v) (var_value a w)) -> goes nv DD P (support_scan D tij v w).
Proof.
  intros Bv Bw H. unfold support_scan.
  set (step := fun x rest => Look (fun d => infer_when (site D x && in_domain d v x && negb (existsb (fun b => site D b && (tij <=? distance D x b)) (each_value d w))) (LCond (cond_ne v x)) rest)).
  apply (goes_look nv DD P (fun d rest => sequence (each_value d v) step rest)). intros d Hd Ld Id. apply goes_sequence. intros x _. unfold step.
  apply (goes_look nv d _ (fun d => infer_when (site D x && in_domain d v x && negb (existsb (fun b => site D b && (tij <=? distance D x b)) (each_value d w))) (LCond (cond_ne v x)))).
  intros e He Le Ie. apply goes_when. intro T. split; [assumption|]. intros a [[Pa _] Wa] Ev. cbn in Ev. destruct (H a Pa) as [Sw L]. apply andb_true_iff in T. destruct T as [_ T]. apply negb_true_iff in T.
  rewrite existsb_none in T. specialize (T (var_value a w) (value_listed e w a He (known_at e w Le Bw) Wa)). rewrite Sw in T. cbn [andb] in T. apply Z.leb_gt in T. rewrite Ev in L. lia.
Qed.

Lemma pair_goes DD (P : assignment -> Prop) support z_min i j : (i < j < length xs)%nat -> (forall a, P a -> is_min_distance xs z D R a /\ z_min <= var_value a z) ->
  goes nv DD P (forward_pair xs z D R support z_min (i, j)).
Proof.
  intros L H. pose proof (point_below i) as Bi. pose proof (point_below j) as Bj. unfold forward_pair.
  assert (X : forall a, P a -> site D (var_value a (point xs i)) = true /\ site D (var_value a (point xs j)) = true /\
    Z.max (requirement R i j) z_min <= distance D (var_value a (point xs i)) (var_value a (point xs j)) /\
    Z.max (requirement R i j) z_min <= distance D (var_value a (point xs j)) (var_value a (point xs i)) /\ z_min <= var_value a z <= distance D (var_value a (point xs i)) (var_value a (point xs j))).
  { intros a Pa. destruct (H a Pa) as [Sa Za]. destruct (sat_pair xs z D R M MR a i j Sa L) as (A & B & C & E). rewrite (distance_sym D M _ _ B A). repeat split; auto; lia. }
  apply (goes_then nv DD P (forward_prune _ _ _ _) (fun rest => forward_prune D _ (point xs j) (point xs i) (pair_bound z D _ z_min (point xs i) (point xs j)
      (if support then support_scan D _ (point xs i) (point xs j) (support_scan D _ (point xs j) (point xs i) rest) else rest)))); [apply prune_goes; auto; intros a Pa; apply (X a Pa)|].
  apply (goes_then nv DD P (forward_prune _ _ _ _) (fun rest => pair_bound z D _ z_min (point xs i) (point xs j)
      (if support then support_scan D _ (point xs i) (point xs j) (support_scan D _ (point xs j) (point xs i) rest) else rest))); [apply prune_goes; auto; intros a Pa; apply (X a Pa)|].
  apply (goes_then nv DD P (pair_bound _ _ _ _ _ _) (fun rest => if support then support_scan D _ (point xs i) (point xs j) (support_scan D _ (point xs j) (point xs i) rest) else rest)).
  - apply bound_goes; auto. intros a Pa. destruct (X a Pa) as (A & B & C & E & F). repeat split; auto; lia.
  - destruct support; [|apply goes_id]. apply (goes_then nv DD P (support_scan _ _ _ _) (support_scan _ _ _ _)); apply scan_goes; auto; intros a Pa; destruct (X a Pa) as (A & B & C & E & F); auto.
Qed.

Lemma forward_tells support d : domains_ok d -> length d = nv -> tells nv d (fun a => is_min_distance xs z D R a /\ within a d) (forward_pass xs z D R support).
Proof.
  intros Hd Ld. unfold forward_pass.
  apply (goes_tells d _ (fun rest => Look (fun d => sequence (pairs (length xs)) (forward_pair xs z D R support (lower_bound d z)) (Look (fun d => pin D (value_list d xs) z rest))))).
  apply (goes_look nv d _ (fun d rest => sequence (pairs (length xs)) (forward_pair xs z D R support (lower_bound d z)) (Look (fun d => pin D (value_list d xs) z rest)))). intros e He Le Ie.
  apply (goes_then nv e _ (sequence _ _) (fun rest => Look (fun d => pin D (value_list d xs) z rest))).
  - apply goes_sequence. intros (i, j) I. apply in_pairs in I. apply pair_goes; auto. intros a [[Sa _] Wa]. split; [assumption|]. apply (value_bounds e z a He (known_at e z Le Bz) Wa).
  - apply (goes_look nv e _ (fun d => pin D (value_list d xs) z)). intros f Hf Lf If. apply pin_seen; auto. tauto.
Qed.

(** ** What is checked *)
Lemma pin_passes a : passes nv a (pin D (Some (values xs a)) z)
  (fun _ => forallb (site D) (values xs a) = true -> forall mu, least (distances D (values xs a)) = Some mu -> var_value a z = mu).
Proof.
  unfold pin. destruct (forallb (site D) (values xs a)); [|eapply passes_weaken; [|apply passes_id]; discriminate]. change (map _ (pairs (length (values xs a)))) with (distances D (values xs a)).
  destruct (least (distances D (values xs a))) as [mu|]; [|eapply passes_weaken; [|apply passes_id]; discriminate].
  eapply passes_weaken; [|apply (passes_then nv a (Infer _) (Infer _) _ _ (passes_infer _ _ _) (passes_infer _ _ _))]. cbn beta. intros d _ _ _ (A & d' & _ & _ & _ & _ & B) _ mu' [= <-]. cbn in A, B. lia.
Qed.

Lemma check_passes a d i j : domains_ok d -> length d = nv -> within a d -> fixed d (point xs i) -> fixed d (point xs j) ->
  passes nv a (check_pair d xs z D R (i, j)) (fun _ => site D (var_value a (point xs i)) = true -> site D (var_value a (point xs j)) = true ->
    forall m, R = Some m -> entry_at m i j <= distance D (var_value a (point xs i)) (var_value a (point xs j))).
Proof.
  intros Hd Ld Wa Fi Fj. unfold check_pair. rewrite (fixed_single_value d (point xs i) a), (fixed_single_value d (point xs j) a) by (auto; apply known_at; auto; apply point_below).
  destruct (site D (var_value a (point xs i))); [|eapply passes_weaken; [|apply passes_id]; discriminate]. destruct (site D (var_value a (point xs j))); [|eapply passes_weaken; [|apply passes_id]; discriminate]. cbn [andb].
  destruct (match R with Some m => _ | None => false end) eqn:T; (eapply passes_weaken; [|apply passes_infer]); intros e _ _ _ H.
  - destruct H.
  - intros _ _ m Em. rewrite Em in T. now apply Z.ltb_ge in T.
Qed.

Lemma requirement_far i j k : (forall m, R = Some m -> entry_at m i j <= k) -> far_enough R i j k.
Proof. intros H m r E C. rewrite (cell_entry _ _ _ _ C). auto. Qed.

Lemma points_fixed d i : Forall (fixed d) xs -> fixed d (point xs i).
Proof. intro F. unfold point. destruct (nth_in_or_default i xs (VConst 0)) as [I|E]; [now apply (proj1 (Forall_forall _ _) F)|rewrite E; exists 0; intros; reflexivity]. Qed.

Lemma site_values a i : forallb (site D) (values xs a) = true -> (i < length xs)%nat -> site D (var_value a (point xs i)) = true.
Proof. intros Si L. rewrite forallb_forall in Si. apply Si. unfold values. apply in_map. now apply nth_In. Qed.

Lemma check_checks d a : (2 <= length xs)%nat -> domains_ok d -> length d = nv -> Forall (fixed d) xs -> within a d -> obeys nv a (check_pass xs z D R) d ->
  forallb (site D) (values xs a) = true -> is_min_distance xs z D R a.
Proof.
  intros Two Hd Ld F Wa O Si. unfold check_pass in O. cbn [obeys] in O. rewrite (value_list_fixed d a) in O by assumption.
  destruct (passes_sequence nv a (check_pair d xs z D R) (fun ij _ => site D (var_value a (point xs (fst ij))) = true -> site D (var_value a (point xs (snd ij))) = true ->
    forall m, R = Some m -> entry_at m (fst ij) (snd ij) <= distance D (var_value a (point xs (fst ij))) (var_value a (point xs (snd ij)))) (pairs (length xs))
    (fun '(i, j) _ => check_passes a d i j Hd Ld Wa (points_fixed d i F) (points_fixed d j F)) _ d Hd Ld Wa O) as (Q & d2 & H2 & L2 & W2 & _ & O2).
  destruct (pin_passes a Stop d2 H2 L2 W2 O2) as [Pn _]. apply (sat_intro xs z D R M); auto.
  intros i j L. apply requirement_far. destruct (Q (i, j) (proj2 (in_pairs _ _ _) L)) as (_ & _ & _ & _ & _ & X). cbn [fst snd] in X. apply X; apply site_values; auto; lia.
Qed.

Lemma prune_passes a tij v w : passes nv a (forward_prune D tij v w) (fun _ => True).
Proof.
  intros rest d Hd Ld Wa O. unfold forward_prune in O. cbn [obeys] in O.
  assert (N : passes nv a (fun rest : prog => rest) (fun _ => True)) by apply passes_id.
  destruct (optional_single_value d v) as [x|]; [|now apply (N rest d)]. destruct (site D x); [|now apply (N rest d)].
  refine (passes_weaken nv a _ _ (fun _ => True) _ (passes_sequence nv a _ (fun _ _ => True) (each_value d w) _) rest d Hd Ld Wa O); [auto|].
  intros b _. apply (passes_weaken _ _ _ _ _ ltac:(intros; exact Logic.I) (passes_when nv a _ _)).
Qed.

Lemma scan_passes a tij v w : passes nv a (support_scan D tij v w) (fun _ => True).
Proof.
  intros rest d Hd Ld Wa O. unfold support_scan in O. cbn [obeys] in O.
  refine (passes_weaken nv a _ _ (fun _ => True) _ (passes_sequence nv a _ (fun _ _ => True) (each_value d v) _) rest d Hd Ld Wa O); [auto|].
  intros x _ rest' e He Le We Oe. cbn [obeys] in Oe. destruct (passes_when nv a _ _ rest' e He Le We Oe) as [_ X]. split; [exact Logic.I|exact X].
Qed.

Lemma bound_passes a rij z_min v w : var_below nv v -> var_below nv w -> passes nv a (pair_bound z D rij z_min v w) (fun d => fixed d v -> fixed d w -> rij <= distance D (var_value a v) (var_value a w)).
Proof.
  intros Bv Bw rest d Hd Ld Wa O. unfold pair_bound in O. cbn [obeys] in O. destruct (greatest (reachable d D rij v w)) as [u|] eqn:E.
  - destruct (u <? z_min); [destruct O as ([] & _)|]. destruct (passes_when nv a _ _ rest d Hd Ld Wa O) as [_ X]. split; [|exact X]. intros Fv Fw.
    apply greatest_spec in E. destruct E as [I _]. apply reachable_in in I. destruct I as (L & x & y & Ix & _ & Iy & _ & Eu).
    rewrite (fixed_each_value d v a) in Ix by (auto; now apply known_at). rewrite (fixed_each_value d w a) in Iy by (auto; now apply known_at). destruct Ix as [<-|[]]. destruct Iy as [<-|[]]. lia.
  - destruct O as ([] & _).
Qed.

Lemma pair_passes a support z_min i j : passes nv a (forward_pair xs z D R support z_min (i, j))
  (fun d => fixed d (point xs i) -> fixed d (point xs j) -> requirement R i j <= distance D (var_value a (point xs i)) (var_value a (point xs j))).
Proof.
  pose proof (point_below i) as Bi. pose proof (point_below j) as Bj. unfold forward_pair. set (tij := Z.max (requirement R i j) z_min).
  assert (Ps : passes nv a (fun rest => if support then support_scan D tij (point xs i) (point xs j) (support_scan D tij (point xs j) (point xs i) rest) else rest) (fun _ => True)).
  { destruct support; [|apply passes_id]. eapply passes_weaken; [|apply (passes_then nv a _ _ _ _ (scan_passes a tij (point xs i) (point xs j)) (scan_passes a tij (point xs j) (point xs i)))]. auto. }
  pose proof (passes_then nv a _ _ _ _ (prune_passes a tij (point xs i) (point xs j)) (passes_then nv a _ _ _ _ (prune_passes a tij (point xs j) (point xs i))
    (passes_then nv a _ _ _ _ (bound_passes a (requirement R i j) z_min (point xs i) (point xs j) Bi Bj) Ps))) as PP.
  eapply passes_weaken; [|exact PP]. cbn beta. intros d _ _ _ (_ & d1 & _ & _ & _ & I1 & _ & d2 & _ & _ & _ & I2 & Q & _) Fi Fj. apply Q; apply (fixed_mono d1 d2); auto; now apply (fixed_mono d d1).
Qed.

Lemma forward_checks support d a : (2 <= length xs)%nat -> domains_ok d -> length d = nv -> Forall (fixed d) xs -> within a d -> obeys nv a (forward_pass xs z D R support) d ->
  forallb (site D) (values xs a) = true -> is_min_distance xs z D R a.
Proof.
  intros Two Hd Ld F Wa O Si. unfold forward_pass in O. cbn [obeys] in O.
  destruct (passes_sequence nv a (forward_pair xs z D R support (lower_bound d z)) (fun ij e => fixed e (point xs (fst ij)) -> fixed e (point xs (snd ij)) ->
    requirement R (fst ij) (snd ij) <= distance D (var_value a (point xs (fst ij))) (var_value a (point xs (snd ij)))) (pairs (length xs))
    (fun '(i, j) _ => pair_passes a support (lower_bound d z) i j) _ d Hd Ld Wa O) as (Q & d2 & H2 & L2 & W2 & I2 & O2).
  cbn [obeys] in O2. rewrite (value_list_fixed d2 a) in O2; auto; [|eapply Forall_impl; [|exact F]; intros v; now apply fixed_mono].
  destruct (pin_passes a Stop d2 H2 L2 W2 O2) as [Pn _]. apply (sat_intro xs z D R M); auto.
  intros i j L. apply requirement_far. intros m Em. destruct (Q (i, j) (proj2 (in_pairs _ _ _) L)) as (d3 & _ & _ & _ & I3 & X). cbn [fst snd] in X.
  specialize (X (fixed_mono d d3 _ I3 (points_fixed d i F)) (fixed_mono d d3 _ I3 (points_fixed d j F))). unfold requirement in X. now rewrite Em in X.
Qed.
End Passes.

(** ** Matching *)
Lemma active_in d D xs x : In x (active d D xs) <-> site D x = true /\ exists v, In v xs /\ In x (each_value d v).
Proof.
  unfold active, site. rewrite filter_In, in_map_iff, existsb_exists, andb_true_iff, Z.leb_le, Z.ltb_lt. split.
  - intros [(k & <- & I) (v & Iv & E)]. apply in_seq in I. split; [lia|]. exists v. split; [assumption|now apply holds_spec].
  - intros [L (v & Iv & I)]. split; [exists (Z.to_nat x); split; [lia|apply in_seq; lia]|]. exists v. split; [assumption|now apply holds_spec].
Qed.

Lemma active_nodup d D xs : NoDup (active d D xs).
Proof.
  unfold active. apply NoDup_filter. assert (N : NoDup (seq 0 (length D))) by apply seq_NoDup. induction N as [|k l Nk N IH]; [constructor|]. cbn [map]. apply NoDup_cons_iff. split; [|assumption].
  intro I. apply in_map_iff in I. destruct I as (j & E & I). apply Nk. now replace k with j by lia.
Qed.

Section Matching.
Variable xs : list var_id.
Variable z : var_id.
Variable D : matrix.

Lemma refuted_spec d t : refuted_level d xs z D = Some t ->
  In t (levels D) /\ 1 <= t /\ lower_bound d z <= t <= upper_bound d z /\ refuted_at D (length xs) (active d D xs) t = true.
Proof.
  unfold refuted_level. destruct (active d D xs) as [|a0 A0] eqn:EA; [discriminate|]. rewrite <- EA. clear EA a0 A0.
  destruct (Z.ltb_spec (upper_bound d z) (Z.max (lower_bound d z) 1)) as [|Lw]; [discriminate|]. destruct (levels_spec D) as [Ri _].
  set (lo := length (filter (fun t => t <? Z.max (lower_bound d z) 1) (levels D))). set (hi := length (filter (fun t => t <=? upper_bound d z) (levels D))).
  destruct (Nat.leb_spec hi lo) as [|Lh]; [discriminate|].
  destruct (search_levels _ _ _ _ _) as [k|] eqn:E; [|discriminate]. intros [= <-]. apply search_found in E. destruct E as [E|[Lk Rk]]; [discriminate|].
  assert (Hl : (hi <= length (levels D))%nat) by (unfold hi; clear; induction (levels D) as [|x l IH]; [auto|]; cbn [filter]; destruct (x <=? upper_bound d z); cbn [length]; lia).
  assert (Lk' : (k < length (levels D))%nat) by lia.
  pose proof (rising_prefix (levels D) (fun t => t <? Z.max (lower_bound d z) 1) Ri ltac:(intros x y Lt; rewrite !Z.ltb_lt; lia) k Lk') as P1. fold lo in P1.
  pose proof (rising_prefix (levels D) (fun t => t <=? upper_bound d z) Ri ltac:(intros x y Lt; rewrite !Z.leb_le; lia) k Lk') as P2. fold hi in P2. cbn beta in P1, P2. rewrite Z.ltb_lt in P1. rewrite Z.leb_le in P2.
  split; [now apply nth_In|]. assert (~ nth k (levels D) 0 < Z.max (lower_bound d z) 1) by (rewrite P1; lia). assert (nth k (levels D) 0 <= upper_bound d z) by (apply P2; lia). repeat split; auto; lia.
Qed.

Variable R : option matrix.
Hypothesis M : distance_matrix D.
Hypothesis MR : requirement_matrix (length xs) R.
Hypothesis Two : (2 <= length xs)%nat.

Lemma far_apart a i j : is_min_distance xs z D R a -> (i < length xs)%nat -> (j < length xs)%nat -> i <> j -> var_value a z <= distance D (var_value a (point xs i)) (var_value a (point xs j)).
Proof.
  intros Sa Li Lj N. destruct (Nat.lt_ge_cases i j) as [L|L]; [apply (sat_pair xs z D R M MR a i j Sa); lia|]. destruct (sat_pair xs z D R M MR a j i Sa ltac:(lia)) as (A & B & C & _). now rewrite distance_sym.
Qed.

Lemma refuted_sound nv d a t : Forall (var_below nv) xs -> domains_ok d -> length d = nv -> within a d -> is_min_distance xs z D R a -> refuted_level d xs z D = Some t -> var_value a z < t.
Proof.
  intros Bx Hd Ld Wa Sa E. apply refuted_spec in E. destruct E as (_ & One & _ & Rf). apply Z.ltb_lt in Rf. destruct (Z.lt_ge_cases (var_value a z) t) as [L|L]; [assumption|exfalso].
  pose proof (sat_sites xs z D R M MR a Two Sa) as Si.
  assert (Nth : forall i, (i < length (values xs a))%nat -> (i < length xs)%nat /\ nth i (values xs a) 0 = var_value a (point xs i)).
  { intros i Li. unfold values in Li. rewrite map_length in Li. split; [assumption|now apply values_nth]. }
  assert (Far : forall i j, (i < length xs)%nat -> (j < length xs)%nat -> i <> j -> t <= distance D (var_value a (point xs i)) (var_value a (point xs j))).
  { intros i j Li Lj N. pose proof (far_apart a i j Sa Li Lj N). lia. }
  pose proof (far_apart_count D t (active d D xs) (values xs a) (active_nodup d D xs)) as C.
  assert (X : (length (values xs a) + length (match_sites D t (active d D xs) []) <= length (active d D xs))%nat).
  { apply C.
    - apply (NoDup_nth (values xs a) 0). intros i j Li Lj E. destruct (Nth i Li) as [Li' Ei]. destruct (Nth j Lj) as [Lj' Ej]. destruct (Nat.eq_dec i j) as [|N]; [assumption|exfalso].
      specialize (Far i j Li' Lj' N). rewrite <- Ei, <- Ej, <- E, Ei in Far. rewrite (distance_self D M) in Far; [lia|]. apply Si. unfold point. now apply nth_In.
    - intros x I. unfold values in I. apply in_map_iff in I. destruct I as (v & <- & Iv). apply active_in. split; [now apply Si|]. exists v. split; [assumption|]. apply value_listed; auto.
      apply (var_below_known nv); auto. now apply (proj1 (Forall_forall _ _) Bx).
    - intros x y Ix Iy N. apply (In_nth _ _ 0) in Ix, Iy. destruct Ix as (i & Li & <-). destruct Iy as (j & Lj & <-). destruct (Nth i Li) as [Li' Ei]. destruct (Nth j Lj) as [Lj' Ej]. rewrite Ei, Ej. apply Far; auto. congruence. }
  unfold values in X. rewrite map_length in X. lia.
Qed.

Lemma matching_tells nv d : Forall (var_below nv) xs -> var_below nv z -> domains_ok d -> length d = nv -> tells nv d (fun a => is_min_distance xs z D R a /\ within a d) (matching_pass xs z D).
Proof.
  intros Bx Bz Hd Ld. unfold matching_pass. cbn [tells]. intros e He Le Ie. destruct (refuted_level e xs z D) as [t|] eqn:E; [|exact Logic.I].
  assert (X : forall a, (is_min_distance xs z D R a /\ within a d) /\ within a e -> var_value a z < t) by (intros a [[Sa _] We]; now apply (refuted_sound nv e)).
  destruct (Z.leb_spec t (lower_bound e z)) as [L|L]; cbn [tells]; split; try exact Logic.I; try assumption; (split; [|exact Logic.I]); intros a H; specialize (X a H); [|exact X].
  pose proof (value_bounds e z a He (var_below_known nv e z Le Bz) (proj2 H)). lia.
Qed.

(** The level that is highest is not refuted. *)
Lemma levels_apart t : In t (levels D) <-> exists x y, x <> y /\ apart D x y t.
Proof.
  destruct (levels_spec D) as [_ H]. rewrite H. destruct M as (_ & F & _). split.
  - intros (a & b & L & ->). exists (Z.of_nat a), (Z.of_nat b). split; [lia|]. unfold apart. rewrite !Nat2Z.id. split; [lia|]. split; [lia|]. apply (entry_cell D (length D)); auto; lia.
  - intros (x & y & N & A). pose proof A as A'. apply (apart_iff D M) in A. destruct A as (Sx & Sy & E). destruct A' as (Px & Py & C). destruct (cell_bounds D (length D) _ _ _ eq_refl F C) as [Lx Ly].
    destruct (Nat.lt_ge_cases (Z.to_nat x) (Z.to_nat y)) as [L|L]; [exists (Z.to_nat x), (Z.to_nat y); split; [lia|]; now apply cell_entry|].
    exists (Z.to_nat y), (Z.to_nat x). split; [lia|]. rewrite E, (distance_sym D M) by assumption. reflexivity.
Qed.

Lemma unrefuted d t : refuted_level d xs z D = None -> active d D xs <> [] -> highest_level d z D t -> lower_bound d z <= t -> 1 <= t -> refuted_at D (length xs) (active d D xs) t = false.
Proof.
  intros E Ne (Lv & Up & Hi) Lo One. unfold refuted_level in E. destruct (active d D xs) as [|a0 A0] eqn:EA; [congruence|]. rewrite <- EA in *. clear EA a0 A0 Ne.
  destruct (Z.ltb_spec (upper_bound d z) (Z.max (lower_bound d z) 1)) as [|Lw]; [lia|]. destruct (levels_spec D) as [Ri _].
  set (lo := length (filter (fun t => t <? Z.max (lower_bound d z) 1) (levels D))) in *. set (hi := length (filter (fun t => t <=? upper_bound d z) (levels D))) in *.
  assert (Hl : (hi <= length (levels D))%nat) by (unfold hi; clear; induction (levels D) as [|x l IH]; [auto|]; cbn [filter]; destruct (x <=? upper_bound d z); cbn [length]; lia).
  pose proof (rising_prefix (levels D) (fun t => t <? Z.max (lower_bound d z) 1) Ri ltac:(intros x y Lt; rewrite !Z.ltb_lt; lia)) as P1. fold lo in P1.
  pose proof (rising_prefix (levels D) (fun t => t <=? upper_bound d z) Ri ltac:(intros x y Lt; rewrite !Z.leb_le; lia)) as P2. fold hi in P2. cbn beta in P1, P2.
  pose proof Lv as Il. apply levels_apart in Il. apply (In_nth _ _ 0) in Il. destruct Il as (k & Lk & Ek).
  assert (K1 : (lo <= k)%nat). { destruct (Nat.lt_ge_cases k lo) as [X|X]; [|assumption]. apply (P1 k Lk) in X. apply Z.ltb_lt in X. lia. }
  assert (K2 : (k < hi)%nat) by (apply (P2 k Lk); apply Z.leb_le; lia).
  destruct (Nat.leb_spec hi lo) as [|Lh]; [lia|].
  destruct (search_levels _ _ lo (hi - 1) None) as [k'|] eqn:Es; [discriminate|]. apply search_none in Es; [|lia|lia]. cbn beta in Es. replace (nth (hi - 1) (levels D) 0) with t in Es; [assumption|].
  assert (H1 : nth (hi - 1) (levels D) 0 <= upper_bound d z) by (apply Z.leb_le; apply P2; lia).
  assert (H2 : In (nth (hi - 1) (levels D) 0) (levels D)) by (apply nth_In; lia). apply levels_apart in H2. destruct H2 as (x & y & N & A). specialize (Hi x y _ N A H1).
  destruct (Nat.eq_dec k (hi - 1)) as [->|Nk]; [congruence|]. specialize (Ri k (hi - 1)%nat ltac:(lia)). lia.
Qed.

Lemma active_maximal d t : maximal_matching D t (active d D xs) (match_sites D t (active d D xs) []).
Proof.
  set (A := active d D xs). assert (Si : forall x, In x A -> site D x = true) by (intros x I; now apply active_in in I).
  destruct (match_spec D t A (active_nodup d D xs) []) as [N Q]. split; [exact N|]. split.
  - intros x y I. destruct (Q x y I) as (Ix & Iy & _ & _ & L). split; [assumption|]. split; [assumption|]. exists (distance D x y). split; [apply (apart_iff D M); auto|assumption].
  - intros x y k Ix Iy Ne Ap L. apply (apart_iff D M) in Ap. destruct Ap as (_ & _ & ->).
    destruct (match_maximal D t A [] x y (active_nodup d D xs)) as [I|I]; auto; [intros u w Iu Iw; apply (distance_sym D M); auto| |]; unfold ends in I; apply in_flat_map in I; destruct I as (e & Ie & I); exists e; (split; [assumption|]); destruct I as [<-|[<-|[]]]; auto.
Qed.
End Matching.

(** ** The guard *)
Definition total {X : Type} (f : X -> Z) (l : list X) : Z := fold_right (fun x s => f x + s) 0 l.

Lemma fold_total {X} (f : X -> Z) l : forall s, fold_left (fun sum x => sum + f x) l s = s + total f l.
Proof. unfold total. induction l as [|x l IH]; intro s; cbn [fold_left fold_right]; [lia|]. rewrite IH. lia. Qed.

Lemma total_less {X} (f : X -> Z) l : total (fun x => f x - 1) l = total f l - Z.of_nat (length l).
Proof. unfold total. induction l as [|x l IH]; [reflexivity|]. cbn [fold_right length]. rewrite IH. lia. Qed.

Lemma total_perm {X} (f : X -> Z) l k : Permutation l k -> total f l = total f k.
Proof. unfold total. induction 1; cbn [fold_right] in *; lia. Qed.

Lemma total_app {X} (f : X -> Z) l k : total f (l ++ k) = total f l + total f k.
Proof. unfold total. induction l as [|x l IH]; [reflexivity|]. cbn [app fold_right]. rewrite IH. lia. Qed.

Lemma total_ends f E : total f (ends E) = total (fun e => f (fst e) + f (snd e)) E.
Proof. unfold total, ends. induction E as [|e E IH]; [reflexivity|]. cbn [flat_map app fold_right]. rewrite IH. lia. Qed.

Lemma ends_length E : length (ends E) = (2 * length E)%nat.
Proof. unfold ends. induction E as [|e E IH]; [reflexivity|]. cbn [flat_map app length]. rewrite IH. lia. Qed.

Lemma total_nonneg {X} (f : X -> Z) l : (forall x, In x l -> 0 <= f x) -> 0 <= total f l.
Proof. unfold total. induction l as [|x l IH]; intro H; [reflexivity|]. cbn [fold_right]. pose proof (H x (or_introl eq_refl)). specialize (IH (fun y I => H y (or_intror I))). lia. Qed.

Lemma total_plus {X} (f g : X -> Z) l : total (fun x => f x + g x) l = total f l + total g l.
Proof. unfold total. induction l as [|x l IH]; [reflexivity|]. cbn [fold_right]. rewrite IH. lia. Qed.

Lemma total_ext {X} (f g : X -> Z) l : (forall x, In x l -> f x = g x) -> total f l = total g l.
Proof. unfold total. induction l as [|x l IH]; intro H; [reflexivity|]. cbn [fold_right]. rewrite (H x (or_introl eq_refl)). specialize (IH (fun y I => H y (or_intror I))). lia. Qed.

Lemma total_one {X} (f : X -> Z) l x : (forall y, In y l -> 0 <= f y) -> In x l -> 1 <= f x -> 1 <= total f l.
Proof.
  unfold total. induction l as [|y l IH]; intros H I L; [destruct I|]. cbn [fold_right]. destruct I as [E|I].
  - subst y. pose proof (total_nonneg f l (fun y I => H y (or_intror I))) as P. unfold total in P. lia.
  - pose proof (H y (or_introl eq_refl)). specialize (IH (fun y I => H y (or_intror I)) I L). lia.
Qed.

Lemma positions_counted d0 A xs : (forall v, In v xs -> exists x, In x A /\ in_domain d0 v x = true) -> Z.of_nat (length xs) <= total (fun a => Z.of_nat (lit_count d0 xs a)) A.
Proof.
  induction xs as [|v xs IH]; intro H; [cbn [length]; apply total_nonneg; intros; lia|].
  rewrite (total_ext _ (fun a => (if in_domain d0 v a then 1 else 0) + Z.of_nat (lit_count d0 xs a))).
  - rewrite total_plus. specialize (IH (fun w I => H w (or_intror I))). destruct (H v (or_introl eq_refl)) as (x & Ix & Ex).
    pose proof (total_one (fun a => if in_domain d0 v a then 1 else 0) A x ltac:(intros y _; cbn beta; destruct (in_domain d0 v y); lia) Ix ltac:(cbn beta; rewrite Ex; lia)). cbn [length]. lia.
  - intros a _. unfold lit_count. cbn [filter]. destruct (in_domain d0 v a); cbn [length]; lia.
Qed.

Lemma guard_present d0 d xs z D : domains_ok d0 -> domains_ok d -> length d = length d0 -> Forall (var_known d0) xs -> inside d0 d -> at_sites d xs D -> no_guard d0 d xs z D = false.
Proof.
  intros H0 Hd Ld K I At. unfold no_guard. destruct (refuted_level d xs z D) as [t|] eqn:E; [|reflexivity]. apply refuted_spec in E. destruct E as (_ & _ & _ & Rf). apply Z.ltb_lt in Rf.
  set (A := active d D xs) in *. set (edges := match_sites D t A []) in *. apply Z.ltb_ge. rewrite fold_total, fold_total.
  pose proof (active_nodup d D xs) as NA. fold A in NA. destruct (match_spec D t A NA []) as [N Q]. fold edges in N, Q.
  set (un := filter _ A). set (f := fun a => Z.of_nat (lit_count d0 xs a)).
  assert (Pm : Permutation A (ends edges ++ un)).
  { apply NoDup_Permutation; [assumption| |].
    - assert (Nu : NoDup un) by now apply NoDup_filter. assert (Dj : forall x, In x (ends edges) -> ~ In x un).
      { intros x Ix Iu. apply filter_In in Iu. destruct Iu as [_ T]. apply negb_true_iff in T. rewrite existsb_none in T. unfold ends in Ix. apply in_flat_map in Ix. destruct Ix as (e & Ie & Ix). specialize (T e Ie).
        apply orb_false_iff in T. destruct T as [T1 T2]. apply Z.eqb_neq in T1, T2. destruct Ix as [<-|[<-|[]]]; congruence. }
      clearbody un. clear -N Nu Dj. induction (ends edges) as [|x l IH]; [assumption|]. cbn [app]. apply NoDup_cons_iff in N. destruct N as [Nx N]. apply NoDup_cons_iff. split.
      + intro Ix. apply in_app_iff in Ix. destruct Ix as [Ix|Ix]; [now apply Nx|]. apply (Dj x); [now left|assumption].
      + apply IH; [assumption|]. intros y Iy. apply Dj. now right.
    - intro x. rewrite in_app_iff. unfold un. rewrite filter_In, negb_true_iff, existsb_none. split.
      + intro Ix. destruct (in_dec Z.eq_dec x (ends edges)) as [|No]; [now left|]. right. split; [assumption|]. intros e Ie. apply orb_false_iff. split; apply Z.eqb_neq; intro Ex; apply No; unfold ends; apply in_flat_map; exists e; (split; [assumption|]); rewrite Ex; cbn; auto.
      + intros [Ix|[Ix _]]; [|assumption]. unfold ends in Ix. apply in_flat_map in Ix. destruct Ix as ((u, w) & Ie & Ix). destruct (Q u w Ie) as (Iu & Iw & _). destruct Ix as [<-|[<-|[]]]; assumption. }
  rewrite (total_ext _ (fun e => (f (fst e) + f (snd e)) - 1) edges) by (intros e _; unfold f; lia). rewrite (total_less (fun e => f (fst e) + f (snd e))), <- total_ends.
  change (total (fun c => Z.of_nat (lit_count d0 xs c) - 1) un) with (total (fun c => f c - 1) un). rewrite total_less.
  pose proof (total_perm f _ _ Pm) as T. rewrite total_app in T. pose proof (Permutation_length Pm) as Ln. rewrite app_length, ends_length in Ln.
  assert (P : Z.of_nat (length xs) <= total f A).
  { apply positions_counted. intros v Iv. pose proof (proj1 (Forall_forall _ _) K v Iv) as Kv. destruct (within_exists d Hd) as (a & Wa). exists (var_value a v).
    assert (Kd : var_known d v) by (apply (var_below_known (length d0)); [assumption|now apply known_below]). split.
    - apply active_in. specialize (At v (var_value a v) Iv ltac:(exists a; auto)). split; [unfold site; apply andb_true_iff; split; [apply Z.leb_le; lia|apply Z.ltb_lt; lia]|]. exists v. split; [assumption|]. now apply value_listed.
    - apply value_in_domain; auto. }
  lia.
Qed.

(** ** When nothing changes *)
Lemma can_take_iff d v x : domains_ok d -> var_known d v -> (can_take d v x <-> In x (each_value d v)).
Proof. intros Hd K. rewrite each_value_In. symmetry. now apply view_member_iff. Qed.

Section Rest.
Variable nv : nat.
Variable xs : list var_id.
Variable z : var_id.
Variable D : matrix.
Variable R : option matrix.
Hypothesis M : distance_matrix D.
Hypothesis Two : (2 <= length xs)%nat.
Variable d : domains.
Hypothesis Hd : domains_ok d.
Hypothesis Kx : Forall (var_known d) xs.
Hypothesis Kz : var_known d z.

Lemma excluded v x : var_known d v -> In x (each_value d v) -> ~ (forall a, within a d -> lit_holds a (LCond (cond_ne v x))).
Proof. intros Kv I H. apply can_take_iff in I; auto. destruct I as (a & Wa & E). specialize (H a Wa). now apply H. Qed.

Lemma never_false : ~ (forall a, within a d -> lit_holds a LFalse).
Proof. intro H. destruct (within_exists d Hd) as (a & Wa). exact (H a Wa). Qed.

Lemma prune_rests tij v w : var_known d w -> rests d (forward_prune D tij v w) (forall x y, optional_single_value d v = Some x -> site D x = true -> In y (each_value d w) -> site D y = true -> tij <= distance D x y).
Proof.
  intro Kw. unfold forward_prune. apply (rests_look d (fun d rest => match optional_single_value d v with
    | Some a => if site D a then sequence (each_value d w) (fun b => infer_when (site D b && (distance D a b <? tij)) (LCond (cond_ne w b))) rest else rest
    | None => rest end)). cbn beta.
  destruct (optional_single_value d v) as [x|]; [|apply (rests_weaken d _ True); [discriminate|apply rests_id]].
  destruct (site D x) eqn:Sx; [|apply (rests_weaken d _ True); [intros _ x' y [= <-]; congruence|apply rests_id]].
  eapply rests_weaken; [|apply (rests_sequence d (fun b => infer_when (site D b && (distance D x b <? tij)) (LCond (cond_ne w b)))
    (fun b => site D b && (distance D x b <? tij) = true -> forall a, within a d -> lit_holds a (LCond (cond_ne w b)))); intros b _; apply rests_when].
  cbn beta. intros H x' y [= <-] _ Iy Sy. destruct (Z.lt_ge_cases (distance D x y) tij) as [L|L]; [exfalso|assumption].
  apply (excluded w y Kw Iy). apply H; [assumption|]. rewrite Sy. now apply Z.ltb_lt.
Qed.

Lemma bound_rests rij z_min v w : rests d (pair_bound z D rij z_min v w) (exists k, In k (reachable d D rij v w) /\ upper_bound d z <= k).
Proof.
  unfold pair_bound. apply (rests_look d (fun d rest => match greatest (reachable d D rij v w) with
    | None => Infer LFalse rest
    | Some u => if u <? z_min then Infer LFalse rest else infer_when (u <? upper_bound d z) (LCond (cond_lt z (u + 1))) rest end)). cbn beta.
  destruct (greatest (reachable d D rij v w)) as [u|] eqn:E; [|eapply rests_weaken; [|apply rests_infer]; intro H; now apply never_false in H].
  destruct (u <? z_min); [eapply rests_weaken; [|apply rests_infer]; intro H; now apply never_false in H|].
  eapply rests_weaken; [|apply rests_when]. intro H. apply greatest_spec in E. destruct E as [Iu _]. exists u. split; [assumption|].
  destruct (Z.ltb_spec u (upper_bound d z)) as [L|L]; [exfalso|assumption]. destruct (MultiplyProofs.upper_at d z Hd Kz) as (a & Wa & Ea). specialize (H eq_refl a Wa). cbn in H. lia.
Qed.

Lemma scan_rests tij v w : var_known d v -> rests d (support_scan D tij v w) (forall x, In x (each_value d v) -> site D x = true -> exists y, In y (each_value d w) /\ site D y = true /\ tij <= distance D x y).
Proof.
  intro Kv. unfold support_scan. apply (rests_look d (fun d rest => sequence (each_value d v) (fun a rest => Look (fun d =>
    infer_when (site D a && in_domain d v a && negb (existsb (fun b => site D b && (tij <=? distance D a b)) (each_value d w))) (LCond (cond_ne v a)) rest)) rest)). cbn beta.
  apply (rests_sequence d _ (fun x => site D x = true -> exists y, In y (each_value d w) /\ site D y = true /\ tij <= distance D x y)). intros x Ix.
  apply (rests_look d (fun d => infer_when (site D x && in_domain d v x && negb (existsb (fun b => site D b && (tij <=? distance D x b)) (each_value d w))) (LCond (cond_ne v x)))).
  eapply rests_weaken; [|apply rests_when]. intros H Sx. destruct (existsb (fun b => site D b && (tij <=? distance D x b)) (each_value d w)) eqn:E.
  - apply existsb_exists in E. destruct E as (y & Iy & E). apply andb_true_iff in E. destruct E as [Sy L]. apply Z.leb_le in L. eauto.
  - exfalso. apply (excluded v x Kv Ix). apply H. rewrite Sx. rewrite (proj2 (in_domain_spec d v x Hd Kv)); [reflexivity|]. now apply each_value_In.
Qed.

Lemma at_known i : (i < length xs)%nat -> var_known d (point xs i).
Proof. intro L. apply (proj1 (Forall_forall _ _) Kx). unfold point. now apply nth_In. Qed.

Definition pair_rested (support : bool) (z_min : Z) (i j : nat) : Prop :=
  let v := point xs i in let w := point xs j in
  let rij := requirement R i j in let tij := Z.max rij z_min in
  (forall x y, optional_single_value d v = Some x -> site D x = true -> In y (each_value d w) -> site D y = true -> tij <= distance D x y) /\
  (forall x y, optional_single_value d w = Some x -> site D x = true -> In y (each_value d v) -> site D y = true -> tij <= distance D x y) /\
  (exists k, In k (reachable d D rij v w) /\ upper_bound d z <= k) /\
  (support = true ->
    (forall x, In x (each_value d v) -> site D x = true -> exists y, In y (each_value d w) /\ site D y = true /\ tij <= distance D x y) /\
    (forall x, In x (each_value d w) -> site D x = true -> exists y, In y (each_value d v) /\ site D y = true /\ tij <= distance D x y)).

Lemma pair_rests support z_min i j : (i < j < length xs)%nat -> rests d (forward_pair xs z D R support z_min (i, j)) (pair_rested support z_min i j).
Proof.
  intro L. pose proof (at_known i ltac:(lia)) as Ki. pose proof (at_known j ltac:(lia)) as Kj. unfold forward_pair, pair_rested. intros rest S.
  apply (prune_rests _ _ _ Kj) in S. destruct S as [A S]. apply (prune_rests _ _ _ Ki) in S. destruct S as [B S]. apply bound_rests in S. destruct S as [C S]. destruct support.
  - apply (scan_rests _ _ _ Ki) in S. destruct S as [E S]. apply (scan_rests _ _ _ Kj) in S. destruct S as [F S]. repeat (apply conj; [assumption|]). split; [auto|assumption].
  - split; [|assumption]. repeat (apply conj; [assumption|]). discriminate.
Qed.

Lemma forward_rested support : still (forward_pass xs z D R support) d -> forall i j, (i < j < length xs)%nat -> pair_rested support (lower_bound d z) i j.
Proof.
  intros S i j L. unfold forward_pass in S.
  apply (rests_look d (fun d rest => sequence (pairs (length xs)) (forward_pair xs z D R support (lower_bound d z)) rest) (forall ij, In ij (pairs (length xs)) -> pair_rested support (lower_bound d z) (fst ij) (snd ij))) in S.
  - destruct S as [S _]. apply (S (i, j)). now apply in_pairs.
  - apply rests_sequence. intros (i', j') I. apply pair_rests. now apply in_pairs.
Qed.

Lemma requirement_far_enough i j k : requirement R i j <= k -> far_enough R i j k.
Proof. intro L. apply requirement_far. intros m E. unfold requirement in L. now rewrite E in L. Qed.

Lemma site_of v x : at_sites d xs D -> In v xs -> can_take d v x -> site D x = true.
Proof. intros At Iv C. specialize (At v x Iv C). unfold site. apply andb_true_iff. split; [apply Z.leb_le; lia|apply Z.ltb_lt; lia]. Qed.

Lemma compatible_intro i j x y : site D x = true -> site D y = true -> Z.max (requirement R i j) (lower_bound d z) <= distance D x y -> compatible d z D R i j x y.
Proof. intros Sx Sy L. exists (distance D x y). split; [now apply (apart_iff D M)|]. split; [lia|]. apply requirement_far_enough. lia. Qed.

Lemma forward_at_rest support : still (forward_pass xs z D R support) d -> forall i j v w, (i < j)%nat -> nth_error xs i = Some v -> nth_error xs j = Some w ->
  (exists x y k, can_take d v x /\ can_take d w y /\ apart D x y k /\ far_enough R i j k /\ upper_bound d z <= k) /\
  (at_sites d xs D -> fixed d v \/ fixed d w -> forall x y, can_take d v x -> can_take d w y -> compatible d z D R i j x y).
Proof.
  intros S i j v w L Ev Ew. assert (Lj : (j < length xs)%nat) by (apply nth_error_Some; congruence). destruct (forward_rested support S i j ltac:(lia)) as (A & B & (k & Ik & Uk) & _).
  pose proof (at_known i ltac:(lia)) as Ki. pose proof (at_known j ltac:(lia)) as Kj. rewrite (point_nth xs i v Ev), (point_nth xs j w Ew) in *.
  pose proof (nth_error_In _ _ Ev) as Iv. pose proof (nth_error_In _ _ Ew) as Iw. split.
  - apply reachable_in in Ik. destruct Ik as (Lr & x & y & Ix & Sx & Iy & Sy & Ek). exists x, y, k. split; [now apply can_take_iff|]. split; [now apply can_take_iff|]. split; [apply (apart_iff D M); auto|]. split; [|assumption]. apply requirement_far_enough. assumption.
  - intros At F x y Cx Cy. pose proof (site_of v x At Iv Cx) as Sx. pose proof (site_of w y At Iw Cy) as Sy. apply compatible_intro; auto. destruct F as [F|F]; apply fixed_osv in F; auto; destruct F as (c & Ec).
    + assert (x = c) by (destruct Cx as (a & Wa & <-); now apply (osv_value d v)). subst c. apply A; auto. now apply can_take_iff.
    + assert (y = c) by (destruct Cy as (a & Wa & <-); now apply (osv_value d w)). subst c. rewrite (distance_sym D M) by assumption. apply B; auto. now apply can_take_iff.
Qed.

Lemma support_at_rest : still (forward_pass xs z D R true) d -> at_sites d xs D -> forall i j v w, (i < j)%nat -> nth_error xs i = Some v -> nth_error xs j = Some w ->
  (forall x, can_take d v x -> exists y, can_take d w y /\ compatible d z D R i j x y) /\
  (forall y, can_take d w y -> exists x, can_take d v x /\ compatible d z D R i j x y).
Proof.
  intros S At i j v w L Ev Ew. assert (Lj : (j < length xs)%nat) by (apply nth_error_Some; congruence). destruct (forward_rested true S i j ltac:(lia)) as (_ & _ & _ & H). destruct (H eq_refl) as [A B].
  pose proof (at_known i ltac:(lia)) as Ki. pose proof (at_known j ltac:(lia)) as Kj. rewrite (point_nth xs i v Ev), (point_nth xs j w Ew) in *.
  pose proof (nth_error_In _ _ Ev) as Iv. pose proof (nth_error_In _ _ Ew) as Iw. split.
  - intros x Cx. destruct (A x ltac:(now apply can_take_iff) (site_of v x At Iv Cx)) as (y & Iy & Sy & Ly). exists y. split; [now apply can_take_iff|]. apply compatible_intro; auto. now apply (site_of v).
  - intros y Cy. destruct (B y ltac:(now apply can_take_iff) (site_of w y At Iw Cy)) as (x & Ix & Sx & Lx). exists x. split; [now apply can_take_iff|]. pose proof (site_of w y At Iw Cy). apply compatible_intro; auto. now rewrite (distance_sym D M).
Qed.

Lemma matching_at_rest : still (matching_pass xs z D) d -> at_sites d xs D -> forall t, highest_level d z D t -> lower_bound d z <= t -> 1 <= t ->
  exists A E, NoDup A /\ (forall x, In x A <-> selectable d xs x) /\ maximal_matching D t A E /\ (length xs + length E <= length A)%nat.
Proof.
  intros S At t Hi Lo One. assert (E : refuted_level d xs z D = None).
  { destruct (refuted_level d xs z D) as [u|] eqn:E; [exfalso|reflexivity]. pose proof (refuted_spec xs z D d u E) as (_ & _ & Bu & _). unfold matching_pass, still in S. destruct (within_exists d Hd) as (a0 & W0).
    destruct (Z.leb_spec u (lower_bound d z)) as [L|L].
    - specialize (S a0 W0). cbn in S. rewrite E in S. rewrite (proj2 (Z.leb_le _ _) L) in S. now inversion S.
    - destruct (MultiplyProofs.upper_at d z Hd Kz) as (a & Wa & Ea). specialize (S a Wa). cbn in S. rewrite E in S. rewrite (proj2 (Z.leb_gt _ _) L) in S. inversion S as [|l r H]. cbn in H. lia. }
  assert (In_iff : forall x, In x (active d D xs) <-> selectable d xs x).
  { intro x. rewrite active_in. split.
    - intros (_ & v & Iv & I). exists v. split; [assumption|]. apply can_take_iff; auto. now apply (proj1 (Forall_forall _ _) Kx).
    - intros (v & Iv & C). split; [now apply (site_of v)|]. exists v. split; [assumption|]. apply can_take_iff; auto. now apply (proj1 (Forall_forall _ _) Kx). }
  exists (active d D xs), (match_sites D t (active d D xs) []). split; [apply active_nodup|]. split; [assumption|]. split; [now apply active_maximal|].
  assert (Ne : active d D xs <> []).
  { destruct xs as [|v vs] eqn:Exs; [cbn in Two; lia|]. rewrite <- Exs in *. intro X. destruct (within_exists d Hd) as (a & Wa). assert (I : In (var_value a v) (active d D xs)) by (apply In_iff; exists v; split; [rewrite Exs; now left|exists a; auto]). now rewrite X in I. }
  pose proof (unrefuted xs z D M Two d t E Ne Hi Lo One) as F. apply Z.ltb_ge in F. lia.
Qed.
End Rest.

(** ** Posting *)
Lemma refused_iff xs D R : distance_refused xs D R = false <-> (2 <= length xs)%nat /\ distance_matrix D /\ requirement_matrix (length xs) R.
Proof. unfold distance_refused. rewrite !orb_false_iff, Nat.ltb_ge, distances_iff, requirements_iff. tauto. Qed.

Lemma min_distance_none level xs z D R : min_distance level xs z D R = None <-> ~ ((2 <= length xs)%nat /\ distance_matrix D /\ requirement_matrix (length xs) R).
Proof. rewrite <- refused_iff. unfold min_distance. destruct (distance_refused xs D R); split; congruence. Qed.

Section Posting.
Variable d0 : domains.
Variable level : distance_level.
Variable xs : list var_id.
Variable z : var_id.
Variable D : matrix.
Variable R : option matrix.
Hypothesis H0 : domains_ok d0.
Hypothesis K : Forall (var_known d0) (z :: xs).

Lemma vars_below nv : (length d0 <= nv)%nat -> Forall (var_below nv) xs /\ var_below nv z.
Proof. intro Ln. destruct (proj1 (Forall_cons_iff _ _ _) K) as [Kz Kx]. split; [eapply Forall_impl; [|exact Kx]; intros v Kv|]; now apply (known_below_more d0). Qed.

Definition here (a : assignment) : Prop := forallb (site D) (values xs a) = true.

Lemma forward_carried support : (2 <= length xs)%nat -> distance_matrix D -> requirement_matrix (length xs) R ->
  carried d0 (z :: xs) (is_min_distance xs z D R) [body_propagator (once (forward_pass xs z D R support)) xs [z] []] (fun a => here a -> is_min_distance xs z D R a).
Proof.
  intros Two M MR. apply (carried_body d0 _ xs); [assumption|apply incl_tl, incl_refl|apply incl_appl, incl_refl|]. intros nv Ln. destruct (vars_below nv Ln) as [Bx Bz]. apply once_meets.
  - intros d Hd Ld Id. now apply (forward_tells nv xs z D R M MR Bx Bz).
  - intros d a Hd Ld Id F Wa O Si. now apply (forward_checks nv xs z D R M Bx support d a).
Qed.

Lemma matching_carried : (2 <= length xs)%nat -> distance_matrix D -> requirement_matrix (length xs) R ->
  carried d0 (z :: xs) (is_min_distance xs z D R) [body_propagator (once (matching_pass xs z D)) xs [z] []] (fun _ => True).
Proof.
  intros Two M MR. apply (carried_body d0 _ []); [assumption|intros v []|intros v []|]. intros nv Ln. destruct (vars_below nv Ln) as [Bx Bz]. apply once_meets; [|auto].
  intros d Hd Ld Id. now apply (matching_tells xs z D R M MR Two nv d).
Qed.

Lemma check_carried : (2 <= length xs)%nat -> distance_matrix D -> requirement_matrix (length xs) R ->
  carried d0 (z :: xs) (is_min_distance xs z D R) [body_propagator (once (check_pass xs z D R)) [] [] xs] (fun a => here a -> is_min_distance xs z D R a).
Proof.
  intros Two M MR. apply (carried_body d0 _ xs); [assumption|apply incl_tl, incl_refl|apply incl_refl|]. intros nv Ln. destruct (vars_below nv Ln) as [Bx Bz]. apply once_meets.
  - intros d Hd Ld Id. now apply (check_tells nv xs z D R M MR Bx Bz).
  - intros d a Hd Ld Id F Wa O Si. now apply (check_checks nv xs z D R M Bx d a).
Qed.

Lemma min_distance_correct c : min_distance level xs z D R = Some c -> correct_on d0 c (z :: xs) (is_min_distance xs z D R).
Proof.
  unfold min_distance. destruct (distance_refused xs D R) eqn:Rf; [discriminate|]. intros [= <-]. apply refused_iff in Rf. destruct Rf as (Two & M & MR).
  apply (parts_correct d0 _ _ _ (fun a => here a -> is_min_distance xs z D R a) here); auto; cbn [fst snd].
  - assert (Both : forall support, carried d0 (z :: xs) (is_min_distance xs z D R)
      [body_propagator (once (forward_pass xs z D R support)) xs [z] []; body_propagator (once (matching_pass xs z D)) xs [z] []] (fun a => here a -> is_min_distance xs z D R a)).
    { intro support. eapply carried_ext; [|apply (carried_app _ _ _ [_] [_] _ _ (forward_carried support Two M MR) (matching_carried Two M MR))]. cbn beta. tauto. }
    unfold distance_propagators. destruct level; [now apply check_carried|now apply forward_carried|now apply forward_carried|apply Both|apply Both].
  - apply (established_ext _ _ _ (fun a => forall v, In v xs -> 0 <= var_value a v /\ var_value a v <= Z.of_nat (length D) - 1)).
    + intros a _ H. apply forallb_forall. intros x I. apply in_map_iff in I. destruct I as (v & <- & Iv). specialize (H v Iv). unfold site. apply andb_true_iff. split; [apply Z.leb_le; lia|apply Z.ltb_lt; lia].
    + apply established_flat_map. intros v Iv. assert (Kv : var_known d0 v) by (apply (proj1 (Forall_forall _ _) K); now right).
      assert (Si : forall a, is_min_distance xs z D R a -> 0 <= var_value a v <= Z.of_nat (length D) - 1).
      { intros a Sa. pose proof (sat_sites xs z D R M MR a Two Sa v Iv) as S. unfold site in S. apply andb_true_iff in S. destruct S as [S1 S2]. apply Z.leb_le in S1. apply Z.ltb_lt in S2. lia. }
      apply established_app; [apply established_lower|apply established_upper]; auto; intros a _ Sa; now apply Si.
Qed.

Variable d : domains.
Hypothesis Hd : domains_ok d.
Hypothesis Ld : length d = length d0.

Lemma known_now : Forall (var_known d) xs /\ var_known d z.
Proof. destruct (vars_below (length d0) (Nat.le_refl _)) as [Bx Bz]. split; [eapply Forall_impl; [|exact Bx]; intros v Bv|]; now apply (var_below_known (length d0)). Qed.

Lemma still_forward c : min_distance level xs z D R = Some c -> (forall p, In p (fst (c d0)) -> rerun_is_quiet p d) -> level <> CheckOnly ->
  ((2 <= length xs)%nat /\ distance_matrix D /\ requirement_matrix (length xs) R) /\
  still (forward_pass xs z D R (match level with PairSupport | PairSupportMatch => true | _ => false end)) d.
Proof.
  unfold min_distance. destruct (distance_refused xs D R) eqn:Rf; [discriminate|]. intros [= <-] Q N. apply refused_iff in Rf. split; [assumption|]. destruct Rf as (Two & M & MR). destruct (vars_below (length d0) (Nat.le_refl _)) as [Bx Bz]. cbn [fst] in Q.
  apply (quiet_still (length d0) d Hd Ld _ (fun a => is_min_distance xs z D R a /\ within a d) xs [z] []); [now apply (forward_tells (length d0) xs z D R M MR Bx Bz)|].
  apply Q. unfold distance_propagators. destruct level; try congruence; now left.
Qed.

Lemma still_matching c : min_distance level xs z D R = Some c -> (forall p, In p (fst (c d0)) -> rerun_is_quiet p d) -> level = ForwardBoundMatch \/ level = PairSupportMatch ->
  still (matching_pass xs z D) d.
Proof.
  unfold min_distance. destruct (distance_refused xs D R) eqn:Rf; [discriminate|]. intros [= <-] Q N. apply refused_iff in Rf. destruct Rf as (Two & M & MR). destruct (vars_below (length d0) (Nat.le_refl _)) as [Bx Bz]. cbn [fst] in Q.
  apply (quiet_still (length d0) d Hd Ld _ (fun a => is_min_distance xs z D R a /\ within a d) xs [z] []); [now apply (matching_tells xs z D R M MR Two (length d0) d)|].
  apply Q. unfold distance_propagators. destruct N as [E|E]; rewrite E; right; now left.
Qed.

Lemma posted_forward c : min_distance level xs z D R = Some c -> (forall p, In p (fst (c d0)) -> rerun_is_quiet p d) -> level <> CheckOnly ->
  forall i j v w, (i < j)%nat -> nth_error xs i = Some v -> nth_error xs j = Some w ->
  (exists x y k, can_take d v x /\ can_take d w y /\ apart D x y k /\ far_enough R i j k /\ upper_bound d z <= k) /\
  (at_sites d xs D -> fixed d v \/ fixed d w -> forall x y, can_take d v x -> can_take d w y -> compatible d z D R i j x y).
Proof. intros E Q N. destruct (still_forward c E Q N) as ((Two & M & MR) & S). destruct known_now as [Kx Kz]. now apply (forward_at_rest xs z D R M Two d Hd Kx Kz _ S). Qed.

Lemma posted_support c : min_distance level xs z D R = Some c -> (forall p, In p (fst (c d0)) -> rerun_is_quiet p d) -> level = PairSupport \/ level = PairSupportMatch ->
  at_sites d xs D -> forall i j v w, (i < j)%nat -> nth_error xs i = Some v -> nth_error xs j = Some w ->
  (forall x, can_take d v x -> exists y, can_take d w y /\ compatible d z D R i j x y) /\
  (forall y, can_take d w y -> exists x, can_take d v x /\ compatible d z D R i j x y).
Proof.
  intros E Q N. destruct (still_forward c E Q ltac:(destruct N; congruence)) as ((Two & M & MR) & S). destruct known_now as [Kx Kz].
  apply (support_at_rest xs z D R M Two d Hd Kx Kz). destruct N as [X|X]; rewrite X in S; exact S.
Qed.

Lemma posted_matching c : min_distance level xs z D R = Some c -> (forall p, In p (fst (c d0)) -> rerun_is_quiet p d) -> level = ForwardBoundMatch \/ level = PairSupportMatch ->
  at_sites d xs D -> forall t, highest_level d z D t -> lower_bound d z <= t -> 1 <= t ->
  exists A E, NoDup A /\ (forall x, In x A <-> selectable d xs x) /\ maximal_matching D t A E /\ (length xs + length E <= length A)%nat.
Proof.
  intros E Q N. destruct (still_forward c E Q ltac:(destruct N; congruence)) as ((Two & M & MR) & _). pose proof (still_matching c E Q N) as S. destruct known_now as [Kx Kz]. now apply matching_at_rest.
Qed.
End Posting.

Lemma is_min_distance_ext xs z D R a b : (forall v, In v (z :: xs) -> var_value a v = var_value b v) -> is_min_distance xs z D R a -> is_min_distance xs z D R b.
Proof.
  intros E [A B]. assert (Ez : var_value a z = var_value b z) by (apply E; now left).
  assert (Ex : forall i v, nth_error xs i = Some v -> var_value a v = var_value b v) by (intros i v Ev; apply E; right; now apply nth_error_In in Ev). split.
  - intros i j v w L Ev Ew. rewrite <- Ez, <- (Ex i v Ev), <- (Ex j w Ew). now apply A.
  - destruct B as (i & j & v & w & L & Ev & Ew & Ap). exists i, j, v, w. split; [assumption|]. split; [assumption|]. split; [assumption|]. now rewrite <- Ez, <- (Ex i v Ev), <- (Ex j w Ew).
Qed.

(** ** What is not inferred *)
Definition ring : matrix := [[0; 0; 1; 1; 0]; [0; 0; 0; 1; 1]; [1; 0; 0; 0; 1]; [1; 1; 0; 0; 0]; [0; 1; 1; 0; 0]].

Lemma three_on_a_ring : exists d xs z D c, domains_ok d /\ Forall (var_known d) (z :: xs) /\ NoDup (underlying_list xs) /\ min_distance PairSupportMatch xs z D None = Some c /\ at_sites d xs D /\
  (forall p, In p (fst (c d)) -> rerun_is_quiet p d) /\ forall a, within a d -> ~ is_min_distance xs z D None a.
Proof.
  exists [[(0, 4)]; [(0, 4)]; [(0, 4)]], [VSimple 0; VSimple 1; VSimple 2], (VConst 1), ring. eexists.
  split; [intros [|[|[|j]]] Hj; simpl in *; try lia; (split; [simpl; lia|]); exists 0; apply member_cons; lia|].
  split; [repeat constructor|]. split; [repeat constructor; simpl; intuition discriminate|]. split; [reflexivity|]. split; [|split].
  - intros v x Iv (a & Wa & <-). destruct Iv as [<-|[<-|[<-|[]]]]; cbn [var_value]; [pose proof (Wa 0%nat ltac:(simpl; lia)) as Q|pose proof (Wa 1%nat ltac:(simpl; lia)) as Q|pose proof (Wa 2%nat ltac:(simpl; lia)) as Q]; apply member_cons in Q; (destruct Q as [Q|Q]; [|now apply member_nil in Q]); change (length ring) with 5%nat; lia.
  - intros p [<-|[<-|[]]] i E; cbn [p_run body_propagator]; rewrite (proj1 (body_run_out _ i)), E; vm_compute; reflexivity.
  - intros a Wa Sa. assert (M : distance_matrix ring) by (apply distances_iff; reflexivity). assert (MR : requirement_matrix (length [VSimple 0; VSimple 1; VSimple 2]) None) by (intros m; discriminate).
    destruct (sat_pair _ _ _ _ M MR a 0 1 Sa ltac:(simpl; lia)) as (_ & _ & A & _). destruct (sat_pair _ _ _ _ M MR a 0 2 Sa ltac:(simpl; lia)) as (_ & _ & B & _). destruct (sat_pair _ _ _ _ M MR a 1 2 Sa ltac:(simpl; lia)) as (_ & _ & C & _).
    cbn [point nth var_value] in A, B, C.
    assert (V : forall j, (j < 3)%nat -> In (a j) [0; 1; 2; 3; 4]).
    { intros j Lj. pose proof (Wa j Lj) as Q. assert (Q' : member (a j) [(0, 4)]) by (destruct j as [|[|[|j]]]; [exact Q|exact Q|exact Q|lia]). apply member_cons in Q'. destruct Q' as [Q'|Q']; [|now apply member_nil in Q']. cbn [In]. lia. }
    assert (F : forallb (fun x => forallb (fun y => forallb (fun w => negb ((1 <=? distance ring x y) && (1 <=? distance ring x w) && (1 <=? distance ring y w))) [0; 1; 2; 3; 4]) [0; 1; 2; 3; 4]) [0; 1; 2; 3; 4] = true) by reflexivity.
    rewrite forallb_forall in F. specialize (F (a 0%nat) (V 0%nat ltac:(lia))). rewrite forallb_forall in F. specialize (F (a 1%nat) (V 1%nat ltac:(lia))). rewrite forallb_forall in F. specialize (F (a 2%nat) (V 2%nat ltac:(lia))).
    apply negb_true_iff in F. rewrite !(proj2 (Z.leb_le _ _)) in F by assumption. discriminate.
Qed.
