(** Proofs about ArgSort. *)
From Coq Require Import ZArith List Bool Lia Permutation Sorted.
From Verif Require Import IntervalSet IntervalSetSpec IntervalSetProofs Vars VarsSpec VarsProofs State StateSpec StateProofs Epochs Engine EngineSpec EngineProofs SessionSpec Tracker ContractSpec ContractProofs
  TabulationProofs Stateful StatefulProofs Passes PassesProofs OnceProofs RunProofs PartsProofs Solve SolveSpec SolveProofs ConsistencySpec Element AllDifferent AllDifferentProofs GacAllDifferent GacAllDifferentProofs Inverse InverseProofs
  MultiplyProofs DivideModulusProofs PowerProofs GlobalCardinality GlobalCardinalityProofs SortednessSpec Sortedness SortednessProofs ArgSortSpec ArgSort ArgSortOrderProofs.
Import ListNotations.
Local Open Scope Z_scope.

Lemma pairs_intro {X Y} (R : X -> Y -> Prop) dx dy l : forall l', length l = length l' -> (forall i, (i < length l)%nat -> R (nth i l dx) (nth i l' dy)) -> Forall2 R l l'.
Proof.
  induction l as [|x l IH]; intros [|y l'] E H; try discriminate; constructor; [exact (H O ltac:(simpl; lia))|]. apply IH; [now injection E|]. intros i Hi. exact (H (S i) ltac:(simpl; lia)).
Qed.

Section ArgSort.
Variable offset : Z.
Variables xs ps : list var_id.
Hypothesis Len : length xs = length ps.
Notation n := (length xs).

Definition x_values (a : assignment) : list Z := map (var_value a) xs.

Lemma nth_value (vs : list var_id) a i : nth i (map (var_value a) vs) 0 = var_value a (handle vs i).
Proof. change 0 with (var_value a (VConst 0)). now rewrite map_nth. Qed.

Lemma sorts_at a : arg_sorts offset xs ps a -> forall j, (j < n)%nat -> exists k, (k < n)%nat /\ var_value a (handle ps j) = offset + Z.of_nat k /\ rank (x_values a) k = Z.of_nat j.
Proof.
  intros S j Hj. destruct (order_at _ _ _ S) as [_ H]. rewrite map_length in H. destruct (H j Hj) as (k & Hk & E & R). exists k. rewrite nth_value in E. auto.
Qed.

Lemma at_sorts a : (forall j, (j < n)%nat -> exists k, (k < n)%nat /\ var_value a (handle ps j) = offset + Z.of_nat k /\ rank (x_values a) k = Z.of_nat j) -> arg_sorts offset xs ps a.
Proof.
  intro H. apply at_order; rewrite !map_length; [congruence|]. intros j Hj. destruct (H j Hj) as (k & Hk & E & R). exists k. rewrite nth_value. auto.
Qed.

Lemma sorts_range a v : arg_sorts offset xs ps a -> In v ps -> offset <= var_value a v <= offset + Z.of_nat n - 1.
Proof.
  intros S I. apply (In_nth _ _ (VConst 0)) in I. destruct I as (j & Hj & <-). rewrite <- Len in Hj. destruct (sorts_at a S j Hj) as (k & Hk & E & _). unfold handle in E. rewrite E. lia.
Qed.

Lemma sorts_separate a : arg_sorts offset xs ps a -> separate ps [] a /\ listed_at ps (values_from offset n) [] a.
Proof.
  intro S. split.
  - intros i j Hi Hj N E. exfalso. rewrite <- Len in Hi, Hj. destruct (sorts_at a S i Hi) as (k & _ & E1 & R1). destruct (sorts_at a S j Hj) as (l & _ & E2 & R2).
    assert (k = l) by lia. subst l. lia.
  - intros i Hi. left. apply values_from_In. pose proof (sorts_range a (handle ps i) S). unfold handle in *. specialize (H (nth_In _ _ Hi)). lia.
Qed.

(** ** The rank propagator *)
Section Rank.
Variable nv : nat.
Hypothesis Bx : Forall (var_below nv) xs.
Hypothesis Bp : Forall (var_below nv) ps.

Notation lx d := (fun i => lower_bound d (handle xs i)).
Notation ux d := (fun i => upper_bound d (handle xs i)).

Lemma handle_here vs i d : Forall (var_below nv) vs -> length d = nv -> var_known d (handle vs i).
Proof. intros B L. apply (known_here nv); [assumption|]. now apply handle_below. Qed.

Lemma values_within d a i : domains_ok d -> length d = nv -> within a d -> lx d i <= nth i (x_values a) 0 <= ux d i.
Proof. intros Hd Ld Wa. unfold x_values. rewrite nth_value. apply value_bounds; auto. now apply handle_here. Qed.

Lemma bounds_order d i : domains_ok d -> length d = nv -> lx d i <= ux d i.
Proof. intros Hd Ld. apply lower_le_upper; auto. now apply handle_here. Qed.

Lemma rank_reachable d a k : domains_ok d -> length d = nv -> within a d -> reachable n (lx d) (ux d) k (rank (x_values a) k) = true.
Proof.
  intros Hd Ld Wa. apply reachable_iff; [now apply bounds_order|]. exists (nth k (x_values a) 0). split; [now apply values_within|].
  apply rank_between; [apply map_length|]. intros i _. now apply values_within.
Qed.

Lemma rank_tells D (P : assignment -> Prop) : (forall a, P a -> arg_sorts offset xs ps a) -> tells nv D P (rank_pass offset xs ps).
Proof.
  intro HP. unfold rank_pass.
  assert (G : goes nv D P (sequence (seq 0 n) (fun k rest => Look (fun d =>
    let reached := reachable n (lx d) (ux d) k in
    sequence (seq 0 (length ps)) (fun j rest => Look (fun d =>
      infer_when (negb (reached (Z.of_nat j)) && in_domain d (handle ps j) (index_value offset k)) (LCond (cond_ne (handle ps j) (index_value offset k))) rest)) rest)))).
  { apply goes_sequence. intros k Ik. apply goes_look. intros d Hd Ld Id. cbv zeta. apply goes_sequence. intros j Ij. apply goes_look. intros d' Hd' Ld' Id'. apply goes_when.
    intro E. apply andb_true_iff in E. destruct E as [E _]. apply negb_true_iff in E. split; [now apply handle_below|]. intros a [[Pa Wa] _]. apply lit_ne. intro V.
    apply in_seq in Ij. destruct (sorts_at a (HP a Pa) j) as (k' & Hk' & V' & R); [lia|]. unfold index_value in V. assert (k' = k) by lia. subst k'.
    rewrite <- R in E. rewrite rank_reachable in E by assumption. discriminate. }
  apply (G D P Stop); [auto|apply inside_refl|]. intros F _. exact Logic.I.
Qed.

Lemma rank_obeyed d a : domains_ok d -> length d = nv -> Forall (fixed d) (xs ++ ps) -> within a d -> obeys nv a (rank_pass offset xs ps) d ->
  (forall v, In v ps -> offset <= var_value a v <= offset + Z.of_nat n - 1) -> arg_sorts offset xs ps a.
Proof.
  intros Hd Ld Fx Wa O Rg. apply Forall_app in Fx. destruct Fx as [Fx _].
  assert (G : passes nv a (sequence (seq 0 n) (fun k rest => Look (fun d =>
    let reached := reachable n (lx d) (ux d) k in
    sequence (seq 0 (length ps)) (fun j rest => Look (fun d =>
      infer_when (negb (reached (Z.of_nat j)) && in_domain d (handle ps j) (index_value offset k)) (LCond (cond_ne (handle ps j) (index_value offset k))) rest)) rest)))
    (fun d => forall k, In k (seq 0 n) -> exists d', domains_ok d' /\ length d' = nv /\ within a d' /\ inside d d' /\
      forall j, In j (seq 0 (length ps)) -> reachable n (lx d') (ux d') k (Z.of_nat j) = false -> var_value a (handle ps j) <> index_value offset k)).
  { apply passes_sequence. intros k Ik. apply (passes_look nv a _ (fun d _ => forall j, In j (seq 0 (length ps)) -> reachable n (lx d) (ux d) k (Z.of_nat j) = false -> var_value a (handle ps j) <> index_value offset k)).
    intros d1 Hd1 Ld1. cbv zeta.
    apply (passes_weaken _ _ _ (fun d => forall j, In j (seq 0 (length ps)) -> exists d', domains_ok d' /\ length d' = nv /\ within a d' /\ inside d d' /\
      (negb (reachable n (lx d1) (ux d1) k (Z.of_nat j)) && in_domain d' (handle ps j) (index_value offset k) = true -> lit_holds a (LCond (cond_ne (handle ps j) (index_value offset k)))))).
    - intros d2 _ _ _ H j Ij R V. destruct (H j Ij) as (d3 & Hd3 & Ld3 & Wa3 & _ & H3). rewrite R in H3. cbn [negb andb] in H3.
      assert (In3 : in_domain d3 (handle ps j) (index_value offset k) = true).
      { apply in_domain_spec; [assumption|now apply handle_here|]. rewrite <- V. apply view_member_iff; eauto. now apply handle_here. }
      apply H3 in In3. apply lit_ne in In3. contradiction.
    - apply passes_sequence. intros j Ij. apply (passes_look nv a _ (fun d _ => negb (reachable n (lx d1) (ux d1) k (Z.of_nat j)) && in_domain d (handle ps j) (index_value offset k) = true -> lit_holds a (LCond (cond_ne (handle ps j) (index_value offset k))))).
      intros d2 Hd2 Ld2. apply passes_when. }
  destruct (G Stop d Hd Ld Wa O) as [H _]. apply at_sorts. intros j Hj.
  assert (Ip : In (handle ps j) ps) by (apply nth_In; lia). pose proof (Rg _ Ip) as R. set (k := Z.to_nat (var_value a (handle ps j) - offset)). exists k.
  assert (Hk : (k < n)%nat) by lia. split; [assumption|]. split; [lia|].
  destruct (H k) as (d' & Hd' & Ld' & Wa' & Id' & H'); [apply in_seq; lia|]. specialize (H' j ltac:(apply in_seq; lia)).
  destruct (reachable n (lx d') (ux d') k (Z.of_nat j)) eqn:E; [|exfalso; apply H'; [reflexivity|unfold index_value; lia]].
  apply reachable_iff in E; [|now apply bounds_order]. destruct E as (v & Rv & Rj).
  assert (Fb : forall i, (i < n)%nat -> lx d' i = nth i (x_values a) 0 /\ ux d' i = nth i (x_values a) 0).
  { intros i Hi. unfold x_values. rewrite nth_value. apply fixed_bounds; auto; [now apply handle_here|]. apply (fixed_mono d); [assumption|].
    rewrite Forall_forall in Fx. apply Fx. now apply nth_In. }
  destruct (Fb k Hk) as [F1 F2]. assert (v = nth k (x_values a) 0) by lia. subst v.
  assert (E1 : forced n (ux d') k (nth k (x_values a) 0) = rank (x_values a) k).
  { unfold forced, rank. replace (length (x_values a)) with n by (symmetry; apply map_length). apply how_many_ext. intros i Ii. apply in_seq in Ii. unfold precedes. rewrite (proj2 (Fb i ltac:(lia))). reflexivity. }
  assert (E2 : possible n (lx d') k (nth k (x_values a) 0) = rank (x_values a) k).
  { unfold possible, rank. replace (length (x_values a)) with n by (symmetry; apply map_length). apply how_many_ext. intros i Ii. apply in_seq in Ii. unfold precedes. rewrite (proj1 (Fb i ltac:(lia))). reflexivity. }
  lia.
Qed.

(** What is left when it has nothing more to say. *)
Lemma rank_rests d : domains_ok d -> length d = nv -> still (rank_pass offset xs ps) d ->
  forall j k, (j < n)%nat -> (k < n)%nat -> view_member d (handle ps j) (offset + Z.of_nat k) -> reachable n (lx d) (ux d) k (Z.of_nat j) = true.
Proof.
  intros Hd Ld St j k Hj Hk M.
  assert (G : rests d (sequence (seq 0 n) (fun k rest => Look (fun d =>
    let reached := reachable n (lx d) (ux d) k in
    sequence (seq 0 (length ps)) (fun j rest => Look (fun d =>
      infer_when (negb (reached (Z.of_nat j)) && in_domain d (handle ps j) (index_value offset k)) (LCond (cond_ne (handle ps j) (index_value offset k))) rest)) rest)))
    (forall k, In k (seq 0 n) -> forall j, In j (seq 0 (length ps)) -> negb (reachable n (lx d) (ux d) k (Z.of_nat j)) && in_domain d (handle ps j) (index_value offset k) = true ->
      forall a, within a d -> lit_holds a (LCond (cond_ne (handle ps j) (index_value offset k))))).
  { apply rests_sequence. intros k' Ik. apply (rests_look d (fun d => let reached := reachable n (lx d) (ux d) k' in _)). cbv zeta. apply rests_sequence. intros j' Ij.
    apply (rests_look d (fun d => infer_when _ _)). apply rests_when. }
  destruct (G Stop St) as [H _]. specialize (H k ltac:(apply in_seq; lia) j ltac:(apply in_seq; lia)).
  destruct (reachable n (lx d) (ux d) k (Z.of_nat j)); [reflexivity|]. cbn [negb andb] in H. exfalso.
  assert (Kp : var_known d (handle ps j)) by now apply handle_here.
  specialize (H (proj2 (in_domain_spec d _ _ Hd Kp) M)). apply view_member_iff in M; auto. destruct M as (a & Wa & V). specialize (H a Wa). apply lit_ne in H. apply H. exact V.
Qed.

Lemma rank_supported d : domains_ok d -> length d = nv -> still (rank_pass offset xs ps) d ->
  forall j k, (j < n)%nat -> (k < n)%nat -> view_member d (handle ps j) (offset + Z.of_nat k) ->
  exists vs qs, Forall2 (between_bounds d) xs vs /\ sorting_order offset vs qs /\ nth_error qs j = Some (offset + Z.of_nat k).
Proof.
  intros Hd Ld St j k Hj Hk M. pose proof (rank_rests d Hd Ld St j k Hj Hk M) as R. apply reachable_iff in R; [|now apply bounds_order]. destruct R as (v & Rv & Rj).
  destruct (rank_had n (lx d) (ux d) k v (Z.of_nat j)) as (vs & Lv & B & _ & Rk); auto; [intros i _; now apply bounds_order|].
  destruct (order_exists vs) as (ks & P & S). exists vs, (map (fun k => offset + Z.of_nat k) ks).
  assert (Lk : length ks = n) by (rewrite <- (Permutation_length P), seq_length; assumption).
  assert (Ek : nth_error ks j = Some k).
  { assert (Ik : In k ks) by (apply (Permutation_in _ P); apply in_seq; lia). apply In_nth_error in Ik. destruct Ik as (j' & E). pose proof (order_rank vs ks j' k P S E) as R. assert (j' = j) by lia. now subst j'. }
  split; [|split; [exists ks; auto|now apply (map_nth_error (fun k => offset + Z.of_nat k))]].
  apply (pairs_intro _ (VConst 0) 0); [congruence|]. intros i Hi. apply B. assumption.
Qed.

(** ** The channel propagator *)
Section Channel.
Variable ys : list var_id.
Hypothesis By : Forall (var_below nv) ys.

(** The sorted values are what they should be. *)
Definition sorted_values (a : assignment) : Prop := forall j k, (j < n)%nat -> (k < n)%nat -> var_value a (handle ps j) = offset + Z.of_nat k -> var_value a (handle ys j) = var_value a (handle xs k).

Lemma channel_tells D (P : assignment -> Prop) : (forall a, P a -> sorted_values a) -> tells nv D P (channel_pass offset xs ps ys).
Proof.
  intro HP. unfold channel_pass.
  match goal with |- tells nv D P (sequence ?l ?f Stop) => assert (G : goes nv D P (sequence l f)) end.
  { apply goes_sequence. intros j Ij. apply in_seq in Ij.
    apply (goes_look nv D P (fun d rest => let '(ylo, yhi) := bounds d (handle ys j) in _)). intros d Hd Ld Id. rewrite bounds_spec.
    set (ylo := lower_bound d (handle ys j)). set (yhi := upper_bound d (handle ys j)).
    assert (Yb : forall a, within a d -> ylo <= var_value a (handle ys j) <= yhi) by (intros a Wa; apply value_bounds; auto; now apply handle_here).
    apply (goes_then nv d _ (sequence (seq 0 n) _)).
    - apply goes_sequence. intros k Ik. apply in_seq in Ik. apply (goes_look nv d _ (fun d rest => let '(xlo, xhi) := bounds d (handle xs k) in _)). intros d' Hd' Ld' Id'. rewrite bounds_spec. apply goes_when.
      intro E. apply andb_true_iff in E. destruct E as [_ E]. apply orb_true_iff in E. rewrite !Z.ltb_lt in E. split; [now apply handle_below|]. intros a [[Pa Wa] Wa']. apply lit_ne. intro V.
      specialize (HP a Pa j k ltac:(lia) ltac:(lia) V). specialize (Yb a Wa). pose proof (value_bounds d' (handle xs k) a Hd' (handle_here xs k d' Bx Ld') Wa'). lia.
    - apply (goes_look nv d _ (fun d rest => match optional_single_value d (handle ps j) with Some pj => _ | None => rest end)). intros d' Hd' Ld' Id'.
      destruct (optional_single_value d' (handle ps j)) as [pj|] eqn:E; [|apply goes_id].
      destruct (Z.leb_spec offset pj) as [L1|L1]; [|apply goes_id]. destruct (Z.ltb_spec pj (offset + Z.of_nat n)) as [L2|L2]; [|apply goes_id]. cbn [andb].
      set (k := Z.to_nat (pj - offset)). unfold equal_bounds. apply (goes_look nv d' _ (fun d rest => let '(xlo, xhi) := bounds d (handle xs k) in _)). intros d2 Hd2 Ld2 Id2. rewrite bounds_spec.
      assert (Q : forall a, (((P a /\ within a d) /\ within a d') /\ within a d2) -> var_value a (handle ys j) = var_value a (handle xs k) /\ ylo <= var_value a (handle ys j) <= yhi /\ lower_bound d2 (handle xs k) <= var_value a (handle xs k) <= upper_bound d2 (handle xs k)).
      { intros a [[[Pa Wa] Wa'] Wa2]. split; [|split; [now apply Yb|apply value_bounds; auto; now apply handle_here]]. apply HP; [assumption|lia|lia|].
        rewrite optional_single_value_spec in E by (auto; now apply handle_here). assert (V : var_value a (handle ps j) = pj) by (apply E; apply view_member_iff; eauto; now apply handle_here). lia. }
      apply (goes_then nv d2 _ (infer_when _ _) (fun rest => infer_when _ _ (infer_when _ _ (infer_when _ _ rest)))); [|apply (goes_then nv d2 _ (infer_when _ _) (fun rest => infer_when _ _ (infer_when _ _ rest))); [|apply (goes_then nv d2 _ (infer_when _ _) (fun rest => infer_when _ _ rest))]].
      + apply goes_when. intros _. split; [now apply handle_below|]. intros a H. apply lit_ge. destruct (Q a H). lia.
      + apply goes_when. intros _. split; [now apply handle_below|]. intros a H. apply lit_lt. destruct (Q a H). lia.
      + apply goes_when. intros _. split; [now apply handle_below|]. intros a H. apply lit_ge. destruct (Q a H). lia.
      + apply goes_when. intros _. split; [now apply handle_below|]. intros a H. apply lit_lt. destruct (Q a H). lia. }
  apply (G D P Stop); [auto|apply inside_refl|]. intros F _. exact Logic.I.
Qed.
End Channel.
End Rank.

(** ** Posting it *)
Definition ordered_values (ys : list var_id) (a : assignment) : Prop := arg_sorts offset xs ps a /\ sorted_values ys a.

Lemma ordered_sorts ys a : length ys = n -> ordered_values ys a -> sorts xs ys a.
Proof.
  intros Ly [(ks & P & E & S) V]. unfold sorts, sorted_version. fold (x_values a) in *. destruct (order_values _ ks P S) as [P' S'].
  assert (Lk : length ks = n) by (rewrite <- (Permutation_length P), seq_length; apply map_length).
  assert (Em : map (var_value a) ys = map (fun k => nth k (x_values a) 0) ks); [|rewrite Em; auto].
  apply (nth_ext _ _ 0 0); rewrite !map_length; [congruence|]. intros j Hj. rewrite Ly in Hj. rewrite nth_value.
  destruct (nth_error ks j) as [k|] eqn:Ek; [|apply nth_error_None in Ek; lia].
  assert (Ep : var_value a (handle ps j) = offset + Z.of_nat k).
  { rewrite <- nth_value, E. apply nth_error_nth. now apply (map_nth_error (fun k => offset + Z.of_nat k)). }
  assert (Hk : (k < n)%nat).
  { apply nth_error_In in Ek. apply (Permutation_in _ (Permutation_sym P)) in Ek. apply in_seq in Ek. unfold x_values in Ek. rewrite map_length in Ek. lia. }
  rewrite (V j k Hj Hk Ep). rewrite (nth_error_nth _ _ _ (map_nth_error (fun k => nth k (x_values a) 0) _ _ Ek)). unfold x_values. now rewrite nth_value.
Qed.

Lemma lowest_spec d v : In v xs -> lowest xs d <= lower_bound d v.
Proof.
  unfold lowest. generalize (lower_bound d (handle xs 0)). clear Len. intro m. induction xs as [|x r IH]; [intros []|]. cbn [fold_right]. intros [<-|I]; [lia|]. specialize (IH I). lia.
Qed.

Lemma highest_spec d v : In v xs -> upper_bound d v <= highest xs d.
Proof.
  unfold highest. generalize (upper_bound d (handle xs 0)). clear Len. intro m. induction xs as [|x r IH]; [intros []|]. cbn [fold_right]. intros [<-|I]; [lia|]. specialize (IH I). lia.
Qed.

Section Install.
Variable d : domains.
Variable cs : list cstate.
Hypothesis Hd : domains_ok d.
Hypothesis K : Forall (var_known d) (xs ++ ps).
Hypothesis Ne : xs <> [].

Notation ys := (map VSimple (seq (length d) n)).
Notation own := (repeat [(lowest xs d, highest xs d)] n).

Lemma own_length : length (d ++ own) = (length d + n)%nat.
Proof. rewrite app_length. now rewrite repeat_length. Qed.

Lemma nth_own k : (k < n)%nat -> nth k own [] = [(lowest xs d, highest xs d)].
Proof. intro Hk. rewrite (nth_indep _ [] [(lowest xs d, highest xs d)]) by (now rewrite repeat_length). apply nth_repeat. Qed.

Lemma known_x v : In v xs -> var_known d v.
Proof. intro I. rewrite Forall_forall in K. apply K. apply in_or_app. now left. Qed.

Lemma own_bounds v : In v xs -> lowest xs d <= lower_bound d v /\ lower_bound d v <= upper_bound d v <= highest xs d.
Proof. intro I. pose proof (lowest_spec d v I). pose proof (highest_spec d v I). pose proof (lower_le_upper d v Hd (known_x v I)). lia. Qed.

Lemma with_own_ok : domains_ok (d ++ own).
Proof.
  apply own_ok; [assumption|]. intros k Hk. rewrite repeat_length in Hk. rewrite nth_own by assumption.
  assert (I : In (handle xs k) xs) by now apply nth_In. pose proof (own_bounds _ I). split; [simpl; lia|]. exists (lowest xs d). apply member_cons. lia.
Qed.

Lemma handle_y j : (j < n)%nat -> handle ys j = VSimple (length d + j).
Proof.
  intro Hj. unfold handle. apply nth_error_nth. rewrite (map_nth_error VSimple j (seq (length d) n) (d := (length d + j)%nat)); [reflexivity|].
  rewrite (nth_error_nth' _ O) by (now rewrite seq_length). now rewrite seq_nth.
Qed.

Lemma below_here : Forall (var_below (length d)) xs /\ Forall (var_below (length d)) ps.
Proof. apply known_below_all in K. now apply Forall_app in K. Qed.

Lemma below_own nv : (length (d ++ own) <= nv)%nat -> Forall (var_below nv) xs /\ Forall (var_below nv) ps /\ Forall (var_below nv) ys.
Proof.
  intro L. rewrite own_length in L. destruct below_here as [B1 B2]. split; [|split].
  - apply (below_more_all (length d)); [lia|assumption].
  - apply (below_more_all (length d)); [lia|assumption].
  - apply Forall_forall. intros v I. apply in_map_iff in I. destruct I as (x & <- & I). apply in_seq in I. unfold var_below. cbn [underlying]. unfold domains, iset in *. lia.
Qed.

Lemma arg_sorts_local m : Forall (var_below m) xs -> Forall (var_below m) ps -> local m (arg_sorts offset xs ps).
Proof.
  intros B1 B2 a a' Sm S. unfold arg_sorts in *. rewrite Forall_forall in B1, B2.
  rewrite <- (map_ext_in (var_value a) (var_value a') xs) by (intros v I; apply (same_below_value m); auto).
  rewrite <- (map_ext_in (var_value a) (var_value a') ps) by (intros v I; apply (same_below_value m); auto). exact S.
Qed.

Lemma ordered_local : local (length (d ++ own)) (ordered_values ys).
Proof.
  destruct (below_own _ (Nat.le_refl _)) as (B1 & B2 & B3). intros a a' Sm [S V]. split; [now apply (arg_sorts_local _ B1 B2 a)|].
  intros j k Hj Hk. rewrite <- !(same_below_value (length (d ++ own)) a a') by (auto; now apply handle_below). now apply V.
Qed.

Lemma ordered_extends a : within a d -> arg_sorts offset xs ps a -> exists a', same_below (length d) a a' /\ within a' (d ++ own) /\ ordered_values ys a'.
Proof.
  intros Wa S. destruct below_here as [B1 B2].
  destruct (own_values d own a (fun j => var_value a (handle xs (Z.to_nat (var_value a (handle ps j) - offset)))) Wa) as (a' & Sm & W & V).
  - intros j Hj. rewrite repeat_length in Hj. rewrite nth_own by assumption. apply member_cons. left.
    assert (Ip : In (handle ps j) ps) by (apply nth_In; lia). pose proof (sorts_range a _ S Ip) as R.
    assert (Ix : In (handle xs (Z.to_nat (var_value a (handle ps j) - offset))) xs) by (apply nth_In; lia).
    pose proof (own_bounds _ Ix). pose proof (value_bounds d _ a Hd (known_x _ Ix) Wa). lia.
  - exists a'. split; [assumption|]. split; [assumption|]. split; [now apply (arg_sorts_local _ B1 B2 a)|].
    intros j k Hj Hk E. rewrite handle_y by assumption. cbn [var_value]. rewrite V. rewrite <- (same_below_value (length d) a a' (handle xs k)) by (auto; now apply handle_below).
    rewrite <- (same_below_value (length d) a a' (handle ps j)) in E by (auto; now apply handle_below). rewrite E. do 2 f_equal. lia.
Qed.

Lemma arg_sort_installs : installs d cs (arg_sort_install offset xs ps d cs) (xs ++ ps) (arg_sorts offset xs ps) (ordered_values ys) (fun _ _ => True).
Proof.
  assert (E : arg_sort_install offset xs ps d cs = mk_installation own []
        [body_propagator (Passes.once (sort_pass xs ys)) [] (xs ++ ys) [];
         body_propagator (Passes.once (channel_pass offset xs ps ys)) ps (xs ++ ys) [];
         body_propagator (Passes.once (rank_pass offset xs ps)) ps xs [];
         memo_propagator (gac_body ps (values_from offset n)) ps [] []]
        (map (pair O) (flat_map (fun p => define_lower d p offset ++ define_upper d p (offset + Z.of_nat n - 1)) ps))).
  { unfold arg_sort_install. destruct xs; [contradiction|reflexivity]. }
  rewrite E. clear E. constructor; cbn [in_vars in_states in_props in_inits].
  - exact with_own_ok.
  - apply Forall_forall. intros x I. apply in_map_iff in I. destruct I as (i & <- & _). cbn [fst]. lia.
  - exact ordered_local.
  - exact ordered_extends.
  - auto.
  - auto.
  - intros nv Inv Ln St I0 _.
    assert (Kx : Forall (var_known (d ++ own)) (xs ++ ps)) by (eapply Forall_impl; [|exact K]; intros v; apply prefix_known).
    assert (Ly : length ys = n) by (now rewrite map_length, seq_length).
    assert (C : carried (d ++ own) (xs ++ ps) (ordered_values ys) ([body_propagator (Passes.once (sort_pass xs ys)) [] (xs ++ ys) []] ++ [body_propagator (Passes.once (channel_pass offset xs ps ys)) ps (xs ++ ys) []] ++
      [body_propagator (Passes.once (rank_pass offset xs ps)) ps xs []] ++ [memo_propagator (gac_body ps (values_from offset n)) ps [] []])
      (fun a => True /\ True /\ ((forall v, In v ps -> offset <= var_value a v <= offset + Z.of_nat n - 1) -> arg_sorts offset xs ps a) /\ True)).
    { apply carried_app; [|apply carried_app; [|apply carried_app]].
      - apply carried_sound. exists (Passes.once (sort_pass xs ys)), [], (xs ++ ys), []. split; [reflexivity|]. intros m D Lm HD LD ID. destruct (below_own m Lm) as (B1 & B2 & B3).
        cbn [Passes.once fst]. apply (tells_honest m D HD LD (ordered_values ys) _ D (fun a => ordered_values ys a /\ within a D)); auto; [intros _; apply inside_refl| |now apply honest_track].
        apply sort_tells; auto. intros a [A _]. now apply ordered_sorts.
      - apply carried_sound. exists (Passes.once (channel_pass offset xs ps ys)), ps, (xs ++ ys), []. split; [reflexivity|]. intros m D Lm HD LD ID. destruct (below_own m Lm) as (B1 & B2 & B3).
        cbn [Passes.once fst]. apply (tells_honest m D HD LD (ordered_values ys) _ D (fun a => ordered_values ys a /\ within a D)); auto; [intros _; apply inside_refl| |now apply honest_track].
        apply channel_tells; auto. intros a [[_ A] _]. exact A.
      - apply (carried_body (d ++ own) (xs ++ ps) (xs ++ ps)); [assumption|apply incl_refl| |].
        + rewrite app_nil_r. intros v I. apply in_app_or in I. apply in_or_app. tauto.
        + intros m Lm. destruct (below_own m Lm) as (B1 & B2 & B3). apply once_meets.
          * intros D HD LD ID. apply rank_tells; auto. intros a [[A _] _]. exact A.
          * intros D a HD LD ID Fx Wa O Rg. now apply (rank_obeyed m B1 B2 D a).
      - apply (carried_memo (d ++ own) (xs ++ ps) ps); [assumption|intros v I; apply in_or_app; now right|rewrite !app_nil_r; apply incl_refl|].
        intros m memo Lm. destruct (below_own m Lm) as (B1 & B2 & B3). constructor; auto.
        intros D HD LD ID. unfold at_memo, gac_body. destruct (gac_pass ps (values_from offset n) [] memo (track D)) as [t memo'] eqn:Eg. cbn [fst].
        change t with (fst (t, memo')). rewrite <- Eg. apply gac_pass_keeps; auto; [apply values_from_NoDup|now apply honest_track|]. intros a _ [A _]. now apply sorts_separate. }
    assert (Es : established (d ++ own) (ordered_values ys) (flat_map (fun p => define_lower d p offset ++ define_upper d p (offset + Z.of_nat n - 1)) ps)
      (fun a => forall v, In v ps -> offset <= var_value a v <= offset + Z.of_nat n - 1)).
    { apply established_flat_map. intros v I. assert (Kv : var_known d v) by (rewrite Forall_forall in K; apply K; apply in_or_app; now right).
      destruct (prefix_bounds d own v Kv) as [E1 E2].
      replace (define_lower d v offset) with (define_lower (d ++ own) v offset) by (unfold define_lower; now rewrite E1).
      replace (define_upper d v (offset + Z.of_nat n - 1)) with (define_upper (d ++ own) v (offset + Z.of_nat n - 1)) by (unfold define_upper; now rewrite E2).
      apply established_app.
      - apply established_lower; [exact with_own_ok|now apply prefix_known|]. intros a _ [A _]. now apply sorts_range.
      - apply established_upper; [exact with_own_ok|now apply prefix_known|]. intros a _ [A _]. now apply sorts_range. }
    destruct C as (pp & C1 & C2). destruct Es as (ip & E1 & E2). exists pp, ip.
    assert (I0' : forall D c, Inv D c -> inside (d ++ own) D) by (intros D c I; now apply (I0 D c)).
    split; [now apply (C1 nv Inv)|]. split; [rewrite map_map, map_id; now apply (E1 nv Inv)|]. intros a Wa F1 F2. apply (C2 a Wa F1). now apply E2.
Qed.
End Install.

Lemma arg_sort_means_all d0 : Forall (var_known d0) (xs ++ ps) -> means d0 (arg_sort_install offset xs ps) (xs ++ ps) (arg_sorts offset xs ps).
Proof.
  intro K. pose proof (proj1 (known_below_all _ _) K) as B. split; [assumption|]. pose proof (proj1 (Forall_app _ _ _) B) as [B1 B2]. split; [now apply arg_sorts_local|]. intros hidden cs Hd.
  assert (K' : Forall (var_known (d0 ++ hidden)) (xs ++ ps)) by now apply known_hidden.
  assert (Nx : xs = [] \/ xs <> []) by (destruct xs; [now left|now right]). destruct Nx as [Nx|Nx].
  - exists (fun _ => True), (fun _ _ => True).
    match goal with |- installs _ _ ?i _ _ _ _ => replace i with (mk_installation [] [] [] []) by (rewrite Nx; reflexivity) end.
    constructor; cbn [in_vars in_states in_props in_inits]; rewrite ?app_nil_r; auto.
    + intros a a' _ _. exact Logic.I.
    + intros a Wa _. exists a. split; [intros x _; reflexivity|]. auto.
    + intros nv Inv _ _ _ _. exists [], []. split; [constructor|]. split; [constructor|]. intros a _ _ _. apply at_sorts. intros j Hj. rewrite Nx in Hj. inversion Hj.
  - exists (ordered_values (map VSimple (seq (length (d0 ++ hidden)) n))), (fun _ _ => True). now apply arg_sort_installs.
Qed.
End ArgSort.

Lemma arg_sort_refused offset xs ps : arg_sort offset xs ps = None <-> length xs <> length ps.
Proof. unfold arg_sort. destruct (Nat.eqb_spec (length xs) (length ps)); split; congruence. Qed.

Lemma arg_sort_means d0 offset xs ps k : Forall (var_known d0) (xs ++ ps) -> arg_sort offset xs ps = Some k -> means d0 k (xs ++ ps) (arg_sorts offset xs ps).
Proof. unfold arg_sort. destruct (Nat.eqb_spec (length xs) (length ps)); [|discriminate]. intros K [= <-]. now apply arg_sort_means_all. Qed.

(** In the terms of the whole constraint. *)
Lemma arg_sort_quiet d0 offset xs ps k d : Forall (var_known d0) (xs ++ ps) -> arg_sort offset xs ps = Some k ->
  domains_ok d -> (length d0 <= length d)%nat -> Forall (fun p => rerun_is_quiet p d) (in_props (k d0 [])) ->
  forall j i v, nth_error ps j = Some v -> (i < length xs)%nat -> view_member d v (offset + Z.of_nat i) ->
  exists vs qs, Forall2 (between_bounds d) xs vs /\ sorting_order offset vs qs /\ nth_error qs j = Some (offset + Z.of_nat i).
Proof.
  unfold arg_sort. destruct (Nat.eqb_spec (length xs) (length ps)) as [Len|]; [|discriminate]. intros K [= <-] Hd Ld Q j i v E Hi M.
  assert (B : Forall (var_below (length d)) (xs ++ ps)) by (apply known_below_all in K; now apply (below_more_all (length d0))). apply Forall_app in B. destruct B as [B1 B2].
  assert (Q' : rerun_is_quiet (body_propagator (Passes.once (rank_pass offset xs ps)) ps xs []) d).
  { unfold arg_sort_install in Q. destruct xs; [inversion Hi|]. cbn [in_props] in Q. rewrite !Forall_cons_iff in Q. apply Q. }
  pose proof (quiet_still (length d) d Hd eq_refl _ (arg_sorts offset xs ps) _ _ _ (rank_tells offset xs ps Len (length d) B1 B2 d _ (fun a H => H)) Q') as St.
  assert (Hj : (j < length ps)%nat) by (apply nth_error_Some; congruence). assert (v = handle ps j) as -> by (unfold handle; symmetry; now apply nth_error_nth).
  apply (rank_supported offset xs ps Len (length d) B1 B2 d); auto. lia.
Qed.

(** A rank that cannot be had is below all of them, above all of them, or in a hole. *)
Lemma hole_explained n lx ux k j : (forall i, (i < n)%nat -> lx i <= ux i) -> (k < n)%nat -> reachable n lx ux k j = false ->
  j < forced n ux k (lx k) \/ possible n lx k (ux k) < j \/
  (lx k <= threshold n lx ux k j < ux k /\ possible n lx k (threshold n lx ux k j) <= j - 1 /\ j + 1 <= forced n ux k (threshold n lx ux k j + 1)).
Proof.
  intros B Hk R. specialize (B k Hk). destruct (Z_lt_ge_dec j (forced n ux k (lx k))); [auto|]. destruct (Z_lt_ge_dec (possible n lx k (ux k)) j); [auto|].
  right. right. pose proof (threshold_spec n lx ux k B j R ltac:(lia)) as T. cbv zeta in T. lia.
Qed.

(** Where an element stands, given what it is known to be. *)
Lemma place_at_most xs ks k j n lx u : length xs = n -> (forall i, (i < n)%nat -> lx i <= nth i xs 0) -> Permutation (seq 0 n) ks -> Sorted (comes_first xs) ks ->
  nth_error ks j = Some k -> nth k xs 0 <= u -> Z.of_nat j <= possible n lx k u.
Proof.
  intros <- B P S E H. rewrite <- (order_rank xs ks j k P S E). apply how_many_le. intros i I. apply in_seq in I. apply precedes_mono; [apply B; lia|assumption].
Qed.

Lemma place_at_least xs ks k j n ux u : length xs = n -> (forall i, (i < n)%nat -> nth i xs 0 <= ux i) -> Permutation (seq 0 n) ks -> Sorted (comes_first xs) ks ->
  nth_error ks j = Some k -> u <= nth k xs 0 -> forced n ux k u <= Z.of_nat j.
Proof.
  intros <- B P S E H. rewrite <- (order_rank xs ks j k P S E). apply how_many_le. intros i I. apply in_seq in I. apply precedes_mono; [apply B; lia|assumption].
Qed.

Lemma arg_sorts_ext offset xs ps a a' : (forall v, In v (xs ++ ps) -> var_value a v = var_value a' v) -> arg_sorts offset xs ps a -> arg_sorts offset xs ps a'.
Proof.
  intros H S. unfold arg_sorts in *. rewrite <- (map_ext_in (var_value a) (var_value a') xs) by (intros v I; apply H; apply in_or_app; now left).
  rewrite <- (map_ext_in (var_value a) (var_value a') ps) by (intros v I; apply H; apply in_or_app; now right). exact S.
Qed.

Lemma arg_sort_refused_unsat offset xs ps a : arg_sort offset xs ps = None -> ~ arg_sorts offset xs ps a.
Proof. intros E S. apply arg_sort_refused in E. apply order_at in S. destruct S as [L _]. rewrite !map_length in L. congruence. Qed.

Lemma reachable_exactly n lx ux k j : (forall i, (i < n)%nat -> lx i <= ux i) -> (k < n)%nat ->
  (reachable n lx ux k (Z.of_nat j) = true <->
   exists vs ks, length vs = n /\ (forall i, (i < n)%nat -> lx i <= nth i vs 0 <= ux i) /\ Permutation (seq 0 n) ks /\ Sorted (comes_first vs) ks /\ nth_error ks j = Some k).
Proof.
  intros B Hk. rewrite reachable_iff by auto. split.
  - intros (v & Rv & Rj). destruct (rank_had n lx ux k v (Z.of_nat j)) as (vs & Lv & Bv & _ & Rk); auto. destruct (order_exists vs) as (ks & P & S). rewrite Lv in P.
    exists vs, ks. repeat (split; [assumption|]). assert (Ik : In k ks) by (apply (Permutation_in _ P); apply in_seq; lia). apply In_nth_error in Ik. destruct Ik as (j' & E).
    rewrite <- Lv in P. pose proof (order_rank vs ks j' k P S E) as R. assert (j' = j) by lia. now subst j'.
  - intros (vs & ks & Lv & Bv & P & S & E). exists (nth k vs 0). split; [now apply Bv|]. rewrite <- Lv in P. rewrite <- (order_rank vs ks j k P S E). now apply rank_between.
Qed.

Lemma place_bounds xs ks k j n lx ux u : length xs = n -> (forall i, (i < n)%nat -> lx i <= nth i xs 0 <= ux i) ->
  Permutation (seq 0 n) ks -> Sorted (comes_first xs) ks -> nth_error ks j = Some k ->
  (nth k xs 0 <= u -> Z.of_nat j <= possible n lx k u) /\ (u <= nth k xs 0 -> forced n ux k u <= Z.of_nat j).
Proof. intros L B P S E. split; intro H; [apply (place_at_most xs ks k j n lx u)|apply (place_at_least xs ks k j n ux u)]; auto; intros i Hi; now apply B. Qed.

(** ** An example *)
Definition example_start : domains := [[(0, 1)]; [(0, 1)]; [(0, 1)]; [(2, 2)]; [(0, 2)]; [(0, 2)]].
Definition example_domains : domains := [[(0, 1)]; [(0, 1)]; [(0, 1)]; [(2, 2)]; [(0, 1)]; [(0, 1)]; [(0, 1)]; [(0, 1)]; [(0, 1)]].
Definition example_xs : list var_id := [VSimple 0; VSimple 1; VSimple 2].
Definition example_ps : list var_id := [VSimple 3; VSimple 4; VSimple 5].

Lemma example_gac memo : apply_lits example_domains (rev (t_lits (fst (gac_pass example_ps [0; 1; 2] [] memo (track example_domains))))) = (example_domains, [], false).
Proof.
  unfold gac_pass. cbv zeta. generalize (recall memo). intro previous. unfold Matching.build_matching. change (seq 0 (length example_ps)) with [0; 1; 2]%nat.
  cbn [fold_left]. unfold Matching.revalidate. generalize (previous 0%nat), (previous 1%nat), (previous 2%nat). clear.
  intros [[|[|[|p]]]|] [[|[|[|q]]]|] [[|[|[|r]]]|]; vm_compute; reflexivity.
Qed.

Lemma arg_sort_example : arg_sort 0 example_xs example_ps = Some (arg_sort_install 0 example_xs example_ps) /\ Forall (var_known example_start) (example_xs ++ example_ps) /\ domains_ok example_domains /\
  (length example_start <= length example_domains)%nat /\ Forall (fun p => rerun_is_quiet p example_domains) (in_props (arg_sort_install 0 example_xs example_ps example_start [])).
Proof.
  split; [reflexivity|]. split; [repeat constructor|]. split; [|split; [simpl; lia|]].
  - intros k Hk. do 9 (destruct k as [|k]; [split; [simpl; lia|]; first [exists 1; apply member_cons; lia|exists 2; apply member_cons; lia]|]). simpl in Hk. lia.
  - unfold arg_sort_install, example_xs at 1. cbn [in_props]. repeat constructor; intros i E.
    + cbn [p_run body_propagator]. rewrite (proj1 (body_run_out _ i)), E. vm_compute. reflexivity.
    + cbn [p_run body_propagator]. rewrite (proj1 (body_run_out _ i)), E. vm_compute. reflexivity.
    + cbn [p_run body_propagator]. rewrite (proj1 (body_run_out _ i)), E. vm_compute. reflexivity.
    + cbn [p_run memo_propagator]. unfold memo_run, gac_body. rewrite E. change (values_from 0 (length example_xs)) with [0; 1; 2].
      pose proof (example_gac (i_memo i)) as G. destruct (gac_pass example_ps [0; 1; 2] [] (i_memo i) (track example_domains)) as [t m]. exact G.
Qed.

Lemma arg_sort_refuted : exists d0 xs ps k d, arg_sort 0 xs ps = Some k /\ Forall (var_known d0) (xs ++ ps) /\ domains_ok d0 /\
  domains_ok d /\ inside (d0 ++ in_vars (k d0 [])) d /\ Forall (fun p => rerun_is_quiet p d) (in_props (k d0 [])) /\
  (exists v, nth_error ps 1 = Some v /\ upper_bound d v = 1) /\
  forall vs qs, Forall2 (between_bounds d) xs vs -> Forall2 (between_bounds d) ps qs -> sorting_order 0 vs qs -> nth_error qs 1 <> Some 1.
Proof.
  destruct arg_sort_example as (H1 & H2 & H3 & H4 & H5). exists example_start, example_xs, example_ps, (arg_sort_install 0 example_xs example_ps), example_domains.
  split; [assumption|]. split; [assumption|]. split; [|split; [assumption|split; [|split; [assumption|split; [eexists; split; reflexivity|]]]]].
  - intros k Hk. do 6 (destruct k as [|k]; [split; [simpl; lia|]; first [exists 1; apply member_cons; lia|exists 2; apply member_cons; lia]|]). simpl in Hk. lia.
  - change (example_start ++ in_vars (arg_sort_install 0 example_xs example_ps example_start [])) with [[(0, 1)]; [(0, 1)]; [(0, 1)]; [(2, 2)]; [(0, 2)]; [(0, 2)]; [(0, 1)]; [(0, 1)]; [(0, 1)]].
    intros a Wa k Hk. specialize (Wa k Hk). unfold example_domains in Wa.
    do 9 (destruct k as [|k]; [cbn [nth] in Wa |- *; first [exact Wa|rewrite member_cons in *; destruct Wa as [Wa|Wa]; [left; lia|now right]]|]). simpl in Hk. lia.
  - intros vs qs Fv Fq S E.
    inversion Fv as [|? x0 ? ? B0 Fv1]; subst. inversion Fv1 as [|? x1 ? ? B1 Fv2]; subst. inversion Fv2 as [|? x2 ? ? B2 Fv3]; subst. inversion Fv3; subst.
    inversion Fq as [|? q0 ? ? C0 Fq1]; subst. inversion Fq1 as [|? q1 ? ? C1 Fq2]; subst. inversion Fq2 as [|? q2 ? ? C2 Fq3]; subst. inversion Fq3; subst.
    unfold between_bounds in *. change (2 <= q0 <= 2) in C0. change (0 <= x0 <= 1) in B0. change (0 <= x1 <= 1) in B1. change (0 <= x2 <= 1) in B2. cbn [nth_error] in E. injection E as ->.
    destruct S as (ks & P & Eq & S). destruct ks as [|k0 [|k1 [|k2 [|? ?]]]]; try discriminate Eq. injection Eq as E0 E1 E2.
    inversion S as [|? ? S1 R1]; subst. inversion S1 as [|? ? S2 R2]; subst. inversion R1; subst. inversion R2; subst.
    assert (k0 = 2%nat) by lia. assert (k1 = 1%nat) by lia. subst k0 k1.
    assert (k2 = 0%nat). { assert (I : In 0%nat [2%nat; 1%nat; k2]) by (apply (Permutation_in _ P); apply in_seq; simpl; lia). destruct I as [I|[I|[I|[]]]]; lia. } subst k2.
    unfold comes_first in *. cbn [nth] in *. lia.
Qed.
