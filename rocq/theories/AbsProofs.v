(** Lemmas about absolute value. *)
From Coq Require Import ZArith List Bool Arith Lia Permutation.
From Verif Require Import IntervalSet IntervalSetSpec IntervalSetProofs Vars VarsSpec VarsProofs State StateSpec StateProofs Epochs
  Engine EngineSpec EngineProofs SessionSpec SessionInvProofs Tracker ContractSpec ContractProofs RunProofs Equals Abs.
Import ListNotations.
Local Open Scope Z_scope.

(** ** Collecting pieces into a set *)

Lemma insert_sorted_perm p l : Permutation (insert_sorted p l) (p :: l).
Proof.
  induction l as [|q r IH]; simpl; [reflexivity|]. destruct (pair_leb p q); [reflexivity|]. rewrite IH. apply perm_swap.
Qed.

Lemma sort_pairs_perm l : Permutation (sort_pairs l) l.
Proof. induction l as [|p r IH]; simpl; [reflexivity|]. rewrite insert_sorted_perm. now apply perm_skip. Qed.

(** Lower ends in order. *)
Fixpoint by_lower (b : Z) (l : list (Z * Z)) : Prop :=
  match l with [] => True | p :: r => b <= fst p /\ by_lower (fst p) r end.

Lemma by_lower_weaken b b' l : b' <= b -> by_lower b l -> by_lower b' l.
Proof. destruct l; simpl; [auto|]. intros ? [? ?]. split; [lia|assumption]. Qed.

Lemma insert_by_lower p l : forall b, b <= fst p -> by_lower b l -> by_lower b (insert_sorted p l).
Proof.
  induction l as [|q r IH]; simpl; intros b Hb H; [auto|]. unfold pair_leb. destruct H as [H1 H2].
  destruct (Z.ltb_spec (fst p) (fst q)), (Z.eqb_spec (fst p) (fst q)), (Z.leb_spec (snd p) (snd q)); simpl; try lia;
    repeat split; try lia; try assumption; try (apply (by_lower_weaken (fst q)); [lia|assumption]); apply IH; try lia; assumption.
Qed.

Lemma sort_by_lower l : exists b, by_lower b (sort_pairs l).
Proof.
  induction l as [|p r (b & IH)]; simpl; [exists 0; exact Logic.I|]. exists (Z.min b (fst p)). apply insert_by_lower; [lia|].
  apply (by_lower_weaken b); [lia|assumption].
Qed.

Definition covered (x : Z) (l : list (Z * Z)) : Prop := exists lo hi, In (lo, hi) l /\ lo <= x <= hi.

Lemma covered_cons x p l : covered x (p :: l) <-> fst p <= x <= snd p \/ covered x l.
Proof.
  destruct p as [lo hi]. unfold covered. cbn [fst snd In]. split.
  - intros (lo' & hi' & [E|I] & Hx); [injection E as <- <-; left; lia|right; eauto].
  - intros [H|(lo' & hi' & I & H)]; [exists lo, hi; auto|exists lo', hi'; auto].
Qed.

Lemma merge_pieces_spec l : forall cur result, well_formed result -> fst cur <= snd cur -> Forall (fun p => fst p <= snd p) l ->
  by_lower (fst cur) l -> (forall v, member v result -> v < fst cur) ->
  represents (merge_pieces cur l result) (fun x => member x result \/ covered x (cur :: l)).
Proof.
  induction l as [|it r IH]; intros cur result Wf Hc Ok So Be; simpl.
  - destruct (insert_interval_at_end_spec (fst cur) (snd cur) result Wf Hc Be) as [A B]. split; [assumption|].
    intro x. rewrite (B x), covered_cons. split; [tauto|]. intros [?|[?|(? & ? & [] & _)]]; tauto.
  - inversion_clear Ok as [|? ? Hi Or]. simpl in So. destruct So as [S1 S2]. destruct (Z.leb_spec (fst it) (snd cur + 1)) as [Le|Gt].
    + destruct (IH (fst cur, Z.max (snd cur) (snd it)) result) as [A B]; simpl; auto; [lia|apply (by_lower_weaken (fst it)); assumption|].
      split; [assumption|]. intro x. rewrite (B x). simpl. rewrite !covered_cons. simpl. split.
      * intros [?|[?|?]]; [tauto| |tauto]. destruct (Z.le_gt_cases x (snd cur)); [right; left; lia|right; right; left; lia].
      * intros [?|[?|[?|?]]]; [tauto|right; left; lia|right; left; lia|tauto].
    + destruct (insert_interval_at_end_spec (fst cur) (snd cur) result Wf Hc Be) as [A B].
      destruct (IH it (insert_interval_at_end (fst cur) (snd cur) result)) as [C D]; auto.
      { intros v M. apply B in M. destruct M as [M|M]; [specialize (Be v M)|]; lia. }
      split; [assumption|]. intro x. rewrite (D x), (B x), !covered_cons. tauto.
Qed.

Lemma pieces_to_set_spec l : Forall (fun p => fst p <= snd p) l -> represents (pieces_to_set l) (fun x => covered x l).
Proof.
  intro Ok. unfold pieces_to_set. pose proof (sort_pairs_perm l) as P. destruct (sort_by_lower l) as (b & So).
  assert (Eq : forall x, covered x (sort_pairs l) <-> covered x l).
  { intro x. split; intros (lo & hi & I & H); exists lo, hi; (split; [|assumption]).
    - eapply Permutation_in; eassumption.
    - eapply Permutation_in; [apply Permutation_sym|]; eassumption. }
  assert (Ok' : Forall (fun p => fst p <= snd p) (sort_pairs l)).
  { rewrite Forall_forall in *. intros p I. apply Ok. eapply Permutation_in; eassumption. }
  destruct (sort_pairs l) as [|cur r].
  - split; [exact Logic.I|]. intro x. rewrite <- (Eq x). split; [intro M; now apply member_nil in M|intros (? & ? & [] & _)].
  - inversion_clear Ok' as [|? ? Hc Or]. simpl in So. destruct (merge_pieces_spec r cur [] wf_nil Hc Or (proj2 So)) as [A B].
    { intros v M. now apply member_nil in M. }
    split; [assumption|]. intro x. rewrite (B x), (Eq x), member_nil. tauto.
Qed.

Lemma wf_Forall s : well_formed s -> Forall (fun p : Z * Z => fst p <= snd p) s.
Proof.
  intro W. apply Forall_forall. intros [l u] I. simpl. now apply (each_interval_sep s W l u).
Qed.

Lemma image_spec s : well_formed s -> represents (pieces_to_set (image_pieces s)) (fun y => exists x, member x s /\ y = Z.abs x).
Proof.
  intro W. pose proof (proj1 (Forall_forall _ _) (wf_Forall s W)) as Ok. destruct (pieces_to_set_spec (image_pieces s)) as [A B].
  { unfold image_pieces. apply Forall_forall. intros p I. apply in_map_iff in I. destruct I as ([a b] & <- & I). specialize (Ok _ I). simpl in Ok.
    destruct (Z.leb_spec 0 a); simpl; [lia|]. destruct (Z.ltb_spec b 0); simpl; lia. }
  split; [assumption|]. intro y. rewrite (B y). unfold covered, image_pieces, member. split.
  - intros (lo & hi & I & H). apply in_map_iff in I. destruct I as ([a b] & E & I). specialize (Ok _ I). simpl in Ok.
    destruct (Z.leb_spec 0 a); [|destruct (Z.ltb_spec b 0)]; injection E as <- <-.
    + exists y. split; [exists a, b; auto|lia].
    + exists (- y). split; [exists a, b; split; [assumption|lia]|lia].
    + destruct (Z.le_gt_cases y b); [exists y|exists (- y)]; (split; [exists a, b; split; [assumption|lia]|lia]).
  - intros (x & (a & b & I & H) & ->). specialize (Ok _ I). simpl in Ok.
    pose proof (in_map (fun '(a, b) => if 0 <=? a then (a, b) else if b <? 0 then (- b, - a) else (0, Z.max (- a) b)) s (a, b) I) as J.
    cbv beta iota in J. destruct (Z.leb_spec 0 a); [|destruct (Z.ltb_spec b 0)]; (eexists; eexists; split; [exact J|lia]).
Qed.

Lemma preimage_spec s : well_formed s -> represents (pieces_to_set (preimage_pieces s)) (fun x => member x s \/ member (- x) s).
Proof.
  intro W. pose proof (proj1 (Forall_forall _ _) (wf_Forall s W)) as Ok. destruct (pieces_to_set_spec (preimage_pieces s)) as [A B].
  { unfold preimage_pieces. apply Forall_forall. intros p I. apply in_flat_map in I. destruct I as ([a b] & I & J). specialize (Ok _ I). simpl in Ok.
    destruct (Z.eqb_spec a 0); simpl in J; [destruct J as [<-|[]]|destruct J as [<-|[<-|[]]]]; simpl; lia. }
  split; [assumption|]. intro x. rewrite (B x). unfold covered, preimage_pieces, member. split.
  - intros (lo & hi & I & H). apply in_flat_map in I. destruct I as ([a b] & I & J). specialize (Ok _ I). simpl in Ok.
    destruct (Z.eqb_spec a 0).
    + destruct J as [[= <- <-]|[]]. destruct (Z.le_gt_cases 0 x); [left|right]; exists a, b; (split; [assumption|lia]).
    + destruct J as [[= <- <-]|[[= <- <-]|[]]]; [right|left]; exists a, b; (split; [assumption|lia]).
  - intros [(a & b & I & H)|(a & b & I & H)]; specialize (Ok _ I); simpl in Ok; destruct (Z.eqb_spec a 0) as [->|N].
    + exists (- b), b. split; [|lia]. apply in_flat_map. exists (0, b). split; [assumption|]. now left.
    + exists a, b. split; [|lia]. apply in_flat_map. exists (a, b). split; [assumption|]. destruct (Z.eqb_spec a 0); [lia|]. simpl. auto.
    + exists (- b), b. split; [|lia]. apply in_flat_map. exists (0, b). split; [assumption|]. now left.
    + exists (- b), (- a). split; [|lia]. apply in_flat_map. exists (a, b). split; [assumption|]. destruct (Z.eqb_spec a 0); [lia|]. simpl. auto.
Qed.

(** ** The propagator *)

Section Abs.
Variable nv : nat.
Variable v1 v2 : var_id.
Hypothesis B1 : var_below nv v1.
Hypothesis B2 : var_below nv v2.

Definition abs_sat (a : assignment) : Prop := var_value a v2 = Z.abs (var_value a v1).

Section At.
Variable d : domains.
Hypothesis Hd : domains_ok d.
Hypothesis Ld : length d = nv.

Lemma prune_gaps_honest sat v gaps t : var_below nv v -> honest nv d sat t ->
  (forall a lo hi, within a d -> sat a -> In (lo, hi) gaps -> ~ (lo <= var_value a v <= hi)) ->
  honest nv d sat (prune_gaps v gaps t).
Proof.
  intros B H J. unfold prune_gaps. destruct (bounds (t_domains t) v) as [pl pu]. apply honest_for_each; [|assumption].
  intros [lo hi] t' I H'. apply honest_for_each; [|assumption]. intros val t2 Iv H2. destruct (in_domain (t_domains t2) v val); [|assumption].
  apply honest_tell; auto. intros _ _ _ a Wa _ Sa. specialize (J a lo hi Wa Sa I). apply zrange_In in Iv. simpl. unfold cond_holds; simpl. lia.
Qed.

Lemma prune_gaps_legit v gaps t : var_below nv v -> legit nv d t -> legit nv d (prune_gaps v gaps t).
Proof.
  intros B H. unfold prune_gaps. destruct (bounds (t_domains t) v) as [pl pu]. apply legit_for_each; [|assumption].
  intros [lo hi] t' I H'. apply legit_for_each; [|assumption]. intros val t2 Iv H2. destruct (in_domain (t_domains t2) v val); [|assumption].
  now apply legit_tell.
Qed.

(** What survives is in none of the gaps. *)
Lemma prune_gaps_back v gaps t a : var_below nv v -> legit nv d t -> live nv d (prune_gaps v gaps t) a ->
  live nv d t a /\ forall lo hi, In (lo, hi) gaps -> ~ (lo <= var_value a v <= hi).
Proof.
  intros B G. unfold prune_gaps. rewrite bounds_spec. intro Lv.
  apply (for_each_back nv d (fun p => ~ (Z.max (fst p) (lower_bound (t_domains t) v) <= var_value a v <= Z.min (snd p) (upper_bound (t_domains t) v)))) in Lv; auto.
  - destruct Lv as [Lv F]. split; [assumption|]. intros lo hi I H. rewrite Forall_forall in F. apply (F (lo, hi) I). simpl.
    pose proof (value_bounds (t_domains t) v a (live_ok _ _ Hd Ld _ _ Lv) (var_below_known nv _ v (live_length _ _ Hd Ld _ _ Lv) B)) as V.
    destruct Lv as (_ & _ & W). specialize (V W). lia.
  - intros [lo hi] t' I H'. apply legit_for_each; [|assumption]. intros val t2 Iv H2. destruct (in_domain (t_domains t2) v val); [|assumption].
    now apply legit_tell.
  - intros [lo hi] t' I H' Lv'. simpl. apply (for_each_back nv d (fun val => var_value a v <> val)) in Lv'; auto.
    + destruct Lv' as [Lv' F]. split; [assumption|]. intro H. rewrite Forall_forall in F. apply (F (var_value a v)); [|reflexivity]. apply zrange_In. lia.
    + intros val t2 Iv H2. destruct (in_domain (t_domains t2) v val); [|assumption]. now apply legit_tell.
    + intros val t2 Iv H2 Lv2. destruct (in_domain (t_domains t2) v val) eqn:E.
      * now apply (tell_back nv d Hd Ld (LCond (cond_ne v val))) in Lv2.
      * split; [assumption|]. apply (not_in_domain (t_domains t2)); auto.
        -- now apply (live_ok nv d) with a.
        -- apply (var_below_known nv); auto. now apply (live_length nv d) with a.
        -- apply Lv2.
Qed.

Lemma gap_outside s other a v lo hi : well_formed s -> well_formed other -> member (var_value a v) other ->
  In (lo, hi) (each_interval_minus s other) -> ~ (lo <= var_value a v <= hi).
Proof.
  intros Ws Wo M I H. destruct (each_interval_minus_spec s other Ws Wo) as [_ R]. apply (R (var_value a v)); [|assumption]. exists lo, hi. auto.
Qed.

Lemma K1 : var_known d v1.
Proof. now apply (var_below_known nv). Qed.

Lemma K2 : var_known d v2.
Proof. now apply (var_below_known nv). Qed.

Lemma if_honest sat (b : bool) t1 t2 : (b = true -> honest nv d sat t1) -> (b = false -> honest nv d sat t2) -> honest nv d sat (if b then t1 else t2).
Proof. destruct b; auto. Qed.

Lemma abs_honest : honest nv d abs_sat (fst (abs_body v1 v2 d)).
Proof.
  pose proof K1 as Kn1. pose proof K2 as Kn2.
  destruct (copy_of_values_spec d v1 Hd Kn1) as [C1 D1]. destruct (copy_of_values_spec d v2 Hd Kn2) as [C2 D2].
  destruct (image_spec (copy_of_values d v1) C1) as [Wi Im]. destruct (preimage_spec (copy_of_values d v2) C2) as [Wp Pm].
  assert (V : forall a, within a d -> abs_sat a -> lower_bound d v1 <= var_value a v1 <= upper_bound d v1 /\
     lower_bound d v2 <= var_value a v2 <= upper_bound d v2 /\ var_value a v2 = Z.abs (var_value a v1)).
  { intros a Wa Sa. split; [now apply value_bounds|]. split; [now apply value_bounds|exact Sa]. }
  unfold abs_body. rewrite !bounds_spec. cbn [fst].
  apply prune_gaps_honest; [assumption| |].
  2:{ intros a lo hi Wa Sa I. apply (gap_outside _ _ _ _ _ _ C1 Wp) with (2 := I). apply Pm. pose proof (value_copied d v2 a Hd Kn2 Wa) as M.
      destruct (V a Wa Sa) as (_ & _ & E). destruct (Z.abs_spec (var_value a v1)) as [[_ E']|[_ E']]; rewrite E, E' in M; auto. }
  apply prune_gaps_honest; [assumption| |].
  2:{ intros a lo hi Wa Sa I. apply (gap_outside _ _ _ _ _ _ C2 Wi) with (2 := I). apply Im. exists (var_value a v1). split; [now apply value_copied|exact Sa]. }
  assert (T : forall l t, lit_below nv l -> honest nv d abs_sat t ->
     (forall a, lower_bound d v1 <= var_value a v1 <= upper_bound d v1 /\
     lower_bound d v2 <= var_value a v2 <= upper_bound d v2 /\ var_value a v2 = Z.abs (var_value a v1) -> lit_holds a l) -> honest nv d abs_sat (tell l t)).
  { intros l t Bl Ht J. apply honest_tell; auto. }
  unfold tell_ge, tell_lt.
  assert (T' : forall (b : bool) l t, lit_below nv l -> honest nv d abs_sat t ->
     (b = true -> forall a, lower_bound d v1 <= var_value a v1 <= upper_bound d v1 /\
     lower_bound d v2 <= var_value a v2 <= upper_bound d v2 /\ var_value a v2 = Z.abs (var_value a v1) -> lit_holds a l) ->
     honest nv d abs_sat (if b then tell l t else t)).
  { intros [|] l t Bl Ht J; [apply T; auto|assumption]. }
  apply T'; [assumption| |intros E a (? & ? & ?); simpl; unfold cond_holds; simpl; lia].
  apply T'; [assumption| |intros E a (? & ? & ?); simpl; unfold cond_holds; simpl; lia].
  apply if_honest; intros _; [apply honest_track|].
  apply if_honest; intro E1; [apply T; [assumption| |intros a (? & ? & ?); simpl; unfold cond_holds; simpl; lia]|].
  2: apply if_honest; intro E2; [apply T; [assumption| |intros a (? & ? & ?); simpl; unfold cond_holds; simpl; lia]|].
  all: apply T'; [assumption|apply honest_track|intros E a (? & ? & ?); simpl; unfold cond_holds; simpl; lia].
Qed.

Lemma abs_checks a : Forall (fixed d) [v1; v2] -> live nv d (fst (abs_body v1 v2 d)) a -> abs_sat a.
Proof.
  intros F Lv. inversion_clear F as [|? ? F1 F']. inversion_clear F' as [|? ? F2 _]. pose proof K1 as Kn1. pose proof K2 as Kn2.
  pose proof abs_honest as [Gl _].
  destruct (copy_of_values_spec d v1 Hd Kn1) as [C1 D1]. destruct (copy_of_values_spec d v2 Hd Kn2) as [C2 D2].
  destruct (image_spec (copy_of_values d v1) C1) as [Wi Im].
  pose proof (live_within nv d Hd Ld _ _ Lv) as Wa.
  revert Gl Lv. unfold abs_body. rewrite !bounds_spec. cbn [fst].
  set (t3 := if _ <? _ then _ else _). intros Gl Lv.
  assert (G3 : legit nv d t3).
  { clear Lv Gl. unfold t3, tell_ge, tell_lt.
    repeat match goal with |- context [if ?b then _ else _] => destruct b end; repeat (apply legit_tell; [assumption|]); apply legit_track. }
  assert (G4 : forall gaps, legit nv d (prune_gaps v2 gaps t3)) by (intro; now apply prune_gaps_legit).
  apply prune_gaps_back in Lv; auto. destruct Lv as [Lv _]. apply prune_gaps_back in Lv; auto. destruct Lv as [_ H].
  destruct (each_interval_minus_spec (copy_of_values d v2) (pieces_to_set (image_pieces (copy_of_values d v1))) C2 Wi) as [_ R].
  unfold abs_sat. destruct (Z.eq_dec (var_value a v2) (Z.abs (var_value a v1))) as [E|N]; [assumption|exfalso].
  destruct (R (var_value a v2)) as [_ R']. destruct R' as (lo & hi & I & Hlh).
  - split; [now apply value_copied|]. intro M. apply Im in M. destruct M as (x & Mx & Ex).
    apply (fixed_copied d v1 a Hd Kn1 Wa F1) in Mx. congruence.
  - exact (H lo hi I Hlh).
Qed.

Lemma abs_init_honest : honest nv d abs_sat (abs_initialiser v1 v2 d).
Proof.
  unfold abs_initialiser. destruct (is_constant v2); [apply honest_track|].
  assert (T : forall l t, lit_below nv l -> honest nv d abs_sat t ->
     (domains_ok (t_domains t) -> length (t_domains t) = nv -> forall a, within a (t_domains t) -> var_value a v2 = Z.abs (var_value a v1) -> lit_holds a l) -> honest nv d abs_sat (tell l t)).
  { intros l t Bl Ht J. apply honest_tell; auto. }
  assert (H1 : honest nv d abs_sat (tell_ge v2 0 (track d))).
  { apply T; [assumption|apply honest_track|]. intros _ _ a _ E. simpl. unfold cond_holds; simpl. lia. }
  set (t1 := tell_ge v2 0 (track d)) in *.
  (* every later domain is inside the one the bound was read from *)
  assert (U : forall a, within a d -> abs_sat a -> var_value a v2 <= upper_bound (t_domains t1) v2).
  { intros a Wa Sa. destruct (honest_within nv d Hd Ld abs_sat t1 a H1 Wa Sa) as [F W]. destruct H1 as [G _].
    apply (value_bounds (t_domains t1) v2 a); auto; [now apply (legit_ok nv d)|]. apply (var_below_known nv); auto. now apply (legit_length nv d). }
  set (ub := upper_bound (t_domains t1) v2) in *.
  set (t2 := if 0 <=? ub then tell (LCond (cond_le v1 ub)) t1 else t1).
  assert (H2 : honest nv d abs_sat t2).
  { apply if_honest; intro E; [|assumption]. apply honest_tell; auto. intros _ _ _ a Wa _ Sa. specialize (U a Wa Sa). unfold abs_sat in Sa.
    simpl. unfold cond_holds, cond_le; simpl. lia. }
  set (t3 := if 0 <? ub then tell_ge v1 (- ub) t2 else t2).
  assert (H3 : honest nv d abs_sat t3).
  { apply if_honest; intro E; [|assumption]. apply honest_tell; auto. intros _ _ _ a Wa _ Sa. specialize (U a Wa Sa). unfold abs_sat in Sa.
    simpl. unfold cond_holds; simpl. lia. }
  rewrite bounds_spec. apply T; auto. intros Ok L a W E.
  pose proof (value_bounds (t_domains t3) v1 a Ok (var_below_known nv _ v1 L B1) W). simpl. unfold cond_holds, cond_le; simpl. lia.
Qed.

End At.
End Abs.

Lemma abs_enables v1 v2 d : snd (abs_body v1 v2 d) = Enable.
Proof. unfold abs_body. rewrite !bounds_spec. reflexivity. Qed.

Lemma abs_correct d0 v1 v2 : var_known d0 v1 -> var_known d0 v2 ->
  correct_on d0 (abs_constraint v1 v2) [v1; v2] (fun a => var_value a v2 = Z.abs (var_value a v1)).
Proof.
  intros K1 K2. apply (one_propagator_correct d0 _ (abs_body v1 v2) [v1; v2] [] [] [abs_initialiser v1 v2] _ (abs_sat v1 v2)); auto.
  - reflexivity.
  - simpl. apply incl_refl.
  - intros nv Ln. pose proof (known_below_more _ _ _ Ln K1) as B1. pose proof (known_below_more _ _ _ Ln K2) as B2. apply body_ok_intro.
    + intros. now apply abs_honest.
    + intros d a Hd L _ F Lv. now apply (abs_checks nv v1 v2 B1 B2 d).
    + intros d a Hd L _ _ R. rewrite abs_enables in R. discriminate R.
    + intros d a Hd L _ R. rewrite abs_enables in R. discriminate R.
  - intros nv g d Ln [<-|[]] Hd L _. apply abs_init_honest; auto; now apply (known_below_more d0).
Qed.
