From Coq Require Import ZArith List Bool Lia Permutation.
From Verif Require KnapsackProofs BinPackingProofs SmartTable SmartTableSpec SmartTableProofs MinDistance MinDistanceSpec MinDistanceProofs.
From Verif Require Import IntervalSet IntervalSetSpec Vars VarsSpec State StateSpec Expressions ExpressionsSpec Epochs Engine EngineSpec Tracker SessionSpec
  ContractSpec ContractProofs RunProofs Search SearchSpec Reify ReifySpec Equals EqualsProofs Comparison ComparisonProofs ConsistencySpec Plus PlusProofs
  Nogoods NogoodsProofs
  Logical LogicalProofs Abs AbsProofs Member MemberProofs MinMax MinMaxProofs Counting CountingProofs Linear LinearSpec LinearProofs Solve SolveSpec SolveProofs AllDifferent AllDifferentSpec AllDifferentProofs GacAllDifferent GacAllDifferentProofs
  NegativeTable TableSpec Table TableProofs Element ElementSpec ElementProofs
  AllEqual Increasing NValue Parity GlobalsSpec IncreasingProofs NValueProofs ParityProofs AllEqualProofs
  Inverse Precede ChannelSpec InverseProofs PrecedeProofs StatefulSpec Lex LexSpec LexProofs Tabulation TabulationProofs Multiply MultiplyProofs DivideModulus DivideModulusProofs Layered LayeredSpec LayeredProofs RegexSpec Regex RegexAutomatonProofs PowerSpec Power PowerProofs GlobalCardinalitySpec GlobalCardinality GlobalCardinalityProofs CircuitSpec Circuit CircuitProofs CircuitScc CircuitSccProofs Disjunctive2DSpec Disjunctive2D Disjunctive2DProofs SortednessSpec Sortedness SortednessProofs GacCardinality GacCardinalityProofs ArgSortSpec ArgSort ArgSortProofs KnapsackSpec Knapsack BinPackingSpec BinPacking Catalogue CatalogueSpec.
Import ListNotations.
Local Open Scope Z_scope.

Lemma known_more (d hidden : domains) v : var_known d v -> var_known (d ++ hidden) v.
Proof. destruct v; simpl; auto; rewrite app_length; unfold domains, iset in *; lia. Qed.

Lemma bounds_more (d hidden : domains) v : var_known d v -> lower_bound (d ++ hidden) v = lower_bound d v /\ upper_bound (d ++ hidden) v = upper_bound d v.
Proof. destruct v as [n|n neg add|c]; simpl; auto; intro K; unfold dom; rewrite app_nth1 by assumption; auto. Qed.

Lemma same_holds n a a' c : same_below n a a' -> var_below n (c_var c) -> (cond_holds a c <-> cond_holds a' c).
Proof. intros S B. unfold cond_holds. now rewrite (same_below_value n a a' (c_var c)). Qed.

Lemma sum_local n s a a' : same_below n a a' -> (forall v, In v (map snd s) -> var_below n v) -> weighted_sum s a = weighted_sum s a'.
Proof.
  intros S B. unfold weighted_sum. induction s as [|[c v] r IH]; [reflexivity|]. cbn [sum_worth]. rewrite IH by (intros w I; apply B; now right).
  unfold term_worth. cbn [fst snd]. now rewrite (same_below_value n a a' v S (B v (or_introl eq_refl))).
Qed.

Lemma satisfies_local d p : well_posed d p -> local (length d) (fun a => satisfies a p).
Proof.
  intros (K & _ & Ind). rewrite Forall_forall in K.
  assert (B : forall v, In v (mentions p) -> var_below (length d) v) by (intros v I; apply known_below; now apply K).
  intros a a' Sm H. pose proof (fun v I => same_below_value _ a a' v Sm (B v I)) as E. pose proof (fun c I => same_holds _ a a' c Sm (B (c_var c) I)) as C.
  destruct p; cbn [satisfies mentions] in *.
  - rewrite <- !E by (simpl; auto). assumption.
  - rewrite <- !E, <- C by (simpl; auto). assumption.
  - rewrite <- !E, <- C by (simpl; auto). assumption.
  - rewrite <- !E by (simpl; auto). assumption.
  - rewrite <- !E by (simpl; auto). assumption.
  - rewrite Forall_forall in *. intros n I X. apply (H n I). unfold nogood_holds in *. rewrite Forall_forall in *. intros c Ic. apply C; [|now apply X].
    apply in_map. apply in_concat. eauto.
  - assert (L : forall l, In l (lits ++ [reif]) -> (lit_holds a l <-> lit_holds a' l)).
    { intros l I. destruct l as [c| |]; simpl; [|tauto|tauto]. apply C. apply in_map. apply in_flat_map. exists (LCond c). simpl. auto. }
    rewrite <- (L reif), H, !Forall_forall by (rewrite in_app_iff; simpl; auto). split; intros X l I; (apply L; [rewrite in_app_iff; auto|now apply X]).
  - assert (L : forall l, In l (lits ++ [reif]) -> (lit_holds a l <-> lit_holds a' l)).
    { intros l I. destruct l as [c| |]; simpl; [|tauto|tauto]. apply C. apply in_map. apply in_flat_map. exists (LCond c). simpl. auto. }
    rewrite <- (L reif), H, !Exists_exists by (rewrite in_app_iff; simpl; auto). split; intros (l & I & X); exists l; (split; [assumption|]); (apply L; [rewrite in_app_iff; auto|assumption]).
  - rewrite <- !E by (simpl; auto). assumption.
  - rewrite <- E by (simpl; auto). rewrite <- (map_ext_in (var_value a) (var_value a') vars) by (intros; apply E; simpl; auto). assumption.
  - rewrite <- E by (simpl; auto). rewrite <- (map_ext_in (var_value a) (var_value a') vars) by (intros; apply E; simpl; auto). assumption.
  - rewrite <- E by (simpl; auto). rewrite <- (map_ext_in (var_value a) (var_value a') vars) by (intros; apply E; simpl; auto). assumption.
  - rewrite <- !E by (rewrite in_app_iff; simpl; auto). rewrite <- (map_ext_in (var_value a) (var_value a') vars) by (intros; apply E; rewrite in_app_iff; simpl; auto). assumption.
  - rewrite <- !E by (rewrite in_app_iff; simpl; auto). rewrite <- (map_ext_in (var_value a) (var_value a') vars) by (intros; apply E; rewrite in_app_iff; simpl; auto). assumption.
  - rewrite <- (sum_local (length d) s a a') by auto. assumption.
  - rewrite <- (sum_local (length d) s a a'), <- C by (auto; intros; try apply B; rewrite in_app_iff; simpl; auto). assumption.
  - rewrite <- (sum_local (length d) s a a'), <- C by (auto; intros; try apply B; rewrite in_app_iff; simpl; auto). assumption.
  - rewrite <- (map_ext_in (var_value a) (var_value a') vars) by (intros; apply E; assumption). assumption.
  - rewrite <- (map_ext_in (var_value a) (var_value a') vars) by (intros; apply E; assumption). assumption.
  - rewrite <- (map_ext_in (var_value a) (var_value a') vars) by (intros; apply E; assumption). assumption.
  - refine (listed_local (length d) vars tuples _ a a' Sm H). apply Forall_forall. assumption.
  - destruct H as (i & v & Ei & X & R). exists i, v. rewrite <- !E by (simpl; eauto using nth_error_In). auto.
  - destruct H as (i & row & j & v & Ei & Ej & X1 & X2 & R). exists i, row, j, v.
    assert (I : In v (concat rows)) by (apply in_concat; eauto using nth_error_In). rewrite <- !E by (simpl; auto). auto.
  - intros v w Iv Iw. rewrite <- !E by assumption. now apply H.
  - intros i j v w L Ei Ej. rewrite <- !E by eauto using nth_error_In. now apply (H i j).
  - destruct H as (l & ND & M & X). exists l. split; [assumption|]. split; [|rewrite <- E by (simpl; auto); assumption]. intro x. rewrite M.
    split; intros (v & I & X'); exists v; (split; [assumption|]); [rewrite <- E by (simpl; auto)|rewrite E by (simpl; auto)]; assumption.
  - intros i j v w Ei Ej. rewrite <- !E by (apply in_or_app; simpl; eauto using nth_error_In). now apply H.
  - destruct H as (n & N & O). exists n. split; [|assumption].
    assert (L : forall l, In l lits -> (lit_holds a l <-> lit_holds a' l)).
    { intros l I. destruct l as [c| |]; simpl; [|tauto|tauto]. apply C. apply in_map. apply in_flat_map. exists (LCond c). simpl. auto. }
    clear - N L. induction N as [|l r n X N IH|l r n X N IH]; [constructor|apply this_holds|apply this_fails]; try (apply IH; intros; apply L; now right).
    + apply L; [now left|assumption].
    + intro Y. apply X, L; [now left|assumption].
  - destruct H as [H1 H2]. split; intros i x Ei; [destruct (H1 i x Ei) as (j & y & Ej & X)|destruct (H2 i x Ei) as (j & y & Ej & X)];
      exists j, y; (split; [assumption|]); rewrite <- !E by (apply in_or_app; eauto using nth_error_In); exact X.
  - intros i x Ei. destruct (H i x Ei) as (j & y & Ej & X). exists j, y. split; [assumption|]. rewrite <- !E by eauto using nth_error_In. exact X.
  - intros k s t Es Et j y Ej. rewrite <- E by eauto using nth_error_In. intro V. destruct (H k s t Es Et j y Ej V) as (i & x & L & Ei & X).
    exists i, x. rewrite <- E by eauto using nth_error_In. auto.
  - intros v Lv j y Ej. rewrite <- E by eauto using nth_error_In. intro V. destruct (H v Lv j y Ej V) as (i & x & L & Ei & X).
    exists i, x. rewrite <- E by eauto using nth_error_In. auto.
  - rewrite <- (map_ext_in (var_value a) (var_value a') xs), <- (map_ext_in (var_value a) (var_value a') ys) by (intros; apply E; rewrite in_app_iff; auto). assumption.
  - rewrite <- (map_ext_in (var_value a) (var_value a') xs), <- (map_ext_in (var_value a) (var_value a') ys), <- C by (intros; try apply E; rewrite !in_app_iff; simpl; auto). assumption.
  - rewrite <- (map_ext_in (var_value a) (var_value a') xs), <- (map_ext_in (var_value a) (var_value a') ys), <- C by (intros; try apply E; rewrite !in_app_iff; simpl; auto). assumption.
  - clear E C. revert a a' Sm H. apply reif_local.
    + intros a a' Sm <-. symmetry. apply (sum_local (length d)); [assumption|]. intros v I. apply B, in_or_app. now left.
    + apply Forall_forall. intros v I. apply B, in_or_app. now right.
  - rewrite <- !E by (simpl; auto). assumption.
  - rewrite <- !E by (simpl; auto). assumption.
  - rewrite <- !E by (simpl; auto). assumption.
  - rewrite <- (map_ext_in _ _ _ E). assumption.
  - rewrite <- (map_ext_in _ _ _ E). assumption.
  - rewrite <- (map_ext_in _ _ _ E). assumption.
  - rewrite <- (map_ext_in _ _ _ E). assumption.
  - rewrite <- !E by (simpl; auto). assumption.
  - now apply (cardinalities_ext _ _ _ _ a).
  - now apply (circuit_ext _ a).
  - now apply (circuit_ext _ a).
  - now apply (no_overlap_ext _ _ _ _ _ a).
  - apply (sorts_ext _ _ a); [|assumption]. now apply Forall_forall.
  - now apply (cardinalities_ext _ _ _ _ a).
  - now apply (arg_sorts_ext _ _ _ a).
  - now apply (KnapsackProofs.adds_up_ext _ _ _ a).
  - now apply (BinPackingProofs.packs_ext _ _ _ a).
  - refine (SmartTableProofs.some_row_local vars rows Ind (length d) _ a a' Sm H). apply Forall_forall. assumption.
  - rewrite <- (map_ext_in (var_value a) (var_value a') xs) by (intros; apply E; apply in_or_app; now left).
    rewrite <- (map_ext_in (var_value a) (var_value a') ys) by (intros; apply E; apply in_or_app; now right). assumption.
  - now apply (MinDistanceProofs.is_min_distance_ext _ _ _ _ a).
Qed.

(** ** Counting *)

Lemma counts_how_many P f (g : var_id -> Z) vars n : (forall v, In v vars -> (f v = true <-> P (g v))) -> (counts P (map g vars) n <-> n = how_many_of f vars).
Proof.
  unfold how_many_of. revert n. induction vars as [|v r IH]; intros n H; cbn [map filter].
  - split; [now inversion 1|]. intros ->. constructor.
  - pose proof (fun n => IH n (fun w I => H w (or_intror I))) as IH'. specialize (H v (or_introl eq_refl)). destruct (f v).
    + split.
      * inversion 1 as [|? ? m Px Cx|? ? ? N]; subst; [|exfalso; apply N; now apply H]. apply IH' in Cx. cbn [length]. lia.
      * intros ->. cbn [length]. replace (Z.of_nat (S (length (filter f r)))) with (Z.of_nat (length (filter f r)) + 1) by lia. constructor; [now apply H|]. now apply IH'.
    + split.
      * inversion 1 as [|? ? m Px Cx|? ? ? N Cx]; subst; [apply H in Px; discriminate|]. now apply IH' in Cx.
      * intros ->. apply counts_no; [|now apply IH']. intro X. apply H in X. discriminate.
Qed.

Lemma extremum_least vars r a : extremum true vars r a <-> least (var_value a r) (map (var_value a) vars).
Proof.
  unfold extremum, least, as_good. rewrite in_map_iff, Forall_map, Forall_forall. firstorder.
Qed.

Lemma extremum_greatest vars r a : extremum false vars r a <-> greatest (var_value a r) (map (var_value a) vars).
Proof.
  unfold extremum, greatest, as_good. rewrite in_map_iff, Forall_map, Forall_forall. firstorder.
Qed.

Lemma lits_mentioned lits reif : lits_scope lits reif = map c_var (flat_map lit_conditions (lits ++ [reif])).
Proof.
  unfold lits_scope. rewrite flat_map_app, map_app. f_equal; [|destruct reif; reflexivity].
  induction lits as [|l r IH]; [reflexivity|]. cbn [flat_map]. rewrite map_app, IH. f_equal. destruct l; reflexivity.
Qed.

Lemma lits_sane lits reif : Forall cond_sane (flat_map lit_conditions (lits ++ [reif])) -> Forall lit_sane lits /\ lit_sane reif.
Proof.
  intro H. assert (A : forall l, In l (lits ++ [reif]) -> lit_sane l).
  { intros l I. destruct l as [c| |]; simpl; auto. rewrite Forall_forall in H. apply H. apply in_flat_map. exists (LCond c). simpl. auto. }
  split; [apply Forall_forall; intros l I|]; apply A; rewrite in_app_iff; simpl; auto.
Qed.

(** ** Particular constraints in these terms *)

Lemma count_posts d0 vars v n : Forall (var_known d0) (vars ++ [v; n]) ->
  posts d0 (Some (count_constraint vars v n)) (vars ++ [v; n]) (fun a => counts (fun x => x = var_value a v) (map (var_value a) vars) (var_value a n)).
Proof.
  intro K. cbn [posts]. eapply correct_ext; [|now apply count_correct]. intro a. unfold count_sat, takes. apply counts_how_many. intros w _. apply Z.eqb_eq.
Qed.

Lemma among_posts d0 vars vs n : Forall (var_known d0) (vars ++ [n]) ->
  (forall v, In v vars -> unrelated v n) -> (forall v w, In v vars -> In w vars -> v = w \/ unrelated v w) ->
  posts d0 (Some (among_constraint vars vs n)) (vars ++ [n]) (fun a => counts (fun x => In x vs) (map (var_value a) vars) (var_value a n)).
Proof.
  intros K Un Uv. cbn [posts]. eapply correct_ext; [|now apply among_correct]. intro a. unfold among_sat, takes_any. apply counts_how_many. intros w _. apply listed_In.
Qed.

Lemma minimum_posts d0 vars r : Forall (var_known d0) (r :: vars) ->
  posts d0 (Some (array_min_max true vars r)) (r :: vars) (fun a => least (var_value a r) (map (var_value a) vars)).
Proof. intro K. cbn [posts]. eapply correct_ext; [|now apply minmax_correct]. intro a. symmetry. apply extremum_least. Qed.

Lemma maximum_posts d0 vars r : Forall (var_known d0) (r :: vars) ->
  posts d0 (Some (array_min_max false vars r)) (r :: vars) (fun a => greatest (var_value a r) (map (var_value a) vars)).
Proof. intro K. cbn [posts]. eapply correct_ext; [|now apply minmax_correct]. intro a. symmetry. apply extremum_greatest. Qed.

Lemma in_posts d0 v vars values : Forall (var_known d0) (v :: vars) ->
  posts d0 (Some (in_constraint v vars values)) (v :: vars) (fun a => In (var_value a v) (values ++ map (var_value a) vars)).
Proof.
  intro K. cbn [posts]. eapply correct_ext; [|now apply in_correct]. intro a. cbv beta. rewrite in_app_iff, in_map_iff.
  split; (intros [X|(V & X & Y)]; [left; assumption|right; exists V; auto]).
Qed.

Lemma and_posts d0 lits reif : domains_ok d0 -> well_posed d0 (Conjunction lits reif) ->
  posts d0 (Some (and_lits lits reif)) (mentions (Conjunction lits reif)) (fun a => lit_holds a reif <-> Forall (lit_holds a) lits).
Proof.
  intros Hd (K & S & _). cbn [posts mentions conditions] in *. destruct (lits_sane _ _ S) as [S1 S2]. rewrite <- lits_mentioned in K |- *. now apply and_correct.
Qed.

Lemma or_posts d0 lits reif : domains_ok d0 -> well_posed d0 (Disjunction lits reif) ->
  posts d0 (Some (or_lits lits reif)) (mentions (Disjunction lits reif)) (fun a => lit_holds a reif <-> Exists (lit_holds a) lits).
Proof.
  intros Hd (K & S & _). cbn [posts mentions conditions] in *. destruct (lits_sane _ _ S) as [S1 S2]. rewrite <- lits_mentioned in K |- *. now apply or_correct.
Qed.

Lemma parity_posts d0 lits : Forall (var_known d0) (map c_var (flat_map lit_conditions lits)) -> Forall cond_sane (flat_map lit_conditions lits) ->
  correct_on d0 (parity_odd lits) (map c_var (flat_map lit_conditions lits)) (odd_number lits).
Proof.
  intros K S. replace (map c_var (flat_map lit_conditions lits)) with (flat_map lit_scope lits).
  - apply parity_correct; apply Forall_forall; intros [c| |] I; try exact Logic.I.
    + rewrite Forall_forall in K. apply K. apply in_map, in_flat_map. exists (LCond c). simpl. auto.
    + rewrite Forall_forall in S. apply S, in_flat_map. exists (LCond c). simpl. auto.
  - clear. induction lits as [|l r IH]; [reflexivity|]. cbn [flat_map]. rewrite map_app, IH. f_equal. destruct l; reflexivity.
Qed.

Lemma known_swap d (xs ys l : list var_id) : Forall (var_known d) ((xs ++ ys) ++ l) <-> Forall (var_known d) (ys ++ xs) /\ Forall (var_known d) l.
Proof. rewrite !Forall_app. tauto. Qed.

Lemma incl_swap (xs ys l : list var_id) : incl ((ys ++ xs) ++ l) ((xs ++ ys) ++ l).
Proof. intros v. rewrite !in_app_iff. tauto. Qed.

Lemma lex_means d0 k xs ys r : domains_ok d0 -> Forall (var_known d0) ((xs ++ ys) ++ reif_scope r) -> reif_sane r ->
  means d0 (match k with LexLess => reified_lex ys xs r false | LexLessEqual => reified_lex ys xs r true | LexGreater => reified_lex xs ys r false | LexGreaterEqual => reified_lex xs ys r true end)
    ((xs ++ ys) ++ reif_scope r) (reif_sat r (fun a => lex_compares k (map (var_value a) xs) (map (var_value a) ys))).
Proof.
  intros Hd K S. assert (B : Forall (var_below (length d0)) ((xs ++ ys) ++ reif_scope r)) by now apply known_below_all.
  pose proof K as K'. apply known_swap in K'. destruct K' as [K1 K2]. assert (K1' : Forall (var_known d0) (xs ++ ys)) by now apply Forall_app in K.
  pose proof (fun o => reified_lex_means d0 ys xs r o Hd K1 K2 S) as M1. pose proof (fun o => reified_lex_means d0 xs ys r o Hd K1' K2 S) as M2.
  destruct k; (eapply means_ext; [..|first [apply M1|apply M2]]); try exact B; try first [apply incl_refl|apply incl_swap]; intro a; apply iff_refl.
Qed.

Lemma lexicographic_means d0 k xs ys : domains_ok d0 -> Forall (var_known d0) (xs ++ ys) ->
  means d0 (lexicographic k xs ys) (xs ++ ys) (fun a => lex_compares k (map (var_value a) xs) (map (var_value a) ys)).
Proof.
  intros Hd K. pose proof (lex_means d0 k xs ys RMustHold Hd) as M. cbn [reif_scope reif_cond] in M. unfold reif_scope in M. cbn [reif_cond] in M. rewrite app_nil_r in M.
  specialize (M K Logic.I). destruct k; exact M.
Qed.

Lemma lexicographic_if_means d0 k xs ys c : domains_ok d0 -> Forall (var_known d0) ((xs ++ ys) ++ [c_var c]) -> cond_sane c ->
  means d0 (lexicographic_if k xs ys c) ((xs ++ ys) ++ [c_var c]) (fun a => cond_holds a c -> lex_compares k (map (var_value a) xs) (map (var_value a) ys)).
Proof. intros Hd K S. pose proof (lex_means d0 k xs ys (RIf c) Hd K S) as M. destruct k; exact M. Qed.

Lemma lexicographic_iff_means d0 k xs ys c : domains_ok d0 -> Forall (var_known d0) ((xs ++ ys) ++ [c_var c]) -> cond_sane c ->
  means d0 (lexicographic_iff k xs ys c) ((xs ++ ys) ++ [c_var c]) (fun a => cond_holds a c <-> lex_compares k (map (var_value a) xs) (map (var_value a) ys)).
Proof. intros Hd K S. pose proof (lex_means d0 k xs ys (RIff c) Hd K S) as M. destruct k; exact M. Qed.

(** The constraints with states of their own. *)
Definition stateful (p : posted) : option installer :=
  match p with
  | Sum l a b r => Some (plus l a b r)
  | Difference l a b r => Some (minus l a b r)
  | AllDifferentVC vars => Some (all_different_vc vars)
  | AllDifferentGAC vars => Some (all_different vars)
  | AllowedTuples vars tuples => table vars tuples
  | Lexicographic k xs ys => Some (lexicographic k xs ys)
  | LexicographicIf k xs ys c => Some (lexicographic_if k xs ys c)
  | LexicographicIff k xs ys c => Some (lexicographic_iff k xs ys c)
  | LinearTabulated s value r => Some (tabulated_linear s value r)
  | Product l a b r => Some (multiply l a b r)
  | Quotient l x y q => Some (divide l x y q)
  | Remainder l x y r => Some (modulus l x y r)
  | RegularWord vars ts final => Some (regular vars ts final)
  | RegularTable vars rows final => Some (regular_table vars rows final)
  | DecisionDiagram vars layers nodes accepting => mdd vars layers nodes accepting
  | RegularExpression vars text => regular_expression vars text
  | Raised l base exponent result => Some (power l base exponent result)
  | CircuitPrevent succ => circuit_prevent succ
  | CircuitComponents o succ => circuit_scc o succ
  | ArgSorts offset xs ps => arg_sort offset xs ps
  | SmartTableOf orders vars rows => SmartTable.smart_table orders vars rows
  | LexTable orders xs ys => SmartTable.lex_smart_table orders xs ys
  | _ => None
  end.

(** Each of the simple constraints. *)
Definition plain (p : posted) : option constraint :=
  match p with
  | Compare k v1 v2 => compare k v1 v2
  | CompareIf k v1 v2 c => compare_if k v1 v2 c
  | CompareIff k v1 v2 c => compare_iff k v1 v2 c
  | Forbid ns => Some (nogoods ns false)
  | Conjunction lits reif => Some (and_lits lits reif)
  | Disjunction lits reif => Some (or_lits lits reif)
  | Absolute v1 v2 => Some (abs_constraint v1 v2)
  | OneOf v vars values => Some (in_constraint v vars values)
  | Minimum vars r => Some (array_min_max true vars r)
  | Maximum vars r => Some (array_min_max false vars r)
  | CountOf vars v n => Some (count_constraint vars v n)
  | AmongValues vars vs n => Some (among_constraint vars vs n)
  | Linear k s value => Some (linear k s value)
  | LinearIf k s value c => Some (linear_if k s value c)
  | LinearIff k s value c => Some (linear_iff k s value c)
  | AllDifferentExcept vars excluded => Some (all_different_except vars excluded)
  | ElementOf b r i s array => Some (element b r i s array)
  | ElementOf2D b r i1 i2 s1 s2 rows => element_2d b r i1 i2 s1 s2 rows
  | AllEqual vars => Some (all_equal vars)
  | Ordered strict descending vars => Some (increasing_chain vars strict descending)
  | NumberOfValues n vars => Some (n_value n vars)
  | AtMostOne vars val => Some (at_most_one vars val)
  | OddParity lits => Some (parity_odd lits)
  | InverseOf xs ys x_start y_start => inverse xs ys x_start y_start
  | SymmetricAllDifferent vars start => Some (symmetric_all_different vars start)
  | ValuesPrecede chain vars => Some (value_precede chain vars)
  | SequencePrecede vars => Some (seq_precede_chain vars)
  | Cardinality closed vars values ns => Some (global_cardinality closed vars values ns)
  | Rectangles strict xs ys ws hs => disjunctive_2d strict xs ys ws hs
  | Sorts xs ys => sort xs ys
  | CardinalityGac closed vars values ns => Some (gac_global_cardinality closed vars values ns)
  | KnapsackOf s rows items totals => knapsack s rows items totals
  | BinPackingOf level items sizes bs => bin_packing level items sizes bs
  | MinDistanceOf level xs z D R => MinDistance.min_distance level xs z D R
  | _ => None
  end.

Lemma posting_plain p : posting p = match stateful p with Some k => Some k | None => option_map simple (plain p) end.
Proof.
  destruct p; try reflexivity; cbn [posting stateful plain option_map]; [now destruct (table vars tuples)|now destruct (mdd vars layers nodes accepting)|now destruct (regular_expression vars text)|now destruct (circuit_prevent succ)|now destruct (circuit_scc o succ)|now destruct (arg_sort offset xs ps)|now destruct (SmartTable.smart_table orders vars rows)|now destruct (SmartTable.lex_smart_table orders xs ys)].
Qed.

Lemma well_posed_more (d hidden : domains) p : stateful p = None -> well_posed d p -> well_posed (d ++ hidden) p.
Proof.
  intros N (K & S & I). split; [eapply Forall_impl; [|exact K]; intros v Kv; now apply known_more|]. split; [assumption|]. destruct p; try exact I; try discriminate.
  - destruct I as [ND Two]. split; [assumption|]. intros v E. destruct vars as [|v' r]; [discriminate|]. injection E as ->. inversion_clear K as [|? ? Kv _].
    destruct (bounds_more d hidden v Kv) as [-> ->]. now apply Two.
  - destruct I as [L P]. split; [assumption|]. cbn [mentions] in K. rewrite !Forall_app in K. destruct K as (_ & _ & K). rewrite <- Forall_app in K. rewrite Forall_forall in *.
    intros v Iv. destruct (bounds_more d hidden v (K v Iv)) as [-> _]. now apply P.
  - destruct I as [L P]. split; [assumption|]. cbn [mentions] in K. unfold none_negative in *. rewrite Forall_forall in *.
    intros v Iv. destruct (bounds_more d hidden v (K v Iv)) as [-> _]. now apply P.
  - destruct I as [L P]. split; [assumption|]. cbn [mentions] in K. unfold in_bins in *. rewrite Forall_forall in *.
    intros v Iv. destruct (bounds_more d hidden v (K v (in_or_app _ _ _ (or_introl Iv)))) as [-> ->]. now apply P.
Qed.

Lemma posts_more d0 k scope scope' sat : incl scope scope' -> Forall (var_known d0) scope' -> posts d0 k scope sat -> posts d0 k scope' sat.
Proof. intros I K. destruct k as [k|]; [now apply scope_more|auto]. Qed.

Lemma plain_posts d0 p : stateful p = None -> domains_ok d0 -> well_posed d0 p -> posts d0 (plain p) (mentions p) (fun a => satisfies a p).
Proof.
  intros N Hd (K & S & Ind). destruct p as [k v1 v2|k v1 v2 c|k v1 v2 c|l a b r|l a b r|ns|lits reif|lits reif|v1 v2|v vars values|vars r|vars r|vars v n|vars vs n|k s value|k s value c|k s value c|vars|vars|vars excluded|vars tuples|b r i s array|b r i1 i2 s1 s2 rows|vars|strict descending vars|n vars|vars val|lits|xs ys x_start y_start|vars start|chain vars|vars|k xs ys|k xs ys c|k xs ys c|s value r|l a b r|l a b r|l a b r|vars ts final|vars rows final|vars layers nodes accepting|vars text|l0 base exponent result|closed vars values ns|succ|o succ|strict xs ys ws hs|xs ys|closed vars values ns|offset xs ps|s rows items totals|lev items sizes bs|orders vars rows|orders xs ys|lev xs z D R];
    try discriminate N; cbn [stateful] in N; cbn [plain mentions satisfies conditions independent posts] in *.
  - inversion K as [|? ? K1 K']; subst. inversion K' as [|? ? K2 _]; subst.
    destruct (comparison_posts d0 v1 v2 Hd K1 K2) as (A & B & C & D). destruct (equality_posts d0 v1 v2 Hd K1 K2) as (E & F).
    destruct k; cbn [compare compares]; auto; (eapply posts_more; [|exact K|eassumption]); intros v; simpl; tauto.
  - inversion K as [|? ? K1 K']; subst. inversion K' as [|? ? K2 K'']; subst. inversion K'' as [|? ? Kc _]; subst. inversion S as [|? ? Sc _]; subst.
    destruct (reified_comparison_posts d0 v1 v2 c Hd K1 K2 Kc Sc) as ((A & B & C & D) & _). destruct (reified_equality_posts d0 v1 v2 c Hd K1 K2 Kc Sc) as (E & _ & F & _).
    destruct k; cbn [compare_if compares]; auto; (eapply posts_more; [|exact K|eassumption]); intros v; simpl; tauto.
  - inversion K as [|? ? K1 K']; subst. inversion K' as [|? ? K2 K'']; subst. inversion K'' as [|? ? Kc _]; subst. inversion S as [|? ? Sc _]; subst.
    destruct (reified_comparison_posts d0 v1 v2 c Hd K1 K2 Kc Sc) as (_ & A & B & C & D). destruct (reified_equality_posts d0 v1 v2 c Hd K1 K2 Kc Sc) as (_ & E & _ & F).
    destruct k; cbn [compare_iff compares]; auto; (eapply posts_more; [|exact K|eassumption]); intros v; simpl; tauto.
  - apply scan_nogoods_correct. apply Forall_forall. intros n In_. apply Forall_forall. intros c Ic. rewrite Forall_forall in K, S.
    assert (I : In c (concat ns)) by (apply in_concat; eauto). split; [apply K; now apply in_map|now apply S].
  - apply and_posts; [assumption|]. split; [assumption|auto].
  - apply or_posts; [assumption|]. split; [assumption|auto].
  - inversion K as [|? ? K1 K']; subst. inversion K' as [|? ? K2 _]; subst. now apply abs_correct.
  - now apply in_posts.
  - now apply minimum_posts.
  - now apply maximum_posts.
  - now apply count_posts.
  - rewrite Forall_forall in Ind. apply among_posts; [assumption| |].
    + intros w I. now apply Ind.
    + intros w x I J. apply Ind in I. destruct I as [_ I]. rewrite Forall_forall in I. now apply I.
  - destruct (linear_inequalities d0 s value Hd K), (linear_equalities d0 s value Hd K). destruct k; assumption.
  - inversion S as [|? ? Sc _]; subst. destruct (linear_reified_inequalities d0 s value c Hd K Sc) as (? & ? & ? & ?), (linear_reified_equalities d0 s value c Hd K Sc) as (? & W). destruct k; try assumption. now apply W.
  - inversion S as [|? ? Sc _]; subst. destruct (linear_reified_inequalities d0 s value c Hd K Sc) as (? & ? & ? & ?), (linear_reified_equalities d0 s value c Hd K Sc) as (? & W). destruct k; try assumption; now apply W.
  - now apply except_pairs_correct.
  - exfalso. apply table_refuses in N. rewrite Forall_forall in Ind. apply Exists_exists in N. destruct N as (t & I & X). now apply X, Ind.
  - now apply element_correct.
  - destruct (element_2d b r i1 i2 s1 s2 rows) as [k|] eqn:E; [now apply (element_2d_correct d0 b)|]. exfalso. destruct Ind as (n & F).
    unfold element_2d in E. rewrite (equal_lengths rows n F) in E. discriminate.
  - destruct Ind. now apply all_equal_correct.
  - now apply increasing_correct.
  - now apply n_value_correct.
  - now apply at_most_one_correct.
  - now apply parity_posts.
  - subst y_start. now apply inverse_posts.
  - now apply symmetric_correct.
  - now apply value_precede_correct.
  - now apply seq_precede_chain_correct.
  - exfalso. destruct Ind as [_ Ind]. apply (mdd_sizes _ _ _ accepting) in Ind. destruct Ind as (k & E). congruence.
  - apply regular_expression_refused in N. intros a (r & W & _). eauto.
  - destruct Ind. now apply gcc_correct.
  - intro a. now apply circuit_prevent_refused.
  - intro a. now apply (circuit_scc_refused o).
  - destruct Ind as [(Ly & Lw & Lh) Ind]. now apply rectangles_posts.
  - now apply sort_posts.
  - destruct Ind as (ND & Srt & L). now apply gac_correct.
  - intro a. now apply arg_sort_refused_unsat.
  - destruct Ind as [A NN]. destruct (knapsack s rows items totals) as [k|] eqn:E; [now apply (KnapsackProofs.knapsack_correct d0 s)|]. exfalso. now apply KnapsackProofs.knapsack_none in E.
  - destruct Ind as [A NN]. destruct (bin_packing lev items sizes bs) as [k|] eqn:E; [now apply (BinPackingProofs.bin_packing_correct d0 lev)|]. exfalso. now apply BinPackingProofs.bin_packing_none in E.
  - exfalso. unfold SmartTable.smart_table in N. rewrite SmartTableProofs.suits_accepted in N by assumption. discriminate.
  - exfalso. destruct Ind as [Si ND]. destruct (SmartTableProofs.lex_accepted xs ys Si ND orders). congruence.
  - destruct (MinDistance.min_distance lev xs z D R) as [k|] eqn:E; [now apply (MinDistanceProofs.min_distance_correct d0 lev)|]. exfalso. now apply MinDistanceProofs.min_distance_none in E.
Qed.

Lemma stateful_means d0 p k : domains_ok d0 -> well_posed d0 p -> stateful p = Some k -> means d0 k (mentions p) (fun a => satisfies a p).
Proof.
  intros Hd (K & S & Ind) E. destruct p; try discriminate E; cbn [stateful mentions satisfies independent] in *.
  - injection E as <-. now apply plus_means.
  - injection E as <-. now apply minus_means.
  - injection E as <-. now apply all_different_vc_means.
  - injection E as <-. now apply all_different_means.
  - now apply table_means.
  - injection E as <-. now apply lexicographic_means.
  - injection E as <-. apply Forall_inv in S. now apply lexicographic_if_means.
  - injection E as <-. apply Forall_inv in S. now apply lexicographic_iff_means.
  - injection E as <-. now apply tabulated_linear_means.
  - injection E as <-. now apply multiply_means.
  - injection E as <-. now apply (division_means d0 true).
  - injection E as <-. now apply (division_means d0 false).
  - injection E as <-. now apply regular_means.
  - injection E as <-. now apply regular_table_means.
  - destruct Ind as [Ne _]. now apply (mdd_means _ _ nodes).
  - now apply regular_expression_posts.
  - injection E as <-. now apply power_means.
  - now apply circuit_prevent_means.
  - destruct Ind as [_ Ne]. now apply (circuit_scc_means d0 o).
  - now apply arg_sort_means.
  - now apply (SmartTableProofs.smart_table_means d0 orders).
  - destruct Ind as [Si ND]. now apply (SmartTableProofs.lex_smart_table_means xs ys Si ND d0 orders).
Qed.

Lemma posted_means d0 p k : domains_ok d0 -> well_posed d0 p -> posting p = Some k -> means d0 k (mentions p) (fun a => satisfies a p).
Proof.
  intros Hd W E. rewrite posting_plain in E. destruct (stateful p) as [k'|] eqn:St; [injection E as <-; now apply stateful_means|].
  pose proof (fun hidden H => plain_posts (d0 ++ hidden) p St H (well_posed_more _ _ _ St W)) as P.
  destruct (plain p) as [c|]; [|discriminate]. injection E as <-. apply simple_means; [lia|now apply satisfies_local| |exact P].
  destruct W as [K _]. eapply Forall_impl; [|exact K]. intros v Kv. now apply known_below.
Qed.

Definition meaning (p : posted) : relation := (mentions p, fun a => satisfies a p).

Lemma postings_pose d0 ps ks : domains_ok d0 -> Forall (well_posed d0) ps -> postings ps = Some ks ->
  Forall2 (fun k r => means d0 k (fst r) (snd r)) ks (map meaning ps).
Proof.
  intros Hd W. revert ks. induction W as [|p ps Wp _ IH]; intros ks E; simpl in E; [injection E as <-; constructor|].
  destruct (posting p) as [k|] eqn:Ep; [|discriminate]. destruct (postings ps) as [ks'|]; [|discriminate]. injection E as <-.
  simpl. constructor; [|now apply IH]. now apply posted_means.
Qed.

(** A problem made of modelled constraints means what it should. *)
Lemma problem_poses d ps m pb : domains_ok d -> Forall (well_posed d) ps -> problem_of d ps m = Some pb -> poses pb (map meaning ps).
Proof.
  intros Hd W E. unfold problem_of in E. destruct (postings ps) as [ks|] eqn:Ek; [|discriminate]. injection E as <-. split; [assumption|]. now apply postings_pose.
Qed.

Lemma problem_parts d ps m pb : problem_of d ps m = Some pb -> pb_domains pb = d /\ pb_minimise pb = m.
Proof. unfold problem_of. destruct (postings ps); [|discriminate]. intros [= <-]. auto. Qed.

Lemma solves_solution d ps m pb a : problem_of d ps m = Some pb -> (solution pb (map meaning ps) a <-> solves d ps a).
Proof.
  intro E. unfold solution, solves. rewrite (proj1 (problem_parts _ _ _ _ E)). rewrite Forall_map. reflexivity.
Qed.

(** A constructor that throws is only called for something unsatisfiable. *)
Lemma thrown_unsatisfiable d ps m : domains_ok d -> Forall (well_posed d) ps -> problem_of d ps m = None -> forall a, ~ solves d ps a.
Proof.
  intros Hd W E a [_ S]. unfold problem_of in E. destruct (postings ps) as [ks|] eqn:Ek; [discriminate|]. clear E.
  induction W as [|p r Wp W IH]; [discriminate|]. inversion_clear S as [|? ? Sp Sr]. simpl in Ek.
  destruct (posting p) as [k|] eqn:Ep.
  - destruct (postings r); [discriminate|]. now apply IH.
  - rewrite posting_plain in Ep. destruct (stateful p) eqn:St; [discriminate|]. pose proof (plain_posts d p St Hd Wp) as P. destruct (plain p); [discriminate|]. now apply (P a).
Qed.

Lemma lexicographic_consistent d0 cs k xs ys : domains_ok d0 -> Forall (var_known d0) (xs ++ ys) -> NoDup (underlying_list (xs ++ ys)) ->
  exists p s0, in_props (lexicographic k xs ys d0 cs) = [p] /\ in_states (lexicographic k xs ys d0 cs) = [s0] /\
  forall i s D, lives p (length cs) d0 s0 (i_domains i) s -> nth_error (i_cstates i) (length cs) = Some s ->
    apply_lits (i_domains i) (o_infer (p_run p i)) = (D, [], false) ->
    domain_consistent D (xs ++ ys) (fun a => lex_compares k (map (var_value a) xs) (map (var_value a) ys)).
Proof.
  intros Hd K N. assert (K' : Forall (var_known d0) (ys ++ xs)) by (rewrite Forall_app in *; tauto).
  assert (N' : NoDup (underlying_list (ys ++ xs))) by (eapply Permutation_NoDup; [apply underlying_list_perm, Permutation_app_comm|assumption]).
  assert (I : incl (xs ++ ys) (ys ++ xs)) by (intro v; rewrite !in_app_iff; tauto).
  destruct k.
  - destruct (lex_consistent d0 cs ys xs false Hd K' N') as (p & s0 & A & B & C). exists p, s0. split; [assumption|]. split; [assumption|].
    intros i s D L E T. eapply domain_consistent_ext; [..|exact (C i s D L E T)]; [exact I|auto].
  - destruct (lex_consistent d0 cs ys xs true Hd K' N') as (p & s0 & A & B & C). exists p, s0. split; [assumption|]. split; [assumption|].
    intros i s D L E T. eapply domain_consistent_ext; [..|exact (C i s D L E T)]; [exact I|auto].
  - exact (lex_consistent d0 cs xs ys false Hd K N).
  - exact (lex_consistent d0 cs xs ys true Hd K N).
Qed.
