(** Lemmas about Element. *)
From Coq Require Import ZArith List Bool Arith Lia.
From Verif Require Import IntervalSet IntervalSetSpec IntervalSetProofs Vars VarsSpec VarsProofs State StateSpec StateProofs Epochs
  Engine EngineSpec EngineProofs SessionSpec SessionInvProofs Tracker ContractSpec ContractProofs RunProofs ChoiceProofs GacAllDifferentProofs Equals EqualsProofs
  EqualsConsistencyProofs ConsistencySpec QuietProofs
  Element ElementSpec.
Import ListNotations.
Local Open Scope Z_scope.

Lemma nth_error_firstn' {X} k i (l : list X) : (i < k)%nat -> nth_error (firstn k l) i = nth_error l i.
Proof. revert k i. induction l as [|x l IH]; intros [|k] [|i] H; simpl; try lia; try reflexivity. apply IH. lia. Qed.

Lemma nth_error_skipn' {X} k i (l : list X) : nth_error (skipn k l) i = nth_error l (k + i).
Proof. revert l. induction k as [|k IH]; intros [|x l]; simpl; auto. now destruct i. Qed.

Lemma skipn_skipn' {X} k (l : list X) : skipn 1 (skipn k l) = skipn (S k) l.
Proof. revert l. induction k as [|k IH]; intros [|x l]; try reflexivity. exact (IH l). Qed.

Lemma unrelated_positions l i k v w : NoDup (underlying_list l) -> nth_error l i = Some v -> nth_error l k = Some w -> i <> k -> unrelated v w.
Proof. exact (underlying_unrelated 0%nat [] [] [] (track []) l i k v w). Qed.

Lemma app_inj_len {X} (a b c d : list X) : a ++ b = c ++ d -> length a = length c -> a = c /\ b = d.
Proof. revert c. induction a as [|x a IH]; intros [|y c] E L; try discriminate; [auto|]. injection E as -> E. injection L as L. destruct (IH c E L). split; congruence. Qed.

(** ** Arrays *)

(** The entry that a list of index values selects. *)
Fixpoint pick (xs starts : list Z) (arr : narray) : option var_id :=
  match xs, starts with
  | x :: xs', s :: ss => match slice x s arr with Some b => pick xs' ss b | None => None end
  | _, _ => match arr with Entry v => Some v | Slices _ => None end
  end.

Lemma cells_in choices : forall starts arr v, length starts = length choices ->
  (In v (cells choices starts arr) <-> exists xs, Forall2 (@In Z) xs choices /\ pick xs starts arr = Some v).
Proof.
  induction choices as [|c cs IH]; intros [|s ss] arr v L; try discriminate.
  - destruct arr as [w|xs]; simpl; split.
    + intros [<-|[]]. exists []. split; [constructor|reflexivity].
    + intros (xs & F & E). inversion F; subst. simpl in E. left. congruence.
    + intros [].
    + intros (ys & F & E). inversion F; subst. simpl in E. discriminate.
  - cbn [cells]. rewrite in_flat_map. injection L as L. split.
    + intros (x & Ix & H). destruct (slice x s arr) as [b|] eqn:E; [|destruct H]. apply IH in H; [|assumption]. destruct H as (xs & F & P).
      exists (x :: xs). split; [now constructor|]. simpl. now rewrite E.
    + intros (xs & F & P). inversion F as [|x c' xs' cs' Ix F']; subst. simpl in P. exists x. split; [assumption|].
      destruct (slice x s arr) as [b|]; [|discriminate]. apply IH; [assumption|]. eauto.
Qed.

(** Different choices lead to different variables. *)
Lemma underlying_flat {X} (f : X -> list var_id) l : underlying_list (flat_map f l) = flat_map (fun x => underlying_list (f x)) l.
Proof. induction l as [|x l IH]; simpl; [reflexivity|]. now rewrite underlying_list_app, IH. Qed.

Lemma NoDup_parts {X} (l1 l2 : list X) : NoDup (l1 ++ l2) -> NoDup l1 /\ NoDup l2 /\ forall x, In x l1 -> In x l2 -> False.
Proof.
  induction l1 as [|x l1 IH]; intro N; [split; [constructor|]; split; [assumption|intros ? []]|]. inversion_clear N as [|? ? Nx N']. destruct (IH N') as (A & B & C).
  split; [|split; [assumption|]].
  - constructor; [|assumption]. intro I. apply Nx, in_or_app. now left.
  - intros y [<-|I] I2; [|now apply (C y)]. apply Nx, in_or_app. now right.
Qed.

Lemma NoDup_flat {X Y} (f : X -> list Y) l x1 x2 y : NoDup (flat_map f l) -> In x1 l -> In x2 l -> In y (f x1) -> In y (f x2) -> x1 = x2.
Proof.
  induction l as [|x l IH]; intros N I1 I2 Y1 Y2; [destruct I1|]. simpl in N. apply NoDup_parts in N. destruct N as (_ & N & D).
  assert (A : forall x', In x' l -> In y (f x') -> In y (flat_map f l)) by (intros; apply in_flat_map; eauto).
  destruct I1 as [<-|I1], I2 as [<-|I2]; [reflexivity| | |auto]; exfalso; eauto.
Qed.

Lemma NoDup_flat_part {X Y} (f : X -> list Y) l x : NoDup (flat_map f l) -> In x l -> NoDup (f x).
Proof.
  induction l as [|x' l IH]; intros N I; [destruct I|]. simpl in N. apply NoDup_parts in N. destruct N as (N1 & N2 & _). destruct I as [<-|I]; auto.
Qed.

Lemma pick_injective choices : forall starts arr xs1 xs2 v n, length starts = length choices -> NoDup (underlying_list (cells choices starts arr)) ->
  underlying v = Some n -> Forall2 (@In Z) xs1 choices -> Forall2 (@In Z) xs2 choices -> pick xs1 starts arr = Some v -> pick xs2 starts arr = Some v -> xs1 = xs2.
Proof.
  induction choices as [|c cs IH]; intros [|s ss] arr xs1 xs2 v n L N U F1 F2 P1 P2; try discriminate; inversion F1 as [|x1 ? ys1 ? I1 F1']; subst; inversion F2 as [|x2 ? ys2 ? I2 F2']; subst; [reflexivity|].
  cbn [cells] in N. rewrite underlying_flat in N. cbn [pick] in P1, P2. injection L as L.
  destruct (slice x1 s arr) as [b1|] eqn:E1; [|discriminate]. destruct (slice x2 s arr) as [b2|] eqn:E2; [|discriminate].
  assert (C1 : In v (cells cs ss b1)) by (apply cells_in; eauto). assert (C2 : In v (cells cs ss b2)) by (apply cells_in; eauto).
  assert (x1 = x2) as <-.
  { apply (NoDup_flat _ _ x1 x2 n N I1 I2); [rewrite E1|rewrite E2]; apply in_underlying_list; eauto. }
  f_equal. assert (b2 = b1) as -> by congruence. apply (NoDup_flat_part _ _ x1) in N; [|assumption]. cbv beta in N. rewrite E1 in N. apply (IH ss b1 ys1 ys2 v n); auto.
Qed.

(** Every path has as many steps as there are dimensions, and what is found at each
    step is as long as the first of its kind. *)
Fixpoint regular (sizes : list nat) (arr : narray) : Prop :=
  match sizes, arr with
  | [], Entry _ => True
  | n :: ss, Slices xs => length xs = n /\ Forall (regular ss) xs
  | _, _ => False
  end.

Lemma dimension_size_regular sizes : forall arr k, regular sizes arr -> (forall j, (j < k)%nat -> nth j sizes 0%nat <> 0%nat) ->
  (k < length sizes)%nat -> dimension_size k arr = nth k sizes 0%nat.
Proof.
  induction sizes as [|n ss IH]; intros arr k R N Lk; [simpl in Lk; lia|]. destruct arr as [w|xs]; [destruct R|]. destruct R as [Ln F].
  destruct k as [|k]; [exact Ln|]. simpl. destruct xs as [|b r]; [exfalso; apply (N 0%nat); [lia|exact (eq_sym Ln)]|].
  inversion_clear F as [|? ? Rb _]. apply IH; auto; [|simpl in Lk; lia]. intros j Lj. apply (N (S j)). lia.
Qed.

Lemma slice_spec x s arr b : slice x s arr = Some b <-> exists xs i, arr = Slices xs /\ nth_error xs i = Some b /\ x = s + Z.of_nat i.
Proof.
  destruct arr as [w|xs]; simpl; [split; [discriminate|intros (xs & i & E & _); discriminate]|]. destruct (Z.ltb_spec x s); split.
  - discriminate.
  - intros (ys & i & _ & _ & E). lia.
  - intro E. exists xs, (Z.to_nat (x - s)). repeat split; auto. lia.
  - intros (ys & i & [= <-] & E & ->). replace (Z.to_nat (s + Z.of_nat i - s)) with i by lia. assumption.
Qed.

(** Everything that can be selected is among all the entries. *)
Lemma pick_all sizes : forall arr xs starts v, regular sizes arr -> length starts = length sizes -> length xs = length sizes ->
  pick xs starts arr = Some v -> exists ys, Forall2 (fun y n => In y (zrange 0 (Z.of_nat n - 1))) ys sizes /\ pick ys (repeat 0 (length sizes)) arr = Some v /\
    Forall2 (fun x p => x = fst p + snd p) xs (combine starts ys).
Proof.
  induction sizes as [|n ss IH]; intros arr xs starts v R Ls Lx P; destruct starts as [|s starts]; try discriminate; destruct xs as [|x xs]; try discriminate.
  - exists []. split; [constructor|]. split; [exact P|constructor].
  - simpl in P. destruct (slice x s arr) as [b|] eqn:E; [|discriminate]. apply slice_spec in E. destruct E as (bs & i & -> & Ei & ->).
    destruct R as [Ln F]. injection Ls as Ls. injection Lx as Lx. pose proof (proj1 (Forall_forall _ _) F _ (nth_error_In _ _ Ei)) as Rb.
    destruct (IH b xs starts v Rb Ls Lx P) as (ys & Fy & Py & Fx). exists (Z.of_nat i :: ys).
    assert (Li : (i < length bs)%nat) by (apply nth_error_Some; congruence).
    split; [|split].
    + constructor; [|assumption]. apply zrange_In. lia.
    + cbn [length repeat pick]. assert (Es : slice (Z.of_nat i) 0 (Slices bs) = Some b) by (apply slice_spec; exists bs, i; auto). now rewrite Es.
    + constructor; [reflexivity|assumption].
Qed.

(** ... and they can all be selected. *)
Lemma in_all_cells sizes arr v : regular sizes arr -> Forall (fun n => n <> 0%nat) sizes ->
  (In v (all_cells (length sizes) arr) <-> exists ys, Forall2 (fun y n => In y (zrange 0 (Z.of_nat n - 1))) ys sizes /\ pick ys (repeat 0 (length sizes)) arr = Some v).
Proof.
  intros R N. unfold all_cells.
  assert (E : map (fun k => zrange 0 (Z.of_nat (dimension_size k arr) - 1)) (seq 0 (length sizes)) = map (fun n => zrange 0 (Z.of_nat n - 1)) sizes).
  { assert (X : map (fun k => dimension_size k arr) (seq 0 (length sizes)) = sizes).
    { apply (nth_ext _ _ 0%nat 0%nat); [now rewrite map_length, seq_length|]. rewrite map_length, seq_length. intros k Lk.
      rewrite nth_indep with (d' := dimension_size 0 arr) by now rewrite map_length, seq_length. rewrite map_nth with (f := fun k => dimension_size k arr), seq_nth by assumption.
      simpl. apply dimension_size_regular; auto. intros j Lj. rewrite Forall_forall in N. apply N, nth_In. lia. }
    rewrite <- X at 2. now rewrite map_map. }
  rewrite E, cells_in by now rewrite repeat_length, map_length. clear. split; intros (ys & F & P); exists ys; (split; [|exact P]); clear P.
  - remember (map _ sizes) as cs eqn:Ec. revert sizes Ec. induction F as [|y c ys cs Iy _ IH]; intros [|n sizes] Ec; try discriminate; constructor.
    + injection Ec as -> _. exact Iy.
    + injection Ec as _ ->. auto.
  - induction F; simpl; constructor; auto.
Qed.

(** ** Reading the array *)

Lemma fixed_members d v : domains_ok d -> var_known d v -> (fixed d v <-> exists x, forall z, view_member d v z -> z = x).
Proof.
  intros Hd Kv. split.
  - intros (x & F). exists x. intros z M. apply view_member_iff in M; auto. destruct M as (a & Wa & <-). auto.
  - intros (x & F). exists x. intros a Wa. apply F, view_member_iff; eauto.
Qed.

Lemma single_fixed d v : domains_ok d -> var_known d v -> (has_single_value d v = true <-> fixed d v).
Proof.
  intros Hd Kv. rewrite has_single_value_spec by assumption. split.
  - intro E. exists (lower_bound d v). intros a Wa. pose proof (value_bounds d v a Hd Kv Wa). lia.
  - intro F. destruct (within_exists d Hd) as (a & Wa). destruct (fixed_bounds d v a Hd Kv F Wa). congruence.
Qed.

(** The choices that leave out one position. *)
Definition choice (d : domains) (k : nat) (x : Z) (i : nat) (v : var_id) : list Z := if Nat.eqb i k then [x] else each_value d v.

Lemma choices_from d k x indices : forall s, map (fun '(i, v) => if Nat.eqb i k then [x] else each_value d v) (combine (seq s (length indices)) indices) =
  map (fun i => choice d k x (s + i) (nth i indices (VConst 0))) (seq 0 (length indices)).
Proof.
  induction indices as [|v r IH]; intro s; [reflexivity|]. cbn [length seq combine map]. rewrite IH. f_equal.
  - unfold choice. now rewrite Nat.add_0_r.
  - rewrite <- seq_shift, map_map. apply map_ext. intro i. now rewrite Nat.add_succ_r.
Qed.

Lemma Forall2_nth {X Y} (R : X -> Y -> Prop) xs ys dx dy : Forall2 R xs ys <-> length xs = length ys /\ forall i, (i < length xs)%nat -> R (nth i xs dx) (nth i ys dy).
Proof.
  split.
  - intro F. split; [induction F; simpl; congruence|]. induction F as [|x y xs ys Rxy _ IH]; intros [|i] Li; simpl in *; try lia; auto. apply IH. lia.
  - revert ys. induction xs as [|x xs IH]; intros [|y ys] [L H]; try discriminate; constructor.
    + apply (H 0%nat). simpl. lia.
    + apply IH. split; [now injection L|]. intros i Li. apply (H (S i)). simpl. lia.
Qed.

Lemma choices_with_length d indices k x : length (choices_with d indices k x) = length indices.
Proof. unfold choices_with. now rewrite choices_from, map_length, seq_length. Qed.

Lemma in_choices d indices k x xs : Forall2 (@In Z) xs (choices_with d indices k x) <->
  length xs = length indices /\ forall i, (i < length indices)%nat -> In (nth i xs 0) (choice d k x i (nth i indices (VConst 0))).
Proof.
  unfold choices_with. rewrite choices_from, (Forall2_nth _ _ _ 0 []), map_length, seq_length. split; intros [L H]; (split; [assumption|]); intros i Li.
  - specialize (H i). rewrite L in H. specialize (H Li). rewrite nth_indep with (d' := choice d k x 0 (nth 0%nat indices (VConst 0))) in H by now rewrite map_length, seq_length.
    rewrite map_nth with (f := fun i => choice d k x i (nth i indices (VConst 0))), seq_nth in H by assumption. exact H.
  - rewrite L in Li. rewrite nth_indep with (d' := choice d k x 0 (nth 0%nat indices (VConst 0))) by now rewrite map_length, seq_length.
    rewrite map_nth with (f := fun i => choice d k x i (nth i indices (VConst 0))), seq_nth by assumption. auto.
Qed.

Lemma nth_values a indices i : nth i (map (var_value a) indices) 0 = var_value a (nth i indices (VConst 0)).
Proof. change 0 with (var_value a (VConst 0)). apply map_nth. Qed.

Lemma singles_in (a : assignment) xs l : Forall2 (@In Z) xs (map (fun v => [var_value a v]) l) -> xs = map (var_value a) l.
Proof.
  revert xs. induction l as [|v l IH]; intros xs F; inversion F as [|x y xs' ys Ix F']; subst; [reflexivity|]. simpl. f_equal; [|auto].
  destruct Ix as [->|[]]; reflexivity.
Qed.

Section Element.
Variable result : var_id.
Variable indices : list var_id.
Variable starts : list Z.
Variable sizes : list nat.
Variable arr : narray.
Hypothesis Li : length indices = length sizes.
Hypothesis Ls : length starts = length sizes.
Hypothesis Reg : regular sizes arr.

(** The constraint. *)
Definition selects (a : assignment) : Prop :=
  exists v, pick (map (var_value a) indices) starts arr = Some v /\ var_value a result = var_value a v.

Let vars := all_cells (length indices) arr.

Section Nonempty.
Hypothesis Nz : Forall (fun n => n <> 0%nat) sizes.

Lemma picked_listed xs v : length xs = length sizes -> pick xs starts arr = Some v -> In v vars.
Proof.
  intros Lx P. destruct (pick_all sizes arr xs starts v Reg Ls Lx P) as (ys & F & Py & _). unfold vars. rewrite Li. apply (in_all_cells sizes); eauto.
Qed.

Lemma in_cells choices v : length choices = length indices -> (In v (cells choices starts arr) <-> exists xs, Forall2 (@In Z) xs choices /\ pick xs starts arr = Some v).
Proof. intro L. apply cells_in. congruence. Qed.

Lemma cells_listed choices v : length choices = length indices -> In v (cells choices starts arr) -> In v vars.
Proof.
  intros L I. apply in_cells in I; [|assumption]. destruct I as (xs & F & P). apply picked_listed in P; [assumption|].
  rewrite (Forall2_nth _ _ _ 0 []) in F. destruct F as [F _]. congruence.
Qed.

Section State.
Variable d : domains.
Hypothesis Hd : domains_ok d.
Hypothesis Kr : var_known d result.
Hypothesis Ki : Forall (var_known d) indices.
Hypothesis Kv : Forall (var_known d) vars.

Lemma index_known i : (i < length indices)%nat -> var_known d (nth i indices (VConst 0)).
Proof. intro Hi. rewrite Forall_forall in Ki. apply Ki, nth_In. assumption. Qed.

(** What an assignment selects is considered. *)
Lemma selected_considered a v k : within a d -> pick (map (var_value a) indices) starts arr = Some v ->
  In v (cells (choices_with d indices k (var_value a (nth k indices (VConst 0)))) starts arr).
Proof.
  intros Wa P. apply in_cells; [apply choices_with_length|]. exists (map (var_value a) indices). split; [|assumption]. apply in_choices. rewrite map_length.
  split; [reflexivity|]. intros i Hi. rewrite nth_values. unfold choice. destruct (Nat.eqb_spec i k) as [->|_]; [now left|].
  apply value_listed; auto. now apply index_known.
Qed.

Lemma selected_anywhere a v : within a d -> pick (map (var_value a) indices) starts arr = Some v -> In v (cells (map (each_value d) indices) starts arr).
Proof.
  intros Wa P. apply in_cells; [apply map_length|]. exists (map (var_value a) indices). split; [|assumption].
  clear - Wa Ki Hd. induction Ki; simpl; constructor; auto. now apply value_listed.
Qed.

Lemma selected_known a v : pick (map (var_value a) indices) starts arr = Some v -> var_known d v.
Proof. intro P. rewrite Forall_forall in Kv. apply Kv, (picked_listed (map (var_value a) indices)); auto. now rewrite map_length. Qed.

Lemma selects_supported a k : within a d -> selects a -> index_supported result indices starts arr k d (var_value a (nth k indices (VConst 0))) = true.
Proof.
  intros Wa (v & P & E). apply existsb_exists. exists v. split; [now apply selected_considered|]. apply domains_intersect_spec; auto; [now apply (selected_known a)|].
  exists (var_value a v). split; [|rewrite <- E]; apply value_possible; auto. now apply (selected_known a).
Qed.

(** When everything else is fixed, support means the constraint holds. *)
Lemma supported_selects a k : within a d -> (k < length indices)%nat -> fixed d result -> Forall (fixed d) vars ->
  (forall i, (i < length indices)%nat -> i <> k -> fixed d (nth i indices (VConst 0))) ->
  index_supported result indices starts arr k d (var_value a (nth k indices (VConst 0))) = true -> selects a.
Proof.
  intros Wa Hk Fr Fv Fi S. apply existsb_exists in S. destruct S as (v & Iv & X). assert (Lv : In v vars) by (eapply cells_listed; [apply choices_with_length|eassumption]).
  apply in_cells in Iv; [|apply choices_with_length]. destruct Iv as (xs & F & P). apply in_choices in F. destruct F as [Lx F].
  assert (Kvv : var_known d v) by (rewrite Forall_forall in Kv; auto).
  assert (xs = map (var_value a) indices) as ->.
  { apply (nth_ext _ _ 0 0); [now rewrite map_length|]. rewrite Lx. intros i Hi. rewrite nth_values. specialize (F i Hi). unfold choice in F.
    destruct (Nat.eqb_spec i k) as [Eik|N]; [rewrite Eik in *; destruct F as [F|[]]; now symmetry|]. rewrite (fixed_each_value d _ a) in F; auto using index_known. destruct F as [F|[]]. now symmetry. }
  exists v. split; [assumption|]. apply domains_intersect_spec in X; auto. destruct X as (z & M1 & M2).
  apply (fixed_only d v a) in M1; auto; [|rewrite Forall_forall in Fv; auto]. apply (fixed_only d result a) in M2; auto. congruence.
Qed.
End State.

(** ** The propagators infer only what follows *)

Section Run.
Variable nv : nat.
Variable d : domains.
Hypothesis Hd : domains_ok d.
Hypothesis Ld : length d = nv.
Hypothesis Br : var_below nv result.
Hypothesis Bi : Forall (var_below nv) indices.
Hypothesis Bv : Forall (var_below nv) vars.

Lemma known_at d' : length d' = nv -> var_known d' result /\ Forall (var_known d') indices /\ Forall (var_known d') vars.
Proof.
  intro L. split; [now apply (var_below_known nv)|]. split; eapply Forall_impl; [|exact Bi| |exact Bv]; intros v Hv; now apply (var_below_known nv).
Qed.

Lemma index_below i : (i < length indices)%nat -> var_below nv (nth i indices (VConst 0)).
Proof. intro Hi. rewrite Forall_forall in Bi. apply Bi, nth_In. assumption. Qed.

Lemma index_honest al k : (k < length indices)%nat -> honest nv d selects (fst (element_index result indices starts arr al k d)).
Proof.
  intro Hk. apply honest_for_each; [|apply honest_track]. intros x t _ H. destruct (index_supported _ _ _ _ k (t_domains t) x) eqn:S; [assumption|].
  apply honest_tell; auto; [now apply index_below|]. intros F Ht Lt a Wa Wt Sa E. simpl in E. destruct (known_at _ Lt) as (K1 & K2 & K3).
  rewrite <- E, (selects_supported (t_domains t) Ht K1 K2 K3 a k Wt Sa) in S. discriminate.
Qed.

(** The bounds found include every value that is supported. *)
Definition covers (r : Z) (found : option Z * option Z) : Prop := exists l h, found = (Some l, Some h) /\ l <= r <= h.

Lemma meet_covers r v found : covers r found -> covers r (meet_bounds d (lower_bound d result) (upper_bound d result) found v).
Proof.
  intros (l & h & -> & B). unfold meet_bounds. destruct ((l <=? lower_bound d result) && (upper_bound d result <=? h)); [exists l, h; auto|].
  destruct (bounds d v) as [lv hv]. destruct ((lv <=? upper_bound d result) && (lower_bound d result <=? hv)); [|exists l, h; auto].
  exists (Z.min l lv), (Z.max h hv). split; [reflexivity|lia].
Qed.

Lemma meet_found r v found : lower_bound d result <= r <= upper_bound d result -> lower_bound d v <= r <= upper_bound d v ->
  covers r (meet_bounds d (lower_bound d result) (upper_bound d result) found v).
Proof.
  intros R B. destruct found as [lo hi]. unfold meet_bounds. rewrite bounds_spec.
  assert (X : (lower_bound d v <=? upper_bound d result) && (lower_bound d result <=? upper_bound d v) = true).
  { apply andb_true_iff. split; apply Z.leb_le; lia. }
  rewrite X. destruct lo as [l|], hi as [h|].
  - destruct ((l <=? lower_bound d result) && (upper_bound d result <=? h)) eqn:E.
    + apply andb_true_iff in E. destruct E as [E1 E2]. apply Z.leb_le in E1, E2. exists l, h. split; [reflexivity|lia].
    + eexists _, _. split; [reflexivity|lia].
  - eexists _, _. split; [reflexivity|lia].
  - eexists _, _. split; [reflexivity|lia].
  - eexists _, _. split; [reflexivity|lia].
Qed.

Lemma fold_covers r v cs : lower_bound d result <= r <= upper_bound d result -> lower_bound d v <= r <= upper_bound d v -> In v cs ->
  forall found, covers r (fold_left (meet_bounds d (lower_bound d result) (upper_bound d result)) cs found).
Proof.
  intros R B. induction cs as [|c cs IH]; intros I found; [destruct I|]. simpl. destruct I as [<-|I]; [|auto].
  assert (C : covers r (meet_bounds d (lower_bound d result) (upper_bound d result) found c)) by now apply meet_found.
  revert C. generalize (meet_bounds d (lower_bound d result) (upper_bound d result) found c). clear IH; induction cs as [|c' cs IH]; intros f C; [exact C|]. simpl. apply IH. now apply meet_covers.
Qed.

Lemma bounds_honest : honest nv d selects (fst (element_result_bounds result indices starts arr d)).
Proof.
  unfold element_result_bounds. rewrite bounds_spec. destruct (known_at d Ld) as (K1 & K2 & K3).
  set (found := fold_left _ _ _).
  assert (C : forall a, within a d -> selects a -> covers (var_value a result) found).
  { intros a Wa (v & P & E). apply (fold_covers _ v); [now apply value_bounds| |now apply (selected_anywhere d Hd K2 a)].
    rewrite E. apply value_bounds; auto. now apply (selected_known d K3 a). }
  clearbody found. destruct found as [lo hi]. cbn [fst].
  set (t1 := match lo with Some l => _ | None => _ end).
  assert (H1 : honest nv d selects t1).
  { unfold t1. destruct lo as [l|]; [|apply honest_track]. destruct (lower_bound d result <? l); [|apply honest_track].
    apply honest_tell; auto; [apply honest_track|]. intros _ _ _ a Wa _ Sa. destruct (C a Wa Sa) as (l1 & h1 & E1 & B). injection E1 as -> ->. unfold lit_holds, cond_holds; cbn. lia. }
  destruct hi as [h|]; [|exact H1]. destruct (h <? upper_bound d result); [|exact H1].
  apply honest_tell; auto. intros _ _ _ a Wa _ Sa. destruct (C a Wa Sa) as (l' & h' & [= -> ->] & B). unfold lit_holds, cond_holds; cbn. lia.
Qed.

(** What is erased is exactly a domain. *)
Lemma erase_values_spec s v : well_formed s -> var_known d v -> represents (erase_values d s v) (fun w => member w s /\ ~ view_member d v w).
Proof.
  intros Ws Kv'. unfold erase_values. rewrite bounds_spec. destruct (Z.eqb_spec (domain_size d v) (upper_bound d v - lower_bound d v + 1)) as [E|_].
  - destruct (erase_range_spec (lower_bound d v) (upper_bound d v) s Ws) as [W M]. split; [assumption|]. intro w. rewrite M.
    assert (X : view_member d v w <-> lower_bound d v <= w <= upper_bound d v); [|tauto].
    destruct (lower_bound_spec d v Hd Kv') as [_ Lo]. destruct (upper_bound_spec d v Hd Kv') as [_ Hi]. split; [auto|].
    intro B. apply each_value_In; auto. assert (I : incl (zrange (lower_bound d v) (upper_bound d v)) (each_value d v)).
    { apply NoDup_length_incl.
      - now apply each_value_NoDup.
      - apply Nat2Z.inj_le. rewrite (each_value_length d v Hd Kv'), E; unfold zrange; rewrite zseq_length. destruct (lower_bound_spec d v Hd Kv') as [Lm _]. apply Hi in Lm. lia.
      - intros x Ix. apply zrange_In. apply each_value_In in Ix; auto. }
    apply I, zrange_In. assumption.
  - assert (X : forall xs s, well_formed s -> represents (fold_left (fun s x => erase x s) xs s) (fun w => member w s /\ ~ In w xs)).
    { clear. induction xs as [|x xs IH]; intros s Ws; simpl; [split; [assumption|tauto]|].
      destruct (erase_spec x s Ws) as [W M]. destruct (IH _ W) as [W' M']. split; [assumption|]. intro w. rewrite M', M. intuition. }
    destruct (X (each_value d v) s Ws) as [W M]. split; [assumption|]. intro w. rewrite M, each_value_In by assumption. tauto.
Qed.

Lemma erase_all_spec cs : forall s, well_formed s -> Forall (var_known d) cs ->
  represents (fold_left (erase_values d) cs s) (fun w => member w s /\ forall v, In v cs -> ~ view_member d v w).
Proof.
  induction cs as [|c cs IH]; intros s Ws K; simpl; [split; [assumption|firstorder]|]. apply Forall_cons_iff in K. destruct K as [Kc K].
  destruct (erase_values_spec s c Ws Kc) as [W M]. destruct (IH _ W K) as [W' M']. split; [assumption|]. intro w. rewrite M', M. split.
  - intros [[A B] C]. split; [assumption|]. intros v [<-|I]; auto.
  - intros [A B]. repeat split; auto.
Qed.

Lemma cells_known choices : length choices = length indices -> Forall (var_known d) (cells choices starts arr).
Proof.
  intro L. apply Forall_forall. intros v Iv. destruct (known_at d Ld) as (_ & _ & K3). rewrite Forall_forall in K3. apply K3. now apply (cells_listed choices).
Qed.

Lemma unsupported_spec x : member x (fold_left (erase_values d) (cells (map (each_value d) indices) starts arr) (copy_of_values d result)) <->
  view_member d result x /\ forall v, In v (cells (map (each_value d) indices) starts arr) -> ~ view_member d v x.
Proof.
  destruct (known_at d Ld) as (K1 & _). destruct (copy_of_values_spec d result Hd K1) as [W M].
  destruct (erase_all_spec (cells (map (each_value d) indices) starts arr) _ W (cells_known (map (each_value d) indices) (map_length _ _))) as [_ M'].
  now rewrite M', M.
Qed.

Lemma result_honest al : honest nv d selects (fst (element_result result indices starts arr al d)).
Proof.
  apply honest_for_each; [|apply honest_track]. intros x t Ix H. apply honest_tell; auto. intros _ _ _ a Wa _ (v & P & E) X. simpl in X.
  apply each_In, unsupported_spec in Ix. destruct Ix as [_ N]. destruct (known_at d Ld) as (K1 & K2 & K3).
  apply (N v); [now apply (selected_anywhere d Hd K2 a)|]. rewrite <- X, E. apply value_possible; auto. now apply (selected_known d K3 a).
Qed.

Lemma each_fixed a : within a d -> forallb (has_single_value d) indices = true -> map (each_value d) indices = map (fun v => [var_value a v]) indices.
Proof.
  intros Wa F. destruct (known_at d Ld) as (_ & K2 & _). rewrite forallb_forall in F. rewrite Forall_forall in K2. apply map_ext_in. intros v Iv.
  apply fixed_each_value; auto. apply single_fixed; auto.
Qed.

Lemma equality_honest al : honest nv d selects (fst (element_equality result indices starts arr al d)).
Proof.
  unfold element_equality. destruct (forallb _ indices) eqn:F; [|apply honest_track].
  destruct (cells (map (each_value d) indices) starts arr) as [|v cs] eqn:C; [apply honest_track|]. cbn [fst].
  assert (Iv : In v (cells (map (each_value d) indices) starts arr)) by (rewrite C; now left).
  assert (Bvv : var_below nv v).
  { rewrite Forall_forall in Bv. apply Bv. apply (cells_listed (map (each_value d) indices)); auto. apply map_length. }
  split; [now apply equality_legit|]. intros a Wa (w & P & E). apply (equality_sound nv); auto. unfold eq_rel.
  rewrite (each_fixed a Wa F) in Iv. apply in_cells in Iv; [|now rewrite map_length]. destruct Iv as (xs & Fx & Px). apply singles_in in Fx. subst xs. congruence.
Qed.

(** ** The propagator of the first index checks the constraint *)

Lemma index_later k x t : (k < length indices)%nat -> later nv d t (if index_supported result indices starts arr k (t_domains t) x then t else tell_ne (nth k indices (VConst 0)) x t).
Proof. intro Hk. destruct (index_supported _ _ _ _ _ _ _); [apply later_refl|]. apply later_tell; auto. now apply index_below. Qed.

Lemma index_checks al k a : (k < length indices)%nat -> fixed d result -> Forall (fixed d) vars ->
  (forall i, (i < length indices)%nat -> i <> k -> fixed d (nth i indices (VConst 0))) ->
  live nv d (fst (element_index result indices starts arr al k d)) a -> selects a.
Proof.
  intros Hk Fr Fv Fi Lv. destruct (known_at d Ld) as (K1 & K2 & K3).
  assert (Wa : within a d) by now apply (live_within nv d Hd Ld _ a Lv).
  unfold element_index in Lv. cbn [fst] in Lv.
  apply (for_each_later nv d (fun x => var_value a (nth k indices (VConst 0)) = x -> selects a)) in Lv;
    [destruct Lv as [_ F]|intros x t _; now apply index_later| |apply legit_track].
  - rewrite Forall_forall in F. apply (F (var_value a (nth k indices (VConst 0)))); [|reflexivity]. apply value_listed; auto. now apply index_known.
  - intros x t Ix Gt L1 L2 E. destruct (index_supported result indices starts arr k (t_domains t) x) eqn:S.
    + destruct (known_at _ (live_length nv d Hd Ld t a L2)) as (T1 & T2 & T3). subst x.
      apply (supported_selects (t_domains t) (live_ok nv d Hd Ld t a L2) T1 T2 T3 a k (proj2 (proj2 L2)) Hk); auto.
      * now apply (live_fixed nv d Hd Ld t a).
      * eapply Forall_impl; [|exact Fv]. intros v. now apply (live_fixed nv d Hd Ld t a).
      * intros i Hi N. apply (live_fixed nv d Hd Ld t a); auto.
    + apply (tell_back nv d Hd Ld) in L1; auto; [|now apply index_below]. destruct L1 as [_ N]. now elim N.
Qed.

(** It writes to nothing but its own index. *)
Lemma index_elsewhere al k w z : (k < length indices)%nat -> unrelated w (nth k indices (VConst 0)) ->
  (view_member (t_domains (fst (element_index result indices starts arr al k d))) w z <-> view_member d w z).
Proof.
  intros Hk U. unfold element_index. cbn [fst].
  assert (X : legit nv d (for_each (each_value d (nth k indices (VConst 0)))
    (fun x t => if index_supported result indices starts arr k (t_domains t) x then t else tell_ne (nth k indices (VConst 0)) x t) (track d)) /\
    (view_member (t_domains (for_each (each_value d (nth k indices (VConst 0)))
    (fun x t => if index_supported result indices starts arr k (t_domains t) x then t else tell_ne (nth k indices (VConst 0)) x t) (track d))) w z <-> view_member d w z)); [|exact (proj2 X)].
  apply for_each_ind with (P := fun t => legit nv d t /\ (view_member (t_domains t) w z <-> view_member d w z)); [|split; [apply legit_track|reflexivity]].
  intros x t _ [G E]. split; [now apply index_later|]. destruct (index_supported _ _ _ _ _ _ _); [assumption|]. rewrite <- E.
  apply (tell_elsewhere nv d Hd Ld); auto. now apply index_below.
Qed.

Lemma index_legit al k : (k < length indices)%nat -> legit nv d (fst (element_index result indices starts arr al k d)).
Proof. intro Hk. now apply (index_honest al k). Qed.

Lemma fixed_elsewhere al k w : (k < length indices)%nat -> var_below nv w -> t_failed (fst (element_index result indices starts arr al k d)) = false ->
  unrelated w (nth k indices (VConst 0)) -> fixed (t_domains (fst (element_index result indices starts arr al k d))) w -> fixed d w.
Proof.
  intros Hk Bw Nf U F. pose proof (index_legit al k Hk) as G.
  pose proof (legit_ok nv d Hd Ld _ G Nf) as Ho. pose proof (legit_length nv d Hd Ld _ G) as Lo.
  apply fixed_members in F; auto; [|now apply (var_below_known nv)]. destruct F as (x & F). apply fixed_members; auto; [now apply (var_below_known nv)|].
  exists x. intros z M. apply F. now apply index_elsewhere.
Qed.
End Run.

Lemma sizes_seen : map (fun k => dimension_size k arr) (seq 0 (length indices)) = sizes.
Proof.
  rewrite Li. apply (nth_ext _ _ 0%nat 0%nat); [now rewrite map_length, seq_length|]. rewrite map_length, seq_length. intros k Lk.
  rewrite nth_indep with (d' := dimension_size 0 arr) by now rewrite map_length, seq_length. rewrite map_nth with (f := fun k => dimension_size k arr), seq_nth by assumption.
  simpl. apply dimension_size_regular; auto. intros j Lj. rewrite Forall_forall in Nz. apply Nz, nth_In. lia.
Qed.

(** What is selected is in range. *)
Lemma selects_range a v s n : selects a -> In (v, (s, n)) (index_ranges indices starts arr) -> In v indices /\ s <= var_value a v <= s + n - 1.
Proof.
  intros (w & P & _) I. unfold index_ranges in I. rewrite <- map_map with (f := fun k => dimension_size k arr) (g := Z.of_nat), sizes_seen in I.
  destruct (pick_all sizes arr _ starts w Reg Ls (eq_trans (map_length _ _) Li) P) as (ys & F & _ & X). clear P Reg Nz vars arr. revert starts ys F X I Li Ls.
  generalize sizes as ss. induction indices as [|u us IH]; intros [|m ss] [|s' sts] ys F X I L1 L2; try discriminate; try (now destruct I).
  inversion F as [|y m' ys' ss' Iy F']; subst. inversion X as [|? ? ? ? Ex X']; subst. simpl in Ex. cbn [map combine] in I. destruct I as [E|I].
  - injection E as E1 E2 E3. subst v s n. split; [now left|]. apply zrange_In in Iy. lia.
  - destruct (IH ss sts ys' F' X' I) as [A B]; [now injection L1|now injection L2|]. split; [now right|assumption].
Qed.

Lemma ranges_sound d0 : Forall (var_known d0) indices ->
  Forall (sound_start d0 selects) (flat_map (fun '(v, (s, n)) => define_lower d0 v s ++ define_upper d0 v (s + n - 1)) (index_ranges indices starts arr)).
Proof.
  intro K. apply Forall_forall. intros i I. apply in_flat_map in I. destruct I as ((v & (s & n)) & Ir & I).
  assert (Kv : In v indices). { unfold index_ranges in Ir. now apply in_combine_l in Ir. }
  assert (R : forall a, selects a -> s <= var_value a v <= s + n - 1). { intros a Sa. now apply (selects_range a v s n). }
  assert (Bv : forall nv, (length d0 <= nv)%nat -> var_below nv v). { intros nv Ln. rewrite Forall_forall in K. apply (known_below_more d0); auto. }
  apply in_app_or in I. destruct I as [I|I].
  - unfold define_lower in I. destruct (s <=? lower_bound d0 v); [destruct I|]. destruct I as [<-|[]]. eexists. split; [reflexivity|].
    intros nv d Ln Hd Ld _. apply honest_tell; auto; [now apply Bv|apply honest_track|]. intros _ _ _ a _ _ Sa. apply R in Sa. unfold lit_holds, cond_holds; cbn. lia.
  - unfold define_upper in I. destruct (upper_bound d0 v <=? s + n - 1); [destruct I|]. destruct I as [<-|[]]. eexists. split; [reflexivity|].
    intros nv d Ln Hd Ld _. apply honest_tell; auto; [now apply Bv|apply honest_track|]. intros _ _ _ a _ _ Sa. apply R in Sa. unfold lit_holds, cond_holds; cbn. lia.
Qed.

Section Posted.
Variable d0 : domains.
Hypothesis H0 : domains_ok d0.
Hypothesis K0 : Forall (var_known d0) (result :: indices ++ vars).

Let aliasing := has_duplicate (underlying_list (result :: indices ++ vars)).
Let nonconstants := existsb (fun v => negb (has_single_value d0 v)) vars.
Let watched := if nonconstants then vars else [].

Lemma posted_known : var_known d0 result /\ Forall (var_known d0) indices /\ Forall (var_known d0) vars.
Proof. apply Forall_cons_iff in K0. destruct K0 as [Kr K]. apply Forall_app in K. tauto. Qed.

Lemma posted_below nv : (length d0 <= nv)%nat -> var_below nv result /\ Forall (var_below nv) indices /\ Forall (var_below nv) vars.
Proof.
  intro Ln. destruct posted_known as (Kr & Ki & Kv). split; [|split].
  - now apply (known_below_more d0).
  - eapply Forall_impl; [|exact Ki]. intros v H. now apply (known_below_more d0).
  - eapply Forall_impl; [|exact Kv]. intros v H. now apply (known_below_more d0).
Qed.

(** Entries that are not watched have a single value already. *)
Lemma entries_fixed d : inside d0 d -> Forall (fixed d) watched -> Forall (fixed d) vars.
Proof.
  intros I F. unfold watched in F. destruct nonconstants eqn:N; [assumption|]. apply Forall_forall. intros v Iv. apply (fixed_mono d0); [assumption|].
  destruct posted_known as (_ & _ & Kv). rewrite Forall_forall in Kv. apply single_fixed; auto.
  unfold nonconstants in N. destruct (has_single_value d0 v) eqn:S; [reflexivity|].
  assert (X : existsb (fun v => negb (has_single_value d0 v)) vars = true) by (apply existsb_exists; exists v; rewrite S; auto). congruence.
Qed.

Lemma other_indices k i : (i < length indices)%nat -> i <> k -> In (nth i indices (VConst 0)) (firstn k indices ++ skipn (S k) indices).
Proof.
  intros Hi N. apply in_or_app. destruct (Nat.lt_trichotomy i k) as [L|[L|L]]; [left|lia|right].
  - rewrite <- (firstn_skipn k indices) at 1. rewrite app_nth1 by (rewrite firstn_length; lia). apply nth_In. rewrite firstn_length. lia.
  - rewrite <- (firstn_skipn (S k) indices) at 1. rewrite app_nth2 by (rewrite firstn_length; lia). apply nth_In. rewrite firstn_length, skipn_length. lia.
Qed.

Lemma index_body_ok nv k alias : (length d0 <= nv)%nat -> (k < length indices)%nat ->
  body_ok nv d0 alias (element_index result indices starts arr aliasing k) (watched ++ result :: firstn k indices ++ skipn (S k) indices) selects.
Proof.
  intros Ln Hk. destruct (posted_below nv Ln) as (Br & Bi & Bv). apply body_ok_intro.
  - intros d Hd Ld I. now apply index_honest.
  - intros d a Hd Ld I F Lv. apply Forall_app in F. destruct F as [Fw F]. apply Forall_cons_iff in F. destruct F as [Fr Fi]. rewrite Forall_forall in Fi.
    apply (index_checks nv d Hd Ld Br Bi Bv aliasing k); auto; [now apply entries_fixed|]. intros i Hi N. apply Fi. now apply other_indices.
  - intros d a Hd Ld I _ C Lv F. cbn [element_index snd] in C. unfold claim_unless in C. destruct aliasing eqn:Al; [discriminate|]. apply has_duplicate_spec in Al.
    assert (X : forall w, In w (result :: firstn k indices ++ skipn (S k) indices) \/ In w vars -> unrelated w (nth k indices (VConst 0))).
    { assert (Ek : nth_error (result :: indices ++ vars) (S k) = Some (nth k indices (VConst 0))).
      { simpl. rewrite nth_error_app1 by assumption. now apply nth_error_nth'. }
      intros w [[<-|Iw]|Iw].
      - apply (unrelated_positions _ 0 (S k) _ _ Al); [reflexivity|assumption|lia].
      - apply in_app_or in Iw. destruct Iw as [Iw|Iw]; apply In_nth_error in Iw; destruct Iw as (i & Ei).
        + assert (Lf : (i < length (firstn k indices))%nat) by (apply nth_error_Some; congruence). rewrite firstn_length in Lf.
          apply (unrelated_positions _ (S i) (S k) _ _ Al); [|assumption|lia]. simpl. rewrite nth_error_app1 by lia. rewrite <- Ei. rewrite nth_error_firstn'; [reflexivity|lia].
        + assert (Lf : (i < length (skipn (S k) indices))%nat) by (apply nth_error_Some; congruence). rewrite skipn_length in Lf.
          apply (unrelated_positions _ (S (S k + i)) (S k) _ _ Al); [|assumption|lia]. cbn [nth_error]. rewrite nth_error_app1 by lia. now rewrite <- nth_error_skipn'.
      - apply In_nth_error in Iw. destruct Iw as (i & Ei). apply (unrelated_positions _ (S (length indices + i)) (S k) _ _ Al); [|assumption|lia].
        cbn [nth_error]. rewrite nth_error_app2 by lia. now replace (length indices + i - length indices)%nat with i by lia. }
    assert (B : forall w, In w (result :: firstn k indices ++ skipn (S k) indices) \/ In w vars -> var_below nv w).
    { rewrite Forall_forall in Bi, Bv. intros w [[<-|Iw]|Iw]; auto. apply Bi. apply in_app_or in Iw. rewrite <- (firstn_skipn k indices). apply in_or_app.
      destruct Iw as [Iw|Iw]; [now left|right]. rewrite <- (firstn_skipn 1 (skipn k indices)). apply in_or_app. right. now rewrite skipn_skipn'. }
    assert (Fx : forall w, In w (result :: firstn k indices ++ skipn (S k) indices) \/ In w vars ->
      fixed (t_domains (fst (element_index result indices starts arr false k d))) w -> fixed d w).
    { intros w Iw. apply (fixed_elsewhere nv d Hd Ld Br Bi Bv false k w Hk (B w Iw) (proj1 (proj2 Lv)) (X w Iw)). }
    apply Forall_app in F. destruct F as [Fw F]. apply Forall_cons_iff in F. destruct F as [Fr Fi]. rewrite Forall_forall in Fi.
    apply (index_checks nv d Hd Ld Br Bi Bv false k); auto.
    + apply Fx; [left; now left|assumption].
    + apply entries_fixed; [assumption|]. rewrite Forall_forall in Fw |- *. intros w Iw. apply Fx; [|auto]. right. unfold watched in Iw. destruct nonconstants; [assumption|destruct Iw].
    + intros i Hi N. pose proof (other_indices k i Hi N) as Io. apply Fx; [left; now right|auto].
  - intros d a Hd Ld I C. cbn [element_index snd] in C. unfold claim_unless in C. destruct aliasing; discriminate.
Qed.

Lemma posted_sound bounds_only : Forall (sound_body d0 selects) (map (fun k => body_propagator (element_index result indices starts arr aliasing k)
     (watched ++ result :: firstn k indices ++ skipn (S k) indices) [] []) (seq 0 (length indices)) ++
     (if bounds_only : bool then [body_propagator (element_result_bounds result indices starts arr) indices (watched ++ [result]) []]
      else [body_propagator (element_result result indices starts arr aliasing) (watched ++ indices) [] []]) ++
     (if nonconstants then [body_propagator (element_equality result indices starts arr aliasing) (indices ++ [result]) [] []] else [])).
Proof.
  apply Forall_app. split; [|apply Forall_app; split].
  - apply Forall_forall. intros p Ip. apply in_map_iff in Ip. destruct Ip as (k & <- & Ik). apply in_seq in Ik. eexists _, _, _, _. split; [reflexivity|].
    intros nv d Ln Hd Ld _. destruct (posted_below nv Ln) as (Br & Bi & Bv). apply index_honest; auto. lia.
  - destruct bounds_only; (constructor; [|constructor]); eexists _, _, _, _; (split; [reflexivity|]); intros nv d Ln Hd Ld _; destruct (posted_below nv Ln) as (Br & Bi & Bv).
    + now apply bounds_honest.
    + now apply result_honest.
  - destruct nonconstants; constructor; [|constructor]. eexists _, _, _, _. split; [reflexivity|].
    intros nv d Ln Hd Ld _. destruct (posted_below nv Ln) as (Br & Bi & Bv). now apply equality_honest.
Qed.

Lemma posted_correct bounds_only sat : (0 < length indices)%nat -> (forall a, sat a <-> selects a) ->
  existsb (fun k => Nat.eqb (dimension_size k arr) 0) (seq 0 (length indices)) = false ->
  correct_on d0 (element_nd result indices starts arr bounds_only) (result :: indices ++ vars) sat.
Proof.
  intros Pos Eq Ne. assert (E : element_nd result indices starts arr bounds_only d0 =
    (map (fun k => body_propagator (element_index result indices starts arr aliasing k) (watched ++ result :: firstn k indices ++ skipn (S k) indices) [] [])
       (seq 0 (length indices)) ++
     (if bounds_only then [body_propagator (element_result_bounds result indices starts arr) indices (watched ++ [result]) []]
      else [body_propagator (element_result result indices starts arr aliasing) (watched ++ indices) [] []]) ++
     (if nonconstants then [body_propagator (element_equality result indices starts arr aliasing) (indices ++ [result]) [] []] else []),
     flat_map (fun '(v, (s, n)) => define_lower d0 v s ++ define_upper d0 v (s + n - 1)) (index_ranges indices starts arr))).
  { unfold element_nd. rewrite Ne. reflexivity. }
  apply (checker_correct d0 _ (element_index result indices starts arr aliasing 0) (watched ++ result :: firstn 0 indices ++ skipn 1 indices) [] []
    (result :: indices ++ vars) (watched ++ result :: firstn 0 indices ++ skipn 1 indices) selects sat Eq K0).
  - rewrite E. cbn [fst]. apply in_or_app. left. apply in_map_iff. exists 0%nat. split; [reflexivity|]. apply in_seq. lia.
  - intros v Iv. apply in_app_or in Iv. destruct Iv as [Iv|[<-|Iv]].
    + right. apply in_or_app. right. unfold watched in Iv. destruct nonconstants; [assumption|destruct Iv].
    + now left.
    + right. apply in_or_app. left. cbn [firstn app] in Iv. rewrite <- (firstn_skipn 1 indices). apply in_or_app. now right.
  - intros v Iv. apply in_or_app. now left.
  - intros nv Ln. now apply index_body_ok.
  - rewrite E. apply posted_sound.
  - rewrite E. apply ranges_sound. apply posted_known.
Qed.
End Posted.

(** ** Nothing can be removed once the propagators are quiet *)

Lemma chosen_once xs1 xs2 v n : NoDup (underlying_list vars) -> underlying v = Some n -> length xs1 = length sizes -> length xs2 = length sizes ->
  pick xs1 starts arr = Some v -> pick xs2 starts arr = Some v -> xs1 = xs2.
Proof.
  intros N U L1 L2 P1 P2.
  destruct (pick_all sizes arr xs1 starts v Reg Ls L1 P1) as (ys1 & F1 & Q1 & X1). destruct (pick_all sizes arr xs2 starts v Reg Ls L2 P2) as (ys2 & F2 & Q2 & X2).
  assert (ys1 = ys2) as <-.
  { unfold vars, all_cells in N. rewrite <- map_map with (f := fun k => dimension_size k arr) (g := fun n => zrange 0 (Z.of_nat n - 1)), sizes_seen, Li in N.
    apply (pick_injective (map (fun n => zrange 0 (Z.of_nat n - 1)) sizes) (repeat 0 (length sizes)) arr ys1 ys2 v n); auto; [now rewrite repeat_length, map_length| |].
    - clear - F1. induction F1; simpl; constructor; auto.
    - clear - F2. induction F2; simpl; constructor; auto. }
  clear - X1 X2. revert xs1 xs2 X1 X2. generalize (combine starts ys1) as l. induction l as [|p l IH]; intros xs1 xs2 X1 X2; inversion X1; inversion X2; subst; [reflexivity|].
  f_equal. auto.
Qed.

Section Rest.
Variable D : domains.
Hypothesis HD : domains_ok D.
Hypothesis KD : Forall (var_known D) (result :: indices ++ vars).

(** Values for the indices and the result, and an entry with that value. *)
Definition support (xs : list Z) (v : var_id) (z : Z) : Prop :=
  Forall2 (view_member D) indices xs /\ pick xs starts arr = Some v /\ view_member D v z /\ view_member D result z.

Lemma rest_known : var_known D result /\ Forall (var_known D) indices /\ Forall (var_known D) vars.
Proof. apply Forall_cons_iff in KD. destruct KD as [Kr K]. apply Forall_app in K. tauto. Qed.

Lemma rest_below : var_below (length D) result /\ Forall (var_below (length D)) indices /\ Forall (var_below (length D)) vars.
Proof.
  destruct rest_known as (Kr & Ki & Kv). split; [|split].
  - now apply (known_below_more D).
  - eapply Forall_impl; [|exact Ki]. intros v H. now apply (known_below_more D).
  - eapply Forall_impl; [|exact Kv]. intros v H. now apply (known_below_more D).
Qed.

Lemma support_length xs v z : support xs v z -> length xs = length sizes.
Proof. intros (F & _). rewrite (Forall2_nth _ _ _ (VConst 0) 0) in F. destruct F as [F _]. congruence. Qed.

Lemma support_solution xs v z w y : NoDup (underlying_list (result :: indices ++ vars)) -> support xs v z -> w <> v -> view_member D w y ->
  exists a, within a D /\ map (var_value a) indices = xs /\ var_value a result = z /\ var_value a v = z /\ (In w vars -> var_value a w = y) /\ selects a.
Proof.
  intros N S Nw Mw. pose proof (support_length _ _ _ S) as Lx. destruct S as (F & P & Mv & Mr).
  set (g := fun u => if var_eqb u v then z else if var_eqb u w then y else lower_bound D u).
  assert (Iv : In v vars) by now apply (picked_listed xs).
  destruct (choose_list D (result :: indices ++ vars) (z :: xs ++ map g vars) HD KD N) as (a & Wa & E).
  - constructor; [assumption|]. apply Forall2_app; [assumption|]. destruct rest_known as (_ & _ & Kv). clear - Kv Mv Mw HD.
    induction Kv as [|u us Ku Kv IH]; simpl; constructor; auto. unfold g. destruct (var_eqb u v) eqn:E1; [apply var_eqb_spec in E1; now subst|].
    destruct (var_eqb u w) eqn:E2; [apply var_eqb_spec in E2; now subst|]. now apply lower_bound_spec.
  - cbn [map] in E. injection E as Er E. rewrite map_app in E. apply app_inj_len in E; [|now rewrite map_length, Li]. destruct E as [Ei Ev].
    assert (G : forall u, In u vars -> var_value a u = g u). { intros u Iu. clear - Ev Iu. induction vars as [|u' us IH]; [destruct Iu|]. injection Ev as E1 E2. destruct Iu as [<-|Iu]; auto. }
    assert (Ez : var_value a v = z). { rewrite (G v Iv). unfold g. now rewrite (proj2 (var_eqb_spec v v) eq_refl). }
    exists a. repeat (split; [assumption|]). split.
    + intro Iw. rewrite (G w Iw). unfold g. destruct (var_eqb w v) eqn:E1; [apply var_eqb_spec in E1; contradiction|]. now rewrite (proj2 (var_eqb_spec w w) eq_refl).
    + exists v. rewrite Ei. split; congruence.
Qed.

Lemma listed_members xs : Forall2 (@In Z) xs (map (each_value D) indices) <-> Forall2 (view_member D) indices xs.
Proof.
  destruct rest_known as (_ & Ki & _). clear - Ki HD. revert xs. induction Ki as [|v l Kv K IH]; intro xs; simpl.
  - split; intro F; inversion F; constructor.
  - split; intro F; inversion F; subst; constructor; try (now apply IH); now apply each_value_In.
Qed.

(** Each index value has support. *)
Lemma index_support al ch bo ins k x : (k < length indices)%nat -> rerun_is_quiet (body_propagator (element_index result indices starts arr al k) ch bo ins) D ->
  view_member D (nth k indices (VConst 0)) x -> exists xs v z, support xs v z /\ nth k xs 0 = x.
Proof.
  intros Hk Q M. destruct rest_known as (Kr & Ki & Kv). destruct rest_below as (Br & Bi & Bv).
  assert (Kk : var_known D (nth k indices (VConst 0))) by now apply index_known.
  destruct (proj1 (view_member_iff D _ x HD Kk) M) as (a & Wa & Ea).
  assert (Lv : live (length D) D (fst (element_index result indices starts arr al k D)) a).
  { apply (quiet_live (length D) D _ ch bo ins); auto. now apply index_legit. }
  unfold element_index in Lv. cbn [fst] in Lv.
  apply (for_each_later (length D) D (fun y => y = x -> exists xs v z, support xs v z /\ nth k xs 0 = x)) in Lv;
    [destruct Lv as [_ F]|intros y t _; now apply index_later| |apply legit_track].
  - rewrite Forall_forall in F. apply (F x); [|reflexivity]. now apply each_value_In.
  - intros y t Iy Gt L1 L2 ->. destruct (index_supported result indices starts arr k (t_domains t) x) eqn:S.
    + pose proof (live_ok (length D) D HD eq_refl t a L2) as Ht. pose proof (live_length (length D) D HD eq_refl t a L2) as Lt.
      destruct (known_at (length D) Br Bi Bv _ Lt) as (T1 & T2 & T3).
      apply existsb_exists in S. destruct S as (v & Iv & X).
      assert (Lvv : In v vars) by (eapply cells_listed; [apply choices_with_length|eassumption]).
      apply in_cells in Iv; [|apply choices_with_length]. destruct Iv as (xs & F & P). apply in_choices in F. destruct F as [Lx F].
      rewrite Forall_forall in T3, Bv. apply domains_intersect_spec in X; auto. destruct X as (z & M1 & M2).
      assert (Bk : forall u w, var_below (length D) u -> view_member (t_domains t) u w -> view_member D u w).
      { intros u w Bu. apply (member_before (length D) D HD eq_refl t u w Gt); [apply L2|assumption]. }
      exists xs, v, z. split; [split; [|split; [assumption|split; [apply Bk; auto|apply Bk; auto]]]|].
      * rewrite (Forall2_nth _ _ _ (VConst 0) 0). split; [now symmetry|]. intros i Hi. specialize (F i Hi). unfold choice in F.
        destruct (Nat.eqb_spec i k) as [Eik|_]; [rewrite Eik in *; destruct F as [<-|[]]; assumption|].
        apply Bk; [now apply (index_below (length D))|]. apply each_value_In; auto.
      * specialize (F k Hk). unfold choice in F. rewrite Nat.eqb_refl in F. destruct F as [F|[]]. now symmetry.
    + apply (tell_back (length D) D HD eq_refl) in L1; auto; [|now apply index_below]. destruct L1 as [_ N]. now elim N.
Qed.

(** Each value of the result has support. *)
Lemma result_support al ch bo ins z : rerun_is_quiet (body_propagator (element_result result indices starts arr al) ch bo ins) D ->
  view_member D result z -> exists xs v, support xs v z.
Proof.
  intros Q M. destruct rest_known as (Kr & Ki & Kv). destruct rest_below as (Br & Bi & Bv).
  destruct (proj1 (view_member_iff D _ z HD Kr) M) as (a & Wa & Ea).
  assert (Lv : live (length D) D (fst (element_result result indices starts arr al D)) a).
  { apply (quiet_live (length D) D _ ch bo ins); auto. now apply result_honest. }
  unfold element_result in Lv. cbn [fst] in Lv.
  apply (for_each_later (length D) D (fun y => var_value a result <> y)) in Lv; [destruct Lv as [_ F]| | |apply legit_track].
  - destruct (existsb (fun v => in_domain D v z) (cells (map (each_value D) indices) starts arr)) eqn:E.
    + apply existsb_exists in E. destruct E as (v & Iv & X).
      assert (Lvv : In v vars) by (eapply cells_listed; [apply map_length|eassumption]). rewrite Forall_forall in Kv. apply in_domain_spec in X; auto.
      apply in_cells in Iv; [|apply map_length]. destruct Iv as (xs & Fx & P). apply listed_members in Fx. exists xs, v. repeat split; auto.
    + exfalso. rewrite Forall_forall in F. apply (F z); [|assumption]. apply each_In. apply (unsupported_spec (length D)); auto. split; [assumption|].
      intros v Iv Mv. assert (X : existsb (fun v => in_domain D v z) (cells (map (each_value D) indices) starts arr) = true); [|congruence].
      apply existsb_exists. exists v. split; [assumption|]. apply in_domain_spec; auto. rewrite Forall_forall in Kv. apply Kv. eapply cells_listed; [apply map_length|eassumption].
  - intros y t _. apply later_tell; auto.
  - intros y t _ Gt L1 _. apply (tell_back (length D) D HD eq_refl) in L1; auto. exact (proj2 L1).
Qed.

(** The only entry that can be selected has no value that the result has not. *)
Lemma selected_support al ch bo ins xs v z y : rerun_is_quiet (body_propagator (element_equality result indices starts arr al) ch bo ins) D ->
  forallb (has_single_value D) indices = true -> support xs v z -> view_member D v y -> support xs v y.
Proof.
  intros Q S (F & P & Mv & Mr) My. destruct rest_known as (Kr & Ki & Kv). destruct rest_below as (Br & Bi & Bv).
  assert (Lx : length xs = length sizes) by (rewrite (Forall2_nth _ _ _ (VConst 0) 0) in F; destruct F; congruence).
  assert (Iv : In v vars) by now apply (picked_listed xs). rewrite Forall_forall in Kv. specialize (Kv v Iv).
  destruct (proj1 (view_member_iff D _ y HD Kv) My) as (a & Wa & Ea).
  assert (Lv : live (length D) D (fst (element_equality result indices starts arr al D)) a).
  { apply (quiet_live (length D) D _ ch bo ins); auto. now apply equality_honest. }
  unfold element_equality in Lv. cbn [fst] in Lv. rewrite S in Lv.
  pose proof F as F'. apply listed_members in F'. assert (C : In v (cells (map (each_value D) indices) starts arr)) by (apply in_cells; [apply map_length|eauto]).
  destruct (cells (map (each_value D) indices) starts arr) as [|v' cs] eqn:E; [destruct C|].
  assert (v' = v) as ->.
  { assert (C' : In v' (cells (map (each_value D) indices) starts arr)) by (rewrite E; now left). apply in_cells in C'; [|apply map_length]. destruct C' as (xs' & F2 & P2).
    rewrite (each_fixed (length D) D HD eq_refl Br Bi Bv a Wa S) in F', F2. apply singles_in in F', F2. congruence. }
  rewrite Forall_forall in Bv. apply (equality_back (length D) D HD eq_refl) in Lv; auto. destruct Lv as [Lv _]. rewrite Ea in Lv. repeat split; auto.
Qed.

(** The bounds found belong to entries that overlap the result's bounds. *)
Definition from_cells (cs : list var_id) (found : option Z * option Z) : Prop :=
  (forall l, fst found = Some l -> exists v, In v cs /\ lower_bound D v = l /\ lower_bound D v <= upper_bound D result /\ lower_bound D result <= upper_bound D v) /\
  (forall h, snd found = Some h -> exists v, In v cs /\ upper_bound D v = h /\ lower_bound D v <= upper_bound D result /\ lower_bound D result <= upper_bound D v).

Lemma fold_from cs0 cs : incl cs cs0 -> forall found, from_cells cs0 found ->
  from_cells cs0 (fold_left (meet_bounds D (lower_bound D result) (upper_bound D result)) cs found).
Proof.
  induction cs as [|v cs IH]; intros I found Fc; simpl; [assumption|]. apply IH; [intros u Iu; apply I; now right|]. assert (Iv : In v cs0) by (apply I; now left).
  destruct found as [lo hi]. unfold meet_bounds. rewrite bounds_spec.
  destruct (match lo, hi with Some l, Some h => (l <=? lower_bound D result) && (upper_bound D result <=? h) | _, _ => false end); [assumption|].
  destruct ((lower_bound D v <=? upper_bound D result) && (lower_bound D result <=? upper_bound D v)) eqn:E; [|assumption].
  apply andb_true_iff in E. destruct E as [E1 E2]. apply Z.leb_le in E1, E2. destruct Fc as [Fl Fh]. split; intros x Ex; cbn [fst snd] in *; injection Ex as <-.
  - destruct lo as [l|]; [|exists v; auto]. destruct (Z.min_spec l (lower_bound D v)) as [[_ ->]|[_ ->]]; [now apply Fl|exists v; auto].
  - destruct hi as [h|]; [|exists v; auto]. destruct (Z.max_spec h (upper_bound D v)) as [[_ ->]|[_ ->]]; [exists v; auto|now apply Fh].
Qed.

Lemma bounds_support ch bo ins xs v z x : rerun_is_quiet (body_propagator (element_result_bounds result indices starts arr) ch bo ins) D ->
  support xs v z -> x = lower_bound D result \/ x = upper_bound D result -> exists ys w, Forall2 (view_member D) indices ys /\ pick ys starts arr = Some w /\ between_bounds D w x.
Proof.
  intros Q S X. destruct rest_known as (Kr & Ki & Kv). destruct rest_below as (Br & Bi & Bv).
  assert (Lx : length xs = length sizes) by now apply (support_length xs v z). destruct S as (F & P & Mv & Mr).
  assert (Ivv : In v vars) by now apply (picked_listed xs). assert (Kvv : var_known D v) by (rewrite Forall_forall in Kv; auto).
  assert (Iv : In v (cells (map (each_value D) indices) starts arr)) by (apply in_cells; [apply map_length|exists xs; split; [now apply listed_members|assumption]]).
  assert (Back : forall w, In w (cells (map (each_value D) indices) starts arr) -> exists ys, Forall2 (view_member D) indices ys /\ pick ys starts arr = Some w).
  { intros w Iw. apply in_cells in Iw; [|apply map_length]. destruct Iw as (ys & Fy & Py). exists ys. split; [now apply listed_members|assumption]. }
  destruct (lower_bound_spec D result HD Kr) as [Lm Ll]. destruct (upper_bound_spec D result HD Kr) as [Um Ul].
  destruct (lower_bound_spec D v HD Kvv) as [_ Lv]. destruct (upper_bound_spec D v HD Kvv) as [_ Uv].
  assert (C : covers z (fold_left (meet_bounds D (lower_bound D result) (upper_bound D result)) (cells (map (each_value D) indices) starts arr) (None, None))).
  { apply (fold_covers (length D) D eq_refl z v); auto. }
  assert (Fc : from_cells (cells (map (each_value D) indices) starts arr)
    (fold_left (meet_bounds D (lower_bound D result) (upper_bound D result)) (cells (map (each_value D) indices) starts arr) (None, None))).
  { apply fold_from; [apply incl_refl|]. split; intros ? [=]. }
  assert (Lv2 : forall a, within a D -> live (length D) D (fst (element_result_bounds result indices starts arr D)) a).
  { intros a Wa. apply (quiet_live (length D) D _ ch bo ins); auto. now apply bounds_honest. }
  unfold element_result_bounds in Lv2. rewrite bounds_spec in Lv2.
  destruct C as (l & h & E & Bz). rewrite E in Fc, Lv2. cbn [fst] in Lv2. destruct Fc as [Fl Fh].
  assert (Hl : l <= lower_bound D result).
  { destruct (proj1 (view_member_iff D result _ HD Kr) Lm) as (a & Wa & Ea). specialize (Lv2 a Wa).
    destruct (Z.ltb_spec (lower_bound D result) l) as [L|L]; [|exact L]. exfalso.
    assert (G1 : legit (length D) D (tell_ge result l (track D))) by (apply legit_tell; auto using legit_track).
    destruct (h <? upper_bound D result).
    - apply (tell_back (length D) D HD eq_refl) in Lv2; auto. destruct Lv2 as [Lv2 _]. apply (tell_back (length D) D HD eq_refl) in Lv2; auto using legit_track.
      destruct Lv2 as [_ Y]. unfold lit_holds, cond_holds in Y; cbn in Y. lia.
    - apply (tell_back (length D) D HD eq_refl) in Lv2; auto using legit_track. destruct Lv2 as [_ Y]. unfold lit_holds, cond_holds in Y; cbn in Y. lia. }
  assert (Hh : upper_bound D result <= h).
  { destruct (proj1 (view_member_iff D result _ HD Kr) Um) as (a & Wa & Ea). specialize (Lv2 a Wa).
    destruct (Z.ltb_spec h (upper_bound D result)) as [L|L]; [|exact L]. exfalso.
    apply (tell_back (length D) D HD eq_refl) in Lv2; auto.
    - destruct Lv2 as [_ Y]. unfold lit_holds, cond_holds in Y; cbn in Y. lia.
    - destruct (lower_bound D result <? l); [apply legit_tell; auto|]; apply legit_track. }
  destruct X as [X|X]; subst x.
  - destruct (Fl l eq_refl) as (w & Iw & El & O1 & O2). destruct (Back w Iw) as (ys & Fy & Py). exists ys, w. repeat split; auto. lia.
  - destruct (Fh h eq_refl) as (w & Iw & El & O1 & O2). destruct (Back w Iw) as (ys & Fy & Py). exists ys, w. repeat split; auto. lia.
Qed.
End Rest.

(** ** Domain consistency *)

Section Consistent.
Variable d0 : domains.
Variable D : domains.
Hypothesis H0 : domains_ok d0.
Hypothesis K0 : Forall (var_known d0) (result :: indices ++ vars).
Hypothesis HD : domains_ok D.
Hypothesis LD : length D = length d0.
Hypothesis ID : inside d0 D.
Hypothesis ND : NoDup (underlying_list (result :: indices ++ vars)).
Hypothesis Ne : existsb (fun k => Nat.eqb (dimension_size k arr) 0) (seq 0 (length indices)) = false.

Lemma later_known : Forall (var_known D) (result :: indices ++ vars).
Proof. eapply Forall_impl; [|exact K0]. intros v Kv. apply (var_below_known (length d0)); auto. now apply (known_below_more d0). Qed.

Lemma posted_index bounds_only : (forall p, In p (fst (element_nd result indices starts arr bounds_only d0)) -> rerun_is_quiet p D) ->
  forall k x, (k < length indices)%nat -> view_member D (nth k indices (VConst 0)) x -> exists xs v z, support D xs v z /\ nth k xs 0 = x.
Proof.
  intros Q k x Hk M. eapply (index_support D HD later_known); [exact Hk| |exact M]. apply Q. unfold element_nd. rewrite Ne. cbn [fst]. apply in_or_app. left.
  apply in_map_iff. exists k. split; [reflexivity|]. apply in_seq. lia.
Qed.

Lemma indices_consistent bounds_only : (forall p, In p (fst (element_nd result indices starts arr bounds_only d0)) -> rerun_is_quiet p D) ->
  domain_consistent D indices selects.
Proof.
  intros Q v x Iv (a & Wa & Ea). destruct (In_nth _ _ (VConst 0) Iv) as (k & Hk & <-).
  assert (Kk : var_known D (nth k indices (VConst 0))) by (apply index_known; [|exact Hk]; apply (rest_known D); exact later_known).
  destruct (posted_index bounds_only Q k x Hk) as (xs & v & z & S & E). { apply view_member_iff; eauto. }
  assert (X : exists c, VConst c <> v). { destruct v as [n|n neg add|c]; [exists 0; discriminate|exists 0; discriminate|exists (c + 1); intros [=]; lia]. }
  destruct X as (c & Nc). destruct (support_solution D HD later_known xs v z (VConst c) c ND S Nc) as (b & Wb & Eb & _ & _ & _ & Sb); [reflexivity|].
  exists b. split; [assumption|]. split; [|assumption]. rewrite <- nth_values, Eb. assumption.
Qed.

Lemma posted_consistent : (forall p, In p (fst (element_nd result indices starts arr false d0)) -> rerun_is_quiet p D) ->
  domain_consistent D (result :: indices ++ vars) selects.
Proof.
  intros Q w y Iw Ex. pose proof (rest_known D later_known) as (Kr & Ki & Kv).
  assert (Qr : rerun_is_quiet (body_propagator (element_result result indices starts arr (has_duplicate (underlying_list (result :: indices ++ vars))))
    ((if existsb (fun v => negb (has_single_value d0 v)) vars then vars else []) ++ indices) [] []) D).
  { apply Q. unfold element_nd. rewrite Ne. cbn [fst]. apply in_or_app. right. apply in_or_app. left. now left. }
  assert (Any : forall v, exists c, VConst c <> v). { intro v. destruct v as [n|n neg add|c]; [exists 0; discriminate|exists 0; discriminate|exists (c + 1); intros [=]; lia]. }
  destruct Iw as [<-|Iw]; [|apply in_app_or in Iw; destruct Iw as [Iw|Iw]].
  - destruct Ex as (a & Wa & Ea). destruct (result_support D HD later_known _ _ _ _ y Qr) as (xs & v & S). { apply view_member_iff; eauto. }
    destruct (Any v) as (c & Nc). destruct (support_solution D HD later_known xs v y (VConst c) c ND S Nc) as (b & Wb & _ & Eb & _ & _ & Sb); [reflexivity|]. eauto.
  - now apply (indices_consistent false).
  - destruct Ex as (a & Wa & Ea). rewrite Forall_forall in Kv. pose proof (Kv w Iw) as Kw.
    assert (My : view_member D w y) by (apply view_member_iff; eauto).
    assert (Mr : view_member D result (var_value a result)) by now apply value_possible.
    destruct (result_support D HD later_known _ _ _ _ _ Qr Mr) as (xs & v & S).
    destruct (var_eqb w v) eqn:Ewv.
    2:{ assert (Nw : w <> v) by (intro X; apply var_eqb_spec in X; congruence).
        destruct (support_solution D HD later_known xs v _ w y ND S Nw My) as (b & Wb & _ & _ & _ & Eb & Sb). eauto. }
    apply var_eqb_spec in Ewv. subst v. set (z := var_value a result) in *.
    assert (Done : forall xs', support D xs' w y -> exists a0, within a0 D /\ var_value a0 w = y /\ selects a0).
    { intros xs' S'. destruct (Any w) as (c & Nc). destruct (support_solution D HD later_known xs' w y (VConst c) c ND S' Nc) as (b & Wb & _ & _ & Eb & _ & Sb); [reflexivity|]. eauto. }
    destruct (has_single_value D w) eqn:Sw.
    { apply single_fixed in Sw; auto. apply fixed_members in Sw; auto. destruct Sw as (x & Fx). assert (y = z) as ->.
      { transitivity x; [now apply Fx|]. symmetry. apply Fx. apply S. }
      eauto. }
    assert (Nc : existsb (fun v => negb (has_single_value d0 v)) vars = true).
    { apply existsb_exists. exists w. split; [assumption|]. destruct (has_single_value d0 w) eqn:S0; [|reflexivity]. exfalso.
      assert (K0w : var_known d0 w). { rewrite Forall_forall in K0. apply K0. right. apply in_or_app. now right. }
      apply single_fixed in S0; auto. apply (fixed_mono _ _ _ ID) in S0. apply single_fixed in S0; auto. congruence. }
    destruct (forallb (has_single_value D) indices) eqn:Si.
    { apply (Done xs). assert (Qe : rerun_is_quiet (body_propagator (element_equality result indices starts arr (has_duplicate (underlying_list (result :: indices ++ vars))))
        (indices ++ [result]) [] []) D).
      { apply Q. unfold element_nd. rewrite Ne. cbn [fst]. apply in_or_app. right. apply in_or_app. right. unfold vars in Nc. rewrite Nc. now left. }
      exact (selected_support D HD later_known _ _ _ _ xs w z y Qe Si S My). }
    assert (Hi : exists k, (k < length indices)%nat /\ has_single_value D (nth k indices (VConst 0)) = false).
    { clear - Si. induction indices as [|u us IH]; [discriminate|]. simpl in Si. destruct (has_single_value D u) eqn:E.
      - destruct (IH Si) as (k & Hk & Ek). exists (S k). split; [simpl; lia|assumption].
      - exists 0%nat. split; [simpl; lia|assumption]. }
    destruct Hi as (k & Hk & Sk). assert (Kk : var_known D (nth k indices (VConst 0))) by now apply index_known.
    assert (Ox : exists x', x' <> nth k xs 0 /\ view_member D (nth k indices (VConst 0)) x').
    { destruct (lower_bound_spec D _ HD Kk) as [Lm _]. destruct (upper_bound_spec D _ HD Kk) as [Um _].
      assert (Nb : lower_bound D (nth k indices (VConst 0)) <> upper_bound D (nth k indices (VConst 0))).
      { intro X. apply has_single_value_spec in X; auto. congruence. }
      destruct (Z.eq_dec (lower_bound D (nth k indices (VConst 0))) (nth k xs 0)) as [X|X]; [|eauto]. exists (upper_bound D (nth k indices (VConst 0))). split; [congruence|assumption]. }
    destruct Ox as (x' & Nx & Mx). destruct (posted_index false Q k x' Hk Mx) as (xs' & v' & z' & S' & E').
    assert (Nw : w <> v').
    { intros <-. destruct (underlying w) as [n|] eqn:U.
      - assert (NDv : NoDup (underlying_list vars)).
        { change (result :: indices ++ vars) with ([result] ++ indices ++ vars) in ND. rewrite !underlying_list_app in ND. apply NoDup_parts in ND. destruct ND as (_ & ND' & _).
          now apply NoDup_parts in ND'. }
        apply Nx. rewrite <- E'. f_equal. apply (chosen_once xs' xs w n NDv U); [now apply (support_length D _ w z')|now apply (support_length D _ w z)|apply S'|apply S].
      - destruct w as [n|n neg add|c]; discriminate. }
    destruct (support_solution D HD later_known xs' v' z' w y ND S' Nw My) as (b & Wb & _ & _ & _ & Eb & Sb). eauto.
Qed.

Lemma posted_bounds x : (0 < length indices)%nat -> (forall p, In p (fst (element_nd result indices starts arr true d0)) -> rerun_is_quiet p D) ->
  x = lower_bound D result \/ x = upper_bound D result -> exists ys w, Forall2 (view_member D) indices ys /\ pick ys starts arr = Some w /\ between_bounds D w x.
Proof.
  intros Pos Q X. pose proof (rest_known D later_known) as (Kr & Ki & Kv).
  assert (K1 : var_known D (nth 0 indices (VConst 0))) by now apply index_known.
  destruct (posted_index true Q 0%nat (lower_bound D (nth 0 indices (VConst 0))) Pos (proj1 (lower_bound_spec D _ HD K1))) as (xs & v & z & S & _).
  eapply (bounds_support D HD later_known _ _ _ xs v z x); [|exact S|exact X].
  apply Q. unfold element_nd. rewrite Ne. cbn [fst]. apply in_or_app. right. apply in_or_app. left. now left.
Qed.
End Consistent.
End Nonempty.

(** An array with nothing in it cannot be selected from. *)
Lemma empty_dimension : existsb (fun k => Nat.eqb (dimension_size k arr) 0) (seq 0 (length indices)) = true -> forall a, ~ selects a.
Proof.
  intros E a (v & P & _). apply existsb_exists in E. destruct E as (k & Ik & Z0). apply in_seq in Ik. apply Nat.eqb_eq in Z0.
  destruct (pick_all sizes arr _ starts v Reg Ls (eq_trans (map_length _ _) Li) P) as (ys & F & _ & _).
  assert (N : Forall (fun n => n <> 0%nat) sizes). { clear - F. induction F as [|y n ys ns Iy _ IH]; constructor; auto. intros ->. apply zrange_In in Iy. lia. }
  rewrite (dimension_size_regular sizes) in Z0; auto; [|intros j Hj|lia]; rewrite Forall_forall in N.
  - apply (N (nth k sizes 0%nat)); auto. apply nth_In. lia.
  - apply N, nth_In. lia.
Qed.

Lemma full_dimensions : existsb (fun k => Nat.eqb (dimension_size k arr) 0) (seq 0 (length indices)) = false -> Forall (fun n => n <> 0%nat) sizes.
Proof.
  intro E. assert (A : forall k, (k < length sizes)%nat -> nth k sizes 0%nat <> 0%nat).
  { apply (well_founded_induction lt_wf (fun k => (k < length sizes)%nat -> nth k sizes 0%nat <> 0%nat)). intros k IH Hk Z0.
    rewrite <- (dimension_size_regular sizes arr k Reg) in Z0; auto; [|intros j Hj; apply IH; lia].
    assert (X : existsb (fun k => Nat.eqb (dimension_size k arr) 0) (seq 0 (length indices)) = true); [|congruence].
    apply existsb_exists. exists k. split; [apply in_seq; lia|now apply Nat.eqb_eq]. }
  apply Forall_forall. intros n In_. destruct (In_nth _ _ 0%nat In_) as (k & Hk & <-). auto.
Qed.

Lemma element_nd_correct d0 bounds_only sat : domains_ok d0 -> Forall (var_known d0) (result :: indices ++ vars) -> (0 < length indices)%nat ->
  (forall a, sat a <-> selects a) -> correct_on d0 (element_nd result indices starts arr bounds_only) (result :: indices ++ vars) sat.
Proof.
  intros H0 K0 Pos Eq. destruct (existsb (fun k => Nat.eqb (dimension_size k arr) 0) (seq 0 (length indices))) eqn:E.
  - apply (initialiser_correct d0 _ (fun d => tell LFalse (track d)) _ selects); auto; [unfold element_nd; now rewrite E|].
    intros nv d Ln Hd Ld _. split.
    + apply honest_tell; auto; [exact Logic.I|apply honest_track|]. intros _ _ _ a _ _ Sa. exfalso. exact (empty_dimension E a Sa).
    + intros a Lv. apply (tell_back nv d Hd Ld) in Lv; [|exact Logic.I|apply legit_track]. destruct Lv as [_ []].
  - apply posted_correct; auto. now apply full_dimensions.
Qed.
End Element.

(** ** One and two dimensions *)

Lemma regular_1d array : regular [length array] (Slices (map Entry array)).
Proof. simpl. split; [apply map_length|]. apply Forall_forall. intros b Ib. apply in_map_iff in Ib. destruct Ib as (v & <- & _). exact Logic.I. Qed.

Lemma pick_1d array x start v : pick [x] [start] (Slices (map Entry array)) = Some v <-> exists i, nth_error array i = Some v /\ x = start + Z.of_nat i.
Proof.
  cbn [pick]. split.
  - destruct (slice x start (Slices (map Entry array))) as [b|] eqn:E; [|discriminate]. intro H. apply slice_spec in E. destruct E as (xs & i & [= <-] & Ei & ->).
    exists i. split; [|reflexivity]. rewrite nth_error_map in Ei. destruct (nth_error array i) as [w|]; [|discriminate]. injection Ei as <-. exact H.
  - intros (i & Ei & ->). assert (E : slice (start + Z.of_nat i) start (Slices (map Entry array)) = Some (Entry v)); [|now rewrite E].
    apply slice_spec. exists (map Entry array), i. rewrite nth_error_map, Ei. auto.
Qed.

Lemma selects_1d result index start array a : is_entry result index start array a <-> selects result [index] [start] (Slices (map Entry array)) a.
Proof.
  unfold is_entry, selects. cbn [map]. split.
  - intros (i & v & Ei & X & R). exists v. split; [|assumption]. apply pick_1d. eauto.
  - intros (v & P & R). apply pick_1d in P. destruct P as (i & Ei & X). eauto.
Qed.

Lemma all_slices (g : narray -> list var_id) xs :
  flat_map (fun x => match slice x 0 (Slices xs) with Some b => g b | None => [] end) (zrange 0 (Z.of_nat (length xs) - 1)) = flat_map g xs.
Proof.
  unfold zrange. replace (Z.to_nat (Z.of_nat (length xs) - 1 - 0 + 1)) with (length xs) by lia.
  assert (X : forall l pre, flat_map (fun x => match slice x 0 (Slices (pre ++ l)) with Some b => g b | None => [] end) (zseq (Z.of_nat (length pre)) (length l)) = flat_map g l).
  { induction l as [|b l IH]; intro pre; [reflexivity|]. cbn [length zseq flat_map].
    assert (E : slice (Z.of_nat (length pre)) 0 (Slices (pre ++ b :: l)) = Some b).
    { apply slice_spec. exists (pre ++ b :: l), (length pre). split; [reflexivity|]. rewrite nth_error_app2, Nat.sub_diag by lia. auto. }
    rewrite E. f_equal. specialize (IH (pre ++ [b])). rewrite <- app_assoc, app_length in IH. cbn [app length] in IH.
    replace (Z.of_nat (length pre) + 1) with (Z.of_nat (length pre + 1)) by lia. exact IH. }
  exact (X xs []).
Qed.

Lemma flat_entries array : flat_map (cells [] []) (map Entry array) = array.
Proof. induction array; simpl; f_equal; auto. Qed.

Lemma cells_1d array : all_cells 1 (Slices (map Entry array)) = array.
Proof.
  unfold all_cells. cbn [seq map repeat cells dimension_size]. rewrite (all_slices (fun b => cells [] [] b)). apply flat_entries.
Qed.

Lemma element_correct d0 bounds_only result index start array : domains_ok d0 -> Forall (var_known d0) (result :: index :: array) ->
  correct_on d0 (element bounds_only result index start array) (result :: index :: array) (is_entry result index start array).
Proof.
  intros H0 K0. pose proof (element_nd_correct result [index] [start] [length array] (Slices (map Entry array)) eq_refl eq_refl (regular_1d array) d0 bounds_only
    (is_entry result index start array) H0) as C. cbn [length app] in C. rewrite cells_1d in C. apply C; auto. intro a. apply selects_1d.
Qed.

Definition grid (rows : list (list var_id)) : narray := Slices (map (fun r => Slices (map Entry r)) rows).

Lemma same_lengths_spec (rows : list (list var_id)) : same_lengths rows = true -> exists n, Forall (fun r => length r = n) rows /\ (rows <> [] -> n = dimension_size 1 (grid rows)).
Proof.
  destruct rows as [|r rows]; intro H; [exists 0%nat; split; [constructor|now intros []]|]. exists (length r). split; [|intros _; simpl; now rewrite map_length].
  apply Forall_forall. intros r' I. unfold same_lengths in H. rewrite forallb_forall in H. now apply Nat.eqb_eq, H.
Qed.

Lemma equal_lengths rows n : Forall (fun r : list var_id => length r = n) rows -> same_lengths rows = true.
Proof.
  intro F. destruct rows as [|r rows]; [reflexivity|]. unfold same_lengths. apply forallb_forall. intros r' I. rewrite Forall_forall in F. apply Nat.eqb_eq.
  rewrite (F r' I). symmetry. apply F. now left.
Qed.

Lemma regular_2d rows n : Forall (fun r => length r = n) rows -> regular [length rows; n] (grid rows).
Proof.
  intro F. unfold grid. split; [apply map_length|]. apply Forall_forall. intros b Ib. apply in_map_iff in Ib. destruct Ib as (r & <- & Ir).
  rewrite Forall_forall in F. rewrite <- (F r Ir). apply regular_1d.
Qed.

Lemma selects_2d result index1 index2 start1 start2 rows a : is_entry_2d result index1 index2 start1 start2 rows a <->
  selects result [index1; index2] [start1; start2] (grid rows) a.
Proof.
  unfold is_entry_2d, selects. cbn [map]. split.
  - intros (i & row & j & v & Ei & Ej & X1 & X2 & R). exists v. split; [|assumption]. unfold grid. cbn [pick].
    assert (E : slice (var_value a index1) start1 (grid rows) = Some (Slices (map Entry row))).
    { apply slice_spec. exists (map (fun r => Slices (map Entry r)) rows), i. rewrite nth_error_map, Ei. auto. }
    unfold grid in E. rewrite E. apply pick_1d. eauto.
  - intros (v & P & R). change (pick [var_value a index1; var_value a index2] [start1; start2] (grid rows)) with
      (match slice (var_value a index1) start1 (grid rows) with Some b => pick [var_value a index2] [start2] b | None => None end) in P.
    destruct (slice (var_value a index1) start1 (grid rows)) as [b|] eqn:E; [|discriminate]. apply slice_spec in E. destruct E as (xs & i & Ex & Ei & X1).
    injection Ex as <-. rewrite nth_error_map in Ei. destruct (nth_error rows i) as [row|] eqn:Er; [|discriminate]. injection Ei as <-.
    apply pick_1d in P. destruct P as (j & Ej & X2). eauto 10.
Qed.

Lemma cells_2d rows : same_lengths rows = true -> all_cells 2 (grid rows) = concat rows.
Proof.
  intro S. destruct (same_lengths_spec rows S) as (n & F & N). destruct rows as [|r0 rest]; [reflexivity|]. specialize (N ltac:(discriminate)).
  set (rows := r0 :: rest) in *. clearbody rows. unfold all_cells. cbn [seq map repeat]. rewrite <- N. clear N. 
  change (dimension_size 0 (grid rows)) with (length (map (fun r => Slices (map Entry r)) rows)).
  change (cells [zrange 0 (Z.of_nat (length (map (fun r => Slices (map Entry r)) rows)) - 1); zrange 0 (Z.of_nat n - 1)] [0; 0] (grid rows)) with
    (flat_map (fun x => match slice x 0 (Slices (map (fun r => Slices (map Entry r)) rows)) with Some b => cells [zrange 0 (Z.of_nat n - 1)] [0] b | None => [] end)
      (zrange 0 (Z.of_nat (length (map (fun r => Slices (map Entry r)) rows)) - 1))).
  rewrite (all_slices (fun b => cells [zrange 0 (Z.of_nat n - 1)] [0] b)). clear S r0 rest. induction F as [|r rows L F IH]; [reflexivity|]. cbn [map flat_map concat]. rewrite IH. f_equal.
  rewrite <- L. transitivity (all_cells 1 (Slices (map Entry r))); [|apply cells_1d]. unfold all_cells. cbn [seq map repeat dimension_size]. now rewrite map_length.
Qed.

Lemma element_2d_correct d0 bounds_only result index1 index2 start1 start2 rows k : domains_ok d0 -> Forall (var_known d0) (result :: index1 :: index2 :: concat rows) ->
  element_2d bounds_only result index1 index2 start1 start2 rows = Some k ->
  correct_on d0 k (result :: index1 :: index2 :: concat rows) (is_entry_2d result index1 index2 start1 start2 rows).
Proof.
  intros H0 K0 E. unfold element_2d in E. destruct (same_lengths rows) eqn:S; [|discriminate]. injection E as <-.
  destruct (same_lengths_spec rows S) as (n & F & _).
  pose proof (element_nd_correct result [index1; index2] [start1; start2] [length rows; n] (grid rows) eq_refl eq_refl (regular_2d rows n F) d0 bounds_only
    (is_entry_2d result index1 index2 start1 start2 rows) H0) as C. cbn [length app] in C. rewrite (cells_2d rows S) in C. apply C; auto with arith. intro a. apply selects_2d.
Qed.

(** ** Consistency in one and two dimensions *)

Lemma nonempty_1d array : array <> [] -> existsb (fun k => Nat.eqb (dimension_size k (Slices (map Entry array))) 0) (seq 0 1) = false.
Proof. intro N. cbn. rewrite map_length. destruct array; [contradiction|reflexivity]. Qed.

Lemma element_consistent d0 D result index start array : domains_ok d0 -> Forall (var_known d0) (result :: index :: array) -> array <> [] ->
  NoDup (underlying_list (result :: index :: array)) -> domains_ok D -> length D = length d0 -> inside d0 D ->
  (forall p, In p (fst (element false result index start array d0)) -> rerun_is_quiet p D) ->
  domain_consistent D (result :: index :: array) (is_entry result index start array).
Proof.
  intros H0 K0 Na ND HD LD ID Q. pose proof (nonempty_1d array Na) as Ne.
  pose proof (posted_consistent result [index] [start] [length array] (Slices (map Entry array)) eq_refl eq_refl (regular_1d array)) as C.
  cbn [length app] in C. rewrite cells_1d in C.
  apply (domain_consistent_ext _ _ _ _ _ (incl_refl _) (fun a => proj2 (selects_1d result index start array a))). apply (C (full_dimensions [index] [start] [length array] _ eq_refl eq_refl (regular_1d array) Ne) d0); auto.
Qed.

Lemma element_bounds_consistent d0 D result index start array : domains_ok d0 -> Forall (var_known d0) (result :: index :: array) -> array <> [] ->
  NoDup (underlying_list (result :: index :: array)) -> domains_ok D -> length D = length d0 -> inside d0 D ->
  (forall p, In p (fst (element true result index start array d0)) -> rerun_is_quiet p D) ->
  domain_consistent D [index] (is_entry result index start array) /\
  forall x, x = lower_bound D result \/ x = upper_bound D result ->
    exists i v, nth_error array i = Some v /\ (exists a, within a D /\ var_value a index = start + Z.of_nat i) /\ between_bounds D v x.
Proof.
  intros H0 K0 Na ND HD LD ID Q. pose proof (nonempty_1d array Na) as Ne.
  pose proof (full_dimensions [index] [start] [length array] _ eq_refl eq_refl (regular_1d array) Ne) as Nz.
  pose proof (indices_consistent result [index] [start] [length array] (Slices (map Entry array)) eq_refl eq_refl (regular_1d array)) as C.
  pose proof (posted_bounds result [index] [start] [length array] (Slices (map Entry array)) eq_refl eq_refl (regular_1d array)) as B.
  cbn [length app] in C, B. rewrite cells_1d in C, B. split.
  - apply (domain_consistent_ext _ _ _ _ _ (incl_refl _) (fun a => proj2 (selects_1d result index start array a))). apply (C Nz d0 D) with (bounds_only := true); auto.
  - intros x X. destruct (B Nz d0 D) with (x := x) as (ys & w & F & P & Bx); auto.
    inversion F as [|? y ? ys' My F']; subst. inversion F'; subst. apply pick_1d in P. destruct P as (i & Ei & ->). exists i, w. split; [assumption|]. split; [|assumption].
    apply view_member_iff; auto. apply (var_below_known (length d0)); auto. apply Forall_cons_iff in K0. destruct K0 as [_ K0]. apply Forall_cons_iff in K0. now apply (known_below_more d0).
Qed.

Lemma nonempty_2d (rows : list (list var_id)) n : Forall (fun r => length r = n) rows -> concat rows <> [] -> Forall (fun n => n <> 0%nat) [length rows; n].
Proof.
  intros F N. constructor; [|constructor; [|constructor]].
  - intro E. destruct rows; [now apply N|discriminate].
  - intros ->. apply N. clear N. induction F as [|r rows L _ IH]; [reflexivity|]. destruct r; [exact IH|discriminate].
Qed.

Lemma no_empty_dimension (indices : list var_id) sizes arr : length indices = length sizes -> regular sizes arr -> Forall (fun n => n <> 0%nat) sizes ->
  existsb (fun k => Nat.eqb (dimension_size k arr) 0) (seq 0 (length indices)) = false.
Proof.
  intros L R N. destruct (existsb _ _) eqn:E; [|reflexivity]. exfalso. apply existsb_exists in E. destruct E as (k & Ik & Z0). apply in_seq in Ik. apply Nat.eqb_eq in Z0.
  rewrite Forall_forall in N. rewrite (dimension_size_regular sizes) in Z0; auto; [|intros j Hj; apply N, nth_In; lia|lia].
  apply (N (nth k sizes 0%nat)); auto. apply nth_In. lia.
Qed.

Lemma element_2d_consistent d0 D result index1 index2 start1 start2 rows k : domains_ok d0 -> Forall (var_known d0) (result :: index1 :: index2 :: concat rows) ->
  element_2d false result index1 index2 start1 start2 rows = Some k -> concat rows <> [] ->
  NoDup (underlying_list (result :: index1 :: index2 :: concat rows)) -> domains_ok D -> length D = length d0 -> inside d0 D ->
  (forall p, In p (fst (k d0)) -> rerun_is_quiet p D) ->
  domain_consistent D (result :: index1 :: index2 :: concat rows) (is_entry_2d result index1 index2 start1 start2 rows).
Proof.
  intros H0 K0 E Na ND HD LD ID Q. unfold element_2d in E. destruct (same_lengths rows) eqn:S; [|discriminate]. injection E as <-.
  destruct (same_lengths_spec rows S) as (n & F & _). pose proof (nonempty_2d rows n F Na) as Nz.
  pose proof (no_empty_dimension [index1; index2] [length rows; n] (grid rows) eq_refl (regular_2d rows n F) Nz) as Ne.
  pose proof (posted_consistent result [index1; index2] [start1; start2] [length rows; n] (grid rows) eq_refl eq_refl (regular_2d rows n F) Nz d0 D) as C.
  cbn [length app] in C. rewrite (cells_2d rows S) in C.
  apply (domain_consistent_ext _ _ _ _ _ (incl_refl _) (fun a => proj2 (selects_2d result index1 index2 start1 start2 rows a))). apply C; auto.
Qed.
