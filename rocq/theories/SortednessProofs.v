(** Lemmas about sorting. *)
From Coq Require Import ZArith List Bool Arith Lia Permutation Sorted FinFun.
From Verif Require Import IntervalSet IntervalSetSpec IntervalSetProofs Vars VarsSpec VarsProofs State StateSpec StateProofs Epochs
  Engine EngineSpec EngineProofs SessionSpec SessionInvProofs Tracker ContractSpec ContractProofs RunProofs PartsProofs ConsistencySpec
  QuietProofs Passes PassesProofs OnceProofs MultiplyProofs AllDifferent AllDifferentProofs SortednessSpec Sortedness SortRoundProofs.
Import ListNotations.
Local Open Scope Z_scope.

(** ** Lists and positions *)
Definition arranged (n : nat) (X Y : nat -> Z) (M : nat -> nat) : Prop :=
  (forall j, (S j < n)%nat -> Y j <= Y (S j)) /\ (forall i, (i < n)%nat -> (M i < n)%nat) /\
  (forall i j, (i < n)%nat -> (j < n)%nat -> M i = M j -> i = j) /\ (forall i, (i < n)%nat -> X i = Y (M i)).

Lemma arranged_iff xs ys : length xs = length ys ->
  (sorted_version xs ys <-> exists M, arranged (length xs) (fun i => nth i xs 0) (fun j => nth j ys 0) M).
Proof.
  intro L. unfold sorted_version. rewrite sorted_nth. split.
  - intros [P S]. apply Permutation_sym in P. apply (proj1 (Permutation_nth ys xs 0)) in P. cbv zeta in P. destruct P as (_ & M & B & I & A).
    exists M. split; [intros j Hj; apply S; lia|]. rewrite <- L in *. split; [exact B|]. split; [|exact A]. intros i j Hi Hj E. now apply I.
  - intros (M & O & B & I & A). split; [|intros j Hj; apply O; lia].
    apply Permutation_sym, (proj2 (Permutation_nth ys xs 0)). cbv zeta. rewrite <- L. split; [reflexivity|]. exists M. auto.
Qed.

Lemma sorted_lengths xs ys : sorted_version xs ys -> length xs = length ys.
Proof. intros [P _]. now apply Permutation_length. Qed.

Lemma handle_value a vs i : nth i (map (var_value a) vs) 0 = var_value a (handle vs i).
Proof. unfold handle. change 0 with (var_value a (VConst 0)) at 1. apply map_nth. Qed.

Lemma arranged_ext n X Y X' Y' M : (forall i, (i < n)%nat -> X i = X' i) -> (forall j, (j < n)%nat -> Y j = Y' j) -> arranged n X Y M -> arranged n X' Y' M.
Proof.
  intros EX EY (O & B & I & A). split; [intros j Hj; rewrite <- !EY by lia; auto|]. split; [assumption|]. split; [assumption|].
  intros i Hi. rewrite <- EX, <- EY by auto. auto.
Qed.

Lemma sorts_iff xs ys a : length xs = length ys ->
  (sorts xs ys a <-> exists M, arranged (length xs) (fun i => var_value a (handle xs i)) (fun j => var_value a (handle ys j)) M).
Proof.
  intro L. unfold sorts. rewrite arranged_iff by (now rewrite !map_length). rewrite map_length.
  split; intros (M & A); exists M; revert A; apply arranged_ext; intros; now rewrite handle_value.
Qed.

Lemma sorts_ext xs ys a b : Forall (fun v => var_value a v = var_value b v) (xs ++ ys) -> sorts xs ys a -> sorts xs ys b.
Proof.
  intros F. apply Forall_app in F. destruct F as [Fx Fy]. unfold sorts.
  assert (E : forall vs, Forall (fun v => var_value a v = var_value b v) vs -> map (var_value a) vs = map (var_value b) vs).
  { intros vs F. apply map_ext_in. now apply Forall_forall. }
  now rewrite (E xs Fx), (E ys Fy).
Qed.

(** ** The round for domains *)
Section Sort.
Variable nv : nat.
Variables xs ys : list var_id.
Hypothesis Len : length xs = length ys.
Hypothesis Bx : Forall (var_below nv) xs.
Hypothesis By : Forall (var_below nv) ys.
Notation n := (length xs).

Definition fits (d : domains) : (nat -> Z) -> (nat -> Z) -> (nat -> nat) -> Prop :=
  solution n (fun i => lower_bound d (handle xs i)) (fun i => upper_bound d (handle xs i))
    (fun j => lower_bound d (handle ys j)) (fun j => upper_bound d (handle ys j)).

Lemma fits_arranged d X Y M : fits d X Y M -> arranged n X Y M.
Proof. intros [A B C D E F]. repeat split; assumption. Qed.

Lemma arranged_fits d X Y M : arranged n X Y M -> (forall i, (i < n)%nat -> between_bounds d (handle xs i) (X i)) ->
  (forall j, (j < n)%nat -> between_bounds d (handle ys j) (Y j)) -> fits d X Y M.
Proof. intros (A & B & C & D) E F. constructor; assumption. Qed.

Variable d : domains.
Hypothesis Hd : domains_ok d.
Hypothesis Ld : length d = nv.

Lemma x_known i : var_known d (handle xs i).
Proof. apply (known_here nv); auto. now apply handle_below. Qed.

Lemma y_known i : var_known d (handle ys i).
Proof. apply (known_here nv); auto. now apply handle_below. Qed.

Lemma within_fits a : within a d -> sorts xs ys a -> exists M, fits d (fun i => var_value a (handle xs i)) (fun j => var_value a (handle ys j)) M.
Proof.
  intros Wa S. apply sorts_iff in S; [|assumption]. destruct S as (M & S). exists M. apply arranged_fits; [assumption| |]; intros; apply value_bounds; auto using x_known, y_known.
Qed.

Lemma x_meets i : (i < n)%nat -> lower_bound d (handle xs i) <= upper_bound d (handle xs i).
Proof. intros _. apply lower_le_upper; auto using x_known. Qed.

Lemma news_known l : news n (fun i => lower_bound d (handle xs i)) (fun i => upper_bound d (handle xs i))
    (fun j => lower_bound d (handle ys j)) (fun j => upper_bound d (handle ys j)) (handle xs) (handle ys) l -> lit_below nv l.
Proof. intros []; cbn [lit_below]; try exact Logic.I; now apply handle_below. Qed.

(** Something new is not true everywhere. *)
Lemma news_new l : news n (fun i => lower_bound d (handle xs i)) (fun i => upper_bound d (handle xs i))
    (fun j => lower_bound d (handle ys j)) (fun j => upper_bound d (handle ys j)) (handle xs) (handle ys) l -> exists a, within a d /\ ~ lit_holds a l.
Proof.
  intros [|j L Hj H|j U Hj H|i L Hi H|i U Hi H].
  - destruct (within_exists d Hd) as (a & Wa). exists a. split; [assumption|]. intros [].
  - destruct (lower_at d _ Hd (y_known j)) as (a & Wa & E). exists a. split; [assumption|]. rewrite lit_ge. lia.
  - destruct (upper_at d _ Hd (y_known j)) as (a & Wa & E). exists a. split; [assumption|]. rewrite lit_lt. lia.
  - destruct (lower_at d _ Hd (x_known i)) as (a & Wa & E). exists a. split; [assumption|]. rewrite lit_ge. lia.
  - destruct (upper_at d _ Hd (x_known i)) as (a & Wa & E). exists a. split; [assumption|]. rewrite lit_lt. lia.
Qed.

Lemma inferred_holds ls l a : sort_inferences xs ys d = Some ls -> In l ls -> within a d -> sorts xs ys a -> lit_holds a l.
Proof.
  intros E I Wa S. destruct (within_fits a Wa S) as (M & F). pose proof (round_true _ _ _ _ _ _ _ ls l _ _ M F E I) as T.
  inversion T; subst; try (apply lit_ge; assumption); apply lit_lt; lia.
Qed.

(** Nothing to say: every bound is attained. *)
Lemma nothing_said : sort_inferences xs ys d = Some [] -> forall k, (k < n)%nat ->
  (exists X Y M, fits d X Y M /\ Y k = lower_bound d (handle ys k)) /\ (exists X Y M, fits d X Y M /\ Y k = upper_bound d (handle ys k)) /\
  (exists X Y M, fits d X Y M /\ X k = lower_bound d (handle xs k)) /\ (exists X Y M, fits d X Y M /\ X k = upper_bound d (handle xs k)).
Proof.
  intros E k Hk. destruct (round_best _ _ _ _ _ _ _ x_meets [] E (fun F => F) k Hk) as ((X1 & Y1 & M1 & F1 & C1) & (X2 & Y2 & M2 & F2 & C2) & (X3 & Y3 & M3 & F3 & C3) & (X4 & Y4 & M4 & F4 & C4)).
  destruct C1 as [C1|[]], C2 as [C2|[]], C3 as [C3|[]], C4 as [C4|[]]. repeat split; eauto 6.
Qed.
End Sort.

Lemma never_throws xs ys d : sort_inferences xs ys d <> None.
Proof. apply round_total. Qed.

Section Pass.
Variable nv : nat.
Variables xs ys : list var_id.
Hypothesis Len : length xs = length ys.
Hypothesis Bx : Forall (var_below nv) xs.
Hypothesis By : Forall (var_below nv) ys.
Notation n := (length xs).

Definition say (d : domains) (rest : prog) : prog := match sort_inferences xs ys d with Some ls => sequence ls Infer rest | None => rest end.

Lemma pass_say : sort_pass xs ys = Look (fun d => say d Stop).
Proof. reflexivity. Qed.

Lemma sort_tells D (P : assignment -> Prop) : (forall a, P a -> sorts xs ys a) -> tells nv D P (sort_pass xs ys).
Proof.
  intro HP. rewrite pass_say. assert (G : goes nv D P (fun rest => Look (fun d => say d rest))).
  { apply goes_look. intros d Hd Ld Id. unfold say. destruct (sort_inferences xs ys d) as [ls|] eqn:E; [|apply goes_id].
    apply goes_sequence. intros l I. apply goes_infer.
    - apply (news_known nv xs ys Bx By d). exact (round_news _ _ _ _ _ _ _ ls l E I).
    - intros a [Pa Wa]. apply (inferred_holds nv xs ys Len Bx By d Hd Ld ls); auto. }
  exact (G D P Stop (fun a H => H) (inside_refl D) (fun _ _ => Logic.I)).
Qed.

Lemma fits_fixed d a X Y M : domains_ok d -> length d = nv -> within a d -> Forall (fixed d) (xs ++ ys) -> fits xs ys d X Y M -> sorts xs ys a.
Proof.
  intros Hd Ld Wa F So. apply Forall_app in F. destruct F as [Fx Fy]. rewrite Forall_forall in Fx, Fy. apply sorts_iff; [assumption|]. exists M.
  apply (arranged_ext n X Y); [| |exact (fits_arranged _ _ _ _ _ _ So)].
  - intros i Hi. pose proof (so_x _ _ _ _ _ _ _ _ So i Hi) as B. cbv beta in B.
    destruct (fixed_bounds d (handle xs i) a Hd (x_known nv xs Bx d Ld i) (Fx _ (nth_In _ _ Hi)) Wa) as [E1 E2]. lia.
  - intros i Hi. pose proof (so_y _ _ _ _ _ _ _ _ So i Hi) as B. cbv beta in B. rewrite Len in Hi.
    destruct (fixed_bounds d (handle ys i) a Hd (y_known nv ys By d Ld i) (Fy _ (nth_In _ _ Hi)) Wa) as [E1 E2]. lia.
Qed.

Lemma obeys_all nvv a ls d : domains_ok d -> length d = nvv -> within a d -> obeys nvv a (sequence ls Infer Stop) d -> forall l, In l ls -> lit_holds a l.
Proof.
  intros Hd Ld Wa O l I. destruct (passes_sequence nvv a Infer (fun l _ => lit_holds a l) ls) with (2 := Hd) (3 := Ld) (4 := Wa) (5 := O) as [X _].
  - intros l' _. apply passes_infer.
  - destruct (X l I) as (_ & _ & _ & _ & _ & H). exact H.
Qed.

Lemma sort_obeyed d a : domains_ok d -> length d = nv -> (0 < n)%nat -> Forall (fixed d) (xs ++ ys) -> within a d -> obeys nv a (sort_pass xs ys) d -> sorts xs ys a.
Proof.
  intros Hd Ld Hn F Wa O. rewrite pass_say in O.
  assert (P : passes nv a (fun rest => Look (fun d' => say d' rest)) (fun d' => Forall (fixed d') (xs ++ ys) -> within a d' -> sorts xs ys a)).
  { apply (passes_look nv a _ (fun d' _ => Forall (fixed d') (xs ++ ys) -> within a d' -> sorts xs ys a)). intros d' Hd' Ld'. unfold say.
    destruct (sort_inferences xs ys d') as [ls|] eqn:E; [|now apply never_throws in E].
    eapply passes_weaken; [|apply (passes_sequence nv a Infer (fun l _ => lit_holds a l) ls); intros l _; apply passes_infer].
    cbv beta. intros d2 _ _ _ T F' Wa'. assert (ls = []) as ->.
    { destruct ls as [|l r]; [reflexivity|]. exfalso. pose proof (round_news _ _ _ _ _ _ _ _ l E (or_introl eq_refl)) as N.
      destruct (news_new nv xs ys Len Bx By d' Hd' Ld' l N) as (b & Wb & Nb). apply Nb. destruct (T l (or_introl eq_refl)) as (_ & _ & _ & _ & _ & H).
      apply Forall_app in F'. destruct F' as [Fx Fy]. rewrite Forall_forall in Fx, Fy.
      assert (Same : forall v, In v xs \/ In v ys -> var_value b v = var_value a v) by (intros v [I|I]; [destruct (Fx v I) as (x & Q)|destruct (Fy v I) as (x & Q)]; now rewrite (Q a Wa'), (Q b Wb)).
      inversion N as [Q|j L Hj _ Q|j U Hj _ Q|i L Hi _ Q|i U Hi _ Q]; subst l; [exact H| | | |].
      - apply lit_ge. apply lit_ge in H. rewrite Same; [assumption|]. right. apply nth_In. lia.
      - apply lit_lt. apply (proj1 (lit_lt _ _ _)) in H. rewrite Same; [assumption|]. right. apply nth_In. lia.
      - apply lit_ge. apply lit_ge in H. rewrite Same; [assumption|]. left. now apply nth_In.
      - apply lit_lt. apply (proj1 (lit_lt _ _ _)) in H. rewrite Same; [assumption|]. left. now apply nth_In. }
    destruct (nothing_said nv xs ys Bx d' Hd' Ld' E 0%nat Hn) as ((X & Y & M & So & _) & _). now apply (fits_fixed d' a X Y M). }
  destruct (P Stop d Hd Ld Wa O) as [Q _]. auto.
Qed.

Lemma sort_rests d : domains_ok d -> length d = nv -> still (sort_pass xs ys) d -> sort_inferences xs ys d = Some [].
Proof.
  intros Hd Ld St. rewrite pass_say in St. destruct (sort_inferences xs ys d) as [ls|] eqn:E; [|now apply never_throws in E].
  assert (R : rests d (fun rest => Look (fun d' => say d' rest)) (forall l, In l ls -> forall a, within a d -> lit_holds a l)).
  { apply rests_look. unfold say. rewrite E. apply rests_sequence. intros l _. apply rests_infer. }
  destruct (R Stop St) as [T _]. destruct ls as [|l r]; [reflexivity|]. exfalso.
  destruct (news_new nv xs ys Len Bx By d Hd Ld l (round_news _ _ _ _ _ _ _ _ l E (or_introl eq_refl))) as (b & Wb & Nb). apply Nb. apply T; [now left|assumption].
Qed.

Lemma fits_list d X Y M : fits xs ys d X Y M -> exists vs, Forall2 (between_bounds d) (xs ++ ys) vs /\ half_sorts_other n vs /\
  (forall k, (k < n)%nat -> nth_error vs k = Some (X k)) /\ (forall k, (k < n)%nat -> nth_error vs (n + k) = Some (Y k)).
Proof.
  intro So. exists (map X (seq 0 n) ++ map Y (seq 0 n)).
  assert (N : forall (f : nat -> Z) k, (k < n)%nat -> nth_error (map f (seq 0 n)) k = Some (f k)).
  { intros f k Hk. rewrite (nth_error_nth' _ 0) by (now rewrite map_length, seq_length). f_equal. rewrite (nth_indep _ 0 (f 0%nat)) by (now rewrite map_length, seq_length). rewrite map_nth, seq_nth by assumption. reflexivity. }
  assert (B : forall vs (f : nat -> Z) m, (forall i, (i < length vs)%nat -> between_bounds d (nth i vs (VConst 0)) (f (m + i)%nat)) -> Forall2 (between_bounds d) vs (map f (seq m (length vs)))).
  { clear. induction vs as [|v r IH]; intros f m H; [constructor|]. cbn [length seq map]. constructor.
    - specialize (H 0%nat ltac:(simpl; lia)). cbn [nth] in H. now rewrite Nat.add_0_r in H.
    - apply IH. intros i Hi. specialize (H (S i) ltac:(simpl; lia)). cbn [nth] in H. now rewrite Nat.add_succ_r in H. }
  split; [|split; [|split]].
  - apply Forall2_app; [apply B; intros i Hi; exact (so_x _ _ _ _ _ _ _ _ So i Hi)|]. rewrite Len. apply B. intros i Hi. rewrite <- Len in Hi. exact (so_y _ _ _ _ _ _ _ _ So i Hi).
  - unfold half_sorts_other. assert (L : length (map X (seq 0 n)) = n) by (now rewrite map_length, seq_length).
    rewrite firstn_app, skipn_app, L, Nat.sub_diag, (firstn_all2 (map X (seq 0 n))), (skipn_all2 (map X (seq 0 n))) by lia. cbn [firstn skipn app]. rewrite app_nil_r.
    apply arranged_iff; [now rewrite !map_length|]. rewrite L. exists M. apply (arranged_ext n X Y); [| |exact (fits_arranged _ _ _ _ _ _ So)].
    + intros i Hi. symmetry. apply nth_error_nth. now apply N.
    + intros i Hi. symmetry. apply nth_error_nth. now apply N.
  - intros k Hk. rewrite nth_error_app1 by (now rewrite map_length, seq_length). now apply N.
  - intros k Hk. rewrite nth_error_app2 by (rewrite map_length, seq_length; lia). rewrite map_length, seq_length. replace (n + k - n)%nat with k by lia. now apply N.
Qed.

Lemma between_nth d us vs : Forall2 (between_bounds d) us vs -> forall k v x, nth_error us k = Some v -> nth_error vs k = Some x -> between_bounds d v x.
Proof. intro F. induction F; intros [|k] v z E E'; try discriminate; cbn [nth_error] in *; [now inversion E; inversion E'; subst|]. now apply (IHF k). Qed.

Lemma between_length d us vs : Forall2 (between_bounds d) us vs -> length us = length vs.
Proof. intro F. induction F; simpl; congruence. Qed.

Lemma list_fits d vs : Forall2 (between_bounds d) (xs ++ ys) vs -> half_sorts_other n vs -> exists X Y M, fits xs ys d X Y M.
Proof.
  intros F H. unfold half_sorts_other in H. pose proof (sorted_lengths _ _ H) as L.
  assert (Lv : length vs = (n + n)%nat) by (rewrite <- (between_length d _ _ F), app_length; lia).
  apply arranged_iff in H; [|assumption]. rewrite firstn_length_le in H by lia. destruct H as (M & A). eexists _, _, M. apply arranged_fits; [exact A| |].
  - intros i Hi. cbv beta. assert (E : nth_error (xs ++ ys) i = Some (handle xs i)) by (rewrite nth_error_app1 by assumption; now apply nth_error_nth').
    assert (E' : nth_error vs i = Some (nth i (firstn n vs) 0)).
    { rewrite <- (firstn_skipn n vs) at 1. rewrite nth_error_app1 by (rewrite firstn_length_le; lia). apply nth_error_nth'. rewrite firstn_length_le; lia. }
    exact (between_nth d _ _ F _ _ _ E E').
  - intros i Hi. cbv beta. assert (E : nth_error (xs ++ ys) (n + i) = Some (handle ys i)) by (rewrite nth_error_app2 by lia; replace (n + i - n)%nat with i by lia; apply nth_error_nth'; lia).
    assert (E' : nth_error vs (n + i) = Some (nth i (skipn n vs) 0)).
    { rewrite <- (firstn_skipn n vs) at 1. rewrite nth_error_app2 by (rewrite firstn_length_le; lia). rewrite firstn_length_le by lia. replace (n + i - n)%nat with i by lia. apply nth_error_nth'. rewrite skipn_length. lia. }
    exact (between_nth d _ _ F _ _ _ E E').
Qed.
End Pass.

(** ** The constraint *)
Section Whole.
Variable d0 : domains.
Variables xs ys : list var_id.
Hypothesis H0 : domains_ok d0.
Hypothesis K : Forall (var_known d0) (xs ++ ys).

Lemma sort_refused : sort xs ys = None <-> length xs <> length ys.
Proof. unfold sort. destruct (Nat.eqb_spec (length xs) (length ys)); cbn [negb]; split; congruence. Qed.

Lemma all_below nv : (length d0 <= nv)%nat -> Forall (var_below nv) xs /\ Forall (var_below nv) ys.
Proof.
  intro Ln. apply Forall_app in K. destruct K as [Kx Ky]. split; (eapply Forall_impl; [|eassumption]); intros v Kv; now apply (known_below_more d0).
Qed.

Lemma sort_posts : posts d0 (sort xs ys) (xs ++ ys) (sorts xs ys).
Proof.
  unfold sort. destruct (Nat.eqb_spec (length xs) (length ys)) as [Len|N]; cbn [negb posts].
  - apply (parts_correct d0 _ _ _ (sorts xs ys) (fun _ => True)); [assumption| | |auto].
    + destruct xs as [|x r] eqn:E; cbn [fst].
      * destruct ys; [|discriminate]. eapply carried_ext; [|apply carried_nil]. intros a _ _. split; constructor.
      * rewrite <- E in *. apply (carried_body d0 _ (xs ++ ys)); [assumption|apply incl_refl|cbn [app]; rewrite app_nil_r; apply incl_refl|].
        intros nv Ln. destruct (all_below nv Ln) as [Bx By]. apply once_meets.
        -- intros d Hd Ld Id. apply sort_tells; auto. tauto.
        -- intros d a Hd Ld Id F Wa O. apply (sort_obeyed nv xs ys Len Bx By d a); auto. rewrite E. simpl. lia.
    + destruct xs; apply established_nil.
  - intros a S. apply sorted_lengths in S. rewrite !map_length in S. contradiction.
Qed.

Lemma sort_quiet k d : sort xs ys = Some k -> domains_ok d -> length d = length d0 -> inside d0 d ->
  Forall (fun p => rerun_is_quiet p d) (fst (k d0)) -> bounds_consistent d (xs ++ ys) (half_sorts_other (length xs)).
Proof.
  unfold sort. destruct (Nat.eqb_spec (length xs) (length ys)) as [Len|N]; cbn [negb]; [|discriminate]. intros E Hd Ld Id Q. injection E as <-.
  destruct (all_below (length d0) (Nat.le_refl _)) as [Bx By].
  intros k v x E B. assert (Hk : (k < length (xs ++ ys))%nat) by (apply nth_error_Some; congruence). rewrite app_length in Hk.
  assert (Q' : rerun_is_quiet (body_propagator (once (sort_pass xs ys)) [] (xs ++ ys) []) d).
  { destruct xs; [destruct ys; [simpl in Hk; lia|discriminate]|]. now inversion Q. }
  pose proof (quiet_still (length d0) d Hd Ld _ (sorts xs ys) _ _ _ (sort_tells (length d0) xs ys Len Bx By d (sorts xs ys) (fun a H => H)) Q') as St.
  pose proof (sort_rests (length d0) xs ys Len Bx By d Hd Ld St) as R.
  destruct (Nat.lt_ge_cases k (length xs)) as [Lk|Lk].
  - rewrite nth_error_app1 in E by assumption. assert (v = handle xs k) as -> by (unfold handle; symmetry; now apply nth_error_nth).
    destruct (nothing_said (length d0) xs ys Bx d Hd Ld R k Lk) as (_ & _ & (X1 & Y1 & M1 & F1 & E1) & (X2 & Y2 & M2 & F2 & E2)).
    destruct B as [->| ->]; [destruct (fits_list xs ys Len d X1 Y1 M1 F1) as (vs & A & S & Nx & Ny); rewrite <- E1|destruct (fits_list xs ys Len d X2 Y2 M2 F2) as (vs & A & S & Nx & Ny); rewrite <- E2]; eauto.
  - rewrite nth_error_app2 in E by assumption. assert (v = handle ys (k - length xs)) as -> by (unfold handle; symmetry; now apply nth_error_nth).
    destruct (nothing_said (length d0) xs ys Bx d Hd Ld R (k - length xs)%nat ltac:(lia)) as ((X1 & Y1 & M1 & F1 & E1) & (X2 & Y2 & M2 & F2 & E2) & _).
    pose proof (Nat.add_sub_assoc (length xs) k (length xs) Lk) as Z. assert (Ek : (length xs + (k - length xs) = k)%nat) by lia.
    destruct B as [->| ->]; [destruct (fits_list xs ys Len d X1 Y1 M1 F1) as (vs & A & S & Nx & Ny); rewrite <- E1|destruct (fits_list xs ys Len d X2 Y2 M2 F2) as (vs & A & S & Nx & Ny); rewrite <- E2];
      specialize (Ny (k - length xs)%nat ltac:(lia)); rewrite Ek in Ny; eauto.
Qed.
End Whole.

(** One round is enough. *)
Lemma sort_one_round xs ys d : domains_ok d -> Forall (var_known d) (xs ++ ys) -> length xs = length ys ->
  exists ls, sort_inferences xs ys d = Some ls /\
  ((ls = [LFalse] /\ forall vs, Forall2 (between_bounds d) (xs ++ ys) vs -> ~ half_sorts_other (length xs) vs) \/
   (forall k v, nth_error (xs ++ ys) k = Some v ->
     (exists vs x, Forall2 (between_bounds d) (xs ++ ys) vs /\ half_sorts_other (length xs) vs /\ nth_error vs k = Some x /\ (x = lower_bound d v \/ In (LCond (cond_ge v x)) ls)) /\
     (exists vs x, Forall2 (between_bounds d) (xs ++ ys) vs /\ half_sorts_other (length xs) vs /\ nth_error vs k = Some x /\ (x = upper_bound d v \/ In (LCond (cond_lt v (x + 1))) ls)))).
Proof.
  intros Hd K Len. destruct (all_below d xs ys K (length d) (Nat.le_refl _)) as [Bx By].
  destruct (sort_inferences xs ys d) as [ls|] eqn:E; [|now apply never_throws in E]. exists ls. split; [reflexivity|].
  assert (Dec : In LFalse ls \/ ~ In LFalse ls).
  { clear. induction ls as [|l r IH]; [right; intros []|]. destruct l as [c| |].
    - destruct IH as [I|N]; [left; now right|right; intros [Q|I]; [discriminate|auto]].
    - destruct IH as [I|N]; [left; now right|right; intros [Q|I]; [discriminate|auto]].
    - left. now left. }
  destruct Dec as [I|N].
  - left. destruct (round_fails _ _ _ _ _ _ _ (x_meets (length d) xs Bx d Hd eq_refl) ls E I) as [-> F]. split; [reflexivity|]. intros vs B S.
    destruct (list_fits xs ys Len d vs B S) as (X & Y & M & So). exact (F X Y M So).
  - right. pose proof (round_best _ _ _ _ _ _ _ (x_meets (length d) xs Bx d Hd eq_refl) ls E N) as RB. intros k v Ek.
    assert (Hk : (k < length (xs ++ ys))%nat) by (apply nth_error_Some; congruence). rewrite app_length in Hk.
    destruct (Nat.lt_ge_cases k (length xs)) as [Lk|Lk].
    + rewrite nth_error_app1 in Ek by assumption. assert (v = handle xs k) as -> by (unfold handle; symmetry; now apply nth_error_nth).
      destruct (RB k Lk) as (_ & _ & (X1 & Y1 & M1 & F1 & C1) & (X2 & Y2 & M2 & F2 & C2)).
      split; [destruct (fits_list xs ys Len d X1 Y1 M1 F1) as (vs & A & S & Nx & Ny); exists vs, (X1 k)|destruct (fits_list xs ys Len d X2 Y2 M2 F2) as (vs & A & S & Nx & Ny); exists vs, (X2 k)]; auto.
    + rewrite nth_error_app2 in Ek by assumption. assert (v = handle ys (k - length xs)) as -> by (unfold handle; symmetry; now apply nth_error_nth).
      assert (Ez : (length xs + (k - length xs) = k)%nat) by lia.
      destruct (RB (k - length xs)%nat ltac:(lia)) as ((X1 & Y1 & M1 & F1 & C1) & (X2 & Y2 & M2 & F2 & C2) & _).
      split; [destruct (fits_list xs ys Len d X1 Y1 M1 F1) as (vs & A & S & Nx & Ny); exists vs, (Y1 (k - length xs)%nat)|destruct (fits_list xs ys Len d X2 Y2 M2 F2) as (vs & A & S & Nx & Ny); exists vs, (Y2 (k - length xs)%nat)];
        specialize (Ny (k - length xs)%nat ltac:(lia)); rewrite Ez in Ny; auto.
Qed.

Lemma sort_correct d0 xs ys k : domains_ok d0 -> Forall (var_known d0) (xs ++ ys) -> sort xs ys = Some k -> correct_on d0 k (xs ++ ys) (sorts xs ys).
Proof. intros H0 K E. pose proof (sort_posts d0 xs ys K) as P. rewrite E in P. exact P. Qed.
