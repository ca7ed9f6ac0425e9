(** Lemmas about a round of the propagation of sortedness. *)
From Coq Require Import ZArith List Bool Arith Lia Permutation Sorted.
From Verif Require Import IntervalSet Vars State Epochs Engine Tracker Scc Sortedness SortBandProofs.
Import ListNotations.
Local Open Scope Z_scope.

(** ** Running bounds *)
Lemma highest_mono f j k : (j <= k)%nat -> highest_so_far f j <= highest_so_far f k.
Proof. induction 1 as [|k _ IH]; [lia|]. cbn [highest_so_far]. lia. Qed.

Lemma highest_own f j : f j <= highest_so_far f j.
Proof. destruct j; cbn [highest_so_far]; lia. Qed.

Lemma highest_least f (Y : nat -> Z) n : (forall j, (S j < n)%nat -> Y j <= Y (S j)) -> (forall j, (j < n)%nat -> f j <= Y j) -> forall j, (j < n)%nat -> highest_so_far f j <= Y j.
Proof.
  intros M B. induction j as [|j IH]; intro H; cbn [highest_so_far]; [now apply B|]. pose proof (B (S j) H). pose proof (M j H). specialize (IH ltac:(lia)). lia.
Qed.

Lemma uy_step n f j : (S j < n)%nat -> uy n f j = Z.min (f j) (uy n f (S j)).
Proof. intro H. unfold uy. replace (n - 1 - j)%nat with (S (n - 1 - S j)) by lia. reflexivity. Qed.

Lemma uy_last n f j : S j = n -> uy n f j = f j.
Proof. intro H. unfold uy. replace (n - 1 - j)%nat with 0%nat by lia. reflexivity. Qed.

Lemma uy_own n f j : (j < n)%nat -> uy n f j <= f j.
Proof. intro H. destruct (Nat.eq_dec (S j) n) as [E|E]; [rewrite uy_last by assumption; lia|]. rewrite uy_step by lia. lia. Qed.

Lemma uy_mono n f j k : (j <= k)%nat -> (k < n)%nat -> uy n f j <= uy n f k.
Proof. induction 1 as [|k _ IH]; intro H; [lia|]. specialize (IH ltac:(lia)). rewrite (uy_step n f k) in IH by lia. lia. Qed.

Lemma uy_greatest n f (Y : nat -> Z) : (forall j, (S j < n)%nat -> Y j <= Y (S j)) -> (forall j, (j < n)%nat -> Y j <= f j) -> forall j, (j < n)%nat -> Y j <= uy n f j.
Proof.
  intros M B j H. remember (n - 1 - j)%nat as k eqn:E. revert j H E. induction k as [|k IH]; intros j H E.
  - rewrite uy_last by lia. now apply B.
  - rewrite uy_step by lia. pose proof (IH (S j) ltac:(lia) ltac:(lia)). pose proof (M j ltac:(lia)). pose proof (B j H). lia.
Qed.

Lemma ascending (Y : nat -> Z) n : (forall j, (S j < n)%nat -> Y j <= Y (S j)) -> forall j k, (j <= k)%nat -> (k < n)%nat -> Y j <= Y k.
Proof. intros M j k. induction 1 as [|k _ IH]; intro H; [lia|]. specialize (IH ltac:(lia)). specialize (M k H). lia. Qed.

Lemma first_position_spec n p : (first_position n p <= n)%nat /\ (forall k, (k < first_position n p)%nat -> p k = false) /\ ((first_position n p < n)%nat -> p (first_position n p) = true).
Proof.
  unfold first_position. destruct (find p (seq 0 n)) as [j|] eqn:F.
  - assert (X : forall m s, find p (seq s m) = Some j -> (s <= j < s + m)%nat /\ p j = true /\ forall k, (s <= k < j)%nat -> p k = false).
    { induction m as [|m IH]; intros s E; [discriminate|]. cbn [seq find] in E. destruct (p s) eqn:P.
      - injection E as <-. split; [lia|]. split; [assumption|]. intros; lia.
      - destruct (IH _ E) as (A & B & C). split; [lia|]. split; [assumption|]. intros k Hk. destruct (Nat.eq_dec k s) as [->|]; [assumption|]. apply C. lia. }
    destruct (X _ _ F) as (A & B & C). split; [lia|]. split; [intros k Hk; apply C; lia|auto].
  - split; [lia|]. split; [|lia]. intros k Hk. apply (find_none _ _ F). apply in_seq. lia.
Qed.

(** ** Sorting *)
Lemma insert_sorted x l : StronglySorted Z.le l -> exists l', Permutation (x :: l) l' /\ StronglySorted Z.le l'.
Proof.
  induction l as [|y r IH]; intro Sl.
  - exists [x]. split; [reflexivity|]. repeat constructor.
  - inversion Sl as [|? ? Sr Fa]; subst. destruct (Z_le_gt_dec x y) as [L|L].
    + exists (x :: y :: r). split; [reflexivity|]. constructor; [assumption|]. constructor; [assumption|]. eapply Forall_impl; [|exact Fa]. intros; cbv beta in *; lia.
    + destruct (IH Sr) as (l' & P & S'). exists (y :: l'). split; [transitivity (y :: x :: r); [apply perm_swap|now apply perm_skip]|]. constructor; [assumption|].
      apply Forall_forall. intros z I. apply (Permutation_in _ (Permutation_sym P)) in I. destruct I as [<-|I]; [lia|]. rewrite Forall_forall in Fa. auto.
Qed.

Lemma sorting_exists l : exists l', Permutation l l' /\ StronglySorted Z.le l'.
Proof.
  induction l as [|x l (m & P & Sm)]; [exists []; split; [reflexivity|constructor]|].
  destruct (insert_sorted x m Sm) as (l' & P' & S'). exists l'. split; [|assumption]. transitivity (x :: m); [now apply perm_skip|assumption].
Qed.

Lemma sorted_nth l : StronglySorted Z.le l <-> forall j, (S j < length l)%nat -> nth j l 0 <= nth (S j) l 0.
Proof.
  split.
  - induction 1 as [|x r Sr IH Fa]; intros j Hj; cbn [length] in Hj; [lia|]. destruct j as [|j]; [|cbn [nth]; apply IH; lia]. cbn [nth]. rewrite Forall_forall in Fa. apply Fa, nth_In. lia.
  - induction l as [|x r IH]; intro H; constructor.
    + apply IH. intros j Hj. apply (H (S j)). cbn [length]. lia.
    + apply Forall_forall. intros y I. apply (In_nth _ _ 0) in I. destruct I as (k & Hk & <-).
      pose proof (ascending (fun j => nth j (x :: r) 0) (length (x :: r)) H 0 (S k) ltac:(lia) ltac:(cbn [length]; lia)) as A. exact A.
Qed.

(** In order, values that were in ascending intervals still are. *)
Lemma sort_in_windows n (v l u : nat -> Z) : (forall j k, (j <= k)%nat -> (k < n)%nat -> l j <= l k) -> (forall j k, (j <= k)%nat -> (k < n)%nat -> u j <= u k) ->
  (forall k, (k < n)%nat -> l k <= v k <= u k) ->
  exists Y g, (forall p, (p < n)%nat -> (g p < n)%nat /\ Y p = v (g p)) /\ (forall p q, (p < n)%nat -> (q < n)%nat -> g p = g q -> p = q) /\
    (forall p, (S p < n)%nat -> Y p <= Y (S p)) /\ forall p, (p < n)%nat -> l p <= Y p <= u p.
Proof.
  intros Ml Mu W. destruct (sorting_exists (map v (seq 0 n))) as (ys & P & Ss).
  assert (Ly : length ys = n) by (apply Permutation_length in P; rewrite map_length, seq_length in P; congruence).
  apply (Permutation_nth _ _ 0) in P. cbv zeta in P. rewrite map_length, seq_length in P. destruct P as (_ & g & B & Inj & E).
  assert (Ev : forall p, (p < n)%nat -> nth p ys 0 = v (g p)).
  { intros p Hp. rewrite (E p Hp). pose proof (B p Hp). rewrite (nth_indep _ 0 (v 0%nat)) by (rewrite map_length, seq_length; lia). rewrite map_nth, seq_nth by lia. reflexivity. }
  exists (fun p => nth p ys 0), g. split; [intros p Hp; split; [now apply B|now apply Ev]|]. split; [exact Inj|].
  assert (Asc : forall p, (S p < n)%nat -> nth p ys 0 <= nth (S p) ys 0) by (intros p Hp; apply (proj1 (sorted_nth ys) Ss); lia).
  split; [exact Asc|]. intros p Hp. split.
  - destruct (Z_le_gt_dec (l p) (nth p ys 0)) as [|C]; [assumption|]. exfalso.
    assert (length (seq 0 (S p)) <= p - 0)%nat; [|rewrite seq_length in H; lia]. apply (pigeonhole n g); [exact Inj|apply seq_NoDup|]. intros q Iq. apply in_seq in Iq. split; [lia|]. split; [lia|].
    destruct (Nat.lt_ge_cases (g q) p) as [|Ge]; [assumption|]. exfalso. pose proof (ascending (fun p => nth p ys 0) n Asc q p ltac:(lia) Hp) as A. cbv beta in A. rewrite (Ev q) in A by lia.
    pose proof (B q ltac:(lia)) as Bq. pose proof (Ml p (g q) Ge Bq). pose proof (W (g q) Bq). lia.
  - destruct (Z_le_gt_dec (nth p ys 0) (u p)) as [|C]; [assumption|]. exfalso.
    assert (length (seq p (n - p)) <= n - S p)%nat; [|rewrite seq_length in H; lia]. apply (pigeonhole n g); [exact Inj|apply seq_NoDup|]. intros q Iq. apply in_seq in Iq. pose proof (B q ltac:(lia)) as Bq.
    split; [lia|]. split; [|assumption]. destruct (Nat.lt_ge_cases p (g q)) as [|Ge]; [assumption|]. exfalso.
    pose proof (ascending (fun p => nth p ys 0) n Asc p q ltac:(lia) ltac:(lia)) as A. cbv beta in A. rewrite (Ev q) in A by lia. pose proof (Mu (g q) p Ge Hp). pose proof (W (g q) Bq). lia.
Qed.

(** ** Sequences of inferences *)
Lemma then_do_some a b l : then_do a b = Some l -> exists l1 l2, a = Some l1 /\ b = Some l2 /\ l = l1 ++ l2.
Proof. destruct a as [l1|], b as [l2|]; try discriminate. intro E. injection E as <-. eauto. Qed.

Lemma then_do_none a b : then_do a b = None -> a = None \/ b = None.
Proof. destruct a, b; try discriminate; auto. Qed.

Lemma each_some n f l : each n f = Some l ->
  (forall k, (k < n)%nat -> exists lk, f k = Some lk /\ incl lk l) /\ (forall x, In x l -> exists k lk, (k < n)%nat /\ f k = Some lk /\ In x lk).
Proof.
  unfold each. assert (X : forall ks l, fold_right (fun k r => then_do (f k) r) (Some []) ks = Some l ->
    (forall k, In k ks -> exists lk, f k = Some lk /\ incl lk l) /\ (forall x, In x l -> exists k lk, In k ks /\ f k = Some lk /\ In x lk)).
  { induction ks as [|k ks IH]; intros m E; cbn [fold_right] in E.
    - injection E as <-. split; intros ? [].
    - apply then_do_some in E. destruct E as (l1 & l2 & E1 & E2 & ->). destruct (IH _ E2) as [A B]. split.
      + intros k' [<-|I]; [exists l1; split; [assumption|]; intros x Ix; apply in_app_iff; auto|]. destruct (A k' I) as (lk & E & J). exists lk. split; [assumption|]. intros x Ix. apply in_app_iff. auto.
      + intros x Ix. apply in_app_iff in Ix. destruct Ix as [Ix|Ix]; [exists k, l1; repeat split; auto; now left|]. destruct (B x Ix) as (k' & lk & I & E & J). exists k', lk. repeat split; auto. now right. }
  intro E. destruct (X _ _ E) as [A B]. split.
  - intros k Hk. apply A, in_seq. lia.
  - intros x Ix. destruct (B x Ix) as (k & lk & I & Q & J). apply in_seq in I. exists k, lk. repeat split; auto; lia.
Qed.

Lemma each_none n f : each n f = None -> exists k, (k < n)%nat /\ f k = None.
Proof.
  unfold each. assert (X : forall ks, fold_right (fun k r => then_do (f k) r) (Some []) ks = None -> exists k, In k ks /\ f k = None).
  { induction ks as [|k ks IH]; intro E; cbn [fold_right] in E; [discriminate|]. apply then_do_none in E. destruct E as [E|E]; [exists k; split; [now left|assumption]|].
    destruct (IH E) as (k' & I & Q). exists k'. split; [now right|assumption]. }
  intro E. destruct (X _ E) as (k & I & Q). apply in_seq in I. exists k. split; [lia|assumption].
Qed.

Section Round.
Variable n : nat.
Variable lx ux oly ouy : nat -> Z.
Variable vx vy : nat -> var_id.
Local Notation ly := (ly oly).
Local Notation uy := (uy n ouy).
Local Notation lo := (lo n lx ouy).
Local Notation hi := (hi n ux oly).
Local Notation raise_y := (raise_y n lx ux oly ouy vy).
Local Notation lower_y := (lower_y n lx ux oly ouy vy).
Local Notation raise_x := (raise_x n lx ux oly ouy vx).
Local Notation lower_x := (lower_x n lx ux oly ouy vx).
Local Notation round := (sort_round n lx ux oly ouy vx vy).

Lemma lo_le i : (lo i <= n)%nat. Proof. apply first_position_spec. Qed.
Lemma hi_le i : (hi i <= n)%nat. Proof. apply first_position_spec. Qed.

Lemma lo_iff i j : (j < n)%nat -> (lx i <= uy j <-> (lo i <= j)%nat).
Proof.
  intro Hj. unfold Sortedness.lo. destruct (first_position_spec n (fun j => lx i <=? uy j)) as (A & B & C). set (p := first_position _ _) in *. split.
  - intro H. destruct (Nat.le_gt_cases p j) as [L|L]; [assumption|]. specialize (B j L). cbv beta in B. apply Z.leb_gt in B. lia.
  - intro H. specialize (C ltac:(lia)). cbv beta in C. apply Z.leb_le in C. pose proof (uy_mono n ouy p j H Hj). lia.
Qed.

Lemma hi_iff i j : (j < n)%nat -> (ly j <= ux i <-> (j < hi i)%nat).
Proof.
  intro Hj. unfold Sortedness.hi. destruct (first_position_spec n (fun j => ux i <? ly j)) as (A & B & C). set (p := first_position _ _) in *. split.
  - intro H. destruct (Nat.lt_ge_cases j p) as [L|L]; [assumption|]. specialize (C ltac:(lia)). cbv beta in C. apply Z.ltb_lt in C. pose proof (highest_mono oly p j L). unfold Sortedness.ly in *. lia.
  - intro H. specialize (B j H). cbv beta in B. apply Z.ltb_ge in B. exact B.
Qed.

Lemma hi_mono i k : ux i <= ux k -> (hi i <= hi k)%nat.
Proof.
  intro H. destruct (Nat.le_gt_cases (hi i) (hi k)) as [L|L]; [assumption|]. exfalso. pose proof (hi_le i).
  assert (X : (hi k < hi k)%nat); [|lia]. apply hi_iff; [lia|]. assert (ly (hi k) <= ux i) by (apply hi_iff; lia). lia.
Qed.

Lemma lo_mono i k : lx i <= lx k -> (lo i <= lo k)%nat.
Proof.
  intro H. destruct (Nat.le_gt_cases (lo i) (lo k)) as [L|L]; [assumption|]. exfalso. pose proof (lo_le i).
  assert (X : (lo i <= lo k)%nat); [|lia]. apply lo_iff; [lia|]. assert (lx k <= uy (lo k)) by (apply lo_iff; lia). lia.
Qed.

(** ** Soundness *)
(** Values between the bounds, those of [Y] being those of [X] in order: [M] says where each
    goes. *)
Record solution (X Y : nat -> Z) (M : nat -> nat) : Prop :=
  { so_x : forall i, (i < n)%nat -> lx i <= X i <= ux i;
    so_y : forall j, (j < n)%nat -> oly j <= Y j <= ouy j;
    so_order : forall j, (S j < n)%nat -> Y j <= Y (S j);
    so_below : forall i, (i < n)%nat -> (M i < n)%nat;
    so_once : forall i j, (i < n)%nat -> (j < n)%nat -> M i = M j -> i = j;
    so_at : forall i, (i < n)%nat -> X i = Y (M i) }.

Lemma band_below lo' hi' i : In i (find_band n lo' hi') -> (i < n)%nat.
Proof.
  intro I. destruct (find_band_some n lo' hi') as (a & c & _ & Q & _); [intro Z; rewrite Z in I; destruct I|]. rewrite Q in I. now apply in_band_In in I.
Qed.

Section Solution.
Variable X Y : nat -> Z.
Variable M : nat -> nat.
Hypothesis So : solution X Y M.

Lemma so_window j : (j < n)%nat -> ly j <= Y j <= uy j.
Proof.
  intro Hj. split.
  - apply (highest_least oly Y n); [apply (so_order _ _ _ So)| |assumption]. intros k Hk. now apply (so_y _ _ _ So).
  - apply (uy_greatest n ouy Y); [apply (so_order _ _ _ So)| |assumption]. intros k Hk. now apply (so_y _ _ _ So).
Qed.

Lemma so_place i : (i < n)%nat -> (lo i <= M i < hi i)%nat.
Proof.
  intro Hi. pose proof (so_below _ _ _ So i Hi) as Hm. pose proof (so_window _ Hm). pose proof (so_x _ _ _ So i Hi). pose proof (so_at _ _ _ So i Hi). split; [apply lo_iff|apply hi_iff]; auto; lia.
Qed.

Lemma so_ascending j k : (j <= k)%nat -> (k < n)%nat -> Y j <= Y k.
Proof. apply ascending. apply (so_order _ _ _ So). Qed.

(** What is more than [Y j] is after [j]. *)
Lemma so_after i j : (i < n)%nat -> (j < n)%nat -> Y j < X i -> (j < M i)%nat.
Proof.
  intros Hi Hj L. rewrite (so_at _ _ _ So i Hi) in L. destruct (Nat.lt_ge_cases j (M i)) as [|G]; [assumption|]. pose proof (so_ascending (M i) j G Hj). lia.
Qed.

Lemma so_ahead i j : (i < n)%nat -> (j < n)%nat -> X i < Y j -> (M i < j)%nat.
Proof.
  intros Hi Hj L. rewrite (so_at _ _ _ So i Hi) in L. destruct (Nat.lt_ge_cases (M i) j) as [|G]; [assumption|]. pose proof (so_ascending j (M i) G (so_below _ _ _ So i Hi)). lia.
Qed.

Lemma raise_y_sound phi2 j ls l : (j < n)%nat -> raise_y phi2 j = Some ls -> In l ls -> exists L, l = LCond (cond_ge (vy j) L) /\ oly j < L <= Y j.
Proof.
  intros Hj E I. unfold Sortedness.raise_y in E. cbv zeta in E. set (x := lx (nth j phi2 0%nat)) in *. set (L := Z.max x (ly j)) in *.
  destruct (Z.leb_spec L (oly j)) as [|G]; [injection E as <-; destruct I|].
  assert (W : L <= Y j -> l = LCond (cond_ge (vy j) L) -> exists L, l = LCond (cond_ge (vy j) L) /\ oly j < L <= Y j) by (intros A B; exists L; auto).
  destruct ((oly j <? ly j) && (x <=? ly j)) eqn:C1.
  { injection E as <-. destruct I as [<-|[]]. apply W; [|reflexivity]. apply andb_prop in C1. destruct C1 as [_ C1]. apply Z.leb_le in C1. pose proof (so_window j Hj). lia. }
  destruct (Nat.leb_spec (n - j) (length (filter (fun i => L <=? lx i) (seq 0 n)))) as [C2|_].
  { injection E as <-. destruct I as [<-|[]]. apply W; [|reflexivity]. destruct (Z_le_gt_dec L (Y j)) as [|Gt]; [assumption|]. exfalso.
    assert (length (filter (fun i => (L <=? lx i)%Z) (seq 0 n)) <= n - S j)%nat; [|lia].
    apply (pigeonhole n M); [apply (so_once _ _ _ So)|apply NoDup_filter, seq_NoDup|]. intros i Ii. apply filter_In in Ii. destruct Ii as [Ii Ci]. apply in_seq in Ii. apply Z.leb_le in Ci.
    assert (Hi : (i < n)%nat) by lia. pose proof (so_x _ _ _ So i Hi). pose proof (so_after i j Hi Hj ltac:(lia)). pose proof (so_below _ _ _ So i Hi). lia. }
  destruct (find_band _ _ _) as [|b bs] eqn:F; [discriminate|]. injection E as <-. destruct I as [<-|[]]. apply W; [|reflexivity]. destruct (Z_le_gt_dec L (Y j)) as [|Gt]; [assumption|]. exfalso.
  assert (N : find_band n (fun i => if L <=? lx i then Nat.max (lo i) (S j) else lo i) hi = []); [|congruence].
  apply (band_absurd _ _ _ M (so_once _ _ _ So)). intros i Ii.
  assert (Hi : (i < n)%nat) by exact (band_below _ _ _ Ii).
  pose proof (so_place i Hi). destruct (Z.leb_spec L (lx i)) as [Li|]; [|assumption]. pose proof (so_x _ _ _ So i Hi). pose proof (so_after i j Hi Hj ltac:(lia)). lia.
Qed.

Lemma lower_y_sound phi j ls l : (j < n)%nat -> lower_y phi j = Some ls -> In l ls -> exists U, l = LCond (cond_lt (vy j) (U + 1)) /\ Y j <= U < ouy j.
Proof.
  intros Hj E I. unfold Sortedness.lower_y in E. cbv zeta in E. set (x := ux (nth j phi 0%nat)) in *. set (U := Z.min x (uy j)) in *.
  destruct (Z.leb_spec (ouy j) U) as [|G]; [injection E as <-; destruct I|].
  assert (W : Y j <= U -> l = LCond (cond_lt (vy j) (U + 1)) -> exists U, l = LCond (cond_lt (vy j) (U + 1)) /\ Y j <= U < ouy j) by (intros A B; exists U; auto).
  destruct ((uy j <? ouy j) && (uy j <=? x)) eqn:C1.
  { injection E as <-. destruct I as [<-|[]]. apply W; [|reflexivity]. apply andb_prop in C1. destruct C1 as [_ C1]. apply Z.leb_le in C1. pose proof (so_window j Hj). lia. }
  destruct (Nat.leb_spec (S j) (length (filter (fun i => ux i <=? U) (seq 0 n)))) as [C2|_].
  { injection E as <-. destruct I as [<-|[]]. apply W; [|reflexivity]. destruct (Z_le_gt_dec (Y j) U) as [|Gt]; [assumption|]. exfalso.
    assert (length (filter (fun i => (ux i <=? U)%Z) (seq 0 n)) <= j - 0)%nat; [|lia].
    apply (pigeonhole n M); [apply (so_once _ _ _ So)|apply NoDup_filter, seq_NoDup|]. intros i Ii. apply filter_In in Ii. destruct Ii as [Ii Ci]. apply in_seq in Ii. apply Z.leb_le in Ci.
    assert (Hi : (i < n)%nat) by lia. pose proof (so_x _ _ _ So i Hi). pose proof (so_ahead i j Hi Hj ltac:(lia)). lia. }
  destruct (find_band _ _ _) as [|b bs] eqn:F; [discriminate|]. injection E as <-. destruct I as [<-|[]]. apply W; [|reflexivity]. destruct (Z_le_gt_dec (Y j) U) as [|Gt]; [assumption|]. exfalso.
  assert (N : find_band n lo (fun i => if ux i <=? U then Nat.min (hi i) j else hi i) = []); [|congruence].
  apply (band_absurd _ _ _ M (so_once _ _ _ So)). intros i Ii.
  assert (Hi : (i < n)%nat) by exact (band_below _ _ _ Ii).
  pose proof (so_place i Hi). destruct (Z.leb_spec (ux i) U) as [Li|]; [|assumption]. pose proof (so_x _ _ _ So i Hi). pose proof (so_ahead i j Hi Hj ltac:(lia)). lia.
Qed.

Lemma raise_x_sound jl i ls l : (i < n)%nat -> (jl < n)%nat -> raise_x jl i = Some ls -> In l ls -> exists L, l = LCond (cond_ge (vx i) L) /\ lx i < L <= X i.
Proof.
  intros Hi Hj E I. unfold Sortedness.raise_x in E. cbv zeta in E. set (L := Z.max (lx i) (ly jl)) in *.
  destruct (Z.leb_spec L (lx i)) as [|G]; [injection E as <-; destruct I|].
  assert (W : (jl <= M i)%nat -> l = LCond (cond_ge (vx i) L) -> exists L, l = LCond (cond_ge (vx i) L) /\ lx i < L <= X i).
  { intros A B. exists L. split; [assumption|]. split; [assumption|]. pose proof (so_below _ _ _ So i Hi) as Hm. pose proof (so_window _ Hm). pose proof (highest_mono oly jl (M i) A). rewrite (so_at _ _ _ So i Hi). unfold Sortedness.ly in *. lia. }
  pose proof (so_place i Hi) as Pl.
  destruct (Nat.eqb_spec jl (lo i)) as [El|_]; [injection E as <-; destruct I as [<-|[]]; apply W; [lia|reflexivity]|].
  destruct (existsb _ _) eqn:F; [|discriminate]. injection E as <-. destruct I as [<-|[]]. apply W; [|reflexivity]. destruct (Nat.le_gt_cases jl (M i)) as [|Gt]; [assumption|]. exfalso.
  apply existsb_exists in F. destruct F as (i' & Ii & Q). apply Nat.eqb_eq in Q. subst i'.
  assert (N : find_band n lo (put hi i jl) = []); [|rewrite N in Ii; destruct Ii].
  apply (band_absurd _ _ _ M (so_once _ _ _ So)). intros k Ik. pose proof (so_place k (band_below _ _ _ Ik)). unfold put. destruct (Nat.eqb_spec k i) as [->|]; lia.
Qed.

Lemma lower_x_sound jh i ls l : (i < n)%nat -> (jh < n)%nat -> lower_x jh i = Some ls -> In l ls -> exists U, l = LCond (cond_lt (vx i) (U + 1)) /\ X i <= U < ux i.
Proof.
  intros Hi Hj E I. unfold Sortedness.lower_x in E. cbv zeta in E. set (U := Z.min (ux i) (uy jh)) in *.
  destruct (Z.leb_spec (ux i) U) as [|G]; [injection E as <-; destruct I|].
  assert (W : (M i <= jh)%nat -> l = LCond (cond_lt (vx i) (U + 1)) -> exists U, l = LCond (cond_lt (vx i) (U + 1)) /\ X i <= U < ux i).
  { intros A B. exists U. split; [assumption|]. split; [|assumption]. pose proof (so_below _ _ _ So i Hi) as Hm. pose proof (so_window _ Hm). pose proof (uy_mono n ouy (M i) jh A Hj). pose proof (so_x _ _ _ So i Hi). rewrite (so_at _ _ _ So i Hi) in *. lia. }
  pose proof (so_place i Hi) as Pl.
  destruct (Nat.eqb_spec (S jh) (hi i)) as [El|_]; [injection E as <-; destruct I as [<-|[]]; apply W; [lia|reflexivity]|].
  destruct (existsb _ _) eqn:F; [|discriminate]. injection E as <-. destruct I as [<-|[]]. apply W; [|reflexivity]. destruct (Nat.le_gt_cases (M i) jh) as [|Gt]; [assumption|]. exfalso.
  apply existsb_exists in F. destruct F as (i' & Ii & Q). apply Nat.eqb_eq in Q. subst i'.
  assert (N : find_band n (put lo i (S jh)) hi = []); [|rewrite N in Ii; destruct Ii].
  apply (band_absurd _ _ _ M (so_once _ _ _ So)). intros k Ik. pose proof (so_place k (band_below _ _ _ Ik)). unfold put. destruct (Nat.eqb_spec k i) as [->|]; lia.
Qed.
End Solution.

(** ** The sweeps *)
Lemma down_outcome : match down_sweep n lx ux oly ouy with
  | Some phi => glover n lo hi ux (fun k => nth k phi 0%nat) n
  | None => find_band n lo hi <> [] end.
Proof.
  unfold down_sweep.
  assert (A := sweep_outcome n (fun i j => lx i <=? uy j) (fun i j => ly j <=? ux i) (least_first ux) ux (fun k => k) lo hi). rewrite map_id in A.
  assert (B : match sweep_positions n (fun i j => lx i <=? uy j) (fun i j => ly j <=? ux i) (least_first ux) (seq 0 n) [] with
    | Some r => length r = n /\ glover n lo hi ux (fun k => nth k (rev r) 0%nat) n | None => find_band n lo hi <> [] end).
  { apply A.
    - intros k i. unfold least_first. intro H. apply orb_prop in H. destruct H as [H|H]; [apply Z.ltb_lt in H; lia|]. apply andb_prop in H. destruct H as [H _]. apply Z.eqb_eq in H. lia.
    - intros k i. unfold least_first. intro H. apply orb_false_iff in H. destruct H as [H _]. apply Z.ltb_ge in H. lia.
    - intros i k _ Hk. rewrite Z.leb_le. now apply lo_iff.
    - intros i k _ Hk. rewrite Z.leb_le. now apply hi_iff.
    - intros i _. split; [apply lo_le|apply hi_le].
    - intros i k _ _. apply hi_mono. }
  destruct (sweep_positions _ _ _ _ _ _) as [r|]; [|exact B]. cbn [option_map]. apply B.
Qed.

Lemma rev_positions : rev (seq 0 n) = map (fun k => (n - 1 - k)%nat) (seq 0 n).
Proof.
  apply (nth_ext _ _ 0%nat 0%nat); [now rewrite rev_length, map_length|]. rewrite rev_length, seq_length. intros k Hk. rewrite rev_nth by (rewrite seq_length; lia). rewrite seq_length, seq_nth by lia.
  rewrite (nth_indep _ 0%nat ((fun k => (n - 1 - k)%nat) 0%nat)) by (rewrite map_length, seq_length; lia). rewrite (map_nth (fun k => (n - 1 - k)%nat)), seq_nth by lia. lia.
Qed.

Lemma up_outcome : match up_sweep n lx ux oly ouy with
  | Some phi2 => glover n (fun i => (n - hi i)%nat) (fun i => (n - lo i)%nat) (fun i => - lx i) (fun k => nth (n - 1 - k) phi2 0%nat) n
  | None => find_band n lo hi <> [] end.
Proof.
  unfold up_sweep. rewrite rev_positions.
  assert (B : match sweep_positions n (fun i j => ly j <=? ux i) (fun i j => lx i <=? uy j) (greatest_first lx) (map (fun k => (n - 1 - k)%nat) (seq 0 n)) [] with
    | Some r => length r = n /\ glover n (fun i => (n - hi i)%nat) (fun i => (n - lo i)%nat) (fun i => - lx i) (fun k => nth k (rev r) 0%nat) n
    | None => find_band n (fun i => (n - hi i)%nat) (fun i => (n - lo i)%nat) <> [] end).
  { apply sweep_outcome.
    - intros k i. unfold greatest_first. intro H. apply orb_prop in H. destruct H as [H|H]; [apply Z.ltb_lt in H; lia|]. apply andb_prop in H. destruct H as [H _]. apply Z.eqb_eq in H. lia.
    - intros k i. unfold greatest_first. intro H. apply orb_false_iff in H. destruct H as [H _]. apply Z.ltb_ge in H. lia.
    - intros i k _ Hk. rewrite Z.leb_le, hi_iff by lia. pose proof (hi_le i). lia.
    - intros i k _ Hk. rewrite Z.leb_le, lo_iff by lia. pose proof (lo_le i). lia.
    - intros i _. lia.
    - intros i k _ _ H. assert (lo k <= lo i)%nat by (apply lo_mono; lia). lia. }
  destruct (sweep_positions _ _ _ _ _ _) as [r|].
  - destruct B as [L [G1 G2 G3 G4]].
    assert (E : forall k, (k < n)%nat -> nth (n - 1 - k) r 0%nat = nth k (rev r) 0%nat) by (intros k Hk; rewrite rev_nth by lia; f_equal; lia).
    constructor.
    + intros k Hk. rewrite E by assumption. auto.
    + intros k k' Hk Hk'. rewrite !E by assumption. auto.
    + intros k Hk. rewrite E by assumption. auto.
    + intros k i Hk Hi N Lk. rewrite E by assumption. apply G4; auto. intros k' Hk'. rewrite <- E by lia. auto.
  - apply (find_band_mirror n lo hi); [|assumption]. intros i _. split; [apply lo_le|apply hi_le].
Qed.

(** ** Nothing is thrown *)
Lemma raise_y_total phi2 j : (j < n)%nat -> glover n (fun i => (n - hi i)%nat) (fun i => (n - lo i)%nat) (fun i => - lx i) (fun k => nth (n - 1 - k) phi2 0%nat) n ->
  raise_y phi2 j <> None.
Proof.
  intros Hj G. unfold Sortedness.raise_y. cbv zeta. set (x := lx (nth j phi2 0%nat)). set (L := Z.max x (ly j)).
  destruct (Z.leb_spec L (oly j)) as [|Gt]; [discriminate|]. destruct ((oly j <? ly j) && (x <=? ly j)) eqn:C1; [discriminate|]. destruct (Nat.leb _ _); [discriminate|].
  assert (EL : L = x). { pose proof (highest_own oly j). change (highest_so_far oly j) with (ly j) in *. apply andb_false_iff in C1. rewrite Z.ltb_ge, Z.leb_gt in C1. lia. }
  assert (F : find_band n (fun i => if L <=? lx i then Nat.max (lo i) (S j) else lo i) hi <> []); [|destruct (find_band _ _ _); congruence].
  apply find_band_mirror.
  - intros i _. pose proof (lo_le i). pose proof (hi_le i). destruct (L <=? lx i); lia.
  - apply (glover_lower n _ (fun i => (n - lo i)%nat) (fun i => - lx i) (fun k => nth (n - 1 - k) phi2 0%nat) (n - 1 - j)); [lia|assumption|].
    intros i Hi K. replace (n - 1 - (n - 1 - j))%nat with j in K by lia. fold x in K. destruct (Z.leb_spec L (lx i)); lia.
Qed.

Lemma lower_y_total phi j : (j < n)%nat -> glover n lo hi ux (fun k => nth k phi 0%nat) n -> lower_y phi j <> None.
Proof.
  intros Hj G. unfold Sortedness.lower_y. cbv zeta. set (x := ux (nth j phi 0%nat)). set (U := Z.min x (uy j)).
  destruct (Z.leb_spec (ouy j) U) as [|Gt]; [discriminate|]. destruct ((uy j <? ouy j) && (uy j <=? x)) eqn:C1; [discriminate|]. destruct (Nat.leb _ _); [discriminate|].
  assert (EU : U = x). { pose proof (uy_own n ouy j Hj). apply andb_false_iff in C1. rewrite Z.ltb_ge, Z.leb_gt in C1. lia. }
  assert (F : find_band n lo (fun i => if ux i <=? U then Nat.min (hi i) j else hi i) <> []); [|destruct (find_band _ _ _); congruence].
  apply (glover_lower n lo hi ux (fun k => nth k phi 0%nat) j); [lia|assumption|]. intros i Hi K. fold x in K. destruct (Z.leb_spec (ux i) U); lia.
Qed.

Section Matched.
Variable phi : list nat.
Hypothesis G : glover n lo hi ux (fun k => nth k phi 0%nat) n.
Local Notation comp := (tj_component (find_components (sort_graph n lx ux oly ouy phi) (2 * n))).

Lemma graph_left v : (v < n)%nat -> sort_graph n lx ux oly ouy phi v = map (fun j => (n + j)%nat) (seq (lo v) (hi v - lo v)).
Proof. intro H. unfold sort_graph. destruct (Nat.ltb_spec v n); [reflexivity|lia]. Qed.

Lemma graph_right j : (j < n)%nat -> sort_graph n lx ux oly ouy phi (n + j) = [nth j phi 0%nat].
Proof. intro H. unfold sort_graph. destruct (Nat.ltb_spec (n + j) n); [lia|]. now replace (n + j - n)%nat with j by lia. Qed.

Lemma comp_of_place f i : (forall i j, (i < n)%nat -> (j < n)%nat -> f i = f j -> i = j) -> (forall i, (i < n)%nat -> (lo i <= f i < hi i)%nat) -> (i < n)%nat -> comp (n + f i)%nat = comp i.
Proof.
  intros Inj Hf Hi. destruct (inverse_exists n (fun k => nth k phi 0%nat) (gl_below _ _ _ _ _ _ G) (gl_once _ _ _ _ _ _ G)) as (M & H1 & H2).
  replace (2 * n)%nat with (n + n)%nat by lia.
  apply (component_of_place n lo hi (fun k => nth k phi 0%nat) M _ graph_left graph_right); auto; [intros; apply hi_le|apply (gl_below _ _ _ _ _ _ G)|apply (gl_in _ _ _ _ _ _ G)].
Qed.

Lemma comp_place i j : (i < n)%nat -> (lo i <= j < hi i)%nat -> comp (n + j)%nat = comp i ->
  exists f, (forall i j, (i < n)%nat -> (j < n)%nat -> f i = f j -> i = j) /\ (forall i, (i < n)%nat -> (lo i <= f i < hi i)%nat) /\ f i = j.
Proof.
  intros Hi Hj E. destruct (inverse_exists n (fun k => nth k phi 0%nat) (gl_below _ _ _ _ _ _ G) (gl_once _ _ _ _ _ _ G)) as (M & H1 & H2).
  replace (2 * n)%nat with (n + n)%nat in E by lia.
  apply (place_in_component n lo hi (fun k => nth k phi 0%nat) M _ graph_left graph_right); auto; [intros; apply hi_le|apply (gl_below _ _ _ _ _ _ G)|apply (gl_in _ _ _ _ _ _ G)].
Qed.

(** One way to place everything. *)
Lemma some_places : exists f, (forall i j, (i < n)%nat -> (j < n)%nat -> f i = f j -> i = j) /\ (forall i, (i < n)%nat -> (lo i <= f i < hi i)%nat).
Proof.
  destruct (inverse_exists n (fun k => nth k phi 0%nat) (gl_below _ _ _ _ _ _ G) (gl_once _ _ _ _ _ _ G)) as (M & H1 & H2). exists M. split.
  - intros i j Hi Hj E. destruct (H1 i Hi) as [_ <-]. destruct (H1 j Hj) as [_ <-]. now rewrite E.
  - intros i Hi. destruct (H1 i Hi) as [Bm Em]. pose proof (gl_in _ _ _ _ _ _ G (M i) Bm) as Z. cbv beta in Z. now rewrite Em in Z.
Qed.

Lemma last_greatest (r : list nat) : forall s m p j, j :: r = filter p (seq s m) -> In (last r j) (j :: r) /\ forall k, In k (j :: r) -> (j <= k <= last r j)%nat.
Proof.
  assert (X : forall s m p l, l = filter p (seq s m) -> StronglySorted Nat.lt l).
  { intros s m p l ->. revert s. induction m as [|m IH]; intro s; cbn [seq filter]; [constructor|]. destruct (p s); [|apply IH]. constructor; [apply IH|].
    apply Forall_forall. intros k I. apply filter_In in I. destruct I as [I _]. apply in_seq in I. unfold Nat.lt. lia. }
  intros s m p j E. apply X in E. clear X. revert j E. induction r as [|k r IH]; intros j E.
  - cbn [last]. split; [now left|]. intros k [<-|[]]. lia.
  - inversion E as [|? ? E' Fa]; subst. destruct (IH k E') as [A B]. replace (last (k :: r) j) with (last r k) by (clear; revert k; induction r as [|x r IH]; intro k; [reflexivity|cbn [last] in *; destruct r; [reflexivity|apply IH]]).
    split; [now right|]. rewrite Forall_forall in Fa. assert (Jk : (j < k)%nat) by (apply Fa; now left). intros x [<-|I]; [pose proof (B k ltac:(now left)); lia|]. specialize (B x I). lia.
Qed.

Lemma component_range_spec i : (i < n)%nat -> exists jl jh, component_range n lx ux oly ouy comp i = Some (jl, jh) /\
  (lo i <= jl <= jh)%nat /\ (jh < hi i)%nat /\ comp (n + jl)%nat = comp i /\ comp (n + jh)%nat = comp i /\
  forall f, (forall i j, (i < n)%nat -> (j < n)%nat -> f i = f j -> i = j) -> (forall i, (i < n)%nat -> (lo i <= f i < hi i)%nat) -> (jl <= f i <= jh)%nat.
Proof.
  intro Hi. unfold component_range. set (p := fun j => Nat.eqb (comp (n + j)%nat) (comp i)).
  assert (X : forall f, (forall i j, (i < n)%nat -> (j < n)%nat -> f i = f j -> i = j) -> (forall i, (i < n)%nat -> (lo i <= f i < hi i)%nat) -> In (f i) (filter p (seq (lo i) (hi i - lo i)))).
  { intros f F1 F2. apply filter_In. split; [apply in_seq; specialize (F2 i Hi); lia|]. apply Nat.eqb_eq. now apply comp_of_place. }
  destruct (filter p (seq (lo i) (hi i - lo i))) as [|j r] eqn:E.
  - exfalso. destruct some_places as (f & F1 & F2). exact (X f F1 F2).
  - symmetry in E. destruct (last_greatest r _ _ _ _ E) as [A B]. exists j, (last r j). split; [reflexivity|].
    assert (Y : forall k, In k (j :: r) -> (lo i <= k < hi i)%nat /\ comp (n + k)%nat = comp i).
    { intros k I. rewrite E in I. apply filter_In in I. destruct I as [I Q]. apply in_seq in I. apply Nat.eqb_eq in Q. split; [lia|assumption]. }
    destruct (Y j ltac:(now left)) as [Y1 Y2]. destruct (Y _ A) as [Y3 Y4]. pose proof (B j ltac:(now left)).
    split; [lia|]. split; [lia|]. split; [assumption|]. split; [assumption|]. intros f F1 F2. apply B. now apply X.
Qed.

Lemma raise_x_total jl i : (i < n)%nat -> (lo i <= jl)%nat -> (jl < hi i)%nat ->
  (forall f, (forall i j, (i < n)%nat -> (j < n)%nat -> f i = f j -> i = j) -> (forall i, (i < n)%nat -> (lo i <= f i < hi i)%nat) -> (jl <= f i)%nat) -> raise_x jl i <> None.
Proof.
  intros Hi H1 H2 Fi. unfold Sortedness.raise_x. cbv zeta. destruct (_ <=? lx i); [discriminate|]. destruct (Nat.eqb_spec jl (lo i)) as [|Ne]; [discriminate|].
  destruct (existsb _ _) eqn:F; [discriminate|]. exfalso.
  assert (P : forall k, (k < n)%nat -> (put hi i jl k <= hi k)%nat) by (intros k Hk; unfold put; destruct (Nat.eqb_spec k i) as [->|]; lia).
  destruct (find_band n lo (put hi i jl)) as [|b bs] eqn:B.
  - destruct (room_for_all n lo (put hi i jl)) as (f & F1 & F2); [|assumption|].
    + intros k Hk. pose proof (lo_le k). pose proof (hi_le k). specialize (P k Hk). lia.
    + assert (jl <= f i)%nat by (apply Fi; auto; intros k Hk; specialize (F2 k Hk); specialize (P k Hk); lia). specialize (F2 i Hi). unfold put in F2. rewrite Nat.eqb_refl in F2. lia.
  - rewrite <- B in F. assert (N : find_band n lo (put hi i jl) = []); [|congruence]. destruct some_places as (f & F1 & F2). apply (band_absurd _ _ _ f F1). intros k Ik.
    assert (Nk : k <> i). { intros ->. apply not_true_iff_false in F. apply F. apply existsb_exists. exists i. split; [assumption|apply Nat.eqb_refl]. }
    unfold put. destruct (Nat.eqb_spec k i); [contradiction|]. apply F2. exact (band_below _ _ _ Ik).
Qed.

Lemma lower_x_total jh i : (i < n)%nat -> (lo i <= jh)%nat -> (jh < hi i)%nat ->
  (forall f, (forall i j, (i < n)%nat -> (j < n)%nat -> f i = f j -> i = j) -> (forall i, (i < n)%nat -> (lo i <= f i < hi i)%nat) -> (f i <= jh)%nat) -> lower_x jh i <> None.
Proof.
  intros Hi H1 H2 Fi. unfold Sortedness.lower_x. cbv zeta. destruct (ux i <=? _); [discriminate|]. destruct (Nat.eqb_spec (S jh) (hi i)) as [|Ne]; [discriminate|].
  destruct (existsb _ _) eqn:F; [discriminate|]. exfalso.
  assert (P : forall k, (k < n)%nat -> (lo k <= put lo i (S jh) k)%nat) by (intros k Hk; unfold put; destruct (Nat.eqb_spec k i) as [->|]; lia).
  destruct (find_band n (put lo i (S jh)) hi) as [|b bs] eqn:B.
  - destruct (room_for_all n (put lo i (S jh)) hi) as (f & F1 & F2); [|assumption|].
    + intros k Hk. pose proof (lo_le k). pose proof (hi_le k). unfold put. destruct (Nat.eqb_spec k i) as [->|]; lia.
    + assert (f i <= jh)%nat by (apply Fi; auto; intros k Hk; specialize (F2 k Hk); specialize (P k Hk); lia). specialize (F2 i Hi). unfold put in F2. rewrite Nat.eqb_refl in F2. lia.
  - rewrite <- B in F. assert (N : find_band n (put lo i (S jh)) hi = []); [|congruence]. destruct some_places as (f & F1 & F2). apply (band_absurd _ _ _ f F1). intros k Ik.
    assert (Nk : k <> i). { intros ->. apply not_true_iff_false in F. apply F. apply existsb_exists. exists i. split; [assumption|apply Nat.eqb_refl]. }
    unfold put. destruct (Nat.eqb_spec k i); [contradiction|]. apply F2. exact (band_below _ _ _ Ik).
Qed.
End Matched.

Lemma round_total : round <> None.
Proof.
  unfold sort_round. destruct (existsb _ _); [discriminate|]. pose proof down_outcome as D. pose proof up_outcome as U.
  assert (FH : find_band n lo hi <> [] -> fail_hall n lx ux oly ouy <> None) by (unfold fail_hall; destruct (find_band n lo hi); [congruence|discriminate]).
  destruct (down_sweep _ _ _ _ _) as [phi|]; [|auto]. destruct (up_sweep _ _ _ _ _) as [phi2|]; [|auto]. cbv zeta. intro E. apply then_do_none in E. destruct E as [E|E]; apply each_none in E; destruct E as (k & Hk & E).
  - apply then_do_none in E. destruct E as [E|E]; [now apply (raise_y_total phi2 k)|now apply (lower_y_total phi k)].
  - destruct (component_range_spec phi D k Hk) as (jl & jh & Q & A & B & _ & _ & F). rewrite Q in E. apply then_do_none in E. destruct E as [E|E].
    + revert E. apply (raise_x_total phi D jl k Hk); [lia|lia|]. intros f F1 F2. now apply (F f).
    + revert E. apply (lower_x_total phi D jh k Hk); [lia|lia|]. intros f F1 F2. now apply (F f).
Qed.

(** ** Every bound is attained *)
Hypothesis Lx : forall i, (i < n)%nat -> lx i <= ux i.

Lemma placed_solution (X : nat -> Z) f : (forall i j, (i < n)%nat -> (j < n)%nat -> f i = f j -> i = j) -> (forall i, (i < n)%nat -> (f i < n)%nat) ->
  (forall i, (i < n)%nat -> lx i <= X i <= ux i) -> (forall i, (i < n)%nat -> ly (f i) <= X i <= uy (f i)) -> exists Y M, solution X Y M.
Proof.
  intros Inj B HX HY. destruct (inverse_exists n f B Inj) as (h & H1 & H2).
  destruct (sort_in_windows n (fun k => X (h k)) ly uy) as (Y & g & G1 & G2 & G3 & G4).
  - intros j k L _. now apply highest_mono.
  - intros j k L H. now apply uy_mono.
  - intros k Hk. destruct (H1 k Hk) as [A E]. specialize (HY (h k) A). now rewrite E in HY.
  - destruct (inverse_exists n g (fun p Hp => proj1 (G1 p Hp)) G2) as (gi & I1 & I2). exists Y, (fun i => gi (f i)). constructor.
    + exact HX.
    + intros j Hj. pose proof (G4 j Hj). pose proof (highest_own oly j). pose proof (uy_own n ouy j Hj). change (highest_so_far oly j) with (ly j) in *. lia.
    + exact G3.
    + intros i Hi. apply I1. auto.
    + intros i j Hi Hj E. apply Inj; auto. destruct (I1 (f i) (B i Hi)) as [_ <-]. destruct (I1 (f j) (B j Hj)) as [_ <-]. now rewrite E.
    + intros i Hi. destruct (I1 (f i) (B i Hi)) as [A E]. destruct (G1 _ A) as [_ ->]. rewrite E. now rewrite H2.
Qed.

Section Tight.
Variable phi phi2 : list nat.
Hypothesis G : glover n lo hi ux (fun k => nth k phi 0%nat) n.
Hypothesis G' : glover n (fun i => (n - hi i)%nat) (fun i => (n - lo i)%nat) (fun i => - lx i) (fun k => nth (n - 1 - k) phi2 0%nat) n.
Hypothesis W : forall j, (j < n)%nat -> ly j <= uy j.
Local Notation comp := (tj_component (find_components (sort_graph n lx ux oly ouy phi) (2 * n))).

(** All the upper bounds of the sorted handles at once. *)
Lemma tight_upper : exists X M, solution X (fun k => Z.min (ux (nth k phi 0%nat)) (uy k)) M.
Proof.
  destruct (inverse_exists n (fun k => nth k phi 0%nat) (gl_below _ _ _ _ _ _ G) (gl_once _ _ _ _ _ _ G)) as (M & H1 & H2).
  set (Y := fun k => Z.min (ux (nth k phi 0%nat)) (uy k)).
  assert (P : forall k, (k < n)%nat -> lx (nth k phi 0%nat) <= uy k /\ ly k <= ux (nth k phi 0%nat)).
  { intros k Hk. pose proof (gl_in _ _ _ _ _ _ G k Hk) as Z. cbv beta in Z. split; [apply lo_iff|apply hi_iff]; auto; lia. }
  exists (fun i => Y (M i)), M. constructor.
  - intros i Hi. destruct (H1 i Hi) as [A E]. unfold Y. rewrite E. destruct (P _ A) as [P1 _]. rewrite E in P1. specialize (Lx i Hi). lia.
  - intros k Hk. unfold Y. destruct (P k Hk). specialize (W k Hk). pose proof (highest_own oly k). pose proof (uy_own n ouy k Hk). change (highest_so_far oly k) with (ly k) in *. lia.
  - intros k Hk. unfold Y. pose proof (uy_mono n ouy k (S k) ltac:(lia) Hk). pose proof (gl_below _ _ _ _ _ _ G (S k) Hk) as Bk. cbv beta in Bk.
    destruct (Nat.le_gt_cases (lo (nth (S k) phi 0%nat)) k) as [L|L].
    + assert (ux (nth k phi 0%nat) <= ux (nth (S k) phi 0%nat)); [|lia]. apply (gl_best _ _ _ _ _ _ G); auto; [lia|]. intros k' Hk' E. apply (gl_once _ _ _ _ _ _ G) in E; lia.
    + assert (~ lx (nth (S k) phi 0%nat) <= uy k) by (rewrite lo_iff by lia; lia). specialize (Lx _ Bk). lia.
  - intros i Hi. now apply H1.
  - intros i j Hi Hj E. destruct (H1 i Hi) as [_ <-]. destruct (H1 j Hj) as [_ <-]. now rewrite E.
  - reflexivity.
Qed.

(** All the lower bounds. *)
Lemma tight_lower : exists X M, solution X (fun k => Z.max (lx (nth k phi2 0%nat)) (ly k)) M.
Proof.
  assert (At : forall k, (k < n)%nat -> nth (n - 1 - (n - 1 - k)) phi2 0%nat = nth k phi2 0%nat) by (intros k Hk; f_equal; lia).
  assert (B1 : forall k, (k < n)%nat -> (nth k phi2 0 < n)%nat) by (intros k Hk; rewrite <- At by assumption; apply (gl_below _ _ _ _ _ _ G'); lia).
  assert (B2 : forall k k', (k < n)%nat -> (k' < n)%nat -> nth k phi2 0%nat = nth k' phi2 0%nat -> k = k').
  { intros k k' Hk Hk' E. rewrite <- (At k), <- (At k') in E by assumption. apply (gl_once _ _ _ _ _ _ G') in E; lia. }
  destruct (inverse_exists n (fun k => nth k phi2 0%nat) B1 B2) as (M & H1 & H2).
  set (Y := fun k => Z.max (lx (nth k phi2 0%nat)) (ly k)).
  assert (P : forall k, (k < n)%nat -> lx (nth k phi2 0%nat) <= uy k /\ ly k <= ux (nth k phi2 0%nat)).
  { intros k Hk. pose proof (gl_in _ _ _ _ _ _ G' (n - 1 - k) ltac:(lia)) as Z. cbv beta in Z. rewrite At in Z by assumption. split; [apply lo_iff|apply hi_iff]; auto; lia. }
  exists (fun i => Y (M i)), M. constructor.
  - intros i Hi. destruct (H1 i Hi) as [A E]. unfold Y. rewrite E. destruct (P _ A) as [_ P1]. rewrite E in P1. specialize (Lx i Hi). lia.
  - intros k Hk. unfold Y. destruct (P k Hk). specialize (W k Hk). pose proof (highest_own oly k). pose proof (uy_own n ouy k Hk). change (highest_so_far oly k) with (ly k) in *. lia.
  - intros k Hk. unfold Y. pose proof (highest_mono oly k (S k) ltac:(lia)) as Mo. change (ly k <= ly (S k)) in Mo. assert (Hk0 : (k < n)%nat) by lia. pose proof (B1 k Hk0) as Bk.
    destruct (Nat.le_gt_cases (hi (nth k phi2 0%nat)) (S k)) as [L|L].
    + assert (~ ly (S k) <= ux (nth k phi2 0%nat)) by (rewrite hi_iff by assumption; lia). specialize (Lx _ Bk). lia.
    + assert (- lx (nth (n - 1 - (n - 1 - S k)) phi2 0%nat) <= - lx (nth k phi2 0%nat)); [|rewrite At in H by assumption; lia].
      apply (gl_best _ _ _ _ _ _ G' (n - 1 - S k)); [lia|assumption| |lia]. intros k' Hk' E. rewrite <- (At k) in E by assumption. apply (gl_once _ _ _ _ _ _ G') in E; lia.
  - intros i Hi. now apply H1.
  - intros i j Hi Hj E. destruct (H1 i Hi) as [_ <-]. destruct (H1 j Hj) as [_ <-]. now rewrite E.
  - reflexivity.
Qed.

Lemma places_meet f i : (forall i, (i < n)%nat -> (lo i <= f i < hi i)%nat) -> (i < n)%nat -> (f i < n)%nat /\ lx i <= uy (f i) /\ ly (f i) <= ux i.
Proof.
  intros Hf Hi. specialize (Hf i Hi). pose proof (hi_le i). split; [lia|]. split; [apply lo_iff|apply hi_iff]; lia.
Qed.

(** Any of the bounds of the others. *)
Lemma tight_x i j : (i < n)%nat -> (lo i <= j < hi i)%nat -> comp (n + j)%nat = comp i ->
  (exists X Y M, solution X Y M /\ X i = Z.max (lx i) (ly j)) /\ (exists X Y M, solution X Y M /\ X i = Z.min (ux i) (uy j)).
Proof.
  intros Hi Hj C. destruct (comp_place phi G i j Hi Hj C) as (f & F1 & F2 & <-). split.
  - destruct (placed_solution (fun m => Z.max (lx m) (ly (f m))) f F1) as (Y & M & So).
    + intros k Hk. now apply places_meet.
    + intros k Hk. destruct (places_meet f k F2 Hk) as (_ & A & B). specialize (Lx k Hk). lia.
    + intros k Hk. destruct (places_meet f k F2 Hk) as (B0 & A & B). specialize (W _ B0). lia.
    + eauto.
  - destruct (placed_solution (fun m => Z.min (ux m) (uy (f m))) f F1) as (Y & M & So).
    + intros k Hk. now apply places_meet.
    + intros k Hk. destruct (places_meet f k F2 Hk) as (_ & A & B). specialize (Lx k Hk). lia.
    + intros k Hk. destruct (places_meet f k F2 Hk) as (B0 & A & B). specialize (W _ B0). lia.
    + eauto.
Qed.
End Tight.

(** ** The round *)
(** Each inference is news. *)
Inductive news : literal -> Prop :=
| news_false : news LFalse
| news_raise_y j L : (j < n)%nat -> oly j < L -> news (LCond (cond_ge (vy j) L))
| news_lower_y j U : (j < n)%nat -> U < ouy j -> news (LCond (cond_lt (vy j) (U + 1)))
| news_raise_x i L : (i < n)%nat -> lx i < L -> news (LCond (cond_ge (vx i) L))
| news_lower_x i U : (i < n)%nat -> U < ux i -> news (LCond (cond_lt (vx i) (U + 1))).

(** And true. *)
Inductive true_of (X Y : nat -> Z) : literal -> Prop :=
| true_raise_y j L : (j < n)%nat -> L <= Y j -> true_of X Y (LCond (cond_ge (vy j) L))
| true_lower_y j U : (j < n)%nat -> Y j <= U -> true_of X Y (LCond (cond_lt (vy j) (U + 1)))
| true_raise_x i L : (i < n)%nat -> L <= X i -> true_of X Y (LCond (cond_ge (vx i) L))
| true_lower_x i U : (i < n)%nat -> X i <= U -> true_of X Y (LCond (cond_lt (vx i) (U + 1))).

Ltac one_literal E I := repeat match type of E with
  | (if ?c then _ else _) = _ => let C := fresh "C" in destruct c eqn:C
  | match find_band ?a ?b ?c with _ => _ end = _ => destruct (find_band a b c)
  | Some _ = Some _ => injection E as <-
  | None = Some _ => discriminate
  end; destruct I as [<-|[]].

Lemma raise_y_news phi2 j ls l : (j < n)%nat -> raise_y phi2 j = Some ls -> In l ls -> news l.
Proof. intros Hj E I. unfold Sortedness.raise_y in E. cbv zeta in E. destruct (Z.leb_spec (Z.max (lx (nth j phi2 0%nat)) (ly j)) (oly j)); [injection E as <-; destruct I|]. one_literal E I; now constructor. Qed.

Lemma lower_y_news phi j ls l : (j < n)%nat -> lower_y phi j = Some ls -> In l ls -> news l.
Proof. intros Hj E I. unfold Sortedness.lower_y in E. cbv zeta in E. destruct (Z.leb_spec (ouy j) (Z.min (ux (nth j phi 0%nat)) (uy j))); [injection E as <-; destruct I|]. one_literal E I; now constructor. Qed.

Lemma raise_x_news jl i ls l : (i < n)%nat -> raise_x jl i = Some ls -> In l ls -> news l.
Proof. intros Hj E I. unfold Sortedness.raise_x in E. cbv zeta in E. destruct (Z.leb_spec (Z.max (lx i) (ly jl)) (lx i)); [injection E as <-; destruct I|]. one_literal E I; now constructor. Qed.

Lemma lower_x_news jh i ls l : (i < n)%nat -> lower_x jh i = Some ls -> In l ls -> news l.
Proof. intros Hj E I. unfold Sortedness.lower_x in E. cbv zeta in E. destruct (Z.leb_spec (ux i) (Z.min (ux i) (uy jh))); [injection E as <-; destruct I|]. one_literal E I; now constructor. Qed.

Definition windows_meet : Prop := forall j, (j < n)%nat -> ly j <= uy j.

(** What the round consists of. *)
Lemma round_inv ls : round = Some ls -> (ls = [LFalse] /\ forall X Y M, ~ solution X Y M) \/
  exists phi phi2 l1 l2, windows_meet /\ glover n lo hi ux (fun k => nth k phi 0%nat) n /\
    glover n (fun i => (n - hi i)%nat) (fun i => (n - lo i)%nat) (fun i => - lx i) (fun k => nth (n - 1 - k) phi2 0%nat) n /\
    each n (fun j => then_do (raise_y phi2 j) (lower_y phi j)) = Some l1 /\
    each n (fun i => match component_range n lx ux oly ouy (tj_component (find_components (sort_graph n lx ux oly ouy phi) (2 * n))) i with None => None | Some (jl, jh) => then_do (raise_x jl i) (lower_x jh i) end) = Some l2 /\
    ls = l1 ++ l2.
Proof.
  unfold sort_round. intro E. destruct (existsb _ _) eqn:Ex.
  { injection E as <-. left. split; [reflexivity|]. intros X Y M So. apply existsb_exists in Ex. destruct Ex as (j & Ij & C). apply in_seq in Ij. apply Z.ltb_lt in C. pose proof (so_window X Y M So j ltac:(lia)). lia. }
  assert (FH : fail_hall n lx ux oly ouy = Some ls -> ls = [LFalse] /\ forall X Y M, ~ solution X Y M).
  { unfold fail_hall. destruct (find_band n lo hi) as [|b bs] eqn:F; [discriminate|]. intro Q. injection Q as <-. split; [reflexivity|]. intros X Y M So.
    assert (find_band n lo hi = []); [|congruence]. apply (band_absurd _ _ _ M (so_once _ _ _ So)). intros i Ii. apply (so_place X Y M So). exact (band_below _ _ _ Ii). }
  assert (Wm : windows_meet).
  { intros j Hj. apply not_true_iff_false in Ex. destruct (Z_le_gt_dec (ly j) (uy j)) as [|C]; [assumption|]. exfalso. apply Ex, existsb_exists. exists j. split; [apply in_seq; lia|]. apply Z.ltb_lt. lia. }
  pose proof down_outcome as D. pose proof up_outcome as U. destruct (down_sweep _ _ _ _ _) as [phi|]; [|auto]. destruct (up_sweep _ _ _ _ _) as [phi2|]; [|auto]. cbv zeta in E.
  apply then_do_some in E. destruct E as (l1 & l2 & E1 & E2 & ->). right. exists phi, phi2, l1, l2. auto 10.
Qed.

Lemma round_news ls l : round = Some ls -> In l ls -> news l.
Proof.
  intros E I. apply round_inv in E. destruct E as [[-> _]|(phi & phi2 & l1 & l2 & _ & _ & _ & E1 & E2 & ->)].
  - destruct I as [<-|[]]. constructor.
  - apply in_app_iff in I. destruct I as [I|I].
    + apply each_some in E1. destruct E1 as [_ E1]. destruct (E1 l I) as (j & lj & Hj & E & J). apply then_do_some in E. destruct E as (m1 & m2 & Q1 & Q2 & ->).
      apply in_app_iff in J. destruct J as [J|J]; [now apply (raise_y_news phi2 j m1)|now apply (lower_y_news phi j m2)].
    + apply each_some in E2. destruct E2 as [_ E2]. destruct (E2 l I) as (j & lj & Hj & E & J). destruct (component_range _ _ _ _ _ _ _) as [[jl jh]|]; [|discriminate]. apply then_do_some in E. destruct E as (m1 & m2 & Q1 & Q2 & ->).
      apply in_app_iff in J. destruct J as [J|J]; [now apply (raise_x_news jl j m1)|now apply (lower_x_news jh j m2)].
Qed.

Lemma round_true ls l X Y M : solution X Y M -> round = Some ls -> In l ls -> true_of X Y l.
Proof.
  intros So E I. apply round_inv in E. destruct E as [[-> N]|(phi & phi2 & l1 & l2 & _ & D & _ & E1 & E2 & ->)]; [exfalso; now apply (N X Y M)|].
  apply in_app_iff in I. destruct I as [I|I].
  - apply each_some in E1. destruct E1 as [_ E1]. destruct (E1 l I) as (j & lj & Hj & E & J). apply then_do_some in E. destruct E as (m1 & m2 & Q1 & Q2 & ->).
    apply in_app_iff in J. destruct J as [J|J].
    + destruct (raise_y_sound X Y M So phi2 j m1 l Hj Q1 J) as (L & -> & H). constructor; [assumption|lia].
    + destruct (lower_y_sound X Y M So phi j m2 l Hj Q2 J) as (L & -> & H). constructor; [assumption|lia].
  - apply each_some in E2. destruct E2 as [_ E2]. destruct (E2 l I) as (i & li & Hi & E & J). destruct (component_range_spec phi D i Hi) as (jl & jh & Q & A & B & _). rewrite Q in E.
    pose proof (hi_le i). apply then_do_some in E. destruct E as (m1 & m2 & Q1 & Q2 & ->).
    apply in_app_iff in J. destruct J as [J|J].
    + destruct (raise_x_sound X Y M So jl i m1 l Hi ltac:(lia) Q1 J) as (L & -> & Z). constructor; [assumption|lia].
    + destruct (lower_x_sound X Y M So jh i m2 l Hi ltac:(lia) Q2 J) as (L & -> & Z). constructor; [assumption|lia].
Qed.

(** Each bound, as it is after the round, belongs to a solution. *)
Lemma round_best ls : round = Some ls -> ~ In LFalse ls -> forall k, (k < n)%nat ->
  (exists X Y M, solution X Y M /\ (Y k = oly k \/ In (LCond (cond_ge (vy k) (Y k))) ls)) /\
  (exists X Y M, solution X Y M /\ (Y k = ouy k \/ In (LCond (cond_lt (vy k) (Y k + 1))) ls)) /\
  (exists X Y M, solution X Y M /\ (X k = lx k \/ In (LCond (cond_ge (vx k) (X k))) ls)) /\
  (exists X Y M, solution X Y M /\ (X k = ux k \/ In (LCond (cond_lt (vx k) (X k + 1))) ls)).
Proof.
  intros E NF k Hk. apply round_inv in E. destruct E as [[-> _]|(phi & phi2 & l1 & l2 & Wm & D & U & E1 & E2 & ->)]; [exfalso; apply NF; now left|].
  apply each_some in E1, E2. destruct E1 as [E1 _], E2 as [E2 _].
  destruct (E1 k Hk) as (lk & Q & J). apply then_do_some in Q. destruct Q as (m1 & m2 & Q1 & Q2 & ->).
  destruct (E2 k Hk) as (lk & Q & J'). destruct (component_range_spec phi D k Hk) as (jl & jh & R & A & B & C1 & C2 & _). rewrite R in Q.
  apply then_do_some in Q. destruct Q as (m3 & m4 & Q3 & Q4 & ->).
  assert (I1 : forall l, In l m1 -> In l (l1 ++ l2)) by (intros l I; apply in_app_iff; left; apply J, in_app_iff; auto).
  assert (I2 : forall l, In l m2 -> In l (l1 ++ l2)) by (intros l I; apply in_app_iff; left; apply J, in_app_iff; auto).
  assert (I3 : forall l, In l m3 -> In l (l1 ++ l2)) by (intros l I; apply in_app_iff; right; apply J', in_app_iff; auto).
  assert (I4 : forall l, In l m4 -> In l (l1 ++ l2)) by (intros l I; apply in_app_iff; right; apply J', in_app_iff; auto).
  assert (T1 : Z.max (lx (nth k phi2 0%nat)) (ly k) = oly k \/ In (LCond (cond_ge (vy k) (Z.max (lx (nth k phi2 0%nat)) (ly k)))) (l1 ++ l2)).
  { unfold Sortedness.raise_y in Q1. cbv zeta in Q1. pose proof (highest_own oly k) as Ho. change (highest_so_far oly k) with (ly k) in Ho.
    destruct (Z.leb_spec (Z.max (lx (nth k phi2 0%nat)) (ly k)) (oly k)); [left; lia|right]. apply I1. revert Q1. clear.
    repeat match goal with |- context [if ?c then _ else _] => destruct c | |- context [match find_band ?a ?b ?c with _ => _ end] => destruct (find_band a b c) end; intro E; try discriminate; injection E as <-; now left. }
  assert (T2 : Z.min (ux (nth k phi 0%nat)) (uy k) = ouy k \/ In (LCond (cond_lt (vy k) (Z.min (ux (nth k phi 0%nat)) (uy k) + 1))) (l1 ++ l2)).
  { unfold Sortedness.lower_y in Q2. cbv zeta in Q2. pose proof (uy_own n ouy k Hk).
    destruct (Z.leb_spec (ouy k) (Z.min (ux (nth k phi 0%nat)) (uy k))); [left; lia|right]. apply I2. revert Q2. clear.
    repeat match goal with |- context [if ?c then _ else _] => destruct c | |- context [match find_band ?a ?b ?c with _ => _ end] => destruct (find_band a b c) end; intro E; try discriminate; injection E as <-; now left. }
  assert (T3 : Z.max (lx k) (ly jl) = lx k \/ In (LCond (cond_ge (vx k) (Z.max (lx k) (ly jl)))) (l1 ++ l2)).
  { unfold Sortedness.raise_x in Q3. cbv zeta in Q3. destruct (Z.leb_spec (Z.max (lx k) (ly jl)) (lx k)); [left; lia|right]. apply I3. revert Q3. clear.
    repeat match goal with |- context [if ?c then _ else _] => destruct c end; intro E; try discriminate; injection E as <-; now left. }
  assert (T4 : Z.min (ux k) (uy jh) = ux k \/ In (LCond (cond_lt (vx k) (Z.min (ux k) (uy jh) + 1))) (l1 ++ l2)).
  { unfold Sortedness.lower_x in Q4. cbv zeta in Q4. destruct (Z.leb_spec (ux k) (Z.min (ux k) (uy jh))); [left; lia|right]. apply I4. revert Q4. clear.
    repeat match goal with |- context [if ?c then _ else _] => destruct c end; intro E; try discriminate; injection E as <-; now left. }
  split; [|split; [|split]].
  - destruct (tight_lower phi2 U Wm) as (X & M & So). exists X, (fun k => Z.max (lx (nth k phi2 0%nat)) (ly k)), M. auto.
  - destruct (tight_upper phi D Wm) as (X & M & So). exists X, (fun k => Z.min (ux (nth k phi 0%nat)) (uy k)), M. auto.
  - destruct (tight_x phi D Wm k jl Hk ltac:(lia) C1) as [(X & Y & M & So & Ex) _]. exists X, Y, M. split; [assumption|]. now rewrite Ex.
  - destruct (tight_x phi D Wm k jh Hk ltac:(lia) C2) as [_ (X & Y & M & So & Ex)]. exists X, Y, M. split; [assumption|]. now rewrite Ex.
Qed.

Lemma round_fails ls : round = Some ls -> In LFalse ls -> ls = [LFalse] /\ forall X Y M, ~ solution X Y M.
Proof.
  intros E I. pose proof E as E'. apply round_inv in E. destruct E as [E|(phi & phi2 & l1 & l2 & Wm & D & U & E1 & E2 & ->)]; [assumption|]. exfalso.
  destruct (tight_lower phi2 U Wm) as (X & M & So). pose proof (round_true _ _ X _ M So E' I) as C. inversion C.
Qed.
End Round.
