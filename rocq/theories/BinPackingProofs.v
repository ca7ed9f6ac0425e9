(** Lemmas about BinPacking. *)
From Coq Require Import ZArith List Bool Arith Lia.
From Verif Require Import IntervalSet IntervalSetSpec IntervalSetProofs Vars VarsSpec VarsProofs State StateSpec StateProofs Epochs
  Engine EngineSpec EngineProofs SessionSpec SessionInvProofs Tracker ContractSpec ContractProofs RunProofs PartsProofs ConsistencySpec QuietProofs
  Passes PassesProofs OnceProofs AllDifferentSpec AllDifferent ChoiceProofs MultiplyProofs Knapsack BinPackingSpec BinPacking.
From Verif Require KnapsackProofs.
Import ListNotations.
Local Open Scope Z_scope.

Lemma holds_at_In xs w : holds_at xs w = true <-> In w xs.
Proof.
  unfold holds_at. rewrite existsb_exists. split; [intros (x & I & E); apply Z.eqb_eq in E; now subst|]. intro I. exists w. split; [assumption|apply Z.eqb_refl].
Qed.

(** ** Choosing, for each item, whether it goes into the bin *)
Section Choices.
Variable size : nat -> Z.
Hypothesis Pos : forall i, 0 <= size i.

Fixpoint load_of (g : nat -> bool) (j : nat) : Z :=
  match j with O => 0 | S i => load_of g i + if g i then size i else 0 end.

Lemma load_ext g h j : (forall i, (i < j)%nat -> g i = h i) -> load_of g j = load_of h j.
Proof. induction j as [|j IH]; intro H; [reflexivity|]. cbn [load_of]. rewrite IH by (intros i Li; apply H; lia). now rewrite H by lia. Qed.

Lemma load_mono g i j : (i <= j)%nat -> load_of g i <= load_of g j.
Proof. induction 1 as [|j L IH]; [lia|]. cbn [load_of]. specialize (Pos j). destruct (g j); lia. Qed.

Lemma load_nonneg g j : 0 <= load_of g j.
Proof. exact (load_mono g 0 j (Nat.le_0_l j)). Qed.

Lemma load_most g j : load_of g j <= load_of (fun _ => true) j.
Proof. induction j as [|j IH]; [reflexivity|]. cbn [load_of]. specialize (Pos j). destruct (g j); lia. Qed.

Definition splice (m : nat) (g h : nat -> bool) (i : nat) : bool := if (i <? m)%nat then g i else h i.

Lemma splice_load m g h j : (m <= j)%nat -> load_of (splice m g h) j = load_of g m + (load_of h j - load_of h m).
Proof.
  induction 1 as [|j L IH].
  - rewrite (load_ext (splice m g h) g m) by (intros i Li; unfold splice; now rewrite (proj2 (Nat.ltb_lt i m) Li)). lia.
  - cbn [load_of]. rewrite IH. unfold splice at 1. rewrite (proj2 (Nat.ltb_ge j m)) by assumption. lia.
Qed.

Lemma splice_before m g h i : (i < m)%nat -> splice m g h i = g i.
Proof. intro L. unfold splice. now rewrite (proj2 (Nat.ltb_lt i m) L). Qed.

Lemma splice_after m g h i : (m <= i)%nat -> splice m g h i = h i.
Proof. intro L. unfold splice. now rewrite (proj2 (Nat.ltb_ge i m) L). Qed.
End Choices.

(** A choice that the flags allow. *)
Definition allowed (ins outs : nat -> bool) (g : nat -> bool) (i : nat) : Prop := (if g i then ins i else outs i) = true.

Section Bin.
Variables d0 : domains.
Variable items : list var_id.
Variable sizes : list Z.
Variable bs : bins.
Variable b : nat.
Hypothesis Len : length items = length sizes.
Hypothesis Pos : Forall (fun s => 0 <= s) sizes.
Local Notation n := (length items).
Local Notation size := (size_of sizes).
Local Notation load := (load_of size).

Lemma size_nonneg i : 0 <= size i.
Proof. unfold size_of. destruct (Nat.lt_ge_cases i (length sizes)) as [L|L]; [|rewrite nth_overflow by assumption; lia]. apply (proj1 (Forall_forall _ _) Pos). now apply nth_In. Qed.

Lemma whole_load : load (fun _ => true) n = per_bin_cap sizes.
Proof.
  unfold per_bin_cap. rewrite Len. clear. assert (G : forall l x y, fold_left Z.add l (x + y) = x + fold_left Z.add l y).
  { induction l as [|z l IH]; intros x y; cbn [fold_left]; [reflexivity|]. rewrite <- Z.add_assoc. apply IH. }
  assert (H : forall l, load_of (fun i => nth i l 0) (fun _ => true) (length l) = fold_left Z.add l 0).
  { induction l as [|z l IH] using rev_ind; [reflexivity|]. rewrite app_length, Nat.add_1_r. cbn [load_of]. rewrite fold_left_app. cbn [fold_left]. rewrite <- IH. f_equal; [|rewrite app_nth2, Nat.sub_diag by lia; reflexivity].
    assert (X : forall k, (k <= length l)%nat -> load_of (fun i => nth i (l ++ [z]) 0) (fun _ => true) k = load_of (fun i => nth i l 0) (fun _ => true) k); [|now apply X].
    induction k as [|k IHk]; intro L; [reflexivity|]. cbn [load_of]. rewrite IHk by lia. rewrite app_nth1 by lia. reflexivity. }
  apply H.
Qed.

Lemma capped g j : (j <= n)%nat -> load g j <= per_bin_cap sizes.
Proof.
  intro L. rewrite <- whole_load. pose proof (load_most size size_nonneg g j). pose proof (load_mono size size_nonneg (fun _ => true) j n L). lia.
Qed.

(** The static graph has what the initial domains allow. *)
Lemma nodes_have g j : (j <= n)%nat -> (forall i, (i < j)%nat -> allowed (can_be d0 items b) (can_be_not d0 items b) g i) -> In (load g j) (bin_nodes d0 items sizes b j).
Proof.
  induction j as [|j IH]; intros L A; [now left|]. cbn [bin_nodes]. apply nodup_In. apply in_flat_map. exists (load g j). split; [apply IH; [lia|intros i Li; apply A; lia]|].
  specialize (A j ltac:(lia)). unfold allowed in A. pose proof (capped g (S j) L) as C. cbn [load_of] in C |- *. apply in_or_app. destruct (g j).
  - right. rewrite A, (proj2 (Z.leb_le _ _) C). now left.
  - left. rewrite A, Z.add_0_r. now left.
Qed.

(** *** With everything derived in advance *)
Section Upfront.
Variable d : domains.
Let ins := can_be d items b.
Let outs := can_be_not d items b.
Let upper := most d bs b.
Let arrivals := arrivals d0 d items sizes upper b.
Let trimmed := trimmed d0 d items sizes bs b.

Lemma arrivals_have g : (forall i, (i < n)%nat -> allowed (can_be d0 items b) (can_be_not d0 items b) g i) -> (forall i, (i < n)%nat -> allowed ins outs g i) -> load g n <= upper ->
  forall j, (j < n)%nat -> In (load g j, g j, load g (S j)) (arrivals (S j)).
Proof.
  intros A0 A U. assert (N : forall j, (j < n)%nat -> In (load g j) (map snd (arrivals j)) -> In (load g j, g j, load g (S j)) (arrivals (S j))).
  { intros j L I. unfold arrivals. cbn [BinPacking.arrivals]. apply filter_In. cbn [snd]. split; [|apply Z.leb_le; pose proof (load_mono size size_nonneg g (S j) n L); lia].
    apply filter_In. cbn [snd]. split; [|apply holds_at_In, nodes_have; [lia|intros i Li; apply A0; lia]]. apply in_flat_map. exists (load g j). split; [now apply nodup_In|].
    specialize (A j L). unfold allowed, ins, outs in A. apply in_or_app. cbn [load_of]. destruct (g j); rewrite A; [right; now left|left; left]. now rewrite Z.add_0_r. }
  induction j as [|j IH]; intro L; apply N; auto; [now left|]. apply in_map_iff. exists (load g j, g j, load g (S j)). split; [reflexivity|]. apply IH. lia.
Qed.

Lemma arrivals_come j : forall w, In w (map snd (arrivals j)) -> exists g, (forall i, (i < j)%nat -> allowed ins outs g i) /\ load g j = w.
Proof.
  induction j as [|j IH]; intros w I.
  - destruct I as [<-|[]]. exists (fun _ => false). split; [intros i Li; lia|reflexivity].
  - apply in_map_iff in I. destruct I as (e & <- & I). unfold arrivals in I. cbn [BinPacking.arrivals] in I. apply filter_In in I. destruct I as [I _]. apply filter_In in I. destruct I as [I _].
    apply in_flat_map in I. destruct I as (p & Ip & I). apply nodup_In in Ip. destruct (IH p Ip) as (g & A & E). 
    assert (X : exists t, allowed ins outs (fun _ => t) j /\ snd e = p + if t then size j else 0).
    { apply in_app_or in I. destruct I as [I|I].
      - destruct (can_be_not d items b j) eqn:O; [|destruct I]. destruct I as [<-|[]]. exists false. split; [exact O|cbn [snd]; lia].
      - destruct (can_be d items b j) eqn:O; [|destruct I]. destruct I as [<-|[]]. exists true. split; [exact O|reflexivity]. }
    destruct X as (t & At & ->). exists (splice j g (fun _ => t)). split.
    + intros i Li. unfold allowed. destruct (Nat.eq_dec i j) as [->|N]; [rewrite splice_after by lia; exact At|]. rewrite splice_before by lia. apply A. lia.
    + cbn [load_of]. rewrite splice_after by lia. f_equal. rewrite <- E. apply load_ext. intros i Li. now apply splice_before.
Qed.

Lemma arrival_steps j p t w : In (p, t, w) (arrivals (S j)) -> In p (map snd (arrivals j)) /\ allowed ins outs (fun _ => t) j /\ w = p + (if t then size j else 0) /\ w <= upper.
Proof.
  intro I. unfold arrivals in I. cbn [BinPacking.arrivals] in I. apply filter_In in I. destruct I as [I U]. cbn [snd] in U. apply Z.leb_le in U. apply filter_In in I. destruct I as [I _].
  apply in_flat_map in I. destruct I as (q & Iq & I). apply nodup_In in Iq. apply in_app_or in I. destruct I as [I|I].
  - destruct (can_be_not d items b j) eqn:O; [|destruct I]. destruct I as [X|[]]. injection X as <- <- <-. repeat split; auto. lia.
  - destruct (can_be d items b j) eqn:O; [|destruct I]. destruct I as [X|[]]. injection X as <- <- <-. repeat split; auto.
Qed.

(** What the last layer means. *)
Definition final (w : Z) : Prop := In w (map snd (ends d0 d items sizes bs b)).

Lemma trimmed_leads k : (k <= n)%nat -> forall e, In e (trimmed k) -> In e (arrivals (n - k)) /\
  exists g, (forall i, (n - k <= i < n)%nat -> allowed ins outs g i) /\ final (snd e + (load g n - load g (n - k))).
Proof.
  induction k as [|k IH]; intros L e I.
  - unfold trimmed in I. cbn [BinPacking.trimmed] in I. rewrite Nat.sub_0_r. split; [apply filter_In in I; apply I|]. exists (fun _ => false). split; [intros i Li; lia|].
    rewrite Z.sub_diag, Z.add_0_r. unfold final. apply in_map_iff. eauto.
  - unfold trimmed in I. cbn [BinPacking.trimmed] in I. apply filter_In in I. destruct I as [I H]. split; [exact I|]. apply holds_at_In, in_map_iff in H. destruct H as (f & Ef & If).
    destruct (IH ltac:(lia) f If) as (Af & g & Ag & Fg). replace (n - k)%nat with (S (n - S k)) in * by lia. destruct f as [[p t] w]. cbn [fst snd] in *. subst p.
    destruct (arrival_steps _ _ _ _ Af) as (_ & At & Ew & _). exists (splice (S (n - S k)) (fun _ => t) g). split.
    + intros i Li. unfold allowed. destruct (Nat.eq_dec i (n - S k)) as [->|N]; [rewrite splice_before by lia; exact At|]. rewrite splice_after by lia. apply Ag. lia.
    + rewrite splice_load by lia. rewrite (load_ext size (splice (S (n - S k)) (fun _ => t) g) (fun _ => t) (n - S k)) by (intros i Li; apply splice_before; lia).
      cbn [load_of] in Fg |- *. match goal with |- final ?x => match type of Fg with final ?y => replace x with y; [exact Fg|] end end. lia.
Qed.

(** A way into the bin that is left has a whole choice through it. *)
Lemma trimmed_whole k p t w : (k < n)%nat -> In (p, t, w) (trimmed k) -> exists g, (forall i, (i < n)%nat -> allowed ins outs g i) /\ g (n - S k)%nat = t /\ final (load g n).
Proof.
  intros L I. destruct (trimmed_leads k ltac:(lia) _ I) as (A & h & Ah & Fh). replace (n - k)%nat with (S (n - S k)) in * by lia. destruct (arrival_steps _ _ _ _ A) as (Ip & At & Ew & _).
  destruct (arrivals_come _ _ Ip) as (g & Ag & Eg). set (m := (n - S k)%nat) in *. exists (splice m g (splice (S m) (fun _ => t) h)). split; [|split].
  - intros i Li. unfold allowed. destruct (Nat.lt_ge_cases i m) as [B|B]; [rewrite splice_before by assumption; now apply Ag|]. rewrite splice_after by assumption.
    destruct (Nat.eq_dec i m) as [->|N]; [rewrite splice_before by lia; exact At|]. rewrite splice_after by lia. apply Ah. lia.
  - rewrite splice_after, splice_before by lia. reflexivity.
  - rewrite splice_load by lia. rewrite (splice_load size (S m)) by lia. rewrite (load_ext size (splice (S m) (fun _ => t) h) (fun _ => t) m) by (intros i Li; apply splice_before; lia).
    cbn [load_of snd] in Fh |- *. match goal with |- final ?x => match type of Fh with final ?y => replace x with y; [exact Fh|] end end. lia.
Qed.

Lemma final_whole w : final w -> exists g, (forall i, (i < n)%nat -> allowed ins outs g i) /\ load g n = w.
Proof.
  intro F. unfold final in F. apply arrivals_come. apply in_map_iff in F. destruct F as (e & <- & I). apply filter_In in I. apply in_map_iff. exists e. split; [reflexivity|]. apply I.
Qed.

Lemma final_right w : final w -> may_hold d bs b w = true /\ (w <= upper \/ n = O).
Proof.
  intro F. unfold final in F. apply in_map_iff in F. destruct F as ([[p t] w'] & <- & I). apply filter_In in I. destruct I as [I M]. split; [exact M|].
  destruct (Nat.eq_dec n 0) as [Z|NZ]; [now right|left]. change (In (p, t, w') (arrivals n)) in I. replace n with (S (n - 1)) in I by lia. now apply (arrival_steps (n - 1) p t w').
Qed.

(** A solution is never cut off. *)
Lemma trimmed_have g : (forall i, (i < n)%nat -> allowed (can_be d0 items b) (can_be_not d0 items b) g i) -> (forall i, (i < n)%nat -> allowed ins outs g i) -> load g n <= upper -> may_hold d bs b (load g n) = true ->
  final (load g n) /\ forall k, (k < n)%nat -> In (load g (n - S k), g (n - S k)%nat, load g (n - k)) (trimmed k).
Proof.
  intros A0 A U M. pose proof (arrivals_have g A0 A U) as H. split.
  - unfold final, ends. destruct (Nat.eq_dec n 0) as [Z|NZ].
    + rewrite Z in M |- *. cbn [load_of] in M |- *. cbn [BinPacking.arrivals filter snd]. rewrite M. now left.
    + apply in_map_iff. exists (load g (n - 1), g (n - 1)%nat, load g n). split; [reflexivity|]. apply filter_In. cbn [snd]. split; [|exact M]. specialize (H (n - 1)%nat ltac:(lia)). replace (S (n - 1))%nat with n in H by lia. exact H.
  - induction k as [|k IH]; intro L.
    + unfold trimmed. cbn [BinPacking.trimmed]. apply filter_In. cbn [snd]. rewrite Nat.sub_0_r. split; [|exact M]. specialize (H (n - 1)%nat ltac:(lia)). replace (S (n - 1))%nat with n in H by lia. exact H.
    + unfold trimmed. cbn [BinPacking.trimmed]. apply filter_In. cbn [snd]. split.
      * specialize (H (n - S (S k))%nat ltac:(lia)). replace (S (n - S (S k)))%nat with (n - S k)%nat in H by lia. exact H.
      * apply holds_at_In, in_map_iff. exists (load g (n - S k), g (n - S k)%nat, load g (n - k)). split; [reflexivity|]. apply IH. lia.
Qed.
End Upfront.
End Bin.

(** *** The sweep *)
Section Sweep.
Variable nodes : nat -> list Z.
Variable sizes : list Z.
Variable n : nat.

Lemma extend_length ins outs k : forall i layer, length (extend nodes sizes ins outs i layer k) = k.
Proof. induction k as [|k IH]; intros i layer; cbn [extend]; [reflexivity|]. cbn [length]. now rewrite IH. Qed.

Lemma extend_step ins outs k : forall i layer j, (j < k)%nat ->
  nth (S j) (layer :: extend nodes sizes ins outs i layer k) [] = next_layer nodes sizes ins outs (i + j) (nth j (layer :: extend nodes sizes ins outs i layer k) []).
Proof.
  induction k as [|k IH]; intros i layer j L; [lia|]. cbn [extend]. destruct j as [|j]; [cbn [nth]; now rewrite Nat.add_0_r|].
  specialize (IH (S i) (next_layer nodes sizes ins outs i layer) j ltac:(lia)). cbn [nth] in IH |- *. rewrite IH. now rewrite Nat.add_succ_r.
Qed.

Lemma retreat_length ins outs k : forall layers, length (retreat nodes sizes ins outs k layers) = (k + length layers)%nat.
Proof. induction k as [|k IH]; intro layers; cbn [retreat]; [reflexivity|]. rewrite IH. cbn [length]. lia. Qed.

Lemma retreat_after ins outs k : forall layers j, nth (k + j) (retreat nodes sizes ins outs k layers) [] = nth j layers [].
Proof. induction k as [|k IH]; intros layers j; cbn [retreat]; [reflexivity|]. replace (S k + j)%nat with (k + S j)%nat by lia. now rewrite IH. Qed.

Lemma retreat_step ins outs k : forall layers j, (j < k)%nat -> nth j (retreat nodes sizes ins outs k layers) [] = earlier_layer nodes sizes ins outs j (nth (S j) (retreat nodes sizes ins outs k layers) []).
Proof.
  induction k as [|k IH]; intros layers j L; [lia|]. cbn [retreat]. destruct (Nat.eq_dec j k) as [->|N]; [|apply IH; lia].
  pose proof (retreat_after ins outs k (earlier_layer nodes sizes ins outs k (hd [] layers) :: layers)) as R. pose proof (R O) as R0. pose proof (R 1%nat) as R1. rewrite Nat.add_0_r in R0. rewrite Nat.add_1_r in R1. rewrite R0, R1. cbn [nth]. now destruct layers.
Qed.

Definition fwd_ok (ins outs : list bool) (fwd : list (list Z)) : Prop :=
  length fwd = S n /\ nth 0 fwd [] = [0] /\ forall j, (j < n)%nat -> nth (S j) fwd [] = next_layer nodes sizes ins outs j (nth j fwd []).
Definition bwd_ok (ins outs : list bool) (fwd bwd : list (list Z)) : Prop :=
  length bwd = S n /\ nth n bwd [] = nth n fwd [] /\ forall j, (j < n)%nat -> nth j bwd [] = earlier_layer nodes sizes ins outs j (nth (S j) bwd []).

Definition same_flags (x y : list bool) : Prop := forall i, (i < n)%nat -> flag x i = flag y i.

Lemma next_ext ins outs ins' outs' i layer : flag ins i = flag ins' i -> flag outs i = flag outs' i -> next_layer nodes sizes ins outs i layer = next_layer nodes sizes ins' outs' i layer.
Proof. intros A B. unfold next_layer. now rewrite A, B. Qed.

Lemma earlier_ext ins outs ins' outs' i layer : flag ins i = flag ins' i -> flag outs i = flag outs' i -> earlier_layer nodes sizes ins outs i layer = earlier_layer nodes sizes ins' outs' i layer.
Proof. intros A B. unfold earlier_layer. now rewrite A, B. Qed.

Lemma fwd_unique ins outs ins' outs' f g : same_flags ins ins' -> same_flags outs outs' -> fwd_ok ins outs f -> fwd_ok ins' outs' g -> f = g.
Proof.
  intros Si So (Lf & Zf & Sf) (Lg & Zg & Sg). apply (nth_ext _ _ [] []); [congruence|]. intros j L. rewrite Lf in L. induction j as [|j IH]; [congruence|].
  rewrite Sf, Sg by lia. rewrite IH by lia. apply next_ext; [apply Si|apply So]; lia.
Qed.

Lemma bwd_unique ins outs ins' outs' fwd f g : same_flags ins ins' -> same_flags outs outs' -> bwd_ok ins outs fwd f -> bwd_ok ins' outs' fwd g -> f = g.
Proof.
  intros Si So (Lf & Zf & Sf) (Lg & Zg & Sg). apply (nth_ext _ _ [] []); [congruence|]. intros j L. rewrite Lf in L.
  assert (X : forall k, (k <= n)%nat -> nth (n - k) f [] = nth (n - k) g []).
  { induction k as [|k IH]; intro Lk; [rewrite Nat.sub_0_r; congruence|]. rewrite Sf, Sg by lia. replace (S (n - S k)) with (n - k)%nat by lia. rewrite IH by lia. apply earlier_ext; [apply Si|apply So]; lia. }
  specialize (X (n - j)%nat ltac:(lia)). replace (n - (n - j))%nat with j in X by lia. exact X.
Qed.

(** What is remembered belongs to the flags that are. *)
Definition swept_ok (s : swept) : Prop := s_warm s = true -> fwd_ok (s_in s) (s_out s) (s_fwd s) /\ bwd_ok (s_in s) (s_out s) (s_fwd s) (s_bwd s).

Lemma full_fwd ins outs : fwd_ok ins outs ([0] :: extend nodes sizes ins outs 0 [0] n).
Proof. split; [cbn [length]; now rewrite extend_length|]. split; [reflexivity|]. intros j L. now apply (extend_step ins outs n 0). Qed.

Lemma full_bwd ins outs fwd : bwd_ok ins outs fwd (retreat nodes sizes ins outs n [nth n fwd []]).
Proof.
  split; [rewrite retreat_length; cbn [length]; lia|]. split; [|intros j L; now apply retreat_step].
  pose proof (retreat_after ins outs n [nth n fwd []] 0) as R. rewrite Nat.add_0_r in R. exact R.
Qed.

Lemma last_most (f : nat -> bool) l x : forall i, In i (filter f (seq 0 l)) -> (i <= last (filter f (seq 0 l)) x)%nat.
Proof.
  induction l as [|l IH]; [intros i []|]. rewrite seq_S, filter_app. cbn [Nat.add filter]. destruct (f l); [|rewrite app_nil_r; exact IH].
  intros i I. rewrite last_last. apply in_app_or in I. destruct I as [I|[<-|[]]]; [|lia]. apply filter_In in I. destruct I as [I _]. apply in_seq in I. lia.
Qed.

Lemma first_least (f : nat -> bool) l : forall m first r, filter f (seq m l) = first :: r -> forall i, In i (first :: r) -> (first <= i)%nat.
Proof.
  induction l as [|l IH]; intros m first r E; [discriminate|]. cbn [seq filter] in E. destruct (f m); [|now apply (IH (S m))].
  injection E as <- <-. intros i [<-|I]; [lia|]. apply filter_In in I. destruct I as [I _]. apply in_seq in I. lia.
Qed.

Lemma changed_range (f : nat -> bool) first r : filter f (seq 0 n) = first :: r ->
  (first < n)%nat /\ (last (first :: r) first < n)%nat /\ (forall i, (i < first)%nat -> f i = false) /\ forall i, (last (first :: r) first < i < n)%nat -> f i = false.
Proof.
  intro E. assert (I : forall i, In i (first :: r) <-> (i < n)%nat /\ f i = true) by (intro i; rewrite <- E, filter_In, in_seq; intuition lia).
  assert (N : (first < n)%nat) by (apply (I first); now left). split; [assumption|]. split; [|split].
  - apply (I (last (first :: r) first)). destruct (exists_last (l := first :: r) ltac:(discriminate)) as (l' & x & ->). rewrite last_last. apply in_or_app. right. now left.
  - intros i L. destruct (f i) eqn:F; [|reflexivity]. pose proof (first_least f n 0 first r E i ltac:(apply I; split; [lia|assumption])). lia.
  - intros i L. destruct (f i) eqn:F; [|reflexivity]. pose proof (last_most f n first i ltac:(rewrite E; apply I; split; [lia|assumption])) as M. rewrite E in M. lia.
Qed.

Lemma sweep_ok ins outs s : swept_ok s -> let '(s', pruned) := sweep nodes sizes n ins outs s in
  s_warm s' = true /\ swept_ok s' /\ same_flags (s_in s') ins /\ same_flags (s_out s') outs /\
  (pruned = [] \/ pruned = filter (fun i => flag ins i && negb (has_support nodes sizes (s_fwd s') (s_bwd s') i)) (seq 0 n)).
Proof.
  intro Ok. unfold sweep. set (f := fun i => negb (same_flag ins (s_in s) i && same_flag outs (s_out s) i)).
  destruct (s_warm s) eqn:W; cbn [negb].
  - destruct (Ok W) as [(Lf & Zf & Sf) (Lb & Zb & Sb)].
    assert (Same : forall i, f i = false -> flag (s_in s) i = flag ins i /\ flag (s_out s) i = flag outs i).
    { intros i F. unfold f in F. apply negb_false_iff, andb_true_iff in F. destruct F as [A B]. apply eqb_prop in A, B. auto. }
    destruct (filter f (seq 0 n)) as [|first r] eqn:E.
    + assert (F : forall i, (i < n)%nat -> f i = false).
      { intros i L. destruct (f i) eqn:F; [|reflexivity]. assert (I : In i (filter f (seq 0 n))) by (apply filter_In; split; [apply in_seq; lia|assumption]). rewrite E in I. destruct I. }
      split; [assumption|]. split; [assumption|]. repeat split; auto; intros i L; now apply Same, F.
    + destruct (changed_range f first r E) as (Nf & Nl & Bf & Al). set (after := S (last (first :: r) first)) in *.
      set (fwd := firstn (S first) (s_fwd s) ++ extend nodes sizes ins outs first (nth first (s_fwd s) []) (n - first)).
      assert (L1 : length (firstn (S first) (s_fwd s)) = S first) by (rewrite firstn_length; lia).
      assert (Head : forall j, (j <= first)%nat -> nth j fwd [] = nth j (s_fwd s) []).
      { intros j L. unfold fwd. rewrite app_nth1 by lia. rewrite <- (firstn_skipn (S first) (s_fwd s)) at 2. now rewrite app_nth1 by lia. }
      assert (Tail : forall j, nth (first + j) fwd [] = nth j (nth first (s_fwd s) [] :: extend nodes sizes ins outs first (nth first (s_fwd s) []) (n - first)) []).
      { intros [|j]; [rewrite Nat.add_0_r; now apply Head|]. unfold fwd. rewrite app_nth2 by lia. rewrite L1. replace (first + S j - S first)%nat with j by lia. reflexivity. }
      assert (Fo : fwd_ok ins outs fwd).
      { split; [unfold fwd; rewrite app_length, L1, extend_length; lia|]. split; [rewrite Head by lia; assumption|]. intros j L. destruct (Nat.lt_ge_cases j first) as [B|B].
        - rewrite !Head by lia. rewrite Sf by assumption. destruct (Same j (Bf j B)). now apply next_ext.
        - replace j with (first + (j - first))%nat at 1 2 by lia. rewrite <- Nat.add_succ_r. rewrite Tail. rewrite extend_step by lia. replace (first + (j - first))%nat with j by lia.
          f_equal. replace j with (first + (j - first))%nat at 2 by lia. now rewrite Tail. }
      set (bwd := if list_eq_dec Z.eq_dec (nth n fwd []) (nth n (s_fwd s) []) then retreat nodes sizes ins outs after (skipn after (s_bwd s)) else retreat nodes sizes ins outs n [nth n fwd []]).
      assert (Bo : bwd_ok ins outs fwd bwd).
      { unfold bwd. destruct (list_eq_dec Z.eq_dec (nth n fwd []) (nth n (s_fwd s) [])) as [Eq|Ne]; [|apply full_bwd].
        assert (Sk : forall j, nth j (skipn after (s_bwd s)) [] = nth (after + j) (s_bwd s) []).
        { intro j. rewrite <- (firstn_skipn after (s_bwd s)) at 2. rewrite app_nth2; rewrite firstn_length; [|lia]. f_equal. lia. }
        assert (After : forall j, (after <= j)%nat -> nth j (retreat nodes sizes ins outs after (skipn after (s_bwd s))) [] = nth j (s_bwd s) []).
        { intros j L. replace j with (after + (j - after))%nat at 1 by lia. rewrite retreat_after, Sk. f_equal. lia. }
        split; [rewrite retreat_length, skipn_length; lia|]. split; [rewrite After by lia; congruence|]. intros j L. destruct (Nat.lt_ge_cases j after) as [B|B]; [now apply retreat_step|].
        rewrite !After by lia. rewrite Sb by assumption. destruct (Same j (Al j ltac:(lia))). now apply earlier_ext. }
      cbn [s_warm s_in s_out s_fwd s_bwd]. split; [reflexivity|]. split; [intros _; split; assumption|]. split; [intros i L; reflexivity|]. split; [intros i L; reflexivity|]. now right.
  - cbn [s_warm s_in s_out s_fwd s_bwd]. split; [reflexivity|]. split; [intros _; split; [apply full_fwd|apply full_bwd]|]. split; [intros i L; reflexivity|]. split; [intros i L; reflexivity|]. now right.
Qed.

Lemma cold_ok : swept_ok (cold n).
Proof. intro W. discriminate. Qed.

(** Whatever was seen before, the same is remembered as after a first sweep. *)
Lemma sweep_afresh ins outs s : swept_ok s -> let first := sweep nodes sizes n ins outs (cold n) in let again := sweep nodes sizes n ins outs s in
  s_fwd (fst again) = s_fwd (fst first) /\ s_bwd (fst again) = s_bwd (fst first) /\ (snd again = [] \/ snd again = snd first).
Proof.
  intro Ok. cbv zeta. pose proof (sweep_ok ins outs s Ok) as A. pose proof (sweep_ok ins outs (cold n) cold_ok) as B. 
  destruct (sweep nodes sizes n ins outs s) as [s1 p1]. destruct (sweep nodes sizes n ins outs (cold n)) as [s2 p2] eqn:E2. destruct A as (W1 & O1 & I1 & U1 & P1). destruct B as (W2 & O2 & I2 & U2 & P2). cbn [fst snd].
  destruct (O1 W1) as [F1 B1]. destruct (O2 W2) as [F2 B2].
  assert (Si : same_flags (s_in s1) (s_in s2)) by (intros i L; rewrite I1, I2 by assumption; reflexivity). assert (So : same_flags (s_out s1) (s_out s2)) by (intros i L; rewrite U1, U2 by assumption; reflexivity).
  assert (Ef : s_fwd s1 = s_fwd s2) by now apply (fwd_unique (s_in s1) (s_out s1) (s_in s2) (s_out s2)). split; [assumption|].
  rewrite Ef in B1. assert (Eb : s_bwd s1 = s_bwd s2) by now apply (bwd_unique (s_in s1) (s_out s1) (s_in s2) (s_out s2) (s_fwd s2)). split; [assumption|].
  destruct P1 as [P1|P1]; [now left|right]. rewrite P1, Ef, Eb. unfold sweep in E2. cbn [cold s_warm negb] in E2. injection E2 as <- <-. reflexivity.
Qed.
End Sweep.

(** ** Values and flags *)
Lemma load_gap size g h j : (forall i, 0 <= size i) -> (forall i, (i < j)%nat -> g i = true -> h i = true) -> load_of size g j <= load_of size h j /\
  forall i, (i < j)%nat -> g i = false -> h i = true -> load_of size g j + size i <= load_of size h j.
Proof.
  intro Pos. induction j as [|j IH]; intro H; [split; [reflexivity|intros i Li; lia]|]. destruct (IH (fun i Li => H i ltac:(lia))) as [A B]. cbn [load_of]. specialize (H j ltac:(lia)). pose proof (Pos j) as P. split.
  - destruct (g j); [rewrite H by reflexivity; lia|]. destruct (h j); lia.
  - intros i Li Gi Hi. destruct (Nat.eq_dec i j) as [->|N]; [rewrite Gi, Hi; lia|]. specialize (B i ltac:(lia) Gi Hi). destruct (g j); [rewrite H by reflexivity; lia|]. destruct (h j); lia.
Qed.

Lemma lowest_In sums : sums <> [] -> In (lowest sums) sums.
Proof.
  destruct sums as [|x l]; [congruence|]. intros _. unfold lowest. cbn [hd]. assert (G : forall r, (forall y, In y r -> In y (x :: l)) -> In (fold_right Z.min x r) (x :: l)); [|now apply G].
  induction r as [|y r IH]; intro H; [now left|]. cbn [fold_right]. destruct (Z.min_spec y (fold_right Z.min x r)) as [[_ ->]|[_ ->]]; [apply H; now left|]. apply IH. intros z I. apply H. now right.
Qed.

Lemma lowest_least y l : In y l -> lowest l <= y.
Proof. unfold lowest. generalize (hd 0 l). intro x. induction l as [|z l IH]; intros []; cbn [fold_right]; [subst; lia|]. specialize (IH H). lia. Qed.

Lemma highest_most y l : In y l -> y <= highest l.
Proof. unfold highest. generalize (hd 0 l). intro x. induction l as [|z l IH]; intros []; cbn [fold_right]; [subst; lia|]. specialize (IH H). lia. Qed.

Definition loads_of (bs : bins) : list var_id := match bs with Loads loads => loads | Capacities _ => [] end.

(** Which items are in the bin. *)
Definition picks (items : list var_id) (b : nat) (a : assignment) (i : nat) : bool := var_value a (handle items i) =? Z.of_nat b.

Lemma content_load items sizes a b : length items = length sizes -> content items sizes a b = load_of (size_of sizes) (picks items b a) (length items).
Proof.
  unfold content. revert sizes. induction items as [|v items IH] using rev_ind; intros sizes Len; [reflexivity|].
  destruct (exists_last (l := sizes)) as (ss & s & ->); [intros ->; rewrite app_length in Len; cbn [length] in Len; lia|]. rewrite !app_length in Len. cbn [length] in Len. assert (L : length items = length ss) by lia.
  assert (C : combine (items ++ [v]) (ss ++ [s]) = combine items ss ++ [(v, s)]).
  { clear IH Len. revert ss L. induction items as [|w items IH]; intros [|x ss] L; try discriminate; [reflexivity|]. cbn [app combine]. f_equal. apply IH. now injection L. }
  rewrite C, fold_right_app. cbn [fold_right fst snd]. rewrite app_length, Nat.add_1_r. cbn [load_of].
  assert (G : forall (l : list (var_id * Z)) z, fold_right (fun p sum => (if var_value a (fst p) =? Z.of_nat b then snd p else 0) + sum) z l = fold_right (fun p sum => (if var_value a (fst p) =? Z.of_nat b then snd p else 0) + sum) 0 l + z).
  { induction l as [|p l IHl]; intro z; cbn [fold_right]; [lia|]. rewrite (IHl z). lia. }
  rewrite G, (IH ss L). replace (picks (items ++ [v]) b a (length items)) with (var_value a v =? Z.of_nat b) by (unfold picks, handle; rewrite app_nth2, Nat.sub_diag by lia; reflexivity).
  replace (size_of (ss ++ [s]) (length items)) with s by (unfold size_of; rewrite app_nth2, L, Nat.sub_diag by lia; reflexivity). f_equal; [|lia].
  assert (X : forall k, (k <= length ss)%nat -> load_of (size_of ss) (picks items b a) k = load_of (size_of (ss ++ [s])) (picks (items ++ [v]) b a) k).
  { induction k as [|k IHk]; intro Lk; [reflexivity|]. cbn [load_of]. rewrite IHk by lia. f_equal. unfold picks, size_of, handle. rewrite !app_nth1 by lia. reflexivity. }
  apply X. lia.
Qed.

Section Flags.
Variable nv : nat.
Variable items : list var_id.
Hypothesis Bv : Forall (var_below nv) items.
Variable b : nat.

Lemma item_known d i : length d = nv -> var_known d (handle items i).
Proof. intro Ld. apply (known_here nv); [assumption|now apply (KnapsackProofs.handle_below nv)]. Qed.

Lemma can_be_iff d i : domains_ok d -> var_known d (handle items i) -> can_be d items b i = true <-> view_member d (handle items i) (Z.of_nat b).
Proof. intros Hd K. unfold can_be. now apply in_domain_spec. Qed.

Lemma can_be_not_iff d i : domains_ok d -> var_known d (handle items i) -> can_be_not d items b i = true <-> exists x, x <> Z.of_nat b /\ view_member d (handle items i) x.
Proof.
  intros Hd K. unfold can_be_not. destruct (optional_single_value d (handle items i)) as [v|] eqn:E.
  - rewrite optional_single_value_spec in E by assumption. destruct (v =? Z.of_nat b) eqn:B; cbn [negb].
    + apply Z.eqb_eq in B. split; [discriminate|]. intros (x & N & M). apply E in M. congruence.
    + apply Z.eqb_neq in B. split; [|reflexivity]. intros _. exists v. split; [assumption|now apply E].
  - split; [|reflexivity]. intros _. destruct (Z.eq_dec (lower_bound d (handle items i)) (Z.of_nat b)) as [El|Nl]; [|exists (lower_bound d (handle items i)); split; [assumption|now apply lower_bound_spec]].
    exists (upper_bound d (handle items i)). split; [|now apply upper_bound_spec]. intro Eu. destruct (lower_bound_spec d (handle items i) Hd K) as [Ml Al]. destruct (upper_bound_spec d (handle items i) Hd K) as [Mu Au].
    assert (X : optional_single_value d (handle items i) = Some (Z.of_nat b)); [|congruence]. apply optional_single_value_spec; auto. intro y. split; [|intros ->; now rewrite <- El].
    intro M. pose proof (Al y M). pose proof (Au y M). lia.
Qed.

Lemma picks_allowed d a i : domains_ok d -> var_known d (handle items i) -> within a d -> allowed (can_be d items b) (can_be_not d items b) (picks items b a) i.
Proof.
  intros Hd K Wa. assert (M : view_member d (handle items i) (var_value a (handle items i))) by (apply view_member_iff; eauto). unfold allowed, picks. destruct (var_value a (handle items i) =? Z.of_nat b) eqn:E.
  - apply Z.eqb_eq in E. apply can_be_iff; auto. now rewrite <- E.
  - apply Z.eqb_neq in E. apply can_be_not_iff; eauto.
Qed.

Lemma some_flag d i : domains_ok d -> var_known d (handle items i) -> can_be d items b i = true \/ can_be_not d items b i = true.
Proof. intros Hd K. destruct (within_exists d Hd) as (a & Wa). pose proof (picks_allowed d a i Hd K Wa) as A. unfold allowed in A. destruct (picks items b a i); auto. Qed.

Lemma flags_inside d0 d i : domains_ok d0 -> domains_ok d -> var_known d0 (handle items i) -> var_known d (handle items i) -> inside d0 d ->
  (can_be d items b i = true -> can_be d0 items b i = true) /\ (can_be_not d items b i = true -> can_be_not d0 items b i = true).
Proof.
  intros H0 Hd K0 K I. assert (Up : forall x, view_member d (handle items i) x -> view_member d0 (handle items i) x).
  { intros x M. apply view_member_iff in M; auto. destruct M as (a & Wa & E). apply view_member_iff; auto. exists a. split; [now apply I|assumption]. }
  rewrite !can_be_iff, !can_be_not_iff by assumption. split; [apply Up|]. intros (x & N & M). exists x. auto.
Qed.

Lemma floor_load sizes d : bin_floor d items sizes b = load_of (size_of sizes) (fun i => negb (can_be_not d items b i)) (length items).
Proof.
  unfold bin_floor. generalize (length items). induction n as [|n IH]; [reflexivity|]. rewrite seq_S, fold_left_app, IH. cbn [fold_left load_of Nat.add]. destruct (can_be_not d items b n); cbn [negb]; lia.
Qed.

Lemma ceiling_load sizes d : bin_ceiling d items sizes b = load_of (size_of sizes) (fun i => negb (can_be_not d items b i) || can_be d items b i) (length items).
Proof.
  unfold bin_ceiling. generalize (length items). induction n as [|n IH]; [reflexivity|]. rewrite seq_S, fold_left_app, IH. cbn [fold_left load_of Nat.add]. destruct (can_be_not d items b n), (can_be d items b n); cbn [negb orb]; lia.
Qed.
End Flags.

(** ** What is inferred holds, and decides *)
Lemma passes_if nv a (c : bool) f g : passes nv a f (fun _ => True) -> passes nv a g (fun _ => True) -> passes nv a (fun r => if c then f r else g r) (fun _ => True).
Proof. intros F G. destruct c; assumption. Qed.

Section Pass.
Variable nv : nat.
Variable items : list var_id.
Variable sizes : list Z.
Variable bs : bins.
Hypothesis Len : length items = length sizes.
Hypothesis Pos : Forall (fun s => 0 <= s) sizes.
Hypothesis Bv : Forall (var_below nv) items.
Hypothesis Bl : Forall (var_below nv) (loads_of bs).
Local Notation n := (length items).
Local Notation size := (size_of sizes).
Local Notation load := (load_of size).

(** [bin_right], for a bin that exists. *)
Definition right (b : nat) (a : assignment) : Prop :=
  match bs with Loads loads => load (picks items b a) n = var_value a (handle loads b) | Capacities cs => load (picks items b a) n <= nth b cs 0 end.

Lemma right_iff b a : (b < bin_count bs)%nat -> bin_right items sizes bs b a <-> right b a.
Proof.
  unfold bin_right, right, bin_count. destruct bs as [loads|cs]; intro L; rewrite content_load by assumption.
  - split; intro H; [apply H; unfold handle; now apply nth_error_nth'|]. intros v E. rewrite H. unfold handle. now rewrite (nth_error_nth _ _ _ E).
  - split; intro H; [apply H; now apply nth_error_nth'|]. intros c E. now rewrite (nth_error_nth _ _ _ E) in H.
Qed.

Lemma floor_le b d a : domains_ok d -> length d = nv -> within a d -> bin_floor d items sizes b <= load (picks items b a) n /\
  (forall i, In i (still_possible d items b) -> picks items b a i = true -> bin_floor d items sizes b + size i <= load (picks items b a) n).
Proof.
  intros Hd Ld Wa. rewrite floor_load. destruct (load_gap size (fun i => negb (can_be_not d items b i)) (picks items b a) n (size_nonneg items sizes Len Pos)) as [A B].
  - intros i Li E. destruct (picks items b a i) eqn:G; [reflexivity|]. pose proof (picks_allowed items b d a i Hd (item_known nv items Bv d i Ld) Wa) as Al. unfold allowed in Al. rewrite G in Al. rewrite Al in E. discriminate.
  - split; [exact A|]. intros i I P. apply filter_In in I. destruct I as [I E]. apply in_seq in I. apply andb_true_iff in E. destruct E as [E _]. apply B; [lia|now rewrite E|assumption].
Qed.

Lemma ceiling_ge b d a : domains_ok d -> length d = nv -> within a d -> load (picks items b a) n <= bin_ceiling d items sizes b /\
  (forall i, In i (still_possible d items b) -> picks items b a i = false -> load (picks items b a) n + size i <= bin_ceiling d items sizes b).
Proof.
  intros Hd Ld Wa. rewrite ceiling_load. destruct (load_gap size (picks items b a) (fun i => negb (can_be_not d items b i) || can_be d items b i) n (size_nonneg items sizes Len Pos)) as [A B].
  - intros i Li E. pose proof (picks_allowed items b d a i Hd (item_known nv items Bv d i Ld) Wa) as Al. unfold allowed in Al. rewrite E in Al. now rewrite Al, orb_true_r.
  - split; [exact A|]. intros i I P. apply filter_In in I. destruct I as [I E]. apply in_seq in I. apply andb_true_iff in E. destruct E as [_ E]. apply B; [lia|assumption|now rewrite E, orb_true_r].
Qed.

Lemma load_below b : var_below nv (handle (loads_of bs) b).
Proof. now apply (KnapsackProofs.handle_below nv). Qed.

Lemma out_holds b a i : picks items b a i = false <-> lit_holds a (LCond (cond_ne (handle items i) (Z.of_nat b))).
Proof. unfold picks. rewrite Z.eqb_neq. reflexivity. Qed.

Lemma in_holds b a i : picks items b a i = true <-> lit_holds a (LCond (cond_eq (handle items i) (Z.of_nat b))).
Proof. unfold picks. rewrite Z.eqb_eq. reflexivity. Qed.

Lemma bound_goes D (P : assignment -> Prop) b : (forall a, P a -> right b a) -> goes nv D P (bound_bin items sizes bs b).
Proof.
  intro HP. unfold bound_bin. apply (goes_look nv D P (fun d rest => match bs with Loads loads => _ | Capacities capacities => _ end)). intros d Hd Ld Id. pose proof (load_below b) as Lb. 
  assert (Ib : forall i, var_below nv (handle items i)) by (intro i; now apply (KnapsackProofs.handle_below nv)).
  unfold right, loads_of in *. destruct bs as [loads|cs].
  - assert (B : forall a, P a /\ within a d -> lower_bound d (handle loads b) <= load (picks items b a) n <= upper_bound d (handle loads b)).
    { intros a [Pa Wa]. rewrite (HP a Pa). apply value_bounds; auto. now apply (known_here nv). }
    apply (goes_then nv d _ (infer_when _ _) (fun rest => infer_when _ _ (sequence _ _ rest))); [|apply (goes_then nv d _ (infer_when _ _) (fun rest => sequence _ _ rest))].
    + apply goes_when. intros _. split; [exact Lb|]. intros a [Pa Wa]. apply lit_ge. rewrite <- (HP a Pa). now apply floor_le.
    + apply goes_when. intros _. split; [exact Lb|]. intros a [Pa Wa]. apply lit_lt. rewrite <- (HP a Pa). pose proof (proj1 (ceiling_ge b d a Hd Ld Wa)). lia.
    + apply goes_sequence. intros i I.
      destruct ((if bin_ceiling d items sizes b <? upper_bound d (handle loads b) then _ else _) <? _) eqn:C1; [|destruct (_ <? (if lower_bound d (handle loads b) <? bin_floor d items sizes b then _ else _)) eqn:C2; [|apply goes_id]].
      * apply Z.ltb_lt in C1. apply goes_infer; [apply Ib|]. intros a Pa. apply out_holds. destruct (picks items b a i) eqn:E; [exfalso|reflexivity].
        pose proof (proj2 (floor_le b d a Hd Ld (proj2 Pa)) i I E). pose proof (B a Pa). pose proof (proj1 (ceiling_ge b d a Hd Ld (proj2 Pa))). destruct (_ <? _) in C1; lia.
      * apply Z.ltb_lt in C2. apply goes_infer; [apply Ib|]. intros a Pa. apply in_holds. destruct (picks items b a i) eqn:E; [reflexivity|exfalso].
        pose proof (proj2 (ceiling_ge b d a Hd Ld (proj2 Pa)) i I E). pose proof (B a Pa). pose proof (proj1 (floor_le b d a Hd Ld (proj2 Pa))). destruct (_ <? bin_floor _ _ _ _) in C2; lia.
  - apply (goes_then nv d _ (infer_when _ _) (fun rest => sequence _ _ rest)).
    + apply goes_when. intro C. apply Z.ltb_lt in C. split; [exact Logic.I|]. intros a [Pa Wa]. pose proof (HP a Pa). pose proof (proj1 (floor_le b d a Hd Ld Wa)). lia.
    + apply goes_sequence. intros i I. apply goes_when. intro C. apply Z.ltb_lt in C. split; [apply Ib|]. intros a [Pa Wa]. apply out_holds. destruct (picks items b a i) eqn:E; [exfalso|reflexivity].
      pose proof (proj2 (floor_le b d a Hd Ld Wa) i I E). pose proof (HP a Pa). lia.
Qed.

(** With everything known, the bounds decide. *)
Lemma fixed_flags b d a i : domains_ok d -> length d = nv -> within a d -> Forall (fixed d) items -> (i < n)%nat ->
  can_be_not d items b i = negb (picks items b a i) /\ can_be d items b i = picks items b a i.
Proof.
  intros Hd Ld Wa F Li. pose proof (item_known nv items Bv d i Ld) as K. assert (Fi : fixed d (handle items i)) by (apply (proj1 (Forall_forall _ _) F); unfold handle; now apply nth_In). destruct Fi as [z Fz].
  assert (One : forall x, view_member d (handle items i) x <-> x = var_value a (handle items i)).
  { intro x. rewrite view_member_iff by assumption. split; [intros (a' & W' & <-); rewrite (Fz a' W'), (Fz a Wa); reflexivity|]. intros ->. eauto. }
  split; apply Bool.eq_true_iff_eq; [rewrite can_be_not_iff by assumption|rewrite can_be_iff by assumption]; unfold picks.
  - rewrite negb_true_iff, Z.eqb_neq. split; [intros (x & N & M); apply One in M; congruence|]. intro N. exists (var_value a (handle items i)). split; [assumption|now apply One].
  - rewrite One, Z.eqb_eq. split; congruence.
Qed.

Lemma fixed_content b d a : domains_ok d -> length d = nv -> within a d -> Forall (fixed d) items -> bin_floor d items sizes b = load (picks items b a) n /\ bin_ceiling d items sizes b = load (picks items b a) n.
Proof.
  intros Hd Ld Wa F. rewrite floor_load, ceiling_load. split; apply load_ext; intros i Li; destruct (fixed_flags b d a i Hd Ld Wa F Li) as [E1 E2]; rewrite ?E1, ?E2; destruct (picks items b a i); reflexivity.
Qed.

Lemma bound_passes b a : passes nv a (bound_bin items sizes bs b) (fun d => Forall (fixed d) (items ++ loads_of bs) -> (b < bin_count bs)%nat -> right b a).
Proof.
  intros rest d Hd Ld Wa O. unfold bound_bin in O. cbn [obeys] in O. pose proof (load_below b) as Lb. unfold right, bin_count, loads_of in *.
  assert (Sub : forall f Q, passes nv a f Q -> forall r, obeys nv a (f r) d -> (Forall (fixed d) items -> Q d) /\ exists d', domains_ok d' /\ length d' = nv /\ within a d' /\ inside d d' /\ obeys nv a r d').
  { intros f Q Pf r Of. destruct (Pf r d Hd Ld Wa Of) as [Q1 Q2]. auto. }
  destruct bs as [loads|cs].
  - set (step := fun i more => if _ <? bin_floor d items sizes b + size i then Infer _ more else _) in O.
    assert (Ps : passes nv a (sequence (still_possible d items b) step) (fun _ => True)).
    { eapply passes_weaken; [|apply (passes_sequence nv a step (fun _ _ => True))]; [auto|]. intros i _. unfold step.
      match goal with |- passes _ _ (fun more => if ?c then Infer ?l more else @?g more) _ => apply (passes_if nv a c (Infer l) g) end; [eapply passes_weaken; [|apply passes_infer]; auto|].
      match goal with |- passes _ _ (fun more => if ?c then Infer ?l more else more) _ => apply (passes_if nv a c (Infer l) (fun r => r)) end; [eapply passes_weaken; [|apply passes_infer]; auto|apply passes_id]. }
    pose proof (passes_then nv a _ _ _ _ (passes_when nv a (lower_bound d (handle loads b) <? bin_floor d items sizes b) (LCond (cond_ge (handle loads b) (bin_floor d items sizes b))))
      (passes_then nv a _ _ _ _ (passes_when nv a (bin_ceiling d items sizes b <? upper_bound d (handle loads b)) (LCond (cond_lt (handle loads b) (bin_ceiling d items sizes b + 1)))) Ps)) as PP.
    destruct (PP rest d Hd Ld Wa O) as ((Q1 & d1 & _ & _ & _ & _ & Q2 & _) & R). split; [|exact R]. intros F Lb'. apply Forall_app in F. destruct F as [F _]. destruct (fixed_content b d a Hd Ld Wa F) as [Ef Ec].
    destruct (value_bounds d (handle loads b) a Hd (known_here nv d _ Ld Lb) Wa) as [Lo Up].
    rewrite Ef in Q1. rewrite Ec in Q2. rewrite lit_ge in Q1. rewrite lit_lt in Q2.
    destruct (Z.ltb_spec (lower_bound d (handle loads b)) (load (picks items b a) n)); [specialize (Q1 eq_refl)|]; (destruct (Z.ltb_spec (load (picks items b a) n) (upper_bound d (handle loads b))); [specialize (Q2 eq_refl)|]); lia.
  - set (step := fun i => infer_when (nth b cs 0 <? bin_floor d items sizes b + size i) _) in O.
    assert (Ps : passes nv a (sequence (still_possible d items b) step) (fun _ => True)).
    { eapply passes_weaken; [|apply (passes_sequence nv a step (fun _ _ => True))]; [auto|]. intros i _. unfold step. eapply passes_weaken; [|apply passes_when]; auto. }
    pose proof (passes_then nv a _ _ _ _ (passes_when nv a (nth b cs 0 <? bin_floor d items sizes b) LFalse) Ps) as PP.
    destruct (PP rest d Hd Ld Wa O) as ((Q1 & _) & R). split; [|exact R]. intros F _. apply Forall_app in F. destruct F as [F _]. destruct (fixed_content b d a Hd Ld Wa F) as [Ef _].
    rewrite Ef in Q1. destruct (Z.ltb_spec (nth b cs 0) (load (picks items b a) n)); [destruct (Q1 eq_refl)|lia].
Qed.

(** *** The graphs, for domains inside the initial ones *)
Section Graphs.
Variable d0 : domains.
Hypothesis H0 : domains_ok d0.
Hypothesis K0 : Forall (var_known d0) items.

Lemma item_known0 i : var_known d0 (handle items i).
Proof.
  unfold handle. destruct (Nat.lt_ge_cases i n) as [L|L]; [|rewrite nth_overflow by assumption; exact Logic.I]. apply (proj1 (Forall_forall _ _) K0). now apply nth_In.
Qed.

Lemma within_may_hold d a b : domains_ok d -> length d = nv -> within a d -> right b a -> load (picks items b a) n <= most d bs b /\ may_hold d bs b (load (picks items b a) n) = true.
Proof.
  intros Hd Ld Wa R. pose proof (load_below b) as Lb. unfold right, most, may_hold, loads_of in *. destruct bs as [loads|cs]; [|auto]. assert (Kb : var_known d (handle loads b)) by now apply (known_here nv).
  rewrite R. destruct (value_bounds d _ a Hd Kb Wa) as [Lo Up]. split; [assumption|]. apply andb_true_iff. split; [now apply Z.leb_le|]. apply in_domain_spec; auto. apply view_member_iff; eauto.
Qed.

Lemma upfront_have d a b : domains_ok d -> length d = nv -> inside d0 d -> within a d -> right b a ->
  final d0 items sizes bs b d (load (picks items b a) n) /\ forall k, (k < n)%nat -> In (load (picks items b a) (n - S k), picks items b a (n - S k)%nat, load (picks items b a) (n - k)) (trimmed d0 d items sizes bs b k).
Proof.
  intros Hd Ld I Wa R. destruct (within_may_hold d a b Hd Ld Wa R) as [U M]. apply trimmed_have; auto.
  - intros i Li. apply picks_allowed; auto. apply item_known0.
  - intros i Li. apply picks_allowed; auto. now apply (item_known nv).
Qed.

Lemma upfront_goes D (P : assignment -> Prop) b : inside d0 D -> (forall a, P a -> right b a) -> goes nv D P (propagate_bin d0 items sizes bs b).
Proof.
  intros I0 HP. unfold propagate_bin. apply (goes_look nv D P (fun d rest => match ends d0 d items sizes bs b with [] => Infer LFalse rest | _ => _ end)). intros d Hd Ld Id.
  assert (Has : forall a, P a /\ within a d -> final d0 items sizes bs b d (load (picks items b a) n) /\ forall k, (k < n)%nat -> In (load (picks items b a) (n - S k), picks items b a (n - S k)%nat, load (picks items b a) (n - k)) (trimmed d0 d items sizes bs b k)).
  { intros a [Pa Wa]. apply upfront_have; auto. now apply (inside_trans d0 D). }
  unfold final in Has. set (finals := ends d0 d items sizes bs b) in *. 
  assert (E : goes nv d (fun a => P a /\ within a d) (fun rest => sequence (match bs with Loads loads => load_literals d (handle loads b) (map snd finals) | Capacities _ => [] end) Infer
          (sequence (seq 0 n) (fun k => infer_when (can_be d items b (n - S k) && negb (existsb (fun e => snd (fst e)) (trimmed d0 d items sizes bs b k))) (LCond (cond_ne (handle items (n - S k)) (Z.of_nat b)))) rest))).
  { apply goes_then; apply goes_sequence.
    - intros l Il. pose proof (load_below b) as Lb. unfold right, loads_of in *. destruct bs as [loads|cs]; [|destruct Il].
      assert (In' : forall a, P a /\ within a d -> In (var_value a (handle loads b)) (map snd finals)) by (intros a Pa; rewrite <- (HP a (proj1 Pa)); now apply Has).
      destruct Il as [<-|[<-|Il]].
      + apply goes_infer; [exact Lb|]. intros a Pa. apply lit_ge. apply lowest_least. auto.
      + apply goes_infer; [exact Lb|]. intros a Pa. apply lit_lt. pose proof (highest_most _ _ (In' a Pa)). lia.
      + apply in_map_iff in Il. destruct Il as (v & <- & Iv). apply filter_In in Iv. destruct Iv as [_ Iv]. apply andb_true_iff in Iv. destruct Iv as [_ Iv]. apply negb_true_iff in Iv. apply goes_infer; [exact Lb|].
        intros a Pa Ev. specialize (In' a Pa). apply holds_at_In in In'. cbn [cond_ne c_var c_value] in Ev. congruence.
    - intros k Ik. apply in_seq in Ik. apply goes_when. intro C. apply andb_true_iff in C. destruct C as [_ C]. apply negb_true_iff in C. split; [now apply (KnapsackProofs.handle_below nv)|]. intros a Pa. apply out_holds.
      destruct (picks items b a (n - S k)%nat) eqn:X; [exfalso|reflexivity]. assert (Y : existsb (fun e => snd (fst e)) (trimmed d0 d items sizes bs b k) = true); [|congruence]. apply existsb_exists.
      exists (load (picks items b a) (n - S k), true, load (picks items b a) (n - k)). split; [|reflexivity]. rewrite <- X. apply Has; [assumption|lia]. }
  destruct finals as [|e r]; [|exact E]. apply goes_infer; [exact Logic.I|]. intros a Pa. now destruct (Has a Pa).
Qed.

(** The sweep keeps every item that can be in the bin. *)
Lemma nth_flags (f : nat -> bool) i : (i < n)%nat -> flag (map f (seq 0 n)) i = f i.
Proof. intro L. unfold flag. rewrite (nth_indep _ false (f O)) by (rewrite map_length, seq_length; assumption). rewrite map_nth, seq_nth by assumption. reflexivity. Qed.

Lemma sweep_keeps d b s : domains_ok d -> length d = nv -> inside d0 d -> swept_ok (bin_nodes d0 items sizes b) sizes n s -> snd (sweep_at d0 d items sizes b s) = [].
Proof.
  intros Hd Ld I Ok. unfold sweep_at. set (nodes := bin_nodes d0 items sizes b) in *. set (ins := ins_of d items b). set (outs := outs_of d items b).
  pose proof (sweep_ok nodes sizes n ins outs s Ok) as A. destruct (sweep nodes sizes n ins outs s) as [s' pruned]. cbn [snd]. destruct A as (W & Ok' & Si & So & [E|E]); [assumption|]. rewrite E. clear E. destruct (Ok' W) as [(Lf & Zf & Sf) (Lb & Zb & Sb)].
  assert (Fi : forall i, (i < n)%nat -> flag (s_in s') i = can_be d items b i) by (intros i L; rewrite Si by assumption; now apply nth_flags).
  assert (Fo : forall i, (i < n)%nat -> flag (s_out s') i = can_be_not d items b i) by (intros i L; rewrite So by assumption; now apply nth_flags).
  assert (Fl : forall g, (forall i, (i < n)%nat -> allowed (can_be d items b) (can_be_not d items b) g i) -> forall j, (j <= n)%nat -> In (load g j) (nodes j)).
  { intros g G j L. apply nodes_have; auto. intros i Li. specialize (G i ltac:(lia)). destruct (flags_inside items b d0 d i H0 Hd (item_known0 i) (item_known nv items Bv d i Ld) I) as [X Y]. unfold allowed in *. destruct (g i); auto. }
  assert (Fw : forall g, (forall i, (i < n)%nat -> allowed (can_be d items b) (can_be_not d items b) g i) -> forall j, (j <= n)%nat -> In (load g j) (nth j (s_fwd s') [])).
  { intros g G. induction j as [|j IH]; intro L; [rewrite Zf; now left|]. rewrite Sf by lia. unfold next_layer. apply filter_In. split; [now apply Fl|]. apply existsb_exists. exists (load g j). split; [apply IH; lia|].
    rewrite Fi, Fo by lia. specialize (G j ltac:(lia)). unfold allowed in G. cbn [load_of]. apply orb_true_iff. destruct (g j); [right|left]; rewrite G; apply Z.eqb_eq; lia. }
  assert (Bw : forall g, (forall i, (i < n)%nat -> allowed (can_be d items b) (can_be_not d items b) g i) -> forall k, (k <= n)%nat -> In (load g (n - k)) (nth (n - k) (s_bwd s') [])).
  { intros g G. induction k as [|k IH]; intro L; [rewrite Nat.sub_0_r, Zb; apply Fw; auto|]. rewrite Sb by lia. unfold earlier_layer. apply filter_In. split; [apply Fl; auto; lia|]. rewrite Fi, Fo by lia.
    specialize (IH ltac:(lia)). replace (n - k)%nat with (S (n - S k)) in IH by lia. cbn [load_of] in IH. specialize (G (n - S k)%nat ltac:(lia)). unfold allowed in G. apply orb_true_iff. destruct (g (n - S k)%nat); [right|left]; rewrite G; apply holds_at_In; [exact IH|].
    rewrite Z.add_0_r in IH. exact IH. }
  destruct (filter _ (seq 0 n)) as [|i r] eqn:E; [reflexivity|exfalso]. assert (Ii : In i (i :: r)) by now left. rewrite <- E in Ii. apply filter_In in Ii. destruct Ii as [Ii C]. apply in_seq in Ii. apply andb_true_iff in C. destruct C as [C1 C2].
  assert (Ci : can_be d items b i = true) by (unfold ins, ins_of in C1; rewrite nth_flags in C1 by lia; exact C1). apply negb_true_iff in C2.
  set (g := fun j => if Nat.eqb j i then true else can_be d items b j). assert (G : forall j, (j < n)%nat -> allowed (can_be d items b) (can_be_not d items b) g j).
  { intros j L. unfold allowed, g. destruct (Nat.eqb_spec j i) as [->|N]; [exact Ci|]. destruct (can_be d items b j) eqn:X; [reflexivity|]. destruct (some_flag items b d j Hd (item_known nv items Bv d j Ld)); congruence. }
  assert (Y : has_support nodes sizes (s_fwd s') (s_bwd s') i = true); [|congruence]. unfold has_support. apply existsb_exists. exists (load g i). split; [apply Fl; auto; lia|].
  replace (load g i + size i) with (load g (S i)) by (cbn [load_of]; unfold g at 2; now rewrite Nat.eqb_refl).
  pose proof (Bw g G (n - i)%nat ltac:(lia)) as B1. pose proof (Bw g G (n - S i)%nat ltac:(lia)) as B2. replace (n - (n - i))%nat with i in B1 by lia. replace (n - (n - S i))%nat with (S i) in B2 by lia.
  rewrite !andb_true_iff, !holds_at_In. repeat split; auto; apply Fw; auto; lia.
Qed.

Lemma sweep_goes D (P : assignment -> Prop) b : inside d0 D -> goes nv D P (sweep_bin d0 items sizes b).
Proof.
  intro I0. unfold sweep_bin. apply (goes_look nv D P (fun d rest => sequence (snd (sweep_at d0 d items sizes b (cold n))) _ rest)). intros d Hd Ld Id. apply goes_sequence. intros i Ii.
  rewrite sweep_keeps in Ii; auto; [destruct Ii|now apply (inside_trans d0 D)|apply cold_ok].
Qed.

Lemma pass_tells level D (P : assignment -> Prop) : inside d0 D -> (forall a, P a -> packs items sizes bs a) -> tells nv D P (packing_pass d0 level items sizes bs).
Proof.
  intros I0 HP. assert (HR : forall b a, In b (seq 0 (bin_count bs)) -> P a -> right b a) by (intros b a Ib Pa; apply in_seq in Ib; apply right_iff; [lia|]; apply HP; [assumption|lia]).
  assert (G : goes nv D P (sequence (seq 0 (bin_count bs)) (bound_bin items sizes bs))) by (apply goes_sequence; intros b Ib; apply bound_goes; auto).
  unfold packing_pass. apply G; [auto|apply inside_refl|]. intros F IF. destruct level as [|[|]]; [exact Logic.I| |].
  - assert (X : goes nv F P (sequence (seq 0 (bin_count bs)) (sweep_bin d0 items sizes))) by (apply goes_sequence; intros b Ib; apply sweep_goes; now apply (inside_trans d0 D)).
    apply X; [auto|apply inside_refl|]. intros. exact Logic.I.
  - assert (X : goes nv F P (sequence (seq 0 (bin_count bs)) (propagate_bin d0 items sizes bs))) by (apply goes_sequence; intros b Ib; apply upfront_goes; auto; now apply (inside_trans d0 D)).
    apply X; [auto|apply inside_refl|]. intros. exact Logic.I.
Qed.

Lemma pass_decides level d a : domains_ok d -> length d = nv -> within a d -> Forall (fixed d) (items ++ loads_of bs) -> obeys nv a (packing_pass d0 level items sizes bs) d ->
  forall b, (b < bin_count bs)%nat -> right b a.
Proof.
  intros Hd Ld Wa F O b Lb. unfold packing_pass in O. pose proof (passes_sequence nv a (bound_bin items sizes bs) _ (seq 0 (bin_count bs)) (fun b _ => bound_passes b a)) as PP.
  destruct (PP _ d Hd Ld Wa O) as (Q & _). destruct (Q b ltac:(apply in_seq; lia)) as (d' & _ & _ & _ & I & R). apply R; [|assumption].
  eapply Forall_impl; [|exact F]. intros v [x Fx]. exists x. intros a' Wa'. apply Fx. now apply I.
Qed.

(** *** The default strategy adds nothing *)
Lemma sweeps_idle t bins : domains_ok (t_domains t) -> length (t_domains t) = nv -> inside d0 (t_domains t) -> exec (sequence bins (sweep_bin d0 items sizes) Stop) t = t.
Proof.
  intros Hd Ld I. induction bins as [|b r IH]; [reflexivity|]. unfold sequence. cbn [fold_right]. unfold sweep_bin at 1. cbn [exec]. rewrite sweep_keeps; [exact IH|assumption|assumption|assumption|apply cold_ok].
Qed.
End Graphs.
End Pass.

(** What follows a step comes after it. *)
Definition chains (f : prog -> prog) : Prop := forall rest t, exec (f rest) t = exec rest (exec (f Stop) t).

Lemma chains_sequence {X} (f : X -> prog -> prog) xs : (forall x, In x xs -> chains (f x)) -> chains (sequence xs f).
Proof.
  induction xs as [|x r IH]; intros H rest t; [reflexivity|]. unfold sequence in *. cbn [fold_right]. rewrite (H x (or_introl eq_refl)). rewrite (H x (or_introl eq_refl) (fold_right f Stop r)). apply IH. intros y I. apply H. now right.
Qed.

Lemma chains_when b l : chains (infer_when b l).
Proof. intros rest t. destruct b; reflexivity. Qed.

Lemma chains_then f g : chains f -> chains g -> chains (fun r => f (g r)).
Proof. intros F G rest t. rewrite F, (F (g Stop)). apply G. Qed.

Lemma bound_chains items sizes bs b : chains (bound_bin items sizes bs b).
Proof.
  intros rest t. unfold bound_bin. cbn [exec]. revert rest t. intros rest t. set (d := t_domains t). destruct bs as [loads|cs].
  - match goal with |- exec (infer_when ?c1 ?l1 (infer_when ?c2 ?l2 (sequence ?xs ?f rest))) t = _ =>
      assert (C : chains (sequence xs f)); [|apply (chains_then _ _ (chains_when c1 l1) (chains_then _ _ (chains_when c2 l2) C))] end.
    apply chains_sequence. intros i _ r u. match goal with |- exec (if ?c then _ else _) _ = _ => destruct c; [reflexivity|] end. match goal with |- exec (if ?c then _ else _) _ = _ => destruct c; reflexivity end.
  - match goal with |- exec (infer_when ?c1 ?l1 (sequence ?xs ?f rest)) t = _ => pose proof (chains_then _ _ (chains_when c1 l1) (chains_sequence f xs ltac:(intros; apply chains_when))) as C end. apply C.
Qed.

(** ** Posting *)
Lemma packable_iff items sizes bs : packing_refused items sizes bs = false <-> packable items sizes bs.
Proof.
  unfold packing_refused, packable. rewrite !orb_false_iff, negb_false_iff, Nat.eqb_eq, Nat.eqb_neq.
  assert (E : forall l, existsb (fun s => s <? 0) l = false <-> Forall (fun s => 0 <= s) l).
  { intro l. rewrite Forall_forall. split.
    - intros X s I. destruct (Z.ltb_spec s 0) as [L|L]; [|assumption]. assert (Y : existsb (fun s => s <? 0) l = true) by (apply existsb_exists; exists s; split; [assumption|now apply Z.ltb_lt]). congruence.
    - intro H. destruct (existsb _ l) eqn:X; [|reflexivity]. apply existsb_exists in X. destruct X as (s & I & L). apply Z.ltb_lt in L. specialize (H s I). lia. }
  rewrite E. destruct bs as [loads|cs]; [|rewrite (E cs)]; tauto.
Qed.

Lemma bin_packing_none level items sizes bs : bin_packing level items sizes bs = None <-> ~ packable items sizes bs.
Proof. unfold bin_packing. rewrite <- packable_iff. destruct (packing_refused items sizes bs); split; congruence. Qed.

Section Posting.
Variable d0 : domains.
Variable level : packing_level.
Variable items : list var_id.
Variable sizes : list Z.
Variable bs : bins.
Hypothesis H0 : domains_ok d0.
Hypothesis K : Forall (var_known d0) (items ++ loads_of bs).
Let pass := packing_pass d0 level items sizes bs.

Lemma vars_below nv : (length d0 <= nv)%nat -> Forall (var_below nv) items /\ Forall (var_below nv) (loads_of bs).
Proof.
  intro Ln. apply Forall_app in K. destruct K as [Kx Ky]. split; (eapply Forall_impl; [|eassumption]); intros v Kv; now apply (known_below_more d0).
Qed.

Lemma posted_tells nv d : (length d0 <= nv)%nat -> packable items sizes bs -> inside d0 d -> tells nv d (fun a => packs items sizes bs a /\ within a d) pass.
Proof.
  intros Ln (Len & Pos & _) I. destruct (vars_below nv Ln) as [Bv Bl]. unfold pass. apply pass_tells; auto; [apply Forall_app in K; apply K|tauto].
Qed.

Lemma bin_packing_correct : in_bins d0 items bs -> forall c, bin_packing level items sizes bs = Some c -> correct_on d0 c (items ++ loads_of bs) (packs items sizes bs).
Proof.
  intro IB. unfold bin_packing. destruct (packing_refused items sizes bs) eqn:R; [discriminate|]. intros c E. injection E as <-. apply packable_iff in R. fold pass. fold (loads_of bs).
  apply (parts_correct d0 _ _ _ (packs items sizes bs) (fun _ => True)); [assumption| |apply established_nil|auto]. cbn [fst].
  apply (carried_body d0 _ (items ++ loads_of bs)); [assumption|apply incl_refl|rewrite app_nil_r; apply incl_refl|].
  intros nv Ln. apply once_meets; [intros d Hd Ld Id; now apply posted_tells|].
  intros d a Hd Ld Id F Wa O. destruct R as (Len & Pos & _). destruct (vars_below nv Ln) as [Bv Bl]. split.
  - apply Forall_forall. intros v Iv. pose proof (proj1 (Forall_forall _ _) IB v Iv) as [Lo Up]. cbn beta in Lo, Up. apply Forall_app in K. destruct K as [Kx _].
    pose proof (value_bounds d0 v a H0 (proj1 (Forall_forall _ _) Kx v Iv) (Id a Wa)). lia.
  - intros b Lb. apply (right_iff nv items sizes bs Len Bl b a Lb). now apply (pass_decides nv items sizes bs Len Bv Bl d0 level d a).
Qed.

Lemma default_is_bounds c c' p p' i : level = PerBin PerCall -> bin_packing level items sizes bs = Some c -> bin_packing BoundsOnly items sizes bs = Some c' -> fst (c d0) = [p] -> fst (c' d0) = [p'] ->
  usable (length d0) (fun d _ => inside d0 d) i -> p_run p i = p_run p' i.
Proof.
  unfold bin_packing. intro El. destruct (packing_refused items sizes bs) eqn:R; [discriminate|]. intros E E' Ep Ep' (Hd & Ld & Id). injection E as <-. injection E' as <-. injection Ep as <-. injection Ep' as <-. apply packable_iff in R.
  pose proof R as (Len & Pos & _). destruct (vars_below (length d0) (Nat.le_refl _)) as [Bv Bl]. set (d := i_domains i) in *.
  assert (X : exec (packing_pass d0 (PerBin PerCall) items sizes bs) (track d) = exec (packing_pass d0 BoundsOnly items sizes bs) (track d)).
  { unfold packing_pass. rewrite (chains_sequence (bound_bin items sizes bs) _ (fun b _ => bound_chains items sizes bs b)). rewrite (chains_sequence (bound_bin items sizes bs) _ (fun b _ => bound_chains items sizes bs b) Stop). cbn [exec].
    set (t := exec (sequence (seq 0 (bin_count bs)) (bound_bin items sizes bs) Stop) (track d)).
    destruct (t_failed t) eqn:F; [now apply exec_failed|].
    assert (T : tells (length d0) d (fun a => packs items sizes bs a /\ within a d) (packing_pass d0 BoundsOnly items sizes bs)).
    { apply pass_tells; auto; [apply Forall_app in K; apply K|tauto]. }
    assert (H : honest (length d0) d (packs items sizes bs) t).
    { apply (tells_honest (length d0) d Hd Ld _ _ d (fun a => packs items sizes bs a /\ within a d)); auto; [intros _; apply inside_refl|apply honest_track]. }
    apply (sweeps_idle (length d0) items sizes Len Pos Bv d0); auto.
    - apply Forall_app in K. apply K.
    - apply (legit_ok (length d0) d); auto. apply H.
    - apply (legit_length (length d0) d); auto. apply H.
    - apply (inside_trans d0 d); [assumption|]. intros a Wa. apply (legit_inside (length d0) d Hd Ld _ (proj1 H) F); assumption. }
  subst level. cbn [body_propagator p_run]. unfold body_run, Passes.once. fold d. rewrite X. reflexivity.
Qed.
End Posting.

(** ** At rest *)
Lemma load_put size g i t j : (i < j)%nat -> load_of size (fun k => if Nat.eqb k i then t else g k) j = load_of size g j + (if t then size i else 0) - (if g i then size i else 0).
Proof.
  induction j as [|j IH]; intro L; [lia|]. cbn [load_of]. destruct (Nat.eqb_spec j i) as [->|N].
  - rewrite (load_ext size (fun k => if Nat.eqb k i then t else g k) g i); [lia|]. intros k Lk. now rewrite (proj2 (Nat.eqb_neq k i)) by lia.
  - rewrite IH by lia. lia.
Qed.

Section Rest.
Variable nv : nat.
Variable items : list var_id.
Variable sizes : list Z.
Variable bs : bins.
Hypothesis Len : length items = length sizes.
Hypothesis Pos : Forall (fun s => 0 <= s) sizes.
Hypothesis Bv : Forall (var_below nv) items.
Hypothesis Bl : Forall (var_below nv) (loads_of bs).
Variable d : domains.
Hypothesis Hd : domains_ok d.
Hypothesis Ld : length d = nv.
Variable b : nat.
Local Notation n := (length items).
Local Notation size := (size_of sizes).
Local Notation load := (load_of size).
Let free g := forall i, (i < n)%nat -> allowed (can_be d items b) (can_be_not d items b) g i.

Definition elsewhere (i : nat) : Z := let v := lower_bound d (handle items i) in if v =? Z.of_nat b then upper_bound d (handle items i) else v.

Lemma elsewhere_other i : can_be_not d items b i = true -> elsewhere i <> Z.of_nat b /\ view_member d (handle items i) (elsewhere i).
Proof.
  intro C. pose proof (item_known nv items Bv d i Ld) as K. apply can_be_not_iff in C; auto. destruct C as (x & N & M). destruct (lower_bound_spec d (handle items i) Hd K) as [Ml Al]. destruct (upper_bound_spec d (handle items i) Hd K) as [Mu Au].
  unfold elsewhere. destruct (Z.eqb_spec (lower_bound d (handle items i)) (Z.of_nat b)) as [E|E]; [|auto]. split; [|assumption]. pose proof (Al x M). pose proof (Au x M). lia.
Qed.

Lemma pairs (vs : list var_id) (h : nat -> Z) : (forall i, (i < length vs)%nat -> view_member d (handle vs i) (h i)) -> Forall2 (view_member d) vs (map h (seq 0 (length vs))).
Proof.
  clear. revert h. induction vs as [|v vs IH]; intros h H; [constructor|]. cbn [length seq map]. constructor; [exact (H O ltac:(simpl; lia))|]. rewrite <- seq_shift, map_map. apply IH. intros i Li. exact (H (S i) ltac:(simpl; lia)).
Qed.

Lemma chosen_nth (vs : list var_id) (h : nat -> Z) a : map (var_value a) vs = map h (seq 0 (length vs)) -> forall i, (i < length vs)%nat -> var_value a (handle vs i) = h i.
Proof.
  clear. intros E i L. assert (X : nth i (map (var_value a) vs) 0 = nth i (map h (seq 0 (length vs))) 0) by now rewrite E.
  rewrite (nth_indep _ 0 (var_value a (VConst 0))), map_nth in X by (rewrite map_length; assumption). unfold handle. rewrite X. rewrite (nth_indep _ 0 (h O)), map_nth, seq_nth by (rewrite ?map_length, ?seq_length; assumption). reflexivity.
Qed.

Let value g i := if g i : bool then Z.of_nat b else elsewhere i.

Lemma value_member g : free g -> forall i, (i < n)%nat -> view_member d (handle items i) (value g i).
Proof.
  intros F i L. specialize (F i L). unfold allowed in F. unfold value. destruct (g i); [|now apply elsewhere_other]. apply can_be_iff in F; auto. now apply (item_known nv).
Qed.

Lemma value_picks g a : free g -> (forall i, (i < n)%nat -> var_value a (handle items i) = value g i) -> forall i, (i < n)%nat -> picks items b a i = g i.
Proof.
  intros F E i L. unfold picks. rewrite E by assumption. specialize (F i L). unfold allowed in F. unfold value. destruct (g i); [apply Z.eqb_refl|]. apply Z.eqb_neq. now apply elsewhere_other.
Qed.

Lemma items_assigned g : NoDup (underlying_list items) -> free g -> exists a, within a d /\ forall i, (i < n)%nat -> picks items b a i = g i.
Proof.
  intros ND F. destruct (choose_list d items (map (value g) (seq 0 n))) as (a & Wa & E); auto.
  - eapply Forall_impl; [|exact Bv]. intros v Kv. now apply (known_here nv).
  - apply pairs. now apply value_member.
  - exists a. split; [assumption|]. apply value_picks; auto. now apply chosen_nth.
Qed.

Lemma all_assigned g : NoDup (underlying_list (items ++ loads_of bs)) -> free g -> (b < bin_count bs)%nat -> may_hold d bs b (load g n) = true -> (load g n <= most d bs b \/ n = O) ->
  match bs with Loads _ => True | Capacities cs => Forall (fun c => 0 <= c) cs end ->
  exists a, within a d /\ (forall i, (i < n)%nat -> picks items b a i = g i) /\ right items sizes bs b a /\ match bs with Loads loads => var_value a (handle loads b) = load g n | Capacities _ => True end.
Proof.
  intros ND F Lb M U C. unfold right, may_hold, most, loads_of, bin_count in *. destruct bs as [loads|cs].
  - apply andb_true_iff in M. destruct M as [_ M]. assert (Kl : forall x, var_known d (handle loads x)) by (intro x; apply (known_here nv); [assumption|now apply (KnapsackProofs.handle_below nv)]). apply in_domain_spec in M; auto.
    destruct (choose_list d (items ++ loads) (map (value g) (seq 0 n) ++ map (fun x => if Nat.eqb x b then load g n else lower_bound d (handle loads x)) (seq 0 (length loads)))) as (a & Wa & E); auto.
    + apply Forall_app. split; [eapply Forall_impl; [|exact Bv]|eapply Forall_impl; [|exact Bl]]; intros v Kv; now apply (known_here nv).
    + apply Forall2_app; apply pairs; [now apply value_member|]. intros x Lx. destruct (Nat.eqb_spec x b) as [->|N]; [assumption|now apply lower_bound_spec].
    + rewrite map_app in E. assert (E1 : map (var_value a) items = map (value g) (seq 0 n)).
      { apply (f_equal (firstn n)) in E. rewrite !firstn_app, !map_length, seq_length, Nat.sub_diag in E. cbn [firstn] in E. rewrite !app_nil_r in E. rewrite !firstn_all2 in E by (rewrite map_length, ?seq_length; lia). exact E. }
      assert (E2 : map (var_value a) loads = map (fun x => if Nat.eqb x b then load g n else lower_bound d (handle loads x)) (seq 0 (length loads))) by (rewrite E1 in E; now apply app_inv_head in E).
      assert (Pk : forall i, (i < n)%nat -> picks items b a i = g i) by (apply value_picks; auto; now apply chosen_nth).
      assert (El : var_value a (handle loads b) = load g n) by (rewrite (chosen_nth _ _ _ E2 b Lb); now rewrite Nat.eqb_refl).
      exists a. split; [assumption|]. split; [assumption|]. split; [|assumption]. rewrite El. now apply load_ext.
  - rewrite app_nil_r in ND. destruct (items_assigned g ND F) as (a & Wa & Pk). exists a. split; [assumption|]. split; [assumption|]. split; [|exact Logic.I]. rewrite (load_ext size _ g n Pk). destruct U as [U|Z]; [assumption|]. rewrite Z. cbn [load_of].
    apply (proj1 (Forall_forall _ _) C). now apply nth_In.
Qed.

Lemma picked_value a v i : handle items i = v -> picks items b a i = true <-> var_value a v = Z.of_nat b.
Proof. intros <-. apply Z.eqb_eq. Qed.

(** *** Everything derived in advance *)
Section Upfront.
Variable d0 : domains.

Lemma upfront_rests : rests d (propagate_bin d0 items sizes bs b)
  ((exists w, final d0 items sizes bs b d w) /\ (forall i, (i < n)%nat -> can_be d items b i = true -> exists g, free g /\ g i = true /\ final d0 items sizes bs b d (load g n)) /\
   match bs with Loads loads => forall v, In v (each_value d (handle loads b)) -> final d0 items sizes bs b d v | Capacities _ => True end).
Proof.
  unfold propagate_bin. apply (rests_look d (fun d rest => match ends d0 d items sizes bs b with [] => Infer LFalse rest | _ => _ end)). unfold final. set (finals := ends d0 d items sizes bs b).
  assert (E : finals <> [] -> rests d (fun rest => sequence (match bs with Loads loads => load_literals d (handle loads b) (map snd finals) | Capacities _ => [] end) Infer
          (sequence (seq 0 n) (fun k => infer_when (can_be d items b (n - S k) && negb (existsb (fun e => snd (fst e)) (trimmed d0 d items sizes bs b k))) (LCond (cond_ne (handle items (n - S k)) (Z.of_nat b)))) rest))
     ((exists w, In w (map snd finals)) /\ (forall i, (i < n)%nat -> can_be d items b i = true -> exists g, free g /\ g i = true /\ In (load g n) (map snd finals)) /\ match bs with Loads loads => forall v, In v (each_value d (handle loads b)) -> In v (map snd finals) | Capacities _ => True end)).
  { intro NE. assert (NEm : map snd finals <> []) by (destruct finals; [congruence|discriminate]). eapply rests_weaken; [|apply rests_then; [apply (rests_sequence d Infer (fun l => forall a, within a d -> lit_holds a l)); intros l _; apply rests_infer|
      apply (rests_sequence d _ (fun k => can_be d items b (n - S k) && negb (existsb (fun e => snd (fst e)) (trimmed d0 d items sizes bs b k)) = true -> forall a, within a d -> lit_holds a (LCond (cond_ne (handle items (n - S k)) (Z.of_nat b))))); intros k _; apply rests_when]].
    intros [A B]. split; [exists (lowest (map snd finals)); now apply lowest_In|]. split.
    - intros i Li Ci. specialize (B (n - S i)%nat ltac:(apply in_seq; lia)). replace (n - S (n - S i))%nat with i in B by lia. rewrite Ci in B. cbn [andb] in B. destruct (existsb _ _) eqn:X.
      + apply existsb_exists in X. destruct X as ([[p t] w] & Ie & Et). cbn [fst snd] in Et. subst t. destruct (trimmed_whole d0 items sizes bs b Len d (n - S i) p true w ltac:(lia) Ie) as (g & Fg & Gi & Lg). replace (n - S (n - S i))%nat with i in Gi by lia. exists g. auto.
      + exfalso. specialize (B eq_refl). pose proof (item_known nv items Bv d i Ld) as Ki. apply can_be_iff in Ci; auto. apply view_member_iff in Ci; auto. destruct Ci as (a & Wa & Ea). specialize (B a Wa). apply out_holds in B. unfold picks in B. apply Z.eqb_neq in B. contradiction.
    - unfold loads_of in *. destruct bs as [loads|cs]; [|exact Logic.I]. intros v Iv. assert (Kl : var_known d (handle loads b)) by (apply (known_here nv); [assumption|now apply (KnapsackProofs.handle_below nv)]).
      pose proof Iv as Iv'. apply each_value_In in Iv. apply view_member_iff in Iv; auto. destruct Iv as (a & Wa & Ea).
      pose proof (A _ (or_introl eq_refl) a Wa) as L1. pose proof (A _ (or_intror (or_introl eq_refl)) a Wa) as L2. apply lit_ge in L1. apply (proj1 (lit_lt _ _ _)) in L2. rewrite Ea in L1, L2.
      destruct (Z.eq_dec v (lowest (map snd finals))) as [->|N]; [now apply lowest_In|]. destruct (holds_at (map snd finals) v) eqn:X; [now apply holds_at_In|exfalso].
      assert (I3 : In (LCond (cond_ne (handle loads b) v)) (load_literals d (handle loads b) (map snd finals))).
      { right. right. apply in_map_iff. exists v. split; [reflexivity|]. apply filter_In. split; [assumption|]. rewrite X, !andb_true_iff, !Z.ltb_lt. split; [lia|reflexivity]. }
      pose proof (A _ I3 a Wa) as L3. apply L3. exact Ea. }
  destruct finals as [|e r]; [|apply E; discriminate]. eapply rests_weaken; [|apply rests_infer]. intro H. exfalso. destruct (within_exists d Hd) as (a & Wa). exact (H a Wa).
Qed.
End Upfront.

(** *** The bounds *)
Lemma bound_rests : rests d (bound_bin items sizes bs b)
  (match bs with
   | Loads loads => bin_floor d items sizes b <= lower_bound d (handle loads b) /\ upper_bound d (handle loads b) <= bin_ceiling d items sizes b /\
       forall i, In i (still_possible d items b) -> bin_floor d items sizes b + size i <= upper_bound d (handle loads b) /\ lower_bound d (handle loads b) <= bin_ceiling d items sizes b - size i
   | Capacities cs => bin_floor d items sizes b <= nth b cs 0 /\ forall i, In i (still_possible d items b) -> bin_floor d items sizes b + size i <= nth b cs 0
   end).
Proof.
  assert (Both : forall i, In i (still_possible d items b) -> (exists a, within a d /\ picks items b a i = true) /\ exists a, within a d /\ picks items b a i = false).
  { intros i I. apply filter_In in I. destruct I as [_ C]. apply andb_true_iff in C. destruct C as [C1 C2]. pose proof (item_known nv items Bv d i Ld) as Ki. apply can_be_not_iff in C1; auto. apply can_be_iff in C2; auto. apply view_member_iff in C2; auto.
    destruct C1 as (x & N & C1). apply view_member_iff in C1; auto. destruct C1 as (a1 & W1 & E1). destruct C2 as (a2 & W2 & E2). split; [exists a2|exists a1]; (split; [assumption|]); unfold picks; [now apply Z.eqb_eq|apply Z.eqb_neq; congruence]. }
  unfold bound_bin, loads_of in *. apply (rests_look d (fun d rest => match bs with Loads loads => _ | Capacities capacities => _ end)). destruct bs as [loads|cs].
  - assert (Kl : var_known d (handle loads b)) by (apply (known_here nv); [assumption|now apply (KnapsackProofs.handle_below nv)]).
    set (lo := lower_bound d (handle loads b)). set (hi := upper_bound d (handle loads b)). set (fl := bin_floor d items sizes b). set (ce := bin_ceiling d items sizes b).
    set (ll := if lo <? fl then fl else lo). set (lh := if ce <? hi then ce else hi).
    set (step := fun i more => if lh <? fl + size i then Infer (LCond (cond_ne (handle items i) (Z.of_nat b))) more else if ce - size i <? ll then Infer (LCond (cond_eq (handle items i) (Z.of_nat b))) more else more).
    change (rests d (fun rest => infer_when (lo <? fl) (LCond (cond_ge (handle loads b) fl)) (infer_when (ce <? hi) (LCond (cond_lt (handle loads b) (ce + 1))) (sequence (still_possible d items b) step rest)))
      (fl <= lo /\ hi <= ce /\ forall i, In i (still_possible d items b) -> fl + size i <= hi /\ lo <= ce - size i)).
    assert (St : forall i, In i (still_possible d items b) -> rests d (step i) (fl + size i <= lh /\ ll <= ce - size i)).
    { intros i I. destruct (Both i I) as [(a1 & W1 & P1) (a2 & W2 & P2)]. unfold step. destruct (Z.ltb_spec lh (fl + size i)) as [C|C].
      - eapply rests_weaken; [|apply rests_infer]. intro H. specialize (H a1 W1). apply out_holds in H. congruence.
      - destruct (Z.ltb_spec (ce - size i) ll) as [C'|C'].
        + eapply rests_weaken; [|apply rests_infer]. intro H. specialize (H a2 W2). apply in_holds in H. congruence.
        + eapply rests_weaken; [|apply rests_id]. intros _. split; lia. }
    eapply rests_weaken; [|apply (rests_then d (infer_when _ _) (fun rest => infer_when _ _ (sequence _ _ rest))); [apply rests_when|apply (rests_then d (infer_when _ _) (fun rest => sequence _ _ rest)); [apply rests_when|apply (rests_sequence d step _ _ St)]]].
    intros (A & B & C). assert (Fl : fl <= lo).
    { destruct (Z.ltb_spec lo fl) as [L|L]; [|assumption]. destruct (lower_bound_spec d (handle loads b) Hd Kl) as [Ml _]. apply view_member_iff in Ml; auto. destruct Ml as (a & Wa & Ea). specialize (A eq_refl a Wa). apply lit_ge in A. fold lo in Ea. lia. }
    assert (Ce : hi <= ce).
    { destruct (Z.ltb_spec ce hi) as [L|L]; [|assumption]. destruct (upper_bound_spec d (handle loads b) Hd Kl) as [Mu _]. apply view_member_iff in Mu; auto. destruct Mu as (a & Wa & Ea). specialize (B eq_refl a Wa). apply (proj1 (lit_lt _ _ _)) in B. fold hi in Ea. lia. }
    split; [assumption|]. split; [assumption|]. intros i I. destruct (C i I) as [C1 C2]. unfold ll in C2. unfold lh in C1. rewrite (proj2 (Z.ltb_ge lo fl) Fl) in C2. rewrite (proj2 (Z.ltb_ge ce hi) Ce) in C1. auto.
  - eapply rests_weaken; [|apply (rests_then d (infer_when _ _) (fun rest => sequence _ _ rest)); [apply rests_when|apply (rests_sequence d _ (fun i => nth b cs 0 <? bin_floor d items sizes b + size i = true -> forall a, within a d -> lit_holds a (LCond (cond_ne (handle items i) (Z.of_nat b))))); intros i _; apply rests_when]].
    intros [A B]. destruct (within_exists d Hd) as (a & Wa). split.
    + destruct (Z.ltb_spec (nth b cs 0) (bin_floor d items sizes b)) as [L|L]; [|assumption]. destruct (A eq_refl a Wa).
    + intros i I. specialize (B i I). destruct (Z.ltb_spec (nth b cs 0) (bin_floor d items sizes b + size i)) as [L|L]; [|assumption]. destruct (Both i I) as [(a1 & W1 & P1) _]. specialize (B eq_refl a1 W1). apply out_holds in B. congruence.
Qed.
End Rest.

Section AtRest.
Variable d0 : domains.
Variable level : packing_level.
Variable items : list var_id.
Variable sizes : list Z.
Variable bs : bins.
Hypothesis H0 : domains_ok d0.
Hypothesis K : Forall (var_known d0) (items ++ loads_of bs).
Variable c : constraint.
Variable p : propagator.
Hypothesis Posted : bin_packing level items sizes bs = Some c.
Hypothesis Only : fst (c d0) = [p].
Variable d : domains.
Hypothesis Hd : domains_ok d.
Hypothesis Ld : length d = length d0.
Hypothesis Id : inside d0 d.
Hypothesis Quiet : rerun_is_quiet p d.
Local Notation n := (length items).
Local Notation size := (size_of sizes).

Lemma rest_still : packable items sizes bs /\ still (packing_pass d0 level items sizes bs) d.
Proof.
  unfold bin_packing in Posted. destruct (packing_refused items sizes bs) eqn:R; [discriminate|]. injection Posted as E. apply packable_iff in R. split; [assumption|]. rewrite <- E in Only. injection Only as Ep. rewrite <- Ep in Quiet.
  apply (quiet_still (length d0) d Hd Ld _ (fun a => packs items sizes bs a /\ within a d) _ _ _) in Quiet; [assumption|]. apply (posted_tells d0 level items sizes bs H0 K (length d0) d); auto.
Qed.

Lemma rest_bounds b : NoDup (underlying_list items) -> (b < bin_count bs)%nat ->
  match bs with
  | Loads loads => forall load, nth_error loads b = Some load -> bin_bounded d items sizes load b
  | Capacities _ => forall v x, In v items -> takes d v x -> bin_supports d items sizes bs b v x
  end.
Proof.
  intros ND Lb. destruct rest_still as [(Len & Pos & _) St]. destruct (vars_below d0 items bs K (length d0) (Nat.le_refl _)) as [Bv Bl]. unfold packing_pass in St.
  pose proof (rests_sequence d (bound_bin items sizes bs) _ (seq 0 (bin_count bs)) (fun b _ => bound_rests (length d0) items sizes bs Len Bv Bl d Hd Ld b)) as R. destruct (R _ St) as [Q _]. clear R St. specialize (Q b ltac:(apply in_seq; lia)). cbn beta in Q.
  assert (Ki : forall i, var_known d (handle items i)) by (intro i; now apply (item_known (length d0) items Bv)).
  pose proof (fun g => items_assigned (length d0) items sizes Len Bv d Hd Ld b g ND) as As.
  assert (Co : forall a g, (forall i, (i < n)%nat -> picks items b a i = g i) -> content items sizes a b = load_of size g n) by (intros a g E; rewrite content_load by assumption; now apply load_ext).
  set (must := fun i => negb (can_be_not d items b i)). set (may := fun i => negb (can_be_not d items b i) || can_be d items b i).
  assert (Fmust : forall i, (i < n)%nat -> allowed (can_be d items b) (can_be_not d items b) must i).
  { intros i L. unfold allowed, must. destruct (can_be_not d items b i) eqn:X; cbn [negb]; [reflexivity|]. destruct (some_flag items b d i Hd (Ki i)); congruence. }
  assert (Fmay : forall i, (i < n)%nat -> allowed (can_be d items b) (can_be_not d items b) may i).
  { intros i L. unfold allowed, may. destruct (some_flag items b d i Hd (Ki i)) as [X|X]; destruct (can_be_not d items b i) eqn:Y, (can_be d items b i) eqn:Z; cbn [negb orb]; congruence. }
  assert (Put : forall (g : nat -> bool) i (t : bool), (forall j, (j < n)%nat -> allowed (can_be d items b) (can_be_not d items b) g j) -> (if t then can_be d items b i else can_be_not d items b i) = true ->
    forall j, (j < n)%nat -> allowed (can_be d items b) (can_be_not d items b) (fun k => if Nat.eqb k i then t else g k) j).
  { intros g i t G T j L. unfold allowed. destruct (Nat.eqb_spec j i) as [->|N]; [destruct t; assumption|now apply G]. }
  assert (Takes : forall i x, takes d (handle items i) x -> (if x =? Z.of_nat b then can_be d items b i else can_be_not d items b i) = true).
  { intros i x (a & Wa & E). assert (M : view_member d (handle items i) x) by (apply view_member_iff; eauto). destruct (Z.eqb_spec x (Z.of_nat b)) as [->|N]; [now apply can_be_iff|]. apply can_be_not_iff; eauto. }
  (* the least there can be, with one item in the bin *)
  assert (Least : forall i, (i < n)%nat -> can_be d items b i = true -> exists a, within a d /\ var_value a (handle items i) = Z.of_nat b /\
    content items sizes a b = bin_floor d items sizes b + if can_be_not d items b i then size i else 0).
  { intros i L C. destruct (As _ (Put must i true Fmust C)) as (a & Wa & P). exists a. split; [assumption|]. split; [apply (picked_value items b a _ i eq_refl); rewrite P by assumption; now rewrite Nat.eqb_refl|].
    rewrite (Co a _ P), load_put by assumption. rewrite floor_load. unfold must. destruct (can_be_not d items b i); cbn [negb]; lia. }
  (* the most there can be, with one item elsewhere *)
  assert (Most : forall i, (i < n)%nat -> can_be_not d items b i = true -> exists a, within a d /\ var_value a (handle items i) <> Z.of_nat b /\
    content items sizes a b = bin_ceiling d items sizes b - if can_be d items b i then size i else 0).
  { intros i L C. destruct (As _ (Put may i false Fmay C)) as (a & Wa & P). exists a. split; [assumption|]. split; [intro X; apply (picked_value items b a _ i eq_refl) in X; rewrite P in X by assumption; rewrite Nat.eqb_refl in X; discriminate|].
    rewrite (Co a _ P), load_put by assumption. rewrite ceiling_load. unfold may. rewrite C. cbn [negb orb]. destruct (can_be d items b i); lia. }
  assert (Still : forall i, (i < n)%nat -> can_be d items b i = true -> can_be_not d items b i = true -> In i (still_possible d items b)).
  { intros i L A B. apply filter_In. split; [apply in_seq; lia|now rewrite A, B]. }
  unfold bin_count in Lb. destruct bs as [loads|cs].
  - intros load El. assert (E : handle loads b = load) by (unfold handle; now apply nth_error_nth). rewrite E in Q. destruct Q as (Q1 & Q2 & Q3). split; [|split].
    + destruct (As must Fmust) as (a & Wa & P). exists a. split; [assumption|]. rewrite (Co a _ P). now rewrite floor_load in Q1.
    + destruct (As may Fmay) as (a & Wa & P). exists a. split; [assumption|]. rewrite (Co a _ P). now rewrite ceiling_load in Q2.
    + intros v x Iv T. apply (In_nth _ _ (VConst 0)) in Iv. destruct Iv as (i & Li & <-). change (nth i items (VConst 0)) with (handle items i) in *. pose proof (Takes i x T) as C. destruct (Z.eqb_spec x (Z.of_nat b)) as [->|N].
      * destruct (Least i Li C) as (a & Wa & Ea & Ec). exists a. split; [assumption|]. split; [assumption|]. rewrite Ec. destruct (can_be_not d items b i) eqn:X; [now apply Q3, Still|].
        assert (Kl : var_known d load) by (rewrite <- E; apply (known_here (length d0)); [assumption|now apply (KnapsackProofs.handle_below (length d0))]). destruct (lower_bound_spec d load Hd Kl) as [Ml _]. destruct (upper_bound_spec d load Hd Kl) as [_ Au]. specialize (Au _ Ml). lia.
      * destruct (Most i Li C) as (a & Wa & Ea & Ec). exists a. split; [assumption|]. split; [assumption|]. rewrite Ec. destruct (can_be d items b i) eqn:X; [now apply Q3, Still|].
        assert (Kl : var_known d load) by (rewrite <- E; apply (known_here (length d0)); [assumption|now apply (KnapsackProofs.handle_below (length d0))]). destruct (lower_bound_spec d load Hd Kl) as [Ml _]. destruct (upper_bound_spec d load Hd Kl) as [_ Au]. specialize (Au _ Ml). lia.
  - destruct Q as (Q1 & Q3). intros v x Iv T. unfold bin_supports, bin_right. apply (In_nth _ _ (VConst 0)) in Iv. destruct Iv as (i & Li & <-). change (nth i items (VConst 0)) with (handle items i) in *. pose proof (Takes i x T) as C. destruct (Z.eqb_spec x (Z.of_nat b)) as [->|N].
    + destruct (Least i Li C) as (a & Wa & Ea & Ec). exists a. split; [assumption|]. split; [assumption|]. intros cap Ecap. rewrite (nth_error_nth _ _ 0 Ecap) in *. rewrite Ec. destruct (can_be_not d items b i) eqn:X; [now apply Q3, Still|]. lia.
    + destruct T as (ax & Wx & Ex). destruct (choose_list d items (map (fun j => if Nat.eqb j i then x else if must j then Z.of_nat b else elsewhere items d b j) (seq 0 n))) as (a & Wa & E); auto.
      * eapply Forall_impl; [|exact Bv]. intros v Kv. now apply (known_here (length d0)).
      * apply pairs. intros j Lj. destruct (Nat.eqb_spec j i) as [->|Nj]; [apply view_member_iff; eauto|]. exact (value_member (length d0) items sizes Len Bv d Hd Ld b must Fmust j Lj).
      * exists a. split; [assumption|]. split; [rewrite (chosen_nth _ _ _ E i Li); now rewrite Nat.eqb_refl|]. intros cap Ecap. rewrite (nth_error_nth _ _ 0 Ecap) in *. rewrite (Co a must); [now rewrite floor_load in Q1|].
        intros j Lj. unfold picks. rewrite (chosen_nth _ _ _ E j Lj). destruct (Nat.eqb_spec j i) as [->|Nj]; [unfold must; rewrite C; now apply Z.eqb_neq|]. destruct (must j) eqn:M; [apply Z.eqb_refl|]. apply Z.eqb_neq. apply (elsewhere_other (length d0) items sizes Len Bv d Hd Ld b). unfold must in M. now apply negb_false_iff in M.
Qed.

Lemma rest_upfront b : level = PerBin Upfront -> NoDup (underlying_list (items ++ loads_of bs)) -> (b < bin_count bs)%nat ->
  (exists a, within a d /\ bin_right items sizes bs b a) /\ (forall v, In v items -> takes d v (Z.of_nat b) -> bin_supports d items sizes bs b v (Z.of_nat b)) /\
  match bs with Loads loads => forall load x, nth_error loads b = Some load -> takes d load x -> bin_supports d items sizes bs b load x | Capacities _ => True end.
Proof.
  intros El ND Lb. destruct rest_still as [(Len & Pos & _ & Cap) St]. destruct (vars_below d0 items bs K (length d0) (Nat.le_refl _)) as [Bv Bl]. unfold packing_pass in St. rewrite El in St.
  destruct (rests_sequence d (bound_bin items sizes bs) _ (seq 0 (bin_count bs)) (fun b _ => bound_rests (length d0) items sizes bs Len Bv Bl d Hd Ld b) _ St) as [_ St'].
  destruct (rests_sequence d (propagate_bin d0 items sizes bs) _ (seq 0 (bin_count bs)) (fun b _ => upfront_rests (length d0) items sizes bs Len Bv Bl d Hd Ld b d0) _ St') as [Q _]. clear St St'. specialize (Q b ltac:(apply in_seq; lia)). cbn beta in Q. destruct Q as (Q1 & Q2 & Q3).
  assert (Ki : forall i, var_known d (handle items i)) by (intro i; now apply (item_known (length d0) items Bv)).
  assert (As : forall g, (forall i, (i < n)%nat -> allowed (can_be d items b) (can_be_not d items b) g i) -> final d0 items sizes bs b d (load_of size g n) ->
    exists a, within a d /\ (forall i, (i < n)%nat -> picks items b a i = g i) /\ bin_right items sizes bs b a /\ match bs with Loads loads => var_value a (handle loads b) = load_of size g n | Capacities _ => True end).
  { intros g F Fi. destruct (final_right d0 items sizes bs b Len d _ Fi) as [M U]. destruct (all_assigned (length d0) items sizes bs Len Bv Bl d Hd Ld b g ND F Lb M U Cap) as (a & Wa & P & R & E). exists a. repeat split; auto. now apply (right_iff (length d0) items sizes bs Len Bl b a Lb). }
  split; [|split].
  - destruct Q1 as (w & Fw). destruct (final_whole d0 items sizes bs b Len d w Fw) as (g & F & Eg). rewrite <- Eg in Fw. destruct (As g F Fw) as (a & Wa & _ & R & _). eauto.
  - intros v Iv (a0 & W0 & E0). apply (In_nth _ _ (VConst 0)) in Iv. destruct Iv as (i & Li & Ev). change (handle items i = v) in Ev. destruct (Q2 i Li) as (g & F & Gi & Fg); [apply can_be_iff; auto; apply view_member_iff; auto; exists a0; split; [assumption|congruence]|].
    destruct (As g F Fg) as (a & Wa & P & R & _). exists a. split; [assumption|]. split; [|assumption]. apply (picked_value items b a v i Ev). now rewrite P.
  - unfold loads_of in *. destruct bs as [loads|cs]; [|exact Logic.I]. intros load x El' (a0 & W0 & E0). assert (E : handle loads b = load) by (unfold handle; now apply nth_error_nth). 
    assert (Kl : var_known d load) by (rewrite <- E; apply (known_here (length d0)); [assumption|now apply (KnapsackProofs.handle_below (length d0))]).
    assert (Fx : final d0 items sizes (Loads loads) b d x) by (apply Q3; rewrite E; apply each_value_In; apply view_member_iff; eauto).
    destruct (final_whole d0 items sizes (Loads loads) b Len d x Fx) as (g & F & Eg). rewrite <- Eg in Fx. destruct (As g F Fx) as (a & Wa & _ & R & Ex). exists a. split; [assumption|]. split; [|assumption]. rewrite <- E, Ex. exact Eg.
Qed.
End AtRest.

Lemma packs_ext items sizes bs a a' : (forall v, In v (items ++ loads_of bs) -> var_value a v = var_value a' v) -> packs items sizes bs a -> packs items sizes bs a'.
Proof.
  intros E [I R]. assert (Ei : forall v, In v items -> var_value a v = var_value a' v) by (intros v Iv; apply E, in_or_app; now left). split.
  - apply Forall_forall. intros v Iv. rewrite <- Ei by assumption. exact (proj1 (Forall_forall _ _) I v Iv).
  - intros b Lb. specialize (R b Lb). assert (C : content items sizes a b = content items sizes a' b).
    { clear -Ei. unfold content. revert sizes. induction items as [|v vs IH]; intros [|s ss]; try reflexivity. cbn [combine fold_right fst snd]. rewrite (Ei v (or_introl eq_refl)). rewrite IH by (intros w Iw; apply Ei; now right). reflexivity. }
    unfold bin_right, loads_of in *. rewrite <- C. destruct bs as [loads|cs]; [|exact R]. intros v Ev. rewrite (R v Ev). apply E, in_or_app. right. now apply (nth_error_In _ b).
Qed.

(** What is remembered after sweeps on the given domains, one after the other. *)
Definition remembered (d0 : domains) (items : list var_id) (sizes : list Z) (b : nat) (history : list domains) : swept :=
  fold_left (fun s d => fst (sweep_at d0 d items sizes b s)) history (cold (length items)).

Lemma remembered_ok d0 items sizes b history : swept_ok (bin_nodes d0 items sizes b) sizes (length items) (remembered d0 items sizes b history).
Proof.
  unfold remembered. assert (G : forall s, swept_ok (bin_nodes d0 items sizes b) sizes (length items) s -> swept_ok (bin_nodes d0 items sizes b) sizes (length items) (fold_left (fun s d => fst (sweep_at d0 d items sizes b s)) history s)); [|apply G, cold_ok].
  induction history as [|d h IH]; intros s Ok; [exact Ok|]. cbn [fold_left]. apply IH. unfold sweep_at. pose proof (sweep_ok (bin_nodes d0 items sizes b) sizes (length items) (ins_of d items b) (outs_of d items b) s Ok) as A.
  destruct (sweep _ _ _ _ _ s) as [s' pruned]. apply A.
Qed.

Lemma remembered_afresh d0 items sizes b history d : let first := sweep_at d0 d items sizes b (cold (length items)) in let again := sweep_at d0 d items sizes b (remembered d0 items sizes b history) in
  s_fwd (fst again) = s_fwd (fst first) /\ s_bwd (fst again) = s_bwd (fst first) /\ (snd again = [] \/ snd again = snd first).
Proof. apply sweep_afresh, remembered_ok. Qed.

Lemma remembered_idle d0 items sizes bs b history d : packable items sizes bs -> domains_ok d0 -> Forall (var_known d0) items -> domains_ok d -> length d = length d0 -> inside d0 d ->
  snd (sweep_at d0 d items sizes b (remembered d0 items sizes b history)) = [].
Proof.
  intros (Len & Pos & _) H0 K Hd Ld I. apply (sweep_keeps (length d0) items sizes Len Pos); auto; [|apply remembered_ok]. now apply known_below_all.
Qed.

(** ** What does not hold *)
Lemma default_not_consistent : exists d items sizes loads k p, domains_ok d /\ Forall (var_known d) (items ++ loads) /\ NoDup (underlying_list (items ++ loads)) /\ in_bins d items (Loads loads) /\
  bin_packing (PerBin PerCall) items sizes (Loads loads) = Some k /\ fst (k d) = [p] /\ rerun_is_quiet p d /\ (forall a, within a d -> ~ bin_right items sizes (Loads loads) 0 a).
Proof.
  exists [[(0, 1)]; [(0, 1)]; [(0, 1)]; [(4, 5)]; [(0, 9)]], [VSimple 0; VSimple 1; VSimple 2], [3; 3; 3], [VSimple 3; VSimple 4]. eexists. eexists.
  split; [intros [|[|[|[|[|j]]]]] Hj; simpl in *; try lia; (split; [simpl; lia|]); first [exists 0; apply member_cons; lia|exists 4; apply member_cons; lia]|].
  split; [repeat constructor|]. split; [repeat constructor; simpl; intuition discriminate|]. split; [repeat constructor; vm_compute; discriminate|]. split; [reflexivity|]. split; [reflexivity|]. split.
  - intros i E. cbn [p_run body_propagator]. rewrite (proj1 (body_run_out _ i)), E. vm_compute. reflexivity.
  - intros a Wa R. specialize (R (VSimple 3) eq_refl). pose proof (Wa 3%nat ltac:(simpl; lia)) as M. apply member_cons in M. destruct M as [M|M]; [|now apply member_nil in M]. unfold content in R. cbn [combine fold_right fst snd var_value] in R. 
    destruct (a 0%nat =? Z.of_nat 0), (a 1%nat =? Z.of_nat 0), (a 2%nat =? Z.of_nat 0); lia.
Qed.

Lemma strategies_infer_alike : exists d items sizes loads k1 k2 p1 p2, domains_ok d /\ Forall (var_known d) (items ++ loads) /\ NoDup (underlying_list (items ++ loads)) /\ in_bins d items (Loads loads) /\
  bin_packing (PerBin PerCall) items sizes (Loads loads) = Some k1 /\ bin_packing (PerBin Upfront) items sizes (Loads loads) = Some k2 /\ fst (k1 d) = [p1] /\ fst (k2 d) = [p2] /\
  forall i, i_domains i = d -> snd (apply_lits d (o_infer (p_run p1 i))) = false /\ snd (apply_lits d (o_infer (p_run p2 i))) = true.
Proof.
  exists [[(0, 1)]; [(0, 1)]; [(0, 1)]; [(4, 5)]; [(0, 9)]], [VSimple 0; VSimple 1; VSimple 2], [3; 3; 3], [VSimple 3; VSimple 4]. eexists. eexists. eexists. eexists.
  split; [intros [|[|[|[|[|j]]]]] Hj; simpl in *; try lia; (split; [simpl; lia|]); first [exists 0; apply member_cons; lia|exists 4; apply member_cons; lia]|].
  split; [repeat constructor|]. split; [repeat constructor; simpl; intuition discriminate|]. split; [repeat constructor; vm_compute; discriminate|]. split; [reflexivity|]. split; [reflexivity|]. split; [reflexivity|]. split; [reflexivity|].
  intros i E. split; cbn [p_run body_propagator]; rewrite (proj1 (body_run_out _ i)), E; vm_compute; reflexivity.
Qed.

Lemma upfront_one_way : exists d items sizes loads k p v x, domains_ok d /\ Forall (var_known d) (items ++ loads) /\ NoDup (underlying_list (items ++ loads)) /\ in_bins d items (Loads loads) /\
  bin_packing (PerBin Upfront) items sizes (Loads loads) = Some k /\ fst (k d) = [p] /\ rerun_is_quiet p d /\ In v items /\ takes d v x /\ ~ bin_supports d items sizes (Loads loads) 0 v x.
Proof.
  exists [[(0, 1)]; [(0, 1)]; [(2, 2); (5, 5)]; [(0, 0); (2, 3); (5, 5)]], [VSimple 0; VSimple 1], [2; 3], [VSimple 2; VSimple 3]. eexists. eexists. exists (VSimple 0), 1.
  split; [intros [|[|[|[|j]]]] Hj; simpl in *; try lia; (split; [simpl; lia|]); first [exists 0; apply member_cons; lia|exists 2; apply member_cons; lia]|].
  split; [repeat constructor|]. split; [repeat constructor; simpl; intuition discriminate|]. split; [repeat constructor; vm_compute; discriminate|]. split; [reflexivity|]. split; [reflexivity|]. split; [|split; [now left|split]].
  - intros i E. cbn [p_run body_propagator]. rewrite (proj1 (body_run_out _ i)), E. vm_compute. reflexivity.
  - exists (fun j => nth j [1; 0; 2; 0] 0). split; [|reflexivity]. intros [|[|[|[|j]]]] Hj; simpl in *; try lia; apply member_cons; lia.
  - intros (a & Wa & E & R). specialize (R (VSimple 2) eq_refl). pose proof (Wa 2%nat ltac:(simpl; lia)) as M. apply member_cons in M. destruct M as [M|M]; [|apply member_cons in M; destruct M as [M|M]; [|now apply member_nil in M]]; unfold content in R; cbn [combine fold_right fst snd var_value] in R, E; rewrite E in R;
      destruct (a 1%nat =? Z.of_nat 0); cbn in R; lia.
Qed.
