(** The ranks of elements in an order, and which ranks they can have. *)
From Coq Require Import ZArith List Bool Lia Permutation Sorted.
From Verif Require Import GlobalCardinality GlobalCardinalityProofs ArgSort ArgSortSpec.
Import ListNotations.
Local Open Scope Z_scope.

(** ** Counting *)
Lemma how_many_app {X} (f : X -> bool) l m : how_many f (l ++ m) = how_many f l + how_many f m.
Proof. induction l as [|x r IH]; [reflexivity|]. cbn [app]. rewrite !how_many_cons, IH. lia. Qed.

Lemma how_many_perm {X} (f : X -> bool) l m : Permutation l m -> how_many f l = how_many f m.
Proof. induction 1; rewrite ?how_many_cons; lia. Qed.

Lemma how_many_all {X} (f : X -> bool) l : Forall (fun x => f x = true) l -> how_many f l = Z.of_nat (length l).
Proof. induction 1 as [|x r Fx _ IH]; [reflexivity|]. rewrite how_many_cons, Fx, IH. cbn [length]. lia. Qed.

Lemma how_many_none {X} (f : X -> bool) l : Forall (fun x => f x = false) l -> how_many f l = 0.
Proof. induction 1 as [|x r Fx _ IH]; [reflexivity|]. rewrite how_many_cons, Fx, IH. lia. Qed.

(** Two tests that differ at one element at most. *)
Lemma how_many_step (f g : nat -> bool) m l : NoDup l -> (forall i, In i l -> i <> m -> f i = g i) -> how_many g l <= how_many f l + 1.
Proof.
  induction 1 as [|i r Ni _ IH]; intro H; [unfold how_many; simpl; lia|]. rewrite !how_many_cons. destruct (Nat.eq_dec i m) as [->|N].
  - assert (E : how_many g r = how_many f r) by (apply how_many_ext; intros x Ix; symmetry; apply H; [now right|intros ->; contradiction]).
    rewrite E. destruct (f m), (g m); lia.
  - rewrite (H i (or_introl eq_refl) N). specialize (IH (fun x Ix => H x (or_intror Ix))). lia.
Qed.

(** ** The order *)
Section Order.
Variable xs : list Z.
Notation n := (length xs).
Notation at_ k := (nth k xs 0).

Lemma precedes_iff i k : precedes k (fun i => at_ i) (at_ k) i = true <-> comes_first xs i k.
Proof.
  unfold precedes, comes_first. destruct (Nat.eqb_spec i k) as [->|N]; cbn [negb andb]; [split; [discriminate|lia]|].
  destruct (Nat.ltb_spec i k); [rewrite Z.leb_le|rewrite Z.ltb_lt]; lia.
Qed.

Lemma first_irrefl k : ~ comes_first xs k k.
Proof. unfold comes_first. lia. Qed.

Lemma first_trans i k l : comes_first xs i k -> comes_first xs k l -> comes_first xs i l.
Proof. unfold comes_first. lia. Qed.

Lemma first_total i k : i <> k -> comes_first xs i k \/ comes_first xs k i.
Proof. unfold comes_first. lia. Qed.

Definition rank (k : nat) : Z := how_many (precedes k (fun i => at_ i) (at_ k)) (seq 0 n).

Lemma rank_less i k : (i < n)%nat -> comes_first xs i k -> rank i < rank k.
Proof.
  intros Hi C. unfold rank. apply (how_many_lt _ _ _ i).
  - intros x _ P. apply precedes_iff in P. apply precedes_iff. now apply (first_trans x i k).
  - apply in_seq. lia.
  - apply not_true_is_false. intro P. apply precedes_iff in P. now apply first_irrefl in P.
  - now apply precedes_iff.
Qed.

Lemma strongly ks : Sorted (comes_first xs) ks -> StronglySorted (comes_first xs) ks.
Proof. intro S. apply Sorted_StronglySorted; [exact first_trans|assumption]. Qed.

Lemma strongly_app {X} (R : X -> X -> Prop) l m : StronglySorted R (l ++ m) -> (forall x y, In x l -> In y m -> R x y) /\ StronglySorted R m.
Proof.
  induction l as [|z r IH]; intro S; [split; [intros x y []|assumption]|]. cbn [app] in S. inversion S as [|? ? S' F]; subst. destruct (IH S') as [A B]. split; [|assumption].
  intros x y [<-|Ix] Iy; [|now apply A]. rewrite Forall_forall in F. apply F. apply in_or_app. now right.
Qed.

(** The rank of an element is where it stands. *)
Lemma order_rank ks j k : Permutation (seq 0 n) ks -> Sorted (comes_first xs) ks -> nth_error ks j = Some k -> rank k = Z.of_nat j.
Proof.
  intros P S E. apply nth_error_split in E. destruct E as (l & m & -> & L). unfold rank. rewrite (how_many_perm _ _ _ P), how_many_app, how_many_cons.
  destruct (strongly_app _ _ _ (strongly _ S)) as [B S']. inversion S' as [|? ? _ F]; subst.
  rewrite how_many_all, how_many_none.
  - assert (Ek : precedes k (fun i => at_ i) (at_ k) k = false) by (apply not_true_is_false; intro Q; apply precedes_iff in Q; now apply first_irrefl in Q). rewrite Ek. lia.
  - eapply Forall_impl; [|exact F]. intros i C. apply not_true_is_false. intro Q. apply precedes_iff in Q. apply (first_irrefl k). now apply (first_trans k i k).
  - apply Forall_forall. intros i I. apply precedes_iff. apply B; [assumption|now left].
Qed.

Lemma sorted_steps {X} (R : X -> X -> Prop) l : (forall j x y, nth_error l j = Some x -> nth_error l (S j) = Some y -> R x y) -> Sorted R l.
Proof.
  induction l as [|x r IH]; intro H; constructor; [apply IH; intros j; apply (H (S j))|]. destruct r as [|y r]; constructor. now apply (H O).
Qed.

(** If each stands where its rank says, that is the order. *)
Lemma ranks_order ks : length ks = n -> (forall j k, nth_error ks j = Some k -> (k < n)%nat /\ rank k = Z.of_nat j) -> Permutation (seq 0 n) ks /\ Sorted (comes_first xs) ks.
Proof.
  intros L H. split.
  - symmetry. apply NoDup_Permutation_bis.
    + apply NoDup_nth_error. intros i j Hi E. destruct (nth_error ks i) as [k|] eqn:Ei; [|apply nth_error_None in Ei; lia]. symmetry in E.
      destruct (H _ _ Ei) as [_ R1]. destruct (H _ _ E) as [_ R2]. lia.
    + rewrite seq_length. lia.
    + intros k I. apply In_nth_error in I. destruct I as (j & E). apply in_seq. destruct (H _ _ E). lia.
  - apply sorted_steps. intros j k l E1 E2. destruct (H _ _ E1) as [K1 R1]. destruct (H _ _ E2) as [K2 R2].
    assert (k <> l) as N by (intros ->; lia). destruct (first_total k l N) as [|C]; [assumption|]. apply rank_less in C; [lia|assumption].
Qed.

(** There is such an order. *)
Fixpoint put_in (k : nat) (ks : list nat) : list nat :=
  match ks with
  | [] => [k]
  | l :: r => if precedes l (fun i => at_ i) (at_ l) k then k :: l :: r else l :: put_in k r
  end.

Lemma put_in_perm k ks : Permutation (k :: ks) (put_in k ks).
Proof. induction ks as [|l r IH]; [reflexivity|]. cbn [put_in]. destruct (precedes _ _ _ _); [reflexivity|]. rewrite perm_swap. now constructor. Qed.

Lemma put_in_sorted k ks : ~ In k ks -> StronglySorted (comes_first xs) ks -> StronglySorted (comes_first xs) (put_in k ks).
Proof.
  intros N S. induction S as [|l r S IH F]; [constructor; constructor|]. cbn [put_in]. destruct (precedes _ _ _ k) eqn:E.
  - apply precedes_iff in E. constructor; [now constructor|]. constructor; [assumption|]. eapply Forall_impl; [|exact F]. intros m. now apply first_trans.
  - assert (C : comes_first xs l k).
    { destruct (first_total l k) as [|C]; [intros ->; apply N; now left|assumption|]. apply precedes_iff in C. congruence. }
    constructor; [apply IH; intro I; apply N; now right|]. eapply Permutation_Forall; [apply put_in_perm|]. now constructor.
Qed.

Lemma order_exists : exists ks, Permutation (seq 0 n) ks /\ Sorted (comes_first xs) ks.
Proof.
  assert (G : forall l, NoDup l -> exists ks, Permutation l ks /\ StronglySorted (comes_first xs) ks).
  { induction 1 as [|k r N _ (ks & P & S)]; [exists []; split; constructor|]. exists (put_in k ks). split; [rewrite P; apply put_in_perm|].
    apply put_in_sorted; [|assumption]. intro I. apply N. now apply (Permutation_in k (Permutation_sym P)). }
  destruct (G (seq 0 n) (seq_NoDup _ _)) as (ks & P & S). exists ks. split; [assumption|]. now apply StronglySorted_Sorted.
Qed.

(** The values in that order are sorted. *)
Lemma order_values ks : Permutation (seq 0 n) ks -> Sorted (comes_first xs) ks -> Permutation xs (map (fun k => at_ k) ks) /\ StronglySorted Z.le (map (fun k => at_ k) ks).
Proof.
  intros P S. split.
  - rewrite <- (Permutation_map _ P). assert (E : map (fun k => at_ k) (seq 0 n) = xs); [|now rewrite E].
    apply (nth_ext _ _ 0 0); rewrite map_length, seq_length; [reflexivity|]. intros i Hi. rewrite (nth_indep _ 0 (at_ 0)) by (now rewrite map_length, seq_length).
    rewrite (map_nth (fun k => at_ k)), seq_nth by assumption. reflexivity.
  - apply strongly in S. clear P. induction S as [|k r S IH F]; constructor; [assumption|]. apply Forall_forall. intros v I. apply in_map_iff in I. destruct I as (l & <- & I).
    rewrite Forall_forall in F. specialize (F l I). unfold comes_first in F. lia.
Qed.
End Order.

(** ** In terms of what is listed *)
Lemma order_at offset xs ps : sorting_order offset xs ps -> length ps = length xs /\
  forall j, (j < length xs)%nat -> exists k, (k < length xs)%nat /\ nth j ps 0 = offset + Z.of_nat k /\ rank xs k = Z.of_nat j.
Proof.
  intros (ks & P & -> & S). pose proof (Permutation_length P) as L. rewrite seq_length in L. rewrite map_length. split; [congruence|]. intros j Hj.
  destruct (nth_error ks j) as [k|] eqn:E; [|apply nth_error_None in E; lia]. exists k.
  split; [|split; [|now apply (order_rank xs ks)]].
  - apply nth_error_In in E. apply (Permutation_in _ (Permutation_sym P)) in E. apply in_seq in E. lia.
  - apply nth_error_nth. now apply (map_nth_error (fun k => offset + Z.of_nat k)).
Qed.

Lemma at_order offset xs ps : length ps = length xs ->
  (forall j, (j < length xs)%nat -> exists k, (k < length xs)%nat /\ nth j ps 0 = offset + Z.of_nat k /\ rank xs k = Z.of_nat j) -> sorting_order offset xs ps.
Proof.
  intros L H. exists (map (fun p => Z.to_nat (p - offset)) ps).
  assert (At : forall j, (j < length xs)%nat -> exists k, (k < length xs)%nat /\ nth_error (map (fun p => Z.to_nat (p - offset)) ps) j = Some k /\ nth_error ps j = Some (offset + Z.of_nat k) /\ rank xs k = Z.of_nat j).
  { intros j Hj. destruct (H j Hj) as (k & Hk & E & R). exists k. assert (E' : nth_error ps j = Some (offset + Z.of_nat k)) by (rewrite <- E; apply nth_error_nth'; lia).
    split; [assumption|]. split; [|auto]. rewrite (map_nth_error _ _ _ E'). f_equal. lia. }
  assert (R : forall j k, nth_error (map (fun p => Z.to_nat (p - offset)) ps) j = Some k -> (k < length xs)%nat /\ rank xs k = Z.of_nat j).
  { intros j k E. assert (Hj : (j < length xs)%nat) by (rewrite <- L, <- (map_length (fun p => Z.to_nat (p - offset))); apply nth_error_Some; congruence).
    destruct (At j Hj) as (k' & Hk & E' & _ & Rk). rewrite E in E'. injection E' as ->. auto. }
  destruct (ranks_order xs _ (eq_trans (map_length _ _) L) R) as [P S]. split; [assumption|]. split; [|assumption].
  rewrite map_map. rewrite <- (map_id ps) at 1. apply map_ext_in. intros p I. apply In_nth_error in I. destruct I as (j & E).
  assert (Hj : (j < length xs)%nat) by (rewrite <- L; apply nth_error_Some; congruence). destruct (At j Hj) as (k & Hk & E1 & E2 & _). rewrite E in E2. injection E2 as ->. lia.
Qed.

(** ** The ranks that can be had *)
Section Reach.
Variable n : nat.
Variables lx ux : nat -> Z.
Variable k : nat.
Hypothesis Hk : lx k <= ux k.

Lemma precedes_mono b b' v v' i : b' i <= b i -> v <= v' -> precedes k b v i = true -> precedes k b' v' i = true.
Proof.
  unfold precedes. intros H1 H2 E. apply andb_true_iff in E. destruct E as [-> E]. cbn [andb]. destruct (Nat.ltb i k); [rewrite Z.leb_le in *|rewrite Z.ltb_lt in *]; lia.
Qed.

Lemma candidate_range v : In v (candidates n lx ux k) -> lx k <= v <= ux k.
Proof.
  intros [<-|[<-|I]]; [lia|lia|]. apply in_flat_map in I. destruct I as (i & _ & I). destruct (Nat.eqb i k); [destruct I|]. apply filter_In in I.
  destruct I as [_ E]. apply andb_true_iff in E. rewrite !Z.leb_le in E. exact E.
Qed.

(** The last candidate that is not above a value does for it. *)
Lemma last_candidate v l : (exists c, In c l /\ c <= v) -> exists c, In c l /\ c <= v /\ forall c', In c' l -> c' <= v -> c' <= c.
Proof.
  induction l as [|x r IH]; intros (c & I & Lc); [destruct I|].
  destruct (Z_le_gt_dec x v) as [Lx|Gx].
  - assert (Dec : (exists c, In c r /\ c <= v) \/ forall c, In c r -> c <= v -> c <= x).
    { clear. induction r as [|y r IH]; [right; intros c []|]. destruct (Z_le_gt_dec y v) as [L|G]; [left; exists y; split; [now left|assumption]|].
      destruct IH as [(c & I & L)|H]; [left; exists c; split; [now right|assumption]|right]. intros c [<-|I]; [lia|auto]. }
    destruct Dec as [E|E].
    + destruct (IH E) as (m & Im & Lm & M). destruct (Z_le_gt_dec x m) as [Lxm|G].
      * exists m. split; [now right|]. split; [assumption|]. intros c' [<-|I'] Lc'; auto.
      * exists x. split; [now left|]. split; [assumption|]. intros c' [<-|I'] Lc'; [lia|]. specialize (M c' I' Lc'). lia.
    + exists x. split; [now left|]. split; [assumption|]. intros c' [<-|I'] Lc'; [lia|auto].
  - destruct I as [->|I]; [lia|]. destruct (IH (ex_intro _ c (conj I Lc))) as (m & Im & Lm & M). exists m. split; [now right|]. split; [assumption|].
    intros c' [<-|I'] Lc'; [lia|auto].
Qed.

Lemma candidate_for v : lx k <= v <= ux k -> exists c, In c (candidates n lx ux k) /\ c <= v /\
  forall i, (i < n)%nat -> precedes k ux c i = precedes k ux v i /\ precedes k lx c i = precedes k lx v i.
Proof.
  intro Hv. destruct (last_candidate v (candidates n lx ux k)) as (c & Ic & Lc & M); [exists (lx k); split; [now left|lia]|].
  exists c. split; [assumption|]. split; [assumption|]. intros i Hi. pose proof (candidate_range c Ic) as Rc.
  assert (T : forall t, In t [lx i; ux i; lx i + 1; ux i + 1; lx i - 1; ux i - 1] -> i <> k -> t <= v -> t <= c).
  { intros t It N Lt. destruct (Z_le_gt_dec (lx k) t) as [L|G]; [|lia]. apply M; [|assumption]. right. right. apply in_flat_map. exists i. split; [apply in_seq; lia|].
    destruct (Nat.eqb_spec i k); [contradiction|]. apply filter_In. split; [assumption|]. apply andb_true_iff. rewrite !Z.leb_le. lia. }
  unfold precedes. destruct (Nat.eqb_spec i k) as [->|N]; [auto|]. cbn [negb andb].
  pose proof (T (lx i) ltac:(simpl; tauto) N). pose proof (T (ux i) ltac:(simpl; tauto) N). pose proof (T (lx i + 1) ltac:(simpl; tauto) N). pose proof (T (ux i + 1) ltac:(simpl; tauto) N).
  destruct (Nat.ltb i k).
  - split; [destruct (Z.leb_spec (ux i) c), (Z.leb_spec (ux i) v)|destruct (Z.leb_spec (lx i) c), (Z.leb_spec (lx i) v)]; try reflexivity; lia.
  - split; [destruct (Z.ltb_spec (ux i) c), (Z.ltb_spec (ux i) v)|destruct (Z.ltb_spec (lx i) c), (Z.ltb_spec (lx i) v)]; try reflexivity; lia.
Qed.

Lemma reachable_iff j : reachable n lx ux k j = true <-> exists v, lx k <= v <= ux k /\ forced n ux k v <= j <= possible n lx k v.
Proof.
  unfold reachable. rewrite existsb_exists. split.
  - intros (v & I & E). apply andb_true_iff in E. rewrite !Z.leb_le in E. exists v. split; [now apply candidate_range|lia].
  - intros (v & Rv & Rj). destruct (candidate_for v Rv) as (c & Ic & _ & H). exists c. split; [assumption|]. apply andb_true_iff. rewrite !Z.leb_le.
    assert (E1 : forced n ux k c = forced n ux k v) by (apply how_many_ext; intros i I; apply in_seq in I; apply H; lia).
    assert (E2 : possible n lx k c = possible n lx k v) by (apply how_many_ext; intros i I; apply in_seq in I; apply H; lia). lia.
Qed.

(** The rank of an element whose value is known lies between the two counts. *)
Lemma rank_between xs : length xs = n -> (forall i, (i < n)%nat -> lx i <= nth i xs 0 <= ux i) -> forced n ux k (nth k xs 0) <= rank xs k <= possible n lx k (nth k xs 0).
Proof.
  intros L B. unfold rank, forced, possible. rewrite L. split; apply how_many_le; intros i I; apply in_seq in I; apply precedes_mono; try lia; apply B; lia.
Qed.

(** Anything between the counts is the rank of the element for some values. *)
Lemma rank_had v j : (forall i, (i < n)%nat -> lx i <= ux i) -> (k < n)%nat -> lx k <= v <= ux k -> forced n ux k v <= j <= possible n lx k v ->
  exists xs, length xs = n /\ (forall i, (i < n)%nat -> lx i <= nth i xs 0 <= ux i) /\ nth k xs 0 = v /\ rank xs k = j.
Proof.
  intros B Lk Rv Rj. set (b := fun (m i : nat) => if Nat.ltb i m then lx i else ux i). set (c := fun m => how_many (precedes k (b m) v) (seq 0 n)).
  assert (C0 : c O = forced n ux k v) by (apply how_many_ext; intros; reflexivity).
  assert (Cn : c n = possible n lx k v).
  { apply how_many_ext. intros i I. apply in_seq in I. unfold precedes, b. destruct (Nat.ltb_spec i n); [reflexivity|lia]. }
  assert (St : forall m, c (S m) <= c m + 1).
  { intro m. apply (how_many_step _ _ m); [apply seq_NoDup|]. intros i _ N. unfold precedes, b. destruct (Nat.ltb_spec i m), (Nat.ltb_spec i (S m)); try reflexivity; lia. }
  assert (Iv : forall m, j <= c m -> exists m', c m' = j).
  { induction m as [|m IH]; intro H; [exists O; lia|]. destruct (Z_le_gt_dec j (c m)) as [L|G]; [auto|]. exists (S m). specialize (St m). lia. }
  destruct (Iv n) as (m & Em); [lia|]. exists (map (fun i => if Nat.eqb i k then v else b m i) (seq 0 n)).
  assert (At : forall i, (i < n)%nat -> nth i (map (fun i => if Nat.eqb i k then v else b m i) (seq 0 n)) 0 = if Nat.eqb i k then v else b m i).
  { intros i Hi. apply nth_error_nth. rewrite (map_nth_error _ i (seq 0 n) (d := i)); [reflexivity|]. rewrite (nth_error_nth' _ O) by (now rewrite seq_length). now rewrite seq_nth. }
  split; [now rewrite map_length, seq_length|]. split; [|split].
  - intros i Hi. rewrite At by assumption. destruct (Nat.eqb_spec i k) as [->|N]; [assumption|]. unfold b. specialize (B i Hi). destruct (Nat.ltb i m); lia.
  - rewrite At by assumption. now rewrite Nat.eqb_refl.
  - unfold rank. rewrite map_length, seq_length, <- Em. apply how_many_ext. intros i I. apply in_seq in I. rewrite (At k) by assumption. rewrite Nat.eqb_refl.
    unfold precedes. rewrite At by lia. destruct (Nat.eqb_spec i k); reflexivity.
Qed.

(** ** Holes *)
Lemma climb_spec fuel j : forall v, possible n lx k v < j -> let u := climb n lx k fuel j v in
  v <= u <= v + Z.of_nat fuel /\ possible n lx k u < j /\ (u = v + Z.of_nat fuel \/ j <= possible n lx k (u + 1)).
Proof.
  induction fuel as [|f IH]; intros v H; cbn [climb]; cbv zeta; [lia|]. destruct (Z.ltb_spec (possible n lx k (v + 1)) j) as [L|G]; [|lia].
  specialize (IH (v + 1) L). cbv zeta in IH. lia.
Qed.

Lemma threshold_spec j : reachable n lx ux k j = false -> forced n ux k (lx k) <= j <= possible n lx k (ux k) ->
  let u := threshold n lx ux k j in lx k <= u < ux k /\ possible n lx k u < j /\ j < forced n ux k (u + 1).
Proof.
  intros R I u. assert (N : forall v, lx k <= v <= ux k -> ~ forced n ux k v <= j <= possible n lx k v).
  { intros v Rv B. assert (T : reachable n lx ux k j = true) by (apply reachable_iff; eauto). congruence. }
  pose proof (N (lx k) ltac:(lia)) as N1. pose proof (climb_spec (Z.to_nat (ux k - lx k)) j (lx k) ltac:(lia)) as C. fold (threshold n lx ux k j) in C. fold u in C. cbv zeta in C.
  destruct C as (C1 & C2 & C3). assert (u <> ux k) by (intro E; rewrite E in C2; lia). split; [lia|]. split; [assumption|].
  pose proof (N (u + 1) ltac:(lia)) as N2. lia.
Qed.

Lemma counts_mono v v' : v <= v' -> forced n ux k v <= forced n ux k v' /\ possible n lx k v <= possible n lx k v'.
Proof. intro H. split; apply how_many_le; intros i _; apply precedes_mono; lia. Qed.
End Reach.
