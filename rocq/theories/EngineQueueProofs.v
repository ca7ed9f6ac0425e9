(** Lemmas about the ready queue. *)
From Coq Require Import List Arith Bool Lia.
From Verif Require Import Epochs Engine.
Import ListNotations.

Lemma set_nth_length {X} (l : list X) n x : length (set_nth l n x) = length l.
Proof. revert n; induction l; intros [|n]; simpl; auto. Qed.

Lemma nth_set_nth {X} (l : list X) n x k d : n < length l ->
  nth k (set_nth l n x) d = if Nat.eqb k n then x else nth k l d.
Proof.
  revert n k; induction l; intros n k H; simpl in H; [lia|].
  destruct n, k; simpl; auto. rewrite IHl by lia. reflexivity.
Qed.

Lemma nth_set_nth_other {X} (l : list X) n x k d : k <> n -> nth k (set_nth l n x) d = nth k l d.
Proof.
  revert n k; induction l; intros n k H; destruct n, k; simpl; auto; congruence.
Qed.

Lemma swap_nth_length l i j : length (swap_nth l i j) = length l.
Proof. unfold swap_nth. now rewrite !set_nth_length. Qed.

Lemma nth_swap_nth l i j k : i < length l -> j < length l ->
  nth k (swap_nth l i j) 0 = if Nat.eqb k j then nth i l 0 else if Nat.eqb k i then nth j l 0 else nth k l 0.
Proof.
  intros Hi Hj. unfold swap_nth. rewrite nth_set_nth by now rewrite set_nth_length.
  destruct (Nat.eqb k j); [reflexivity|]. now rewrite nth_set_nth.
Qed.

(** Where a propagator sits. *)
Definition pos (q : pq) (p : nat) : nat := nth p (q_lookup q) 0.

Record pq_ok (n : nat) (q : pq) : Prop :=
  { ok_queue_len : length (q_queue q) = n;
    ok_lookup_len : length (q_lookup q) = n;
    ok_order : q_begin q <= q_end q /\ q_end q <= q_idle q /\ q_idle q <= n;
    ok_queue : forall i, i < n -> nth i (q_queue q) 0 < n /\ pos q (nth i (q_queue q) 0) = i;
    ok_lookup : forall p, p < n -> pos q p < n /\ nth (pos q p) (q_queue q) 0 = p }.

Lemma pos_inj n q p p' : pq_ok n q -> p < n -> p' < n -> pos q p = pos q p' -> p = p'.
Proof.
  intros H Hp Hp' E. destruct (ok_lookup n q H p Hp) as [_ A], (ok_lookup n q H p' Hp') as [_ B]. congruence.
Qed.

(** Swapping the places of two propagators, on both arrays. *)
Lemma swap_places n q p j bgn nd idl : pq_ok n q -> p < n -> j < n ->
  bgn <= nd -> nd <= idl -> idl <= n ->
  let q' := mk_pq (swap_nth (q_queue q) (pos q p) j) (swap_nth (q_lookup q) p (nth j (q_queue q) 0)) bgn nd idl in
  pq_ok n q' /\ pos q' p = j /\
  (forall x, x < n -> x <> p -> pos q x = j -> pos q' x = pos q p) /\
  (forall x, x < n -> x <> p -> pos q x <> j -> pos q' x = pos q x).
Proof.
  intros H Hp Hj B1 B2 B3 q'.
  pose proof (ok_queue_len n q H) as LQ. pose proof (ok_lookup_len n q H) as LL.
  destruct (ok_lookup n q H p Hp) as [P1 P2]. destruct (ok_queue n q H j Hj) as [J1 J2].
  set (b := nth j (q_queue q) 0) in *.
  assert (POS : forall x, pos q' x = if Nat.eqb x b then pos q p else if Nat.eqb x p then j else pos q x).
  { intro x. unfold pos at 1, q'; cbn [q_lookup]. rewrite nth_swap_nth by lia. unfold pos in J2.
    rewrite J2. reflexivity. }
  assert (QUE : forall i, nth i (q_queue q') 0 = if Nat.eqb i j then p else if Nat.eqb i (pos q p) then b else nth i (q_queue q) 0).
  { intro i. unfold q'; cbn [q_queue]. rewrite nth_swap_nth by lia. rewrite P2. reflexivity. }
  assert (Ebp : b = p <-> j = pos q p).
  { split; intro E; [rewrite <- E; symmetry; exact J2|]. unfold b. rewrite E. exact P2. }
  split; [|split; [|split]].
  - constructor.
    + unfold q'; cbn. now rewrite swap_nth_length.
    + unfold q'; cbn. now rewrite swap_nth_length.
    + unfold q'; cbn. lia.
    + intros i Hi. rewrite QUE. destruct (Nat.eqb_spec i j) as [->|N1].
      * split; [assumption|]. rewrite POS. destruct (Nat.eqb_spec p b) as [E|E]; [symmetry; apply Ebp; congruence|].
        now rewrite Nat.eqb_refl.
      * destruct (Nat.eqb_spec i (pos q p)) as [->|N2].
        -- split; [assumption|]. rewrite POS, Nat.eqb_refl. reflexivity.
        -- destruct (ok_queue n q H i Hi) as [A1 A2]. split; [assumption|]. rewrite POS.
           destruct (Nat.eqb_spec (nth i (q_queue q) 0) b) as [E|E]; [exfalso; apply N1; rewrite <- A2, E; exact J2|].
           destruct (Nat.eqb_spec (nth i (q_queue q) 0) p) as [E'|E']; [exfalso; apply N2; rewrite <- E'; now symmetry|].
           assumption.
    + intros x Hx. rewrite POS. destruct (Nat.eqb_spec x b) as [->|N1].
      * split; [assumption|]. rewrite QUE. destruct (Nat.eqb_spec (pos q p) j) as [E|E]; [apply eq_sym; apply Ebp; now symmetry|].
        now rewrite Nat.eqb_refl.
      * destruct (Nat.eqb_spec x p) as [->|N2].
        -- split; [assumption|]. rewrite QUE, Nat.eqb_refl. reflexivity.
        -- destruct (ok_lookup n q H x Hx) as [A1 A2]. split; [assumption|]. rewrite QUE.
           destruct (Nat.eqb_spec (pos q x) j) as [E|E]; [exfalso; apply N1; unfold b; rewrite <- E; now symmetry|].
           destruct (Nat.eqb_spec (pos q x) (pos q p)) as [E'|E']; [exfalso; apply N2; now apply (pos_inj n q)|].
           assumption.
  - rewrite POS. destruct (Nat.eqb_spec p b) as [E|E]; [symmetry; apply Ebp; congruence|]. now rewrite Nat.eqb_refl.
  - intros x Hx Nx E. rewrite POS. assert (x = b) as ->; [|now rewrite Nat.eqb_refl].
    apply (pos_inj n q); auto. congruence.
  - intros x Hx Nx E. rewrite POS. destruct (Nat.eqb_spec x b) as [->|N1]; [congruence|].
    destruct (Nat.eqb_spec x p); [congruence|reflexivity].
Qed.

(** The effect of enqueueing one propagator. *)
Lemma enqueue_spec n q p : pq_ok n q -> p < n ->
  let q' := enqueue_if_idle q p in
  pq_ok n q' /\ q_begin q' = q_begin q /\ q_idle q' = q_idle q /\ q_end q <= q_end q' /\
  (forall x, x < n -> pos q x < q_end q -> pos q' x = pos q x) /\
  (forall x, x < n -> q_idle q <= pos q x -> pos q' x = pos q x) /\
  (forall x, x < n -> (pos q' x < q_idle q <-> pos q x < q_idle q)) /\
  (forall x, x < n -> (pos q' x < q_end q' <-> pos q x < q_end q \/ (x = p /\ pos q x < q_idle q))).
Proof.
  intros H Hp q'. unfold q', enqueue_if_idle. fold (pos q p).
  destruct (Nat.leb_spec (q_end q) (pos q p)) as [L1|L1]; cbn [andb].
  - destruct (Nat.ltb_spec (pos q p) (q_idle q)) as [L2|L2].
    + pose proof (ok_order n q H) as O.
      destruct (swap_places n q p (q_end q) (q_begin q) (S (q_end q)) (q_idle q) H Hp) as (A & B & C & D); try lia.
      set (q2 := mk_pq _ _ _ _ _) in *.
      split; [exact A|]. split; [reflexivity|]. split; [reflexivity|]. split; [cbn; lia|].
      split; [|split; [|split]].
      * intros x Hx Lx. destruct (Nat.eq_dec x p) as [->|N]; [lia|]. apply D; auto. lia.
      * intros x Hx Lx. destruct (Nat.eq_dec x p) as [->|N]; [lia|]. apply D; auto. lia.
      * intros x Hx. destruct (Nat.eq_dec x p) as [->|N]; [rewrite B; lia|].
        destruct (Nat.eq_dec (pos q x) (q_end q)) as [E|E]; [rewrite (C x Hx N E); lia|rewrite (D x Hx N E); lia].
      * intros x Hx. cbn [q_end q2]. destruct (Nat.eq_dec x p) as [->|N]; [rewrite B; cbn; lia|].
        destruct (Nat.eq_dec (pos q x) (q_end q)) as [E|E].
        -- rewrite (C x Hx N E), E. cbn. split; intros; [|lia].
           exfalso. assert (pos q p = q_end q) by lia. apply N. apply (pos_inj n q); auto. congruence.
        -- rewrite (D x Hx N E). cbn. lia.
    + split; [assumption|]. split; [reflexivity|]. split; [reflexivity|]. split; [lia|].
      split; [auto|]. split; [auto|]. split; [tauto|]. intros x Hx. split; [auto|]. intros [|[-> ?]]; lia.
  - split; [assumption|]. split; [reflexivity|]. split; [reflexivity|]. split; [lia|].
    split; [auto|]. split; [auto|]. split; [tauto|]. intros x Hx. split; [auto|]. intros [|[-> ?]]; lia.
Qed.

Lemma enqueue_all_spec n ps : forall q, pq_ok n q -> Forall (fun p => p < n) ps ->
  let q' := enqueue_all ps q in
  pq_ok n q' /\ q_begin q' = q_begin q /\ q_idle q' = q_idle q /\ q_end q <= q_end q' /\
  (forall x, x < n -> pos q x < q_end q -> pos q' x = pos q x) /\
  (forall x, x < n -> q_idle q <= pos q x -> pos q' x = pos q x) /\
  (forall x, x < n -> (pos q' x < q_idle q <-> pos q x < q_idle q)) /\
  (forall x, x < n -> (pos q' x < q_end q' <-> pos q x < q_end q \/ (In x ps /\ pos q x < q_idle q))).
Proof.
  induction ps as [|p ps IH]; intros q H F; cbn [enqueue_all fold_left].
  - repeat split; auto; try tauto; try apply H; intros; simpl in *; tauto.
  - inversion F as [|? ? Hp Fp]; subst.
    destruct (enqueue_spec n q p H Hp) as (A1 & A2 & A3 & A4 & A5 & A6 & A7 & A8).
    destruct (IH (enqueue_if_idle q p) A1 Fp) as (B1 & B2 & B3 & B4 & B5 & B6 & B7 & B8).
    unfold enqueue_all in *. set (q1 := enqueue_if_idle q p) in *. set (q2 := fold_left enqueue_if_idle ps q1) in *.
    split; [assumption|]. split; [congruence|]. split; [congruence|]. split; [lia|].
    split; [|split; [|split]].
    + intros x Hx L. rewrite B5; auto. apply A8; auto.
    + intros x Hx L. rewrite B6, A6; auto. rewrite A6; auto. lia.
    + intros x Hx. specialize (A7 x Hx). specialize (B7 x Hx). rewrite A3 in B7. tauto.
    + intros x Hx. specialize (A7 x Hx). specialize (A8 x Hx). specialize (B8 x Hx). rewrite A3 in B8. simpl.
      rewrite B8, A8, A7. intuition congruence.
Qed.

(** Disabling. *)
Lemma disable_spec n q p : pq_ok n q -> p < n -> q_end q < q_idle q \/ q_begin q = q_end q -> pos q p < q_idle q ->
  let q0 := mk_pq (q_queue q) (q_lookup q) 0 0 (q_idle q) in
  let q' := disable_one q p in
  pq_ok n (rewind q') /\ q_idle q = S (q_idle q') /\
  (forall x, x < n -> q_idle q <= pos q x -> pos q' x = pos q x) /\
  (forall x, x < n -> (pos q' x < q_idle q <-> pos q x < q_idle q)) /\
  (forall x, x < n -> (pos q' x < q_idle q' <-> pos q x < q_idle q /\ x <> p)).
Proof.
  intros H Hp _ Hi q0 q'. pose proof (ok_order n q H) as O.
  assert (J : Nat.pred (q_idle q) < n) by lia.
  destruct (swap_places n q p (Nat.pred (q_idle q)) 0 0 (Nat.pred (q_idle q)) H Hp J) as (A & B & C & D); try lia.
  unfold q', disable_one. fold (pos q p).
  split; [exact A|]. split; [cbn; lia|].
  assert (POS : forall x, pos (mk_pq (swap_nth (q_queue q) (pos q p) (Nat.pred (q_idle q)))
        (swap_nth (q_lookup q) p (nth (Nat.pred (q_idle q)) (q_queue q) 0)) (q_begin q) (q_end q) (Nat.pred (q_idle q))) x =
     pos (mk_pq (swap_nth (q_queue q) (pos q p) (Nat.pred (q_idle q)))
        (swap_nth (q_lookup q) p (nth (Nat.pred (q_idle q)) (q_queue q) 0)) 0 0 (Nat.pred (q_idle q))) x) by reflexivity.
  cbn [q_idle]. split; [|split]; intros x Hx; rewrite POS.
  - intro L. destruct (Nat.eq_dec x p) as [->|N]; [lia|]. apply D; auto. lia.
  - destruct (Nat.eq_dec x p) as [->|N]; [rewrite B; lia|].
    destruct (Nat.eq_dec (pos q x) (Nat.pred (q_idle q))) as [E|E]; [rewrite (C x Hx N E); lia|rewrite (D x Hx N E); lia].
  - destruct (Nat.eq_dec x p) as [->|N]; [rewrite B; lia|].
    destruct (Nat.eq_dec (pos q x) (Nat.pred (q_idle q))) as [E|E].
    + rewrite (C x Hx N E). split; [intro; split; [lia|assumption]|]. intros _.
      enough (pos q p <> pos q x) by lia. intro E'. apply N. symmetry. now apply (pos_inj n q).
    + rewrite (D x Hx N E). split; [intro; split; [lia|assumption]|]. lia.
Qed.

Lemma rewind_ok n q : pq_ok n q -> pq_ok n (rewind q).
Proof. intros [A B C D E]. constructor; cbn; auto. lia. Qed.

Lemma pos_rewind q x : pos (rewind q) x = pos q x.
Proof. reflexivity. Qed.

Lemma rewind_disable q p : rewind (disable_one q p) = rewind (disable_one (rewind q) p).
Proof. reflexivity. Qed.

Lemma rewind_disable_all ps : forall q, rewind (fold_left disable_one ps q) = rewind (fold_left disable_one ps (rewind q)).
Proof.
  induction ps as [|p ps IH]; intro q; simpl; [reflexivity|].
  rewrite IH, rewind_disable, <- IH. reflexivity.
Qed.

Lemma disable_all_spec n ps : forall q, pq_ok n q -> Forall (fun p => p < n) ps -> NoDup ps ->
  Forall (fun p => pos q p < q_idle q) ps ->
  let q' := rewind (fold_left disable_one ps q) in
  pq_ok n q' /\ q_idle q' <= q_idle q /\
  (forall x, x < n -> q_idle q <= pos q x -> pos q' x = pos q x) /\
  (forall x, x < n -> (pos q' x < q_idle q <-> pos q x < q_idle q)) /\
  (forall x, x < n -> (pos q' x < q_idle q' <-> pos q x < q_idle q /\ ~ In x ps)).
Proof.
  induction ps as [|p ps IH]; intros q H F ND I; cbn [fold_left].
  - split; [now apply rewind_ok|]. cbn. repeat split; auto; tauto.
  - inversion F as [|? ? Hp Fp]; subst. inversion ND as [|? ? Np NDp]; subst. inversion I as [|? ? Ip Iq]; subst.
    destruct (disable_spec n (rewind q) p (rewind_ok n q H) Hp) as (A1 & A2 & A3 & A4 & A5);
      [right; reflexivity|exact Ip|].
    rewrite rewind_disable_all, rewind_disable.
    set (q1 := disable_one (rewind q) p) in *. cbn [q_idle rewind] in A2, A3, A4, A5.
    destruct (IH (rewind q1) A1 Fp NDp) as (B1 & B2 & B3 & B4 & B5).
    { apply Forall_forall. intros x Hx. cbn [rewind q_idle]. rewrite pos_rewind. apply A5.
      - rewrite Forall_forall in Fp. auto.
      - split; [rewrite Forall_forall in Iq; now apply Iq|]. intros ->. contradiction. }
    rewrite <- rewind_disable_all in *.
    change (q_idle (rewind q1)) with (q_idle q1) in B2, B3, B4, B5.
    set (q2 := rewind (fold_left disable_one ps q1)) in *.
    change (pos (rewind q)) with (pos q) in *. change (pos (rewind q1)) with (pos q1) in *.
    split; [assumption|]. split; [lia|]. split; [|split].
    + intros x Hx L. rewrite B3, A3; auto. rewrite A3; auto. lia.
    + intros x Hx. specialize (A4 x Hx). specialize (B4 x Hx). specialize (B3 x Hx).
      destruct (le_lt_dec (q_idle q1) (pos q1 x)); [rewrite B3 by assumption; assumption|].
      split; intros; [|lia]. apply A4. lia.
    + intros x Hx. rewrite (B5 x Hx), (A5 x Hx). simpl. intuition congruence.
Qed.

(** Building the queue from scratch. *)
Lemma write_lookup_length queue : forall i l, length (write_lookup i queue l) = length l.
Proof. induction queue; intros; simpl; auto. rewrite IHqueue. apply set_nth_length. Qed.

Lemma write_lookup_other queue : forall i l x, ~ In x queue -> nth x (write_lookup i queue l) 0 = nth x l 0.
Proof.
  induction queue; intros i l x N; simpl in *; [reflexivity|].
  rewrite IHqueue by tauto. apply nth_set_nth_other. intuition.
Qed.

Lemma write_lookup_nth queue : forall i l, NoDup queue -> Forall (fun p => p < length l) queue ->
  forall k, k < length queue -> nth (nth k queue 0) (write_lookup i queue l) 0 = i + k.
Proof.
  induction queue as [|a r IH]; intros i l ND F k Hk; simpl in Hk; [lia|].
  inversion ND; inversion F; subst. destruct k; simpl.
  - rewrite write_lookup_other by assumption. rewrite nth_set_nth by assumption. rewrite Nat.eqb_refl. lia.
  - rewrite IH; try assumption; try lia.
    apply Forall_forall. intros x Hx. rewrite set_nth_length. rewrite Forall_forall in *. auto.
Qed.

Lemma nodup_lt_exists l n : NoDup l -> length l = n -> Forall (fun p => p < n) l -> forall p, p < n -> In p l.
Proof.
  intros ND L F p Hp. assert (I : incl (seq 0 n) l).
  { apply NoDup_length_incl; [assumption|rewrite seq_length; lia|]. intros x Hx. apply in_seq.
    rewrite Forall_forall in F. specialize (F x Hx). lia. }
  apply I. apply in_seq. lia.
Qed.

Lemma perm_pq n queue b e i : NoDup queue -> length queue = n -> Forall (fun p => p < n) queue ->
  b <= e -> e <= i -> i <= n ->
  pq_ok n (mk_pq queue (write_lookup 0 queue (repeat 0 n)) b e i) /\
  forall k, k < n -> pos (mk_pq queue (write_lookup 0 queue (repeat 0 n)) b e i) (nth k queue 0) = k.
Proof.
  intros ND L F O1 O2 O3.
  assert (P : forall k, k < n -> nth (nth k queue 0) (write_lookup 0 queue (repeat 0 n)) 0 = k).
  { intros k Hk. rewrite write_lookup_nth; [lia|assumption| |lia]. rewrite repeat_length. assumption. }
  split; [|exact P]. constructor; cbn [q_queue q_lookup q_begin q_end q_idle pos].
  - assumption.
  - now rewrite write_lookup_length, repeat_length.
  - lia.
  - intros k Hk. split; [|now apply P]. rewrite Forall_forall in F. apply F, nth_In. lia.
  - intros p Hp. pose proof (nodup_lt_exists queue n ND L F p Hp) as I.
    apply (In_nth _ _ 0) in I. destruct I as (k & Hk & E). unfold pos; cbn.
    rewrite <- E, P by lia. split; [lia|reflexivity].
Qed.

Lemma filter_split_length {X} (f : X -> bool) l : length (filter (fun x => negb (f x)) l) + length (filter f l) = length l.
Proof. induction l; simpl; auto. destruct (f a); simpl; lia. Qed.

Lemma NoDup_app_disj {X} (a b : list X) : NoDup a -> NoDup b -> (forall x, In x a -> In x b -> False) -> NoDup (a ++ b).
Proof.
  induction a; intros A B D; simpl; auto. inversion A; subst. constructor.
  - rewrite in_app_iff. intros [|]; [contradiction|]. apply (D a); simpl; auto.
  - apply IHa; auto. intros x Hx. apply D. simpl; auto.
Qed.

Lemma rebuild_spec n disabled :
  let q := rebuild n disabled in
  pq_ok n q /\ q_begin q = 0 /\ q_end q = q_idle q /\
  forall p, p < n -> (pos q p < q_idle q <-> disabled p = false).
Proof.
  unfold rebuild. set (en := filter (fun p => negb (disabled p)) (seq 0 n)).
  set (di := filter disabled (seq 0 n)).
  assert (L : length en + length di = n) by (unfold en, di; rewrite filter_split_length; apply seq_length).
  assert (ND : NoDup (en ++ di)).
  { apply NoDup_app_disj; try (apply NoDup_filter, seq_NoDup). intros x A B.
    apply filter_In in A, B. destruct A as [_ A], B as [_ B]. rewrite B in A. discriminate. }
  assert (F : Forall (fun p => p < n) (en ++ di)).
  { apply Forall_forall. intros x Hx. apply in_app_iff in Hx.
    destruct Hx as [Hx|Hx]; apply filter_In in Hx; destruct Hx as [Hx _]; apply in_seq in Hx; lia. }
  destruct (perm_pq n (en ++ di) 0 (length en) (length en) ND) as [P Q]; try assumption; try lia;
    [rewrite app_length; assumption|].
  cbv zeta. split; [exact P|]. split; [reflexivity|]. split; [reflexivity|].
  intros p Hp. set (q := mk_pq _ _ _ _ _) in *. destruct (ok_lookup n q P p Hp) as [A B].
  change (q_queue q) with (en ++ di) in B. cbn [q_idle q]. split; intro H.
  - rewrite app_nth1 in B by assumption. assert (I : In p en) by (rewrite <- B; now apply nth_In).
    apply filter_In in I. now apply negb_true_iff.
  - destruct (le_lt_dec (length en) (pos q p)) as [G|G]; [|assumption].
    rewrite app_nth2 in B by assumption. assert (I : In p di) by (rewrite <- B; apply nth_In; lia).
    apply filter_In in I. destruct I. congruence.
Qed.
