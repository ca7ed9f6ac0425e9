(** Proofs about what the difference logic propagator remembers. *)
From Coq Require Import ZArith List Bool Lia.
From Verif Require Import Difference DifferenceSpec DifferencePotentialProofs DifferenceBoundsProofs DifferenceSession DifferenceSessionSpec.
Import ListNotations.
Local Open Scope Z_scope.

(** ** The trail *)

Definition same (x y : memory) : Prop :=
  (forall v, m_do_lb x v = m_do_lb y v) /\ (forall v, m_do_ub_neg x v = m_do_ub_neg y v) /\ m_was_active x = m_was_active y /\ m_trail x = m_trail y.

Lemma same_refl : forall x, same x x.
Proof. intros x. unfold same. auto. Qed.

Lemma same_sym : forall x y, same x y -> same y x.
Proof. intros x y (A & B & C & D). unfold same. auto. Qed.

Lemma same_trans : forall x y z, same x y -> same y z -> same x z.
Proof. intros x y z (A & B & C & D) (A' & B' & C' & D'). split; [intros; rewrite A; auto|]. split; [intros; rewrite B; auto|]. split; congruence. Qed.

Lemma undo_same : forall en rest x y, same x y -> same (undo en rest x) (undo en rest y).
Proof.
  intros en rest x y (A & B & C & D). destruct en as [v z|v z|e b]; unfold same, undo; cbn [m_do_lb m_do_ub_neg m_was_active m_trail].
  - split; [intros u; unfold set; destruct (Nat.eqb u v); auto|auto].
  - split; [auto|]. split; [intros u; unfold set; destruct (Nat.eqb u v); auto|auto].
  - split; [auto|]. split; [auto|]. split; congruence.
Qed.

Lemma unwind_same : forall k x y, same x y -> same (unwind k x) (unwind k y).
Proof.
  induction k as [|k IH]; intros x y Sx; [assumption|]. cbn [unwind]. assert (T : m_trail x = m_trail y) by apply Sx. rewrite T.
  destruct (m_trail y) as [|en rest]; [assumption|]. apply IH. now apply undo_same.
Qed.

Lemma unwind_to_same : forall k x y, same x y -> same (unwind_to k x) (unwind_to k y).
Proof. intros k x y Sx. unfold unwind_to. assert (T : m_trail x = m_trail y) by apply Sx. rewrite T. now apply unwind_same. Qed.

Lemma undo_trail : forall en rest m, m_trail (undo en rest m) = rest.
Proof. intros [v z|v z|e b] rest m; reflexivity. Qed.

Lemma unwind_length : forall k m, length (m_trail (unwind k m)) = (length (m_trail m) - k)%nat.
Proof.
  induction k as [|k IH]; intros m; [cbn [unwind]; lia|]. cbn [unwind]. destruct (m_trail m) as [|en rest] eqn:E; [rewrite E; reflexivity|]. rewrite IH, undo_trail. cbn [length]. lia.
Qed.

Lemma unwind_to_length : forall k m, (k <= length (m_trail m))%nat -> length (m_trail (unwind_to k m)) = k.
Proof. intros k m L. unfold unwind_to. rewrite unwind_length. lia. Qed.

Lemma unwind_add : forall a b m, unwind (a + b) m = unwind b (unwind a m).
Proof.
  induction a as [|a IH]; intros b m; [reflexivity|]. cbn [Nat.add unwind]. destruct (m_trail m) as [|en rest] eqn:E; [|apply IH].
  destruct b as [|b]; [reflexivity|]. cbn [unwind]. now rewrite E.
Qed.

Lemma unwind_to_to : forall j k m, (j <= k)%nat -> (k <= length (m_trail m))%nat -> unwind_to j (unwind_to k m) = unwind_to j m.
Proof.
  intros j k m J K. unfold unwind_to at 1. rewrite (unwind_to_length k m K). unfold unwind_to. rewrite <- unwind_add. f_equal. lia.
Qed.

Lemma unwind_keeps : forall k m, m_potential (unwind k m) = m_potential m /\ m_neg_potential (unwind k m) = m_neg_potential m /\ m_repair (unwind k m) = m_repair m /\ m_bounds (unwind k m) = m_bounds m.
Proof.
  induction k as [|k IH]; intros m; [auto|]. cbn [unwind]. destruct (m_trail m) as [|en rest]; [auto|]. destruct (IH (undo en rest m)) as (A & B & C & D). rewrite A, B, C, D. destruct en; auto.
Qed.

Definition extends (m0 m : memory) : Prop := (length (m_trail m0) <= length (m_trail m))%nat /\ same (unwind_to (length (m_trail m0)) m) m0.

Lemma unwind_to_all : forall m, unwind_to (length (m_trail m)) m = m.
Proof. intros m. unfold unwind_to. now rewrite Nat.sub_diag. Qed.

Lemma extends_same : forall m0 m, same m m0 -> extends m0 m.
Proof. intros m0 m Sm. assert (T : m_trail m = m_trail m0) by apply Sm. unfold extends. rewrite <- T, unwind_to_all. auto. Qed.

Lemma extends_at : forall m0 m k, extends m0 m -> (k <= length (m_trail m0))%nat -> same (unwind_to k m) (unwind_to k m0).
Proof. intros m0 m k [L Sm] K. rewrite <- (unwind_to_to k (length (m_trail m0)) m K L). now apply unwind_to_same. Qed.

Lemma extends_trans : forall a b c, extends a b -> extends b c -> extends a c.
Proof.
  intros a b c [Lab Sab] Hbc. split; [destruct Hbc; lia|]. apply same_trans with (unwind_to (length (m_trail a)) b); [|assumption]. now apply extends_at.
Qed.

Lemma extends_push : forall en m m', m_trail m' = en :: m_trail m -> same (undo en (m_trail m) m') m -> extends m m'.
Proof.
  intros en m m' T Sm. split; [rewrite T; cbn [length]; lia|]. unfold unwind_to. rewrite T. cbn [length]. replace (S (length (m_trail m)) - length (m_trail m))%nat with 1%nat by lia. cbn [unwind]. now rewrite T.
Qed.

Lemma set_back : forall (f : nat -> Z) v x u, set (set f v x) v (f v) u = f u.
Proof. intros f v x u. unfold set. destruct (Nat.eqb u v) eqn:E; [apply Nat.eqb_eq in E; now subst|reflexivity]. Qed.

Lemma raise_lower : forall w l m g t,
  fold_left (fun '(g, t) v => if g v <? b_settled_bound w v then (set g v (b_settled_bound w v), LowerGate v (g v) :: t) else (g, t)) l (m_do_lb m, m_trail m) = (g, t) ->
  g = fold_left (fun g v => if g v <? b_settled_bound w v then set g v (b_settled_bound w v) else g) l (m_do_lb m) /\
  extends m (mk_memory (m_potential m) (m_neg_potential m) g (m_do_ub_neg m) (m_was_active m) t (m_repair m) (m_bounds m)).
Proof.
  intros w. induction l as [|v r IH]; intros m g t E; cbn [fold_left] in *.
  - injection E as <- <-. split; [reflexivity|]. apply extends_same. unfold same. auto.
  - destruct (m_do_lb m v <? b_settled_bound w v) eqn:Q; [|now apply IH].
    destruct (IH (mk_memory (m_potential m) (m_neg_potential m) (set (m_do_lb m) v (b_settled_bound w v)) (m_do_ub_neg m) (m_was_active m) (LowerGate v (m_do_lb m v) :: m_trail m) (m_repair m) (m_bounds m)) g t E) as [G X].
    split; [exact G|]. eapply extends_trans; [|exact X]. apply extends_push with (LowerGate v (m_do_lb m v)); [reflexivity|].
    unfold same, undo. cbn [m_do_lb m_do_ub_neg m_was_active m_trail]. split; [intros u; apply set_back|auto].
Qed.

Lemma raise_upper : forall w l m g t,
  fold_left (fun '(g, t) v => if g v <? b_settled_bound w v then (set g v (b_settled_bound w v), UpperGate v (g v) :: t) else (g, t)) l (m_do_ub_neg m, m_trail m) = (g, t) ->
  g = fold_left (fun g v => if g v <? b_settled_bound w v then set g v (b_settled_bound w v) else g) l (m_do_ub_neg m) /\
  extends m (mk_memory (m_potential m) (m_neg_potential m) (m_do_lb m) g (m_was_active m) t (m_repair m) (m_bounds m)).
Proof.
  intros w. induction l as [|v r IH]; intros m g t E; cbn [fold_left] in *.
  - injection E as <- <-. split; [reflexivity|]. apply extends_same. unfold same. auto.
  - destruct (m_do_ub_neg m v <? b_settled_bound w v) eqn:Q; [|now apply IH].
    destruct (IH (mk_memory (m_potential m) (m_neg_potential m) (m_do_lb m) (set (m_do_ub_neg m) v (b_settled_bound w v)) (m_was_active m) (UpperGate v (m_do_ub_neg m v) :: m_trail m) (m_repair m) (m_bounds m)) g t E) as [G X].
    split; [exact G|]. eapply extends_trans; [|exact X]. apply extends_push with (UpperGate v (m_do_ub_neg m v)); [reflexivity|].
    unfold same, undo. cbn [m_do_lb m_do_ub_neg m_was_active m_trail]. split; [auto|]. split; [intros u; apply set_back|auto].
Qed.

(** ** Flags *)

Lemma replace_length : forall l e b, length (replace l e b) = length l.
Proof. induction l as [|x r IH]; intros [|e] b; cbn [replace length]; auto. Qed.

Lemma replace_same : forall l e b, (e < length l)%nat -> nth e (replace l e b) false = b.
Proof. induction l as [|x r IH]; intros [|e] b L; cbn [replace nth length] in *; try lia; auto. apply IH. lia. Qed.

Lemma replace_other : forall l e b e', e' <> e -> nth e' (replace l e b) false = nth e' l false.
Proof. induction l as [|x r IH]; intros [|e] b [|e'] N; cbn [replace nth]; auto; try congruence. Qed.

Lemma replace_back : forall l e c b, (e < length l)%nat -> nth e l false = b -> replace (replace l e c) e b = l.
Proof. induction l as [|x r IH]; intros [|e] c b L E; cbn [replace nth length] in *; try lia; [now subst|]. f_equal. apply IH; [lia|assumption]. Qed.

Lemma arc_active_nth : forall l e, (e < length l)%nat -> arc_active l e = nth e l false.
Proof. intros [|x r] e L; [cbn [length] in L; lia|reflexivity]. Qed.

Definition sub (arcs : list arc) (w1 w2 : list bool) : Prop := forall e, (e < length arcs)%nat -> arc_active w1 e = true -> arc_active w2 e = true.

Lemma sub_arc : forall arcs w1 w2 e a, sub arcs w1 w2 -> active_arc arcs w1 e a -> active_arc arcs w2 e a.
Proof. intros arcs w1 w2 e a Sb A. destruct (active_arc_at _ _ _ _ A) as (L & B & <-). apply arc_at_active; auto. Qed.

Lemma sub_potential : forall arcs w1 w2 p, sub arcs w1 w2 -> potential arcs w2 p -> potential arcs w1 p.
Proof. intros arcs w1 w2 p Sb P e a A. apply (P e a). now apply (sub_arc arcs w1 w2). Qed.

Lemma sub_solves : forall arcs w1 w2 x, sub arcs w1 w2 -> solves arcs w2 x -> solves arcs w1 x.
Proof. intros arcs w1 w2 p Sb P e a A. apply (P e a). now apply (sub_arc arcs w1 w2). Qed.

Lemma sub_trans : forall arcs a b c, sub arcs a b -> sub arcs b c -> sub arcs a c.
Proof. intros arcs a b c H K e L A. apply K; auto. Qed.

(** ** The arcs that have changed *)
Section Changing.
Variables (arcs : list arc) (flags : list bool) (m0 : memory).
Hypothesis Lflags : length flags = length arcs.

Definition at_flag (l : list bool) (e : nat) : Prop := nth e l false = true.

Record changed_ok (l : list nat) (m : memory) (fl fu : nat -> bool) (moved : bool) : Prop := mk_changed {
  c_extends : extends m0 m; c_clean : clean_repair (m_repair m); c_bounds : m_bounds m = m_bounds m0; c_neg : m_neg_potential m = m_neg_potential m0;
  c_lb : m_do_lb m = m_do_lb m0; c_ub : m_do_ub_neg m = m_do_ub_neg m0; c_length : length (m_was_active m) = length arcs;
  c_todo : forall e, In e l -> nth e (m_was_active m) false = false;
  c_done : forall e, (e < length arcs)%nat -> ~ In e l -> nth e (m_was_active m) false = nth e flags false;
  c_forced : forall e, (e < length arcs)%nat -> at_flag (m_was_active m) e -> at_flag (m_was_active m0) e \/ (fl (a_from (arc_at arcs e)) = true /\ fu (a_to (arc_at arcs e)) = true);
  c_more : forall e, (e < length arcs)%nat -> at_flag (m_was_active m0) e -> at_flag (m_was_active m) e;
  c_potential : potential arcs (m_was_active m) (m_potential m);
  c_still : moved = false -> forall e, (e < length arcs)%nat -> at_flag (m_was_active m) e -> at_flag (m_was_active m0) e }.

Lemma change_cycle : forall l m, fold_left (change_arc arcs flags) l (Cycle m) = Cycle m.
Proof. induction l as [|e r IH]; intros m; [reflexivity|]. apply IH. Qed.

Lemma change_arcs_ok : forall l m fl fu moved, NoDup l -> (forall e, In e l -> (e < length arcs)%nat /\ nth e flags false = true) -> length (m_was_active m0) = length arcs -> changed_ok l m fl fu moved ->
  match fold_left (change_arc arcs flags) l (Going m fl fu moved) with
  | Going m' fl' fu' moved' => changed_ok [] m' fl' fu' moved'
  | Cycle m' => extends m0 m' /\ clean_repair (m_repair m') /\ m_bounds m' = m_bounds m0 /\ m_neg_potential m' = m_neg_potential m0 /\
      potential arcs (m_was_active m0) (m_potential m') /\ ~ exists x, solves arcs flags x
  | Stuck => False
  end.
Proof.
  induction l as [|e r IH]; intros m fl fu moved ND Hl L0 C; [exact C|]. cbn [fold_left].
  destruct (Hl e (or_introl eq_refl)) as [Le Fe]. apply NoDup_cons_iff in ND. destruct ND as [Ne ND].
  unfold change_arc at 2. rewrite Fe. destruct C.
  assert (Lw : (e < length (m_was_active m))%nat) by lia.
  assert (Now : nth e (m_was_active m) false = false) by (apply c_todo0; now left).
  set (was := replace (m_was_active m) e true).
  assert (Lw' : length was = length arcs) by (unfold was; now rewrite replace_length).
  assert (Aw : forall e', (e' < length arcs)%nat -> e' <> e -> nth e' was false = nth e' (m_was_active m) false) by (intros e' _ N; now apply replace_other).
  assert (Ae : nth e was false = true) by now apply replace_same.
  assert (Act : active_arc arcs was e (arc_at arcs e)) by (apply arc_at_active; [assumption|]; rewrite arc_active_nth by lia; assumption).
  destruct (repair_correct arcs was (m_potential m) e _ (m_repair m) Act) as (ok & p & w & E & Cw & T & F).
  { intros e' b A N. destruct (active_arc_at _ _ _ _ A) as (L' & B & <-). apply (c_potential0 e'). apply arc_at_active; [assumption|]. rewrite arc_active_nth in * by lia. now rewrite <- Aw. }
  { assumption. }
  rewrite E.
  assert (X : extends m0 (mk_memory p (m_neg_potential m) (m_do_lb m) (m_do_ub_neg m) was (Activation e false :: m_trail m) w (m_bounds m))).
  { apply extends_trans with m; [assumption|]. apply extends_push with (Activation e false); [reflexivity|]. unfold same, undo. cbn [m_do_lb m_do_ub_neg m_was_active m_trail].
    split; [auto|]. split; [auto|]. split; [|reflexivity]. now apply replace_back. }
  destruct ok.
  - apply IH; [assumption|intros e' H; apply Hl; now right|assumption|].
    constructor; cbn [m_potential m_neg_potential m_do_lb m_do_ub_neg m_was_active m_trail m_repair m_bounds]; auto.
    + intros e' H. destruct (Hl e' (or_intror H)) as [L' _]. rewrite Aw; [apply c_todo0; now right|assumption|congruence].
    + intros e' L' N. destruct (Nat.eq_dec e' e) as [->|Nn]; [congruence|]. rewrite Aw by assumption. apply c_done0; [assumption|]. intros [?|?]; [congruence|contradiction].
    + intros e' L' A. destruct (Nat.eq_dec e' e) as [->|Nn]; [right; now rewrite !set_same|]. unfold at_flag in *. rewrite Aw in A by assumption. destruct (c_forced0 e' L' A) as [?|[P Q]]; [now left|right].
      unfold set. rewrite P, Q. destruct (Nat.eqb _ _); destruct (Nat.eqb _ _); auto.
    + intros e' L' A. destruct (Nat.eq_dec e' e) as [->|Nn]; [exact Ae|]. unfold at_flag. rewrite Aw by assumption. now apply c_more0.
    + discriminate.
  - rewrite change_cycle. cbn [m_potential m_neg_potential m_do_lb m_do_ub_neg m_was_active m_trail m_repair m_bounds]. destruct (F eq_refl) as [-> N].
    split; [assumption|]. split; [assumption|]. split; [assumption|]. split; [assumption|]. split.
    + apply (sub_potential arcs _ (m_was_active m)); [|assumption]. intros e' L' A. rewrite arc_active_nth in * by lia. now apply c_more0.
    + intros [x Sx]. apply N. exists x. apply (sub_solves arcs _ flags); [|assumption]. intros e' L' A. rewrite arc_active_nth in * by lia.
      destruct (Nat.eq_dec e' e) as [->|Nn]; [assumption|]. rewrite Aw in A by assumption. destruct (in_dec Nat.eq_dec e' (e :: r)) as [I'|I']; [rewrite (c_todo0 e' I') in A; discriminate|]. now rewrite <- c_done0.
Qed.
End Changing.

(** ** The passes *)
Section Passes.
Variables (n : nat) (arcs : list arc) (flags : list bool) (lb ub : nat -> Z) (fl fu : nat -> bool) (m : memory).
Hypothesis Hn : nodes_below n arcs.
Hypothesis Hpot : potential arcs flags (m_potential m).
Hypothesis Hneg : potential arcs flags (fun v => - m_neg_potential m v).
Hypothesis Hlb : forall v, (v < n)%nat -> m_do_lb m v <= lb v.
Hypothesis Hub : forall v, (v < n)%nat -> m_do_ub_neg m v <= ub v.
Hypothesis Hfl : forall e a, active_arc arcs flags e a -> fl (a_from a) = false -> m_do_lb m (a_from a) - a_d a <= m_do_lb m (a_to a).
Hypothesis Hfu : forall e a, active_arc arcs flags e a -> fu (a_to a) = false -> m_do_ub_neg m (a_to a) - a_d a <= m_do_ub_neg m (a_from a).
Hypothesis Hclean : clean_bounds (m_bounds m).

Lemma passes_ok : forall cut, match passes n arcs flags lb ub fl fu cut m with
  | Woke m' lower upper => complete n arcs flags lb ub (Woke m' lower upper) /\ extends m m' /\
      m_potential m' = m_potential m /\ m_neg_potential m' = m_neg_potential m /\ m_was_active m' = m_was_active m /\ m_repair m' = m_repair m /\ clean_bounds (m_bounds m') /\
      (forall v, (v < n)%nat -> m_do_lb m' v <= after lb lower v) /\ (forall v, (v < n)%nat -> m_do_ub_neg m' v <= after ub upper v) /\
      closed true arcs flags (m_do_lb m') /\ closed false arcs flags (m_do_ub_neg m')
  | Emptied m' => cut <> None /\ extends m m' /\ m_potential m' = m_potential m /\ m_neg_potential m' = m_neg_potential m /\ m_repair m' = m_repair m /\ clean_bounds (m_bounds m')
  | _ => False
  end.
Proof.
  intros cut. unfold passes.
  destruct (bounds_correct n true arcs flags (m_potential m) lb (m_do_lb m) fl (m_bounds m) Hn Hpot Hlb Hfl Hclean) as (w1 & E1 & C1 & J1 & T1 & B1 & _ & K1). rewrite E1.
  assert (Cut1 : match Emptied (mk_memory (m_potential m) (m_neg_potential m) (m_do_lb m) (m_do_ub_neg m) (m_was_active m) (m_trail m) (m_repair m) w1) with Emptied m' => extends m m' /\ m_potential m' = m_potential m /\ m_neg_potential m' = m_neg_potential m /\ m_repair m' = m_repair m /\ clean_bounds (m_bounds m') | _ => False end).
  { cbn [m_potential m_neg_potential m_repair m_bounds]. split; [apply extends_same; unfold same; auto|]. auto. }
  destruct (bounds_correct n false arcs flags (m_neg_potential m) ub (m_do_ub_neg m) fu w1 Hn Hneg Hub Hfu C1) as (w2 & E2 & C2 & J2 & T2 & B2 & _ & K2).
  unfold raise_gates. destruct (fold_left _ (b_settle_order w1) (m_do_lb m, m_trail m)) as [g1 t1] eqn:R1. destruct (raise_lower w1 _ m g1 t1 R1) as [G1 X1]. rewrite E2.
  set (ma := mk_memory (m_potential m) (m_neg_potential m) g1 (m_do_ub_neg m) (m_was_active m) t1 (m_repair m) (m_bounds m)) in *.
  destruct (fold_left _ (b_settle_order w2) (m_do_ub_neg m, t1)) as [g2 t2] eqn:R2. destruct (raise_upper w2 _ ma g2 t2 R2) as [G2 X2].
  cbn [m_do_ub_neg ma] in G2. fold (next_gate w1 (m_do_lb m)) in G1. fold (next_gate w2 (m_do_ub_neg m)) in G2.
  assert (Woken : complete n arcs flags lb ub (Woke (mk_memory (m_potential m) (m_neg_potential m) g1 g2 (m_was_active m) t2 (m_repair m) w2) (inferred w1 lb) (inferred w2 ub))) by (cbn [complete]; auto).
  destruct cut as [[|]|].
  - split; [discriminate|exact Cut1].
  - split; [discriminate|]. cbn [m_potential m_neg_potential m_repair m_bounds]. split; [|auto]. eapply extends_trans; [exact X1|]. apply extends_same. unfold same. auto.
  - split; [exact Woken|]. cbn [m_potential m_neg_potential m_do_lb m_do_ub_neg m_was_active m_repair m_bounds]. split; [eapply extends_trans; [exact X1|]; eapply extends_trans; [exact X2|]; apply extends_same; unfold same; auto|].
    rewrite G1, G2. split; [reflexivity|]. split; [reflexivity|]. split; [reflexivity|]. split; [reflexivity|]. split; [assumption|]. split; [exact B1|]. split; [exact B2|]. split; assumption.
Qed.
End Passes.

(** ** Searches *)
Section Search.
Variables (n : nat) (arcs : list arc).
Hypothesis Hn : nodes_below n arcs.

Record recorded (x : memory) (t : epoch) : Prop := mk_recorded {
  k_lb : forall v, (v < n)%nat -> m_do_lb x v <= e_lb t v;
  k_ub : forall v, (v < n)%nat -> m_do_ub_neg x v <= e_ub_neg t v;
  k_closed_lb : closed true arcs (m_was_active x) (m_do_lb x);
  k_closed_ub : closed false arcs (m_was_active x) (m_do_ub_neg x);
  k_sub : sub arcs (m_was_active x) (e_flags t);
  k_shape : (e_flags t = [] /\ m_was_active x = []) \/ (length (e_flags t) = length arcs /\ length (m_was_active x) = length arcs) }.

Lemma recorded_same : forall x y t, same x y -> recorded x t -> recorded y t.
Proof.
  intros x y t (A & B & C & D) []. constructor.
  - intros v Hv. rewrite <- A. auto.
  - intros v Hv. rewrite <- B. auto.
  - intros e a Q. rewrite <- C in Q. specialize (k_closed_lb0 e a Q). cbn beta iota in *. now rewrite <- !A.
  - intros e a Q. rewrite <- C in Q. specialize (k_closed_ub0 e a Q). cbn beta iota in *. now rewrite <- !B.
  - now rewrite <- C.
  - now rewrite <- C.
Qed.

Fixpoint stacked (m : memory) (limit : nat) (above : list bool) (ts : list epoch) : Prop :=
  match ts with
  | [] => True
  | t :: r =>
      (e_mark t <= limit)%nat /\ recorded (unwind_to (e_mark t) m) t /\ sub arcs (m_was_active (unwind_to (e_mark t) m)) above /\
      stacked m (e_mark t) (m_was_active (unwind_to (e_mark t) m)) r
  end.

Definition good (m : memory) (ts : list epoch) : Prop :=
  clean_repair (m_repair m) /\ clean_bounds (m_bounds m) /\
  match ts with
  | [] => True
  | t :: r =>
      let x := unwind_to (e_mark t) m in
      (e_mark t <= length (m_trail m))%nat /\ recorded x t /\ potential arcs (m_was_active x) (m_potential m) /\ potential arcs (m_was_active x) (fun v => - m_neg_potential m v) /\
      stacked m (e_mark t) (m_was_active x) r
  end.

Lemma stacked_same : forall ts m m' limit above above', (forall k, (k <= limit)%nat -> same (unwind_to k m) (unwind_to k m')) -> sub arcs above above' -> stacked m limit above ts -> stacked m' limit above' ts.
Proof.
  induction ts as [|t r IH]; intros m m' limit above above' Sm Sb H; [exact I|]. cbn [stacked] in *. destruct H as (L & R & Sa & H).
  assert (Q := Sm _ L). assert (W : m_was_active (unwind_to (e_mark t) m) = m_was_active (unwind_to (e_mark t) m')) by apply Q.
  split; [assumption|]. split; [now apply (recorded_same (unwind_to (e_mark t) m))|]. rewrite <- W. split; [now apply sub_trans with above|].
  apply IH with m (m_was_active (unwind_to (e_mark t) m)); [intros k K; apply Sm; lia|intros e' L' A; exact A|assumption].
Qed.

Lemma good_shrink : forall m t u r, good m (t :: r) -> shrinks t u -> good m (u :: r).
Proof.
  intros m t u r (A & B & C) (M & L & F & Lo & Up). split; [assumption|]. split; [assumption|]. cbn beta iota zeta in *. rewrite M. destruct C as (K & R & P & Q & St).
  split; [assumption|]. split; [|auto]. destruct R. constructor; auto.
  - intros v Hv. specialize (k_lb0 v Hv). specialize (Lo v). lia.
  - intros v Hv. specialize (k_ub0 v Hv). specialize (Up v). lia.
  - intros e Le Ae. specialize (k_sub0 e Le Ae). destruct k_shape0 as [[Ef _]|[Lf _]].
    + rewrite Ef in L. destruct (e_flags u); [reflexivity|discriminate].
    + rewrite arc_active_nth in k_sub0 by lia. rewrite arc_active_nth by lia. auto.
  - destruct k_shape0 as [[Ef Ew]|[Lf Lw]]; [left|right; split; [lia|assumption]]. split; [|assumption]. rewrite Ef in L. destruct (e_flags u); [reflexivity|discriminate].
Qed.

Lemma good_guess : forall m t r, good m (t :: r) -> good m (t :: t :: r).
Proof.
  intros m t r (A & B & C). split; [assumption|]. split; [assumption|]. cbn beta iota zeta in *. destruct C as (K & R & P & Q & St). cbn [stacked]. repeat (split; [assumption|]). split; [lia|]. split; [assumption|]. split; [intros e L X; exact X|assumption].
Qed.

Lemma good_backtrack : forall m t u r, good m (t :: u :: r) -> good m (u :: r).
Proof.
  intros m t u r (A & B & C). split; [assumption|]. split; [assumption|]. cbn beta iota zeta in *. cbn [stacked] in C. destruct C as (K & R & P & Q & Lu & Ru & Su & St).
  split; [lia|]. split; [assumption|]. split; [now apply (sub_potential arcs _ _ _ Su)|]. split; [now apply (sub_potential arcs _ _ _ Su)|assumption].
Qed.

(** A memory that extends what the top was unwound to. *)
Lemma good_extended : forall m m' t r, good m (t :: r) -> extends (unwind_to (e_mark t) m) m' -> clean_repair (m_repair m') -> clean_bounds (m_bounds m') ->
  potential arcs (m_was_active (unwind_to (e_mark t) m)) (m_potential m') -> potential arcs (m_was_active (unwind_to (e_mark t) m)) (fun v => - m_neg_potential m' v) -> good m' (t :: r).
Proof.
  intros m m' t r (A & B & C) X Cr Cb Pp Pn. cbn beta iota zeta in C. destruct C as (K & R & P & Q & St).
  assert (Lx := unwind_to_length (e_mark t) m K).
  assert (Sm : forall k, (k <= e_mark t)%nat -> same (unwind_to k m) (unwind_to k m')).
  { intros k Hk. apply same_sym. apply same_trans with (unwind_to k (unwind_to (e_mark t) m)); [apply extends_at; [assumption|lia]|]. rewrite unwind_to_to by lia. apply same_refl. }
  assert (W : m_was_active (unwind_to (e_mark t) m) = m_was_active (unwind_to (e_mark t) m')) by apply (Sm _ (le_n _)).
  split; [assumption|]. split; [assumption|]. cbn beta iota zeta. rewrite <- W. split; [destruct X; lia|]. split; [apply (recorded_same (unwind_to (e_mark t) m)); auto|]. split; [assumption|]. split; [assumption|].
  apply stacked_same with m (m_was_active (unwind_to (e_mark t) m)); auto. intros e L Y. exact Y.
Qed.

Lemma wake_good : forall m t r cut, good m (t :: r) ->
  match wake n arcs (e_flags t) (e_lb t) (e_ub_neg t) (e_mark t) cut m with
  | Woke m' lower upper => complete n arcs (e_flags t) (e_lb t) (e_ub_neg t) (Woke m' lower upper) /\
      good m' (mk_epoch (length (m_trail m')) (e_flags t) (after (e_lb t) lower) (after (e_ub_neg t) upper) :: r)
  | NegativeCycle m' => (~ exists x, solves arcs (e_flags t) x) /\ good m' (t :: r)
  | Emptied m' => cut <> None /\ good m' (t :: r)
  | Broken => False
  end.
Proof.
  intros m t r cut G. assert (G' := G). destruct G' as (Cr & Cb & C). cbn beta iota zeta in C. destruct C as (K & R & P & Q & St).
  unfold wake. set (m0 := unwind_to (e_mark t) m) in *.
  assert (Kp : m_potential m0 = m_potential m /\ m_neg_potential m0 = m_neg_potential m /\ m_repair m0 = m_repair m /\ m_bounds m0 = m_bounds m) by apply unwind_keeps.
  destruct Kp as (Kp & Kn & Kr & Kb).
  assert (L0 : length (m_trail m0) = e_mark t) by (apply unwind_to_length; assumption).
  assert (Main : forall m2 fl fu, extends m0 m2 -> clean_repair (m_repair m2) -> clean_bounds (m_bounds m2) -> m_do_lb m2 = m_do_lb m0 -> m_do_ub_neg m2 = m_do_ub_neg m0 ->
    sub arcs (m_was_active m0) (m_was_active m2) -> sub arcs (m_was_active m2) (e_flags t) -> sub arcs (e_flags t) (m_was_active m2) ->
    (e_flags t = [] /\ m_was_active m2 = []) \/ (length (e_flags t) = length arcs /\ length (m_was_active m2) = length arcs) ->
    potential arcs (e_flags t) (m_potential m2) -> potential arcs (e_flags t) (fun v => - m_neg_potential m2 v) ->
    (forall e a, active_arc arcs (e_flags t) e a -> active_arc arcs (m_was_active m0) e a \/ (fl (a_from a) = true /\ fu (a_to a) = true)) ->
    match passes n arcs (e_flags t) (e_lb t) (e_ub_neg t) fl fu cut m2 with
    | Woke m' lower upper => complete n arcs (e_flags t) (e_lb t) (e_ub_neg t) (Woke m' lower upper) /\
        good m' (mk_epoch (length (m_trail m')) (e_flags t) (after (e_lb t) lower) (after (e_ub_neg t) upper) :: r)
    | NegativeCycle m' => (~ exists x, solves arcs (e_flags t) x) /\ good m' (t :: r)
    | Emptied m' => cut <> None /\ good m' (t :: r)
    | Broken => False
    end).
  { intros m2 fl fu X Cr2 Cb2 El Eu S02 S2f Sf2 Sh P2 N2 Fo.
    assert (O := passes_ok n arcs (e_flags t) (e_lb t) (e_ub_neg t) fl fu m2 Hn P2 N2).
    rewrite El, Eu in O. specialize (O (k_lb _ _ R) (k_ub _ _ R)).
    assert (Fl : forall e a, active_arc arcs (e_flags t) e a -> fl (a_from a) = false -> m_do_lb m0 (a_from a) - a_d a <= m_do_lb m0 (a_to a)).
    { intros e a A F. destruct (Fo e a A) as [A'|[A' _]]; [|congruence]. apply (k_closed_lb _ _ R e a A'). }
    assert (Fu : forall e a, active_arc arcs (e_flags t) e a -> fu (a_to a) = false -> m_do_ub_neg m0 (a_to a) - a_d a <= m_do_ub_neg m0 (a_from a)).
    { intros e a A F. destruct (Fo e a A) as [A'|[_ A']]; [|congruence]. apply (k_closed_ub _ _ R e a A'). }
    specialize (O Fl Fu Cb2 cut). destruct (passes n arcs (e_flags t) (e_lb t) (e_ub_neg t) fl fu cut m2) as [m' lower upper|m'|m'|].
    - destruct O as (Co & X' & Ep & En & Ew & Er & Cb' & Bl & Bu & Kl & Ku). split; [exact Co|].
      assert (X0 : extends m0 m') by (now apply extends_trans with m2).
      split; [now rewrite Er|]. split; [assumption|]. cbn beta iota zeta. cbn [e_mark]. rewrite unwind_to_all, Ep, En. split; [lia|]. split; [|split; [|split]].
      + constructor; cbn [e_lb e_ub_neg e_flags]; rewrite ?Ew; auto.
        * intros e a A. apply (Kl e a). now apply (sub_arc arcs _ _ _ _ S2f).
        * intros e a A. apply (Ku e a). now apply (sub_arc arcs _ _ _ _ S2f).
      + rewrite Ew. now apply (sub_potential arcs _ _ _ S2f).
      + rewrite Ew. now apply (sub_potential arcs _ _ _ S2f).
      + rewrite Ew.
        assert (St' : stacked m' (e_mark t) (m_was_active m2) r).
        { apply stacked_same with m (m_was_active m0); [|assumption|assumption]. intros k Hk. apply same_sym. apply same_trans with (unwind_to k m0); [apply extends_at; [assumption|lia]|]. unfold m0. rewrite unwind_to_to by lia. apply same_refl. }
        destruct r as [|u r']; [exact I|]. cbn [stacked] in *. destruct St' as (Lu & Rest). split; [destruct X0; lia|exact Rest].
    - destruct O.
    - destruct O as (Nc & X' & Ep & En & Er & Cb'). split; [assumption|]. apply good_extended with m; auto.
      + now apply extends_trans with m2.
      + now rewrite Er.
      + rewrite Ep. apply (sub_potential arcs _ (e_flags t)); [|assumption]. now apply sub_trans with (m_was_active m2).
      + rewrite En. apply (sub_potential arcs _ (e_flags t)); [|assumption]. now apply sub_trans with (m_was_active m2).
    - destruct O. }
  destruct (k_shape _ _ R) as [[Ef Ew]|[Lf Lw]].
  - (* no conditions *)
    unfold changed_arcs. rewrite Ef in *. cbn [fold_left].
    assert (Rf : sub arcs (m_was_active m0) []) by (intros e L A; reflexivity).
    apply Main.
    + apply extends_same, same_refl.
    + now rewrite Kr.
    + now rewrite Kb.
    + reflexivity.
    + reflexivity.
    + intros e L A. exact A.
    + exact Rf.
    + rewrite Ew. exact (fun e L A => A).
    + left. auto.
    + rewrite Kp. rewrite Ew in P. exact P.
    + rewrite Kn. rewrite Ew in Q. exact Q.
    + intros e a A. left. now rewrite Ew.
  - assert (Nz : forall e, (e < length arcs)%nat -> arc_active (m_was_active m0) e = nth e (m_was_active m0) false) by (intros; apply arc_active_nth; lia).
    assert (Nf : forall e, (e < length arcs)%nat -> arc_active (e_flags t) e = nth e (e_flags t) false) by (intros; apply arc_active_nth; lia).
    assert (Ch : forall e, In e (changed_arcs arcs (e_flags t) (m_was_active m0)) <-> (e < length arcs)%nat /\ nth e (e_flags t) false = true /\ nth e (m_was_active m0) false = false).
    { intros e. unfold changed_arcs. destruct (e_flags t) as [|b0 bs] eqn:Eb.
      - cbn [length] in Lf. rewrite <- Lf. split; [intros []|]. intros [? _]. lia.
      - rewrite filter_In, in_seq, negb_true_iff. rewrite <- Eb in *. split.
        + intros [L N]. apply eqb_false_iff in N. split; [lia|]. assert (X := k_sub _ _ R e ltac:(lia)). rewrite Nz, Nf in X by lia.
          destruct (nth e (m_was_active m0) false); destruct (nth e (e_flags t) false); auto; [congruence|specialize (X eq_refl); discriminate].
        + intros (L & F & W). split; [lia|]. now rewrite F, W. }
    assert (ND : NoDup (changed_arcs arcs (e_flags t) (m_was_active m0))).
    { unfold changed_arcs. destruct (e_flags t); [constructor|]. apply NoDup_filter, seq_NoDup. }
    assert (C0 : changed_ok arcs (e_flags t) m0 (changed_arcs arcs (e_flags t) (m_was_active m0)) m0 (fun _ => false) (fun _ => false) false).
    { constructor; auto.
      - apply extends_same, same_refl.
      - now rewrite Kr.
      - intros e H. now apply Ch in H.
      - intros e L N. destruct (nth e (m_was_active m0) false) eqn:W.
        + symmetry. rewrite <- Nf by assumption. apply (k_sub _ _ R); [assumption|]. now rewrite Nz.
        + destruct (nth e (e_flags t) false) eqn:F; [|reflexivity]. exfalso. apply N. now apply Ch.
      - now rewrite Kp. }
    assert (O := change_arcs_ok arcs (e_flags t) m0 Lf _ m0 (fun _ => false) (fun _ => false) false ND (fun e H => let X := proj1 (Ch e) H in conj (proj1 X) (proj1 (proj2 X))) Lw C0).
    destruct (fold_left (change_arc arcs (e_flags t)) (changed_arcs arcs (e_flags t) (m_was_active m0)) (Going m0 (fun _ => false) (fun _ => false) false)) as [m1 fl fu moved|m1|].
    + destruct O.
      assert (Same12 : forall e, (e < length arcs)%nat -> arc_active (m_was_active m1) e = arc_active (e_flags t) e).
      { intros e L. rewrite Nf by assumption. rewrite arc_active_nth by lia. apply c_done0; auto. }
      set (m2 := if moved then mk_memory (m_potential m1) (fun v => - m_potential m1 v) (m_do_lb m1) (m_do_ub_neg m1) (m_was_active m1) (m_trail m1) (m_repair m1) (m_bounds m1) else m1).
      assert (Sm : same m2 m1) by (unfold m2; destruct moved; unfold same; auto).
      assert (Ew2 : m_was_active m2 = m_was_active m1) by apply Sm.
      assert (Er2 : m_repair m2 = m_repair m1) by (unfold m2; destruct moved; reflexivity).
      assert (Eb2 : m_bounds m2 = m_bounds m1) by (unfold m2; destruct moved; reflexivity).
      assert (El2 : m_do_lb m2 = m_do_lb m1) by (unfold m2; destruct moved; reflexivity).
      assert (Eu2 : m_do_ub_neg m2 = m_do_ub_neg m1) by (unfold m2; destruct moved; reflexivity).
      assert (Ep2 : m_potential m2 = m_potential m1) by (unfold m2; destruct moved; reflexivity).
      assert (Pf : potential arcs (e_flags t) (m_potential m1)).
      { apply (sub_potential arcs _ (m_was_active m1)); [|assumption]. intros e L A. now rewrite Same12. }
      apply Main.
      * apply extends_trans with m1; [assumption|]. now apply extends_same.
      * now rewrite Er2.
      * now rewrite Eb2, c_bounds0, Kb.
      * now rewrite El2.
      * now rewrite Eu2.
      * rewrite Ew2. intros e L A. rewrite arc_active_nth by lia. rewrite Nz in A by assumption. now apply c_more0.
      * rewrite Ew2. intros e L A. now rewrite <- Same12.
      * rewrite Ew2. intros e L A. now rewrite Same12.
      * right. rewrite Ew2. auto.
      * now rewrite Ep2.
      * unfold m2. destruct moved; cbn [m_neg_potential].
        { intros e a A. specialize (Pf e a A). cbn beta. lia. }
        { rewrite c_neg0, Kn. apply (sub_potential arcs _ (m_was_active m0)); [|assumption]. intros e L A. rewrite <- Same12 in A by assumption. rewrite arc_active_nth in A by lia. rewrite Nz by assumption. now apply (c_still0 eq_refl). }
      * intros e a A. destruct (active_arc_at _ _ _ _ A) as (L & B & <-). rewrite <- Same12 in B by assumption. rewrite arc_active_nth in B by lia.
        destruct (c_forced0 e L B) as [W|F]; [left|now right]. apply arc_at_active; [assumption|]. now rewrite Nz.
    + destruct O as (X & Cr1 & Eb & En & Pp & No). split; [assumption|]. apply good_extended with m; auto.
      * now rewrite Eb, Kb.
      * fold m0. now rewrite En, Kn.
    + destruct O.
Qed.

Lemma first_good : forall m flags lb ub cut, fresh m -> flags = [] \/ length flags = length arcs ->
  match first_wake n arcs flags lb ub cut m with
  | Woke m' lower upper => complete n arcs flags lb ub (Woke m' lower upper) /\ good m' [mk_epoch (length (m_trail m')) flags (after lb lower) (after ub upper)]
  | NegativeCycle m' => ~ exists x, solves arcs flags x
  | Emptied m' => cut <> None
  | Broken => False
  end.
Proof.
  intros m flags lb ub cut (T & Cr & Cb) Sh. unfold first_wake. assert (I' := initial_potential_correct n arcs flags Hn). destruct (initial_potential n arcs flags) as [p|]; [|exact I'].
  destruct I' as [Pp _]. set (m2 := mk_memory p (fun v => - p v) lb ub flags (m_trail m) (m_repair m) (m_bounds m)).
  assert (O := passes_ok n arcs flags lb ub (fun _ => true) (fun _ => true) m2 Hn Pp).
  assert (Np : potential arcs flags (fun v => - m_neg_potential m2 v)) by (intros e a A; specialize (Pp e a A); unfold m2; cbn [m_neg_potential]; lia).
  specialize (O Np (fun v _ => Z.le_refl (lb v)) (fun v _ => Z.le_refl (ub v))). specialize (O ltac:(intros; discriminate) ltac:(intros; discriminate) Cb cut).
  destruct (passes n arcs flags lb ub (fun _ => true) (fun _ => true) cut m2) as [m' lower upper|m'|m'|].
  - destruct O as (Co & X' & Ep & En & Ew & Er & Cb' & Bl & Bu & Kl & Ku). split; [exact Co|]. change (m_was_active m2) with flags in Ew.
    split; [rewrite Er; exact Cr|]. split; [assumption|]. cbn beta iota zeta. cbn [e_mark]. rewrite unwind_to_all, Ep, En, Ew. split; [lia|]. split; [|split; [exact Pp|split; [exact Np|exact I]]].
    constructor; cbn [e_lb e_ub_neg e_flags]; rewrite ?Ew; auto.
    + intros e L A. exact A.
    + destruct Sh as [Sh|Sh]; [left|right]; auto.
  - destruct O.
  - destruct O as (Nc & _). exact Nc.
  - exact O.
Qed.

Lemma reached_good : forall ok m ts, reached n arcs ok m ts -> good m ts.
Proof.
  intros ok m ts Re. induction Re as [m flags lb ub m' lower upper F Sh E|m t r Re IH|m t u r Re IH Sh|m t r m' lower upper Re IH E|m t r cut m' Re IH E|m t r cut m' Re IH E|ok m t u r Re IH].
  - assert (O := first_good m flags lb ub None F Sh). rewrite E in O. apply O.
  - now apply good_guess.
  - now apply good_shrink with t.
  - assert (O := wake_good m t r None IH). rewrite E in O. apply O.
  - assert (O := wake_good m t r cut IH). rewrite E in O. apply O.
  - assert (O := wake_good m t r cut IH). rewrite E in O. apply O.
  - now apply good_backtrack with t.
Qed.

Lemma session_complete : forall m t r, reached n arcs true m (t :: r) ->
  complete n arcs (e_flags t) (e_lb t) (e_ub_neg t) (wake n arcs (e_flags t) (e_lb t) (e_ub_neg t) (e_mark t) None m).
Proof.
  intros m t r Re. assert (O := wake_good m t r None (reached_good _ _ _ Re)). destruct (wake n arcs (e_flags t) (e_lb t) (e_ub_neg t) (e_mark t) None m); cbn [complete] in *; try apply O; reflexivity.
Qed.

Lemma session_never_broken : forall m t r cut, reached n arcs true m (t :: r) -> wake n arcs (e_flags t) (e_lb t) (e_ub_neg t) (e_mark t) cut m <> Broken.
Proof. intros m t r cut Re E. assert (O := wake_good m t r cut (reached_good _ _ _ Re)). now rewrite E in O. Qed.

Lemma first_complete : forall m flags lb ub, fresh m -> flags = [] \/ length flags = length arcs -> complete n arcs flags lb ub (first_wake n arcs flags lb ub None m).
Proof.
  intros m flags lb ub F Sh. assert (O := first_good m flags lb ub None F Sh). destruct (first_wake n arcs flags lb ub None m); cbn [complete] in *; try apply O; reflexivity.
Qed.

Lemma session_potentials : forall m t r, reached n arcs true m (t :: r) ->
  potential arcs (m_was_active (unwind_to (e_mark t) m)) (m_potential m) /\ potential arcs (m_was_active (unwind_to (e_mark t) m)) (fun v => - m_neg_potential m v).
Proof. intros m t r Re. destruct (reached_good _ _ _ Re) as (_ & _ & _ & _ & P & Q & _). auto. Qed.
End Search.
