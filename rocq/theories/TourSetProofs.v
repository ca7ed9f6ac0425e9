(** Lemmas about sets of nodes that a tour does not leave except from its root. *)
From Coq Require Import List Arith Lia.
From Verif Require Import TourProofs.
Import ListNotations.

Section Root.
Variable n : nat.
Variable f : nat -> nat.
Hypothesis T : tour n f.
Variable r : nat.
Hypothesis Hr : r < n.

Let B : bounded n f := proj1 T.
Let J : one_to_one n f := tour_one_to_one n f B T.

Lemma tour_ends_new k : k < n - 1 -> Nat.iter k f r <> Nat.iter (n - 1) f r.
Proof.
  intros Hk E. replace (n - 1) with ((n - 1 - k) + k) in E by lia. rewrite iter_add in E. apply (iter_back n f B J) in E; [|assumption|now apply iter_bound].
  assert (n <= n - 1 - k) by (apply (no_short_cycle n f (n - 1 - k) r); auto; lia). lia.
Qed.

Lemma tour_position z : z < n -> exists k, k < n /\ Nat.iter k f r = z.
Proof.
  intro Hz. destruct (path_covers n f B J r (n - 1) Hr tour_ends_new) with (v := z) as (k & Lk & E); [lia|assumption|]. exists k. split; [lia|assumption].
Qed.

Lemma tour_period : Nat.iter n f r = r.
Proof.
  pose proof (path_closes n f B J r (n - 1) Hr tour_ends_new ltac:(lia)) as E. rewrite <- iter_next in E. replace (S (n - 1)) with n in E by lia. exact E.
Qed.

Lemma tour_away i : 0 < i -> i < n -> Nat.iter i f r <> r.
Proof. intros P L E. pose proof (no_short_cycle n f i r T Hr P E). lia. Qed.

(** Only from the root is there a way out. *)
Definition closed_until (C : nat -> Prop) : Prop := forall x, x < n -> C x -> x <> r -> C (f x).

Lemma closed_everywhere (C : nat -> Prop) x : (forall z, z < n -> C z -> C (f z)) -> x < n -> C x -> forall y, y < n -> C y.
Proof.
  intros Cl Hx Cx y Hy. destruct (proj2 T x y Hx Hy) as (k & <-). clear Hy. induction k as [|k IH]; [assumption|]. rewrite iter_next. apply Cl; [|assumption]. now apply iter_bound.
Qed.

Lemma closed_from_root (L : nat -> Prop) y : closed_until L -> L (f r) -> y < n -> y <> r -> L y.
Proof.
  intros Cl Lr Hy N. assert (X : (fun z => L z \/ z = r) y); [|destruct X; [assumption|contradiction]].
  apply (closed_everywhere (fun z => L z \/ z = r) r); auto. intros z Hz [Lz|Ez]; [|subst z; now left]. destruct (Nat.eq_dec z r) as [->|Nz]; [now left|]. left. now apply Cl.
Qed.

Lemma stays (C : nat -> Prop) x i k : closed_until C -> 0 < i -> i <= k -> k < n -> Nat.iter i f r = x -> C x -> C (Nat.iter k f r).
Proof.
  intros Cl Pi Le Lk E Cx. subst x. induction Le as [|k Le IH]; [assumption|]. rewrite iter_next. apply Cl; [now apply iter_bound|apply IH; lia|]. apply tour_away; lia.
Qed.

(** What lies in [C] but not in [L] is passed neither before an edge from outside [C]
    into [L] nor after. *)
Lemma no_way_round (C L : nat -> Prop) x y : closed_until C -> closed_until L -> C r -> x < n -> ~ C x -> L (f x) -> y < n -> C y -> ~ L y -> y <> r -> False.
Proof.
  intros CC CL Cr Hx Nx Lx Hy Cy Ny Nr. destruct (tour_position x Hx) as (p & Lp & Ep). destruct (tour_position y Hy) as (q & Lq & Eq).
  assert (Pp : p <> 0) by (intros ->; cbn in Ep; congruence). assert (Pq : q <> 0) by (intros ->; cbn in Eq; congruence).
  destruct (Nat.lt_trichotomy q p) as [H|[H|H]].
  - apply Nx. rewrite <- Ep. apply (stays C y q); auto; lia.
  - apply Nx. congruence.
  - apply Ny. rewrite <- Eq. apply (stays L (f x) (S p)); auto; try lia. rewrite iter_next. now rewrite Ep.
Qed.

(** A set without the root is left somewhere. *)
Lemma left_somewhere (new : list nat) x : x < n -> In x new -> ~ In r new -> exists z, z < n /\ In z new /\ ~ In (f z) new.
Proof.
  intros Hx Ix Nr. destruct (Exists_dec (fun z => z < n /\ ~ In (f z) new) new) as [E|E].
  - intro z. destruct (lt_dec z n); [|right; tauto]. destruct (in_dec Nat.eq_dec (f z) new); [right; tauto|left; tauto].
  - apply Exists_exists in E. destruct E as (z & Iz & Hz & Nz). eauto.
  - exfalso. apply Nr. apply (closed_everywhere (fun z => In z new) x); auto. intros z Hz Iz. destruct (in_dec Nat.eq_dec (f z) new) as [|N]; [assumption|].
    exfalso. apply E. apply Exists_exists. eauto.
Qed.
End Root.
