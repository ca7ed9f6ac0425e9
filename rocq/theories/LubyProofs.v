(** Lemmas about the restart schedule. *)
From Coq Require Import ZArith NArith List Bool Arith Lia Wf_nat.
From Verif Require Import Solve LubySpec SearchTermProofs.

Local Open Scope N_scope.

Lemma pow_S k : 2 ^ (k + 1) = 2 * 2 ^ k.
Proof. rewrite N.add_1_r. apply N.pow_succ_r'. Qed.

Lemma pow_pos k : 1 <= 2 ^ k.
Proof. assert (2 ^ k <> 0) by (apply N.pow_nonzero; lia). lia. Qed.

Lemma pow_mono k k' : k <= k' -> 2 ^ k <= 2 ^ k'.
Proof. intro. apply N.pow_le_mono_r; lia. Qed.

(** Each index at least one is in exactly one block. *)
Lemma block_of i : 1 <= i -> exists k, 2 ^ k <= i < 2 ^ (k + 1).
Proof. intro H. exists (N.log2 i). rewrite N.add_1_r. apply N.log2_spec. lia. Qed.

Lemma block_unique i k k' : 2 ^ k <= i < 2 ^ (k + 1) -> 2 ^ k' <= i < 2 ^ (k' + 1) -> k = k'.
Proof.
  intros [A B] [C D]. destruct (N.lt_trichotomy k k') as [L|[E|L]]; [|assumption|].
  - pose proof (pow_mono (k + 1) k' ltac:(lia)). lia.
  - pose proof (pow_mono (k' + 1) k ltac:(lia)). lia.
Qed.

Lemma luby_functional i t t' : luby_is i t -> luby_is i t' -> t = t'.
Proof.
  intro H. revert t'. induction H as [k|k i t A B H IH]; intros t' H';
    (inversion H' as [k' E1 E2|k' i' t'' A' B' H'' E1 E2]; subst);
    pose proof (pow_pos k) as P; pose proof (pow_pos k') as P'; pose proof (pow_S k) as Q; pose proof (pow_S k') as Q'.
  - f_equal. apply (block_unique (2 ^ k)); lia.
  - exfalso. assert (k = k') as ->; [|lia]. apply (block_unique (2 ^ (k + 1) - 1)); lia.
  - exfalso. assert (k = k') as ->; [|lia]. apply (block_unique (2 ^ (k' + 1) - 1)); lia.
  - assert (k = k') as ->; [|now apply IH]. apply (block_unique i); lia.
Qed.

Lemma luby_power i t : luby_is i t -> exists k, t = 2 ^ k.
Proof. induction 1 as [k|k i t A B H IH]; [now exists k|assumption]. Qed.

(** The loop, entered with block number [j] of a term in block [k]. *)
Lemma luby_climb i k : 2 ^ k <= i -> i < 2 ^ (k + 1) -> forall steps j fuel, j + N.of_nat steps = k + 1 -> 1 <= j ->
  luby_loop (steps + fuel) i j = luby_loop fuel i (k + 1).
Proof.
  intros A B. induction steps as [|steps IH]; intros j fuel E J.
  - cbn [Nat.add]. f_equal. lia.
  - cbn [Nat.add luby_loop]. cbv zeta. assert (Lj : j <= k) by lia. pose proof (pow_mono j k Lj). pose proof (pow_pos j).
    destruct (N.eqb_spec i (2 ^ j - 1)); [lia|]. destruct (N.ltb_spec i (2 ^ j - 1)); [lia|].
    apply IH; lia.
Qed.

Lemma luby_loop_spec k : forall i, 2 ^ k <= i -> i < 2 ^ (k + 1) ->
  forall fuel, (N.to_nat (3 * N.succ k * N.succ k + 3) <= fuel)%nat -> exists t, luby_loop fuel i 1 = Some t /\ luby_is i t.
Proof.
  induction k as [k IHk] using (well_founded_induction N.lt_wf_0). intros i A B fuel F. pose proof (pow_pos k) as Pk.
  assert (Fs : exists rest, fuel = (N.to_nat k + S rest)%nat /\ (N.to_nat (3 * N.succ k * N.succ k + 3) <= N.to_nat k + S rest)%nat).
  { exists (fuel - N.to_nat k - 1)%nat. assert (k + 1 <= 3 * N.succ k * N.succ k + 3) by nia. lia. }
  destruct Fs as (rest & -> & F'). rewrite (luby_climb i k A B (N.to_nat k) 1 (S rest)) by lia.
  cbn [luby_loop]. cbv zeta. replace (k + 1 - 1) with k by lia. rewrite pow_S in *.
  destruct (N.eqb_spec i (2 * 2 ^ k - 1)) as [->|Ne].
  - exists (2 ^ k). split; [reflexivity|]. rewrite <- pow_S. apply lu_top.
  - destruct (N.ltb_spec i (2 * 2 ^ k - 1)) as [Lt|Ge]; [|lia].
    assert (I1 : 1 <= i - (2 ^ k - 1)) by lia. destruct (block_of _ I1) as (k' & A' & B').
    assert (Lk : k' < k).
    { destruct (N.lt_ge_cases k' k) as [|G]; [assumption|]. pose proof (pow_mono k k' G). lia. }
    destruct (IHk k' Lk (i - (2 ^ k - 1)) A' B' rest) as (t & E & H).
    + assert (3 * N.succ k' * N.succ k' + 3 + k + 1 <= 3 * N.succ k * N.succ k + 3) by nia. lia.
    + exists t. split; [exact E|]. apply (lu_repeat k); [assumption|rewrite pow_S; lia|assumption].
Qed.

Lemma luby_term_spec i : 1 <= i -> exists t, luby_term i = Some t /\ luby_is i t.
Proof.
  intro H. unfold luby_term. destruct (N.log2_spec i) as [A B]; [lia|]. apply (luby_loop_spec (N.log2 i) i); [assumption|now rewrite N.add_1_r|reflexivity].
Qed.

(** The cutoffs. *)
Lemma luby_cutoff_spec scale n t : (1 <= n)%nat -> luby_is (N.of_nat n) t -> luby_cutoff scale n = (N.to_nat t * scale)%nat.
Proof.
  intros H L. unfold luby_cutoff. destruct (luby_term_spec (N.of_nat n)) as (t' & -> & L'); [lia|]. now rewrite (luby_functional _ _ _ L L').
Qed.

Lemma pow_large n : (n <= N.to_nat (2 ^ N.of_nat n))%nat.
Proof.
  induction n as [|n IH]; [lia|]. replace (N.of_nat (S n)) with (N.of_nat n + 1) by lia. rewrite pow_S. pose proof (pow_pos (N.of_nat n)). lia.
Qed.

Lemma luby_grows scale : (1 <= scale)%nat -> grows (luby_cutoff scale).
Proof.
  intros H k. exists (N.to_nat (2 ^ (N.of_nat k + 1) - 1)). pose proof (pow_pos (N.of_nat k)) as P. pose proof (pow_S (N.of_nat k)) as Q. split; [lia|].
  rewrite (luby_cutoff_spec scale _ (2 ^ N.of_nat k)); [|lia|rewrite N2Nat.id; apply lu_top]. pose proof (pow_large k). nia.
Qed.

Lemma luby_zero n : luby_cutoff 0 n = 0%nat.
Proof. unfold luby_cutoff. destruct (luby_term _); [apply Nat.mul_0_r|reflexivity]. Qed.
