(** When there is no flow, one of the two cuts in [GacCardinality] shows it. *)
From Coq Require Import ZArith List Bool Arith Lia.
From Verif Require Import Scc SccProofs MaxFlow MaxFlowProofs GacCardinality GacNetworkProofs GacFlowProofs.
Import ListNotations.
Local Open Scope Z_scope.

Lemma sum_less f g xs y : (forall x, In x xs -> f x <= g x) -> In y xs -> f y < g y -> sum_over f xs < sum_over g xs.
Proof.
  intros H J L. pose proof (sum_le f g xs H). destruct (Z.eq_dec (sum_over f xs) (sum_over g xs)) as [E|]; [|lia]. pose proof (sum_tight f g xs H ltac:(lia) y J). lia.
Qed.

Lemma sum_pos f xs : (forall x, In x xs -> 0 <= f x) -> sum_over f xs <> 0 -> exists x, In x xs /\ 0 < f x.
Proof.
  induction xs as [|x xs IH]; intros P Ne; [contradiction|]. simpl in Ne. assert (0 <= f x) by (apply P; now left). destruct (Z.ltb_spec 0 (f x)); [exists x; split; [now left|assumption]|].
  destruct IH as (y & J & Py); [intros y J; apply P; now right|lia|]. exists y. split; [now right|assumption].
Qed.

Section Network.
Variables m n : nat.
Variable dom : nat -> nat -> bool.
Variable free : nat -> bool.
Variable closed : bool.
Variables low high : nat -> Z.

Local Notation need := (need m n dom free closed low high).
Local Notation cap := (cap m n dom free closed low high).
Local Notation least := (least low).
Local Notation loose := (loose free closed).
Local Notation V := value_node.
Local Notation D := (dummy_node m).
Local Notation X := (var_node m).
Local Notation SS := (super_source m n).
Local Notation TT := (super_sink m n).
Local Notation N := (all_nodes m n).
Local Notation flows := (leaves N SS TT cap).

Ltac nodes := unfold value_node, dummy_node, var_node, super_source, super_sink, all_nodes, base_nodes in *.

Variables (f : Z) (r : residual) (R : nat -> bool).
Hypothesis Hr : flows f r.
Hypothesis Hcut : cut_off N SS TT R r.
Hypothesis Hf : f <> need.

Local Notation F := (F m r).
Local Notation G := (G m r).
Local Notation A := (A r).
Local Notation B := (B m n r).
Local Notation is := (assigned m dom r).

Lemma shut u v : (u < N)%nat -> (v < N)%nat -> R u = true -> r u v <> 0 -> R v = true.
Proof. intros Bu Bv Ru Ne. destruct (R v) eqn:Rv; [reflexivity|]. destruct Hcut as (_ & _ & C). now rewrite C in Ne. Qed.

Lemma at_most_one i : (i < n)%nat -> sum_over (fun j => F j i) (seq 0 m) + G i = r TT (X i) /\ 0 <= r TT (X i) <= 1.
Proof. intro Hi. split; [apply (kept_var Hr i Hi)|]. apply (out_range Hr i Hi). Qed.

Lemma F01 j i : (j < m)%nat -> (i < n)%nat -> 0 <= F j i <= 1.
Proof. intros Hj Hi. pose proof (F_range Hr j i Hj Hi) as FR. destruct (dom j i); lia. Qed.

Lemma G01 i : (i < n)%nat -> 0 <= G i <= 1.
Proof. intro Hi. pose proof (G_range Hr i Hi) as GR. destruct (loose i); lia. Qed.

Lemma is_F j i : (j < m)%nat -> (i < n)%nat -> is j i = F j i.
Proof. apply (assigned_F m n dom free closed low high f r j i Hr). Qed.

Lemma F_term j i : (j < m)%nat -> (i < n)%nat -> F j i <= sum_over (fun j => F j i) (seq 0 m).
Proof. intros Hj Hi. apply (sum_term (fun j => F j i)); [|apply in_seq; lia]. intros x J. apply in_seq in J. apply F01; lia. Qed.

Lemma F_unique j j' i : (j < m)%nat -> (j' < m)%nat -> (i < n)%nat -> F j i = 1 -> F j' i = 1 -> j = j'.
Proof.
  intros Hj Hj' Hi E E'. destruct (Nat.eq_dec j j') as [|Ne]; [assumption|exfalso]. destruct (at_most_one i Hi) as [K L]. pose proof (G01 i Hi).
  assert (F j i + F j' i <= sum_over (fun j => F j i) (seq 0 m)); [|lia]. apply (sum_two (fun j => F j i)); try (apply in_seq; lia); [apply seq_NoDup| |assumption]. intros x J. apply in_seq in J. apply F01; lia.
Qed.

Lemma joined_F j i : (j < m)%nat -> (i < n)%nat -> (dom j i && (is j i =? 1) = true <-> F j i = 1).
Proof.
  intros Hj Hi. rewrite andb_true_iff, Z.eqb_eq, (is_F j i Hj Hi). split; [tauto|]. intro E. split; [|assumption]. pose proof (F_range Hr j i Hj Hi) as FR. destruct (dom j i); [reflexivity|lia].
Qed.

Lemma not_full : f < need.
Proof.
  rewrite need_value in *. pose proof (value_in Hr) as VI. pose proof (supply_range Hr).
  assert (sum_over B (seq 0 m) <= sum_over least (seq 0 m)) by (apply sum_le; intros j J; apply in_seq in J; destruct (B_range Hr j); lia). lia.
Qed.

Lemma unmatched_is i : unmatched m n dom free closed r = Some i -> (i < n)%nat /\ r TT (X i) = 0.
Proof.
  unfold unmatched. intro E. apply find_some in E. destruct E as [J E]. apply in_seq in J. apply Z.eqb_eq in E. split; [lia|]. rewrite <- (kept_var Hr i) by lia. rewrite (dummy_G m n dom free closed low high f r i Hr) in E by lia.
  rewrite <- E. f_equal. apply sum_ext. intros j Jj. apply in_seq in Jj. symmetry. apply is_F; lia.
Qed.

Lemma unmatched_some i : (i < n)%nat -> r TT (X i) = 0 -> unmatched m n dom free closed r <> None.
Proof.
  intros Hi E U. unfold unmatched in U. pose proof (find_none _ _ U i ltac:(apply in_seq; lia)) as K. cbn beta in K. apply Z.eqb_neq in K. apply K. rewrite <- E, <- (kept_var Hr i Hi), (dummy_G m n dom free closed low high f r i Hr Hi).
  f_equal. apply sum_ext. intros j Jj. apply in_seq in Jj. apply is_F; lia.
Qed.

(** *** The source reached: too many variables for their values *)
Section Reached.
Hypothesis HO : R O = true.

Lemma some_unmatched : exists i, (i < n)%nat /\ r TT (X i) = 0.
Proof.
  pose proof not_full as NF. rewrite need_value in NF. pose proof (value_out Hr) as VO. pose proof (owed_range Hr) as OR.
  assert (E0 : r O TT = 0) by (destruct Hcut as (_ & RT & C); apply C; auto; nodes; lia).
  assert (sum_over (fun i => 1 - r TT (X i)) (seq 0 n) <> 0). { rewrite sum_minus, sum_const, seq_length. lia. }
  destruct (sum_pos (fun i => 1 - r TT (X i)) (seq 0 n)) as (i & J & P); [|assumption|].
  - intros i J. apply in_seq in J. pose proof (out_range Hr i ltac:(lia)). lia.
  - apply in_seq in J. exists i. split; [lia|]. pose proof (out_range Hr i ltac:(lia)). lia.
Qed.

Variable i0 : nat.
Hypothesis Hi0 : (i0 < n)%nat.
Hypothesis E0 : r TT (X i0) = 0.

Lemma none_to_i0 : G i0 = 0 /\ forall j, (j < m)%nat -> F j i0 = 0.
Proof.
  pose proof (at_most_one i0 Hi0) as [K _]. rewrite E0 in K. pose proof (G01 i0 Hi0). assert (0 <= sum_over (fun j => F j i0) (seq 0 m)) by (apply sum_nonneg; intros j J; apply in_seq in J; apply F01; lia).
  split; [lia|]. intros j Hj. pose proof (F_term j i0 Hj Hi0). pose proof (F01 j i0 Hj Hi0). lia.
Qed.

Definition hall (mark others : nat -> bool) : Prop :=
  (forall j, (j < m)%nat -> mark j = true -> R (V j) = false /\ forall i, (i < n)%nat -> F j i = 1 -> others i = true) /\
  (forall i, (i < n)%nat -> others i = true -> R (X i) = false /\ (i = i0 \/ exists j, (j < m)%nat /\ mark j = true /\ F j i = 1)) /\
  others i0 = true.

Local Notation meets := (fun hv_var j => existsb (fun i => hv_var i && dom j i) (seq 0 n)).
Local Notation joined := (fun j i => dom j i && (is j i =? 1)).

Lemma hall_start : hall (fun _ => false) (fun i => Nat.eqb i i0).
Proof.
  split; [discriminate|]. split; [|apply Nat.eqb_refl]. intros i Hi E. apply Nat.eqb_eq in E. subst i. split; [|now left].
  destruct (R (X i0)) eqn:E; [exfalso|reflexivity]. destruct Hcut as (_ & RT & _). enough (R TT = true) by congruence. apply (shut (X i0)); auto; [nodes; lia..|]. pose proof (out_range Hr i0 Hi0). lia.
Qed.

Lemma hall_step mark others j : (j < m)%nat -> hall mark others -> mark j = false -> meets others j = true -> hall (put mark j true) (fun i => others i || joined j i).
Proof.
  intros Hj (H1 & H2 & H3) Mj Me. apply existsb_exists in Me. destruct Me as (i & J & E). apply in_seq in J. assert (Hi : (i < n)%nat) by lia. clear J. apply andb_prop in E. destruct E as [Oi Dj].
  assert (RV : R (V j) = false).
  { destruct (R (V j)) eqn:RV; [exfalso|reflexivity]. destruct (H2 i Hi Oi) as [RX W]. pose proof (F_range Hr j i Hj Hi) as FR. rewrite Dj in FR.
    assert (F j i = 1). { assert (r (V j) (X i) = 0); [|lia]. destruct Hcut as (_ & _ & C). apply C; auto; nodes; lia. }
    destruct W as [->|(j' & Hj' & Mj' & E')]; [destruct none_to_i0 as [_ Z0]; rewrite Z0 in H by assumption; lia|]. rewrite (F_unique j' j i) in Mj' by assumption. congruence. }
  split; [|split].
  - intros j' Hj' E. destruct (Nat.eq_dec j' j) as [->|Ne].
    + split; [assumption|]. intros i' Hi' E'. apply (proj2 (joined_F j i' Hj Hi')) in E'. rewrite E'. apply orb_true_r.
    + rewrite put_other in E by assumption. destruct (H1 j' Hj' E) as [A1 A2]. split; [assumption|]. intros i' Hi' E'. now rewrite (A2 i' Hi' E').
  - intros i' Hi' E. destruct (others i') eqn:Oi'.
    + destruct (H2 i' Hi' Oi') as [A1 A2]. split; [assumption|]. destruct A2 as [A2|(j' & Hj' & Mj' & E')]; [now left|]. right. exists j'. repeat split; auto. rewrite put_other; [assumption|]. congruence.
    + cbn [orb] in E. apply (proj1 (joined_F j i' Hj Hi')) in E. split; [|right; exists j; rewrite put_same; auto].
      destruct (R (X i')) eqn:RX; [exfalso|reflexivity]. enough (R (V j) = true) by congruence. apply (shut (X i')); auto; [nodes; lia..|]. fold (F j i'). lia.
  - now rewrite H3.
Qed.

Lemma reached_violated confined :
  (forall hv i, (i < n)%nat -> loose i = false -> (forall j, (j < m)%nat -> dom j i = true -> hv j = true) -> confined hv i = true) ->
  (forall i, (i < n)%nat -> loose i = true \/ exists j, (j < m)%nat /\ dom j i = true) ->
  forall hv others', grow meets joined (S m) (seq 0 m) (fun _ => false) (fun i => Nat.eqb i i0) = Some (hv, others') ->
  existsb hv (seq 0 m) && (total_if hv high m <? count_if (confined hv) n) = true.
Proof.
  intros Hconf Hne hv others' E.
  destruct (grow_spec meets joined hall m) with (fuel := S m) (mark := fun _ : nat => false) (others := fun i => Nat.eqb i i0) as (mark & others & Eg & (H1 & H2 & H3) & Cl).
  { intros; now apply hall_step. } { apply hall_start. } { pose proof (unmarked_le m (fun _ => false)). lia. }
  rewrite E in Eg. injection Eg as -> ->.
  assert (Full : forall j, (j < m)%nat -> mark j = true -> high j = sum_over (fun i => F j i) (seq 0 n)).
  { intros j Hj Mj. destruct (H1 j Hj Mj) as [RV _]. rewrite <- (kept_value Hr j Hj). destruct Hcut as (RS & _ & C). pose proof (A_range Hr j Hj). pose proof (B_range Hr j Hj). rewrite !C in * by (auto; nodes; lia). lia. }
  assert (Tight : forall i, (i < n)%nat -> others i = true -> loose i = false).
  { intros i Hi Oi. destruct (loose i) eqn:Li; [exfalso|reflexivity]. destruct (H2 i Hi Oi) as [RX W].
    assert (RD : R D = true).
    { apply (shut O); auto; [nodes; lia..|]. pose proof (D_range Hr) as DR. assert (Ec : closed = false) by (unfold GacNetworkProofs.loose in Li; destruct (negb closed) eqn:Ec; [now apply negb_true_iff|discriminate]). rewrite Ec in DR. rewrite (kept_dummy Hr) in DR.
      assert (sum_over G (seq 0 n) <= sum_over (fun _ => 1) (seq 0 n)) by (apply sum_le; intros x J; apply in_seq in J; apply G01; lia). rewrite sum_const, seq_length in H. unfold plenty in DR. lia. }
    pose proof (G_range Hr i Hi) as GR. rewrite Li in GR. destruct Hcut as (_ & _ & C). rewrite (C D (X i)) in GR by (auto; nodes; lia).
    destruct W as [->|(j & Hj & Mj & Ej)]; [destruct none_to_i0; lia|]. destruct (at_most_one i Hi). pose proof (F_term j i Hj Hi). lia. }
  apply andb_true_intro. split.
  - destruct (Hne i0 Hi0) as [L|(j & Hj & Dj)]; [rewrite (Tight i0 Hi0 H3) in L; discriminate|]. apply existsb_exists. exists j. split; [apply in_seq; lia|]. apply Cl; [assumption|]. apply existsb_exists. exists i0. rewrite H3, Dj. split; [apply in_seq; lia|reflexivity].
  - apply Z.ltb_lt. unfold total_if, count_if.
    apply Z.lt_le_trans with (sum_over (fun i => if others i then 1 else 0) (seq 0 n)).
    + rewrite (sum_ext _ (fun j => sum_over (fun i => if mark j then F j i else 0) (seq 0 n))) by (intros j J; apply in_seq in J; destruct (mark j) eqn:Mj; [apply Full; [lia|assumption]|now rewrite sum_zero]).
      rewrite sum_swap. apply (sum_less _ _ _ i0); [|apply in_seq; lia|].
      * intros i J. apply in_seq in J. destruct (others i) eqn:Oi.
        -- destruct (at_most_one i ltac:(lia)) as [K L]. pose proof (G01 i ltac:(lia)). apply Z.le_trans with (sum_over (fun j => F j i) (seq 0 m)); [|lia]. apply sum_le. intros j Jj. apply in_seq in Jj. pose proof (F01 j i ltac:(lia) ltac:(lia)). destruct (mark j); lia.
        -- rewrite sum_zero; [lia|]. intros j Jj. apply in_seq in Jj. destruct (mark j) eqn:Mj; [|reflexivity]. destruct (H1 j ltac:(lia) Mj) as [_ K]. pose proof (F01 j i ltac:(lia) ltac:(lia)). destruct (Z.eq_dec (F j i) 1) as [E1|]; [|lia]. rewrite (K i) in Oi by (lia || assumption). discriminate.
      * rewrite H3, sum_zero; [lia|]. intros j Jj. apply in_seq in Jj. destruct none_to_i0 as [_ Z0]. rewrite Z0 by lia. now destruct (mark j).
    + apply sum_le. intros i J. apply in_seq in J. destruct (others i) eqn:Oi; [|destruct (confined mark i); lia]. rewrite Hconf; [lia|lia|apply Tight; [lia|assumption]|].
      intros j Hj Dj. apply Cl; [assumption|]. apply existsb_exists. exists i. rewrite Oi, Dj. split; [apply in_seq; lia|reflexivity].
Qed.
End Reached.

(** *** The source not reached: too few variables for some values *)
Section Unreached.
Hypothesis HO : R O = false.
Hypothesis Hlow : forall j, (j < m)%nat -> 0 <= low j.

Lemma least_low j : (j < m)%nat -> least j = low j.
Proof. intro Hj. unfold GacNetworkProofs.least. specialize (Hlow j Hj). lia. Qed.

Lemma sink_unreached : R 1%nat = false.
Proof.
  destruct (R 1%nat) eqn:R1; [exfalso|reflexivity]. enough (R O = true) by congruence. apply (shut 1%nat); auto; [nodes; lia..|]. pose proof (back_range Hr) as BR. pose proof (kept_sink Hr). pose proof (supply_range Hr). unfold plenty in BR. lia.
Qed.

Lemma no_A j : (j < m)%nat -> R (V j) = true -> A j = 0.
Proof. intros Hj RV. destruct Hcut as (_ & _ & C). unfold GacNetworkProofs.A. apply C; auto; nodes; lia. Qed.

Lemma some_under : exists j, (j < m)%nat /\ B j < least j.
Proof.
  pose proof not_full as NF. rewrite need_value in NF. pose proof (value_in Hr) as VI. pose proof (supply_range Hr) as SR.
  assert (E0 : r SS 1%nat = 0) by (destruct Hcut as (RS & _ & C); apply C; auto using sink_unreached; nodes; lia).
  assert (Ne : sum_over (fun j => least j - B j) (seq 0 m) <> 0). { rewrite sum_minus. change (sum_over (fun x => least x) (seq 0 m)) with (sum_over least (seq 0 m)). change (sum_over (fun x => B x) (seq 0 m)) with (sum_over B (seq 0 m)). lia. }
  destruct (sum_pos (fun j => least j - B j) (seq 0 m)) as (j & J & P); [|assumption|].
  - intros j J. apply in_seq in J. destruct (B_range Hr j); lia.
  - apply in_seq in J. exists j. split; lia.
Qed.

Lemma supplied j : (j < m)%nat -> sum_over (fun i => is j i) (seq 0 n) = A j + B j.
Proof. intro Hj. rewrite (kept_value Hr j Hj). apply sum_ext. intros i J. apply in_seq in J. apply is_F; lia. Qed.

Lemma under_exists : find (fun j => sum_over (fun i => is j i) (seq 0 n) <? low j) (seq 0 m) <> None.
Proof.
  destruct some_under as (j & Hj & L). intro E. pose proof (find_none _ _ E j ltac:(apply in_seq; lia)) as K. cbn beta in K. apply Z.ltb_ge in K. rewrite (supplied j Hj) in K.
  rewrite no_A in K; [rewrite (least_low j Hj) in L; lia|assumption|]. apply (shut SS); [nodes; lia..|apply Hcut|]. pose proof (B_range Hr j Hj). lia.
Qed.

Variable j0 : nat.
Hypothesis Hj0 : (j0 < m)%nat.
Hypothesis L0 : A j0 + B j0 < low j0.

Lemma under_B : B j0 < low j0 /\ R (V j0) = true.
Proof.
  pose proof (A_range Hr j0 Hj0). pose proof (B_range Hr j0 Hj0). rewrite (least_low j0 Hj0) in *. split; [lia|]. apply (shut SS); [nodes; lia..|apply Hcut|]. lia.
Qed.

Definition short (mark others : nat -> bool) : Prop :=
  (forall j, (j < m)%nat -> others j = true -> R (V j) = true) /\
  (forall i, (i < n)%nat -> mark i = true -> exists j, (j < m)%nat /\ others j = true /\ F j i = 1) /\
  others j0 = true.

Local Notation meets := (fun hv_val i => existsb (fun j => hv_val j && dom j i) (seq 0 m)).
Local Notation joined := (fun i j => dom j i && (is j i =? 1)).

Lemma short_start : short (fun _ => false) (fun j => Nat.eqb j j0).
Proof.
  split; [|split; [discriminate|apply Nat.eqb_refl]]. intros j Hj E. apply Nat.eqb_eq in E. subst j. apply under_B.
Qed.

Lemma short_step mark others i : (i < n)%nat -> short mark others -> mark i = false -> meets others i = true -> short (put mark i true) (fun j => others j || joined i j).
Proof.
  intros Hi (H1 & H2 & H3) Mi Me. apply existsb_exists in Me. destruct Me as (j & J & E). apply in_seq in J. assert (Hj : (j < m)%nat) by lia. clear J. apply andb_prop in E. destruct E as [Oj Dj].
  assert (W : exists j', (j' < m)%nat /\ F j' i = 1 /\ R (V j') = true).
  { pose proof (F_range Hr j i Hj Hi) as FR. rewrite Dj in FR. destruct (Z.eq_dec (F j i) 1) as [E1|]; [exists j; auto|].
    assert (RX : R (X i) = true) by (apply (shut (V j)); auto; [nodes; lia..|]; lia).
    pose proof (out_range Hr i Hi) as OR. destruct Hcut as (_ & RT & C). rewrite (C (X i) TT) in OR by (auto; nodes; lia). destruct (at_most_one i Hi) as [K _].
    assert (G0 : G i = 0).
    { pose proof (G01 i Hi). destruct (Z.eq_dec (G i) 0); [assumption|exfalso]. assert (RD : R D = true) by (apply (shut (X i)); [nodes; lia|nodes; lia|assumption|]; change (G i <> 0); lia).
      pose proof (C D O ltac:(nodes; lia) ltac:(nodes; lia) RD HO) as Z0. rewrite (kept_dummy Hr) in Z0. assert (G i <= sum_over G (seq 0 n)); [|lia]. apply sum_term; [|apply in_seq; lia]. intros x J. apply in_seq in J. apply G01. lia. }
    destruct (sum_pos (fun j => F j i) (seq 0 m)) as (j' & J & P); [|lia|].
    - intros x J. apply in_seq in J. apply F01; lia.
    - apply in_seq in J. exists j'. pose proof (F01 j' i ltac:(lia) Hi). assert (E1 : F j' i = 1) by lia. repeat split; [lia|assumption|]. apply (shut (X i)); auto; [nodes; lia..|]. fold (F j' i). lia. }
  destruct W as (j' & Hj' & E1 & RV). split; [|split].
  - intros k Hk E. destruct (others k) eqn:Ok; [now apply H1|]. cbn [orb] in E. apply (proj1 (joined_F k i Hk Hi)) in E. now rewrite (F_unique k j' i).
  - intros k Hk E. destruct (Nat.eq_dec k i) as [->|Ne].
    + exists j'. repeat split; auto. rewrite (proj2 (joined_F j' i Hj' Hi) E1). apply orb_true_r.
    + rewrite put_other in E by assumption. destruct (H2 k Hk E) as (x & Hx & Ox & Ex). exists x. rewrite Ox. auto.
  - now rewrite H3.
Qed.

Lemma unreached_violated : forall mark others', grow meets joined (S n) (seq 0 n) (fun _ => false) (fun j => Nat.eqb j j0) = Some (mark, others') ->
  count_if mark n <? total_if others' low m = true.
Proof.
  intros mark0 others0 E.
  destruct (grow_spec meets joined short n) with (fuel := S n) (mark := fun _ : nat => false) (others := fun j => Nat.eqb j j0) as (mark & others & Eg & (H1 & H2 & H3) & _).
  { intros; now apply short_step. } { apply short_start. } { pose proof (unmarked_le n (fun _ => false)). lia. }
  rewrite E in Eg. injection Eg as -> ->. apply Z.ltb_lt. unfold total_if, count_if.
  apply Z.le_lt_trans with (sum_over (fun i => sum_over (fun j => if others j then F j i else 0) (seq 0 m)) (seq 0 n)).
  - apply sum_le. intros i J. apply in_seq in J. assert (P : forall j, In j (seq 0 m) -> 0 <= (if others j then F j i else 0)) by (intros j Jj; apply in_seq in Jj; pose proof (F01 j i ltac:(lia) ltac:(lia)); destruct (others j); lia).
    destruct (mark i) eqn:Mi; [|now apply sum_nonneg]. destruct (H2 i ltac:(lia) Mi) as (j & Hj & Oj & E1). pose proof (sum_term (fun j => if others j then F j i else 0) j (seq 0 m) P ltac:(apply in_seq; lia)) as T. cbn beta in T. rewrite Oj, E1 in T. assumption.
  - rewrite sum_swap. rewrite (sum_ext _ (fun j => if others j then B j else 0)).
    + apply (sum_less _ _ _ j0); [|apply in_seq; lia|rewrite H3; apply under_B]. intros j J. apply in_seq in J. destruct (others j); [|lia]. pose proof (B_range Hr j ltac:(lia)). rewrite (least_low j) in * by lia. lia.
    + intros j J. apply in_seq in J. destruct (others j) eqn:Oj; [|now apply sum_zero]. rewrite <- (kept_value Hr j) by lia. rewrite no_A; [reflexivity|lia|]. apply H1; [lia|assumption].
Qed.
End Unreached.

Lemma capacity_found_out confined : capacity_violated m n dom free closed high r confined <> None.
Proof.
  unfold capacity_violated. destruct (unmatched _ _ _ _ _ _) as [i0|]; [|discriminate].
  destruct (grow_spec (fun hv_var j => existsb (fun i => hv_var i && dom j i) (seq 0 n)) (fun j i => dom j i && (is j i =? 1)) (fun _ _ => True) m) with (fuel := S m) (mark := fun _ : nat => false) (others := fun i => Nat.eqb i i0) as (mark & others & Eg & _).
  { auto. } { exact Logic.I. } { pose proof (unmarked_le m (fun _ => false)). lia. }
  rewrite Eg. discriminate.
Qed.

Lemma demand_found_out : demand_violated m n dom low r <> None.
Proof.
  unfold demand_violated. destruct (find _ _) as [j0|]; [|discriminate].
  destruct (grow_spec (fun hv_val i => existsb (fun j => hv_val j && dom j i) (seq 0 m)) (fun i j => dom j i && (is j i =? 1)) (fun _ _ => True) n) with (fuel := S n) (mark := fun _ : nat => false) (others := fun j => Nat.eqb j j0) as (mark & others & Eg & _).
  { auto. } { exact Logic.I. } { pose proof (unmarked_le n (fun _ => false)). lia. }
  rewrite Eg. discriminate.
Qed.

(** [covered]: what is confined to the values in the domain is found to be, and there is
    such a value. *)
Definition covered (confined : (nat -> bool) -> nat -> bool) : Prop :=
  forall i, (i < n)%nat ->
    (loose i = true \/ exists j, (j < m)%nat /\ dom j i = true) /\
    forall hv, loose i = false -> (forall j, (j < m)%nat -> dom j i = true -> hv j = true) -> confined hv i = true.

Lemma covered_violated confined : (forall j, (j < m)%nat -> 0 <= low j) -> covered confined -> explain_no_flow m n dom free closed low high r confined = Violated.
Proof.
  intros Hlow Hc. unfold explain_no_flow. pose proof (capacity_found_out confined) as CF. destruct (capacity_violated m n dom free closed high r confined) as [[|]|] eqn:C; [reflexivity| |contradiction].
  destruct (R O) eqn:RO.
  - exfalso. destruct (some_unmatched RO) as (i & Hi & E). pose proof (unmatched_some i Hi E) as U. unfold capacity_violated in C. destruct (unmatched m n dom free closed r) as [i0|] eqn:EU; [|contradiction]. destruct (unmatched_is i0 EU) as [Hi0 E0].
    match type of C with match ?g with _ => _ end = _ => destruct g as [[hv others]|] eqn:Eg end; [|discriminate]. injection C as C.
    rewrite (reached_violated RO i0 Hi0 E0 confined) with (others' := others) in C; [discriminate| | |exact Eg].
    + intros hv' i' Hi' L K. now apply (proj2 (Hc i' Hi')).
    + intros i' Hi'. apply (Hc i' Hi').
  - pose proof demand_found_out as DF. destruct (demand_violated m n dom low r) as [[|]|] eqn:Dm; [reflexivity|exfalso|contradiction].
    unfold demand_violated in Dm. pose proof (under_exists RO Hlow) as U. destruct (find _ _) as [j0|] eqn:EU; [|contradiction]. apply find_some in EU. destruct EU as [J L]. apply in_seq in J. apply Z.ltb_lt in L. rewrite supplied in L by lia.
    match type of Dm with match ?g with _ => _ end = _ => destruct g as [[mark others]|] eqn:Eg end; [|discriminate]. injection Dm as Dm.
    rewrite (unreached_violated RO Hlow j0 ltac:(lia) L mark others Eg) in Dm. discriminate.
Qed.

Lemma closed_explained confined : (forall j, (j < m)%nat -> 0 <= low j) -> closed = true -> explain_no_flow m n dom free closed low high r confined <> Throw.
Proof.
  intros Hlow Cl. unfold explain_no_flow. pose proof (capacity_found_out confined) as CF. destruct (capacity_violated m n dom free closed high r confined) as [[|]|] eqn:C; [discriminate| |contradiction].
  pose proof demand_found_out as DF. destruct (demand_violated m n dom low r) as [[|]|] eqn:Dm; [discriminate| |contradiction]. rewrite Cl. cbn [andb].
  destruct (R O) eqn:RO.
  - destruct (some_unmatched RO) as (i & Hi & E). pose proof (unmatched_some i Hi E) as U. rewrite Cl in U. destruct (unmatched m n dom free true r); [discriminate|contradiction].
  - exfalso. unfold demand_violated in Dm. pose proof (under_exists RO Hlow) as U. destruct (find _ _) as [j0|] eqn:EU; [|contradiction]. apply find_some in EU. destruct EU as [J L]. apply in_seq in J. apply Z.ltb_lt in L. rewrite supplied in L by lia.
    match type of Dm with match ?g with _ => _ end = _ => destruct g as [[mark others]|] eqn:Eg end; [|discriminate]. injection Dm as Dm.
    rewrite (unreached_violated RO Hlow j0 ltac:(lia) L mark others Eg) in Dm. discriminate.
Qed.
End Network.

(** ** The verdict *)
Section Verdict.
Variables m n : nat.
Variable dom : nat -> nat -> bool.
Variable free : nat -> bool.
Variable closed : bool.
Variables low high : nat -> Z.
Variable confined : (nat -> bool) -> nat -> bool.

Local Notation allowed := (allowed m n dom free closed low high).
Local Notation judge := (judge m n dom free closed low high confined).

Lemma judge_sound asg : allowed asg -> exists pairs dummies, judge = Prunes pairs dummies /\ (forall j i, In (j, i) pairs -> asg i <> Some j) /\ (forall i, In i dummies -> asg i <> None).
Proof.
  intro Al. assert (Hcap : forall j, (j < m)%nat -> least low j <= high j).
  { intros j Hj. pose proof (taken_least m n dom free closed low high asg Al j Hj). lia. }
  destruct (found m n dom free closed low high Hcap) as (f & r & R & E & Hr & Hcut). unfold GacCardinality.judge. rewrite E.
  assert (Ef : f = need m n dom free closed low high).
  { pose proof (star_flows m n dom free closed low high asg Al) as Hs.
    pose proof (cut_off_best (all_nodes m n) (super_source m n) (super_sink m n)) as CB.
    assert (need m n dom free closed low high <= f) by (eapply CB; eauto; unfold super_source, super_sink, all_nodes; lia).
    destruct (Z.eq_dec f (need m n dom free closed low high)) as [|Ne]; [assumption|]. pose proof (not_full m n dom free closed low high f r Hr Ne). lia. }
  subst f. rewrite Z.eqb_refl. exists (crossing m n dom free closed low high r), (crossing_dummy m n dom free closed low high r). split; [reflexivity|]. split; intros.
  - now apply (crossing_sound m n dom free closed low high r).
  - now apply (crossing_dummy_sound m n dom free closed low high r).
Qed.

Lemma judge_complete pairs dummies : (forall j, (j < m)%nat -> 0 <= low j <= high j) -> judge = Prunes pairs dummies ->
  (forall j i, (j < m)%nat -> (i < n)%nat -> dom j i = true -> ~ In (j, i) pairs -> exists asg, allowed asg /\ asg i = Some j) /\
  (forall i, (i < n)%nat -> loose free closed i = true -> ~ In i dummies -> exists asg, allowed asg /\ asg i = None).
Proof.
  intros Hb E. destruct (found m n dom free closed low high) as (f & r & R & Ef & Hr & Hcut).
  { intros j Hj. specialize (Hb j Hj). unfold least. lia. }
  unfold GacCardinality.judge in E. rewrite Ef in E. destruct (Z.eqb_spec f (need m n dom free closed low high)) as [->|Ne]; [|destruct (explain_no_flow _ _ _ _ _ _ _ _ _); discriminate].
  injection E as <- <-. split; intros.
  - now apply (kept_edge m n dom free closed low high r).
  - now apply (kept_outside m n dom free closed low high r).
Qed.

Lemma judge_covered : (forall j, (j < m)%nat -> 0 <= low j <= high j) -> covered m n dom free closed confined -> judge = Fails \/ exists pairs dummies, judge = Prunes pairs dummies.
Proof.
  intros Hb Hc. destruct (found m n dom free closed low high) as (f & r & R & Ef & Hr & Hcut).
  { intros j Hj. specialize (Hb j Hj). unfold least. lia. }
  unfold GacCardinality.judge. rewrite Ef. destruct (Z.eqb_spec f (need m n dom free closed low high)) as [->|Ne]; [right; eauto|left].
  rewrite (covered_violated m n dom free closed low high f r R); auto. intros j Hj. now apply Hb.
Qed.

Lemma judge_never_throws : (forall j, (j < m)%nat -> 0 <= low j <= high j) -> closed = true \/ covered m n dom free closed confined -> judge <> Throws.
Proof.
  intros Hb [Cl|Hc].
  - destruct (found m n dom free closed low high) as (f & r & R & Ef & Hr & Hcut).
    { intros j Hj. specialize (Hb j Hj). unfold least. lia. }
    unfold GacCardinality.judge. rewrite Ef. destruct (Z.eqb_spec f (need m n dom free closed low high)) as [->|Ne]; [discriminate|].
    pose proof (closed_explained m n dom free closed low high f r R Hr Hcut Ne confined ltac:(intros j Hj; now apply Hb) Cl). destruct (explain_no_flow _ _ _ _ _ _ _ _ _); try discriminate. contradiction.
  - destruct (judge_covered Hb Hc) as [->|(p & ds & ->)]; discriminate.
Qed.
End Verdict.
