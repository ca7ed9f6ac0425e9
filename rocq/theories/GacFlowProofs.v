(** What the flows in [GacCardinality] have to do with assignments of values. *)
From Coq Require Import ZArith List Bool Arith Lia Relations.
From Verif Require Import Scc SccSpec SccProofs MaxFlow MaxFlowProofs GacCardinality GacNetworkProofs.
Import ListNotations.
Local Open Scope Z_scope.

Arguments F_range {m n dom free closed low high f r} Hr.
Arguments G_range {m n dom free closed low high f r} Hr.
Arguments A_range {m n dom free closed low high f r} Hr.
Arguments B_range {m n dom free closed low high f r} Hr.
Arguments D_range {m n dom free closed low high f r} Hr.
Arguments out_range {m n dom free closed low high f r} Hr.
Arguments owed_range {m n dom free closed low high f r} Hr.
Arguments supply_range {m n dom free closed low high f r} Hr.
Arguments back_range {m n dom free closed low high f r} Hr.
Arguments kept_var {m n dom free closed low high f r} Hr.
Arguments kept_value {m n dom free closed low high f r} Hr.
Arguments kept_dummy {m n dom free closed low high f r} Hr.
Arguments kept_sink {m n dom free closed low high f r} Hr.
Arguments kept_source {m n dom free closed low high f r} Hr.
Arguments value_in {m n dom free closed low high f r} Hr.
Arguments value_out {m n dom free closed low high f r} Hr.
Arguments feasible_facts {m n dom free closed low high f r} Hr.
Arguments apart_zero {m n dom free closed low high f r} Hr.

Lemma sum_two f x y xs : NoDup xs -> (forall z, In z xs -> 0 <= f z) -> In x xs -> In y xs -> x <> y -> f x + f y <= sum_over f xs.
Proof.
  induction xs as [|z xs IH]; intros ND P Ix Iy Ne; [destruct Ix|]. apply NoDup_cons_iff in ND. destruct ND as [NI ND]. simpl.
  assert (P' : forall w, In w xs -> 0 <= f w) by (intros w J; apply P; now right). assert (0 <= f z) by (apply P; now left).
  destruct Ix as [->|Ix], Iy as [->|Iy]; [congruence| | |].
  - pose proof (sum_term f y xs P' Iy). lia.
  - pose proof (sum_term f x xs P' Ix). lia.
  - specialize (IH ND P' Ix Iy Ne). lia.
Qed.

(** ** Growing *)
Section Grow.
Variable meets : (nat -> bool) -> nat -> bool.
Variable joined : nat -> nat -> bool.
Variable I : (nat -> bool) -> (nat -> bool) -> Prop.
Variable K : nat.
Hypothesis HI : forall mark others k, (k < K)%nat -> I mark others -> mark k = false -> meets others k = true -> I (put mark k true) (fun x => others x || joined k x).

Definition unmarked (mark : nat -> bool) : nat := length (filter (fun k => negb (mark k)) (seq 0 K)).

Lemma unmarked_put mark k xs : NoDup xs -> In k xs -> mark k = false -> length (filter (fun k => negb (mark k)) xs) = S (length (filter (fun x => negb (put mark k true x)) xs)).
Proof.
  intros ND J E. induction xs as [|y xs IH]; [destruct J|]. apply NoDup_cons_iff in ND. destruct ND as [NI ND]. simpl. destruct J as [->|J].
  - rewrite E, put_same. simpl. f_equal. f_equal. apply filter_ext_in. intros z Jz. rewrite put_other; [reflexivity|]. intros ->. contradiction.
  - rewrite put_other by (intros ->; contradiction). destruct (mark y); simpl; now rewrite IH.
Qed.

Lemma grow_turn ks : (forall k, In k ks -> (k < K)%nat) -> forall mark others grew mark' others' grew',
  fold_left (grow_one meets joined) ks (mark, others, grew) = (mark', others', grew') -> I mark others ->
  I mark' others' /\ (unmarked mark' <= unmarked mark)%nat /\
  (grew' = true -> grew = true \/ (unmarked mark' < unmarked mark)%nat) /\
  (grew' = false -> grew = false /\ mark' = mark /\ others' = others /\ forall k, In k ks -> mark k = true \/ meets others k = false).
Proof.
  induction ks as [|k ks IH]; intros B mark others grew mark' others' grew' E Hi; simpl in E.
  - injection E as <- <- <-. split; [assumption|]. split; [lia|]. split; [auto|]. intro. repeat split; auto; intros k [].
  - assert (B' : forall x, In x ks -> (x < K)%nat) by (intros x J; apply B; now right). specialize (B k (or_introl eq_refl)).
    destruct (mark k) eqn:Mk; [|destruct (meets others k) eqn:Me].
    + destruct (IH B' _ _ _ _ _ _ E Hi) as (A1 & A2 & A3 & A4). repeat (split; [assumption|]). intro G. destruct (A4 G) as (C1 & C2 & C3 & C4). repeat (split; [assumption|]). intros x [<-|J]; auto.
    + destruct (IH B' _ _ _ _ _ _ E (HI _ _ _ B Hi Mk Me)) as (A1 & A2 & A3 & A4).
      assert (U : unmarked mark = S (unmarked (put mark k true))) by (apply unmarked_put; [apply seq_NoDup|apply in_seq; lia|assumption]).
      split; [assumption|]. split; [lia|]. split; [right; lia|]. intro G. destruct (A4 G) as (C1 & _). discriminate.
    + destruct (IH B' _ _ _ _ _ _ E Hi) as (A1 & A2 & A3 & A4). repeat (split; [assumption|]). intro G. destruct (A4 G) as (C1 & C2 & C3 & C4). repeat (split; [assumption|]). intros x [<-|J]; auto.
Qed.

Lemma grow_spec fuel : forall mark others, I mark others -> (unmarked mark < fuel)%nat ->
  exists mark' others', grow meets joined fuel (seq 0 K) mark others = Some (mark', others') /\ I mark' others' /\
  forall k, (k < K)%nat -> meets others' k = true -> mark' k = true.
Proof.
  induction fuel as [|fuel IH]; intros mark others Hi U; [lia|]. simpl.
  destruct (fold_left (grow_one meets joined) (seq 0 K) (mark, others, false)) as [[mark' others'] grew] eqn:E.
  destruct (grow_turn (seq 0 K) ltac:(intros k J; apply in_seq in J; lia) _ _ _ _ _ _ E Hi) as (A1 & A2 & A3 & A4). destruct grew.
  - apply IH; [assumption|]. destruct (A3 eq_refl) as [|]; [discriminate|lia].
  - destruct (A4 eq_refl) as (_ & -> & -> & C). exists mark, others. split; [reflexivity|]. split; [assumption|]. intros k Hk Me. destruct (C k) as [|]; [apply in_seq; lia|assumption|congruence].
Qed.

Lemma unmarked_le mark : (unmarked mark <= K)%nat.
Proof.
  unfold unmarked. assert (G : forall l : list nat, (length (filter (fun k => negb (mark k)) l) <= length l)%nat) by (induction l as [|x l IHl]; simpl; [lia|destruct (mark x); simpl; lia]).
  specialize (G (seq 0 K)). now rewrite seq_length in G.
Qed.
End Grow.

Section Network.
Variables m n : nat.
Variable dom : nat -> nat -> bool.
Variable free : nat -> bool.
Variable closed : bool.
Variables low high : nat -> Z.

Local Notation network := (network m n dom free closed low high).
Local Notation need := (need m n dom free closed low high).
Local Notation cap := (cap m n dom free closed low high).
Local Notation links := (links m n dom free closed low high).
Local Notation joins := (joins m n dom free closed low high).
Local Notation least := (least low).
Local Notation loose := (loose free closed).
Local Notation V := value_node.
Local Notation D := (dummy_node m).
Local Notation X := (var_node m).
Local Notation SS := (super_source m n).
Local Notation TT := (super_sink m n).
Local Notation N := (all_nodes m n).
Local Notation base := (base_nodes m n).
Local Notation flows := (leaves N SS TT cap).
Local Notation graph := (residual_graph m n dom free closed low high).

Ltac nodes := unfold value_node, dummy_node, var_node, super_source, super_sink, all_nodes, base_nodes in *.

(** ** Assignments of values: none means a value outside the cover *)
Definition takes (asg : nat -> option nat) (j i : nat) : bool := match asg i with Some j' => Nat.eqb j' j | None => false end.
Definition outside (asg : nat -> option nat) (i : nat) : bool := match asg i with Some _ => false | None => true end.
Definition taken (asg : nat -> option nat) (j : nat) : Z := sum_over (fun i => if takes asg j i then 1 else 0) (seq 0 n).

Definition allowed (asg : nat -> option nat) : Prop :=
  (forall i, (i < n)%nat -> match asg i with Some j => (j < m)%nat /\ dom j i = true | None => loose i = true end) /\
  (forall j, (j < m)%nat -> low j <= taken asg j <= high j).

Lemma taken_bounds asg j : 0 <= taken asg j <= Z.of_nat n.
Proof.
  unfold taken. split; [apply sum_nonneg; intros i _; destruct (takes asg j i); lia|].
  assert (E : sum_over (fun _ => 1) (seq 0 n) = Z.of_nat n) by (rewrite sum_const, seq_length; lia). rewrite <- E. apply sum_le. intros i _. destruct (takes asg j i); lia.
Qed.

Lemma one_each asg i : (i < n)%nat -> allowed asg -> sum_over (fun j => if takes asg j i then 1 else 0) (seq 0 m) + (if outside asg i then 1 else 0) = 1.
Proof.
  intros Hi [Al _]. specialize (Al i Hi). unfold takes, outside. destruct (asg i) as [j|].
  - destruct Al as [Hj _]. rewrite (sum_ext _ (fun j' => if Nat.eqb j' j then 1 else 0)) by (intros j' _; rewrite Nat.eqb_sym; reflexivity). rewrite sum_one; [lia|apply seq_NoDup|apply in_seq; lia].
  - rewrite sum_zero by reflexivity. lia.
Qed.

(** *** The flow of an assignment *)
Inductive kind : Type := KS | KT | KV (j : nat) | KD | KX (i : nat) | KSS | KTT | KNone.
Definition kind_of (x : nat) : kind :=
  if Nat.eqb x 0 then KS else if Nat.eqb x 1 then KT else if Nat.ltb x (2 + m) then KV (x - 2) else if Nat.eqb x (2 + m) then KD
  else if Nat.ltb x base then KX (x - (3 + m)) else if Nat.eqb x SS then KSS else if Nat.eqb x TT then KTT else KNone.

Lemma kind_spec x : match kind_of x with KS => x = O | KT => x = 1%nat | KV j => (j < m)%nat /\ x = V j | KD => x = D | KX i => (i < n)%nat /\ x = X i | KSS => x = SS | KTT => x = TT | KNone => (N <= x)%nat end.
Proof.
  unfold kind_of. destruct (Nat.eqb_spec x 0); [assumption|]. destruct (Nat.eqb_spec x 1); [assumption|]. destruct (Nat.ltb_spec x (2 + m)); [nodes; lia|].
  destruct (Nat.eqb_spec x (2 + m)); [nodes; lia|]. destruct (Nat.ltb_spec x base); [nodes; lia|]. destruct (Nat.eqb_spec x SS); [assumption|]. destruct (Nat.eqb_spec x TT); [assumption|]. nodes. lia.
Qed.

Lemma kind_V j : (j < m)%nat -> kind_of (V j) = KV j.
Proof. intro H. pose proof (kind_spec (V j)) as K. destruct (kind_of (V j)); nodes; try lia. f_equal. lia. Qed.
Lemma kind_D : kind_of D = KD.
Proof. pose proof (kind_spec D) as K. destruct (kind_of D); nodes; try lia. reflexivity. Qed.
Lemma kind_X i : (i < n)%nat -> kind_of (X i) = KX i.
Proof. intro H. pose proof (kind_spec (X i)) as K. destruct (kind_of (X i)); nodes; try lia. f_equal. lia. Qed.
Lemma kind_SS : kind_of SS = KSS.
Proof. pose proof (kind_spec SS) as K. destruct (kind_of SS); nodes; try lia. reflexivity. Qed.
Lemma kind_TT : kind_of TT = KTT.
Proof. pose proof (kind_spec TT) as K. destruct (kind_of TT); nodes; try lia. reflexivity. Qed.

Section Star.
Variable asg : nat -> option nat.
Hypothesis Hasg : allowed asg.

Definition others : Z := sum_over (fun i => if outside asg i then 1 else 0) (seq 0 n).
Definition along (a b : kind) : Z :=
  match a, b with
  | KS, KV j => taken asg j - least j
  | KS, KD => others
  | KS, KTT => sum_over least (seq 0 m)
  | KV j, KX i => if takes asg j i then 1 else 0
  | KD, KX i => if outside asg i then 1 else 0
  | KT, KS => Z.of_nat n
  | KSS, KV j => least j
  | KSS, KT => Z.of_nat n
  | KX _, KTT => 1
  | _, _ => 0
  end.
Definition star (u v : nat) : Z := along (kind_of u) (kind_of v).
Definition star_residual : residual := fun u v => cap u v - star u v + star v u.

Lemma all_counted : sum_over (taken asg) (seq 0 m) + others = Z.of_nat n.
Proof.
  unfold taken, others. rewrite sum_swap, <- sum_plus. rewrite (sum_ext _ (fun _ => 1)), sum_const, seq_length; [lia|]. intros i J. apply in_seq in J. now apply one_each.
Qed.

Lemma others_bounds : 0 <= others <= (if closed then 0 else plenty n).
Proof.
  unfold others. split; [apply sum_nonneg; intros i _; destruct (outside asg i); lia|]. destruct closed eqn:C.
  - rewrite sum_zero; [lia|]. intros i J. apply in_seq in J. destruct Hasg as [Al _]. specialize (Al i ltac:(lia)). unfold outside. destruct (asg i); [reflexivity|]. unfold GacNetworkProofs.loose in Al. now rewrite C in Al.
  - assert (E : sum_over (fun _ => 1) (seq 0 n) = Z.of_nat n) by (rewrite sum_const, seq_length; lia). unfold plenty.
    enough (sum_over (fun i => if outside asg i then 1 else 0) (seq 0 n) <= sum_over (fun _ => 1) (seq 0 n)) by lia. apply sum_le. intros i _. destruct (outside asg i); lia.
Qed.

Lemma taken_least j : (j < m)%nat -> least j <= taken asg j <= high j.
Proof. intro Hj. destruct Hasg as [_ Al]. specialize (Al j Hj). pose proof (taken_bounds asg j). unfold GacNetworkProofs.least. lia. Qed.

Lemma star_range u v : 0 <= star u v <= cap u v.
Proof.
  assert (P : 0 <= cap u v) by (apply cap_nonneg; intros j Hj; pose proof (taken_least j Hj); lia).
  unfold star. pose proof (kind_spec u) as Ku. pose proof (kind_spec v) as Kv.
  destruct (kind_of u) as [| |j| |i| | |], (kind_of v) as [| |j'| |i'| | |]; cbn [along]; try lia.
  - destruct Kv as [Hj ->]. subst u. rewrite (cap_join _ _ _ _ _ _ _ _ _ _ (join_link _ _ _ _ _ _ _ _ _ _ _ (link_value _ _ _ _ _ _ _ j' Hj))). pose proof (taken_least j' Hj). lia.
  - subst u v. pose proof others_bounds as OB. destruct closed eqn:C; [lia|].
    rewrite (cap_join m n dom free false low high O D (plenty n - 0)); [lia|]. apply join_link. now constructor.
  - subst u v. pose proof (sum_nonneg least (seq 0 m) (fun j _ => least_nonneg low j)). destruct (Z.eq_dec (sum_over least (seq 0 m)) 0); [lia|].
    rewrite (cap_join m n dom free closed low high O TT (sum_over least (seq 0 m))); [lia|]. constructor. lia.
  - subst u v. rewrite (cap_join m n dom free closed low high 1 O (plenty n - 0)); [unfold plenty; lia|]. apply join_link. constructor.
  - destruct Ku as [Hj ->], Kv as [Hi ->]. destruct (takes asg j i') eqn:E; [|lia]. unfold takes in E. destruct Hasg as [Al _]. specialize (Al i' Hi). destruct (asg i') as [j'|]; [|discriminate]. apply Nat.eqb_eq in E. subst j'.
    rewrite (cap_join m n dom free closed low high (V j) (X i') (1 - 0)); [lia|]. apply join_link. now constructor.
  - destruct Kv as [Hi ->]. subst u. destruct (outside asg i') eqn:E; [|lia]. unfold outside in E. destruct Hasg as [Al _]. specialize (Al i' Hi). destruct (asg i') as [j'|]; [discriminate|].
    rewrite (cap_join m n dom free closed low high D (X i') (1 - 0)); [lia|]. apply join_link. now constructor.
  - destruct Ku as [Hi ->]. subst v. rewrite (cap_join m n dom free closed low high (X i) TT 1); [lia|]. now constructor.
  - subst u v. destruct (Nat.eq_dec n 0); [lia|]. rewrite (cap_join m n dom free closed low high SS 1 (Z.of_nat n)); [lia|]. constructor. lia.
  - destruct Kv as [Hj ->]. subst u. pose proof (least_nonneg low j'). destruct (Z.eq_dec (least j') 0); [lia|]. rewrite (cap_join m n dom free closed low high SS (V j') (least j')); [lia|]. constructor; [assumption|lia].
Qed.

Lemma star_flows : flows need star_residual.
Proof.
  split; [|split].
  - intros u v. unfold star_residual. pose proof (star_range u v). pose proof (star_range v u). lia.
  - intros u v. unfold star_residual. lia.
  - intros x Bx. rewrite (sum_ext _ (fun v => star v x - star x v)) by (intros; unfold star_residual; lia).
    rewrite all_sum. unfold star. rewrite kind_D, kind_SS, kind_TT. change (kind_of 0) with KS. change (kind_of 1) with KT.
    rewrite (sum_ext (fun j => along (kind_of (V j)) (kind_of x) - along (kind_of x) (kind_of (V j))) (fun j => along (KV j) (kind_of x) - along (kind_of x) (KV j))) by (intros j J; apply in_seq in J; rewrite kind_V by lia; reflexivity).
    rewrite (sum_ext (fun i => along (kind_of (X i)) (kind_of x) - along (kind_of x) (kind_of (X i))) (fun i => along (KX i) (kind_of x) - along (kind_of x) (KX i))) by (intros i J; apply in_seq in J; rewrite kind_X by lia; reflexivity).
    rewrite !sum_minus. pose proof (kind_spec x) as K. pose proof all_counted as AC. rewrite need_value.
    assert (ET : x = TT \/ x <> TT) by (destruct (Nat.eq_dec x TT); auto).
    destruct (kind_of x) as [| |j| |i| | |]; cbn [along].
    + subst x. rewrite !(sum_zero (fun _ => 0)) by reflexivity. rewrite sum_minus. destruct (Nat.eqb_spec 0 TT); [nodes; lia|]. destruct (Nat.eqb_spec 0 SS); [nodes; lia|]. lia.
    + subst x. rewrite !(sum_zero (fun _ => 0)) by reflexivity. destruct (Nat.eqb_spec 1 TT); [nodes; lia|]. destruct (Nat.eqb_spec 1 SS); [nodes; lia|]. lia.
    + destruct K as [Hj ->]. rewrite !(sum_zero (fun _ => 0)) by reflexivity. fold (taken asg j). destruct (Nat.eqb_spec (V j) TT); [nodes; lia|]. destruct (Nat.eqb_spec (V j) SS); [nodes; lia|]. lia.
    + subst x. rewrite !(sum_zero (fun _ => 0)) by reflexivity. fold others. destruct (Nat.eqb_spec D TT); [nodes; lia|]. destruct (Nat.eqb_spec D SS); [nodes; lia|]. lia.
    + destruct K as [Hi ->]. rewrite !(sum_zero (fun _ => 0)) by reflexivity. pose proof (one_each asg i Hi Hasg). destruct (Nat.eqb_spec (X i) TT); [nodes; lia|]. destruct (Nat.eqb_spec (X i) SS); [nodes; lia|]. lia.
    + subst x. rewrite !(sum_zero (fun _ => 0)) by reflexivity. rewrite Nat.eqb_refl. change (fun x0 : nat => least x0) with least. destruct (Nat.eqb_spec SS TT); [nodes; lia|]. lia.
    + subst x. rewrite !(sum_zero (fun _ => 0)) by reflexivity. rewrite sum_const, seq_length, Nat.eqb_refl. destruct (Nat.eqb_spec TT SS); [nodes; lia|]. lia.
    + lia.
Qed.
End Star.

(** ** The residual graph *)
Section Full.
Variable r : residual.
Hypothesis Hr : flows need r.

Lemma graph_In u v : (u < base)%nat -> (v < base)%nat -> In v (graph r u) <-> 0 < r u v.
Proof.
  intros Bu Bv. unfold residual_graph. rewrite in_flat_map. destruct Hr as (P & Q & _).
  assert (ONE : forall a b lo hi, links a b lo hi -> r a b + r b a = hi - lo).
  { intros a b lo hi L. rewrite Q. rewrite (cap_join _ _ _ _ _ _ _ _ _ _ (join_link _ _ _ _ _ _ _ _ _ _ _ L)).
    rewrite cap_apart; [lia|]. intros c J. inversion J as [? ? ? ? L'| | | |]; subst; [inversion L; subst; inversion L'; nodes; lia|inversion L; nodes; lia..]. }
  split.
  - intros ([[a b] [lo hi]] & I & J). apply network_In in I. specialize (ONE _ _ _ _ I). unfold flow_on in J. cbn [fst snd] in J. apply in_app_or in J. destruct J as [J|J].
    + destruct (Nat.eqb_spec a u) as [->|]; [|destruct J]. destruct (Z.ltb_spec (lo + r b u) hi); [|destruct J]. destruct J as [<-|[]]. lia.
    + destruct (Nat.eqb_spec b u) as [->|]; [|destruct J]. destruct (Z.ltb_spec lo (lo + r u a)); [|destruct J]. destruct J as [<-|[]]. lia.
  - intro R. assert (C : 0 < cap u v + cap v u) by (specialize (Q u v); specialize (P v u); lia).
    assert (BASE : forall a b, (a < base)%nat -> (b < base)%nat -> 0 < cap a b -> exists lo hi, links a b lo hi).
    { intros a b Ba Bb Cp. destruct (cap_cases m n dom free closed low high a b) as [E|J]; [lia|]. inversion J as [? ? lo hi L| | | |]; subst; [eauto|nodes; lia..]. }
    destruct (Z.ltb_spec 0 (cap u v)) as [Cu|Cu].
    + destruct (BASE u v Bu Bv Cu) as (lo & hi & L). specialize (ONE _ _ _ _ L). exists (u, v, (lo, hi)). split; [now apply network_In|]. unfold flow_on. cbn [fst snd]. apply in_or_app. left.
      rewrite Nat.eqb_refl. destruct (Z.ltb_spec (lo + r v u) hi); [now left|lia].
    + destruct (BASE v u Bv Bu ltac:(lia)) as (lo & hi & L). exists (v, u, (lo, hi)). split; [now apply network_In|]. unfold flow_on. cbn [fst snd]. apply in_or_app. right.
      rewrite Nat.eqb_refl. destruct (Z.ltb_spec lo (lo + r u v)); [now left|lia].
Qed.

Lemma graph_base u v : In v (graph r u) -> (u < base)%nat /\ (v < base)%nat.
Proof.
  unfold residual_graph. rewrite in_flat_map. intros ([[a b] [lo hi]] & I & J). apply network_In in I. assert (B : (a < base)%nat /\ (b < base)%nat) by (inversion I; nodes; lia).
  cbn [fst snd] in J. apply in_app_or in J. destruct J as [J|J].
  - destruct (Nat.eqb_spec a u) as [->|]; [|destruct J]. cbn [andb] in J. destruct (_ <? _); [|destruct J]. destruct J as [<-|[]]. assumption.
  - destruct (Nat.eqb_spec b u) as [->|]; [|destruct J]. cbn [andb] in J. destruct (_ <? _); [|destruct J]. destruct J as [<-|[]]. tauto.
Qed.

Lemma full_ends x : (x < base)%nat -> r SS x = 0 /\ r x TT = 0.
Proof.
  intro Bx. destruct (feasible_facts Hr eq_refl) as (E1 & E2 & E3 & E4).
  destruct (base_cases m n x Bx) as [->|[->|[(j & Hj & ->)|[->|(i & Hi & ->)]]]].
  - split; [|pose proof (owed_range Hr); lia]. apply (apart_zero Hr); apply cap_apart; intros c J; inversion J as [? ? ? ? L| | | |]; subst; try (inversion L); nodes; lia.
  - split; [pose proof (supply_range Hr); lia|]. apply (apart_zero Hr); apply cap_apart; intros c J; inversion J as [? ? ? ? L| | | |]; subst; try (inversion L); nodes; lia.
  - split; [pose proof (B_range Hr j Hj); specialize (E2 j Hj); lia|]. apply (apart_zero Hr); apply cap_apart; intros c J; inversion J as [? ? ? ? L| | | |]; subst; try (inversion L); nodes; lia.
  - split; apply (apart_zero Hr); apply cap_apart; intros c J; inversion J as [? ? ? ? L| | | |]; subst; try (inversion L); nodes; lia.
  - split; [|pose proof (out_range Hr i Hi); specialize (E3 i Hi); lia]. apply (apart_zero Hr); apply cap_apart; intros c J; inversion J as [? ? ? ? L| | | |]; subst; try (inversion L); nodes; lia.
Qed.
End Full.

(** Two full flows agree on what enters a set that nothing can leave. *)
Lemma same_across r r' (R : nat -> bool) : flows need r -> flows need r' -> (forall u, R u = true -> (u < base)%nat) ->
  (forall u v, (v < base)%nat -> R u = true -> R v = false -> r u v = 0) ->
  forall x v, R x = true -> (v < base)%nat -> R v = false -> r v x = r' v x.
Proof.
  intros Hr Hr' RB Cl x v Rx Bv Rv.
  set (d := fun v x => r v x - r' v x).
  assert (Skew : forall u w, d u w = - d w u) by (intros u w; unfold d; destruct Hr as (_ & Q & _), Hr' as (_ & Q' & _); specialize (Q u w); specialize (Q' u w); lia).
  assert (Zero : forall w, (w < N)%nat -> sum_over (fun u => d u w) (seq 0 N) = 0).
  { intros w Bw. destruct Hr as (_ & _ & K), Hr' as (_ & _ & K'). specialize (K w Bw). specialize (K' w Bw). rewrite (sum_ext _ (fun u => (cap u w - r' u w) - (cap u w - r u w))) by (intros; unfold d; lia). rewrite sum_minus. lia. }
  assert (Inner : sum_over (fun w => if R w then sum_over (fun u => if R u then d u w else 0) (seq 0 N) else 0) (seq 0 N) = 0).
  { set (s := sum_over _ _). assert (s = - s); [|lia]. unfold s at 1.
    rewrite (sum_ext _ (fun w => sum_over (fun u => if R w then if R u then d u w else 0 else 0) (seq 0 N))) by (intros w _; destruct (R w); [reflexivity|now rewrite sum_zero]).
    rewrite sum_swap. unfold s. rewrite <- sum_opp. apply sum_ext. intros w _. destruct (R w).
    - rewrite <- sum_opp. apply sum_ext. intros u _. destruct (R u); [|reflexivity]. apply Skew.
    - rewrite sum_zero; [reflexivity|]. intros u _. now destruct (R u). }
  set (cross := fun w => if R w then sum_over (fun u => if R u then 0 else d u w) (seq 0 N) else 0).
  assert (Outer : sum_over cross (seq 0 N) = 0).
  { assert (E : sum_over (fun w => if R w then sum_over (fun u => d u w) (seq 0 N) else 0) (seq 0 N) = 0).
    { apply sum_zero. intros w J. apply in_seq in J. destruct (R w); [|reflexivity]. apply Zero. lia. }
    rewrite (sum_ext _ (fun w => (if R w then sum_over (fun u => if R u then d u w else 0) (seq 0 N) else 0) + cross w)) in E.
    - rewrite sum_plus, Inner in E. lia.
    - intros w _. unfold cross. destruct (R w); [|reflexivity]. rewrite <- sum_plus. apply sum_ext. intros u _. destruct (R u); lia. }
  assert (Pos : forall w u, R w = true -> R u = false -> (u < N)%nat -> 0 <= d u w).
  { intros w u Rw Ru Bu. destruct (Nat.ltb_spec u base) as [Bb|Bb].
    - rewrite Skew. unfold d. rewrite (Cl w u Bb Rw Ru). destruct Hr' as (P & _). specialize (P w u). lia.
    - pose proof (RB w Rw) as Bw. destruct (full_ends r Hr w Bw) as [E1 E2]. destruct (full_ends r' Hr' w Bw) as [E1' E2']. assert (u = SS \/ u = TT) as [-> | ->] by (nodes; lia).
      + unfold d. lia.
      + rewrite Skew. unfold d. lia. }
  assert (C0 : cross x = 0).
  { symmetry. apply (sum_tight (fun _ => 0) cross (seq 0 N)); [|rewrite Outer, sum_zero by reflexivity; lia|apply in_seq; specialize (RB x Rx); nodes; lia].
    intros w J. unfold cross. destruct (R w) eqn:Rw; [|lia]. apply sum_nonneg. intros u Ju. apply in_seq in Ju. destruct (R u) eqn:Ru; [lia|]. apply Pos; auto. lia. }
  unfold cross in C0. rewrite Rx in C0.
  assert (V0 : (if R v then 0 else d v x) = 0).
  { symmetry. apply (sum_tight (fun _ => 0) (fun u => if R u then 0 else d u x) (seq 0 N)); [|rewrite C0, sum_zero by reflexivity; lia|apply in_seq; nodes; lia].
    intros u Ju. apply in_seq in Ju. destruct (R u) eqn:Ru; [lia|]. apply Pos; auto. lia. }
  rewrite Rv in V0. unfold d in V0. lia.
Qed.

Lemma levels_reach succ k s w : (forall u v, (u < k)%nat -> In v (succ u) -> (v < k)%nat) -> (s < k)%nat -> 0 <= levels succ k s w -> reach succ s w.
Proof.
  intros Hn Hs L. destruct (levels_spec succ k Hn s Hs) as (R & Z0 & _). cbn zeta in R. set (lv := levels succ k s) in *.
  assert (G : forall l w, lv w = Z.of_nat l -> reach succ s w).
  { induction l as [|l IH]; intros x E; (destruct (R x) as [_ [->|(u & Hu & Iu & Eu)]]; [lia|apply rt_refl|]); [lia|]. eapply rt_trans; [apply (IH u); lia|now apply rt_step]. }
  apply (G (Z.to_nat (lv w))). lia.
Qed.

(** An arc into [x] that is not on a cycle is the same in each full flow. *)
Lemma crossing_same r r' x y : flows need r -> flows need r' -> (x < base)%nat -> (y < base)%nat -> 0 < r y x ->
  components m n dom free closed low high r y <> components m n dom free closed low high r x -> r y x = r' y x.
Proof.
  intros Hr Hr' Bx By P C.
  assert (GB : forall u v, (u < base)%nat -> In v (graph r u) -> (v < base)%nat) by (intros u v _ J; now apply (graph_base r) in J).
  destruct (levels_spec (graph r) base GB x Bx) as (Re & Z0 & Cl). cbn zeta in *.
  set (R := fun u => 0 <=? levels (graph r) base x u).
  assert (Ry : R y = false).
  { destruct (R y) eqn:E; [|reflexivity]. exfalso. unfold R in E. apply Z.leb_le in E. apply C. unfold components. apply (components_correct (graph r) base GB); try assumption.
    split; [apply rt_step; now apply (graph_In r Hr)|]. now apply (levels_reach (graph r) base). }
  apply (same_across r r' R Hr Hr'); auto.
  - intros u E. unfold R in E. apply Z.leb_le in E. now destruct (Re u E).
  - intros u v Bv Ru Rv. unfold R in Ru, Rv. apply Z.leb_le in Ru. apply Z.leb_gt in Rv. destruct (Re u Ru) as [Bu _]. pose proof (proj1 Hr u v) as Pn. destruct (Z.eq_dec (r u v) 0); [assumption|exfalso].
    assert (0 <= levels (graph r) base x v); [|lia]. apply (Cl u); [assumption|]. apply (graph_In r Hr); auto. lia.
  - unfold R. rewrite Z0. reflexivity.
Qed.

(** *** Pruning is sound *)
Lemma assigned_F f r j i : flows f r -> (j < m)%nat -> (i < n)%nat -> assigned m dom r j i = F m r j i.
Proof. intros Hr Hj Hi. pose proof (F_range Hr j i Hj Hi) as FR. unfold assigned. destruct (dom j i); [reflexivity|]. destruct FR as [E _]. now rewrite E. Qed.

Lemma dummy_G f r i : flows f r -> (i < n)%nat -> dummy_flow m free closed r i = G m r i.
Proof. intros Hr Hi. pose proof (G_range Hr i Hi) as GR. unfold dummy_flow. change (negb closed && free i) with (loose i). destruct (loose i); [reflexivity|]. destruct GR as [E _]. now rewrite E. Qed.

Lemma crossing_In r j i : In (j, i) (crossing m n dom free closed low high r) <->
  (j < m)%nat /\ (i < n)%nat /\ dom j i = true /\ assigned m dom r j i = 0 /\ components m n dom free closed low high r (V j) <> components m n dom free closed low high r (X i).
Proof.
  unfold crossing. rewrite in_flat_map. split.
  - intros (j' & Hj & I). apply in_flat_map in I. destruct I as (i' & Hi & I). apply in_seq in Hj, Hi. match type of I with In _ (if ?b then _ else _) => destruct b eqn:E end; [|destruct I]. destruct I as [I|[]]. injection I as -> ->.
    apply andb_prop in E. destruct E as [E1 E2]. apply andb_prop in E2. destruct E2 as [E2 E3]. apply Z.eqb_eq in E2. apply negb_true_iff, Nat.eqb_neq in E3. repeat split; auto; lia.
  - intros (Hj & Hi & E1 & E2 & E3). exists j. split; [apply in_seq; lia|]. apply in_flat_map. exists i. split; [apply in_seq; lia|]. rewrite E1, E2. apply Nat.eqb_neq in E3. rewrite E3. now left.
Qed.

Lemma crossing_dummy_In r i : In i (crossing_dummy m n dom free closed low high r) <->
  (i < n)%nat /\ loose i = true /\ dummy_flow m free closed r i = 0 /\ components m n dom free closed low high r D <> components m n dom free closed low high r (X i).
Proof.
  unfold crossing_dummy. rewrite filter_In, in_seq. rewrite !andb_true_iff, negb_true_iff, Z.eqb_eq. rewrite negb_true_iff, Nat.eqb_neq. unfold GacNetworkProofs.loose. rewrite andb_true_iff, negb_true_iff. intuition lia.
Qed.

Lemma crossing_sound r asg j i : flows need r -> allowed asg -> In (j, i) (crossing m n dom free closed low high r) -> asg i <> Some j.
Proof.
  intros Hr Al J E. apply crossing_In in J. destruct J as (Hj & Hi & Dj & A0 & C). rewrite (assigned_F _ _ _ _ Hr Hj Hi) in A0.
  pose proof (F_range Hr j i Hj Hi) as FR. rewrite Dj in FR. pose proof (star_flows asg Al) as Hs.
  assert (Ey : r (V j) (X i) = star_residual asg (V j) (X i)) by (apply crossing_same; auto; nodes; lia).
  pose proof (F_range Hs j i Hj Hi) as FS. rewrite Dj in FS. assert (Fs : F m (star_residual asg) j i = 1); [|lia].
  unfold F, star_residual, star. rewrite kind_V, kind_X by assumption. cbn [along]. unfold takes. rewrite E, Nat.eqb_refl.
  rewrite cap_apart; [lia|]. intros c Jc. inversion Jc as [? ? ? ? L| | | |]; subst; try (inversion L); nodes; lia.
Qed.

Lemma crossing_dummy_sound r asg i : flows need r -> allowed asg -> In i (crossing_dummy m n dom free closed low high r) -> asg i <> None.
Proof.
  intros Hr Al J E. apply crossing_dummy_In in J. destruct J as (Hi & Di & A0 & C). rewrite (dummy_G _ _ _ Hr Hi) in A0.
  pose proof (G_range Hr i Hi) as FR. rewrite Di in FR. pose proof (star_flows asg Al) as Hs.
  assert (Ey : r D (X i) = star_residual asg D (X i)) by (apply crossing_same; auto; nodes; lia).
  pose proof (G_range Hs i Hi) as FS. rewrite Di in FS. assert (Fs : G m (star_residual asg) i = 1); [|lia].
  unfold G, star_residual, star. rewrite kind_D, kind_X by assumption. cbn [along]. unfold outside. rewrite E.
  rewrite cap_apart; [lia|]. intros c Jc. inversion Jc as [? ? ? ? L| | | |]; subst; try (inversion L); nodes; lia.
Qed.

(** ** Pruning is complete *)
Definition read_off (r : residual) (i : nat) : option nat := find (fun j => dom j i && (assigned m dom r j i =? 1)) (seq 0 m).

Lemma one_F r i : flows need r -> (i < n)%nat -> sum_over (fun j => F m r j i) (seq 0 m) + G m r i = 1.
Proof. intros Hr Hi. rewrite (kept_var Hr i Hi). destruct (feasible_facts Hr eq_refl) as (_ & _ & E & _). now apply E. Qed.

Lemma F_nonneg f r j i : flows f r -> (j < m)%nat -> (i < n)%nat -> 0 <= F m r j i <= 1.
Proof. intros Hr Hj Hi. pose proof (F_range Hr j i Hj Hi) as FR. destruct (dom j i); lia. Qed.

Lemma G_nonneg f r i : flows f r -> (i < n)%nat -> 0 <= G m r i <= 1.
Proof. intros Hr Hi. pose proof (G_range Hr i Hi) as GR. destruct (loose i); lia. Qed.

Lemma read_off_some r i j : flows need r -> (i < n)%nat -> read_off r i = Some j -> (j < m)%nat /\ dom j i = true /\ F m r j i = 1.
Proof.
  intros Hr Hi E. unfold read_off in E. apply find_some in E. destruct E as [J E]. apply in_seq in J. apply andb_prop in E. destruct E as [E1 E2]. apply Z.eqb_eq in E2. rewrite (assigned_F _ _ _ _ Hr) in E2 by lia. repeat split; auto; lia.
Qed.

Lemma read_off_is r i j : flows need r -> (i < n)%nat -> (j < m)%nat -> F m r j i = 1 -> read_off r i = Some j.
Proof.
  intros Hr Hi Hj E. destruct (read_off r i) as [j'|] eqn:R.
  - destruct (read_off_some r i j' Hr Hi R) as (Hj' & _ & E'). destruct (Nat.eq_dec j' j) as [->|Ne]; [reflexivity|exfalso].
    pose proof (sum_two (fun j => F m r j i) j' j (seq 0 m) (seq_NoDup _ _)) as T. cbn beta in T. rewrite E, E' in T.
    assert (1 + 1 <= sum_over (fun j => F m r j i) (seq 0 m)). { apply T; auto; try (apply in_seq; lia). intros z Jz. apply in_seq in Jz. now apply (F_nonneg need). }
    pose proof (one_F r i Hr Hi). pose proof (G_nonneg _ r i Hr Hi). lia.
  - exfalso. unfold read_off in R. pose proof (find_none _ _ R j ltac:(apply in_seq; lia)) as Nf. cbn beta in Nf. rewrite (assigned_F _ _ _ _ Hr Hj Hi), E in Nf.
    pose proof (F_range Hr j i Hj Hi) as FR. destruct (dom j i); [discriminate|]. lia.
Qed.

Lemma read_off_none r i : flows need r -> (i < n)%nat -> (read_off r i = None <-> G m r i = 1).
Proof.
  intros Hr Hi. pose proof (one_F r i Hr Hi) as O. split.
  - intro R. rewrite sum_zero in O; [lia|]. intros j Jj. apply in_seq in Jj. pose proof (F_nonneg _ r j i Hr ltac:(lia) Hi). destruct (Z.eq_dec (F m r j i) 1) as [E|]; [|lia].
    apply (read_off_is r i j Hr Hi ltac:(lia)) in E. congruence.
  - intro G1. destruct (read_off r i) as [j|] eqn:R; [|reflexivity]. destruct (read_off_some r i j Hr Hi R) as (Hj & _ & E).
    assert (F m r j i <= sum_over (fun j => F m r j i) (seq 0 m)); [|lia]. apply (sum_term (fun j => F m r j i)); [|apply in_seq; lia]. intros z Jz. apply in_seq in Jz. now apply (F_nonneg need).
Qed.

Lemma read_off_allowed r : flows need r -> allowed (read_off r).
Proof.
  intro Hr. split.
  - intros i Hi. destruct (read_off r i) as [j|] eqn:R.
    + destruct (read_off_some r i j Hr Hi R) as (Hj & E & _). auto.
    + apply (read_off_none r i Hr Hi) in R. pose proof (G_range Hr i Hi) as GR. destruct (loose i); [reflexivity|lia].
  - intros j Hj. assert (E : taken (read_off r) j = A r j + B m n r j).
    { rewrite (kept_value Hr j Hj). unfold taken. apply sum_ext. intros i J. apply in_seq in J. unfold takes. destruct (read_off r i) as [j'|] eqn:R.
      - destruct (read_off_some r i j' Hr ltac:(lia) R) as (_ & _ & E'). destruct (Nat.eqb_spec j' j) as [->|Ne]; [lia|].
        pose proof (F_nonneg _ r j i Hr Hj ltac:(lia)). destruct (Z.eq_dec (F m r j i) 1) as [E|]; [|lia]. apply (read_off_is r i j Hr ltac:(lia) Hj) in E. congruence.
      - pose proof (F_nonneg _ r j i Hr Hj ltac:(lia)). destruct (Z.eq_dec (F m r j i) 1) as [E|]; [|lia]. apply (read_off_is r i j Hr ltac:(lia) Hj) in E. congruence. }
    destruct (feasible_facts Hr eq_refl) as (_ & EB & _). rewrite E, (EB j Hj). pose proof (A_range Hr j Hj). unfold GacNetworkProofs.least in *. lia.
Qed.

(** Pushing round a cycle. *)
Lemma swap r x y : flows need r -> (x < base)%nat -> (y < base)%nat -> x <> y -> r y x = 1 -> r x y = 0 -> reach (graph r) x y ->
  exists r', flows need r' /\ r' x y = 1.
Proof.
  intros Hr Bx By Ne E1 E0 Re. destruct Hr as (P & Q & K).
  set (on := fun a b => (Nat.eqb a y && Nat.eqb b x) || (Nat.eqb a x && Nat.eqb b y)).
  set (r0 := fun a b => if on a b then 0 else r a b : Z).
  set (adj := fun _ : nat => seq 0 base).
  assert (Hadj : forall u v, (u < N)%nat -> In v (adj u) -> (v < N)%nat) by (intros u v _ J; apply in_seq in J; nodes; lia).
  assert (P0 : nonneg r0) by (intros a b; unfold r0; destruct (on a b); [lia|apply P]).
  assert (Hop : forall u v, (u < N)%nat -> In v (open_from adj r0 u) -> (v < N)%nat).
  { intros u v Bu J. unfold open_from in J. apply filter_In in J. now apply (Hadj u). }
  assert (BxN : (x < N)%nat) by (nodes; lia). assert (ByN : (y < N)%nat) by (nodes; lia).
  destruct (levels_spec (open_from adj r0) N Hop x BxN) as (_ & Z0 & Cl). cbn zeta in *. pose proof (levels_bound (open_from adj r0) N Hop x BxN) as LB.
  set (L := levels (open_from adj r0) N x) in *.
  assert (Ly : 0 <= L y).
  { destruct (Z.ltb_spec (L y) 0) as [Neg|]; [exfalso|assumption].
    assert (G : forall w, reach (graph r) x w -> 0 <= L w).
    { intros w Rw. apply clos_rt_rtn1 in Rw. induction Rw as [|u w Ed _ IH]; [lia|]. unfold SccSpec.edge in Ed. destruct (graph_base r _ _ Ed) as [Bu Bw].
      apply (graph_In r (conj P (conj Q K)) u w Bu Bw) in Ed. apply (Cl u); [assumption|]. unfold open_from. apply filter_In. split; [apply in_seq; lia|]. apply Z.ltb_lt. unfold r0, on.
      destruct (Nat.eqb_spec u y) as [->|]; [lia|]. destruct (Nat.eqb_spec u x) as [->|]; [|simpl; assumption]. destruct (Nat.eqb_spec w y) as [->|]; [lia|]. simpl. assumption. }
    specialize (G y Re). lia. }
  pose proof (levels_lead N adj Hadj x y BxN ByN Ne r0 Ly) as Le. fold L in Le.
  pose proof (dfs_good N adj Hadj x y BxN ByN Ne L N x 1 (fun _ => O) r0 BxN ltac:(lia) P0) as Go.
  pose proof (dfs_finds N adj Hadj x y BxN ByN Ne L LB N x 1 (fun _ => O) r0 BxN ltac:(lia) P0 ltac:(lia) ltac:(intros w k v Hk; lia)) as Fi.
  destruct (dfs adj y L N x 1 (fun _ => O) r0) as [[g it] r1]. destruct Go as (G1 & G2 & G3 & G4 & _ & _ & _).
  destruct (Z.eq_dec g 0) as [->|Ng]; [destruct (Fi eq_refl); contradiction|]. assert (g = 1) by lia. subst g.
  assert (Exy : r1 x y = 0 /\ r1 y x = 0).
  { specialize (G3 x y). unfold r0, on in G3. rewrite !Nat.eqb_refl, !orb_true_r in G3. simpl in G3. pose proof (G2 x y). pose proof (G2 y x). lia. }
  exists (fun a b => if Nat.eqb a y && Nat.eqb b x then 0 else if Nat.eqb a x && Nat.eqb b y then 1 else r1 a b).
  split; [split; [|split]|].
  - intros a b. destruct (_ && _); [lia|]. destruct (_ && _); [lia|apply G2].
  - intros a b. rewrite <- Q. specialize (G3 a b). unfold r0, on in G3.
    destruct (Nat.eqb_spec a y), (Nat.eqb_spec b x), (Nat.eqb_spec b y), (Nat.eqb_spec a x); try (exfalso; congruence); subst; simpl in *; lia.
  - intros z Bz. rewrite <- (K z Bz). specialize (G4 z Bz).
    assert (Pair : sum_over (fun v => (if Nat.eqb v y then (if Nat.eqb z x then 1 else 0) else 0) - (if Nat.eqb v x then (if Nat.eqb z y then 1 else 0) else 0)) (seq 0 N) = (if Nat.eqb z x then 1 else 0) - (if Nat.eqb z y then 1 else 0)).
    { rewrite sum_minus, !sum_one; [reflexivity|apply seq_NoDup|apply in_seq; lia|apply seq_NoDup|apply in_seq; lia]. }
    rewrite (sum_ext _ (fun v => (cap v z - r v z) + (((if Nat.eqb v y then (if Nat.eqb z x then 1 else 0) else 0) - (if Nat.eqb v x then (if Nat.eqb z y then 1 else 0) else 0)) + (r0 v z - r1 v z)))).
    + rewrite sum_plus, sum_plus, Pair, G4. destruct (Nat.eqb_spec z y), (Nat.eqb_spec z x); lia.
    + intros v _. unfold r0, on. destruct (Nat.eqb_spec v y), (Nat.eqb_spec z x), (Nat.eqb_spec z y), (Nat.eqb_spec v x); try (exfalso; congruence); subst; cbn [andb orb]; lia.
  - rewrite !Nat.eqb_refl. destruct (Nat.eqb_spec x y); [contradiction|]. reflexivity.
Qed.

Lemma kept_edge r j i : flows need r -> (j < m)%nat -> (i < n)%nat -> dom j i = true -> ~ In (j, i) (crossing m n dom free closed low high r) -> exists asg, allowed asg /\ asg i = Some j.
Proof.
  intros Hr Hj Hi Dj NC. pose proof (F_range Hr j i Hj Hi) as FR. rewrite Dj in FR. destruct (Z.eq_dec (F m r j i) 1) as [E|E].
  - exists (read_off r). split; [now apply read_off_allowed|]. now apply read_off_is.
  - assert (F0 : F m r j i = 0) by lia.
    assert (GB : forall u v, (u < base)%nat -> In v (graph r u) -> (v < base)%nat) by (intros u v _ J; now apply (graph_base r) in J).
    assert (BV : (V j < base)%nat) by (nodes; lia). assert (BX : (X i < base)%nat) by (nodes; lia).
    assert (C : components m n dom free closed low high r (V j) = components m n dom free closed low high r (X i)).
    { destruct (Nat.eq_dec (components m n dom free closed low high r (V j)) (components m n dom free closed low high r (X i))) as [|Ne]; [assumption|exfalso]. apply NC. apply crossing_In. rewrite (assigned_F _ _ _ _ Hr Hj Hi). auto. }
    apply (components_correct (graph r) base GB (V j) (X i) BV BX) in C. destruct C as [_ Re].
    destruct (swap r (X i) (V j) Hr BX BV) as (r' & Hr' & E'); [nodes; lia|lia|exact F0|assumption|].
    exists (read_off r'). split; [now apply read_off_allowed|]. now apply read_off_is.
Qed.

Lemma kept_outside r i : flows need r -> (i < n)%nat -> loose i = true -> ~ In i (crossing_dummy m n dom free closed low high r) -> exists asg, allowed asg /\ asg i = None.
Proof.
  intros Hr Hi Di NC. pose proof (G_range Hr i Hi) as GR. rewrite Di in GR. destruct (Z.eq_dec (G m r i) 1) as [E|E].
  - exists (read_off r). split; [now apply read_off_allowed|]. now apply read_off_none.
  - assert (G0 : G m r i = 0) by lia.
    assert (GB : forall u v, (u < base)%nat -> In v (graph r u) -> (v < base)%nat) by (intros u v _ J; now apply (graph_base r) in J).
    assert (BV : (D < base)%nat) by (nodes; lia). assert (BX : (X i < base)%nat) by (nodes; lia).
    assert (C : components m n dom free closed low high r D = components m n dom free closed low high r (X i)).
    { destruct (Nat.eq_dec (components m n dom free closed low high r D) (components m n dom free closed low high r (X i))) as [|Ne]; [assumption|exfalso]. apply NC. apply crossing_dummy_In. rewrite (dummy_G _ _ _ Hr Hi). auto. }
    apply (components_correct (graph r) base GB D (X i) BV BX) in C. destruct C as [_ Re].
    destruct (swap r (X i) D Hr BX BV) as (r' & Hr' & E'); [nodes; lia|lia|exact G0|assumption|].
    exists (read_off r'). split; [now apply read_off_allowed|]. now apply read_off_none.
Qed.
End Network.
