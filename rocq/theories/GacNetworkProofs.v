(** Proofs about the network in [GacCardinality]. *)
From Coq Require Import ZArith List Bool Arith Lia.
From Verif Require Import Scc SccSpec SccProofs MaxFlow MaxFlowProofs GacCardinality.
Import ListNotations.
Local Open Scope Z_scope.

(** ** Capacities *)
Lemma capacity_found (es : list MaxFlow.edge) u v c : In (u, v, c) es -> (forall c', In (u, v, c') es -> c' = c) -> capacity_of es u v = c.
Proof.
  intros I U. unfold capacity_of. match goal with |- context [@find ?ty ?p ?l] => destruct (@find ty p l) as [[[a b] x]|] eqn:E end.
  - apply find_some in E. destruct E as [J E]. simpl in E. apply andb_prop in E. destruct E as [E1 E2]. apply Nat.eqb_eq in E1, E2. subst a b. exact (U _ J).
  - apply (find_none _ _ E) in I. simpl in I. rewrite !Nat.eqb_refl in I. discriminate.
Qed.

Lemma capacity_none (es : list MaxFlow.edge) u v : (forall c, ~ In (u, v, c) es) -> capacity_of es u v = 0.
Proof.
  intro N. unfold capacity_of. match goal with |- context [@find ?ty ?p ?l] => destruct (@find ty p l) as [[[a b] x]|] eqn:E end; [|reflexivity].
  apply find_some in E. destruct E as [J E]. simpl in E. apply andb_prop in E. destruct E as [E1 E2]. apply Nat.eqb_eq in E1, E2. subst a b. destruct (N _ J).
Qed.

Lemma neighbours_In (es : list MaxFlow.edge) u v c : In (u, v, c) es -> In v (neighbours es u) /\ In u (neighbours es v).
Proof.
  intro I. unfold neighbours. split; apply in_flat_map; exists (u, v, c); (split; [assumption|]); simpl.
  - rewrite Nat.eqb_refl. now left.
  - destruct (Nat.eqb_spec u v) as [->|]; [now left|]. rewrite Nat.eqb_refl. now left.
Qed.

Lemma neighbours_bound (es : list MaxFlow.edge) N : (forall u v c, In (u, v, c) es -> (u < N)%nat /\ (v < N)%nat) -> forall u v, In v (neighbours es u) -> (v < N)%nat.
Proof.
  intros B u v J. unfold neighbours in J. apply in_flat_map in J. destruct J as (((a & b) & c) & I & J). simpl in J. destruct (B _ _ _ I).
  destruct (Nat.eqb a u); [destruct J as [<-|[]]; assumption|]. destruct (Nat.eqb b u); [destruct J as [<-|[]]; assumption|destruct J].
Qed.

Section Network.
Variables m n : nat.
Variable dom : nat -> nat -> bool.
Variable free : nat -> bool.
Variable closed : bool.
Variables low high : nat -> Z.

Local Notation network := (network m n dom free closed low high).
Local Notation excess := (excess m n dom free closed low high).
Local Notation edges := (edges m n dom free closed low high).
Local Notation need := (need m n dom free closed low high).
Local Notation V := value_node.
Local Notation D := (dummy_node m).
Local Notation X := (var_node m).
Local Notation SS := (super_source m n).
Local Notation TT := (super_sink m n).
Local Notation N := (all_nodes m n).

Definition least (j : nat) : Z := Z.max 0 (low j).
Definition loose (i : nat) : bool := negb closed && free i.

Hypothesis Hcap : forall j, (j < m)%nat -> least j <= high j.

Inductive links : nat -> nat -> Z -> Z -> Prop :=
| link_value j : (j < m)%nat -> links 0 (V j) (least j) (high j)
| link_take j i : (j < m)%nat -> (i < n)%nat -> dom j i = true -> links (V j) (X i) 0 1
| link_dummy : closed = false -> links 0 D 0 (plenty n)
| link_free i : (i < n)%nat -> loose i = true -> links D (X i) 0 1
| link_var i : (i < n)%nat -> links (X i) 1 1 1
| link_back : links 1 0 0 (plenty n).

Lemma network_In u v a b : In (u, v, (a, b)) network <-> links u v a b.
Proof.
  unfold GacCardinality.network. rewrite !in_app_iff. split.
  - intros [I|[I|[I|I]]].
    + apply in_flat_map in I. destruct I as (j & Hj & [E|I]); apply in_seq in Hj.
      * injection E as <- <- <- <-. constructor. lia.
      * apply in_flat_map in I. destruct I as (i & Hi & I). apply in_seq in Hi. destruct (dom j i) eqn:E; [|destruct I]. destruct I as [I|[]]. injection I as <- <- <- <-. constructor; auto; lia.
    + destruct closed eqn:C; [destruct I|]. destruct I as [I|I]; [injection I as <- <- <- <-; now constructor|].
      apply in_flat_map in I. destruct I as (i & Hi & I). apply in_seq in Hi. destruct (free i) eqn:E; [|destruct I]. destruct I as [I|[]]. injection I as <- <- <- <-. constructor; [lia|]. unfold loose. now rewrite E, C.
    + apply in_map_iff in I. destruct I as (i & E & Hi). apply in_seq in Hi. injection E as <- <- <- <-. constructor. lia.
    + destruct I as [I|[]]. injection I as <- <- <- <-. constructor.
  - intro L. destruct L as [j Hj|j i Hj Hi E|E|i Hi E|i Hi|].
    + left. apply in_flat_map. exists j. split; [apply in_seq; lia|now left].
    + left. apply in_flat_map. exists j. split; [apply in_seq; lia|]. right. apply in_flat_map. exists i. split; [apply in_seq; lia|]. rewrite E. now left.
    + right. left. rewrite E. now left.
    + right. left. unfold loose in E. apply andb_prop in E. destruct E as [C E]. destruct closed; [discriminate|]. right. apply in_flat_map. exists i. split; [apply in_seq; lia|]. rewrite E. now left.
    + right. right. left. apply in_map_iff. exists i. split; [reflexivity|apply in_seq; lia].
    + right. right. right. now left.
Qed.

(** *** Excess *)
Definition gain (x : nat) (e : nat * nat * (Z * Z)) : Z := (if Nat.eqb (snd (fst e)) x then fst (snd e) else 0) - (if Nat.eqb (fst (fst e)) x then fst (snd e) else 0).
Definition gains (x : nat) (es : list (nat * nat * (Z * Z))) : Z := fold_right (fun e a => gain x e + a) 0 es.

Lemma gains_app x es es' : gains x (es ++ es') = gains x es + gains x es'.
Proof. induction es as [|e es IH]; simpl; lia. Qed.

Lemma gains_flat_map x (f : nat -> list (nat * nat * (Z * Z))) l : gains x (flat_map f l) = sum_over (fun k => gains x (f k)) l.
Proof. induction l as [|k l IH]; simpl; [reflexivity|]. rewrite gains_app, IH. reflexivity. Qed.

Lemma gains_zero x es : (forall e, In e es -> fst (snd e) = 0) -> gains x es = 0.
Proof. induction es as [|e es IH]; intro H; simpl; [reflexivity|]. unfold gain at 1. rewrite (H e) by now left. rewrite IH; [destruct (Nat.eqb _ _), (Nat.eqb _ _); reflexivity|]. intros e' J. apply H. now right. Qed.

Lemma excess_sums x : excess x = sum_over (fun j => gain x (O, V j, (least j, high j))) (seq 0 m) + sum_over (fun i => gain x (X i, 1%nat, (1, 1))) (seq 0 n).
Proof.
  change (excess x) with (gains x network). unfold GacCardinality.network. rewrite !gains_app.
  assert (E2 : forall (b : bool) es, gains x es = 0 -> gains x (if b then [] else es) = 0) by (intros [|] es E; [reflexivity|assumption]).
  rewrite (E2 closed).
  - assert (EM : forall l, gains x (map (fun i => (X i, 1%nat, (1, 1))) l) = sum_over (fun i => gain x (X i, 1%nat, (1, 1))) l) by (induction l as [|i l IH]; simpl; [reflexivity|now rewrite IH]).
    rewrite EM. rewrite (gains_zero x [_]) by (intros e [<-|[]]; reflexivity). rewrite gains_flat_map.
    rewrite (sum_ext (fun k => gains x (_ :: _)) (fun j => gain x (O, V j, (least j, high j)))); [lia|].
    intros j _. unfold gains at 1. cbn [fold_right]. fold (gains x (flat_map (fun i => if dom j i then [(V j, X i, (0, 1))] else []) (seq 0 n))).
    rewrite gains_zero; [unfold least; lia|]. intros e J. apply in_flat_map in J. destruct J as (i & _ & J). destruct (dom j i); [|destruct J]. destruct J as [<-|[]]. reflexivity.
  - apply gains_zero. intros e [<-|J]; [reflexivity|]. apply in_flat_map in J. destruct J as (i & _ & J). destruct (free i); [|destruct J]. destruct J as [<-|[]]. reflexivity.
Qed.

Lemma excess_source : excess O = - sum_over least (seq 0 m).
Proof.
  rewrite excess_sums. rewrite (sum_ext (fun j0 => gain O (O, V j0, (least j0, high j0))) (fun j => - least j)) by (intros; reflexivity). rewrite sum_opp, (sum_zero (fun i0 => gain O (X i0, 1%nat, (1, 1)))) by reflexivity. lia.
Qed.

Lemma sum_const k l : sum_over (fun _ => k) l = k * Z.of_nat (length l).
Proof. induction l as [|x l IH]; simpl; lia. Qed.

Lemma excess_sink : excess 1%nat = Z.of_nat n.
Proof.
  rewrite excess_sums, (sum_zero (fun j0 => gain 1%nat (O, V j0, (least j0, high j0)))), (sum_ext _ (fun _ => 1)) by reflexivity. rewrite sum_const, seq_length. lia.
Qed.

Lemma excess_value j : (j < m)%nat -> excess (V j) = least j.
Proof.
  intro Hj. rewrite excess_sums, (sum_zero (fun i0 => gain (V j) (X i0, 1%nat, (1, 1)))).
  - rewrite (sum_ext _ (fun j' => if Nat.eqb j' j then least j else 0)), sum_one; [lia|apply seq_NoDup|apply in_seq; lia|].
    intros j' _. unfold gain, value_node. cbn [fst snd]. destruct (Nat.eqb_spec j' j) as [->|Nj]; [rewrite Nat.eqb_refl; simpl; lia|].
    destruct (Nat.eqb_spec (2 + j') (2 + j)); [lia|]. destruct (Nat.eqb_spec 0 (2 + j)); lia.
  - intros i _. unfold gain, value_node, var_node. cbn [fst snd]. destruct (Nat.eqb_spec 1 (2 + j)); [lia|]. destruct (Nat.eqb_spec (3 + m + i) (2 + j)); lia.
Qed.

Lemma excess_dummy : excess D = 0.
Proof.
  rewrite excess_sums, !sum_zero; [reflexivity| |].
  - intros i _. unfold gain, dummy_node, var_node. cbn [fst snd]. destruct (Nat.eqb_spec 1 (2 + m)); [lia|]. destruct (Nat.eqb_spec (3 + m + i) (2 + m)); lia.
  - intros j J. apply in_seq in J. unfold gain, dummy_node, value_node. cbn [fst snd]. destruct (Nat.eqb_spec (2 + j) (2 + m)); [lia|]. destruct (Nat.eqb_spec 0 (2 + m)); lia.
Qed.

Lemma excess_var i : (i < n)%nat -> excess (X i) = -1.
Proof.
  intro Hi. rewrite excess_sums, (sum_zero (fun j0 => gain (X i) (O, V j0, (least j0, high j0)))).
  - rewrite (sum_ext _ (fun i' => if Nat.eqb i' i then -1 else 0)), sum_one; [lia|apply seq_NoDup|apply in_seq; lia|].
    intros i' _. unfold gain, var_node. cbn [fst snd]. destruct (Nat.eqb_spec i' i) as [->|Ni]; [rewrite Nat.eqb_refl; simpl; lia|].
    destruct (Nat.eqb_spec (3 + m + i') (3 + m + i)); [lia|]. destruct (Nat.eqb_spec 1 (3 + m + i)); lia.
  - intros j Hj. apply in_seq in Hj. unfold gain, value_node, var_node. cbn [fst snd]. destruct (Nat.eqb_spec (2 + j) (3 + m + i)); [lia|]. destruct (Nat.eqb_spec 0 (3 + m + i)); lia.
Qed.

(** *** Sums over the vertices *)
Lemma seq_shift k a b : map (fun x => k + x)%nat (seq a b) = seq (k + a) b.
Proof. revert a. induction b as [|b IH]; intro a; simpl; [reflexivity|]. f_equal. rewrite IH. f_equal. lia. Qed.

Lemma base_sum f : sum_over f (seq 0 (base_nodes m n)) = f O + f 1%nat + sum_over (fun j => f (V j)) (seq 0 m) + f D + sum_over (fun i => f (X i)) (seq 0 n).
Proof.
  replace (base_nodes m n) with (2 + (m + (1 + n)))%nat by (unfold base_nodes; lia). rewrite !seq_app, !sum_app. cbn [seq].
  rewrite <- (sum_map value_node f), <- (sum_map (var_node m) f). unfold value_node, var_node. rewrite (seq_shift 2 0 m), (seq_shift (3 + m) 0 n).
  replace (3 + m + 0)%nat with (0 + 2 + m + 1)%nat by lia. replace (2 + 0)%nat with (0 + 2)%nat by lia. unfold dummy_node. simpl. lia.
Qed.

Lemma all_sum f : sum_over f (seq 0 N) = f O + f 1%nat + sum_over (fun j => f (V j)) (seq 0 m) + f D + sum_over (fun i => f (X i)) (seq 0 n) + f SS + f TT.
Proof.
  replace N with (base_nodes m n + 2)%nat by (unfold all_nodes; lia). rewrite seq_app, sum_app, base_sum. simpl. unfold super_source, super_sink. lia.
Qed.

Lemma least_nonneg j : 0 <= least j.
Proof. unfold least. lia. Qed.

Lemma need_value : need = Z.of_nat n + sum_over least (seq 0 m).
Proof.
  unfold GacCardinality.need. rewrite base_sum, excess_source, excess_sink, excess_dummy.
  rewrite (sum_ext (fun j => Z.max 0 (excess (V j))) least) by (intros j J; apply in_seq in J; rewrite excess_value by lia; pose proof (least_nonneg j); lia).
  rewrite (sum_ext (fun i => Z.max 0 (excess (X i))) (fun _ => 0)) by (intros i J; apply in_seq in J; rewrite excess_var by lia; reflexivity).
  rewrite (sum_zero (fun _ => 0)) by reflexivity. pose proof (sum_nonneg least (seq 0 m) (fun j _ => least_nonneg j)). lia.
Qed.

(** *** Capacities *)
Inductive joins : nat -> nat -> Z -> Prop :=
| join_link u v a b : links u v a b -> joins u v (b - a)
| join_value j : (j < m)%nat -> 0 < least j -> joins SS (V j) (least j)
| join_sink : (0 < n)%nat -> joins SS 1 (Z.of_nat n)
| join_var i : (i < n)%nat -> joins (X i) TT 1
| join_source : 0 < sum_over least (seq 0 m) -> joins 0 TT (sum_over least (seq 0 m)).

Lemma base_cases x : (x < base_nodes m n)%nat -> x = O \/ x = 1%nat \/ (exists j, (j < m)%nat /\ x = V j) \/ x = D \/ exists i, (i < n)%nat /\ x = X i.
Proof.
  unfold base_nodes, value_node, dummy_node, var_node. intro B. destruct (Nat.eq_dec x 0); [now left|]. destruct (Nat.eq_dec x 1); [right; now left|]. right. right.
  destruct (Nat.ltb_spec x (2 + m)); [left; exists (x - 2)%nat; lia|]. right. destruct (Nat.eq_dec x (2 + m)); [now left|]. right. exists (x - (3 + m))%nat. lia.
Qed.

Lemma edges_In u v c : In (u, v, c) edges <-> joins u v c.
Proof.
  unfold GacCardinality.edges. rewrite in_app_iff, in_map_iff, in_flat_map. split.
  - intros [(e & E & I)|(x & Hx & I)].
    + destruct e as [[a b] [lo hi]]. cbn [fst snd] in E. injection E as -> -> <-. apply network_In in I. now constructor.
    + apply in_seq in Hx. unfold balance in I. destruct (base_cases x ltac:(lia)) as [->|[->|[(j & Hj & ->)|[->|(i & Hi & ->)]]]].
      * rewrite excess_source in I. destruct (Z.ltb_spec 0 (- sum_over least (seq 0 m))) as [L|L]; [pose proof (sum_nonneg least (seq 0 m) (fun j _ => least_nonneg j)); lia|].
        destruct (Z.ltb_spec (- sum_over least (seq 0 m)) 0); [|destruct I]. destruct I as [I|[]]. injection I as <- <- <-. rewrite Z.opp_involutive. constructor. lia.
      * rewrite excess_sink in I. destruct (Z.ltb_spec 0 (Z.of_nat n)) as [L|L]; [destruct I as [I|[]]; injection I as <- <- <-; constructor; lia|].
        destruct (Z.ltb_spec (Z.of_nat n) 0); [lia|destruct I].
      * rewrite excess_value in I by assumption. destruct (Z.ltb_spec 0 (least j)) as [L|L]; [destruct I as [I|[]]; injection I as <- <- <-; now constructor|].
        pose proof (least_nonneg j). destruct (Z.ltb_spec (least j) 0); [lia|destruct I].
      * rewrite excess_dummy in I. destruct I.
      * rewrite excess_var in I by assumption. destruct I as [I|[]]. injection I as <- <- <-. now constructor.
  - intro J. destruct J as [u v a b L|j Hj L|Hn|i Hi|Hl].
    + left. exists (u, v, (a, b)). split; [reflexivity|now apply network_In].
    + right. exists (V j). split; [apply in_seq; unfold base_nodes, value_node; lia|]. unfold balance. rewrite excess_value by assumption. destruct (Z.ltb_spec 0 (least j)); [now left|lia].
    + right. exists 1%nat. split; [apply in_seq; unfold base_nodes; lia|]. unfold balance. rewrite excess_sink. destruct (Z.ltb_spec 0 (Z.of_nat n)); [now left|lia].
    + right. exists (X i). split; [apply in_seq; unfold base_nodes, var_node; lia|]. unfold balance. rewrite excess_var by assumption. now left.
    + right. exists O. split; [apply in_seq; unfold base_nodes; lia|]. unfold balance. rewrite excess_source. destruct (Z.ltb_spec 0 (- sum_over least (seq 0 m))); [lia|].
      destruct (Z.ltb_spec (- sum_over least (seq 0 m)) 0); [|lia]. left. f_equal. lia.
Qed.

Definition cap : residual := capacity_of edges.

Ltac nodes := unfold value_node, dummy_node, var_node, super_source, super_sink, all_nodes, base_nodes in *.

Lemma links_det u v a b a' b' : links u v a b -> links u v a' b' -> a = a' /\ b = b'.
Proof. intros L L'. inversion L; subst; inversion L'; nodes; subst; try lia; auto. Qed.

Lemma joins_det u v c c' : joins u v c -> joins u v c' -> c' = c.
Proof.
  intros J J'. destruct J as [u v a b L|j Hj L|Hn|i Hi|Hl].
  - inversion J' as [u' v' a' b' L'|j Hj L'|Hn|i Hi|Hl]; subst.
    + destruct (links_det _ _ _ _ _ _ L L'). subst. reflexivity.
    + exfalso. inversion L; nodes; lia.
    + exfalso. inversion L; nodes; lia.
    + exfalso. inversion L; nodes; lia.
    + exfalso. inversion L; nodes; lia.
  - inversion J' as [u' v' a' b' L'|j' Hj' L'|Hn|i Hi|Hl]; subst; try (exfalso; inversion L'; nodes; lia); nodes; try lia.
  - inversion J' as [u' v' a' b' L'|j' Hj' L'|Hn'|i Hi|Hl]; subst; try (exfalso; inversion L'; nodes; lia); nodes; lia.
  - inversion J' as [u' v' a' b' L'|j' Hj' L'|Hn'|i' Hi'|Hl]; subst; try (exfalso; inversion L'; nodes; lia); nodes; lia.
  - inversion J' as [u' v' a' b' L'|j' Hj' L'|Hn'|i' Hi'|Hl']; subst; try (exfalso; inversion L'; nodes; lia); nodes; lia.
Qed.

Lemma cap_join u v c : joins u v c -> cap u v = c.
Proof. intro J. apply capacity_found; [now apply edges_In|]. intros c' I. apply edges_In in I. now apply (joins_det u v). Qed.

Lemma cap_apart u v : (forall c, ~ joins u v c) -> cap u v = 0.
Proof. intro H. apply capacity_none. intros c I. apply edges_In in I. now apply H in I. Qed.

Lemma cap_cases u v : cap u v = 0 \/ joins u v (cap u v).
Proof.
  unfold cap, capacity_of. match goal with |- context [@find ?ty ?p ?l] => destruct (@find ty p l) as [[[a b] x]|] eqn:E end; [|now left]. right. apply find_some in E. destruct E as [J E]. simpl in E. apply andb_prop in E. destruct E as [E1 E2].
  apply Nat.eqb_eq in E1, E2. subst. now apply edges_In.
Qed.

Lemma joins_bound u v c : joins u v c -> (u < N)%nat /\ (v < N)%nat.
Proof. intro J. destruct J as [u v a b L|j Hj L|Hn|i Hi|Hl]; [destruct L| | | |]; nodes; lia. Qed.

Lemma joins_nonneg u v c : joins u v c -> 0 <= c.
Proof. intro J. destruct J as [u v a b L|j Hj L|Hn|i Hi|Hl]; [destruct L as [j Hj| | | | |]; [specialize (Hcap j Hj)| | | | |]; unfold plenty| | | |]; lia. Qed.

Lemma cap_nonneg : nonneg cap.
Proof. intros u v. destruct (cap_cases u v) as [->|J]; [lia|]. now apply joins_nonneg in J. Qed.

Ltac apart := apply cap_apart; intros ? apart_J; inversion apart_J as [? ? ? ? apart_L| | | |]; subst; [inversion apart_L|..]; nodes; subst; try lia; try congruence;
  try (match goal with H : (m + ?a)%nat = (m + ?b)%nat |- _ => assert (a = b) by lia; subst; congruence end).

(** The flow found. *)
Lemma found : exists f r R, run_flow m n dom free closed low high = Some (f, r) /\ leaves N SS TT cap f r /\ cut_off N SS TT R r.
Proof.
  unfold run_flow. apply max_flow_spec.
  - intros u v _ J. revert u v J. apply (neighbours_bound edges). intros u v c I. apply edges_In in I. now apply joins_bound in I.
  - nodes. lia.
  - nodes. lia.
  - nodes. lia.
  - exact cap_nonneg.
  - intros u v _ _ H. fold cap in H. destruct (cap_cases u v) as [E|J].
    + destruct (cap_cases v u) as [E'|J]; [lia|]. apply edges_In, neighbours_In in J. tauto.
    + apply edges_In, neighbours_In in J. tauto.
Qed.

(** ** What a flow is *)
Section Flow.
Variable f : Z.
Variable r : residual.
Hypothesis Hr : leaves N SS TT cap f r.

Lemma apart_zero u v : cap u v = 0 -> cap v u = 0 -> r u v = 0.
Proof. intros A B. destruct Hr as (P & Q & _). specialize (Q u v). specialize (P u v) as P1. specialize (P v u). lia. Qed.

Lemma flow_range u v : cap v u = 0 -> 0 <= r v u <= cap u v /\ r u v = cap u v - r v u.
Proof. intro A. destruct Hr as (P & Q & _). specialize (Q u v). specialize (P u v) as P1. specialize (P v u). lia. Qed.

Definition F (j i : nat) : Z := r (X i) (V j).
Definition G (i : nat) : Z := r (X i) D.
Definition A (j : nat) : Z := r (V j) O.
Definition B (j : nat) : Z := r (V j) SS.

Lemma F_range j i : (j < m)%nat -> (i < n)%nat -> (if dom j i then 0 <= F j i <= 1 /\ r (V j) (X i) = 1 - F j i else F j i = 0 /\ r (V j) (X i) = 0).
Proof.
  intros Hj Hi. unfold F. assert (E : cap (X i) (V j) = 0) by apart. destruct (dom j i) eqn:Dj.
  - assert (C : cap (V j) (X i) = 1) by (apply cap_join; apply (join_link _ _ 0 1); now constructor). pose proof (flow_range _ _ E). lia.
  - assert (C : cap (V j) (X i) = 0) by apart. pose proof (flow_range _ _ E). lia.
Qed.

Lemma G_range i : (i < n)%nat -> (if loose i then 0 <= G i <= 1 /\ r D (X i) = 1 - G i else G i = 0 /\ r D (X i) = 0).
Proof.
  intro Hi. unfold G. assert (E : cap (X i) D = 0) by apart. destruct (loose i) eqn:Di.
  - assert (C : cap D (X i) = 1) by (apply cap_join; apply (join_link _ _ 0 1); now constructor). pose proof (flow_range _ _ E). lia.
  - assert (C : cap D (X i) = 0) by apart. pose proof (flow_range _ _ E). lia.
Qed.

Lemma A_range j : (j < m)%nat -> 0 <= A j <= high j - least j /\ r O (V j) = high j - least j - A j.
Proof.
  intro Hj. unfold A. assert (E : cap (V j) O = 0) by apart. assert (C : cap O (V j) = high j - least j) by (apply cap_join; apply join_link; now constructor).
  pose proof (flow_range _ _ E). lia.
Qed.

Lemma B_range j : (j < m)%nat -> 0 <= B j <= least j /\ r SS (V j) = least j - B j.
Proof.
  intro Hj. unfold B. assert (E : cap (V j) SS = 0) by apart. assert (C : cap SS (V j) = least j).
  { pose proof (least_nonneg j). destruct (Z.eq_dec (least j) 0) as [E0|]; [rewrite E0; apart|]. apply cap_join. apply join_value; [assumption|lia]. }
  pose proof (flow_range _ _ E). lia.
Qed.

Lemma D_range : 0 <= r D O <= (if closed then 0 else plenty n) /\ r O D = (if closed then 0 else plenty n) - r D O.
Proof.
  assert (E : cap D O = 0) by apart. assert (C : cap O D = if closed then 0 else plenty n).
  { destruct closed eqn:Cl; [apart|]. apply cap_join. replace (plenty n) with (plenty n - 0) by lia. apply join_link. now constructor. }
  pose proof (flow_range _ _ E). lia.
Qed.

Lemma out_range i : (i < n)%nat -> 0 <= r TT (X i) <= 1 /\ r (X i) TT = 1 - r TT (X i).
Proof.
  intro Hi. assert (E : cap TT (X i) = 0) by apart. assert (C : cap (X i) TT = 1) by (apply cap_join; now constructor). pose proof (flow_range _ _ E). lia.
Qed.

Lemma owed_range : 0 <= r TT O <= sum_over least (seq 0 m) /\ r O TT = sum_over least (seq 0 m) - r TT O.
Proof.
  assert (E : cap TT O = 0) by apart. assert (C : cap O TT = sum_over least (seq 0 m)).
  { pose proof (sum_nonneg least (seq 0 m) (fun j _ => least_nonneg j)). destruct (Z.eq_dec (sum_over least (seq 0 m)) 0) as [E0|]; [rewrite E0; apart|]. apply cap_join. constructor. lia. }
  pose proof (flow_range _ _ E). lia.
Qed.

Lemma supply_range : 0 <= r 1%nat SS <= Z.of_nat n /\ r SS 1%nat = Z.of_nat n - r 1%nat SS.
Proof.
  assert (E : cap 1%nat SS = 0) by apart. assert (C : cap SS 1%nat = Z.of_nat n).
  { destruct (Nat.eq_dec n 0) as [E0|]; [replace (Z.of_nat n) with 0 by lia; apart|]. apply cap_join. constructor. lia. }
  pose proof (flow_range _ _ E). lia.
Qed.

Lemma back_range : 0 <= r O 1%nat <= plenty n /\ r 1%nat O = plenty n - r O 1%nat.
Proof.
  assert (E : cap O 1%nat = 0) by apart. assert (C : cap 1%nat O = plenty n).
  { replace (plenty n) with (plenty n - 0) by lia. apply cap_join. apply join_link. constructor. }
  pose proof (flow_range _ _ E). lia.
Qed.

Lemma through i : (i < n)%nat -> r (X i) 1%nat = 0 /\ r 1%nat (X i) = 0.
Proof.
  intro Hi. assert (E : cap 1%nat (X i) = 0) by apart. assert (C : cap (X i) 1%nat = 0).
  { replace 0 with (1 - 1) by lia. apply cap_join. apply join_link. now constructor. }
  pose proof (flow_range _ _ E). lia.
Qed.

Ltac out := match goal with |- cap ?a ?b - r ?a ?b = 0 => rewrite (apart_zero a b) by apart; replace (cap a b) with 0 by (symmetry; apart); lia end.

(** What comes in goes out. *)
Lemma kept_var i : (i < n)%nat -> sum_over (fun j => F j i) (seq 0 m) + G i = r TT (X i).
Proof.
  intro Hi. destruct Hr as (_ & Q & K). specialize (K (X i) ltac:(nodes; lia)). rewrite all_sum in K.
  assert (E0 : cap O (X i) - r O (X i) = 0) by out. assert (E1 : cap 1%nat (X i) - r 1%nat (X i) = 0).
  { destruct (through i Hi) as [_ ->]. assert (cap 1%nat (X i) = 0) by apart. lia. }
  assert (EV : sum_over (fun j => cap (V j) (X i) - r (V j) (X i)) (seq 0 m) = sum_over (fun j => F j i) (seq 0 m)).
  { apply sum_ext. intros j Hj. apply in_seq in Hj. unfold F. specialize (Q (V j) (X i)). assert (cap (X i) (V j) = 0) by apart. lia. }
  assert (ED : cap D (X i) - r D (X i) = G i) by (unfold G; specialize (Q D (X i)); assert (cap (X i) D = 0) by apart; lia).
  assert (EX : sum_over (fun i' => cap (X i') (X i) - r (X i') (X i)) (seq 0 n) = 0) by (apply sum_zero; intros i' Hi'; apply in_seq in Hi'; out).
  assert (ES : cap SS (X i) - r SS (X i) = 0) by out.
  assert (ET : cap TT (X i) - r TT (X i) = - r TT (X i)) by (assert (cap TT (X i) = 0) by apart; lia).
  rewrite E0, E1, EV, ED, EX, ES, ET in K. destruct (Nat.eqb_spec (X i) TT); [nodes; lia|]. destruct (Nat.eqb_spec (X i) SS); [nodes; lia|]. lia.
Qed.

Lemma kept_value j : (j < m)%nat -> A j + B j = sum_over (fun i => F j i) (seq 0 n).
Proof.
  intro Hj. destruct Hr as (_ & Q & K). specialize (K (V j) ltac:(nodes; lia)). rewrite all_sum in K.
  assert (E0 : cap O (V j) - r O (V j) = A j) by (unfold A; specialize (Q O (V j)); assert (cap (V j) O = 0) by apart; lia).
  assert (E1 : cap 1%nat (V j) - r 1%nat (V j) = 0) by out.
  assert (EV : sum_over (fun j' => cap (V j') (V j) - r (V j') (V j)) (seq 0 m) = 0) by (apply sum_zero; intros j' Hj'; apply in_seq in Hj'; out).
  assert (ED : cap D (V j) - r D (V j) = 0) by out.
  assert (EX : sum_over (fun i => cap (X i) (V j) - r (X i) (V j)) (seq 0 n) = - sum_over (fun i => F j i) (seq 0 n)).
  { rewrite <- sum_opp. apply sum_ext. intros i Hi. apply in_seq in Hi. unfold F. assert (cap (X i) (V j) = 0) by apart. lia. }
  assert (ES : cap SS (V j) - r SS (V j) = B j) by (unfold B; specialize (Q SS (V j)); assert (cap (V j) SS = 0) by apart; lia).
  assert (ET : cap TT (V j) - r TT (V j) = 0) by out.
  rewrite E0, E1, EV, ED, EX, ES, ET in K. destruct (Nat.eqb_spec (V j) TT); [nodes; lia|]. destruct (Nat.eqb_spec (V j) SS); [nodes; lia|]. lia.
Qed.

Lemma kept_dummy : r D O = sum_over G (seq 0 n).
Proof.
  destruct Hr as (_ & Q & K). specialize (K D ltac:(nodes; lia)). rewrite all_sum in K.
  assert (E0 : cap O D - r O D = r D O) by (specialize (Q O D); assert (cap D O = 0) by apart; lia).
  assert (E1 : cap 1%nat D - r 1%nat D = 0) by out.
  assert (EV : sum_over (fun j => cap (V j) D - r (V j) D) (seq 0 m) = 0) by (apply sum_zero; intros j Hj; apply in_seq in Hj; out).
  assert (ED : cap D D - r D D = 0) by out.
  assert (EX : sum_over (fun i => cap (X i) D - r (X i) D) (seq 0 n) = - sum_over G (seq 0 n)).
  { rewrite <- sum_opp. apply sum_ext. intros i Hi. apply in_seq in Hi. unfold G. assert (cap (X i) D = 0) by apart. lia. }
  assert (ES : cap SS D - r SS D = 0) by out. assert (ET : cap TT D - r TT D = 0) by out.
  rewrite E0, E1, EV, ED, EX, ES, ET in K. destruct (Nat.eqb_spec D TT); [nodes; lia|]. destruct (Nat.eqb_spec D SS); [nodes; lia|]. lia.
Qed.

Lemma kept_sink : r 1%nat SS = r O 1%nat.
Proof.
  destruct Hr as (_ & Q & K). specialize (K 1%nat ltac:(nodes; lia)). rewrite all_sum in K.
  assert (E0 : cap O 1%nat - r O 1%nat = - r O 1%nat) by (assert (cap O 1%nat = 0) by apart; lia).
  assert (E1 : cap 1%nat 1%nat - r 1%nat 1%nat = 0) by out.
  assert (EV : sum_over (fun j => cap (V j) 1%nat - r (V j) 1%nat) (seq 0 m) = 0) by (apply sum_zero; intros j Hj; apply in_seq in Hj; out).
  assert (ED : cap D 1%nat - r D 1%nat = 0) by out.
  assert (EX : sum_over (fun i => cap (X i) 1%nat - r (X i) 1%nat) (seq 0 n) = 0).
  { apply sum_zero. intros i Hi. apply in_seq in Hi. destruct (through i ltac:(lia)) as [E _]. rewrite E. replace 0 with (1 - 1) by lia. rewrite (cap_join (X i) 1%nat (1 - 1)); [lia|]. apply join_link. constructor. lia. }
  assert (ES : cap SS 1%nat - r SS 1%nat = r 1%nat SS) by (specialize (Q SS 1%nat); assert (cap 1%nat SS = 0) by apart; lia).
  assert (ET : cap TT 1%nat - r TT 1%nat = 0) by out.
  rewrite E0, E1, EV, ED, EX, ES, ET in K. destruct (Nat.eqb_spec 1 TT); [nodes; lia|]. destruct (Nat.eqb_spec 1 SS); [nodes; lia|]. lia.
Qed.

Lemma kept_source : r O 1%nat = sum_over A (seq 0 m) + r D O + r TT O.
Proof.
  destruct Hr as (_ & Q & K). specialize (K O ltac:(nodes; lia)). rewrite all_sum in K.
  assert (E0 : cap O O - r O O = 0) by out.
  assert (E1 : cap 1%nat O - r 1%nat O = r O 1%nat) by (specialize (Q 1%nat O); assert (cap O 1%nat = 0) by apart; lia).
  assert (EV : sum_over (fun j => cap (V j) O - r (V j) O) (seq 0 m) = - sum_over A (seq 0 m)).
  { rewrite <- sum_opp. apply sum_ext. intros j Hj. apply in_seq in Hj. unfold A. assert (cap (V j) O = 0) by apart. lia. }
  assert (ED : cap D O - r D O = - r D O) by (assert (cap D O = 0) by apart; lia).
  assert (EX : sum_over (fun i => cap (X i) O - r (X i) O) (seq 0 n) = 0) by (apply sum_zero; intros i Hi; apply in_seq in Hi; out).
  assert (ES : cap SS O - r SS O = 0) by out.
  assert (ET : cap TT O - r TT O = - r TT O) by (assert (cap TT O = 0) by apart; lia).
  rewrite E0, E1, EV, ED, EX, ES, ET in K. destruct (Nat.eqb_spec 0 TT); [nodes; lia|]. destruct (Nat.eqb_spec 0 SS); [nodes; lia|]. lia.
Qed.

Lemma value_in : f = r 1%nat SS + sum_over B (seq 0 m).
Proof.
  destruct Hr as (_ & Q & K). specialize (K SS ltac:(nodes; lia)). rewrite all_sum in K.
  assert (E0 : cap O SS - r O SS = 0) by out.
  assert (E1 : cap 1%nat SS - r 1%nat SS = - r 1%nat SS) by (assert (cap 1%nat SS = 0) by apart; lia).
  assert (EV : sum_over (fun j => cap (V j) SS - r (V j) SS) (seq 0 m) = - sum_over B (seq 0 m)).
  { rewrite <- sum_opp. apply sum_ext. intros j Hj. apply in_seq in Hj. unfold B. assert (cap (V j) SS = 0) by apart. lia. }
  assert (ED : cap D SS - r D SS = 0) by out.
  assert (EX : sum_over (fun i => cap (X i) SS - r (X i) SS) (seq 0 n) = 0) by (apply sum_zero; intros i Hi; apply in_seq in Hi; out).
  assert (ES : cap SS SS - r SS SS = 0) by out.
  assert (ET : cap TT SS - r TT SS = 0) by out.
  rewrite E0, E1, EV, ED, EX, ES, ET, Nat.eqb_refl in K. destruct (Nat.eqb_spec SS TT); [nodes; lia|]. lia.
Qed.

Lemma value_out : f = sum_over (fun i => r TT (X i)) (seq 0 n) + r TT O.
Proof.
  assert (E : sum_over A (seq 0 m) + sum_over B (seq 0 m) = sum_over (fun j => sum_over (fun i => F j i) (seq 0 n)) (seq 0 m)).
  { rewrite <- sum_plus. apply sum_ext. intros j J. apply in_seq in J. apply kept_value. lia. }
  rewrite sum_swap in E.
  assert (E' : sum_over (fun i => r TT (X i)) (seq 0 n) = sum_over (fun i => sum_over (fun j => F j i) (seq 0 m)) (seq 0 n) + sum_over G (seq 0 n)).
  { rewrite <- sum_plus. apply sum_ext. intros i J. apply in_seq in J. rewrite kept_var by lia. reflexivity. }
  pose proof value_in. pose proof kept_sink. pose proof kept_source. pose proof kept_dummy. lia.
Qed.

(** All that is needed flows. *)
Lemma feasible_facts : f = need -> r 1%nat SS = Z.of_nat n /\ (forall j, (j < m)%nat -> B j = least j) /\ (forall i, (i < n)%nat -> r TT (X i) = 1) /\ r TT O = sum_over least (seq 0 m).
Proof.
  intro E. rewrite need_value in E. pose proof value_in as VI. pose proof value_out as VO. pose proof supply_range as SR. pose proof owed_range as OR.
  assert (LB : sum_over B (seq 0 m) <= sum_over least (seq 0 m)) by (apply sum_le; intros j J; apply in_seq in J; destruct (B_range j); lia).
  assert (LX : sum_over (fun i => r TT (X i)) (seq 0 n) <= sum_over (fun _ => 1) (seq 0 n)) by (apply sum_le; intros i J; apply in_seq in J; destruct (out_range i); lia).
  rewrite sum_const, seq_length in LX. split; [lia|]. split; [|split; [|lia]].
  - intros j Hj. apply (sum_tight B least (seq 0 m)); [|lia|apply in_seq; lia]. intros x J. apply in_seq in J. destruct (B_range x); lia.
  - intros i Hi. apply (sum_tight (fun i => r TT (X i)) (fun _ => 1) (seq 0 n)); [| |apply in_seq; lia].
    + intros x J. apply in_seq in J. destruct (out_range x); lia.
    + rewrite sum_const, seq_length. lia.
Qed.
End Flow.
End Network.
