(** Proofs about potentials: the first one, and its repair. *)
From Coq Require Import ZArith List Bool Lia Permutation.
From Verif Require Import Difference DifferenceSpec.
Import ListNotations.
Local Open Scope Z_scope.

Lemma set_same : forall (X : Type) (f : nat -> X) v x, set f v x v = x.
Proof. intros X f v x. unfold set. now rewrite Nat.eqb_refl. Qed.

Lemma set_other : forall (X : Type) (f : nat -> X) v x w, w <> v -> set f v x w = f w.
Proof. intros X f v x w N. unfold set. now rewrite (proj2 (Nat.eqb_neq w v) N). Qed.

Lemma arc_at_active : forall arcs active e, (e < length arcs)%nat -> arc_active active e = true -> active_arc arcs active e (arc_at arcs e).
Proof.
  intros arcs active e L A. split; [now apply nth_error_nth'|].
  destruct active as [|b r]; [now left|right]. cbn [arc_active] in A.
  destruct (nth_error (b :: r) e) as [c|] eqn:E.
  - rewrite (nth_error_nth _ _ false E) in A. now subst c.
  - apply nth_error_None in E. rewrite nth_overflow in A; [discriminate|assumption].
Qed.

Lemma active_arc_at : forall arcs active e a, active_arc arcs active e a -> (e < length arcs)%nat /\ arc_active active e = true /\ arc_at arcs e = a.
Proof.
  intros arcs active e a [N A]. split; [apply nth_error_Some; congruence|]. split.
  - destruct A as [->|A]; [reflexivity|]. destruct active as [|b r]; [reflexivity|]. cbn [arc_active]. now rewrite (nth_error_nth _ _ false A).
  - unfold arc_at. now rewrite (nth_error_nth _ _ (mk_arc 0 0 0) N).
Qed.

Lemma arc_at_in : forall arcs e, (e < length arcs)%nat -> In (arc_at arcs e) arcs.
Proof. intros arcs e L. now apply nth_In. Qed.

Lemma adjacent_In : forall by_tail arcs v e, In e (adjacent by_tail arcs v) <-> (e < length arcs)%nat /\ near by_tail (arc_at arcs e) = v.
Proof.
  intros by_tail arcs v e. unfold adjacent. rewrite filter_In, in_seq, Nat.eqb_eq. split; intros [A B]; split; auto; lia.
Qed.

Lemma pop_least_spec : forall l p m rest, pop_least p l = (m, rest) -> Permutation (p :: l) (m :: rest) /\ forall q, In q (p :: l) -> fst m <= fst q.
Proof.
  induction l as [|q r IH]; intros p m rest E; cbn [pop_least] in E.
  - injection E as <- <-. split; [apply Permutation_refl|]. intros x [<-|[]]. lia.
  - destruct (pop_least q r) as [m' rest'] eqn:E'. destruct (IH _ _ _ E') as [P L].
    assert (B : forall a b, before a b = true -> fst a <= fst b).
    { intros a b Q. unfold before in Q. apply orb_true_iff in Q. destruct Q as [Q|Q]; [apply Z.ltb_lt in Q; lia|]. apply andb_true_iff in Q. destruct Q as [Q _]. apply Z.eqb_eq in Q. lia. }
    assert (B' : forall a b, before a b = false -> fst b <= fst a).
    { intros a b Q. unfold before in Q. apply orb_false_iff in Q. destruct Q as [Q _]. apply Z.ltb_ge in Q. lia. }
    destruct (before p m') eqn:Q; injection E as <- <-.
    + split; [apply Permutation_refl|]. intros x [<-|H]; [lia|]. specialize (L x H). specialize (B _ _ Q). lia.
    + split.
      * apply perm_trans with (p :: m' :: rest'); [now apply perm_skip|apply perm_swap].
      * intros x [<-|H]; [now apply B'|now apply L].
Qed.

Lemma count_more : forall (f g : nat -> bool) l w, (forall v, In v l -> f v = true -> g v = true) -> In w l -> f w = false -> g w = true ->
  (length (filter f l) < length (filter g l))%nat.
Proof.
  intros f g l w M H F G.
  assert (LE : forall l, (forall v, In v l -> f v = true -> g v = true) -> (length (filter f l) <= length (filter g l))%nat).
  { clear. induction l as [|v r IH]; intros M; [apply le_n|]. cbn [filter]. specialize (IH (fun v h => M v (or_intror h))).
    destruct (f v) eqn:F; [rewrite (M v (or_introl eq_refl) F); cbn [length]; lia|destruct (g v); cbn [length]; lia]. }
  induction l as [|v r IH]; [destruct H|]. cbn [filter]. destruct H as [->|H].
  - rewrite F, G. cbn [length]. specialize (LE r (fun v h => M v (or_intror h))). lia.
  - specialize (IH (fun v h => M v (or_intror h)) H). destruct (f v) eqn:Fv; [rewrite (M v (or_introl eq_refl) Fv); cbn [length]; lia|destruct (g v); cbn [length]; lia].
Qed.

Lemma count_all : forall (f : nat -> bool) l, length (filter f l) = length l -> forall v, In v l -> f v = true.
Proof.
  intros f l E v H. destruct (f v) eqn:F; [reflexivity|].
  assert (L := count_more f (fun _ => true) l v (fun _ _ _ => eq_refl) H F eq_refl).
  assert (T : filter (fun _ : nat => true) l = l) by (clear; induction l as [|x r IH]; cbn [filter]; [reflexivity|now rewrite IH]).
  rewrite T in L. lia.
Qed.

(** ** A valid potential is as good as a solution *)

Lemma potential_solves : forall arcs active p, potential arcs active p <-> solves arcs active (fun v => - p v).
Proof. intros arcs active p. split; intros P e a A; specialize (P e a A); cbn beta in *; lia. Qed.

(** ** Rounds *)
Section Rounds.
Variables (n : nat) (arcs : list arc) (active : list bool).
Hypothesis Hn : nodes_below n arcs.

Lemma relax_fold : forall l h c h' c', (forall e, In e l -> (e < length arcs)%nat) -> fold_left (relax_arc arcs active) l (h, c) = (h', c') ->
  (forall v, h' v <= h v) /\
  (forall p, potential arcs active p -> (forall v, (v < n)%nat -> p v <= h v) -> forall v, (v < n)%nat -> p v <= h' v) /\
  (forall e, In e l -> arc_active active e = true -> h' (a_to (arc_at arcs e)) <= h (a_from (arc_at arcs e)) + a_d (arc_at arcs e)) /\
  (c' = false -> c = false /\ h' = h) /\
  (c' = true -> c = true \/ exists v, (v < n)%nat /\ h' v < h v).
Proof.
  induction l as [|e r IH]; intros h c h' c' L E; cbn [fold_left] in E.
  - injection E as <- <-. split; [intros; lia|]. split; [auto|]. split; [intros e []|]. split; [auto|auto].
  - assert (Le : (e < length arcs)%nat) by (apply L; now left).
    assert (Lr : forall x, In x r -> (x < length arcs)%nat) by (intros; apply L; now right).
    destruct (Hn _ (arc_at_in arcs e Le)) as [Hf Ht].
    unfold relax_arc at 2 in E. destruct (arc_active active e) eqn:A.
    + destruct (h (a_from (arc_at arcs e)) + a_d (arc_at arcs e) <? h (a_to (arc_at arcs e))) eqn:Q.
      * apply Z.ltb_lt in Q. destruct (IH _ _ _ _ Lr E) as (D & P & R & C & G).
        assert (Dh : forall v, set h (a_to (arc_at arcs e)) (h (a_from (arc_at arcs e)) + a_d (arc_at arcs e)) v <= h v).
        { intros v. unfold set. destruct (Nat.eqb v (a_to (arc_at arcs e))) eqn:V; [apply Nat.eqb_eq in V; subst v; lia|lia]. }
        split; [intros v; specialize (D v); specialize (Dh v); lia|]. split.
        { intros p Hp Hh. apply P; [assumption|]. intros v Hv. unfold set. destruct (Nat.eqb v (a_to (arc_at arcs e))) eqn:V; [|auto].
          apply Nat.eqb_eq in V. subst v. specialize (Hp e _ (arc_at_active arcs active e Le A)). specialize (Hh _ Hf). lia. }
        split.
        { intros x [<-|Hx] Ax.
          - specialize (D (a_to (arc_at arcs e))). rewrite set_same in D. exact D.
          - specialize (R x Hx Ax). specialize (Dh (a_from (arc_at arcs x))). lia. }
        split; [intros Ec; destruct (C Ec) as [? _]; discriminate|]. intros _. right. exists (a_to (arc_at arcs e)). split; [assumption|].
        specialize (D (a_to (arc_at arcs e))). rewrite set_same in D. lia.
      * apply Z.ltb_ge in Q. destruct (IH _ _ _ _ Lr E) as (D & P & R & C & G). split; [assumption|]. split; [assumption|]. split; [|split; assumption].
        intros x [<-|Hx] Ax; [specialize (D (a_to (arc_at arcs e))); lia|now apply R].
    + destruct (IH _ _ _ _ Lr E) as (D & P & R & C & G). split; [assumption|]. split; [assumption|]. split; [|split; assumption].
      intros x [<-|Hx] Ax; [congruence|now apply R].
Qed.

Lemma relax_round_spec : forall h h' c, relax_round arcs active h = (h', c) ->
  (forall v, h' v <= h v) /\
  (forall p, potential arcs active p -> (forall v, (v < n)%nat -> p v <= h v) -> forall v, (v < n)%nat -> p v <= h' v) /\
  (forall e a, active_arc arcs active e a -> h' (a_to a) <= h (a_from a) + a_d a) /\
  (c = false -> h' = h) /\ (c = true -> exists v, (v < n)%nat /\ h' v < h v).
Proof.
  intros h h' c E. unfold relax_round in E.
  destruct (relax_fold _ _ _ _ _ (fun e H => proj2 (proj1 (in_seq (length arcs) 0 e) H)) E) as (D & P & R & C & G).
  split; [assumption|]. split; [assumption|]. split.
  { intros e a A. destruct (active_arc_at _ _ _ _ A) as (L & B & <-). apply R; [apply in_seq; lia|assumption]. }
  split; [intros Q; apply (C Q)|]. intros Q. destruct (G Q) as [?|?]; [discriminate|assumption].
Qed.

Lemma relax_rounds_valid : forall k h p, relax_rounds k arcs active h = Some p -> potential arcs active p.
Proof.
  induction k as [|k IH]; intros h p E; cbn [relax_rounds] in E; [discriminate|].
  destruct (relax_round arcs active h) as [h' c] eqn:R. destruct c; [now apply IH in E|]. injection E as <-.
  destruct (relax_round_spec _ _ _ R) as (_ & _ & V & C & _). rewrite (C eq_refl) in *. intros e a A. specialize (V e a A). lia.
Qed.

Definition sum (h : nat -> Z) : Z := fold_right (fun v s => h v + s) 0 (seq 0 n).

Lemma sum_le : forall l (f g : nat -> Z), (forall v, In v l -> f v <= g v) -> fold_right (fun v s => f v + s) 0 l <= fold_right (fun v s => g v + s) 0 l.
Proof.
  induction l as [|v r IH]; intros f g H; cbn [fold_right]; [lia|]. specialize (IH f g (fun v h => H v (or_intror h))). specialize (H v (or_introl eq_refl)). lia.
Qed.

Lemma sum_lt : forall l (f g : nat -> Z) w, (forall v, In v l -> f v <= g v) -> In w l -> f w < g w -> fold_right (fun v s => f v + s) 0 l < fold_right (fun v s => g v + s) 0 l.
Proof.
  induction l as [|v r IH]; intros f g w H I' L; [destruct I'|]; cbn [fold_right]. destruct I' as [->|I'].
  - assert (S' := sum_le r f g (fun v h => H v (or_intror h))). lia.
  - specialize (IH f g w (fun v h => H v (or_intror h)) I' L). specialize (H v (or_introl eq_refl)). lia.
Qed.

(** If there is a potential, enough rounds find the greatest below the start. *)
Lemma greatest_potential : forall m p h, potential arcs active p -> (forall v, (v < n)%nat -> p v <= h v) -> (sum h - sum p <= Z.of_nat m) ->
  exists g, potential arcs active g /\ (forall v, (v < n)%nat -> p v <= g v) /\ (forall v, (v < n)%nat -> g v <= h v) /\
    forall q, potential arcs active q -> (forall v, (v < n)%nat -> q v <= h v) -> forall v, (v < n)%nat -> q v <= g v.
Proof.
  induction m as [|m IH]; intros p h P L S'; destruct (relax_round arcs active h) as [h' c] eqn:R; destruct (relax_round_spec _ _ _ R) as (D & K & V & C & G);
    (destruct c;
     [|exists h; rewrite (C eq_refl) in V; split; [intros e a A; specialize (V e a A); lia|]; split; [assumption|]; split; [intros; lia|auto]]);
    destruct (G eq_refl) as (v & Hv & Lv).
  - exfalso. specialize (K p P L). assert (sum p <= sum h') by (apply sum_le; intros u Hu; apply K; apply in_seq in Hu; lia).
    assert (sum h' < sum h) by (apply (sum_lt _ _ _ v); [intros; apply D|apply in_seq; lia|assumption]). lia.
  - assert (sum h' < sum h) by (apply (sum_lt _ _ _ v); [intros; apply D|apply in_seq; lia|assumption]).
    destruct (IH p h' P (K p P L)) as (g & Pg & Lg & Ug & Mg); [lia|]. exists g. split; [assumption|]. split; [assumption|]. split.
    + intros u Hu. specialize (Ug u Hu). specialize (D u). lia.
    + intros q Pq Lq. apply Mg; [assumption|]. now apply K.
Qed.

(** Each round makes one more node final. *)
Lemma relax_rounds_found : forall g, potential arcs active g -> (forall v, (v < n)%nat -> g v <= 0) ->
  (forall q, potential arcs active q -> (forall v, (v < n)%nat -> q v <= 0) -> forall v, (v < n)%nat -> q v <= g v) ->
  forall k h, (forall v, h v <= 0) -> (forall v, (v < n)%nat -> g v <= h v) -> (n <= length (filter (fun v => Z.eqb (h v) (g v)) (seq 0 n)) + k)%nat ->
  exists p, relax_rounds (S k) arcs active h = Some p.
Proof.
  intros g Pg Ug Mg. induction k as [|k IH]; intros h Uh Lh Cn; cbn [relax_rounds]; destruct (relax_round arcs active h) as [h' c] eqn:R;
    destruct (relax_round_spec _ _ _ R) as (D & K & V & C & G); (destruct c; [|eauto]).
  - exfalso. destruct (G eq_refl) as (v & Hv & Lv). specialize (K g Pg Lh v Hv).
    assert (Q : length (filter (fun v => Z.eqb (h v) (g v)) (seq 0 n)) = length (seq 0 n)).
    { assert (B' : forall l : list nat, (length (filter (fun v => Z.eqb (h v) (g v)) l) <= length l)%nat)
        by (clear; induction l as [|x r IH]; cbn [filter length]; [lia|destruct (Z.eqb (h x) (g x)); cbn [length]; lia]).
      specialize (B' (seq 0 n)). rewrite seq_length in *. lia. }
    assert (Q' := count_all _ _ Q v (proj2 (in_seq n 0 v) (conj (Nat.le_0_l v) Hv))). apply Z.eqb_eq in Q'. lia.
  - assert (Lh' := K g Pg Lh).
    assert (Uh' : forall v, h' v <= 0) by (intros v; specialize (D v); specialize (Uh v); lia).
    apply (IH h' Uh' Lh').
    set (F := fun v => Z.eqb (h v) (g v)) in *. set (F' := fun v => Z.eqb (h' v) (g v)).
    destruct (Nat.eq_dec (length (filter F (seq 0 n))) n) as [All|Some'].
    + exfalso. destruct (G eq_refl) as (v & Hv & Lv). specialize (Lh' v Hv).
      assert (Q' := count_all F (seq 0 n) ltac:(now rewrite seq_length) v (proj2 (in_seq n 0 v) (conj (Nat.le_0_l v) Hv))). unfold F in Q'. apply Z.eqb_eq in Q'. lia.
    + assert (Mono : forall v, In v (seq 0 n) -> F v = true -> F' v = true).
      { intros v Hv Fv. unfold F, F' in *. apply in_seq in Hv. apply Z.eqb_eq in Fv. apply Z.eqb_eq. specialize (D v). specialize (Lh' v ltac:(lia)). lia. }
      (* some node that is not final has a tight arc from one that is, or g could be raised *)
      assert (E : existsb (fun e => arc_active active e && F (a_from (arc_at arcs e)) && negb (F (a_to (arc_at arcs e))) && Z.eqb (g (a_from (arc_at arcs e)) + a_d (arc_at arcs e)) (g (a_to (arc_at arcs e)))) (seq 0 (length arcs)) = true).
      { destruct (existsb _ (seq 0 (length arcs))) eqn:Ex; [reflexivity|exfalso].
        set (q := fun v => if F v then g v else g v + 1).
        assert (Pq : potential arcs active q).
        { intros e a A. assert (Pe := Pg e a A). destruct (active_arc_at _ _ _ _ A) as (L & B & <-). unfold q.
          destruct (F (a_from (arc_at arcs e))) eqn:Ff; destruct (F (a_to (arc_at arcs e))) eqn:Ft; try lia.
          assert (N : g (a_from (arc_at arcs e)) + a_d (arc_at arcs e) <> g (a_to (arc_at arcs e))); [|lia].
          intros T. assert (X : existsb (fun e => arc_active active e && F (a_from (arc_at arcs e)) && negb (F (a_to (arc_at arcs e))) && Z.eqb (g (a_from (arc_at arcs e)) + a_d (arc_at arcs e)) (g (a_to (arc_at arcs e)))) (seq 0 (length arcs)) = true).
          { apply existsb_exists. exists e. split; [apply in_seq; lia|]. now rewrite B, Ff, Ft, (proj2 (Z.eqb_eq _ _) T). }
          congruence. }
        assert (Lq : forall v, (v < n)%nat -> q v <= 0).
        { intros v Hv. unfold q. destruct (F v) eqn:Fv; [auto|]. unfold F in Fv. apply Z.eqb_neq in Fv. specialize (Lh v Hv). specialize (Uh v). lia. }
        apply Some'. rewrite <- (seq_length n 0) at 2. f_equal.
        assert (T : forall l, (forall v, In v l -> F v = true) -> filter F l = l).
        { clear. induction l as [|x r IH]; intros H; cbn [filter]; [reflexivity|]. rewrite (H x (or_introl eq_refl)), IH; [reflexivity|]. intros v Hv. apply H. now right. }
        apply T. intros v Hv. apply in_seq in Hv. specialize (Mg q Pq Lq v ltac:(lia)). unfold q in Mg. destruct (F v); [reflexivity|lia]. }
      apply existsb_exists in E. destruct E as (e & He & E). apply in_seq in He. apply andb_true_iff in E. destruct E as [E T]. apply andb_true_iff in E. destruct E as [E Ft].
      apply andb_true_iff in E. destruct E as [A Ff]. apply Z.eqb_eq in T. apply negb_true_iff in Ft.
      assert (Aa := arc_at_active arcs active e ltac:(lia) A). specialize (V e _ Aa).
      destruct (Hn _ (arc_at_in arcs e ltac:(lia))) as [_ Ht]. specialize (Lh' _ Ht).
      assert (Ft' : F' (a_to (arc_at arcs e)) = true) by (unfold F, F' in *; apply Z.eqb_eq in Ff; apply Z.eqb_eq; lia).
      assert (More := count_more F F' (seq 0 n) _ Mono (proj2 (in_seq n 0 _) (conj (Nat.le_0_l _) Ht)) Ft Ft'). lia.
Qed.

Lemma initial_potential_valid : forall p, initial_potential n arcs active = Some p -> potential arcs active p.
Proof. intros p. apply relax_rounds_valid. Qed.

Lemma initial_potential_complete : (exists x, solves arcs active x) -> exists p, initial_potential n arcs active = Some p.
Proof.
  intros [x Sx].
  assert (B : exists m, forall v, (v < n)%nat -> - x v <= m).
  { clear. induction n as [|k [m IH]]; [exists 0; lia|]. exists (Z.max m (- x k)). intros v Hv. destruct (Nat.eq_dec v k) as [->|N]; [lia|]. specialize (IH v ltac:(lia)). lia. }
  destruct B as [m Bm]. set (p := fun v => - x v - m).
  assert (Pp : potential arcs active p) by (intros e a A; specialize (Sx e a A); unfold p; lia).
  assert (Lp : forall v, (v < n)%nat -> p v <= 0) by (intros v Hv; specialize (Bm v Hv); unfold p; lia).
  destruct (greatest_potential (Z.to_nat (sum (fun _ => 0) - sum p)) p (fun _ => 0) Pp Lp) as (g & Pg & _ & Ug & Mg); [lia|].
  apply (relax_rounds_found g Pg Ug Mg n (fun _ => 0)); [intros; lia|assumption|lia].
Qed.

Lemma invalid_arc_none : forall p, invalid_arc arcs active p = None <-> potential arcs active p.
Proof.
  intros p. unfold invalid_arc. split.
  - intros E e a A. destruct (active_arc_at _ _ _ _ A) as (L & B & <-). assert (X := find_none _ _ E e (proj2 (in_seq (length arcs) 0 e) (conj (Nat.le_0_l e) L))). cbn beta in X. rewrite B in X. cbn [andb] in X. apply Z.ltb_ge in X. lia.
  - intros P. destruct (find _ _) as [e|] eqn:E; [exfalso|reflexivity]. apply find_some in E. destruct E as [H E]. apply in_seq in H. apply andb_true_iff in E. destruct E as [B E]. apply Z.ltb_lt in E.
    specialize (P e _ (arc_at_active arcs active e ltac:(lia) B)). lia.
Qed.

Lemma invalid_arc_some : forall p e, invalid_arc arcs active p = Some e -> exists a, active_arc arcs active e a /\ p (a_from a) + a_d a - p (a_to a) < 0.
Proof.
  intros p e E. apply find_some in E. destruct E as [H E]. apply in_seq in H. apply andb_true_iff in E. destruct E as [B E]. apply Z.ltb_lt in E.
  exists (arc_at arcs e). split; [apply arc_at_active; [lia|assumption]|assumption].
Qed.
End Rounds.

(** ** Repair *)

Lemma count_split : forall (near' : nat -> nat) (f : nat -> bool) here l, f here = false ->
  length (filter (fun e => negb (f (near' e))) l) =
  (length (filter (fun e => Nat.eqb (near' e) here) l) + length (filter (fun e => negb (set f here true (near' e))) l))%nat.
Proof.
  intros near' f here l F. induction l as [|e r IH]; [reflexivity|]. cbn [filter]. unfold set at 1.
  destruct (Nat.eqb (near' e) here) eqn:E.
  - apply Nat.eqb_eq in E. rewrite E, F. cbn [negb length]. lia.
  - destruct (f (near' e)); cbn [negb length]; lia.
Qed.

Section Repair.
Variables (arcs : list arc) (active : list bool) (p : nat -> Z) (added : nat) (source target : nat) (d0 : Z).
Hypothesis Hadded : active_arc arcs active added (mk_arc source target d0).
Hypothesis Hothers : forall e a, active_arc arcs active e a -> e <> added -> 0 <= p (a_from a) + a_d a - p (a_to a).

Definition value (w : repair_work) (v : nat) : Z := if r_is_updated w v then r_updated w v else p v + r_gamma w v.

Record repairing (todo : list nat) (w : repair_work) : Prop := mk_repairing {
  i_zero : forall v, r_is_updated w v = true -> r_gamma w v = 0;
  i_neg : forall v, r_gamma w v <= 0;
  i_heap : forall v, r_gamma w v < 0 -> In (r_gamma w v, v) (r_heap w);
  i_key : forall k v, In (k, v) (r_heap w) -> k < 0;
  i_source : r_is_updated w source = false;
  i_order : forall u k v, r_is_updated w u = true -> In (k, v) (r_heap w) -> r_updated w u - p u <= k;
  i_out : forall e a, active_arc arcs active e a -> ~ In e todo -> r_is_updated w (a_from a) = true -> value w (a_to a) <= r_updated w (a_from a) + a_d a;
  i_target : value w target <= p source + d0;
  i_implied : forall q v, potential arcs active q -> r_is_updated w v = true \/ r_gamma w v < 0 -> q v - q source <= value w v - p source;
  i_touched : forall v, r_is_updated w v = true \/ r_gamma w v < 0 -> In v (r_touched w);
  i_lower : forall v, value w v <= p v }.

Lemma repair_arc_keeps : forall here e todo w, repairing (e :: todo) w -> (e < length arcs)%nat -> a_from (arc_at arcs e) = here -> here <> source ->
  r_is_updated w here = true -> (forall u, r_is_updated w u = true -> r_updated w u - p u <= r_updated w here - p here) ->
  let w' := repair_arc arcs active p here w e in
  repairing todo w' /\ r_is_updated w' = r_is_updated w /\ r_updated w' = r_updated w /\ (length (r_heap w') <= S (length (r_heap w)))%nat.
Proof.
  intros here e todo w R L F N U O. cbn zeta. unfold repair_arc.
  assert (Same : (active_arc arcs active e (arc_at arcs e) -> value w (a_to (arc_at arcs e)) <= r_updated w here + a_d (arc_at arcs e)) -> repairing todo w).
  { intros V. destruct R. constructor; auto. intros e' a A T Uf. destruct (Nat.eq_dec e' e) as [->|Ne]; [|apply (i_out0 e' a); auto; intros [Q|Q]; [congruence|contradiction]].
    destruct (active_arc_at _ _ _ _ A) as (_ & _ & E'). subst a. rewrite F in *. now apply V. }
  assert (Red : active_arc arcs active e (arc_at arcs e) -> 0 <= p here + a_d (arc_at arcs e) - p (a_to (arc_at arcs e))).
  { intros A. rewrite <- F. apply (Hothers e _ A). intros ->. destruct (active_arc_at _ _ _ _ Hadded) as (_ & _ & E'). rewrite E' in F. cbn in F. congruence. }
  destruct (arc_active active e) eqn:A.
  2:{ split; [|split; [reflexivity|split; [reflexivity|lia]]]. apply Same. intros X. destruct (active_arc_at _ _ _ _ X) as (_ & X' & _). congruence. }
  specialize (Red (arc_at_active _ _ _ L A)).
  assert (Aa := arc_at_active arcs active e L A).
  set (next := a_to (arc_at arcs e)) in *. set (d := a_d (arc_at arcs e)) in *.
  destruct (r_is_updated w next) eqn:Un.
  { split; [|split; [reflexivity|split; [reflexivity|lia]]]. apply Same. intros _. unfold value. rewrite Un. specialize (O next Un). lia. }
  destruct (r_updated w here + d - p next <? r_gamma w next) eqn:C.
  2:{ apply Z.ltb_ge in C. split; [|split; [reflexivity|split; [reflexivity|lia]]]. apply Same. intros _. unfold value. rewrite Un. lia. }
  apply Z.ltb_lt in C. cbn [r_is_updated r_updated r_heap].
  split; [|split; [reflexivity|split; [reflexivity|cbn [length]; lia]]].
  set (w' := mk_repair _ _ _ _ _).
  assert (Vn : value w' next = r_updated w here + d) by (unfold value, w'; cbn [r_is_updated r_updated r_gamma]; rewrite Un, set_same; lia).
  assert (Vo : forall v, v <> next -> value w' v = value w v) by (intros v Nv; unfold value, w'; cbn [r_is_updated r_updated r_gamma]; now rewrite set_other).
  assert (Vw : value w next = p next + r_gamma w next) by (unfold value; now rewrite Un).
  assert (Vle : forall v, value w' v <= value w v) by (intros v; destruct (Nat.eq_dec v next) as [->|Nv]; [lia|rewrite (Vo v Nv); lia]).
  destruct R. constructor; unfold w'; cbn [r_is_updated r_updated r_gamma r_heap r_touched].
  - intros v Uv. rewrite set_other; [auto|congruence].
  - intros v. unfold set. destruct (Nat.eqb v next); [specialize (i_neg0 next); lia|auto].
  - intros v. unfold set. destruct (Nat.eqb v next) eqn:E; [apply Nat.eqb_eq in E; subst v; intros _; now left|intros G; right; auto].
  - intros k v [E|H]; [injection E as <- <-; specialize (i_neg0 next); lia|eauto].
  - assumption.
  - intros u k v Uu [E|H]; [injection E as <- <-; specialize (O u Uu); lia|eauto].
  - intros e' a A' T Uf. fold w'. destruct (Nat.eq_dec e' e) as [->|Ne].
    + destruct (active_arc_at _ _ _ _ A') as (_ & _ & E'). subst a. fold next d. rewrite Vn, F. lia.
    + specialize (i_out0 e' a A' ltac:(intros [Q|Q]; [congruence|contradiction]) Uf). specialize (Vle (a_to a)). lia.
  - fold w'. specialize (Vle target). lia.
  - intros q v Q H. fold w'. destruct (Nat.eq_dec v next) as [->|Nv].
    + rewrite Vn. assert (I' := i_implied0 q here Q (or_introl U)). unfold value in I'. rewrite U in I'. specialize (Q e _ Aa). rewrite F in Q. fold next d in Q. lia.
    + rewrite (Vo v Nv). rewrite set_other in H by assumption. now apply i_implied0.
  - intros v H. destruct (Nat.eq_dec v next) as [->|Nv].
    + destruct (r_gamma w next =? 0) eqn:Z0; [apply in_or_app; right; now left|]. apply Z.eqb_neq in Z0. apply i_touched0. right. specialize (i_neg0 next). lia.
    + rewrite set_other in H by assumption. specialize (i_touched0 v H). destruct (r_gamma w next =? 0); [apply in_or_app; now left|assumption].
  - intros v. fold w'. specialize (Vle v). specialize (i_lower0 v). lia.
Qed.

Lemma repair_arcs_keep : forall here l w, repairing l w -> (forall e, In e l -> (e < length arcs)%nat /\ a_from (arc_at arcs e) = here) -> here <> source ->
  r_is_updated w here = true -> (forall u, r_is_updated w u = true -> r_updated w u - p u <= r_updated w here - p here) ->
  let w' := fold_left (repair_arc arcs active p here) l w in
  repairing [] w' /\ r_is_updated w' = r_is_updated w /\ (length (r_heap w') <= length l + length (r_heap w))%nat.
Proof.
  intros here. induction l as [|e r IH]; intros w R L N U O; cbn zeta; cbn [fold_left].
  - split; [assumption|]. split; [reflexivity|cbn [length]; lia].
  - destruct (L e (or_introl eq_refl)) as [Le Lf]. destruct (repair_arc_keeps here e r w R Le Lf N U O) as (R' & Eu & Eb & Lh).
    destruct (IH _ R' (fun e' H => L e' (or_intror H)) N) as (R2 & E2 & L2).
    + now rewrite Eu.
    + now rewrite Eu, Eb.
    + split; [assumption|]. split; [now rewrite E2|]. cbn [length]. lia.
Qed.

Lemma repair_loop_spec : forall fuel w, repairing [] w ->
  (length (r_heap w) + length (filter (fun e => negb (r_is_updated w (a_from (arc_at arcs e)))) (seq 0 (length arcs))) < fuel)%nat ->
  exists going w', repair_loop fuel arcs active p source w = Some (going, w') /\ repairing [] w' /\ (going = true -> r_heap w' = []) /\ (going = false -> r_gamma w' source < 0).
Proof.
  induction fuel as [|f IH]; intros w R M; [lia|]. cbn [repair_loop]. destruct (r_heap w) as [|q r] eqn:H.
  - exists true, w. split; [reflexivity|]. split; [assumption|]. split; [auto|discriminate].
  - destruct (r_gamma w source <? 0) eqn:G.
    + apply Z.ltb_lt in G. exists false, w. split; [reflexivity|]. split; [assumption|]. split; [discriminate|auto].
    + apply Z.ltb_ge in G. destruct (pop_least q r) as [[k here] rest] eqn:P. destruct (pop_least_spec _ _ _ _ P) as [Pm Pl].
      assert (Lr : length (q :: r) = S (length rest)) by (rewrite (Permutation_length Pm); reflexivity).
      assert (Sub : forall x, In x rest -> In x (r_heap w)) by (intros x Hx; rewrite H; apply (Permutation_in x (Permutation_sym Pm)); now right).
      assert (Khere : In (k, here) (r_heap w)) by (rewrite H; apply (Permutation_in _ (Permutation_sym Pm)); now left).
      assert (Hin : forall x, In x (r_heap w) -> x = (k, here) \/ In x rest).
      { intros x Hx. rewrite H in Hx. apply (Permutation_in x Pm) in Hx. destruct Hx as [<-|Hx]; auto. }
      assert (Least : forall k' v', In (k', v') (r_heap w) -> k <= k') by (intros k' v' Hx; rewrite H in Hx; apply (Pl _ Hx)).
      destruct (negb (k =? r_gamma w here)) eqn:Stale.
      * apply negb_true_iff, Z.eqb_neq in Stale. apply IH; [|cbn [r_heap r_is_updated]; lia].
        destruct R. constructor; cbn [r_heap r_is_updated r_updated r_gamma r_touched]; eauto.
        intros v Gv. destruct (Hin _ (i_heap0 v Gv)) as [E|E]; [|assumption]. injection E as E1 E2. subst v. congruence.
      * apply negb_false_iff, Z.eqb_eq in Stale.
        assert (Kneg : k < 0) by (apply (i_key _ _ R) with here; assumption).
        assert (Hns : here <> source) by (intros ->; lia).
        assert (Hnu : r_is_updated w here = false).
        { destruct (r_is_updated w here) eqn:U; [|reflexivity]. apply (i_zero _ _ R) in U. lia. }
        set (w2 := mk_repair _ _ _ _ _).
        assert (V2 : forall v, value w2 v = value w v).
        { intros v. unfold value, w2. cbn [r_is_updated r_updated r_gamma]. unfold set. destruct (Nat.eqb v here) eqn:E; [|reflexivity]. apply Nat.eqb_eq in E. subst v. rewrite Hnu. lia. }
        assert (O2 : forall u, r_is_updated w2 u = true -> r_updated w2 u - p u <= k).
        { intros u. unfold w2. cbn [r_is_updated r_updated]. unfold set. destruct (Nat.eqb u here) eqn:E; [apply Nat.eqb_eq in E; subst u; lia|]. intros Uu. apply (i_order _ _ R u k here Uu Khere). }
        assert (R2 : repairing (adjacent true arcs here) w2).
        { destruct R. constructor.
          - intros v. unfold w2. cbn [r_is_updated r_gamma]. unfold set. destruct (Nat.eqb v here); auto.
          - intros v. unfold w2. cbn [r_gamma]. unfold set. destruct (Nat.eqb v here); [lia|auto].
          - intros v. unfold w2. cbn [r_gamma r_heap]. unfold set. destruct (Nat.eqb v here) eqn:E; [lia|]. intros Gv. destruct (Hin _ (i_heap0 v Gv)) as [E'|E']; [|assumption]. injection E' as _ E2. subst v. rewrite Nat.eqb_refl in E. discriminate.
          - intros k' v Hk. apply (i_key0 k' v). now apply Sub.
          - unfold w2. cbn [r_is_updated]. rewrite set_other; auto.
          - intros u k' v Uu Hk. specialize (O2 u Uu). specialize (Least k' v (Sub _ Hk)). lia.
          - intros e a A T. rewrite V2. unfold w2. cbn [r_is_updated r_updated]. unfold set. destruct (Nat.eqb (a_from a) here) eqn:E; [|intros Uf; apply (i_out0 e a); auto].
            exfalso. apply T. apply Nat.eqb_eq in E. destruct (active_arc_at _ _ _ _ A) as (L & _ & E'). apply adjacent_In. split; [assumption|]. cbn [near]. now rewrite E'.
          - rewrite V2. assumption.
          - intros q' v Q Hv. rewrite V2. apply i_implied0; [assumption|]. unfold w2 in Hv. cbn [r_is_updated r_gamma] in Hv. unfold set in Hv. destruct (Nat.eqb v here) eqn:E; [|assumption]. apply Nat.eqb_eq in E. subst v. right. lia.
          - intros v Hv. unfold w2 in *. cbn [r_is_updated r_gamma r_touched] in *. apply i_touched0. unfold set in Hv. destruct (Nat.eqb v here) eqn:E; [|assumption]. apply Nat.eqb_eq in E. subst v. right. lia.
          - intros v. rewrite V2. apply i_lower0. }
        destruct (repair_arcs_keep here (adjacent true arcs here) w2 R2) as (R3 & E3 & L3).
        { intros e He. apply adjacent_In in He. exact He. }
        { assumption. }
        { unfold w2. cbn [r_is_updated]. apply set_same. }
        { intros u Uu. specialize (O2 u Uu). unfold w2 in O2 at 1. unfold w2 at 2. cbn [r_updated] in *. rewrite set_same. fold w2 in O2. unfold w2 in O2. cbn [r_updated] in O2. unfold w2. cbn [r_updated]. lia. }
        cbn zeta in R3, E3, L3. apply IH; [assumption|]. rewrite E3. unfold w2 at 1. cbn [r_is_updated].
        assert (Sp := count_split (fun e => a_from (arc_at arcs e)) (r_is_updated w) here (seq 0 (length arcs)) Hnu). cbn beta in Sp.
        assert (La : length (adjacent true arcs here) = length (filter (fun e => Nat.eqb (a_from (arc_at arcs e)) here) (seq 0 (length arcs)))) by reflexivity.
        unfold w2 in L3 at 2. cbn [r_heap] in L3.
        unfold w2. cbn [r_is_updated]. fold w2. lia.
Qed.

Lemma fold_set_In : forall (X : Type) (x : X) l (f : nat -> X) v, fold_left (fun f v => set f v x) l f v = if existsb (Nat.eqb v) l then x else f v.
Proof.
  intros X x. induction l as [|u r IH]; intros f v; [reflexivity|]. cbn [fold_left existsb]. rewrite IH. unfold set. destruct (Nat.eqb v u); cbn [orb]; destruct (existsb (Nat.eqb v) r); reflexivity.
Qed.

Lemma existsb_In : forall v l, existsb (Nat.eqb v) l = true <-> In v l.
Proof.
  intros v l. rewrite existsb_exists. split; [intros (u & H & E); apply Nat.eqb_eq in E; now subst|intros H; exists v; split; [assumption|apply Nat.eqb_refl]].
Qed.

Lemma commit_spec : forall (w : repair_work) l (h : nat -> Z) v,
  fold_left (fun p v => if r_is_updated w v then set p v (r_updated w v) else p) l h v = if existsb (Nat.eqb v) l && r_is_updated w v then r_updated w v else h v.
Proof.
  intros w. induction l as [|u r IH]; intros h v; [reflexivity|]. cbn [fold_left existsb]. rewrite IH.
  destruct (Nat.eqb v u) eqn:E; cbn [orb].
  - apply Nat.eqb_eq in E. subst u. destruct (r_is_updated w v) eqn:U; [rewrite set_same|]; destruct (existsb (Nat.eqb v) r); reflexivity.
  - destruct (existsb (Nat.eqb v) r && r_is_updated w v); [reflexivity|]. destruct (r_is_updated w u); [|reflexivity]. apply set_other. now apply Nat.eqb_neq.
Qed.

Lemma repair_potential_spec : forall w, clean_repair w ->
  exists ok p' w', repair_potential arcs active p added w = Some (ok, p', w') /\ clean_repair w' /\
    (ok = true -> potential arcs active p') /\ (ok = false -> p' = p /\ ~ exists q, potential arcs active q).
Proof.
  intros w Cl. destruct (active_arc_at _ _ _ _ Hadded) as (La & Aa & Ea). unfold repair_potential. rewrite Ea. cbn [a_from a_to a_d].
  destruct (p source + d0 - p target <? 0) eqn:Ini.
  - apply Z.ltb_lt in Ini. set (w0 := mk_repair _ _ _ _ _).
    assert (R0 : repairing [] w0).
    { assert (Un : forall v, r_is_updated w0 v = false) by (intros v; apply Cl).
      assert (Gn : forall v, r_gamma w0 v = if Nat.eqb v target then p source + d0 - p target else 0).
      { intros v. unfold w0. cbn [r_gamma]. unfold set. destruct (Nat.eqb v target); [reflexivity|apply Cl]. }
      constructor.
      - intros v. now rewrite Un.
      - intros v. rewrite Gn. destruct (Nat.eqb v target); lia.
      - intros v. rewrite Gn. destruct (Nat.eqb v target) eqn:E; [|lia]. apply Nat.eqb_eq in E. subst v. intros _. now left.
      - intros k v [E|[]]. injection E as <- <-. assumption.
      - apply Un.
      - intros u k v. now rewrite Un.
      - intros e a _ _. now rewrite Un.
      - unfold value. rewrite Un, Gn, Nat.eqb_refl. lia.
      - intros q v Q. rewrite Un, Gn. intros [E|E]; [discriminate|]. unfold value. rewrite Un, Gn. destruct (Nat.eqb v target) eqn:T; [|lia]. apply Nat.eqb_eq in T. subst v.
        specialize (Q added _ Hadded). cbn [a_from a_to a_d] in Q. lia.
      - intros v. rewrite Un, Gn. intros [E|E]; [discriminate|]. destruct (Nat.eqb v target) eqn:T; [|lia]. apply Nat.eqb_eq in T. subst v. now left.
      - intros v. unfold value. rewrite Un, Gn. destruct (Nat.eqb v target); lia. }
    assert (Lf : (length (filter (fun e => negb (r_is_updated w0 (a_from (arc_at arcs e)))) (seq 0 (length arcs))) <= length arcs)%nat).
    { rewrite <- (seq_length (length arcs) 0) at 2. generalize (seq 0 (length arcs)). intros l. induction l as [|x r IH]; cbn [filter length]; [lia|]. destruct (negb _); cbn [length]; lia. }
    destruct (repair_loop_spec (S (S (length arcs))) w0 R0) as (going & w1 & E & R1 & Gt & Gf).
    { unfold w0 at 1. cbn [r_heap length]. lia. }
    rewrite E.
    assert (Clean : clean_repair (mk_repair (fold_left (fun g v => set g v 0) (r_touched w1) (r_gamma w1)) (r_updated w1)
          (fold_left (fun u v => set u v false) (r_touched w1) (r_is_updated w1)) (r_touched w1) (r_heap w1))).
    { intros v. cbn [r_gamma r_is_updated]. rewrite !fold_set_In. destruct (existsb (Nat.eqb v) (r_touched w1)) eqn:X; [auto|].
      assert (N : ~ In v (r_touched w1)) by (rewrite <- existsb_In; congruence).
      assert (N' : ~ (r_is_updated w1 v = true \/ r_gamma w1 v < 0)) by (intros H; apply N; now apply (i_touched _ _ R1)).
      assert (Ng := i_neg _ _ R1 v). split; [destruct (Z.eq_dec (r_gamma w1 v) 0); [assumption|exfalso; apply N'; right; lia]|destruct (r_is_updated w1 v); [exfalso; apply N'; now left|reflexivity]]. }
    eexists _, _, _. split; [reflexivity|]. split; [exact Clean|].
    assert (Bad : r_gamma w1 source < 0 -> ~ exists q, potential arcs active q).
    { intros G [q Q]. assert (X := i_implied _ _ R1 q source Q (or_intror G)). unfold value in X. rewrite (i_source _ _ R1) in X. lia. }
    destruct going; cbn [andb].
    + assert (Hp := Gt eq_refl). assert (Z0 : forall v, r_gamma w1 v = 0).
      { intros v. assert (Ng := i_neg _ _ R1 v). destruct (Z.eq_dec (r_gamma w1 v) 0) as [E0|E0]; [assumption|]. exfalso. assert (H := i_heap _ _ R1 v ltac:(lia)). rewrite Hp in H. destruct H. }
      rewrite (proj2 (Z.ltb_ge _ _)) by (rewrite Z0; lia). split; [|discriminate]. intros _ e a A.
      assert (V : forall v, fold_left (fun p v => if r_is_updated w1 v then set p v (r_updated w1 v) else p) (r_touched w1) p v = value w1 v).
      { intros v. rewrite commit_spec. unfold value. rewrite Z0. destruct (r_is_updated w1 v) eqn:U; [|rewrite andb_false_r; lia].
        rewrite (proj2 (existsb_In v _)); [reflexivity|]. apply (i_touched _ _ R1). now left. }
      rewrite !V. destruct (r_is_updated w1 (a_from a)) eqn:U.
      * assert (X := i_out _ _ R1 e a A (fun h => h) U). unfold value at 1. rewrite U. lia.
      * assert (V' : value w1 (a_from a) = p (a_from a)) by (unfold value; rewrite U, Z0; lia). rewrite V'.
        destruct (Nat.eq_dec e added) as [->|Ne].
        { assert (a = mk_arc source target d0) by (destruct A as [A _]; destruct Hadded as [B _]; congruence). subst a. cbn [a_from a_to a_d]. assert (X := i_target _ _ R1). lia. }
        { assert (X := Hothers e a A Ne). assert (Y := i_lower _ _ R1 (a_to a)). lia. }
    + split; [discriminate|]. intros _. split; [reflexivity|]. apply Bad. now apply Gf.
  - apply Z.ltb_ge in Ini. eexists _, _, _. split; [reflexivity|]. split; [exact Cl|]. split; [|discriminate]. intros _ e a A.
    destruct (Nat.eq_dec e added) as [->|Ne]; [|now apply (Hothers e)].
    assert (a = mk_arc source target d0) by (destruct A as [A _]; destruct Hadded as [B _]; congruence). subst a. cbn [a_from a_to a_d]. lia.
Qed.
End Repair.
