(** Proofs about [MaxFlow]. *)
From Coq Require Import ZArith List Bool Arith Lia.
From Verif Require Import Scc SccProofs MaxFlow.
Import ListNotations.
Local Open Scope Z_scope.

(** ** Sums *)
Lemma sum_ext f g xs : (forall x, In x xs -> f x = g x) -> sum_over f xs = sum_over g xs.
Proof. induction xs as [|x xs IH]; intro H; [reflexivity|]. simpl. rewrite (H x) by now left. f_equal. apply IH. intros y J. apply H. now right. Qed.

Lemma sum_zero f xs : (forall x, In x xs -> f x = 0) -> sum_over f xs = 0.
Proof. induction xs as [|x xs IH]; intro H; [reflexivity|]. simpl. rewrite (H x), IH; [reflexivity| |now left]. intros y J. apply H. now right. Qed.

Lemma sum_plus f g xs : sum_over (fun x => f x + g x) xs = sum_over f xs + sum_over g xs.
Proof. induction xs as [|x xs IH]; simpl; lia. Qed.

Lemma sum_minus f g xs : sum_over (fun x => f x - g x) xs = sum_over f xs - sum_over g xs.
Proof. induction xs as [|x xs IH]; simpl; lia. Qed.

Lemma sum_opp f xs : sum_over (fun x => - f x) xs = - sum_over f xs.
Proof. induction xs as [|x xs IH]; simpl; lia. Qed.

Lemma sum_le f g xs : (forall x, In x xs -> f x <= g x) -> sum_over f xs <= sum_over g xs.
Proof. induction xs as [|x xs IH]; intro H; simpl; [lia|]. specialize (H x (or_introl eq_refl)) as H0. assert (sum_over f xs <= sum_over g xs) by (apply IH; intros y J; apply H; now right). lia. Qed.

Lemma sum_nonneg f xs : (forall x, In x xs -> 0 <= f x) -> 0 <= sum_over f xs.
Proof. intro H. assert (E : sum_over (fun _ => 0) xs = 0) by now apply sum_zero. rewrite <- E. now apply sum_le. Qed.

Lemma sum_app f xs ys : sum_over f (xs ++ ys) = sum_over f xs + sum_over f ys.
Proof. induction xs as [|x xs IH]; simpl; lia. Qed.

(** A sum whose terms are all at most their match, and not less in total, has equal
    terms. *)
Lemma sum_tight f g xs : (forall x, In x xs -> f x <= g x) -> sum_over g xs <= sum_over f xs -> forall x, In x xs -> f x = g x.
Proof.
  induction xs as [|y xs IH]; intros H L x J; [destruct J|]. simpl in L. assert (f y <= g y) by (apply H; now left).
  assert (sum_over f xs <= sum_over g xs) by (apply sum_le; intros z J'; apply H; now right).
  destruct J as [<-|J]; [lia|]. apply IH; [intros z J'; apply H; now right|lia|assumption].
Qed.

(** One term of a sum without repeats. *)
Lemma sum_one y d xs : NoDup xs -> In y xs -> sum_over (fun x => if Nat.eqb x y then d else 0) xs = d.
Proof.
  induction xs as [|x xs IH]; intros ND J; [destruct J|]. apply NoDup_cons_iff in ND. destruct ND as [NI ND]. simpl. destruct J as [->|J].
  - rewrite Nat.eqb_refl, sum_zero; [lia|]. intros z Jz. destruct (Nat.eqb_spec z y) as [->|]; [contradiction|reflexivity].
  - destruct (Nat.eqb_spec x y) as [->|]; [contradiction|]. rewrite IH by assumption. lia.
Qed.

Lemma sum_term f y xs : (forall x, In x xs -> 0 <= f x) -> In y xs -> f y <= sum_over f xs.
Proof.
  induction xs as [|x xs IH]; intros H J; [destruct J|]. simpl. assert (0 <= f x) by (apply H; now left).
  assert (0 <= sum_over f xs) by (apply sum_nonneg; intros z Jz; apply H; now right).
  destruct J as [->|J]; [lia|]. assert (f y <= sum_over f xs) by (apply IH; [intros z Jz; apply H; now right|assumption]). lia.
Qed.

Lemma sum_swap (f : nat -> nat -> Z) xs ys : sum_over (fun x => sum_over (f x) ys) xs = sum_over (fun y => sum_over (fun x => f x y) xs) ys.
Proof.
  induction xs as [|x xs IH]; simpl; [symmetry; now apply sum_zero|]. rewrite IH. now rewrite <- sum_plus.
Qed.

Lemma sum_map (g : nat -> nat) f xs : sum_over f (map g xs) = sum_over (fun x => f (g x)) xs.
Proof. induction xs as [|x xs IH]; simpl; [reflexivity|now rewrite IH]. Qed.

(** ** Breadth first *)
Section Breadth.
Variable succ : nat -> list nat.
Variable n : nat.
Hypothesis Hn : forall u v, (u < n)%nat -> In v (succ u) -> (v < n)%nat.

Lemma look_at_spec l ws : 0 <= l -> forall level level' new, look_at l ws level = (level', new) ->
  (forall w, 0 <= level w -> level' w = level w) /\
  (forall w, In w new -> level w < 0 /\ In w ws /\ level' w = l + 1) /\
  (forall w, In w ws -> 0 <= level' w) /\
  (forall w, level' w = level w \/ In w new).
Proof.
  intros Hl. induction ws as [|w ws IH]; intros level level' new E; simpl in E.
  - inversion E. subst. split; [auto|]. split; [intros w []|]. split; [intros w []|]. now left.
  - destruct (Z.ltb_spec (level w) 0) as [L|L].
    + destruct (look_at l ws (put level w (l + 1))) as [lv nw] eqn:E1. inversion E. subst lv new. destruct (IH _ _ _ E1) as (A & B & C & D).
      assert (Ew : level' w = l + 1). { rewrite A; rewrite put_same; lia. }
      split; [|split; [|split]].
      * intros x Hx. assert (x <> w) by (intros ->; lia). rewrite A; rewrite put_other by assumption; auto.
      * intros x [<-|J]; [repeat split; auto; now left|]. destruct (B x J) as (B1 & B2 & B3). destruct (Nat.eq_dec x w) as [->|N].
        -- rewrite put_same in B1. lia.
        -- rewrite put_other in B1 by assumption. repeat split; auto. now right.
      * intros x [<-|J]; [lia|auto].
      * intro x. destruct (D x) as [Ex|J]; [|right; now right]. destruct (Nat.eq_dec x w) as [->|N]; [right; now left|]. left. rewrite Ex. now apply put_other.
    + destruct (IH _ _ _ E) as (A & B & C & D). split; [assumption|]. split; [|split].
      * intros x J. destruct (B x J) as (B1 & B2 & B3). repeat split; auto. now right.
      * intros x [<-|J]; [|auto]. rewrite A; assumption.
      * assumption.
Qed.

Definition unseen (level : nat -> Z) (xs : list nat) : nat := length (filter (fun v => level v <? 0) xs).

Lemma unseen_put level w x xs : 0 <= x -> level w < 0 -> NoDup xs -> In w xs -> unseen level xs = S (unseen (put level w x) xs).
Proof.
  intros Hx L. unfold unseen. induction xs as [|y xs IH]; intros ND J; [destruct J|]. apply NoDup_cons_iff in ND. destruct ND as [NI ND]. simpl. destruct J as [->|J].
  - rewrite put_same. destruct (Z.ltb_spec (level w) 0); [|lia]. destruct (Z.ltb_spec x 0); [lia|]. simpl. f_equal. f_equal. apply filter_ext_in. intros z Jz.
    rewrite put_other; [reflexivity|]. intros ->. contradiction.
  - rewrite put_other by (intros ->; contradiction). destruct (level y <? 0); simpl; rewrite IH by assumption; reflexivity.
Qed.

Lemma look_at_count l ws : 0 <= l -> (forall w, In w ws -> (w < n)%nat) -> forall level level' new, look_at l ws level = (level', new) ->
  (unseen level' (seq 0 n) + length new = unseen level (seq 0 n))%nat.
Proof.
  intros Hl. induction ws as [|w ws IH]; intros B level level' new E; simpl in E; [inversion E; simpl; lia|].
  destruct (Z.ltb_spec (level w) 0) as [L|L].
  - destruct (look_at l ws (put level w (l + 1))) as [lv nw] eqn:E1. inversion E. subst lv new. apply IH in E1; [|intros x J; apply B; now right].
    rewrite (unseen_put level w (l + 1)); [simpl; lia|lia|assumption|apply seq_NoDup|]. apply in_seq. specialize (B w (or_introl eq_refl)). lia.
  - apply IH in E; [assumption|]. intros x J. apply B. now right.
Qed.

Variable s : nat.

Definition reached_by (level : nat -> Z) : Prop := forall w, 0 <= level w -> (w < n)%nat /\ (w = s \/ exists u, 0 <= level u /\ In w (succ u) /\ level w = level u + 1).

Lemma breadth_spec fuel : forall level q, (length q + unseen level (seq 0 n) <= fuel)%nat ->
  reached_by level -> (forall u, In u q -> 0 <= level u) -> (forall u, 0 <= level u -> In u q \/ forall w, In w (succ u) -> 0 <= level w) ->
  let L := breadth succ fuel level q in
  reached_by L /\ (forall u, 0 <= level u -> L u = level u) /\ (forall u w, 0 <= L u -> In w (succ u) -> 0 <= L w).
Proof.
  induction fuel as [|fuel IH]; intros level q F R Q C; cbn zeta.
  - destruct q; [|simpl in F; lia]. simpl. split; [assumption|]. split; [auto|]. intros u w Hu J. destruct (C u Hu) as [[]|H]; auto.
  - destruct q as [|u r]; simpl.
    + split; [assumption|]. split; [auto|]. intros u w Hu J. destruct (C u Hu) as [[]|H]; auto.
    + destruct (look_at (level u) (succ u) level) as [level' new] eqn:E.
      assert (Hu : 0 <= level u) by (apply Q; now left). destruct (R u Hu) as [Bu _].
      destruct (look_at_spec _ _ Hu _ _ _ E) as (A & B & C' & D).
      pose proof (look_at_count _ _ Hu (fun w => Hn u w Bu) _ _ _ E) as K.
      destruct (IH level' (r ++ new)) as (R' & X & Y).
      * rewrite app_length. simpl in F. lia.
      * intros w Hw. destruct (D w) as [Ew|J].
        -- rewrite Ew in Hw. destruct (R w Hw) as [Bw [->|(p & Hp & Ip & Lp)]]; (split; [assumption|]); [now left|]. right. exists p. rewrite (A p Hp). split; [assumption|]. split; [assumption|]. now rewrite Ew.
        -- destruct (B w J) as (_ & Iw & Lw). split; [now apply (Hn u)|]. right. exists u. rewrite (A u Hu). auto.
      * intros x J. apply in_app_or in J. destruct J as [J|J]; [rewrite A; apply Q; now right|]. destruct (B x J) as (_ & _ & Lx). lia.
      * intros x Hx. destruct (D x) as [Ex|J]; [|left; apply in_or_app; now right]. rewrite Ex in Hx. destruct (C x Hx) as [[<-|J]|H].
        -- right. intros w Jw. now apply C'.
        -- left. apply in_or_app. now left.
        -- right. intros w Jw. rewrite A; apply H; assumption.
      * cbn zeta in R', X, Y. split; [assumption|]. split; [|assumption]. intros x Hx. rewrite X; rewrite A; auto.
Qed.

Hypothesis Hs : (s < n)%nat.

Lemma levels_spec : let L := levels succ n s in
  reached_by L /\ L s = 0 /\ (forall u w, 0 <= L u -> In w (succ u) -> 0 <= L w).
Proof.
  unfold levels. destruct (breadth_spec n (put (fun _ => -1) s 0) [s]) as (A & B & C).
  - simpl. assert (K : unseen (fun _ => -1) (seq 0 n) = S (unseen (put (fun _ => -1) s 0) (seq 0 n))) by (apply unseen_put; [lia|lia|apply seq_NoDup|apply in_seq; lia]).
    assert (unseen (fun _ => -1) (seq 0 n) = n). { unfold unseen. clear. transitivity (length (seq 0 n)); [|apply seq_length]. f_equal. induction (seq 0 n) as [|x xs IH]; [reflexivity|]. simpl. now rewrite IH. }
    lia.
  - intros w Hw. destruct (Nat.eq_dec w s) as [->|N]; [auto|]. rewrite put_other in Hw by assumption. lia.
  - intros u [<-|[]]. rewrite put_same. lia.
  - intros u Hu. destruct (Nat.eq_dec u s) as [->|N]; [left; now left|]. rewrite put_other in Hu by assumption. lia.
  - cbn zeta in *. split; [assumption|]. split; [|assumption]. rewrite B; rewrite put_same; lia.
Qed.

Lemma levels_bound w : levels succ n s w < Z.of_nat n.
Proof.
  destruct levels_spec as (R & _ & _). cbn zeta in R. set (L := levels succ n s) in *.
  destruct (Z.ltb_spec (L w) 0) as [N|N]; [lia|].
  assert (G : forall l w, L w = Z.of_nat l -> exists ws, NoDup ws /\ length ws = S l /\ forall x, In x ws -> (x < n)%nat /\ 0 <= L x <= Z.of_nat l).
  { induction l as [|l IH]; intros x E.
    - exists [x]. split; [repeat constructor; auto|]. split; [reflexivity|]. intros y [<-|[]]. destruct (R x) as [B _]; [lia|]. split; [assumption|lia].
    - destruct (R x) as [B [->|(u & Hu & _ & Eu)]]; [lia| |].
      + exfalso. destruct levels_spec as (_ & Z & _). fold L in Z. lia.
      + destruct (IH u) as (ws & ND & Len & P); [lia|]. exists (x :: ws). split; [constructor; [|assumption]|].
        * intro J. destruct (P x J). lia.
        * split; [simpl; now rewrite Len|]. intros y [<-|J]; [split; [assumption|lia]|]. destruct (P y J). split; [assumption|lia]. }
  destruct (G (Z.to_nat (L w)) w) as (ws & ND & Len & P); [lia|].
  assert (I : incl ws (seq 0 n)) by (intros x J; apply in_seq; destruct (P x J); lia).
  pose proof (NoDup_incl_length ND I) as K. rewrite seq_length in K. lia.
Qed.
End Breadth.

(** ** Depth first *)
Section Flow.
Variable n : nat.
Variable adj : nat -> list nat.
Hypothesis Hadj : forall u v, (u < n)%nat -> In v (adj u) -> (v < n)%nat.
Variables s t : nat.
Hypothesis Hs : (s < n)%nat.
Hypothesis Ht : (t < n)%nat.
Hypothesis Hst : s <> t.

Definition nonneg (r : residual) : Prop := forall u v, 0 <= r u v.
Definition same_total (r r' : residual) : Prop := forall u v, r' u v + r' v u = r u v + r v u.
(** [g] more goes from [u] to [t]. *)
Definition moved (u : nat) (g : Z) (r r' : residual) : Prop :=
  forall x, (x < n)%nat -> sum_over (fun v => r v x - r' v x) (seq 0 n) = (if Nat.eqb x t then g else 0) - (if Nat.eqb x u then g else 0).

Lemma push_sum r u v d x : (u < n)%nat -> (v < n)%nat -> u <> v ->
  sum_over (fun w => r w x - push r u v d w x) (seq 0 n) = (if Nat.eqb x v then d else 0) - (if Nat.eqb x u then d else 0).
Proof.
  intros Bu Bv N. unfold push.
  rewrite (sum_ext _ (fun w => (if Nat.eqb w u then (if Nat.eqb x v then d else 0) else 0) - (if Nat.eqb w v then (if Nat.eqb x u then d else 0) else 0))).
  - rewrite sum_minus, !sum_one; [reflexivity|apply seq_NoDup|apply in_seq; lia|apply seq_NoDup|apply in_seq; lia].
  - intros w _. destruct (Nat.eqb_spec w u), (Nat.eqb_spec x v), (Nat.eqb_spec w v), (Nat.eqb_spec x u); subst; simpl; try lia; congruence.
Qed.

Section Depth.
Variable level : nat -> Z.

Inductive leads (r : residual) : nat -> Prop :=
| leads_there : leads r t
| leads_on u v : In v (adj u) -> 0 < r u v -> level u < level v -> leads r v -> leads r u.

(** The edges passed over lead nowhere. *)
Definition passed (r : residual) (iter : nat -> nat) : Prop :=
  forall w k v, (k < iter w)%nat -> nth_error (adj w) k = Some v -> 0 < r w v -> level w < level v -> ~ leads r v.

Definition dfs_ok (u : nat) (f : Z) (iter : nat -> nat) (r : residual) (res : Z * (nat -> nat) * residual) : Prop :=
  let '(g, iter', r') := res in
  0 <= g <= f /\ nonneg r' /\ same_total r r' /\ moved u g r r' /\
  (forall a b, r' a b <> r a b -> level u <= level a /\ level u <= level b) /\
  (g = 0 -> r' = r) /\ (forall w, level w < level u -> iter' w = iter w).

Lemma dfs_good depth : forall u f iter r, (u < n)%nat -> 0 < f -> nonneg r -> dfs_ok u f iter r (dfs adj t level depth u f iter r).
Proof.
  assert (ZERO : forall u f iter r, 0 < f -> nonneg r -> dfs_ok u f iter r (0, iter, r)).
  { intros u f iter r Hf Hr. unfold dfs_ok. repeat split; try lia; auto; try congruence. intros x _. rewrite sum_zero by (intros; lia). destruct (Nat.eqb x t), (Nat.eqb x u); lia. }
  induction depth as [|depth IH]; intros u f iter r Bu Hf Hr; simpl; [now apply ZERO|].
  destruct (Nat.eqb_spec u t) as [->|Nt].
  - unfold dfs_ok. repeat split; try lia; auto; try congruence. intros x _. rewrite sum_zero by (intros; lia). destruct (Nat.eqb x t); lia.
  - assert (I : incl (skipn (iter u) (adj u)) (adj u)) by (intros x J; rewrite <- (firstn_skipn (iter u) (adj u)); apply in_or_app; now right).
    revert I. generalize (skipn (iter u) (adj u)) as vs. intro vs. revert iter r Hr.
    induction vs as [|v vs IHv]; intros iter r Hr I; [now apply ZERO|].
    assert (NEXT : forall iter', (forall w, level w < level u -> iter' w = iter w) ->
      dfs_ok u f iter r
        ((fix try (vs : list nat) (iter : nat -> nat) (r : residual) : Z * (nat -> nat) * residual :=
           match vs with
           | [] => (0, iter, r)
           | v :: vs' =>
               if (0 <? r u v) && (level u <? level v) then
                 let '(d, iter', r') := dfs adj t level depth v (Z.min f (r u v)) iter r in
                 if 0 <? d then (d, iter', push r' u v d) else try vs' (put iter' u (S (iter' u))) r'
               else try vs' (put iter u (S (iter u))) r
           end) vs (put iter' u (S (iter' u))) r)).
    { intros iter' E. specialize (IHv (put iter' u (S (iter' u))) r Hr (fun x J => I x (or_intror J))). unfold dfs_ok in *.
      destruct (_ vs _ r) as [[g it] r'] in IHv |- *. destruct IHv as (A1 & A2 & A3 & A4 & A5 & A6 & A7). repeat (split; [assumption|]).
      intros w Lw. rewrite A7 by assumption. rewrite put_other by (intros ->; lia). now apply E. }
    destruct (Z.ltb_spec 0 (r u v)) as [R|R]; [|apply NEXT; auto]. destruct (Z.ltb_spec (level u) (level v)) as [L|L]; simpl; [|apply NEXT; auto].
    assert (Bv : (v < n)%nat) by (apply (Hadj u); [assumption|apply I; now left]).
    specialize (IH v (Z.min f (r u v)) iter r Bv ltac:(lia) Hr). unfold dfs_ok in IH.
    destruct (dfs adj t level depth v (Z.min f (r u v)) iter r) as [[d it] r']. destruct IH as (A1 & A2 & A3 & A4 & A5 & A6 & A7).
    destruct (Z.ltb_spec 0 d) as [D|D].
    + assert (Euv : r' u v = r u v /\ r' v u = r v u).
      { split; [destruct (Z.eq_dec (r' u v) (r u v)) as [|Ne]|destruct (Z.eq_dec (r' v u) (r v u)) as [|Ne]]; try assumption; apply A5 in Ne; lia. }
      destruct Euv as [E1 E2]. assert (Nuv : u <> v) by (intros ->; lia).
      unfold dfs_ok. split; [lia|]. split; [|split; [|split; [|split; [|split]]]].
      * intros a b. unfold push. specialize (A2 a b). destruct (Nat.eqb_spec a u), (Nat.eqb_spec b v), (Nat.eqb_spec a v), (Nat.eqb_spec b u); subst; simpl; try lia.
      * intros a b. specialize (A3 a b). unfold push. destruct (Nat.eqb_spec a u), (Nat.eqb_spec b v), (Nat.eqb_spec a v), (Nat.eqb_spec b u); subst; simpl; try lia; congruence.
      * intros x Bx. rewrite (sum_ext _ (fun w => (r w x - r' w x) + (r' w x - push r' u v d w x))) by (intros; lia).
        rewrite sum_plus, (A4 x Bx), (push_sum r' u v d x Bu Bv Nuv). destruct (Nat.eqb_spec x t), (Nat.eqb_spec x v), (Nat.eqb_spec x u); lia.
      * intros a b Ne. unfold push in Ne. destruct (Nat.eqb_spec a u), (Nat.eqb_spec b v), (Nat.eqb_spec a v), (Nat.eqb_spec b u); subst; simpl in Ne; try lia; try (apply A5 in Ne; lia).
      * lia.
      * intros w Lw. apply A7. lia.
    + assert (d = 0) by lia. subst d. rewrite A6 in * by reflexivity. apply NEXT. intros w Lw. apply A7. lia.
Qed.

Hypothesis Hlevel : forall v, level v < Z.of_nat n.

Lemma dfs_finds depth : forall u f iter r, (u < n)%nat -> 0 < f -> nonneg r -> Z.of_nat n - level u <= Z.of_nat depth -> passed r iter ->
  let '(g, iter', r') := dfs adj t level depth u f iter r in g = 0 -> passed r iter' /\ ~ leads r u.
Proof.
  induction depth as [|depth IH]; intros u f iter r Bu Hf Hr Hd P; simpl.
  - specialize (Hlevel u). lia.
  - destruct (Nat.eqb_spec u t) as [->|Nt]; [lia|].
    remember (skipn (iter u) (adj u)) as vs eqn:Evs. revert iter P Evs.
    induction vs as [|v vs IHv]; intros iter P Evs.
    + intros _. split; [assumption|]. intro Le. inversion Le as [E|u' v J R L Lv]; subst; [congruence|]. apply In_nth_error in J. destruct J as [k Ek].
      assert (K : (k < iter u)%nat).
      { destruct (Nat.ltb_spec k (iter u)) as [|K]; [assumption|]. exfalso. assert (nth_error (skipn (iter u) (adj u)) (k - iter u) = Some v).
        { rewrite <- (firstn_skipn (iter u) (adj u)) in Ek. assert (k < length (adj u))%nat by (rewrite <- (firstn_skipn (iter u) (adj u)); apply nth_error_Some; congruence).
          rewrite nth_error_app2 in Ek; rewrite firstn_length, Nat.min_l in * by lia; [assumption|lia]. }
        rewrite <- Evs in H. destruct (k - iter u)%nat; discriminate. }
      exact (P u k v K Ek R L Lv).
    + assert (Bk : nth_error (adj u) (iter u) = Some v /\ vs = skipn (S (iter u)) (adj u)).
      { clear -Evs. revert Evs. generalize (iter u) as k. intro k. revert k. induction (adj u) as [|x xs IHx]; intros [|k] E; simpl in *; try discriminate; [injection E as -> ->; auto|]. apply IHx in E. destruct E as [E1 E2]. split; [assumption|]. exact E2. }
      destruct Bk as [Ek Evs'].
      assert (NEXT : forall iter', iter' u = iter u -> passed r iter' -> (0 < r u v -> level u < level v -> ~ leads r v) ->
        let '(g, it, r') := (fix try (vs : list nat) (iter : nat -> nat) (r : residual) : Z * (nat -> nat) * residual :=
           match vs with
           | [] => (0, iter, r)
           | v :: vs' =>
               if (0 <? r u v) && (level u <? level v) then
                 let '(d, iter', r') := dfs adj t level depth v (Z.min f (r u v)) iter r in
                 if 0 <? d then (d, iter', push r' u v d) else try vs' (put iter' u (S (iter' u))) r'
               else try vs' (put iter u (S (iter u))) r
           end) vs (put iter' u (S (iter' u))) r in g = 0 -> passed r it /\ ~ leads r u).
      { intros iter' E P' Nv. apply IHv.
        - intros w k x K Ex Rx Lx. destruct (Nat.eq_dec w u) as [->|N].
          + rewrite put_same, E in K. destruct (Nat.eq_dec k (iter u)) as [->|Nk].
            * assert (x = v) by congruence. subst x. now apply Nv.
            * apply (P u k x); auto. lia.
          + rewrite put_other in K by assumption. now apply (P' w k x).
        - rewrite put_same, E. assumption. }
      destruct (Z.ltb_spec 0 (r u v)) as [R|R]; [|apply NEXT; [reflexivity|assumption|lia]]. destruct (Z.ltb_spec (level u) (level v)) as [L|L]; simpl; [|apply NEXT; [reflexivity|assumption|lia]].
      assert (Bv : (v < n)%nat) by (apply (Hadj u); [assumption|now apply nth_error_In in Ek]).
      pose proof (dfs_good depth v (Z.min f (r u v)) iter r Bv ltac:(lia) Hr) as G. unfold dfs_ok in G.
      specialize (IH v (Z.min f (r u v)) iter r Bv ltac:(lia) Hr ltac:(lia) P).
      destruct (dfs adj t level depth v (Z.min f (r u v)) iter r) as [[d it] r']. destruct G as (A1 & A2 & A3 & A4 & A5 & A6 & A7).
      destruct (Z.ltb_spec 0 d) as [D|D]; [intro; lia|]. assert (d = 0) by lia. subst d. rewrite A6 by reflexivity. destruct IH as [IH1 IH2]; [reflexivity|].
      apply NEXT; [now apply A7|assumption|auto].
Qed.
End Depth.

(** ** The whole *)
Variable c : residual.
Hypothesis Hc : nonneg c.
Hypothesis Hcov : forall u v, (u < n)%nat -> (v < n)%nat -> 0 < c u v + c v u -> In v (adj u).

(** What a flow of [flow] from [s] to [t] leaves. *)
Definition leaves (flow : Z) (r : residual) : Prop :=
  nonneg r /\ same_total c r /\
  forall x, (x < n)%nat -> sum_over (fun v => c v x - r v x) (seq 0 n) = (if Nat.eqb x t then flow else 0) - (if Nat.eqb x s then flow else 0).

Lemma leaves_bound flow r : leaves flow r -> flow <= sum_over (c s) (seq 0 n).
Proof.
  intros (A & B & C). specialize (C s Hs). rewrite Nat.eqb_refl in C. destruct (Nat.eqb_spec s t); [contradiction|].
  assert (E : sum_over (fun v => c v s - r v s) (seq 0 n) = - sum_over (fun v => c s v - r s v) (seq 0 n)).
  { rewrite <- sum_opp. apply sum_ext. intros v _. specialize (B v s). lia. }
  assert (sum_over (fun v => c s v - r s v) (seq 0 n) <= sum_over (c s) (seq 0 n)) by (apply sum_le; intros v _; specialize (A s v); lia). lia.
Qed.

Lemma leaves_moved flow r g r' : leaves flow r -> nonneg r' -> same_total r r' -> moved s g r r' -> leaves (flow + g) r'.
Proof.
  intros (A & B & C) N T M. split; [assumption|]. split.
  - intros u v. rewrite T. apply B.
  - intros x Bx. rewrite (sum_ext _ (fun v => (c v x - r v x) + (r v x - r' v x))) by (intros; lia). rewrite sum_plus, C, M by assumption.
    destruct (Nat.eqb x t), (Nat.eqb x s); lia.
Qed.

Lemma push_all_spec level fuel : forall iter r flow, leaves flow r -> sum_over (c s) (seq 0 n) - flow < Z.of_nat fuel ->
  exists flow' r', push_all n adj s t level fuel iter r flow = Some (flow', r') /\ leaves flow' r' /\ flow <= flow'.
Proof.
  induction fuel as [|fuel IH]; intros iter r flow L F.
  - pose proof (leaves_bound _ _ L). lia.
  - simpl. pose proof (dfs_good level n s 9223372036854775807 iter r Hs ltac:(lia) (proj1 L)) as G.
    destruct (dfs adj t level n s 9223372036854775807 iter r) as [[g it] r']. destruct G as (A1 & A2 & A3 & A4 & A5 & A6 & A7).
    destruct (Z.eqb_spec g 0) as [->|N].
    + exists flow, r'. rewrite A6 by reflexivity. split; [reflexivity|]. split; [assumption|lia].
    + pose proof (leaves_moved _ _ _ _ L A2 A3 A4) as L'. destruct (IH it r' (flow + g) L' ltac:(lia)) as (fl & r2 & E & L2 & Le). exists fl, r2. split; [assumption|]. split; [assumption|lia].
Qed.

(** With a way through, the first attempt finds one. *)
Lemma push_all_more level fuel r flow : leaves flow r -> sum_over (c s) (seq 0 n) - flow < Z.of_nat fuel -> level s = 0 -> (forall v, level v < Z.of_nat n) -> leads level r s ->
  exists flow' r', push_all n adj s t level fuel (fun _ => O) r flow = Some (flow', r') /\ leaves flow' r' /\ flow < flow'.
Proof.
  intros L F Z0 Hl Le. destruct fuel as [|fuel]; [pose proof (leaves_bound _ _ L); lia|]. simpl.
  pose proof (dfs_good level n s 9223372036854775807 (fun _ => O) r Hs ltac:(lia) (proj1 L)) as G.
  pose proof (dfs_finds level Hl n s 9223372036854775807 (fun _ => O) r Hs ltac:(lia) (proj1 L) ltac:(lia) ltac:(intros w k v K; lia)) as D.
  destruct (dfs adj t level n s 9223372036854775807 (fun _ => O) r) as [[g it] r']. destruct G as (A1 & A2 & A3 & A4 & A5 & A6 & A7).
  destruct (Z.eqb_spec g 0) as [->|N]; [destruct (D eq_refl); contradiction|].
  pose proof (leaves_moved _ _ _ _ L A2 A3 A4) as L'. destruct (push_all_spec level fuel it r' (flow + g) L' ltac:(lia)) as (fl & r2 & E & L2 & Le2). exists fl, r2. split; [assumption|]. split; [assumption|lia].
Qed.

Lemma open_from_In r u v : In v (open_from adj r u) <-> In v (adj u) /\ 0 < r u v.
Proof. unfold open_from. rewrite filter_In, Z.ltb_lt. reflexivity. Qed.

Lemma levels_lead r : let L := levels (open_from adj r) n s in 0 <= L t -> leads L r s.
Proof.
  cbn zeta. intro Ht0. destruct (levels_spec (open_from adj r) n) with (s := s) as (R & Z0 & _); [|assumption|].
  { intros u v Bu J. apply open_from_In in J. now apply (Hadj u). }
  cbn zeta in R, Z0. set (L := levels (open_from adj r) n s) in *.
  assert (G : forall l w, L w = Z.of_nat l -> leads L r w -> leads L r s).
  { induction l as [|l IH]; intros w E Le.
    - destruct (R w) as [_ [->|(u & Hu & _ & Eu)]]; [lia|assumption|lia].
    - destruct (R w) as [_ [->|(u & Hu & Iu & Eu)]]; [lia|assumption|]. apply open_from_In in Iu. destruct Iu as [Iu Ru]. apply (IH u); [lia|]. apply (leads_on L r u w); auto. lia. }
  apply (G (Z.to_nat (L t)) t); [lia|apply leads_there].
Qed.

(** Nothing open leaves [R]. *)
Definition cut_off (R : nat -> bool) (r : residual) : Prop :=
  R s = true /\ R t = false /\ forall u v, (u < n)%nat -> (v < n)%nat -> R u = true -> R v = false -> r u v = 0.

Lemma phases_spec limit fuel : Z.of_nat limit = sum_over (c s) (seq 0 n) -> forall r flow, leaves flow r -> 0 <= flow -> sum_over (c s) (seq 0 n) - flow < Z.of_nat fuel ->
  exists flow' r' R, phases n adj s t limit fuel r flow = Some (flow', r') /\ leaves flow' r' /\ cut_off R r'.
Proof.
  intro Hlim. induction fuel as [|fuel IH]; intros r flow L F0 F.
  - pose proof (leaves_bound _ _ L). lia.
  - cbn [phases]. assert (Hn : forall u v, (u < n)%nat -> In v (open_from adj r u) -> (v < n)%nat) by (intros u v Bu J; apply open_from_In in J; now apply (Hadj u)).
    destruct (levels_spec _ n Hn s Hs) as (R & Z0 & Cl). pose proof (levels_bound _ n Hn s Hs) as Bl. cbn zeta in *.
    destruct (Z.ltb_spec (levels (open_from adj r) n s t) 0) as [Lt|Lt].
    + exists flow, r, (fun u => 0 <=? levels (open_from adj r) n s u). split; [reflexivity|]. split; [assumption|]. split; [rewrite Z0; reflexivity|]. split; [apply Z.leb_gt; lia|].
      intros u v Bu Bv Ru Rv. apply Z.leb_le in Ru. apply Z.leb_gt in Rv. destruct L as (A & B & _). specialize (A u v) as Auv. destruct (Z.eq_dec (r u v) 0) as [|N]; [assumption|exfalso].
      assert (0 <= levels (open_from adj r) n s v); [|lia]. apply (Cl u); [assumption|]. apply open_from_In. split; [|lia]. apply Hcov; auto. specialize (B u v). specialize (A v u). lia.
    + pose proof (levels_lead r Lt) as Le. destruct (push_all_more (levels (open_from adj r) n s) (S limit) r flow L ltac:(lia) Z0 Bl Le) as (fl & r' & E & L' & More). rewrite E.
      apply IH; auto; lia.
Qed.

Lemma max_flow_spec : exists flow r R, max_flow n adj s t c = Some (flow, r) /\ leaves flow r /\ cut_off R r.
Proof.
  unfold max_flow. assert (0 <= sum_over (c s) (seq 0 n)) by (apply sum_nonneg; intros; apply Hc).
  apply phases_spec; try lia. split; [assumption|]. split; [intros u v; reflexivity|]. intros x _. rewrite sum_zero by (intros; lia). destruct (Nat.eqb x t), (Nat.eqb x s); reflexivity.
Qed.

(** No flow is larger. *)
Lemma cut_off_best R r flow : leaves flow r -> cut_off R r -> forall flow' r', leaves flow' r' -> flow' <= flow.
Proof.
  intros (A & B & C) (Rs & Rt & Cut) flow' r' (A' & B' & C').
  set (net := fun (q : residual) => sum_over (fun x => if R x then sum_over (fun v => c v x - q v x) (seq 0 n) else 0) (seq 0 n)).
  assert (N : forall fl q, leaves fl q -> net q = - fl).
  { intros fl q (_ & _ & Cq). unfold net. rewrite (sum_ext _ (fun x => if Nat.eqb x s then - fl else 0)).
    - rewrite sum_one; [reflexivity|apply seq_NoDup|apply in_seq; lia].
    - intros x J. apply in_seq in J. destruct (Nat.eqb_spec x s) as [->|Nx].
      + rewrite Rs, Cq by assumption. rewrite Nat.eqb_refl. destruct (Nat.eqb_spec s t); [contradiction|lia].
      + destruct (R x) eqn:Rx; [|reflexivity]. rewrite Cq by lia. destruct (Nat.eqb_spec x t) as [->|]; [congruence|]. destruct (Nat.eqb_spec x s); [contradiction|lia]. }
  pose proof (N flow r (conj A (conj B C))) as E1. pose proof (N flow' r' (conj A' (conj B' C'))) as E2.
  (* the two differ by what crosses *)
  assert (D : net r <= net r'); [|lia].
  set (inner := fun (q : residual) => sum_over (fun x => if R x then sum_over (fun v => if R v then c v x - q v x else 0) (seq 0 n) else 0) (seq 0 n)).
  set (outer := fun (q : residual) => sum_over (fun x => if R x then sum_over (fun v => if R v then 0 else c v x - q v x) (seq 0 n) else 0) (seq 0 n)).
  assert (Split : forall q, net q = inner q + outer q).
  { intro q. unfold net, inner, outer. rewrite <- sum_plus. apply sum_ext. intros x _. destruct (R x); [|reflexivity]. rewrite <- sum_plus. apply sum_ext. intros v _. destruct (R v); lia. }
  assert (Inner : forall q, same_total c q -> inner q = 0).
  { intros q Sq. assert (inner q = - inner q); [|lia]. unfold inner at 1.
    rewrite (sum_ext _ (fun x => sum_over (fun v => if R x then if R v then c v x - q v x else 0 else 0) (seq 0 n))) by (intros x _; destruct (R x); [reflexivity|now rewrite sum_zero]).
    rewrite sum_swap. unfold inner. rewrite <- sum_opp. apply sum_ext. intros v _. destruct (R v).
    - rewrite <- sum_opp. apply sum_ext. intros x _. destruct (R x); [|reflexivity]. specialize (Sq v x). lia.
    - rewrite sum_zero; [reflexivity|]. intros x _. now destruct (R x). }
  rewrite !Split, !Inner by assumption. unfold outer. enough (sum_over (fun x => if R x then sum_over (fun v => if R v then 0 else c v x - r v x) (seq 0 n) else 0) (seq 0 n) <=
     sum_over (fun x => if R x then sum_over (fun v => if R v then 0 else c v x - r' v x) (seq 0 n) else 0) (seq 0 n)) by lia.
  apply sum_le. intros x Jx. apply in_seq in Jx. destruct (R x) eqn:Rx; [|lia]. apply sum_le. intros v Jv. apply in_seq in Jv. destruct (R v) eqn:Rv; [lia|].
  specialize (Cut x v ltac:(lia) ltac:(lia) Rx Rv). specialize (B x v). specialize (B' x v). specialize (A' x v). lia.
Qed.
End Flow.
