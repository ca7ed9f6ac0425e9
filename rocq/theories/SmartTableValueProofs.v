(** Proofs about what a SmartTable does to lists of values. *)
From Coq Require Import ZArith List Bool Lia Permutation Sorted.
From Verif Require Import IntervalSet Vars VarsSpec State Engine Tracker SmartTable SmartTableSpec SmartTableTreeProofs.
From Verif Require Equals EqualsProofs.
Import ListNotations.
Local Open Scope Z_scope.

(** ** Sorted lists *)

Lemma insert_value_perm x l : Permutation (x :: l) (insert_value x l).
Proof. induction l as [|y l IH]; simpl; [reflexivity|]. destruct (x <=? y); [reflexivity|]. etransitivity; [apply perm_swap|]. now constructor. Qed.

Lemma sort_values_perm l : Permutation l (sort_values l).
Proof. induction l as [|x l IH]; simpl; [constructor|]. etransitivity; [|apply insert_value_perm]. now constructor. Qed.

Lemma sort_values_In l x : In x (sort_values l) <-> In x l.
Proof. split; apply Permutation_in; [symmetry|]; apply sort_values_perm. Qed.

Lemma insert_value_sorted x l : StronglySorted Z.le l -> StronglySorted Z.le (insert_value x l).
Proof.
  induction 1 as [|y l S IH F]; simpl; [repeat constructor|]. destruct (Z.leb_spec x y) as [L|L].
  - constructor; [now constructor|]. constructor; [assumption|]. eapply Forall_impl; [|exact F]. intros z; simpl. lia.
  - constructor; [assumption|]. rewrite Forall_forall in *. intros z I. apply (Permutation_in _ (Permutation_sym (insert_value_perm x l))) in I. destruct I as [<-|I]; [lia|auto].
Qed.

Lemma sort_values_sorted l : StronglySorted Z.le (sort_values l).
Proof. induction l as [|x l IH]; simpl; [constructor|]. now apply insert_value_sorted. Qed.

Lemma sort_values_NoDup l : NoDup l -> NoDup (sort_values l).
Proof. apply Permutation_NoDup. apply sort_values_perm. Qed.

Lemma sort_values_length l : length (sort_values l) = length l.
Proof. symmetry. apply Permutation_length, sort_values_perm. Qed.

Lemma first_value_least l x : StronglySorted Z.le l -> In x l -> first_value l <= x.
Proof. intros S I. destruct S as [|y l S F]; [destruct I|]. unfold first_value. simpl. destruct I as [<-|I]; [lia|]. rewrite Forall_forall in F. auto. Qed.

Lemma first_value_In l : l <> [] -> In (first_value l) l.
Proof. destruct l; [congruence|]. intros _. now left. Qed.

Lemma last_value_In l : l <> [] -> In (last_value l) l.
Proof.
  unfold last_value. induction l as [|x l IH]; [congruence|]. intros _. destruct l as [|y l]; [now left|]. right. apply IH. discriminate.
Qed.

Lemma last_value_most l x : StronglySorted Z.le l -> In x l -> x <= last_value l.
Proof.
  unfold last_value. induction 1 as [|y l S IH F]; [intros []|]. intro I. destruct l as [|z l].
  - destruct I as [<-|[]]. simpl. lia.
  - change (last (y :: z :: l) 0) with (last (z :: l) 0). destruct I as [<-|I]; [|auto]. rewrite Forall_forall in F. apply F. apply (last_value_In (z :: l)). discriminate.
Qed.

Lemma meet_nil_r l : meet l [] = [].
Proof. destruct l; reflexivity. Qed.

Lemma meet_cons x l y k : meet (x :: l) (y :: k) = if x <? y then meet l (y :: k) else if y <? x then meet (x :: l) k else x :: meet l k.
Proof. reflexivity. Qed.

Lemma minus_nil_r l : minus l [] = l.
Proof. destruct l; reflexivity. Qed.

Lemma minus_cons x l y k : minus (x :: l) (y :: k) = if x <? y then x :: minus l (y :: k) else if y <? x then minus (x :: l) k else minus l k.
Proof. reflexivity. Qed.

Lemma meet_both l : forall k z, In z (meet l k) -> In z l /\ In z k.
Proof.
  induction l as [|x l IH]; intros k z; [destruct k; intros []|]. revert z. induction k as [|y k IHk]; intros z; [intros []|].
  rewrite meet_cons. destruct (Z.ltb_spec x y); [intro I; apply IH in I; simpl in *; tauto|]. destruct (Z.ltb_spec y x); [intro I; apply IHk in I; simpl in *; tauto|].
  intros [<-|I]; [split; left; lia|]. apply IH in I. simpl. tauto.
Qed.

Lemma meet_In l : forall k z, StronglySorted Z.le l -> StronglySorted Z.le k -> In z l -> In z k -> In z (meet l k).
Proof.
  induction l as [|x l IH]; intros k z Sl Sk Il Ik; [destruct Il|]. induction k as [|y k IHk]; [destruct Ik|]. inversion Sl as [|? ? Sl' Fl]; inversion Sk as [|? ? Sk' Fk]; subst. rewrite Forall_forall in Fl, Fk.
  rewrite meet_cons. destruct (Z.ltb_spec x y).
  - apply IH; auto. destruct Il as [<-|Il]; [|assumption]. exfalso. destruct Ik as [<-|Ik]; [lia|]. apply Fk in Ik. lia.
  - destruct (Z.ltb_spec y x).
    + apply IHk; auto. destruct Ik as [<-|Ik]; [|assumption]. exfalso. destruct Il as [<-|Il]; [lia|]. apply Fl in Il. lia.
    + assert (x = y) by lia. subst y. destruct Il as [<-|Il]; [now left|]. destruct Ik as [<-|Ik]; [now left|]. right. now apply IH.
Qed.

Lemma meet_NoDup l : forall k, NoDup l -> NoDup (meet l k).
Proof.
  induction l as [|x l IH]; intros k N; [destruct k; constructor|]. induction k as [|y k IHk]; [constructor|]. inversion N as [|? ? A B]; subst. rewrite meet_cons.
  destruct (x <? y); [auto|]. destruct (y <? x); [auto|]. constructor; [|auto]. intro I. apply meet_both in I. tauto.
Qed.

Lemma minus_left l : forall k z, In z (minus l k) -> In z l.
Proof.
  induction l as [|x l IH]; intros k z; [destruct k; intros []|]. revert z. induction k as [|y k IHk]; intros z; [auto|].
  rewrite minus_cons. destruct (x <? y); [intros [<-|I]; [now left|right; now apply (IH (y :: k))]|]. destruct (y <? x); [apply IHk|]. intro I. right. now apply (IH k).
Qed.

Lemma minus_In l : forall k z, In z l -> ~ In z k -> In z (minus l k).
Proof.
  induction l as [|x l IH]; intros k z Il Nk; [destruct Il|]. induction k as [|y k IHk]; [assumption|].
  rewrite minus_cons. destruct (Z.ltb_spec x y); [destruct Il as [<-|Il]; [now left|right; now apply IH]|]. destruct (Z.ltb_spec y x); [apply IHk; intro A; apply Nk; now right|].
  assert (x = y) by lia. subst y. destruct Il as [<-|Il]; [exfalso; apply Nk; now left|]. apply IH; auto. intro A. apply Nk. now right.
Qed.

Lemma minus_NoDup l : forall k, NoDup l -> NoDup (minus l k).
Proof.
  induction l as [|x l IH]; intros k N; [destruct k; constructor|]. induction k as [|y k IHk]; [assumption|]. inversion N as [|? ? A B]; subst. rewrite minus_cons.
  destruct (x <? y); [|destruct (y <? x); auto]. constructor; [|auto]. intro I. apply minus_left in I. tauto.
Qed.

Lemma minus_out l : forall k z, StronglySorted Z.le l -> NoDup l -> StronglySorted Z.le k -> In z (minus l k) -> ~ In z k.
Proof.
  induction l as [|x l IH]; intros k z Sl N Sk; [destruct k; intros []|]. inversion Sl as [|? ? Sl' Fl]; subst. inversion N as [|? ? A B]; subst. rewrite Forall_forall in Fl.
  induction k as [|y k IHk]; [intros _ []|]. inversion Sk as [|? ? Sk' Fk]; subst. rewrite Forall_forall in Fk. rewrite minus_cons.
  destruct (Z.ltb_spec x y) as [L|L].
  - intros [<-|I]; [intros [E|E]; [lia|apply Fk in E; lia]|]. now apply IH.
  - destruct (Z.ltb_spec y x) as [L'|L'].
    + intros I [E|E]; [|now apply IHk]. subst z. apply minus_left in I. destruct I as [E|I]; [lia|]. apply Fl in I. lia.
    + assert (x = y) by lia. subst y. intros I [E|E]; [subst z; apply minus_left in I; contradiction|]. now apply (IH k z).
Qed.

(** ** Pairs of lists *)

Lemma passes_test_iff t x y : passes_test t x y = true <-> related t x y.
Proof.
  destruct t; simpl; rewrite ?negb_true_iff, ?Z.ltb_lt, ?Z.leb_le, ?Z.eqb_eq, ?Z.eqb_neq; lia.
Qed.

Section Pairs.
Variables l k : list Z.
Hypothesis Sl : StronglySorted Z.le l.
Hypothesis Sk : StronglySorted Z.le k.

Lemma filter_pair_sound t x y : In x l -> In y k -> related t x y -> In x (fst (filter_pair t l k)) /\ In y (snd (filter_pair t l k)).
Proof.
  intros Il Ik R. pose proof (first_value_least l x Sl Il). pose proof (first_value_least k y Sk Ik). pose proof (last_value_most l x Sl Il). pose proof (last_value_most k y Sk Ik).
  destruct t; simpl in R |- *.
  1, 2, 5, 6: split; apply filter_In; (split; [assumption|]); first [apply Z.ltb_lt|apply Z.leb_le]; lia.
  - subst y. split; now apply meet_In.
  - destruct (Nat.eqb_spec (length l) 1) as [E|E]; [|destruct (Nat.eqb_spec (length k) 1) as [E'|E']]; cbn [fst snd].
    + split; [assumption|]. apply minus_In; [assumption|]. destruct l as [|x' [|? ?]]; try discriminate. destruct Il as [<-|[]]. intros [A|[]]. congruence.
    + split; [|assumption]. apply minus_In; [assumption|]. destruct k as [|y' [|? ?]]; try discriminate. destruct Ik as [<-|[]]. intros [A|[]]. congruence.
    + auto.
Qed.

Lemma filter_pair_left t : incl (fst (filter_pair t l k)) l.
Proof.
  intros x I. destruct t; simpl in I; try (apply filter_In in I; tauto).
  - now apply meet_both in I.
  - destruct (Nat.eqb (length l) 1); [assumption|]. destruct (Nat.eqb (length k) 1); cbn [fst] in I; [now apply minus_left in I|assumption].
Qed.

Lemma filter_pair_right t : incl (snd (filter_pair t l k)) k.
Proof.
  intros x I. destruct t; simpl in I; try (apply filter_In in I; tauto).
  - now apply meet_both in I.
  - destruct (Nat.eqb (length l) 1); [now apply minus_left in I|]. destruct (Nat.eqb (length k) 1); assumption.
Qed.

Lemma filter_pair_NoDup t : NoDup l -> NoDup k -> NoDup (fst (filter_pair t l k)) /\ NoDup (snd (filter_pair t l k)).
Proof.
  intros Nl Nk. destruct t; simpl; try (split; now apply NoDup_filter).
  - split; now apply meet_NoDup.
  - destruct (Nat.eqb (length l) 1); [|destruct (Nat.eqb (length k) 1)]; cbn [fst snd]; split; auto; now apply minus_NoDup.
Qed.

(** What is left on one side goes with something that is left on the other. *)
Lemma filter_pair_supported t : NoDup l -> NoDup k -> fst (filter_pair t l k) <> [] -> snd (filter_pair t l k) <> [] ->
  (forall x, In x (fst (filter_pair t l k)) -> exists y, In y (snd (filter_pair t l k)) /\ related t x y) /\
  (forall y, In y (snd (filter_pair t l k)) -> exists x, In x (fst (filter_pair t l k)) /\ related t x y).
Proof.
  intros Nl Nk Ne1 Ne2.
  assert (L0 : l <> []) by (pose proof (filter_pair_left t) as H; intros ->; apply Ne1; destruct (fst (filter_pair t [] k)) as [|z r]; [reflexivity|destruct (H z (or_introl eq_refl))]).
  assert (K0 : k <> []) by (pose proof (filter_pair_right t) as H; intros ->; apply Ne2; destruct (snd (filter_pair t l [])) as [|z r]; [reflexivity|destruct (H z (or_introl eq_refl))]).
  pose proof (first_value_In l L0) as F1. pose proof (first_value_In k K0) as F2. pose proof (last_value_In l L0) as M1. pose proof (last_value_In k K0) as M2.
  assert (Two : forall (s : list Z) x, NoDup s -> (length s <> 1)%nat -> s <> [] -> exists y, In y s /\ y <> x).
  { intros s x N Ls Es. destruct s as [|p [|q s]]; [congruence|simpl in Ls; lia|]. inversion N as [|? ? A B]; subst. destruct (Z.eq_dec p x) as [->|]; [|exists p; split; [now left|assumption]]. exists q. split; [right; now left|]. intros ->. apply A. now left. }
  destruct t; simpl fst in *; simpl snd in *.
  - split; intros z I; apply filter_In in I; destruct I as [I T]; apply Z.ltb_lt in T; [exists (last_value k)|exists (first_value l)]; (split; [apply filter_In; split; [assumption|]; apply Z.ltb_lt|]; simpl).
    + pose proof (first_value_least l z Sl I). lia. + assumption. + pose proof (last_value_most k z Sk I). lia. + assumption.
  - split; intros z I; apply filter_In in I; destruct I as [I T]; apply Z.leb_le in T; [exists (last_value k)|exists (first_value l)]; (split; [apply filter_In; split; [assumption|]; apply Z.leb_le|]; simpl).
    + pose proof (first_value_least l z Sl I). lia. + assumption. + pose proof (last_value_most k z Sk I). lia. + assumption.
  - split; intros z I; exists z; (split; [assumption|reflexivity]).
  - destruct (Nat.eqb_spec (length l) 1) as [E|E]; [|destruct (Nat.eqb_spec (length k) 1) as [E'|E']]; cbn [fst snd] in *.
    + destruct l as [|p [|? ?]]; try discriminate. assert (D : forall y, In y (minus k [p]) -> p <> y) by (intros y I; apply minus_out in I; auto; intros ->; apply I; now left).
      split; [|intros y I; exists p; split; [now left|now apply D]]. intros x [<-|[]]. destruct (minus k [p]) as [|q s]; [congruence|]. exists q. split; [now left|apply D; now left].
    + destruct k as [|p [|? ?]]; try discriminate. assert (D : forall y, In y (minus l [p]) -> y <> p) by (intros y I; apply minus_out in I; auto; intros ->; apply I; now left).
      split; [intros y I; exists p; split; [now left|now apply D]|]. intros x [<-|[]]. destruct (minus l [p]) as [|q s]; [congruence|]. exists q. split; [now left|apply D; now left].
    + split; intros z I; [destruct (Two k z Nk E' K0) as (y & Iy & N)|destruct (Two l z Nl E L0) as (y & Iy & N)]; exists y; (split; [assumption|]); simpl; congruence.
  - split; intros z I; apply filter_In in I; destruct I as [I T]; apply Z.ltb_lt in T; [exists (first_value k)|exists (last_value l)]; (split; [apply filter_In; split; [assumption|]; apply Z.ltb_lt|]; simpl).
    + pose proof (last_value_most l z Sl I). lia. + lia. + pose proof (first_value_least k z Sk I). lia. + lia.
  - split; intros z I; apply filter_In in I; destruct I as [I T]; apply Z.leb_le in T; [exists (first_value k)|exists (last_value l)]; (split; [apply filter_In; split; [assumption|]; apply Z.leb_le|]; simpl).
    + pose proof (last_value_most l z Sl I). lia. + lia. + pose proof (first_value_least k z Sk I). lia. + lia.
Qed.
End Pairs.

(** Two values that are what is known. *)
Lemma filter_pair_single t x y : filter_pair t [x] [y] = if passes_test t x y then ([x], [y]) else match t with IsNotEqual => ([x], []) | _ => ([], []) end.
Proof.
  destruct t; simpl; unfold last_value, first_value; simpl.
  - destruct (x <? y); reflexivity.
  - destruct (x <=? y); reflexivity.
  - destruct (Z.ltb_spec x y), (Z.ltb_spec y x), (Z.eqb_spec x y); try lia; try (subst; reflexivity).
  - destruct (Z.ltb_spec y x), (Z.ltb_spec x y), (Z.eqb_spec x y); try lia; try (subst; reflexivity).
  - destruct (y <? x); reflexivity.
  - destruct (y <=? x); reflexivity.
Qed.

(** ** Maps *)

(** What a handle shows of its variable. *)
Definition see (v : var_id) (x : Z) : Z := match v with VSimple _ => x | VView _ neg add => (if neg then -1 else 1) * x + add | VConst c => c end.
Definition unsee (v : var_id) (x : Z) : Z := match v with VSimple _ => x | VView _ neg add => (if neg then -1 else 1) * (x - add) | VConst c => c end.
Definition no_constant (v : var_id) : Prop := match v with VConst _ => False | _ => True end.

Lemma see_unsee v x : no_constant v -> see v (unsee v x) = x.
Proof. destruct v as [n|n [|] add|c]; cbn [no_constant]; intro C; try contradiction; cbv beta iota delta [see unsee var_number var_value]; lia. Qed.

Lemma unsee_see v x : no_constant v -> unsee v (see v x) = x.
Proof. destruct v as [n|n [|] add|c]; cbn [no_constant]; intro C; try contradiction; cbv beta iota delta [see unsee var_number var_value]; lia. Qed.

Lemma value_seen a v : no_constant v -> var_value a v = see v (a (var_number v)).
Proof. destruct v as [n|n [|] add|c]; cbn [no_constant]; intro C; try contradiction; cbv beta iota delta [see unsee var_number var_value]; lia. Qed.

Lemma set_at_same m v l : set_at m v l v = l.
Proof. unfold set_at. assert (E : Equals.var_eqb v v = true) by now apply EqualsProofs.var_eqb_spec. now rewrite E. Qed.

Lemma set_at_other m v l w : w <> v -> set_at m v l w = m w.
Proof. intro N. unfold set_at. destruct (Equals.var_eqb w v) eqn:E; [|reflexivity]. apply EqualsProofs.var_eqb_spec in E. contradiction. Qed.

Lemma get_values_In m v y : no_constant v -> (In y (get_values m v) <-> In (unsee v y) (m (VSimple (var_number v)))).
Proof.
  intro C. destruct v as [n|n neg add|c]; [reflexivity| |contradiction]. cbn [get_values]. rewrite in_map_iff. split.
  - intros (x & <- & I). change ((if neg then -1 else 1) * x + add) with (see (VView n neg add) x). now rewrite unsee_see.
  - intro I. exists (unsee (VView n neg add) y). split; [|assumption]. apply (see_unsee (VView n neg add) y C).
Qed.

Lemma set_values_other m v l n : n <> var_number v -> set_values m v l (VSimple n) = m (VSimple n).
Proof. intro N. destruct v as [k|k neg add|c]; simpl in *; [| |reflexivity]; apply set_at_other; congruence. Qed.

Lemma set_values_keeps m v l y : no_constant v -> In y l -> In (unsee v y) (set_values m v l (VSimple (var_number v))).
Proof.
  intros C I. destruct v as [n|n neg add|c]; [| |contradiction]; simpl; rewrite set_at_same; [assumption|]. apply in_or_app. left. now apply (in_map (fun x => (if neg then -1 else 1) * (x - add))).
Qed.

Lemma set_values_simple m v l : simple v -> get_values (set_values m v l) v = l.
Proof. destruct v; simpl; try contradiction. intros _. apply set_at_same. Qed.

Lemma get_values_ext m m' v : m (VSimple (var_number v)) = m' (VSimple (var_number v)) -> get_values m v = get_values m' v.
Proof. destruct v; simpl; congruence. Qed.

(** ** Filtering *)

(** An assignment is among what is listed. *)
Definition listed (a : assignment) (m : values_of) (n : nat) : Prop := In (a n) (m (VSimple n)).

Lemma listed_value a m v : no_constant v -> listed a m (var_number v) -> In (var_value a v) (get_values m v).
Proof. intros C L. rewrite get_values_In, value_seen, unsee_see by assumption. exact L. Qed.

Lemma listed_set a m v l n : no_constant v -> (n = var_number v -> In (var_value a v) l) -> listed a m n -> listed a (set_values m v l) n.
Proof.
  intros C H L. unfold listed. destruct (Nat.eq_dec n (var_number v)) as [->|N]; [|now rewrite set_values_other].
  rewrite <- (unsee_see v (a (var_number v)) C), <- value_seen by assumption. apply set_values_keeps; auto.
Qed.

Lemma filter_edge_sound a e m : (forall v, In v (entry_vars e) -> no_constant v /\ listed a m (var_number v)) -> entry_holds a e ->
  forall n, listed a m n -> listed a (filter_edge e m) n.
Proof.
  intros H He n L. destruct e as [v w t|v x t|v values [|]]; cbn [filter_edge].
  - destruct (H v (or_introl eq_refl)) as [Cv Lv]. destruct (H w (or_intror (or_introl eq_refl))) as [Cw Lw].
    destruct (filter_pair_sound _ _ (sort_values_sorted (get_values m v)) (sort_values_sorted (get_values m w)) t (var_value a v) (var_value a w)) as [A B];
      [apply sort_values_In; now apply listed_value|apply sort_values_In; now apply listed_value|exact He|].
    destruct (filter_pair t (sort_values (get_values m v)) (sort_values (get_values m w))) as [l k]. cbn [fst snd] in A, B. apply listed_set; auto. apply listed_set; auto.
  - destruct (H v (or_introl eq_refl)) as [Cv Lv]. apply listed_set; auto. intros _. apply filter_In. split; [apply sort_values_In; now apply listed_value|]. now apply passes_test_iff.
  - destruct (H v (or_introl eq_refl)) as [Cv Lv]. apply listed_set; auto. intros _. apply meet_In; try apply sort_values_sorted; apply sort_values_In; [now apply listed_value|exact He].
  - destruct (H v (or_introl eq_refl)) as [Cv Lv]. apply listed_set; auto. intros _. apply minus_In; [apply sort_values_In; now apply listed_value|]. rewrite sort_values_In. exact He.
Qed.

Lemma listed_nonempty a m v : no_constant v -> listed a m (var_number v) -> is_nil (get_values m v) = false.
Proof. intros C L. apply listed_value in L; [|assumption]. destruct (get_values m v); [destruct L|reflexivity]. Qed.

Lemma filter_valid_sound a es : forall m, (forall e v, In e es -> In v (entry_vars e) -> no_constant v /\ listed a m (var_number v)) -> Forall (entry_holds a) es ->
  exists m', filter_valid es m = Some m' /\ forall n, listed a m n -> listed a m' n.
Proof.
  induction es as [|e es IH]; intros m H F; [exists m; auto|]. inversion F as [|? ? He Fe]; subst. cbn [filter_valid].
  assert (K : forall n, listed a m n -> listed a (filter_edge e m) n) by (apply filter_edge_sound; [intros v Iv; apply (H e); [now left|assumption]|assumption]).
  assert (E : existsb (fun v => is_nil (get_values (filter_edge e m) v)) (entry_vars e) = false).
  { destruct (existsb _ _) eqn:X; [|reflexivity]. apply existsb_exists in X. destruct X as (v & Iv & N). destruct (H e v (or_introl eq_refl) Iv) as [C L].
    rewrite (listed_nonempty a) in N; [discriminate|assumption|auto]. }
  rewrite E. destruct (IH (filter_edge e m)) as (m' & A & B); auto. { intros e' v Ie Iv. destruct (H e' v (or_intror Ie) Iv). auto. }
  exists m'. auto.
Qed.

(** What is not supported any more. *)
Lemma remove_supported_incl u v s w x : In x (remove_supported u v s w) -> In x (u w).
Proof.
  unfold remove_supported. destruct (Equals.var_eqb w v) eqn:E; unfold set_at; rewrite E; [|auto]. apply EqualsProofs.var_eqb_spec in E. subst w.
  intro I. apply filter_In in I. destruct I as [I _]. rewrite sort_values_In, nodup_In in I. assumption.
Qed.

Lemma remove_supported_gone u v s x : In x s -> ~ In x (remove_supported u v s v).
Proof.
  intros I J. unfold remove_supported in J. rewrite set_at_same in J. apply filter_In in J. destruct J as [_ J]. apply negb_true_iff in J.
  assert (holds_value s x = true) by (apply existsb_exists; exists x; split; [assumption|apply Z.eqb_refl]). congruence.
Qed.

Lemma remove_all_incl m vs : forall u w x, In x (fold_left (fun u v => remove_supported u v (get_values m v)) vs u w) -> In x (u w).
Proof. induction vs as [|v vs IH]; intros u w x I; [assumption|]. simpl in I. apply IH in I. now apply remove_supported_incl in I. Qed.

Lemma remove_all_gone m vs : forall u v x, In v vs -> In x (get_values m v) -> ~ In x (fold_left (fun u v => remove_supported u v (get_values m v)) vs u v).
Proof.
  induction vs as [|w vs IH]; intros u v x I Ix; [destruct I|]. simpl. destruct I as [<-|I]; [|now apply IH]. intro J. apply remove_all_incl in J. now apply (remove_supported_gone u w (get_values m w) x).
Qed.

Lemma filter_again_incl es : forall m u v x, In x (filter_again es m u v) -> In x (u v).
Proof. induction es as [|e es IH]; intros m u v x I; [assumption|]. simpl in I. apply IH in I. now apply remove_all_incl in I. Qed.

Lemma filter_again_gone a es : forall m u, (forall e v, In e es -> In v (entry_vars e) -> no_constant v /\ listed a m (var_number v)) -> Forall (entry_holds a) es ->
  forall e v, In e es -> In v (entry_vars e) -> ~ In (var_value a v) (filter_again es m u v).
Proof.
  induction es as [|e0 es IH]; intros m u H F e v Ie Iv; [destruct Ie|]. inversion F as [|? ? He Fe]; subst. cbn [filter_again].
  assert (K : forall n, listed a m n -> listed a (filter_edge e0 m) n) by (apply filter_edge_sound; [intros w Iw; apply (H e0); [now left|assumption]|assumption]).
  destruct Ie as [<-|Ie].
  - intro J. apply filter_again_incl in J. revert J. apply remove_all_gone; [assumption|]. destruct (H e0 v (or_introl eq_refl) Iv) as [C L]. apply listed_value; auto.
  - apply (IH (filter_edge e0 m)) with (e := e); auto. intros e' w Ie' Iw. destruct (H e' w (or_intror Ie') Iw). auto.
Qed.

Lemma try_trees_incl start ts : forall u v x, In x (fst (try_trees start ts u) v) -> In x (u v).
Proof.
  induction ts as [|es ts IH]; intros u v x I; [assumption|]. cbn [try_trees] in I. destruct (filter_valid es start) as [m|]; [|assumption]. apply IH in I. now apply filter_again_incl in I.
Qed.

Lemma try_trees_sound a start ts : forall u, (forall e v, In e (concat ts) -> In v (entry_vars e) -> no_constant v /\ listed a start (var_number v)) -> Forall (entry_holds a) (concat ts) ->
  snd (try_trees start ts u) = true /\ forall e v, In e (concat ts) -> In v (entry_vars e) -> ~ In (var_value a v) (fst (try_trees start ts u) v).
Proof.
  induction ts as [|es ts IH]; intros u H F; [split; [reflexivity|intros e v []]|]. cbn [concat] in *. apply Forall_app in F. destruct F as [F1 F2]. cbn [try_trees].
  destruct (filter_valid_sound a es start) as (m & E & K); auto. { intros e v Ie Iv. apply (H e v); [apply in_or_app; now left|assumption]. } rewrite E.
  destruct (IH (filter_again es m u)) as [A B]; auto. { intros e v Ie Iv. apply (H e v); [apply in_or_app; now right|assumption]. }
  split; [assumption|]. intros e v Ie Iv. apply in_app_or in Ie. destruct Ie as [Ie|Ie]; [|now apply (B e v)]. intro J. apply try_trees_incl in J. revert J. apply (filter_again_gone a es m u) with (e := e); auto.
  intros e' w Ie' Iw. destruct (H e' w); [apply in_or_app; now left|assumption|]. auto.
Qed.
