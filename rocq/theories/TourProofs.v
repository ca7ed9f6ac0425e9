(** Lemmas about following successors. *)
From Coq Require Import List Arith Lia Permutation FinFun.
Import ListNotations.

Lemma iter_add {X} (f : X -> X) p q x : Nat.iter (p + q) f x = Nat.iter q f (Nat.iter p f x).
Proof.
  revert x. induction p as [|p IH]; intro x; [reflexivity|]. assert (S1 : forall k y, Nat.iter (S k) f y = Nat.iter k f (f y)).
  { induction k as [|k IHk]; intro y; [reflexivity|]. cbn [Nat.iter nat_rect]. change (f (Nat.iter (S k) f y) = f (Nat.iter k f (f y))). now rewrite IHk. }
  cbn [Nat.add]. rewrite !S1. apply IH.
Qed.

Lemma iter_S {X} (f : X -> X) p x : Nat.iter (S p) f x = Nat.iter p f (f x).
Proof. exact (iter_add f 1 p x). Qed.

Lemma iter_next {X} (f : X -> X) p x : Nat.iter (S p) f x = f (Nat.iter p f x).
Proof. reflexivity. Qed.

Section Follow.
Variable n : nat.
Variable f : nat -> nat.

Definition bounded : Prop := forall i, i < n -> f i < n.
Definition one_to_one : Prop := forall i j, i < n -> j < n -> f i = f j -> i = j.
(** Every node leads to every node. *)
Definition tour : Prop := bounded /\ forall i j, i < n -> j < n -> exists k, Nat.iter k f i = j.

Hypothesis B : bounded.

Lemma iter_bound k i : i < n -> Nat.iter k f i < n.
Proof. intro H. induction k as [|k IH]; [assumption|]. now apply B. Qed.

(** A cycle goes round and round. *)
Lemma cycle_mod p r k : 0 < p -> Nat.iter p f r = r -> Nat.iter k f r = Nat.iter (k mod p) f r.
Proof.
  intros P E. transitivity (Nat.iter (p * (k / p) + k mod p) f r); [f_equal; apply Nat.div_mod; lia|]. rewrite iter_add. f_equal. induction (k / p) as [|q IH]; [now rewrite Nat.mul_0_r|].
  rewrite Nat.mul_succ_r, iter_add, IH. assumption.
Qed.

Lemma tour_onto : tour -> forall j, j < n -> exists i, i < n /\ f i = j.
Proof.
  intros [_ R] j Hj. destruct (R (f j) j) as (k & E); [now apply B|assumption|]. exists (Nat.iter k f j). split; [now apply iter_bound|]. now rewrite <- iter_next, iter_S.
Qed.

Lemma tour_one_to_one : tour -> one_to_one.
Proof.
  intros T. apply bInjective_bSurjective; [exact B|]. intros y Hy. destruct (tour_onto T y Hy) as (i & Hi & E). eauto.
Qed.

(** A cycle of a tour is all of it. *)
Lemma no_short_cycle p r : tour -> r < n -> 0 < p -> Nat.iter p f r = r -> n <= p.
Proof.
  intros [_ R] Hr P E. assert (I : incl (seq 0 n) (map (fun k => Nat.iter k f r) (seq 0 p))).
  { intros j Ij. apply in_seq in Ij. destruct (R r j) as (k & Ek); [assumption|lia|]. rewrite (cycle_mod p r k P E) in Ek. apply in_map_iff. exists (k mod p). split; [assumption|].
    apply in_seq. pose proof (Nat.mod_upper_bound k p). lia. }
  apply NoDup_incl_length in I; [|apply seq_NoDup]. rewrite map_length, !seq_length in I. exact I.
Qed.

Section Injective.
Hypothesis J : one_to_one.

Lemma iter_back k i j : i < n -> j < n -> Nat.iter k f i = Nat.iter k f j -> i = j.
Proof. intros Hi Hj. induction k as [|k IH]; [auto|]. rewrite !iter_next. intro E. apply J in E; auto using iter_bound. Qed.

(** A path whose end is not on it earlier is on different nodes. *)
Lemma path_distinct o len : o < n -> (forall k, k < len -> Nat.iter k f o <> Nat.iter len f o) -> NoDup (map (fun k => Nat.iter k f o) (seq 0 (S len))).
Proof.
  intros Ho N. assert (K : forall a b, a < b -> b <= len -> Nat.iter a f o <> Nat.iter b f o).
  { intros a b L Lb E. replace b with ((b - a) + a) in E by lia. rewrite iter_add in E. apply iter_back in E; [|assumption|now apply iter_bound].
    apply (N (len - (b - a))); [lia|]. transitivity (Nat.iter ((b - a) + (len - (b - a))) f o); [rewrite iter_add, <- E; reflexivity|f_equal; lia]. }
  apply (NoDup_nth _ (Nat.iter 0 f o)). rewrite map_length, seq_length. intros a b Ha Hb E.
  rewrite !(map_nth (fun k => Nat.iter k f o)), !seq_nth in E by assumption. cbn [Nat.add] in E. destruct (Nat.lt_trichotomy a b) as [L|[L|L]]; [|assumption|].
  - destruct (K a b); auto; lia.
  - destruct (K b a); auto; lia.
Qed.

Lemma path_length o len : o < n -> (forall k, k < len -> Nat.iter k f o <> Nat.iter len f o) -> len < n.
Proof.
  intros Ho N. pose proof (path_distinct o len Ho N) as ND. apply (NoDup_incl_length (l' := seq 0 n)) in ND; [rewrite map_length, !seq_length in ND; lia|].
  intros x I. apply in_map_iff in I. destruct I as (k & <- & _). apply in_seq. pose proof (iter_bound k o Ho). lia.
Qed.

(** A path with as many nodes as there are has them all. *)
Lemma path_covers o len : o < n -> (forall k, k < len -> Nat.iter k f o <> Nat.iter len f o) -> n <= S len -> forall v, v < n -> exists k, k <= len /\ Nat.iter k f o = v.
Proof.
  intros Ho N L v Hv. pose proof (path_distinct o len Ho N) as ND. assert (I : incl (seq 0 n) (map (fun k => Nat.iter k f o) (seq 0 (S len)))).
  { apply NoDup_length_incl; [assumption|rewrite map_length, !seq_length; lia|]. intros x I. apply in_map_iff in I. destruct I as (k & <- & _). apply in_seq. pose proof (iter_bound k o Ho). lia. }
  specialize (I v). rewrite in_seq in I. destruct (proj1 (in_map_iff _ _ _) (I ltac:(lia))) as (k & E & K). apply in_seq in K. exists k. split; [lia|assumption].
Qed.

Lemma path_closes o len : o < n -> (forall k, k < len -> Nat.iter k f o <> Nat.iter len f o) -> n <= S len -> f (Nat.iter len f o) = o.
Proof.
  intros Ho N L. destruct (path_covers o len Ho N L (f (Nat.iter len f o))) as (k & Lk & E); [now apply B, iter_bound|].
  destruct k as [|k]; [now symmetry|]. rewrite iter_next in E. apply J in E; [|now apply iter_bound|now apply iter_bound]. destruct (N k); [lia|assumption].
Qed.

Lemma path_tour o len : o < n -> (forall k, k < len -> Nat.iter k f o <> Nat.iter len f o) -> n <= S len -> tour.
Proof.
  intros Ho N L. split; [assumption|]. intros i j Hi Hj. pose proof (path_closes o len Ho N L) as C.
  destruct (path_covers o len Ho N L i Hi) as (a & La & <-). destruct (path_covers o len Ho N L j Hj) as (b & Lb & <-).
  exists ((len - a) + (1 + b)). rewrite <- iter_add. replace (a + (len - a + (1 + b))) with (len + (1 + b)) by lia. rewrite iter_add, iter_add. f_equal. exact C.
Qed.
End Injective.
End Follow.

(** ** Chains *)

Section Chains.
Variable n : nat.
Variable f : nat -> nat.

(** Every node of [V] ends a chain, each of them from a start, [orig], along [len]
    successors, and the chains have all nodes. *)
Definition in_chains (V : list nat) (orig dest len : nat -> nat) : Prop :=
  (forall e, In e V -> let o := orig e in o < n /\ dest o = e /\ Nat.iter (len o) f o = e /\ forall k, k < len o -> ~ In (Nat.iter k f o) V) /\
  (forall v, v < n -> exists e k, In e V /\ k <= len (orig e) /\ Nat.iter k f (orig e) = v).

Definition chained (V : list nat) (orig dest len : nat -> nat) : Prop := V = [] /\ tour n f \/ in_chains V orig dest len.

(** No chain that has edges, and not all nodes, is about to be closed. *)
Definition prevented (V : list nat) (orig len : nat -> nat) : Prop :=
  forall e, In e V -> orig e <> e -> S (len (orig e)) < n -> f e <> orig e.

Variable V V' : list nat.
Variable orig dest len : nat -> nat.
Hypothesis BV : forall e, In e V -> e < n.
Hypothesis B : bounded n f.
Hypothesis J : one_to_one n f.
Hypothesis C : in_chains V orig dest len.
Variable i : nat.
Hypothesis Ii : In i V.
Hypothesis EV : forall e, In e V' <-> In e V /\ e <> i.

Lemma end_new e k : In e V -> k < len (orig e) -> Nat.iter k f (orig e) <> Nat.iter (len (orig e)) f (orig e).
Proof. intros Ie Hk E. destruct (proj1 C e Ie) as (_ & _ & Ee & N). apply (N k Hk). now rewrite E, Ee. Qed.

(** The edge closes the chain. *)
Lemma closes_short : f i = orig i -> len (orig i) + 1 < n -> ~ tour n f.
Proof.
  intros E L T. destruct (proj1 C i Ii) as (Ho & _ & Ei & _). pose proof (no_short_cycle n f (S (len (orig i))) (orig i) T Ho) as H.
  rewrite iter_next, Ei in H. specialize (H ltac:(lia) E). lia.
Qed.

Lemma closes_full : f i = orig i -> n <= len (orig i) + 1 -> V' = [] /\ tour n f.
Proof.
  intros E L. destruct (proj1 C i Ii) as (Ho & _ & Ei & N). assert (Nw := fun k => end_new i k Ii). assert (L' : n <= S (len (orig i))) by lia. split.
  - destruct V' as [|e r] eqn:Ev; [reflexivity|]. exfalso. assert (Ie : In e V') by (rewrite Ev; now left). rewrite Ev in Ie. apply EV in Ie. destruct Ie as [Ie Ne].
    destruct (path_covers n f B J (orig i) (len (orig i)) Ho Nw L' e (BV e Ie)) as (k & Lk & Ek). destruct (Nat.eq_dec k (len (orig i))) as [->|Nk]; [congruence|].
    apply (N k); [lia|]. now rewrite Ek.
  - exact (path_tour n f B J (orig i) (len (orig i)) Ho Nw L').
Qed.

(** Otherwise it goes to the start of another chain. *)
Lemma goes_to_start_of i' : In i' V -> f i' <> orig i' -> exists e, In e V /\ e <> i' /\ orig e = f i' /\ dest (f i') = e.
Proof.
  intros Ii' Ne. destruct (proj2 C (f i')) as (e & k & Ie & Lk & Ek); [now apply B, BV|]. destruct (proj1 C e Ie) as (Ho & Ed & Ee & N).
  destruct k as [|k].
  - exists e. cbn in Ek. split; [assumption|]. split; [intros ->; congruence|]. split; [assumption|]. now rewrite <- Ek.
  - exfalso. rewrite iter_next in Ek. apply J in Ek; [|now apply iter_bound|now apply BV]. apply (N k); [lia|]. now rewrite Ek.
Qed.

Lemma goes_to_start : f i <> orig i -> exists e, In e V /\ e <> i /\ orig e = f i /\ dest (f i) = e.
Proof. now apply goes_to_start_of. Qed.

Lemma spliced_chains orig' dest' len' : f i <> orig i ->
  let o := orig i in let d := dest (f i) in
  (forall e, orig' e = if Nat.eq_dec e d then o else orig e) -> (forall s, dest' s = if Nat.eq_dec s o then d else dest s) ->
  (forall s, len' s = if Nat.eq_dec s o then len o + 1 + len (f i) else len s) ->
  In d V' /\ in_chains V' orig' dest' len'.
Proof.
  intros Ne o d Eo Ed El. destruct (goes_to_start Ne) as (e & Ie & Nei & Se & De). fold d in De. subst e.
  destruct (proj1 C i Ii) as (Ho & Di & Li & Ni). fold o in Ho, Di, Li, Ni. destruct (proj1 C d Ie) as (_ & Dd & Ld & Nd). rewrite Se in Dd, Ld, Nd.
  assert (Join : forall k, Nat.iter (len o + 1 + k) f o = Nat.iter k f (f i)) by (intro k; rewrite !iter_add, Li; reflexivity).
  split; [apply EV; now split|]. split.
  - intros e Iv. apply EV in Iv. destruct Iv as [Iv Nv]. cbv zeta. rewrite Eo. destruct (Nat.eq_dec e d) as [->|Nd'].
    + rewrite Ed, El. destruct (Nat.eq_dec o o) as [_|X]; [|congruence]. split; [assumption|]. split; [reflexivity|]. split; [now rewrite Join|].
      intros k Hk Iv'. apply EV in Iv'. destruct Iv' as [Iv' Nk]. destruct (Nat.lt_trichotomy k (len o)) as [L|[L|L]]; [now apply (Ni k L)|subst k; congruence|].
      replace k with (len o + 1 + (k - len o - 1)) in Iv' by lia. rewrite Join in Iv'. apply (Nd (k - len o - 1)); [lia|assumption].
    + destruct (proj1 C e Iv) as (H1 & H2 & H3 & H4). rewrite Ed, El. assert (No : orig e <> o) by (intro X; rewrite X in H2; congruence).
      destruct (Nat.eq_dec (orig e) o) as [X|_]; [congruence|]. repeat (split; [assumption|]). intros k Hk Iv'. apply EV in Iv'. now apply (H4 k Hk).
  - intros v Hv. destruct (proj2 C v Hv) as (e & k & Iv & Lk & Ek). destruct (Nat.eq_dec e i) as [->|Nei'].
    + exists d, k. split; [apply EV; now split|]. rewrite Eo. destruct (Nat.eq_dec d d) as [_|X]; [|congruence]. rewrite El. destruct (Nat.eq_dec o o) as [_|X]; [|congruence]. fold o in Lk, Ek. split; [lia|assumption].
    + destruct (Nat.eq_dec e d) as [->|Nd'].
      * exists d, (len o + 1 + k). split; [apply EV; now split|]. rewrite Eo. destruct (Nat.eq_dec d d) as [_|X]; [|congruence]. rewrite El. destruct (Nat.eq_dec o o) as [_|X]; [|congruence].
        rewrite Se in Lk, Ek. split; [lia|]. now rewrite Join.
      * exists e, k. split; [apply EV; now split|]. rewrite Eo. destruct (Nat.eq_dec e d) as [X|_]; [congruence|]. rewrite El.
        destruct (proj1 C e Iv) as (_ & H2 & _). destruct (Nat.eq_dec (orig e) o) as [X|_]; [|now split]. rewrite X in H2. congruence.
Qed.

Lemma spliced_prevented orig' dest' len' : f i <> orig i -> prevented V orig len ->
  let o := orig i in let d := dest (f i) in
  (forall e, orig' e = if Nat.eq_dec e d then o else orig e) -> (forall s, dest' s = if Nat.eq_dec s o then d else dest s) ->
  (forall s, len' s = if Nat.eq_dec s o then len o + 1 + len (f i) else len s) ->
  (S (len o + 1 + len (f i)) < n -> f d <> o) -> prevented V' orig' len'.
Proof.
  intros Ne P o d Eo Ed El Nw e Ie. apply EV in Ie. destruct Ie as [Ie Nei]. rewrite Eo. destruct (Nat.eq_dec e d) as [->|Nd].
  - intros _. rewrite El. destruct (Nat.eq_dec o o) as [_|X]; [exact Nw|congruence].
  - rewrite El. destruct (proj1 C e Ie) as (_ & H2 & _). destruct (proj1 C i Ii) as (_ & Di & _). destruct (Nat.eq_dec (orig e) o) as [X|_]; [|now apply P].
    exfalso. apply Nei. fold o in Di. rewrite <- X in Di. congruence.
Qed.

(** A cycle with fewer nodes than there are, other than from a node to itself, has
    two chain ends. *)
Lemma two_ends r p : prevented V orig len -> r < n -> 0 < p -> p < n -> Nat.iter p f r = r -> f r <> r ->
  exists k m, Nat.iter k f r <> Nat.iter m f r /\ In (Nat.iter k f r) V /\ In (Nat.iter m f r) V.
Proof.
  intros P Hr P0 Pn E Ns. destruct (proj2 C r Hr) as (e & k & Ie & Lk & Ek). destruct (proj1 C e Ie) as (Ho & De & Ee & Ne). set (o := orig e) in *.
  assert (Re : Nat.iter (len o - k) f r = e) by (rewrite <- Ek, <- iter_add; replace (k + (len o - k)) with (len o) by lia; exact Ee).
  destruct (Nat.eq_dec (f e) o) as [Eo|No].
  - exfalso. assert (Cy : Nat.iter (S (len o)) f o = o) by (rewrite iter_next, Ee; exact Eo).
    assert (Cp : Nat.iter p f o = o).
    { apply (iter_back n f B J k); [now apply iter_bound|assumption|]. rewrite <- iter_add, Nat.add_comm, iter_add, Ek. exact E. }
    destruct (Nat.lt_ge_cases p (S (len o))) as [Sp|Sp].
    + apply (Ne (len o - p)); [lia|]. assert (X : Nat.iter (len o - p) f o = e); [|now rewrite X]. rewrite <- Ee. transitivity (Nat.iter (p + (len o - p)) f o); [now rewrite iter_add, Cp|f_equal; lia].
    + apply (P e Ie); [|fold o; lia|exact Eo]. fold o. intro X. destruct (len o) as [|l] eqn:El.
      * apply Ns. assert (k = 0) by lia. subst k. cbn in Ek. subst r. rewrite X. now rewrite Eo.
      * apply (Ne 0); [lia|]. cbn. now rewrite X.
  - destruct (goes_to_start_of e Ie No) as (e' & Ie' & Nee & Se & _). exists (len o - k), (S (len o - k) + len (f e)). rewrite iter_add, iter_next, Re.
    destruct (proj1 C e' Ie') as (_ & _ & Ee' & _). rewrite Se in Ee'. rewrite Ee'. auto.
Qed.
End Chains.
