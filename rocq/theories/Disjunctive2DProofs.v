(** Lemmas about rectangles that do not overlap. *)
From Coq Require Import ZArith List Bool Arith Lia.
From Verif Require Import IntervalSet IntervalSetSpec IntervalSetProofs Vars VarsSpec VarsProofs State StateSpec StateProofs Epochs
  Engine EngineSpec EngineProofs SessionSpec SessionInvProofs Tracker ContractSpec ContractProofs RunProofs PartsProofs ConsistencySpec
  QuietProofs Passes PassesProofs OnceProofs MultiplyProofs AllDifferent AllDifferentProofs Disjunctive2DSpec Disjunctive2D.
Import ListNotations.
Local Open Scope Z_scope.

(** ** Pairs *)
Lemma with_later_In l x y : In (x, y) (with_later l) -> In x l /\ In y l.
Proof.
  induction l as [|z r IH]; [intros []|]. cbn [with_later]. rewrite in_app_iff, in_map_iff. intros [(w & E & I)|I].
  - injection E as <- <-. split; [now left|now right].
  - destruct (IH I). split; now right.
Qed.

Lemma with_later_seq (f : nat -> bool) n : forall s i j, (s <= i < j)%nat -> (j < s + n)%nat -> f i = true -> f j = true -> In (i, j) (with_later (filter f (seq s n))).
Proof.
  induction n as [|n IH]; intros s i j A B Fi Fj; [lia|]. cbn [seq filter]. destruct (Nat.eq_dec i s) as [->|Ne].
  - rewrite Fi. cbn [with_later]. apply in_app_iff. left. apply in_map. apply filter_In. split; [apply in_seq; lia|assumption].
  - assert (I : In (i, j) (with_later (filter f (seq (S s) n)))) by (apply IH; auto; lia).
    destruct (f s); [|assumption]. cbn [with_later]. apply in_app_iff. now right.
Qed.

Lemma two_active (l : list nat) i j : In i l -> In j l -> i <> j -> (2 <= length l)%nat.
Proof. intros I J N. destruct l as [|x [|y r]]; simpl in *; [contradiction| |lia]. destruct I as [<-|[]], J as [<-|[]]. congruence. Qed.

Section Pass.
Variable nv : nat.
Variable strict : bool.
Variable xs ys ws hs : list var_id.
Hypothesis Bx : Forall (var_below nv) xs.
Hypothesis By : Forall (var_below nv) ys.
Hypothesis Bw : Forall (var_below nv) ws.
Hypothesis Bh : Forall (var_below nv) hs.

Lemma on_handle vs i : Forall (var_below nv) vs -> var_below nv (handle vs i).
Proof. intro B. now apply handle_below. Qed.

Lemma at_bounds d vs a i : Forall (var_below nv) vs -> domains_ok d -> length d = nv -> within a d ->
  lower_bound d (handle vs i) <= at_pos a vs i <= upper_bound d (handle vs i).
Proof. intros B Hd Ld Wa. apply value_bounds; auto. apply (known_here nv); auto. now apply on_handle. Qed.

Lemma at_fixed d vs a i : Forall (var_below nv) vs -> domains_ok d -> length d = nv -> within a d -> fixed d (handle vs i) ->
  lower_bound d (handle vs i) = at_pos a vs i /\ upper_bound d (handle vs i) = at_pos a vs i /\ has_single_value d (handle vs i) = true.
Proof.
  intros B Hd Ld Wa [x F]. assert (K : var_known d (handle vs i)) by (apply (known_here nv); auto; now apply on_handle).
  destruct (lower_at d _ Hd K) as (b & Wb & Eb). destruct (upper_at d _ Hd K) as (c & Wc & Ec).
  pose proof (F a Wa) as Fa. pose proof (F b Wb). pose proof (F c Wc). fold (at_pos a vs i) in *. change (at_pos a vs i = x) in Fa.
  split; [congruence|]. split; [congruence|]. apply has_single_value_spec; auto. congruence.
Qed.

Lemma single_at d vs a i : Forall (var_below nv) vs -> domains_ok d -> length d = nv -> within a d -> has_single_value d (handle vs i) = true ->
  lower_bound d (handle vs i) = at_pos a vs i.
Proof.
  intros B Hd Ld Wa H. apply has_single_value_spec in H; auto; [|apply (known_here nv); auto; now apply on_handle].
  pose proof (at_bounds d vs a i B Hd Ld Wa). lia.
Qed.

(** What the relation says of two rectangles, whichever comes first. *)
Lemma pair_separated a i j : no_overlap strict xs ys ws hs a -> (i < length xs)%nat -> (j < length xs)%nat -> i <> j ->
  (strict = false -> ~ no_area ws hs a i /\ ~ no_area ws hs a j) -> separated xs ys ws hs a i j.
Proof.
  intros N Li Lj D A. destruct (Nat.lt_ge_cases i j) as [L|L].
  - destruct (N i j L Lj) as [[E Z]|S]; [|assumption]. destruct (A E). tauto.
  - assert (L' : (j < i)%nat) by lia. destruct (N j i L' Li) as [[E Z]|S]; [destruct (A E); tauto|]. unfold separated in *. tauto.
Qed.

Lemma separated_sym a i j : separated xs ys ws hs a i j -> separated xs ys ws hs a j i.
Proof. unfold separated. tauto. Qed.

(** The sizes are not negative. *)
Definition sized (a : assignment) : Prop := forall i, 0 <= at_pos a ws i /\ 0 <= at_pos a hs i.

(** *** Nothing wrong is said *)
Lemma meet_says d pos size a i j : Forall (var_below nv) pos -> Forall (var_below nv) size -> domains_ok d -> length d = nv -> within a d ->
  mandatory_meet (mandatory d pos size i) (mandatory d pos size j) = true ->
  1 <= at_pos a size i /\ 1 <= at_pos a size j /\ at_pos a pos i < at_pos a pos j + at_pos a size j /\ at_pos a pos j < at_pos a pos i + at_pos a size i.
Proof.
  intros B1 B2 Hd Ld Wa M. unfold mandatory_meet, mandatory in M. cbn [fst snd] in M. apply Z.ltb_lt in M.
  pose proof (at_bounds d pos a i B1 Hd Ld Wa). pose proof (at_bounds d pos a j B1 Hd Ld Wa).
  pose proof (at_bounds d size a i B2 Hd Ld Wa). pose proof (at_bounds d size a j B2 Hd Ld Wa). lia.
Qed.

Lemma overlap_goes D (P : assignment -> Prop) i j : (i < length xs)%nat -> (j < length xs)%nat -> i <> j ->
  (forall a, P a -> no_overlap strict xs ys ws hs a) -> goes nv D P (overlap_fails xs ys ws hs (i, j)).
Proof.
  intros Li Lj Ne HP. unfold overlap_fails. apply goes_look. intros d Hd Ld _. cbv zeta.
  match goal with |- goes _ _ _ (fun rest => if ?c then rest else _) => destruct c end; [apply goes_id|].
  apply goes_when. intro M. apply andb_prop in M. destruct M as [M1 M2]. split; [exact Logic.I|]. intros a [Pa Wa]. exfalso.
  pose proof (meet_says d xs ws a i j Bx Bw Hd Ld Wa M1). pose proof (meet_says d ys hs a i j By Bh Hd Ld Wa M2).
  assert (S : separated xs ys ws hs a i j) by (apply pair_separated; auto; intros _; unfold no_area; lia). unfold separated in S. lia.
Qed.

Lemma push_axis_goes D (P : assignment -> Prop) pos size i j : Forall (var_below nv) pos -> Forall (var_below nv) size ->
  (forall a, P a -> 1 <= at_pos a size i -> 1 <= at_pos a size j -> at_pos a pos i + at_pos a size i <= at_pos a pos j \/ at_pos a pos j + at_pos a size j <= at_pos a pos i) ->
  (forall d, domains_ok d -> length d = nv -> inside D d -> 0 <= lower_bound d (handle size i)) ->
  goes nv D P (push_axis pos size i j).
Proof.
  intros B1 B2 HP HL. unfold push_axis. apply goes_look. intros d Hd Ld Id. cbv zeta. specialize (HL d Hd Ld Id).
  rewrite bounds_spec. cbn [fst snd].
  destruct (Z.eqb_spec (lower_bound d (handle size i)) 0) as [E|E]; cbn [orb]; [apply goes_id|].
  destruct (Z.leb_spec (lower_bound d (handle pos j) + lower_bound d (handle size j)) (upper_bound d (handle pos j))) as [B|B]; [apply goes_id|].
  assert (F : forall a, P a /\ within a d -> lower_bound d (handle size i) <= at_pos a size i /\ lower_bound d (handle size j) <= at_pos a size j /\
    lower_bound d (handle pos j) <= at_pos a pos j <= upper_bound d (handle pos j) /\ lower_bound d (handle pos i) <= at_pos a pos i <= upper_bound d (handle pos i) /\
    (at_pos a pos i + at_pos a size i <= at_pos a pos j \/ at_pos a pos j + at_pos a size j <= at_pos a pos i)).
  { intros a [Pa Wa]. pose proof (at_bounds d pos a i B1 Hd Ld Wa). pose proof (at_bounds d pos a j B1 Hd Ld Wa).
    pose proof (at_bounds d size a i B2 Hd Ld Wa). pose proof (at_bounds d size a j B2 Hd Ld Wa).
    repeat (split; [lia|]). apply HP; auto; lia. }
  destruct (Z.ltb_spec (upper_bound d (handle pos j) - lower_bound d (handle size i)) (lower_bound d (handle pos i))) as [A1|A1],
    (Z.ltb_spec (lower_bound d (handle pos i)) (lower_bound d (handle pos j) + lower_bound d (handle size j))) as [A2|A2]; cbn [andb];
    try (apply goes_infer; [simpl; now apply on_handle|]; intros a Ha; apply lit_ge; specialize (F a Ha); unfold at_pos in F; fold (handle pos i) in F; unfold handle in *; lia).
  all: match goal with |- context [if ?c then _ else _] => destruct c eqn:C end; [|apply goes_id]; apply andb_prop in C; destruct C as [C1 C2]; apply Z.ltb_lt in C1, C2;
    apply goes_infer; [simpl; now apply on_handle|]; intros a Ha; apply lit_lt; specialize (F a Ha); unfold at_pos in F; unfold handle in *; lia.
Qed.

Lemma push_pair_goes D (P : assignment -> Prop) i j : (i < length xs)%nat -> (j < length xs)%nat -> i <> j ->
  (forall a, P a -> no_overlap strict xs ys ws hs a) -> (forall a, within a D -> sized a) -> goes nv D P (push_pair xs ys ws hs (i, j)).
Proof.
  intros Li Lj Ne HP HS. unfold push_pair. apply goes_look. intros d Hd Ld Id. cbv zeta.
  assert (Low : forall d' size k, Forall (var_below nv) size -> (size = ws \/ size = hs) -> domains_ok d' -> length d' = nv -> inside d d' -> 0 <= lower_bound d' (handle size k)).
  { intros d' size k Bs E Hd' Ld' Id'. destruct (lower_at d' (handle size k) Hd') as (a & Wa & <-); [apply (known_here nv); auto; now apply on_handle|].
    destruct (HS a (Id a (Id' a Wa)) k). destruct E as [->| ->]; assumption. }
  assert (GY : mandatory_meet (mandatory d xs ws i) (mandatory d xs ws j) = true -> goes nv d (fun a => P a /\ within a d) (push_axis ys hs i j) /\ goes nv d (fun a => P a /\ within a d) (push_axis ys hs j i)).
  { intro M. split; apply push_axis_goes; auto; intros a [Pa Wa] A B; pose proof (meet_says d xs ws a i j Bx Bw Hd Ld Wa M);
      assert (S : separated xs ys ws hs a i j) by (apply pair_separated; auto; intros _; unfold no_area; lia); unfold separated in S; lia. }
  assert (GX : mandatory_meet (mandatory d ys hs i) (mandatory d ys hs j) = true -> goes nv d (fun a => P a /\ within a d) (push_axis xs ws i j) /\ goes nv d (fun a => P a /\ within a d) (push_axis xs ws j i)).
  { intro M. split; apply push_axis_goes; auto; intros a [Pa Wa] A B; pose proof (meet_says d ys hs a i j By Bh Hd Ld Wa M);
      assert (S : separated xs ys ws hs a i j) by (apply pair_separated; auto; intros _; unfold no_area; lia); unfold separated in S; lia. }
  assert (GX' : goes nv d (fun a => P a /\ within a d) (fun rest => if mandatory_meet (mandatory d ys hs i) (mandatory d ys hs j) then push_axis xs ws i j (push_axis xs ws j i rest) else rest)).
  { destruct (mandatory_meet (mandatory d ys hs i) (mandatory d ys hs j)); [|apply goes_id]. destruct (GX eq_refl) as [G1 G2]. exact (goes_then _ _ _ _ _ G1 G2). }
  destruct (mandatory_meet (mandatory d xs ws i) (mandatory d xs ws j)); [|exact GX']. destruct (GY eq_refl) as [G1 G2].
  exact (goes_then _ _ _ _ _ G1 (goes_then _ _ _ _ _ G2 GX')).
Qed.

Lemma all_fixed_at d a i : domains_ok d -> length d = nv -> within a d -> all_fixed xs ys ws hs d i = true ->
  lower_bound d (handle xs i) = at_pos a xs i /\ lower_bound d (handle ys i) = at_pos a ys i /\ lower_bound d (handle ws i) = at_pos a ws i /\ lower_bound d (handle hs i) = at_pos a hs i.
Proof.
  intros Hd Ld Wa F. unfold all_fixed in F. apply andb_prop in F. destruct F as [F Fh]. apply andb_prop in F. destruct F as [F Fw]. apply andb_prop in F. destruct F as [Fx Fy].
  auto using single_at.
Qed.

Lemma inside_goes D (P : assignment -> Prop) active i : (forall k, In k active -> (k < length xs)%nat) -> In i active ->
  (forall a, P a -> no_overlap strict xs ys ws hs a) -> goes nv D P (inside_fails strict xs ys ws hs active i).
Proof.
  intros HA Ii HP. unfold inside_fails. apply goes_sequence. intros j Ij. apply goes_look. intros d Hd Ld Id. cbv zeta.
  destruct (negb (all_fixed xs ys ws hs d i) || negb (strict && ((lower_bound d (handle ws i) =? 0) || (lower_bound d (handle hs i) =? 0)))) eqn:C1; [apply goes_id|].
  apply orb_false_iff in C1. destruct C1 as [C1 C2]. apply negb_false_iff in C1, C2. apply andb_prop in C2. destruct C2 as [C2 _].
  destruct (Nat.eqb j i || negb (all_fixed xs ys ws hs d j)) eqn:C3; [apply goes_id|]. apply orb_false_iff in C3. destruct C3 as [C3 C4]. apply Nat.eqb_neq in C3. apply negb_false_iff in C4.
  apply goes_when. intro C. split; [exact Logic.I|]. intros a [Pa Wa]. exfalso.
  destruct (all_fixed_at d a i Hd Ld Wa C1) as (-> & -> & -> & ->) in C. destruct (all_fixed_at d a j Hd Ld Wa C4) as (-> & -> & -> & ->) in C.
  assert (S : separated xs ys ws hs a i j) by (apply pair_separated; auto; congruence). unfold separated in S.
  apply negb_true_iff, orb_false_iff in C. destruct C as [C E4]. apply orb_false_iff in C. destruct C as [C E3]. apply orb_false_iff in C. destruct C as [E1 E2].
  apply Z.leb_gt in E1, E2, E3, E4. lia.
Qed.

Lemma rectangles_tells D (P : assignment -> Prop) active : (forall k, In k active -> (k < length xs)%nat) -> (forall i j, In (i, j) (with_later active) -> i <> j) ->
  (forall a, P a -> no_overlap strict xs ys ws hs a) -> (forall a, within a D -> sized a) -> tells nv D P (rectangles_pass strict xs ys ws hs active).
Proof.
  intros HA HD HP HS. unfold rectangles_pass.
  assert (G1 : goes nv D P (sequence (with_later active) (overlap_fails xs ys ws hs))).
  { apply goes_sequence. intros [i j] I. destruct (with_later_In _ _ _ I). apply overlap_goes; auto. }
  assert (G2 : goes nv D P (sequence (with_later active) (push_pair xs ys ws hs))).
  { apply goes_sequence. intros [i j] I. destruct (with_later_In _ _ _ I). apply push_pair_goes; auto. }
  assert (G3 : goes nv D P (sequence active (inside_fails strict xs ys ws hs active))).
  { apply goes_sequence. intros i I. now apply inside_goes. }
  exact (goes_then _ _ _ _ _ G1 (goes_then _ _ _ _ _ G2 G3) D P Stop (fun a H => H) (inside_refl D) (fun _ _ => Logic.I)).
Qed.

(** *** Everything is checked *)
Definition settled (d : domains) (i : nat) : Prop := fixed d (handle xs i) /\ fixed d (handle ys i) /\ fixed d (handle ws i) /\ fixed d (handle hs i).

Lemma settled_later d d' i : domains_ok d -> domains_ok d' -> length d = nv -> length d' = nv -> inside d d' -> settled d i -> settled d' i.
Proof.
  intros Hd Hd' L L' I (A & B & C & D). assert (X : forall vs, Forall (var_below nv) vs -> fixed d (handle vs i) -> fixed d' (handle vs i)).
  { intros vs Bs F. apply (fixed_mono d d'); auto. }
  unfold settled. auto.
Qed.

Lemma settled_fixed d i : domains_ok d -> length d = nv -> settled d i -> all_fixed xs ys ws hs d i = true.
Proof.
  intros Hd Ld (A & B & C & D). destruct (within_exists d Hd) as (a & Wa). unfold all_fixed.
  destruct (at_fixed d xs a i Bx Hd Ld Wa A) as (_ & _ & ->). destruct (at_fixed d ys a i By Hd Ld Wa B) as (_ & _ & ->).
  destruct (at_fixed d ws a i Bw Hd Ld Wa C) as (_ & _ & ->). destruct (at_fixed d hs a i Bh Hd Ld Wa D) as (_ & _ & ->). reflexivity.
Qed.

Lemma overlap_passes a i j : passes nv a (overlap_fails xs ys ws hs (i, j)) (fun d => settled d i -> settled d j ->
  0 < at_pos a ws i -> 0 < at_pos a hs i -> 0 < at_pos a ws j -> 0 < at_pos a hs j -> separated xs ys ws hs a i j).
Proof.
  unfold overlap_fails. apply (passes_weaken _ _ _ (fun d => within a d -> settled d i -> settled d j ->
    0 < at_pos a ws i -> 0 < at_pos a hs i -> 0 < at_pos a ws j -> 0 < at_pos a hs j -> separated xs ys ws hs a i j)); [intros; now auto|].
  apply (passes_look nv a _ (fun d _ => within a d -> settled d i -> settled d j ->
    0 < at_pos a ws i -> 0 < at_pos a hs i -> 0 < at_pos a ws j -> 0 < at_pos a hs j -> separated xs ys ws hs a i j)).
  intros d Hd Ld. cbv zeta.
  match goal with |- context [if ?c then _ else _] => destruct c eqn:C end.
  - apply (passes_weaken _ _ _ (fun _ => True)); [|apply passes_id]. intros d' _ _ _ _ Wa (A & B & E & F) (A' & B' & E' & F') P1 P2 P3 P4. exfalso.
    unfold nothing_mandatory, mandatory in C. cbn [fst snd] in C.
    destruct (at_fixed d xs a i Bx Hd Ld Wa A) as (X1 & X2 & _), (at_fixed d ys a i By Hd Ld Wa B) as (X3 & X4 & _), (at_fixed d ws a i Bw Hd Ld Wa E) as (X5 & _ & _), (at_fixed d hs a i Bh Hd Ld Wa F) as (X6 & _ & _).
    destruct (at_fixed d xs a j Bx Hd Ld Wa A') as (Y1 & Y2 & _), (at_fixed d ys a j By Hd Ld Wa B') as (Y3 & Y4 & _), (at_fixed d ws a j Bw Hd Ld Wa E') as (Y5 & _ & _), (at_fixed d hs a j Bh Hd Ld Wa F') as (Y6 & _ & _).
    rewrite ?X1, ?X2, ?X3, ?X4, ?X5, ?X6, ?Y1, ?Y2, ?Y3, ?Y4, ?Y5, ?Y6 in C.
    apply orb_true_iff in C. destruct C as [C|C]; [apply orb_true_iff in C; destruct C as [C|C]; [apply orb_true_iff in C; destruct C as [C|C]|]|]; apply Z.leb_le in C; lia.
  - eapply passes_weaken; [|apply passes_when]. cbv beta. intros d' _ _ _ N Wa (A & B & E & F) (A' & B' & E' & F') P1 P2 P3 P4.
    unfold mandatory_meet, mandatory in N. cbn [fst snd] in N.
    destruct (at_fixed d xs a i Bx Hd Ld Wa A) as (X1 & X2 & _), (at_fixed d ys a i By Hd Ld Wa B) as (X3 & X4 & _), (at_fixed d ws a i Bw Hd Ld Wa E) as (X5 & _ & _), (at_fixed d hs a i Bh Hd Ld Wa F) as (X6 & _ & _).
    destruct (at_fixed d xs a j Bx Hd Ld Wa A') as (Y1 & Y2 & _), (at_fixed d ys a j By Hd Ld Wa B') as (Y3 & Y4 & _), (at_fixed d ws a j Bw Hd Ld Wa E') as (Y5 & _ & _), (at_fixed d hs a j Bh Hd Ld Wa F') as (Y6 & _ & _).
    rewrite ?X1, ?X2, ?X3, ?X4, ?X5, ?X6, ?Y1, ?Y2, ?Y3, ?Y4, ?Y5, ?Y6 in N. unfold separated.
    match type of N with ?m1 && ?m2 = true -> _ => destruct m1 eqn:M1, m2 eqn:M2 end; [exfalso; apply (N eq_refl)| | |];
      repeat match goal with H : _ = true |- _ => apply Z.ltb_lt in H | H : _ = false |- _ => apply Z.ltb_ge in H end; lia.
Qed.

Lemma push_axis_passes a pos size i j : passes nv a (push_axis pos size i j) (fun _ => True).
Proof.
  unfold push_axis. apply (passes_look nv a _ (fun _ _ => True)). intros d Hd Ld. cbv zeta. rewrite bounds_spec.
  repeat match goal with |- context [if ?c then _ else _] => destruct c end; solve [apply passes_id|eapply passes_weaken; [|apply passes_infer]; auto].
Qed.

Lemma push_pair_passes a ij : passes nv a (push_pair xs ys ws hs ij) (fun _ => True).
Proof.
  unfold push_pair. apply (passes_look nv a _ (fun _ _ => True)). intros d Hd Ld. destruct ij as [i j]. cbv zeta.
  assert (T : forall pos size, passes nv a (fun rest => push_axis pos size i j (push_axis pos size j i rest)) (fun _ => True)).
  { intros pos size. eapply passes_weaken; [|exact (passes_then _ _ _ _ _ _ (push_axis_passes a pos size i j) (push_axis_passes a pos size j i))]. auto. }
  destruct (mandatory_meet (mandatory d xs ws i) (mandatory d xs ws j)), (mandatory_meet (mandatory d ys hs i) (mandatory d ys hs j)); auto using passes_id.
  eapply passes_weaken; [|exact (passes_then _ _ _ _ _ _ (T ys hs) (T xs ws))]. auto.
Qed.

Lemma inside_passes a active i : passes nv a (inside_fails strict xs ys ws hs active i) (fun d => (forall k, In k (i :: active) -> settled d k) -> strict = true -> no_area ws hs a i ->
  forall j, In j active -> j <> i -> separated xs ys ws hs a i j).
Proof.
  unfold inside_fails. eapply passes_weaken; [|apply (passes_sequence nv a _ (fun j d => within a d -> settled d i -> settled d j -> strict = true -> no_area ws hs a i -> j <> i -> separated xs ys ws hs a i j))].
  - intros d Hd Ld Wa H F St Z j Ij Ne. destruct (H j Ij) as (d' & Hd' & Ld' & Wa' & Id & Q). apply Q; auto; apply (settled_later d d'); auto; apply F; [now left|now right].
  - intros j Ij. apply (passes_look nv a _ (fun d _ => within a d -> settled d i -> settled d j -> strict = true -> no_area ws hs a i -> j <> i -> separated xs ys ws hs a i j)).
    intros d Hd Ld. cbv zeta.
    match goal with |- context [if ?c then _ else _] => destruct c eqn:C1 end.
    + apply (passes_weaken _ _ _ (fun _ => True)); [|apply passes_id]. intros d' _ _ _ _ Wa Si Sj -> Z Ne. exfalso.
      rewrite (settled_fixed d i) in C1 by assumption. cbn [negb orb andb] in C1. destruct (all_fixed_at d a i Hd Ld Wa (settled_fixed d i Hd Ld Si)) as (_ & _ & E1 & E2). rewrite E1, E2 in C1.
      apply negb_true_iff, orb_false_iff in C1. destruct C1 as [C1 C2]. apply Z.eqb_neq in C1, C2. destruct Z; contradiction.
    + match goal with |- context [if ?c then _ else _] => destruct c eqn:C2 end.
      * apply (passes_weaken _ _ _ (fun _ => True)); [|apply passes_id]. intros d' _ _ _ _ Wa Si Sj St Z Ne. exfalso.
        rewrite (settled_fixed d j) in C2 by assumption. rewrite (proj2 (Nat.eqb_neq _ _) Ne) in C2. discriminate.
      * eapply passes_weaken; [|apply passes_when]. cbv beta. intros d' _ _ _ N Wa Si Sj St Z Ne.
        destruct (all_fixed_at d a i Hd Ld Wa (settled_fixed d i Hd Ld Si)) as (E1 & E2 & E3 & E4). destruct (all_fixed_at d a j Hd Ld Wa (settled_fixed d j Hd Ld Sj)) as (F1 & F2 & F3 & F4).
        rewrite E1, E2, E3, E4, F1, F2, F3, F4 in N. unfold separated.
        match type of N with negb ?c = true -> _ => destruct c eqn:C end; [|exfalso; apply (N eq_refl)].
        apply orb_true_iff in C. destruct C as [C|C]; [apply orb_true_iff in C; destruct C as [C|C]; [apply orb_true_iff in C; destruct C as [C|C]|]|]; apply Z.leb_le in C; lia.
Qed.

Lemma rectangles_obeyed a active d : domains_ok d -> length d = nv -> within a d -> (forall k, In k active -> settled d k) -> sized a ->
  obeys nv a (rectangles_pass strict xs ys ws hs active) d ->
  forall i j, In (i, j) (with_later active) -> i <> j -> (strict = false /\ (no_area ws hs a i \/ no_area ws hs a j)) \/ separated xs ys ws hs a i j.
Proof.
  intros Hd Ld Wa F Sz O i j I Ne. destruct (with_later_In _ _ _ I) as [Ii Ij]. unfold rectangles_pass in O.
  destruct (passes_sequence nv a (overlap_fails xs ys ws hs) (fun ij d => settled d (fst ij) -> settled d (snd ij) ->
    0 < at_pos a ws (fst ij) -> 0 < at_pos a hs (fst ij) -> 0 < at_pos a ws (snd ij) -> 0 < at_pos a hs (snd ij) -> separated xs ys ws hs a (fst ij) (snd ij)) (with_later active)) with (2 := Hd) (3 := Ld) (4 := Wa) (5 := O) as [X (d1 & H1 & L1 & W1 & I1 & O1)].
  { intros [i' j'] _. apply overlap_passes. }
  destruct (passes_sequence nv a (push_pair xs ys ws hs) (fun _ _ => True) (with_later active)) with (2 := H1) (3 := L1) (4 := W1) (5 := O1) as [_ (d2 & H2 & L2 & W2 & I2 & O2)]; [intros ij _; apply push_pair_passes|].
  destruct (passes_sequence nv a (inside_fails strict xs ys ws hs active) (fun i d => (forall k, In k (i :: active) -> settled d k) -> strict = true -> no_area ws hs a i ->
    forall j, In j active -> j <> i -> separated xs ys ws hs a i j) active) with (2 := H2) (3 := L2) (4 := W2) (5 := O2) as [Y _]; [intros k _; apply inside_passes|].
  assert (Z : forall i j, In i active -> In j active -> j <> i -> strict = true -> no_area ws hs a i -> separated xs ys ws hs a i j).
  { intros i' j' Ii' Ij' Ne' St NA. destruct (Y i' Ii') as (d3 & H3 & L3 & W3 & I3 & Q). apply Q; auto. intros k Ik.
    assert (In k active) by (destruct Ik as [<-|Ik]; auto). apply (settled_later d2 d3); auto. apply (settled_later d1 d2); auto. apply (settled_later d d1); auto. }
  destruct (Sz i) as [Wi Hi], (Sz j) as [Wj Hj]. 
  destruct (Z.eq_dec (at_pos a ws i) 0) as [E|E1]; [destruct strict; [right; apply Z; auto; now left|left; unfold no_area; auto]|].
  destruct (Z.eq_dec (at_pos a hs i) 0) as [E|E2]; [destruct strict; [right; apply Z; auto; now right|left; unfold no_area; auto]|].
  destruct (Z.eq_dec (at_pos a ws j) 0) as [E|E3]; [destruct strict; [right; apply separated_sym, Z; auto; now left|left; unfold no_area; auto]|].
  destruct (Z.eq_dec (at_pos a hs j) 0) as [E|E4]; [destruct strict; [right; apply separated_sym, Z; auto; now right|left; unfold no_area; auto]|].
  right. destruct (X (i, j) I) as (d' & Hd' & Ld' & Wa' & Id' & Q). cbn [fst snd] in Q. apply Q; try lia; apply (settled_later d d'); auto.
Qed.

(** *** When nothing changes *)
Section Rest.
Variable d : domains.
Hypothesis Hd : domains_ok d.
Hypothesis Ld : length d = nv.

Lemma overlap_rests i j : rests d (overlap_fails xs ys ws hs (i, j)) (mandatory_meet (mandatory d xs ws i) (mandatory d xs ws j) && mandatory_meet (mandatory d ys hs i) (mandatory d ys hs j) = false).
Proof.
  unfold overlap_fails. apply rests_look. cbv zeta. destruct (within_exists d Hd) as (a & Wa).
  match goal with |- context [if ?c then _ else _] => destruct c eqn:C end.
  - apply (rests_weaken d _ True); [|apply rests_id]. intros _. apply andb_false_iff. unfold mandatory_meet, nothing_mandatory in *.
    apply orb_true_iff in C. destruct C as [C|C]; [apply orb_true_iff in C; destruct C as [C|C]; [apply orb_true_iff in C; destruct C as [C|C]|]|]; apply Z.leb_le in C.
    + left. apply Z.ltb_ge. lia.
    + right. apply Z.ltb_ge. lia.
    + left. apply Z.ltb_ge. lia.
    + right. apply Z.ltb_ge. lia.
  - eapply rests_weaken; [|apply rests_when]. intro H.
    match goal with |- ?c = false => destruct c end; [|reflexivity]. destruct (H eq_refl a Wa).
Qed.

Lemma push_axis_rests pos size i j : Forall (var_below nv) pos -> Forall (var_below nv) size ->
  rests d (push_axis pos size i j) (keeps_clear d pos size i j (lower_bound d (handle pos i)) /\ keeps_clear d pos size i j (upper_bound d (handle pos i))).
Proof.
  intros B1 B2. unfold push_axis. apply rests_look. cbv zeta. rewrite bounds_spec. unfold keeps_clear, compulsory. fold (handle size i) (handle pos j) (handle size j).
  assert (K : var_known d (handle pos i)) by (apply (known_here nv); auto; now apply on_handle). pose proof (lower_le_upper d (handle pos i) Hd K) as LU.
  destruct (Z.eqb_spec (lower_bound d (handle size i)) 0) as [E|E]; cbn [orb]; [apply (rests_weaken d _ True); [|apply rests_id]; intros _; split; intros u; lia|].
  destruct (Z.leb_spec (lower_bound d (handle pos j) + lower_bound d (handle size j)) (upper_bound d (handle pos j))) as [B|B]; [apply (rests_weaken d _ True); [|apply rests_id]; intros _; split; intros u; lia|].
  destruct (lower_at d _ Hd K) as (a & Wa & Ea). destruct (upper_at d _ Hd K) as (b & Wb & Eb).
  match goal with |- context [if ?c then _ else _] => destruct c eqn:C1 end.
  - eapply rests_weaken; [|apply rests_infer]. intro H. exfalso. apply andb_prop in C1. destruct C1 as [C1 C2]. apply Z.ltb_lt in C1, C2. specialize (H a Wa). apply lit_ge in H. lia.
  - match goal with |- context [if ?c then _ else _] => destruct c eqn:C2 end.
    + eapply rests_weaken; [|apply rests_infer]. intro H. exfalso. apply andb_prop in C2. destruct C2 as [C2 C3]. apply Z.ltb_lt in C2, C3. specialize (H b Wb). apply (proj1 (lit_lt _ _ _)) in H. lia.
    + apply (rests_weaken d _ True); [|apply rests_id]. intros _. apply andb_false_iff in C1, C2. rewrite !Z.ltb_ge in C1, C2. split; intros u; lia.
Qed.

Definition clear_both (pos size : list var_id) (i j : nat) : Prop :=
  keeps_clear d pos size i j (lower_bound d (handle pos i)) /\ keeps_clear d pos size i j (upper_bound d (handle pos i)).

Lemma push_pair_rests i j : rests d (push_pair xs ys ws hs (i, j)) (
  (mandatory_meet (mandatory d xs ws i) (mandatory d xs ws j) = true -> clear_both ys hs i j /\ clear_both ys hs j i) /\
  (mandatory_meet (mandatory d ys hs i) (mandatory d ys hs j) = true -> clear_both xs ws i j /\ clear_both xs ws j i)).
Proof.
  unfold push_pair. apply rests_look. cbv zeta.
  pose proof (rests_then d _ _ _ _ (push_axis_rests xs ws i j Bx Bw) (push_axis_rests xs ws j i Bx Bw)) as RX.
  pose proof (rests_then d _ _ _ _ (push_axis_rests ys hs i j By Bh) (push_axis_rests ys hs j i By Bh)) as RY.
  assert (RX' : rests d (fun rest => if mandatory_meet (mandatory d ys hs i) (mandatory d ys hs j) then push_axis xs ws i j (push_axis xs ws j i rest) else rest)
    (mandatory_meet (mandatory d ys hs i) (mandatory d ys hs j) = true -> clear_both xs ws i j /\ clear_both xs ws j i)).
  { destruct (mandatory_meet (mandatory d ys hs i) (mandatory d ys hs j)); [eapply rests_weaken; [|exact RX]; auto|]. apply (rests_weaken d _ True); [discriminate|apply rests_id]. }
  destruct (mandatory_meet (mandatory d xs ws i) (mandatory d xs ws j)).
  - eapply rests_weaken; [|exact (rests_then d _ _ _ _ RY RX')]. intros [A B]. split; auto.
  - eapply rests_weaken; [|exact RX']. intro B. split; [discriminate|assumption].
Qed.

Lemma rectangles_rests active : still (rectangles_pass strict xs ys ws hs active) d -> forall i j, In (i, j) (with_later active) ->
  mandatory_meet (mandatory d xs ws i) (mandatory d xs ws j) && mandatory_meet (mandatory d ys hs i) (mandatory d ys hs j) = false /\
  (mandatory_meet (mandatory d xs ws i) (mandatory d xs ws j) = true -> clear_both ys hs i j /\ clear_both ys hs j i) /\
  (mandatory_meet (mandatory d ys hs i) (mandatory d ys hs j) = true -> clear_both xs ws i j /\ clear_both xs ws j i).
Proof.
  intros H i j I. unfold rectangles_pass in H.
  destruct (rests_sequence d (overlap_fails xs ys ws hs) (fun ij => let '(i, j) := ij in mandatory_meet (mandatory d xs ws i) (mandatory d xs ws j) && mandatory_meet (mandatory d ys hs i) (mandatory d ys hs j) = false) (with_later active)) with (2 := H) as [A H']; [intros [i' j'] _; apply overlap_rests|].
  destruct (rests_sequence d (push_pair xs ys ws hs) (fun ij => let '(i, j) := ij in
    (mandatory_meet (mandatory d xs ws i) (mandatory d xs ws j) = true -> clear_both ys hs i j /\ clear_both ys hs j i) /\
    (mandatory_meet (mandatory d ys hs i) (mandatory d ys hs j) = true -> clear_both xs ws i j /\ clear_both xs ws j i)) (with_later active)) with (2 := H') as [B _]; [intros [i' j'] _; apply push_pair_rests|].
  exact (conj (A (i, j) I) (B (i, j) I)).
Qed.
End Rest.
End Pass.

(** ** The constraint *)
Definition scope_of (xs ys ws hs : list var_id) (active : list nat) : list var_id :=
  flat_map (fun i => [handle xs i; handle ys i] ++ if_variable (handle ws i) ++ if_variable (handle hs i)) active.

Lemma if_variable_fixed d v : Forall (fixed d) (if_variable v) -> fixed d v.
Proof. destruct v as [n|n neg add|c]; cbn [if_variable]; intro F; [now inversion F|now inversion F|]. exists c. intros a _. reflexivity. Qed.

Lemma if_variable_incl v w : In w (if_variable v) -> w = v.
Proof. destruct v as [n|n neg add|c]; simpl; [intros [<-|[]]; reflexivity|intros [<-|[]]; reflexivity|intros []]. Qed.

Lemma scope_settled d xs ys ws hs active : Forall (fixed d) (scope_of xs ys ws hs active) -> forall k, In k active -> settled xs ys ws hs d k.
Proof.
  intros F k Ik. assert (G : Forall (fixed d) ([handle xs k; handle ys k] ++ if_variable (handle ws k) ++ if_variable (handle hs k))).
  { rewrite Forall_forall in *. intros v Iv. apply F. apply in_flat_map. eauto. }
  cbn [app] in G. rewrite !Forall_cons_iff, Forall_app in G. destruct G as (A & B & C & D). split; [assumption|]. split; [assumption|]. split; now apply if_variable_fixed.
Qed.

Section Posted.
Variable d0 : domains.
Variable strict : bool.
Variable xs ys ws hs : list var_id.
Hypothesis H0 : domains_ok d0.
Hypothesis K : Forall (var_known d0) (xs ++ ys ++ ws ++ hs).
Hypothesis Ly : length ys = length xs.
Hypothesis Lw : length ws = length xs.
Hypothesis Lh : length hs = length xs.
Hypothesis Pos : Forall (fun v => 0 <= lower_bound d0 v) (ws ++ hs).

Let active := active_rectangles strict ws hs (length xs) d0.

Lemma below_all nv : (length d0 <= nv)%nat -> Forall (var_below nv) xs /\ Forall (var_below nv) ys /\ Forall (var_below nv) ws /\ Forall (var_below nv) hs.
Proof.
  intro Ln. assert (X : Forall (var_below nv) (xs ++ ys ++ ws ++ hs)) by (eapply Forall_impl; [|exact K]; intros v Kv; now apply (known_below_more d0)).
  rewrite !Forall_app in X. tauto.
Qed.

Lemma at_initially vs a i : incl vs (xs ++ ys ++ ws ++ hs) -> within a d0 -> lower_bound d0 (handle vs i) <= at_pos a vs i <= upper_bound d0 (handle vs i).
Proof.
  intros I Wa. apply value_bounds; auto. unfold handle. destruct (Nat.lt_ge_cases i (length vs)) as [H|H]; [|rewrite nth_overflow by assumption; exact Logic.I].
  rewrite Forall_forall in K. apply K, I. now apply nth_In.
Qed.

Lemma initially_sized a : within a d0 -> sized ws hs a.
Proof.
  intros Wa i. assert (P : forall vs, incl vs (ws ++ hs) -> 0 <= lower_bound d0 (handle vs i)).
  { intros vs I. unfold handle. destruct (Nat.lt_ge_cases i (length vs)) as [H|H]; [|rewrite nth_overflow by assumption; simpl; lia].
    rewrite Forall_forall in Pos. apply Pos, I. now apply nth_In. }
  pose proof (P ws (fun v I => in_or_app _ _ _ (or_introl I))). pose proof (P hs (fun v I => in_or_app _ _ _ (or_intror I))).
  pose proof (at_initially ws a i). pose proof (at_initially hs a i).
  assert (I1 : incl ws (xs ++ ys ++ ws ++ hs)) by (intros v I; rewrite !in_app_iff; auto). assert (I2 : incl hs (xs ++ ys ++ ws ++ hs)) by (intros v I; rewrite !in_app_iff; auto).
  specialize (H2 I1 Wa). specialize (H3 I2 Wa). lia.
Qed.

Lemma active_below k : In k active -> (k < length xs)%nat.
Proof. intro I. apply filter_In in I. destruct I as [I _]. apply in_seq in I. lia. Qed.

Lemma seq_later_lt (f : nat -> bool) n : forall s i j, In (i, j) (with_later (filter f (seq s n))) -> (i < j)%nat.
Proof.
  induction n as [|n IH]; intros s i j I; [destruct I|]. cbn [seq filter] in I. destruct (f s); [|now apply IH in I].
  cbn [with_later] in I. apply in_app_iff in I. destruct I as [I|I]; [|now apply IH in I]. apply in_map_iff in I. destruct I as (y & E & I). injection E as <- <-.
  apply filter_In in I. destruct I as [I _]. apply in_seq in I. lia.
Qed.

Lemma active_differ i j : In (i, j) (with_later active) -> i <> j.
Proof. intro I. apply seq_later_lt in I. lia. Qed.

(** A rectangle that takes no part has no area. *)
Lemma inactive_empty a i : within a d0 -> (i < length xs)%nat -> ~ In i active -> strict = false /\ no_area ws hs a i.
Proof.
  intros Wa Li N. assert (F : negb (negb strict && ((upper_bound d0 (handle ws i) =? 0) || (upper_bound d0 (handle hs i) =? 0))) = false).
  { apply not_true_iff_false. intro T. apply N, filter_In. split; [apply in_seq; lia|assumption]. }
  apply negb_false_iff, andb_prop in F. destruct F as [S F]. apply negb_true_iff in S. split; [assumption|].
  destruct (initially_sized a Wa i) as [Sw Sh].
  assert (I1 : incl ws (xs ++ ys ++ ws ++ hs)) by (intros v I; rewrite !in_app_iff; auto). assert (I2 : incl hs (xs ++ ys ++ ws ++ hs)) by (intros v I; rewrite !in_app_iff; auto).
  pose proof (at_initially ws a i I1 Wa). pose proof (at_initially hs a i I2 Wa).
  apply orb_true_iff in F. rewrite !Z.eqb_eq in F. unfold no_area. lia.
Qed.

Lemma active_pair i j : In i active -> In j active -> (i < j)%nat -> In (i, j) (with_later active).
Proof.
  intros I J L. pose proof (active_below j J). apply filter_In in I, J. unfold active, active_rectangles. apply with_later_seq; [lia|lia|apply I|apply J].
Qed.

Lemma rectangles_meets nv alias : (length d0 <= nv)%nat -> meets nv d0 alias (once (rectangles_pass strict xs ys ws hs active)) (scope_of xs ys ws hs active) (no_overlap strict xs ys ws hs)
  (fun a => within a d0 -> forall i j, In (i, j) (with_later active) -> (strict = false /\ (no_area ws hs a i \/ no_area ws hs a j)) \/ separated xs ys ws hs a i j).
Proof.
  intro Ln. destruct (below_all nv Ln) as (Bx & By & Bw & Bh). apply once_meets.
  - intros d Hd Ld Id. apply rectangles_tells; auto; [exact active_below|exact active_differ|now intros a [Sa _]|]. intros a Wa. apply initially_sized, Id, Wa.
  - intros d a Hd Ld Id F Wa O W0 i j I. apply (rectangles_obeyed nv strict xs ys ws hs Bx By Bw Bh a active d); auto; [now apply scope_settled|now apply initially_sized|now apply active_differ].
Qed.

Lemma not_refused : exists k, disjunctive_2d strict xs ys ws hs = Some k /\ fst (k d0) =
  (if (length active <? 2)%nat then [] else [body_propagator (once (rectangles_pass strict xs ys ws hs active)) [] (scope_of xs ys ws hs active) []]) /\ snd (k d0) = [].
Proof.
  unfold disjunctive_2d. rewrite Ly, Lw, Lh, Nat.eqb_refl. cbn [andb negb].
  assert (E : existsb (fun v => match v with VConst c => c <? 0 | _ => false end) (ws ++ hs) = false).
  { apply not_true_iff_false. rewrite existsb_exists. intros (v & Iv & N). rewrite Forall_forall in Pos. specialize (Pos v Iv). destruct v as [n|n neg add|c]; try discriminate. apply Z.ltb_lt in N. simpl in Pos. lia. }
  rewrite E. eexists. split; [reflexivity|]. cbv beta zeta. fold active. destruct (length active <? 2)%nat; split; reflexivity.
Qed.

Lemma rectangles_posts : posts d0 (disjunctive_2d strict xs ys ws hs) (xs ++ ys ++ ws ++ hs) (no_overlap strict xs ys ws hs).
Proof.
  destruct not_refused as (k & E & Ef & Es). rewrite E. cbn [posts].
  apply (parts_correct d0 k _ _ (fun a => forall i j, In (i, j) (with_later active) -> (strict = false /\ (no_area ws hs a i \/ no_area ws hs a j)) \/ separated xs ys ws hs a i j) (fun _ => True)); [assumption| | |].
  - rewrite Ef. destruct (Nat.ltb_spec (length active) 2) as [L|L].
    + eapply carried_ext; [|apply carried_nil]. intros a _ _ i j I. exfalso. destruct (with_later_In _ _ _ I). pose proof (two_active active i j H H1 (active_differ i j I)). lia.
    + eapply carried_ext; [|apply (carried_body d0 _ (scope_of xs ys ws hs active)); [assumption| | |intros nv Ln; now apply rectangles_meets]].
      * intros a Wa H. exact (H Wa).
      * intros v Iv. apply in_flat_map in Iv. destruct Iv as (i & Ii & Iv). pose proof (active_below i Ii) as Li. cbn [app In] in Iv. rewrite in_app_iff in Iv. rewrite !in_app_iff. unfold handle in Iv.
        destruct Iv as [<-|[<-|[Iv|Iv]]]; [left; apply nth_In; lia|right; left; apply nth_In; lia| |]; apply if_variable_incl in Iv; subst v; right; right; [left|right]; apply nth_In; lia.
      * rewrite app_nil_r. apply incl_refl.
  - rewrite Es. apply established_nil.
  - intros a Wa H _ i j L Lj. destruct (in_dec Nat.eq_dec i active) as [Ii|N]; [|left; destruct (inactive_empty a i Wa) as [S Z]; [lia|assumption|auto]].
    destruct (in_dec Nat.eq_dec j active) as [Ij|N]; [|left; destruct (inactive_empty a j Wa) as [S Z]; [lia|assumption|auto]].
    apply H. now apply active_pair.
Qed.

(** ** When nothing changes *)
Lemma meet_iff d pos size i j : mandatory_meet (mandatory d pos size i) (mandatory d pos size j) = true <-> exists u, compulsory d pos size i u /\ compulsory d pos size j u.
Proof.
  unfold mandatory_meet, mandatory, compulsory. cbn [fst snd]. fold (handle pos i) (handle pos j) (handle size i) (handle size j). rewrite Z.ltb_lt. split.
  - intro L. exists (Z.max (upper_bound d (handle pos i)) (upper_bound d (handle pos j))). lia.
  - intros (u & A & B). lia.
Qed.

Lemma compulsory_sized d pos size i u nv : domains_ok d -> length d = nv -> Forall (var_below nv) pos -> compulsory d pos size i u -> 1 <= lower_bound d (handle size i).
Proof.
  intros Hd Ld B (A & C). fold (handle pos i) (handle size i) in *. pose proof (lower_le_upper d (handle pos i) Hd) as L.
  assert (var_known d (handle pos i)) by (apply (known_here nv); auto; now apply handle_below). specialize (L H). lia.
Qed.

Lemma rectangles_quiet k d : disjunctive_2d strict xs ys ws hs = Some k -> domains_ok d -> length d = length d0 -> inside d0 d ->
  Forall (fun p => rerun_is_quiet p d) (fst (k d0)) -> forall i j, (i < length xs)%nat -> (j < length xs)%nat -> i <> j ->
  (forall u v, ~ (compulsory d xs ws i u /\ compulsory d xs ws j u /\ compulsory d ys hs i v /\ compulsory d ys hs j v)) /\
  (forall u, compulsory d xs ws i u -> compulsory d xs ws j u -> clear_both d ys hs i j) /\
  (forall v, compulsory d ys hs i v -> compulsory d ys hs j v -> clear_both d xs ws i j).
Proof.
  intros E Hd Ld Id Q. destruct not_refused as (k' & E' & Ef & _). rewrite E' in E. injection E as ->. rewrite Ef in Q.
  destruct (below_all (length d0) (Nat.le_refl _)) as (Bx & By & Bw & Bh).
  assert (X : forall i j, In (i, j) (with_later active) ->
    (mandatory_meet (mandatory d xs ws i) (mandatory d xs ws j) && mandatory_meet (mandatory d ys hs i) (mandatory d ys hs j) = false) /\
    (mandatory_meet (mandatory d xs ws i) (mandatory d xs ws j) = true -> clear_both d ys hs i j /\ clear_both d ys hs j i) /\
    (mandatory_meet (mandatory d ys hs i) (mandatory d ys hs j) = true -> clear_both d xs ws i j /\ clear_both d xs ws j i)).
  { intros i j I. destruct (Nat.ltb_spec (length active) 2) as [L|L].
    - exfalso. destruct (with_later_In _ _ _ I). pose proof (two_active active i j H H1 (active_differ i j I)). lia.
    - inversion_clear Q as [|? ? Qp _]. apply (quiet_still (length d0) d Hd Ld _ (fun a => no_overlap strict xs ys ws hs a)) in Qp.
      + now apply (rectangles_rests (length d0) strict xs ys ws hs Bx By Bw Bh d Hd Ld active).
      + apply rectangles_tells; auto; [exact active_below|exact active_differ|]. intros a Wa. apply initially_sized, Id, Wa. }
  assert (N : forall i, (i < length xs)%nat -> ~ In i active -> lower_bound d (handle ws i) <= 0 \/ lower_bound d (handle hs i) <= 0).
  { intros i Li NI. destruct (within_exists d Hd) as (a & Wa). destruct (inactive_empty a i (Id a Wa) Li NI) as [_ Z].
    pose proof (at_bounds (length d0) d ws a i Bw Hd Ld Wa). pose proof (at_bounds (length d0) d hs a i Bh Hd Ld Wa). destruct Z; lia. }
  assert (CL : forall pos size i j, Forall (var_below (length d0)) pos -> (lower_bound d (handle size i) <= 0 \/ lower_bound d (handle size j) <= 0) -> clear_both d pos size i j).
  { intros pos size i j B Z. unfold clear_both, keeps_clear. fold (handle size i).
    split; intros u R C; apply (compulsory_sized d pos size j u (length d0)) in C; auto; lia. }
  assert (IA : forall i j, (i < length xs)%nat -> (j < length xs)%nat -> ~ In i active \/ ~ In j active ->
    (forall u v, ~ (compulsory d xs ws i u /\ compulsory d xs ws j u /\ compulsory d ys hs i v /\ compulsory d ys hs j v)) /\
    (forall u, compulsory d xs ws i u -> compulsory d xs ws j u -> clear_both d ys hs i j) /\
    (forall v, compulsory d ys hs i v -> compulsory d ys hs j v -> clear_both d xs ws i j)).
  { intros i j Li Lj Z. assert (Z' : (lower_bound d (handle ws i) <= 0 \/ lower_bound d (handle hs i) <= 0) \/ (lower_bound d (handle ws j) <= 0 \/ lower_bound d (handle hs j) <= 0)) by (destruct Z as [Z|Z]; [left|right]; now apply N).
    split; [|split].
    - intros u v (C1 & C2 & C3 & C4). apply (compulsory_sized d _ _ _ _ (length d0)) in C1, C2, C3, C4; auto. lia.
    - intros u C1 C2. apply (compulsory_sized d _ _ _ _ (length d0)) in C1, C2; auto. apply CL; [assumption|lia].
    - intros u C1 C2. apply (compulsory_sized d _ _ _ _ (length d0)) in C1, C2; auto. apply CL; [assumption|lia]. }
  intros i j Li Lj Ne. destruct (in_dec Nat.eq_dec i active) as [Ii|NI]; [|auto]. destruct (in_dec Nat.eq_dec j active) as [Ij|NJ]; [|auto]. clear IA.
  assert (W : (mandatory_meet (mandatory d xs ws i) (mandatory d xs ws j) && mandatory_meet (mandatory d ys hs i) (mandatory d ys hs j) = false) /\
    (mandatory_meet (mandatory d xs ws i) (mandatory d xs ws j) = true -> clear_both d ys hs i j) /\
    (mandatory_meet (mandatory d ys hs i) (mandatory d ys hs j) = true -> clear_both d xs ws i j)).
  { destruct (Nat.lt_ge_cases i j) as [L|L].
    - destruct (X i j (active_pair i j Ii Ij L)) as (A & B & C). split; [assumption|]. split; [now intros M; apply B|now intros M; apply C].
    - destruct (X j i (active_pair j i Ij Ii ltac:(lia))) as (A & B & C). unfold mandatory_meet in *.
      rewrite (Z.max_comm (fst (mandatory d xs ws i))), (Z.min_comm (snd (mandatory d xs ws i))), (Z.max_comm (fst (mandatory d ys hs i))), (Z.min_comm (snd (mandatory d ys hs i))).
      split; [assumption|]. split; [now intros M; apply B|now intros M; apply C]. }
  destruct W as (A & B & C). split; [|split].
  - intros u v (C1 & C2 & C3 & C4). apply andb_false_iff in A. destruct A as [A|A]; apply not_true_iff_false in A; apply A, meet_iff; eauto.
  - intros u C1 C2. apply B, meet_iff. eauto.
  - intros u C1 C2. apply C, meet_iff. eauto.
Qed.
End Posted.

(** ** What the relation means *)
Lemma no_cell_shared xs ys ws hs a : (forall i, (i < length xs)%nat -> 0 <= at_pos a ws i /\ 0 <= at_pos a hs i) ->
  (no_overlap false xs ys ws hs a <-> forall i j u v, (i < length xs)%nat -> (j < length xs)%nat -> has_cell xs ys ws hs a i u v -> has_cell xs ys ws hs a j u v -> i = j).
Proof.
  intro Sz. split.
  - intros N i j u v Li Lj (A & B) (C & D). destruct (Nat.eq_dec i j) as [E|Ne]; [assumption|]. exfalso.
    assert (S : separated xs ys ws hs a i j) by (apply (pair_separated false); auto; intros _; unfold no_area; lia). unfold separated in S. lia.
  - intros H i j L Lj. destruct (Sz i) as [Wi Hi]; [lia|]. destruct (Sz j Lj) as [Wj Hj].
    destruct (Z.eq_dec (at_pos a ws i) 0); [left; unfold no_area; auto|]. destruct (Z.eq_dec (at_pos a hs i) 0); [left; unfold no_area; auto|].
    destruct (Z.eq_dec (at_pos a ws j) 0); [left; unfold no_area; auto|]. destruct (Z.eq_dec (at_pos a hs j) 0); [left; unfold no_area; auto|]. right. unfold separated.
    destruct (Z_le_gt_dec (at_pos a xs i + at_pos a ws i) (at_pos a xs j)); [auto|]. destruct (Z_le_gt_dec (at_pos a xs j + at_pos a ws j) (at_pos a xs i)); [auto|].
    destruct (Z_le_gt_dec (at_pos a ys i + at_pos a hs i) (at_pos a ys j)); [auto|]. destruct (Z_le_gt_dec (at_pos a ys j + at_pos a hs j) (at_pos a ys i)); [auto|]. exfalso.
    assert (i = j); [|lia]. apply (H i j (Z.max (at_pos a xs i) (at_pos a xs j)) (Z.max (at_pos a ys i) (at_pos a ys j))); [lia|lia| |]; unfold has_cell; lia.
Qed.

Lemma no_overlap_ext strict xs ys ws hs a a' : (forall v, In v (xs ++ ys ++ ws ++ hs) -> var_value a v = var_value a' v) -> no_overlap strict xs ys ws hs a -> no_overlap strict xs ys ws hs a'.
Proof.
  intros E N. assert (X : forall vs i, incl vs (xs ++ ys ++ ws ++ hs) -> at_pos a' vs i = at_pos a vs i).
  { intros vs i I. unfold at_pos. destruct (Nat.lt_ge_cases i (length vs)) as [H|H]; [|now rewrite nth_overflow by assumption]. symmetry. apply E, I. now apply nth_In. }
  assert (Ix : incl xs (xs ++ ys ++ ws ++ hs)) by (intros v I; rewrite !in_app_iff; auto). assert (Iy : incl ys (xs ++ ys ++ ws ++ hs)) by (intros v I; rewrite !in_app_iff; auto).
  assert (Iw : incl ws (xs ++ ys ++ ws ++ hs)) by (intros v I; rewrite !in_app_iff; auto). assert (Ih : incl hs (xs ++ ys ++ ws ++ hs)) by (intros v I; rewrite !in_app_iff; auto).
  intros i j L Lj. specialize (N i j L Lj). unfold no_area, separated in *. rewrite !(X xs), !(X ys), !(X ws), !(X hs) by assumption. exact N.
Qed.

Lemma refused_iff strict xs ys ws hs : disjunctive_2d strict xs ys ws hs = None <->
  (length ys <> length xs \/ length ws <> length xs \/ length hs <> length xs \/ exists c, In (VConst c) (ws ++ hs) /\ c < 0).
Proof.
  unfold disjunctive_2d. destruct (Nat.eqb_spec (length xs) (length ys)) as [E1|N1]; cbn [andb negb]; [|split; [intros _; left; congruence|reflexivity]].
  destruct (Nat.eqb_spec (length xs) (length ws)) as [E2|N2]; cbn [andb negb]; [|split; [intros _; right; left; congruence|reflexivity]].
  destruct (Nat.eqb_spec (length xs) (length hs)) as [E3|N3]; cbn [andb negb]; [|split; [intros _; right; right; left; congruence|reflexivity]].
  match goal with |- context [existsb ?f ?l] => destruct (existsb f l) eqn:X end.
  - split; [|reflexivity]. intros _. right; right; right. apply existsb_exists in X. destruct X as (v & Iv & C). destruct v as [n|n neg add|c]; try discriminate. exists c. split; [assumption|]. now apply Z.ltb_lt.
  - split; [discriminate|]. intros [N|[N|[N|(c & I & C)]]]; try congruence. exfalso. apply not_true_iff_false in X. apply X. apply existsb_exists. exists (VConst c). split; [assumption|]. now apply Z.ltb_lt.
Qed.

Lemma rectangles_correct d0 strict xs ys ws hs : domains_ok d0 -> Forall (var_known d0) (xs ++ ys ++ ws ++ hs) ->
  length ys = length xs -> length ws = length xs -> length hs = length xs -> Forall (fun v => 0 <= lower_bound d0 v) (ws ++ hs) ->
  exists k, disjunctive_2d strict xs ys ws hs = Some k /\ correct_on d0 k (xs ++ ys ++ ws ++ hs) (no_overlap strict xs ys ws hs).
Proof.
  intros H0 K Ly Lw Lh Pos. destruct (not_refused d0 strict xs ys ws hs Ly Lw Lh Pos) as (k & E & _). exists k. split; [assumption|].
  pose proof (rectangles_posts d0 strict xs ys ws hs H0 K Ly Lw Lh Pos) as P. rewrite E in P. exact P.
Qed.

(** The same, with the bounds spelled out. *)
Lemma rectangles_apart d0 strict xs ys ws hs k d : domains_ok d0 -> Forall (var_known d0) (xs ++ ys ++ ws ++ hs) -> Forall (fun v => 0 <= lower_bound d0 v) (ws ++ hs) ->
  disjunctive_2d strict xs ys ws hs = Some k -> domains_ok d -> length d = length d0 -> inside d0 d -> Forall (fun p => rerun_is_quiet p d) (fst (k d0)) ->
  forall i j, (i < length xs)%nat -> (j < length xs)%nat -> i <> j ->
  (forall u v, ~ (compulsory d xs ws i u /\ compulsory d xs ws j u /\ compulsory d ys hs i v /\ compulsory d ys hs j v)) /\
  (forall u, compulsory d xs ws i u -> compulsory d xs ws j u -> keeps_clear d ys hs i j (lower_bound d (nth i ys (VConst 0))) /\ keeps_clear d ys hs i j (upper_bound d (nth i ys (VConst 0)))) /\
  (forall v, compulsory d ys hs i v -> compulsory d ys hs j v -> keeps_clear d xs ws i j (lower_bound d (nth i xs (VConst 0))) /\ keeps_clear d xs ws i j (upper_bound d (nth i xs (VConst 0)))).
Proof.
  intros H0 K Pos E Hd Ld Id Q. assert (L : ~ (length ys <> length xs \/ length ws <> length xs \/ length hs <> length xs)).
  { intro N. assert (disjunctive_2d strict xs ys ws hs = None) by (apply refused_iff; tauto). congruence. }
  assert (Ly : length ys = length xs) by lia. assert (Lw : length ws = length xs) by lia. assert (Lh : length hs = length xs) by lia.
  exact (rectangles_quiet d0 strict xs ys ws hs H0 K Ly Lw Lh Pos k d E Hd Ld Id Q).
Qed.
