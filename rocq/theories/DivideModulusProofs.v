(** Lemmas about division and remainder. *)
From Coq Require Import ZArith Zquot List Bool Arith Lia.
From Verif Require Import IntervalSet IntervalSetSpec IntervalSetProofs Vars VarsSpec VarsProofs State StateSpec StateProofs Expressions ExpressionsSpec Epochs
  Engine EngineSpec EngineProofs SessionSpec SessionInvProofs Tracker ContractSpec ContractProofs RunProofs PartsProofs Quiet QuietProofs Settle SettleProofs
  Equals EqualsProofs Reify ReifySpec ReifyProofs Solve ConsistencySpec SolveSpec SolveProofs StatefulSpec StatefulProofs AllDifferentProofs
  Linear LinearSpec LinearProofs LexProofs Tabulation TabulationProofs Passes PassesProofs ProductBounds ProductSpec ProductBoundsProofs Multiply MultiplyProofs
  Stages StagesProofs DivideModulus.
Import ListNotations.
Local Open Scope Z_scope.

(** ** Arithmetic *)

Lemma divided x y : y <> 0 -> let a := Z.abs (Z.quot x y) in let b := Z.abs y in
  1 <= b /\ 0 <= a /\ Z.abs x = a * b + Z.abs (Z.rem x y) /\ Z.abs (Z.rem x y) < b /\
  (0 <= x -> 0 <= Z.rem x y) /\ (x <= 0 -> Z.rem x y <= 0).
Proof.
  intros N a b. pose proof (Z.quot_rem' (Z.abs x) (Z.abs y)) as E. rewrite Z.quot_abs, Z.rem_abs in E by assumption.
  pose proof (Z.rem_bound_abs x y N) as R. repeat split; try lia; intro H; [now apply Z.rem_nonneg|now apply Z.rem_nonpos].
Qed.

Lemma quotient_sign x y : y <> 0 -> (0 <= x -> 0 < y -> 0 <= Z.quot x y) /\ (0 <= x -> y < 0 -> Z.quot x y <= 0) /\ (x <= 0 -> 0 < y -> Z.quot x y <= 0) /\ (x <= 0 -> y < 0 -> 0 <= Z.quot x y).
Proof.
  intro N. repeat split; intros Hx Hy.
  - apply Z.quot_pos; lia.
  - pose proof (Z.quot_opp_r x y N). pose proof (Z.quot_pos x (- y) ltac:(lia) ltac:(lia)). lia.
  - pose proof (Z.quot_opp_l x y N). pose proof (Z.quot_pos (- x) y ltac:(lia) ltac:(lia)). lia.
  - pose proof (Z.quot_opp_opp x y N). pose proof (Z.quot_pos (- x) (- y) ltac:(lia) ltac:(lia)). lia.
Qed.

Lemma quotient_found x y q : y <> 0 -> Z.abs q * Z.abs y <= Z.abs x < Z.abs q * Z.abs y + Z.abs y ->
  (0 < x -> 0 < y -> 0 <= q) -> (0 < x -> y < 0 -> q <= 0) -> (x < 0 -> 0 < y -> q <= 0) -> (x < 0 -> y < 0 -> 0 <= q) -> q = Z.quot x y.
Proof.
  intros N B S1 S2 S3 S4. apply (Zquot_unique_full x y q (x - y * q)); [|lia].
  assert (E : 0 <= x /\ y * q = Z.abs q * Z.abs y \/ x <= 0 /\ y * q = - (Z.abs q * Z.abs y)).
  { destruct (Z.lt_trichotomy x 0) as [H|[H|H]].
    - right. split; [lia|]. destruct (Z.lt_trichotomy y 0) as [K|[K|K]]; [|lia|].
      + specialize (S4 H K). rewrite (Z.abs_neq y), (Z.abs_eq q) by lia. lia.
      + specialize (S3 H K). rewrite (Z.abs_eq y), (Z.abs_neq q) by lia. lia.
    - left. split; [lia|]. assert (q = 0) by nia. subst q. lia.
    - left. split; [lia|]. destruct (Z.lt_trichotomy y 0) as [K|[K|K]]; [|lia|].
      + specialize (S2 H K). rewrite (Z.abs_neq y), (Z.abs_neq q) by lia. lia.
      + specialize (S1 H K). rewrite (Z.abs_eq y), (Z.abs_eq q) by lia. lia. }
  red. destruct E as [[H E]|[H E]]; [left|right]; lia.
Qed.

Lemma remainder_found x y a r : y <> 0 -> 0 <= a -> 
  (0 <= x -> x = a * Z.abs y + r /\ 0 <= r < Z.abs y) -> (x <= 0 -> x = - (a * Z.abs y) + r /\ - Z.abs y < r <= 0) ->
  r = Z.rem x y /\ a = Z.abs (Z.quot x y).
Proof.
  intros N A P M. set (q := (if 0 <=? x then 1 else -1) * Z.sgn y * a).
  assert (E : x = y * q + r /\ (0 <= x /\ 0 <= r < Z.abs y \/ x <= 0 /\ - Z.abs y < r <= 0)).
  { unfold q. destruct (Z.leb_spec 0 x) as [H|H]; (split; [|tauto || (right; split; [lia|apply M; lia]) || (left; split; [lia|apply P; lia])]).
    - destruct (P H) as [E _]. destruct (Z.lt_trichotomy y 0) as [K|[K|K]]; [|lia|].
      + rewrite Z.sgn_neg by lia. rewrite Z.abs_neq in E by lia. lia.
      + rewrite Z.sgn_pos by lia. rewrite Z.abs_eq in E by lia. lia.
    - destruct (M ltac:(lia)) as [E _]. destruct (Z.lt_trichotomy y 0) as [K|[K|K]]; [|lia|].
      + rewrite Z.sgn_neg by lia. rewrite Z.abs_neq in E by lia. lia.
      + rewrite Z.sgn_pos by lia. rewrite Z.abs_eq in E by lia. lia. }
  destruct E as [E R]. assert (Q : q = Z.quot x y) by (apply (Zquot_unique_full x y q r); auto). split.
  - now apply (Zquot_mod_unique_full x y q r).
  - rewrite <- Q. unfold q. rewrite !Z.abs_mul, (Z.abs_eq a) by lia. assert (Z.abs (Z.sgn y) = 1) by (destruct (Z.lt_trichotomy y 0) as [K|[K|K]]; [rewrite Z.sgn_neg by lia|lia|rewrite Z.sgn_pos by lia]; reflexivity).
    destruct (0 <=? x); lia.
Qed.

(** The bits. *)
Lemma bits_above_spec fuel : forall bits m, 0 <= bits -> m < 2 ^ (bits + Z.of_nat fuel) -> m < 2 ^ bits_above fuel bits m /\ bits <= bits_above fuel bits m.
Proof.
  induction fuel as [|k IH]; intros bits m B H; cbn [bits_above].
  - rewrite Z.add_0_r in H. lia.
  - destruct (Z.leb_spec (2 ^ bits) m) as [L|L]; [|lia]. destruct (IH (bits + 1) m ltac:(lia)) as [A C]; [|lia].
    replace (bits + 1 + Z.of_nat k) with (bits + Z.of_nat (S k)) by lia. assumption.
Qed.

Lemma bit_max_spec m : 0 <= m -> m <= bit_max m.
Proof.
  intro H. unfold bit_max. destruct (bits_above_spec (Z.to_nat (Z.log2 m) + 2) 0 m ltac:(lia)) as [A _]; [|lia].
  rewrite Nat2Z.inj_add, Z2Nat.id by apply Z.log2_nonneg. destruct (Z.eq_dec m 0) as [->|N]; [reflexivity|].
  pose proof (Z.log2_spec m ltac:(lia)) as [_ L]. pose proof (Z.log2_nonneg m). 
  assert (2 ^ Z.succ (Z.log2 m) <= 2 ^ (0 + (Z.log2 m + Z.of_nat 2))) by (apply Z.pow_le_mono_r; lia). lia.
Qed.

(** ** The relation *)

Definition division_rel (divide : bool) (x y out : var_id) (a : assignment) : Prop :=
  var_value a y <> 0 /\ var_value a out = (if divide then Z.quot else Z.rem) (var_value a x) (var_value a y).

(** The same with the values that the constraint's own variables must have. *)
Definition division_sol (divide : bool) (x y out : var_id) (n : nat) (a : assignment) : Prop :=
  division_rel divide x y out a /\ a (quotient_magnitude divide n) = Z.abs (Z.quot (var_value a x) (var_value a y)) /\
  a (divisor_magnitude divide n) = Z.abs (var_value a y) /\ (divide = true -> a n = 0).

(** What is used of it. *)
Record division_facts (divide : bool) (A B X Y O : Z) : Prop :=
  { df_divisor : B = Z.abs Y; df_positive : 1 <= B; df_quotient : 0 <= A;
    df_above : 0 <= X -> A * B <= X < A * B + B;
    df_below : X <= 0 -> A * B <= - X < A * B + B;
    df_magnitude : divide = true -> A = Z.abs O;
    df_sign : divide = true -> (0 <= X -> 0 < Y -> 0 <= O) /\ (0 <= X -> Y < 0 -> O <= 0) /\ (X <= 0 -> 0 < Y -> O <= 0) /\ (X <= 0 -> Y < 0 -> 0 <= O);
    df_remainder : divide = false -> (0 <= X -> X = A * B + O /\ 0 <= O < B) /\ (X <= 0 -> X = - (A * B) + O /\ - B < O <= 0) }.

Lemma sol_facts divide x y out n a : division_sol divide x y out n a ->
  division_facts divide (a (quotient_magnitude divide n)) (a (divisor_magnitude divide n)) (var_value a x) (var_value a y) (var_value a out).
Proof.
  intros ((N & Eo) & -> & -> & _). destruct (divided (var_value a x) (var_value a y) N) as (D1 & D2 & D3 & D4 & D5 & D6). pose proof (quotient_sign (var_value a x) (var_value a y) N) as S.
  set (A := Z.abs (Z.quot (var_value a x) (var_value a y))) in *. set (B := Z.abs (var_value a y)) in *.
  constructor; try assumption; try reflexivity.
  - intro H. specialize (D5 H). lia.
  - intro H. specialize (D6 H). lia.
  - intros ->. unfold A. now rewrite Eo.
  - intros ->. rewrite Eo. assumption.
  - intros ->. rewrite Eo. split; intro H; [specialize (D5 H)|specialize (D6 H)]; lia.
Qed.

(** ** What is said *)

Section Says.
Variable nv : nat.

Lemma bound_says v (lower : bool) b (P : assignment -> Prop) rest : var_below nv v -> (forall a, P a -> if lower then b <= var_value a v else var_value a v <= b) ->
  says nv P rest -> says nv P (infer_bound v lower b rest).
Proof.
  intros Bv H R. unfold infer_bound. cbn [says]. intros d Hd L.
  assert (R' : says nv (fun a => P a /\ within a d) rest) by (apply (says_weaken nv rest P); [tauto|assumption]).
  match goal with |- context [if ?b then rest else _] => destruct b end; [exact R'|]. cbn [says]. split; [destruct lower; exact Bv|]. split; [|exact R'].
  intros a [Pa _]. specialize (H a Pa). destruct lower; [apply lit_ge|apply lit_lt]; lia.
Qed.

Lemma filter_one_says t o t_lo t_hi o_lo o_hi w_lo w_hi (P : assignment -> Prop) rest : var_below nv t ->
  (forall a, P a -> o_lo <= var_value a o <= o_hi /\ w_lo <= var_value a t * var_value a o <= w_hi) -> says nv P rest -> says nv P (filter_one t t_lo t_hi o_lo o_hi w_lo w_hi rest).
Proof.
  intros Bt H R. unfold filter_one.
  assert (Q : forall a, P a -> match quotient_filter o_lo o_hi w_lo w_hi with NoFilter => True | EmptyBecauseYZero => False | Bounds lo hi => lo <= var_value a t <= hi end).
  { intros a Pa. destruct (H a Pa). now apply (quotient_filter_spec _ _ _ _ _ (var_value a o)). }
  destruct (quotient_filter o_lo o_hi w_lo w_hi) as [| |lo hi].
  - exact R.
  - cbn [says]. split; [exact Logic.I|]. split; [|exact R]. intros a Pa. destruct (Q a Pa).
  - apply says_when; [|apply says_when; [|exact R]]; intros _; split; try exact Bt; intros a Pa; specialize (Q a Pa); [apply lit_lt|apply lit_ge]; lia.
Qed.

Lemma push_says b y (P : assignment -> Prop) rest : var_below nv b -> var_below nv y -> (forall a, P a -> var_value a b = Z.abs (var_value a y)) -> says nv P rest -> says nv P (push_through_hole b y rest).
Proof.
  intros Bb By H R. unfold push_through_hole. cbn [says]. intros d Hd L. rewrite bounds_spec.
  assert (R' : says nv (fun a => P a /\ within a d) rest) by (apply (says_weaken nv rest P); [tauto|assumption]).
  assert (Q : forall a, P a /\ within a d -> lower_bound d b <= Z.abs (var_value a y) /\ lower_bound d y <= var_value a y <= upper_bound d y).
  { intros a [Pa Wa]. rewrite <- (H a Pa). split; apply value_bounds; auto; now apply (known_here nv). }
  destruct (Z.ltb_spec (upper_bound d y) (lower_bound d b)) as [A|A], (Z.ltb_spec (- lower_bound d b) (upper_bound d y + 1)) as [B|B]; cbn [andb].
  { cbn [says]. split; [exact By|]. split; [|exact R']. intros a Pa. specialize (Q a Pa). apply lit_lt. lia. }
  all: destruct (Z.ltb_spec (- lower_bound d y) (lower_bound d b)) as [C|C], (Z.ltb_spec (lower_bound d y) (lower_bound d b)) as [D|D]; cbn [andb]; try exact R'.
  all: cbn [says]; split; [exact By|]; split; [|exact R']; intros a Pa; specialize (Q a Pa); apply lit_ge; lia.
Qed.

Section Division.
Variable divide : bool.
Variable x y out : var_id.
Variable mag_a mag_b : var_id.
Hypothesis Bx : var_below nv x.
Hypothesis By : var_below nv y.
Hypothesis Bo : var_below nv out.
Hypothesis Ba : var_below nv mag_a.
Hypothesis Bb : var_below nv mag_b.

Definition facts_at (a : assignment) : Prop := division_facts divide (var_value a mag_a) (var_value a mag_b) (var_value a x) (var_value a y) (var_value a out).

Lemma product_says (P : assignment -> Prop) rest : (forall a, P a -> facts_at a) -> says nv P rest -> says nv P (default_product mag_a mag_b x y (if divide then None else Some out) rest).
Proof.
  intros H R. unfold default_product. cbn [says]. intros d Hd L. unfold facts_at in H. rewrite !bounds_spec.
  set (P' := fun a => P a /\ within a d).
  assert (R' : says nv P' rest) by (apply (says_weaken nv rest P); [unfold P'; tauto|assumption]).
  assert (V : forall v a, var_below nv v -> P' a -> lower_bound d v <= var_value a v <= upper_bound d v) by (intros v a Bv [_ Wa]; apply value_bounds; auto; now apply (known_here nv)).
  assert (PB : forall a, P' a -> fst (product_bounds (lower_bound d mag_a) (upper_bound d mag_a) (lower_bound d mag_b) (upper_bound d mag_b)) <= var_value a mag_a * var_value a mag_b
     <= snd (product_bounds (lower_bound d mag_a) (upper_bound d mag_a) (lower_bound d mag_b) (upper_bound d mag_b))) by (intros a Pa; apply product_bounds_spec; apply V; auto).
  destruct (product_bounds (lower_bound d mag_a) (upper_bound d mag_a) (lower_bound d mag_b) (upper_bound d mag_b)) as [pw_lo pw_hi]. cbn [fst snd] in PB.
  set (rb := option_map (bounds d) (if divide then None else Some out)).
  assert (RW : forall a, P' a -> fst (row_interval rb (lower_bound d x) (upper_bound d x) (upper_bound d mag_b)) <= var_value a mag_a * var_value a mag_b
     <= snd (row_interval rb (lower_bound d x) (upper_bound d x) (upper_bound d mag_b))).
  { intros a Pa. pose proof (V x a Bx Pa). pose proof (V mag_b a Bb Pa). pose proof (V out a Bo Pa). destruct (H a (proj1 Pa)) as [F1 F2 F3 F4 F5 F6 F7 F8].
    unfold rb, row_interval. generalize dependent (var_value a mag_a * var_value a mag_b). intro W. clear F6 F7. intros G1 G2 G3.
    destruct divide; cbn [option_map]; rewrite ?bounds_spec; [clear G3|specialize (G3 eq_refl)];
    destruct (Z.leb_spec 0 (lower_bound d x)), (Z.ltb_spec (upper_bound d x) 1); cbn [fst snd]; lia. }
  destruct (row_interval rb (lower_bound d x) (upper_bound d x) (upper_bound d mag_b)) as [row_lo row_hi] eqn:Er. cbn [fst snd] in RW.
  assert (NN : forall a, P' a -> 0 <= var_value a mag_a * var_value a mag_b) by (intros a Pa; destruct (H a (proj1 Pa)) as [F1 F2 F3 _ _ _ _ _]; nia).
  set (w_lo := Z.max (Z.max pw_lo 0) row_lo). set (w_hi := Z.min pw_hi row_hi).
  assert (WI : forall a, P' a -> w_lo <= var_value a mag_a * var_value a mag_b <= w_hi) by (intros a Pa; pose proof (PB a Pa); pose proof (RW a Pa); pose proof (NN a Pa); unfold w_lo, w_hi; lia).
  apply says_when. { intro E. split; [exact Logic.I|]. intros a Pa. specialize (WI a Pa). lia. }
  set (filters := filter_one _ _ _ _ _ _ _ _).
  assert (FS : says nv P' filters).
  { apply (filter_one_says _ mag_b); [exact Ba| |apply (filter_one_says _ mag_a); [exact Bb| |]].
    - intros a Pa. auto.
    - intros a Pa. rewrite Z.mul_comm. auto.
    - apply push_says; auto. intros a Pa. apply (H a (proj1 Pa)). }
  clearbody filters w_lo w_hi. unfold rb in *. clear rb.
  assert (FA : forall a, P' a -> exists W, pw_lo <= W <= pw_hi /\ w_lo <= W <= w_hi /\ 0 <= W /\ 
     lower_bound d x <= var_value a x <= upper_bound d x /\ lower_bound d mag_b <= var_value a mag_b <= upper_bound d mag_b /\ lower_bound d out <= var_value a out <= upper_bound d out /\
     1 <= var_value a mag_b /\ (0 <= var_value a x -> W <= var_value a x < W + var_value a mag_b) /\ (var_value a x <= 0 -> W <= - var_value a x < W + var_value a mag_b) /\
     (divide = false -> (0 <= var_value a x -> var_value a x = W + var_value a out) /\ (var_value a x <= 0 -> var_value a x = - W + var_value a out))).
  { intros a Pa. exists (var_value a mag_a * var_value a mag_b). destruct (H a (proj1 Pa)) as [F1 F2 F3 F4 F5 F6 F7 F8].
    repeat (split; [solve [auto]|]). intro E. destruct (F8 E) as [G1 G2]. split; intro S; [apply (G1 S)|apply (G2 S)]. }
  clear PB RW NN WI Er.
  destruct divide; cbn [option_map]; rewrite ?bounds_spec.
  - unfold divide_rows.
    destruct (Z.leb_spec 0 (lower_bound d x)) as [S1|S1]; [|destruct (Z.ltb_spec (upper_bound d x) 1) as [S2|S2]].
    + repeat (apply bound_says; [assumption|intros a Pa; destruct (FA a Pa) as (W & FW); lia|]). exact FS.
    + repeat (apply bound_says; [assumption|intros a Pa; destruct (FA a Pa) as (W & FW); lia|]). exact FS.
    + assert (T : says nv P' (infer_bound x false (pw_hi + upper_bound d mag_b - 1) (infer_bound x true (- (pw_hi + upper_bound d mag_b - 1)) filters))).
      { repeat (apply bound_says; [assumption|intros a Pa; destruct (FA a Pa) as (W & FW); lia|]). exact FS. }
      destruct (Z.ltb_spec (- lower_bound d x) pw_lo) as [C1|C1], (Z.ltb_spec (upper_bound d x) pw_lo) as [C2|C2]; try exact T;
        repeat (apply bound_says; [assumption|intros a Pa; destruct (FA a Pa) as (W & FW); lia|]); exact FS.
  - unfold modulus_rows.
    assert (FA' : forall a, P' a -> exists W, pw_lo <= W <= pw_hi /\ w_lo <= W <= w_hi /\ 0 <= W /\ 
     lower_bound d x <= var_value a x <= upper_bound d x /\ lower_bound d out <= var_value a out <= upper_bound d out /\
     (0 <= var_value a x -> var_value a x = W + var_value a out) /\ (var_value a x <= 0 -> var_value a x = - W + var_value a out)).
    { intros a Pa. destruct (FA a Pa) as (W & G1 & G2 & G3 & G4 & G5 & G6 & G7 & G8 & G9 & G10). destruct (G10 eq_refl). exists W. auto 10. }
    destruct (Z.leb_spec 0 (lower_bound d x)) as [S1|S1]; [|destruct (Z.ltb_spec (upper_bound d x) 1) as [S2|S2]].
    + repeat (apply bound_says; [assumption|intros a Pa; destruct (FA' a Pa) as (W & FW); lia|]). exact FS.
    + repeat (apply bound_says; [assumption|intros a Pa; destruct (FA' a Pa) as (W & FW); lia|]). exact FS.
    + repeat match goal with |- says _ _ (if ?b then _ else _) => destruct b eqn:?E
        | |- says _ _ (infer_bound _ _ _ _) => apply bound_says; [assumption|intros a Pa; destruct (FA' a Pa) as (W & FW); lia|] end; exact FS.
Qed.

Lemma pin_says (P : assignment -> Prop) rest : divide = true -> (forall a, P a -> facts_at a) -> says nv P rest -> says nv P (pin_sign x y out rest).
Proof.
  intros E H R. unfold pin_sign. unfold facts_at in H. cbn [says]. intros d Hd L.
  assert (R' : says nv (fun a => P a /\ within a d) rest) by (apply (says_weaken nv rest P); [tauto|assumption]).
  assert (Q : forall a, P a /\ within a d -> (lower_bound d x <= var_value a x <= upper_bound d x) /\ (lower_bound d y <= var_value a y <= upper_bound d y) /\
    (0 <= var_value a x -> 0 < var_value a y -> 0 <= var_value a out) /\ (0 <= var_value a x -> var_value a y < 0 -> var_value a out <= 0) /\
    (var_value a x <= 0 -> 0 < var_value a y -> var_value a out <= 0) /\ (var_value a x <= 0 -> var_value a y < 0 -> 0 <= var_value a out)).
  { intros a [Pa Wa]. split; [apply value_bounds; auto; now apply (known_here nv)|]. split; [apply value_bounds; auto; now apply (known_here nv)|]. now apply (df_sign _ _ _ _ _ _ (H a Pa)). }
  destruct (Z.leb_spec 1 (lower_bound d x)); [|destruct (Z.ltb_spec (upper_bound d x) 0); [|exact R']].
  all: repeat match goal with |- says _ _ (if ?b then _ else _) => destruct b eqn:?; [|] end; try exact R'.
  all: cbn [says]; split; [exact Bo|]; split; [|exact R']; intros a Pa; specialize (Q a Pa); (apply lit_ge || apply lit_lt); lia.
Qed.
End Division.
End Says.

(** ** Magnitudes *)

Lemma run_stages_app xs ys rest : run_stages (xs ++ ys) rest = run_stages xs (run_stages ys rest).
Proof. apply fold_right_app. Qed.

Lemma two_terms c1 c2 v1 v2 a : weighted_sum [(c1, v1); (c2, v2)] a = c1 * var_value a v1 + c2 * var_value a v2.
Proof. unfold weighted_sum. cbn [map fold_right fst snd sum_worth]. unfold term_worth. cbn [fst snd]. ring. Qed.

Lemma one_term c1 v1 a : weighted_sum [(c1, v1)] a = c1 * var_value a v1.
Proof. unfold weighted_sum. cbn [map fold_right fst snd sum_worth]. unfold term_worth. cbn [fst snd]. ring. Qed.

Definition half_stages (m : var_id) (sign : Z) (v : var_id) (gate : option cond) : list stage :=
  [le_stage [(1, m); (- sign, v)] 0 gate; le_stage [(-1, m); (sign, v)] 0 gate].

Lemma magnitude_halves mag v t : magnitude_stages mag v t =
  match v with
  | VConst k => (if t <=? k then half_stages (VSimple mag) 1 v None else []) ++ (if k <? 0 then half_stages (VSimple mag) (-1) v None else [])
  | _ => half_stages (VSimple mag) 1 v (Some (cond_ge v t)) ++ half_stages (VSimple mag) (-1) v (Some (cond_lt v 0))
  end.
Proof. destruct v; reflexivity. Qed.

Section Magnitude.
Variable nv : nat.
Variable mag : nat.
Variable v : var_id.
Hypothesis Bm : (mag < nv)%nat.
Hypothesis Bv : var_below nv v.

Lemma half_says sign gate (P : assignment -> Prop) rest : gate_fine nv gate -> (forall a, P a -> open a gate -> a mag = sign * var_value a v) -> says nv P rest ->
  says nv P (run_stages (half_stages (VSimple mag) sign v gate) rest).
Proof.
  intros G H R. unfold half_stages, run_stages. cbn [fold_right]. assert (B : Forall (var_below nv) [VSimple mag; v]) by (constructor; [exact Bm|constructor; [assumption|constructor]]).
  apply stage_says; [exact B|assumption| |apply stage_says; [exact B|assumption| |assumption]]; intros a Pa O; rewrite two_terms; specialize (H a Pa O); cbn [var_value]; nia.
Qed.

Lemma half_still sign gate rest d : gate_fine nv gate -> domains_ok d -> length d = nv -> still (run_stages (half_stages (VSimple mag) sign v gate) rest) d ->
  still rest d /\ (fixed d v -> (forall a, within a d -> open a gate) -> forall a, within a d -> a mag = sign * var_value a v).
Proof.
  intros G Hd L S. unfold half_stages, run_stages in S. cbn [fold_right] in S. assert (B : Forall (var_below nv) [VSimple mag; v]) by (constructor; [exact Bm|constructor; [assumption|constructor]]).
  apply (stage_still nv) in S; auto. destruct S as [S A]. apply (stage_still nv) in S; auto. destruct S as [S C]. split; [assumption|]. intros F O a Wa.
  assert (Fv : forall w, In w [VSimple mag; v] -> w = VSimple mag \/ fixed d w) by (intros w [<-|[<-|[]]]; auto).
  specialize (A O mag a Fv Wa). specialize (C O mag a Fv Wa). rewrite two_terms in A, C. cbn [var_value] in A, C. lia.
Qed.

End Magnitude.

Lemma magnitude_says nv mag v t (P : assignment -> Prop) rest : (mag < nv)%nat -> var_below nv v -> 0 <= t -> (forall a, P a -> a mag = Z.abs (var_value a v)) -> says nv P rest ->
  says nv P (run_stages (magnitude_stages mag v t) rest).
Proof.
  intros Bm Bv Ht H R. rewrite magnitude_halves.
  assert (Gen : says nv P (run_stages (half_stages (VSimple mag) 1 v (Some (cond_ge v t)) ++ half_stages (VSimple mag) (-1) v (Some (cond_lt v 0))) rest)).
  { rewrite run_stages_app. apply half_says; auto; [split; [exact Bv|eauto]| |apply half_says; auto; [split; [exact Bv|eauto]|]]; intros a Pa O; specialize (H a Pa); simpl in O; unfold cond_holds in O; cbn in O; lia. }
  destruct v as [k|k neg add|k]; [exact Gen|exact Gen|]. clear Gen.
  destruct (Z.leb_spec t k) as [C|C], (Z.ltb_spec k 0) as [D|D]; rewrite ?run_stages_app; try lia.
  - change (run_stages [] rest) with rest. apply half_says; auto; try exact Logic.I. intros a Pa _. specialize (H a Pa). cbn [var_value] in *. lia.
  - change (run_stages [] (run_stages (half_stages (VSimple mag) (-1) (VConst k) None) rest)) with (run_stages (half_stages (VSimple mag) (-1) (VConst k) None) rest). apply half_says; auto; try exact Logic.I. intros a Pa _. specialize (H a Pa). cbn [var_value] in *. lia.
  - exact R.
Qed.

Lemma fixed_same nv d v : domains_ok d -> length d = nv -> var_below nv v -> fixed d v -> forall a b, within a d -> within b d -> var_value a v = var_value b v.
Proof.
  intros Hd L Bv F a b Wa Wb. destruct (fixed_bounds d v a Hd) as [A _]; auto; [now apply (known_here nv)|]. destruct (fixed_bounds d v b Hd) as [B _]; auto; [now apply (known_here nv)|]. congruence.
Qed.

Lemma magnitude_still nv mag v t rest d : (mag < nv)%nat -> var_below nv v -> 0 <= t -> domains_ok d -> length d = nv -> still (run_stages (magnitude_stages mag v t) rest) d ->
  still rest d /\ (fixed d v -> (forall a, within a d -> t <= var_value a v \/ var_value a v < 0) -> forall a, within a d -> a mag = Z.abs (var_value a v)).
Proof.
  intros Bm Bv Ht Hd L S. rewrite magnitude_halves in S.
  assert (Gen : still (run_stages (half_stages (VSimple mag) 1 v (Some (cond_ge v t)) ++ half_stages (VSimple mag) (-1) v (Some (cond_lt v 0))) rest) d ->
    still rest d /\ (fixed d v -> (forall a, within a d -> t <= var_value a v \/ var_value a v < 0) -> forall a, within a d -> a mag = Z.abs (var_value a v))).
  { clear S. intro S. rewrite run_stages_app in S. apply (half_still nv mag v Bm Bv) in S; auto; [|split; [exact Bv|eauto]]. destruct S as [S A]. apply (half_still nv mag v Bm Bv) in S; auto; [|split; [exact Bv|eauto]]. destruct S as [S B].
    split; [assumption|]. intros F Cs a Wa. destruct (Cs a Wa) as [C|C].
    - rewrite A; auto; [lia|]. intros b Wb. rewrite (fixed_same nv d v Hd L Bv F a b Wa Wb) in C. unfold open, cond_holds. cbn. lia.
    - rewrite B; auto; [lia|]. intros b Wb. rewrite (fixed_same nv d v Hd L Bv F a b Wa Wb) in C. unfold open, cond_holds. cbn. lia. }
  destruct v as [k|k neg add|k]; [exact (Gen S)|exact (Gen S)|]. clear Gen. rewrite run_stages_app in S.
  destruct (Z.leb_spec t k) as [C|C], (Z.ltb_spec k 0) as [D|D]; try lia.
  - apply (half_still nv mag (VConst k) Bm Bv) in S; auto; try exact Logic.I. destruct S as [S A]. split; [assumption|]. intros F _ a Wa. rewrite A; auto. cbn [var_value]. lia.
  - change (still (run_stages (half_stages (VSimple mag) (-1) (VConst k) None) rest) d) in S. apply (half_still nv mag (VConst k) Bm Bv) in S; auto; try exact Logic.I. destruct S as [S A]. split; [assumption|]. intros F _ a Wa. rewrite A; auto. cbn [var_value]. lia.
  - split; [exact S|]. intros F Cs a Wa. specialize (Cs a Wa). cbn [var_value] in Cs. lia.
Qed.

(** ** A whole pass *)

Section Pass.
Variable nv : nat.
Variable divide : bool.
Variable x y out : var_id.
Variable n : nat.
Hypothesis Bx : var_below nv x.
Hypothesis By : var_below nv y.
Hypothesis Bo : var_below nv out.
Hypothesis Bn : (divisor_magnitude divide n < nv)%nat.

Lemma quotient_below : (quotient_magnitude divide n < nv)%nat.
Proof. exact (Nat.lt_trans _ _ _ (Nat.lt_succ_diag_r (quotient_magnitude divide n)) Bn). Qed.

Lemma stages_says (P : assignment -> Prop) rest :
  (forall a, P a -> facts_at divide x y out (VSimple (quotient_magnitude divide n)) (VSimple (divisor_magnitude divide n)) a) ->
  says nv P rest -> says nv P (run_stages (division_stages divide x y out n) rest).
Proof.
  intros H R. unfold facts_at in H. cbn [var_value] in H. pose proof quotient_below as Ba. unfold division_stages. cbv zeta.
  assert (My : says nv P (run_stages (magnitude_stages (divisor_magnitude divide n) y 1) rest)).
  { apply magnitude_says; auto; [lia|]. intros a Pa. apply (df_divisor _ _ _ _ _ _ (H a Pa)). }
  destruct divide; rewrite run_stages_app.
  - apply magnitude_says; auto; [lia|]. intros a Pa. now apply (df_magnitude _ _ _ _ _ _ (H a Pa)).
  - unfold run_stages at 1. cbn [fold_right]. set (b := divisor_magnitude false n) in *.
    assert (Q : forall a, P a -> - a b < var_value a out < a b /\ (0 <= var_value a x -> 0 <= var_value a out) /\ (var_value a x <= 0 -> var_value a out <= 0)).
    { intros a Pa. destruct (df_remainder _ _ _ _ _ _ (H a Pa) eq_refl) as [G1 G2]. destruct (Z.le_gt_cases 0 (var_value a x)) as [S|S].
      - destruct (G1 S). split; [lia|]. split; [lia|]. intro S2. destruct (G2 S2). lia.
      - destruct (G2 ltac:(lia)). lia. }
    assert (Bl : Forall (var_below nv) [out; VSimple b]) by (constructor; [assumption|constructor; [exact Bn|constructor]]).
    assert (Bl' : Forall (var_below nv) [out]) by (constructor; [assumption|constructor]).
    apply stage_says; [exact Bl|exact Logic.I| |]. { intros a Pa _. rewrite two_terms. specialize (Q a Pa). cbn [var_value]. lia. }
    apply stage_says; [exact Bl|exact Logic.I| |]. { intros a Pa _. rewrite two_terms. specialize (Q a Pa). cbn [var_value]. lia. }
    apply stage_says; [exact Bl'|split; [exact Bx|eauto]| |]. { intros a Pa O. rewrite one_term. specialize (Q a Pa). unfold open, cond_holds in O; cbn in O. lia. }
    apply stage_says; [exact Bl'|split; [exact Bx|eauto]| |exact My]. intros a Pa O. rewrite one_term. specialize (Q a Pa). unfold open, cond_holds in O; cbn in O. lia.
Qed.

Lemma pass_says : says nv (division_sol divide x y out n) (division_pass divide x y out n).
Proof.
  unfold division_pass. cbn [says]. intros d Hd L. set (P := fun a => division_sol divide x y out n a /\ within a d).
  assert (H : forall a, P a -> facts_at divide x y out (VSimple (quotient_magnitude divide n)) (VSimple (divisor_magnitude divide n)) a) by (intros a [Sa _]; now apply sol_facts).
  apply says_when. { intros _. split; [exact By|]. intros a [((N & _) & _) _]. unfold lit_holds, cond_holds; cbn. exact N. }
  set (main := run_stages _ _). assert (M : says nv P main).
  { apply stages_says; [assumption|]. apply product_says; auto; [exact quotient_below|exact Logic.I]. }
  destruct divide eqn:E; [|exact M]. apply (pin_says nv true x y out (VSimple (quotient_magnitude true n)) (VSimple (divisor_magnitude true n))); auto.
Qed.

End Pass.

(** ** What is left *)

Section Still.
Variable nv : nat.
Variable x y out : var_id.
Hypothesis Bx : var_below nv x.
Hypothesis By : var_below nv y.
Hypothesis Bo : var_below nv out.

Lemma bound_still v (lower : bool) b rest d : domains_ok d -> length d = nv -> var_below nv v -> still (infer_bound v lower b rest) d ->
  still rest d /\ if lower then b <= lower_bound d v else upper_bound d v <= b.
Proof.
  intros Hd L Bv S. assert (S' : still (if (if lower then b <=? lower_bound d v else upper_bound d v <=? b) then rest
    else Infer (LCond (if lower then cond_ge v b else cond_lt v (b + 1))) rest) d) by exact S. clear S. rename S' into S. pose proof (known_here nv d v L Bv) as K.
  destruct lower.
  - destruct (Z.leb_spec b (lower_bound d v)) as [N|N]; [auto|]. exfalso. destruct (lower_at d v Hd K) as (a & Wa & Va). specialize (S a Wa). inversion S as [|? ? F]. apply (proj1 (lit_ge _ _ _)) in F. lia.
  - destruct (Z.leb_spec (upper_bound d v) b) as [N|N]; [auto|]. exfalso. destruct (upper_at d v Hd K) as (a & Wa & Va). specialize (S a Wa). inversion S as [|? ? F]. apply (proj1 (lit_lt _ _ _)) in F. lia.
Qed.

Lemma divide_still a b rest d X A B : domains_ok d -> length d = nv -> lower_bound d x = X -> upper_bound d x = X ->
  lower_bound d a = A -> upper_bound d a = A -> lower_bound d b = B -> upper_bound d b = B ->
  still (default_product a b x y None rest) d -> (0 <= X -> A * B <= X) /\ (X <= 0 -> X <= - (A * B)) /\ - (A * B + B - 1) <= X <= A * B + B - 1.
Proof.
  intros Hd L <- Ex <- Ea <- Eb S. assert (S' : still (
    let '(a_lo, a_hi) := bounds d a in
    let '(b_lo, b_hi) := bounds d b in
    let '(x_lo, x_hi) := bounds d x in
    let '(pw_lo, pw_hi) := product_bounds a_lo a_hi b_lo b_hi in
    let '(row_lo, row_hi) := row_interval None x_lo x_hi b_hi in
    let w_lo := Z.max (Z.max pw_lo 0) row_lo in
    let w_hi := Z.min pw_hi row_hi in
    infer_when (w_hi <? w_lo) LFalse (divide_rows b x x_lo x_hi b_hi pw_lo pw_hi w_hi
      (filter_one a a_lo a_hi b_lo b_hi w_lo w_hi (filter_one b b_lo b_hi a_lo a_hi w_lo w_hi (push_through_hole b y rest))))) d) by exact S. clear S. rename S' into S.
  rewrite !bounds_spec, Ex, Ea, Eb in S. unfold product_bounds in S. set (X := lower_bound d x) in *. set (A := lower_bound d a) in *. set (B := lower_bound d b) in *.
  destruct (row_interval None X X B) as [row_lo row_hi]. cbv zeta in S. replace (Z.min (Z.min (Z.min (A * B) (A * B)) (A * B)) (A * B)) with (A * B) in S by lia. replace (Z.max (Z.max (Z.max (A * B) (A * B)) (A * B)) (A * B)) with (A * B) in S by lia.
  apply still_when in S. destruct S as [_ S]. unfold divide_rows in S.
  destruct (Z.leb_spec 0 X) as [S1|S1]; [|destruct (Z.ltb_spec X 1) as [S2|S2]; [|lia]].
  - apply bound_still in S; auto. destruct S as [S Q1]. apply bound_still in S; auto. destruct S as [S Q2]. apply bound_still in S; auto. destruct S as [_ Q3]. fold X in Q1, Q2, Q3. rewrite Ex in *. lia.
  - apply bound_still in S; auto. destruct S as [S Q1]. apply bound_still in S; auto. destruct S as [S Q2]. apply bound_still in S; auto. destruct S as [_ Q3]. fold X in Q1, Q2, Q3. rewrite Ex in *. lia.
Qed.

Lemma filter_same b w lo hi : 1 <= b -> quotient_filter b b w w = Bounds lo hi -> hi * b <= w.
Proof.
  intros Hb. unfold quotient_filter. destruct ((w <=? 0) && (0 <=? w) && (b <=? 0) && (0 <=? b)); [discriminate|].
  destruct (Z.eqb_spec b 0); [lia|]. cbn [andb]. destruct (Z.ltb_spec b 0); [lia|]. cbn [andb]. intros [= _ <-].
  apply (floor_ge w b); lia.
Qed.

Lemma filter_kind b w : 1 <= b -> exists lo hi, quotient_filter b b w w = Bounds lo hi.
Proof.
  intros Hb. unfold quotient_filter. destruct (Z.leb_spec b 0); [lia|]. rewrite !andb_false_r. cbn [andb].
  destruct (Z.eqb_spec b 0); [lia|]. cbn [andb]. destruct (Z.ltb_spec b 0); [lia|]. cbn [andb]. eauto.
Qed.

Lemma modulus_still a b rest d X O B : domains_ok d -> length d = nv -> var_below nv a -> lower_bound d x = X -> upper_bound d x = X ->
  lower_bound d out = O -> upper_bound d out = O -> lower_bound d b = B -> upper_bound d b = B -> 1 <= B -> (X = 0 -> O = 0) ->
  still (default_product a b x y (Some out) rest) d -> exists A, 0 <= A /\ (0 <= X -> X = A * B + O) /\ (X <= 0 -> X = - (A * B) + O).
Proof.
  intros Hd L Ba <- Ex <- Eo <- Eb PB Z0 S. assert (S' : still (
    let '(a_lo, a_hi) := bounds d a in
    let '(b_lo, b_hi) := bounds d b in
    let '(x_lo, x_hi) := bounds d x in
    let '(r_lo, r_hi) := bounds d out in
    let '(pw_lo, pw_hi) := product_bounds a_lo a_hi b_lo b_hi in
    let '(row_lo, row_hi) := row_interval (Some (r_lo, r_hi)) x_lo x_hi b_hi in
    let w_lo := Z.max (Z.max pw_lo 0) row_lo in
    let w_hi := Z.min pw_hi row_hi in
    infer_when (w_hi <? w_lo) LFalse (modulus_rows x out x_lo x_hi r_lo r_hi pw_lo pw_hi w_lo w_hi
      (filter_one a a_lo a_hi b_lo b_hi w_lo w_hi (filter_one b b_lo b_hi a_lo a_hi w_lo w_hi (push_through_hole b y rest))))) d).
  { unfold default_product in S. intros v Wv. specialize (S v Wv). cbn [inferred option_map] in S. rewrite !bounds_spec in *. exact S. }
  clear S. rename S' into S. pose proof (lower_le_upper d a Hd (known_here nv d a L Ba)) as Lu.
  rewrite !bounds_spec, Ex, Eo, Eb in S. set (X := lower_bound d x) in *. set (O := lower_bound d out) in *. set (B := lower_bound d b) in *.
  unfold product_bounds in S.
  assert (E1 : Z.min (Z.min (Z.min (lower_bound d a * B) (lower_bound d a * B)) (upper_bound d a * B)) (upper_bound d a * B) = lower_bound d a * B) by (assert (lower_bound d a * B <= upper_bound d a * B) by nia; lia).
  assert (E2 : Z.max (Z.max (Z.max (lower_bound d a * B) (lower_bound d a * B)) (upper_bound d a * B)) (upper_bound d a * B) = upper_bound d a * B) by (assert (lower_bound d a * B <= upper_bound d a * B) by nia; lia).
  cbv zeta in S. rewrite E1, E2 in S. clear E1 E2.
  set (W := if 0 <=? X then X - O else O - X).
  assert (Er : row_interval (Some (O, O)) X X B = (W, W)) by (unfold row_interval, W; destruct (Z.leb_spec 0 X); [reflexivity|]; destruct (Z.ltb_spec X 1); [reflexivity|lia]).
  rewrite Er in S. apply still_when in S. destruct S as [Nf S].
  assert (Nf' : Z.max (Z.max (lower_bound d a * B) 0) W <= Z.min (upper_bound d a * B) W).
  { destruct (Z.ltb_spec (Z.min (upper_bound d a * B) W) (Z.max (Z.max (lower_bound d a * B) 0) W)) as [N|N]; [|assumption]. destruct (within_exists d Hd) as [v Wv]. destruct (Nf eq_refl v Wv). }
  clear Nf Er. assert (W0 : 0 <= W) by lia. assert (W1 : W <= upper_bound d a * B) by lia. replace (Z.max (Z.max (lower_bound d a * B) 0) W) with W in * by lia. replace (Z.min (upper_bound d a * B) W) with W in * by lia.
  set (filters := filter_one a _ _ _ _ _ _ _) in S. assert (SF : still filters d).
  { unfold modulus_rows in S. destruct (Z.leb_spec 0 X) as [S1|S1]; [|destruct (Z.ltb_spec X 1) as [S2|S2]; [|lia]]; do 4 (apply bound_still in S; auto; destruct S as [S _]); exact S. }
  unfold filters, filter_one in SF. destruct (filter_kind B W PB) as (lo & hi & Eq). rewrite Eq in SF. pose proof (filter_same B W lo hi PB Eq) as Hh.
  pose proof (still_bounds d a _ _ _ Hd (known_here nv d a L Ba) SF) as (_ & Q & _). specialize (Q hi eq_refl eq_refl).
  assert (upper_bound d a * B <= hi * B) by nia. assert (EW : upper_bound d a * B = W) by lia.
  exists (upper_bound d a). split; [nia|]. rewrite EW. unfold W. destruct (Z.leb_spec 0 X); split; lia.
Qed.

Lemma pinned_value d v V : domains_ok d -> var_known d v -> (forall a, within a d -> var_value a v = V) -> lower_bound d v = V /\ upper_bound d v = V.
Proof.
  intros Hd K H. destruct (lower_at d v Hd K) as (a & Wa & <-). destruct (upper_at d v Hd K) as (b & Wb & <-). auto.
Qed.

Lemma pin_still rest d X Y O : domains_ok d -> length d = nv -> lower_bound d x = X -> upper_bound d x = X -> lower_bound d y = Y -> upper_bound d y = Y -> lower_bound d out = O -> upper_bound d out = O ->
  still (pin_sign x y out rest) d -> still rest d /\ (0 < X -> 0 < Y -> 0 <= O) /\ (0 < X -> Y < 0 -> O <= 0) /\ (X < 0 -> 0 < Y -> O <= 0) /\ (X < 0 -> Y < 0 -> 0 <= O).
Proof.
  intros Hd L <- Ex <- Ey <- Eo S. destruct (lower_at d out Hd (known_here nv d out L Bo)) as (a & Wa & Va). 
  assert (S' : still (if 1 <=? lower_bound d x then
      if (1 <=? lower_bound d y) && (lower_bound d out <? 0) then Infer (LCond (cond_ge out 0)) rest
      else if (upper_bound d y <? 0) && (0 <? upper_bound d out) then Infer (LCond (cond_lt out 1)) rest
      else rest
    else if upper_bound d x <? 0 then
      if (upper_bound d y <? 0) && (lower_bound d out <? 0) then Infer (LCond (cond_ge out 0)) rest
      else if (1 <=? lower_bound d y) && (0 <? upper_bound d out) then Infer (LCond (cond_lt out 1)) rest
      else rest
    else rest) d) by exact S. clear S. rename S' into S. rewrite Ex, Ey, Eo in S.
  assert (G : forall l, still (Infer l rest) d -> lit_holds a l /\ still rest d).
  { intros l S0. split; [specialize (S0 a Wa); now inversion S0|]. intros b Wb. specialize (S0 b Wb). now inversion S0. }
  repeat match type of S with still (if ?b then _ else _) _ => destruct b eqn:? end;
    try (apply G in S; destruct S as [A S]; ((apply (proj1 (lit_ge _ _ _)) in A) || (apply (proj1 (lit_lt _ _ _)) in A)); exfalso; lia); (split; [exact S|lia]).
Qed.

End Still.

Lemma pass_checks nv divide x y out n d a : var_below nv x -> var_below nv y -> var_below nv out -> (divisor_magnitude divide n < nv)%nat -> domains_ok d -> length d = nv -> Forall (fixed d) [x; y; out] -> still (division_pass divide x y out n) d -> within a d -> division_rel divide x y out a.
Proof.
  intros Bx By Bo Bn Hd L F S Wa. apply Forall_cons_iff in F. destruct F as [Fx F]. apply Forall_cons_iff in F. destruct F as [Fy F]. apply Forall_cons_iff in F. destruct F as [Fo _].
  destruct (fixed_bounds d x a Hd (known_here nv d x L Bx) Fx Wa) as [Lx Ux]. destruct (fixed_bounds d y a Hd (known_here nv d y L By) Fy Wa) as [Ly Uy]. destruct (fixed_bounds d out a Hd (known_here nv d out L Bo) Fo Wa) as [Lo Uo].
  set (main := run_stages (division_stages divide x y out n) (default_product (VSimple (quotient_magnitude divide n)) (VSimple (divisor_magnitude divide n)) x y (if divide then None else Some out) Stop)).
  assert (S' : still (infer_when (in_domain d y 0) (LCond (cond_ne y 0)) (if divide then pin_sign x y out main else main)) d) by exact S. clear S. rename S' into S.
  apply still_when in S. destruct S as [Ny S].
  assert (N : var_value a y <> 0).
  { intro E. assert (I : in_domain d y 0 = true) by (apply in_domain_spec; auto; [now apply (known_here nv)|]; rewrite view_member_iff; auto; [exists a; auto|now apply (known_here nv)]).
    specialize (Ny I a Wa). unfold lit_holds, cond_holds in Ny; cbn in Ny. contradiction. }
  split; [assumption|]. pose proof (quotient_below nv divide n Bn) as Ba.
  assert (Fy1 : forall b, within b d -> 1 <= var_value b y \/ var_value b y < 0) by (intros b Wb; rewrite (fixed_same nv d y Hd L By Fy b a Wb Wa); lia).
  assert (Kn : forall k, (k < nv)%nat -> var_known d (VSimple k)) by (intros k H; simpl; unfold domains, iset in *; lia).
  unfold main, division_stages in S. cbv zeta in S. clear main.
  destruct divide.
  - apply (pin_still nv x y out Bo _ d (var_value a x) (var_value a y) (var_value a out)) in S; auto. destruct S as (S & Sg1 & Sg2 & Sg3 & Sg4). rewrite run_stages_app in S.
    apply (magnitude_still nv) in S; auto; [|lia]. destruct S as [S Ma]. apply (magnitude_still nv) in S; auto; [|lia]. destruct S as [S Mb].
    assert (Fo1 : forall b, within b d -> 0 <= var_value b out \/ var_value b out < 0) by (intros; lia).
    specialize (Ma Fo Fo1). specialize (Mb Fy Fy1).
    destruct (pinned_value d (VSimple (quotient_magnitude true n)) (Z.abs (var_value a out)) Hd (Kn _ Ba)) as [A1 A2]. { intros b Wb. cbn [var_value]. rewrite Ma by assumption. f_equal. now apply (fixed_same nv d). }
    destruct (pinned_value d (VSimple (divisor_magnitude true n)) (Z.abs (var_value a y)) Hd (Kn _ Bn)) as [B1 B2]. { intros b Wb. cbn [var_value]. rewrite Mb by assumption. f_equal. now apply (fixed_same nv d). }
    pose proof (divide_still nv x y Bx _ _ _ d _ _ _ Hd L Lx Ux A1 A2 B1 B2 S) as Q. apply quotient_found; auto. lia.
  - rewrite run_stages_app in S. set (b := divisor_magnitude false n) in *.
    change (still (run_stage (le_stage [(1, out); (-1, VSimple b)] (-1) None) (run_stage (le_stage [(-1, out); (-1, VSimple b)] (-1) None)
      (run_stage (le_stage [(-1, out)] 0 (Some (cond_ge x 0))) (run_stage (le_stage [(1, out)] 0 (Some (cond_lt x 1)))
        (run_stages (magnitude_stages b y 1) (default_product (VSimple (quotient_magnitude false n)) (VSimple b) x y (Some out) Stop)))))) d) in S.
    assert (Bl : Forall (var_below nv) [out; VSimple b]) by (constructor; [assumption|constructor; [exact Bn|constructor]]).
    assert (Bl' : Forall (var_below nv) [out]) by (constructor; [assumption|constructor]).
    apply (stage_still nv) in S; auto; try exact Logic.I. destruct S as [S Q1]. apply (stage_still nv) in S; auto; try exact Logic.I. destruct S as [S Q2].
    apply (stage_still nv) in S; auto; [|split; [exact Bx|eauto]]. destruct S as [S Q3]. apply (stage_still nv) in S; auto; [|split; [exact Bx|eauto]]. destruct S as [S Q4].
    apply (magnitude_still nv) in S; auto; [|lia]. destruct S as [S Mb]. specialize (Mb Fy Fy1).
    specialize (Q1 (fun _ _ => Logic.I) b a). specialize (Q2 (fun _ _ => Logic.I) b a). rewrite two_terms in Q1, Q2. cbn [var_value] in Q1, Q2. rewrite (Mb a Wa) in Q1, Q2.
    specialize (Q1 ltac:(intros w [<-|[<-|[]]]; auto) Wa). specialize (Q2 ltac:(intros w [<-|[<-|[]]]; auto) Wa).
    assert (Q3' : 0 <= var_value a x -> 0 <= var_value a out).
    { intro P. assert (G : forall c, within c d -> open c (Some (cond_ge x 0))) by (intros c Wc; rewrite (fixed_same nv d x Hd L Bx Fx a c Wa Wc) in P; unfold open, cond_holds; cbn; lia).
      specialize (Q3 G b a ltac:(intros w [<-|[]]; auto) Wa). rewrite one_term in Q3. lia. }
    assert (Q4' : var_value a x <= 0 -> var_value a out <= 0).
    { intro P. assert (G : forall c, within c d -> open c (Some (cond_lt x 1))) by (intros c Wc; rewrite (fixed_same nv d x Hd L Bx Fx a c Wa Wc) in P; unfold open, cond_holds; cbn; lia).
      specialize (Q4 G b a ltac:(intros w [<-|[]]; auto) Wa). rewrite one_term in Q4. lia. }
    destruct (pinned_value d (VSimple b) (Z.abs (var_value a y)) Hd (Kn _ Bn)) as [B1 B2]. { intros c Wc. cbn [var_value]. rewrite Mb by assumption. f_equal. now apply (fixed_same nv d). }
    destruct (modulus_still nv x y out Bx Bo (VSimple (quotient_magnitude false n)) (VSimple b) Stop d (var_value a x) (var_value a out) (Z.abs (var_value a y))) as (A & A0 & A1 & A2); auto; try lia.
    apply (remainder_found (var_value a x) (var_value a y) A); auto; intro P; [specialize (A1 P)|specialize (A2 P)]; lia.
Qed.

(** ** Own variables *)

Lemma own_ok (d own : domains) : domains_ok d -> domains_ok own -> domains_ok (d ++ own).
Proof.
  intros H1 H2 n Hn. rewrite app_length in Hn. destruct (Nat.lt_ge_cases n (length d)) as [L|L]; [rewrite app_nth1 by assumption; now apply H1|].
  rewrite app_nth2 by assumption. apply H2. unfold domains, iset in *. lia.
Qed.

Lemma own_values (d own : domains) a (f : nat -> Z) : within a d -> (forall k, (k < length own)%nat -> member (f k) (nth k own [])) ->
  exists a', same_below (length d) a a' /\ within a' (d ++ own) /\ forall k, a' (length d + k)%nat = f k.
Proof.
  intros Wa F. exists (fun x => if Nat.ltb x (length d) then a x else f (x - length d)%nat). split; [|split].
  - intros x Hx. apply Nat.ltb_lt in Hx. now rewrite Hx.
  - intros x Hx. rewrite app_length in Hx. destruct (Nat.ltb_spec x (length d)) as [L|L]; [rewrite app_nth1 by assumption; now apply Wa|].
    rewrite app_nth2 by assumption. apply F. unfold domains, iset in *. lia.
  - intro k. destruct (Nat.ltb_spec (length d + k) (length d)) as [L|L]; [lia|]. f_equal. lia.
Qed.

(** What is installed over the variables something else has created. *)
Lemma installs_then d cs own ps scope (sat sol1 : assignment -> Prop) i2 scope2 (sat2 sol2 : assignment -> Prop) Own :
  installs d cs (mk_installation own [] ps []) scope sat sol1 (fun _ _ => True) ->
  installs (d ++ own) cs i2 scope2 sat2 sol2 Own ->
  (forall a, within a (d ++ own) -> sol1 a -> sat2 a) ->
  installs d cs (mk_installation (own ++ in_vars i2) (in_states i2) (ps ++ in_props i2) (in_inits i2)) scope sat (fun a => sol1 a /\ sol2 a) Own.
Proof.
  intros [Ok1 _ Lo1 Ex1 _ _ Fu1] [Ok2 Pr2 Lo2 Ex2 Ow2 St2 Fu2] Im. cbn [in_vars in_states in_props in_inits map length] in *.
  assert (Le : (length (d ++ own) <= length ((d ++ own) ++ in_vars i2))%nat) by (unfold domains, iset in *; rewrite (app_length (d ++ own)); lia).
  constructor; cbn [in_vars in_states in_props in_inits]; rewrite ?(app_assoc d); auto.
  - intros a a' Sm [H1 H2]. split; [|now apply (Lo2 a)]. apply (local_more (length (d ++ own)) _ sol1 Le) with (a := a); auto.
  - intros a Wa Sa. destruct (Ex1 a Wa Sa) as (a1 & Sm1 & W1 & S1). destruct (Ex2 a1 W1 (Im a1 W1 S1)) as (a2 & Sm2 & W2 & S2). exists a2. split; [|split; [exact W2|split; [|assumption]]].
    + intros x Hx. rewrite (Sm1 x Hx). apply Sm2. unfold domains, iset in *. rewrite app_length. lia.
    + now apply (Lo1 a1).
  - intros nv Inv Ln Sb Id Fr. destruct (Fu2 nv Inv Ln Sb Id Fr) as (pp2 & ip2 & FP2 & FI2 & _).
    assert (Id1 : forall D c, Inv D c -> inside (d ++ own) D) by (intros D c I a Wa; apply (Id D c I) in Wa; now apply within_prefix in Wa).
    destruct (Fu1 nv Inv) as (pp1 & ip1 & FP1 & FI1 & Con1); auto.
    { exact (Nat.le_trans _ _ _ Le Ln). }
    { intros D c I. split; [exact (Id1 D c I)|exact Logic.I]. }
    { intros D c D' c' I H1 H2 H3 H4 H5 _. assert (H6 : forall k, nth_error c' k = nth_error c k) by (intro k; apply H5; lia).
      apply (Fr D c D' c'); auto; [intros k _; apply H6|]. apply (Ow2 D D' c c'); auto; [now rewrite H2, H3|intros k _; apply H6|]. apply (Id D c I). }
    exists (pp1 ++ map (fun _ => fun _ => True) pp2), (map (fun _ => fun _ => True) ip2). split; [|split].
    + apply Forall2_app.
      * eapply Forall2_weaken; [|exact FP1]. intros p s. apply (supports_stronger nv (d ++ own)); [exact Id1|]. now intros a _ [H _].
      * clear - FP2 Id. induction FP2 as [|p s ps ss H F IH]; cbn [map]; constructor; [|exact IH]. destruct H as (W & So & ok & dead & Wk & _). split; [assumption|]. split.
        -- intros i a U Wa [_ Sa]. now apply So.
        -- exists ok, dead. split; [assumption|]. intros D _ _ _ _ a _. exact Logic.I.
    + clear - FI2. induction FI2 as [|f s fs ss H F IH]; cbn [map]; constructor; [|exact IH]. intros D c t c' H1 H2 H3 H4. destruct (H D c t c' H1 H2 H3 H4) as (A1 & A2 & A3 & A4). split; [assumption|]. split; [assumption|]. split.
      * intros a Wa [_ Sa]. now apply A3.
      * intro Ft. split; [now apply A4|auto].
    + intros a Wa F1 _. apply Forall_app in F1. destruct F1 as [F1 _]. apply within_prefix in Wa. apply Con1; auto. inversion FI1. constructor.
Qed.

Lemma magnitude_spec d v a : domains_ok d -> var_known d v -> within a d -> 0 <= Z.abs (var_value a v) <= bit_max (magnitude d v).
Proof.
  intros Hd K Wa. destruct (value_bounds d v a Hd K Wa) as [A B]. pose proof (bit_max_spec (magnitude d v)) as M. unfold magnitude in *. lia.
Qed.

Lemma bit_max_nonneg m : 0 <= m -> 0 <= bit_max m.
Proof. intro H. pose proof (bit_max_spec m H). lia. Qed.

Lemma interval_ok (own : list (list (Z * Z))) : Forall (fun s => exists u, s = [(0, u)] /\ 0 <= u) own -> domains_ok own.
Proof.
  intros F n Hn. apply (proj1 (Forall_forall _ _)) with (x := nth n own []) in F; [|now apply nth_In]. destruct F as (u & -> & U). split; [simpl; lia|]. exists 0. exists 0, u. split; [now left|lia].
Qed.

Lemma own_variables_ok divide x y out d : domains_ok (own_variables divide x y out d).
Proof.
  assert (M : forall v, 0 <= bit_max (magnitude d v)) by (intro v; apply bit_max_nonneg; unfold magnitude; lia).
  apply interval_ok. unfold own_variables. destruct divide; repeat constructor; eexists; split; try reflexivity; auto; lia.
Qed.

Lemma own_variables_length divide x y out d : (divisor_magnitude divide (length d) < length (d ++ own_variables divide x y out d))%nat.
Proof. rewrite app_length. unfold divisor_magnitude, quotient_magnitude, own_variables. destruct divide; simpl; lia. Qed.

Lemma division_local n divide x y out : Forall (var_below n) [x; y; out] -> local n (division_rel divide x y out).
Proof.
  intros B s s' Sm H. unfold division_rel in *. pose proof (proj1 (Forall_forall _ _) B) as Bv.
  rewrite <- !(same_below_value n s s') by (auto; apply Bv; simpl; auto). exact H.
Qed.

Lemma base_installs d cs divide x y out : domains_ok d -> Forall (var_known d) [x; y; out] ->
  installs d cs (mk_installation (own_variables divide x y out d) [] [division_propagator divide x y out (length d)] []) [x; y; out]
    (division_rel divide x y out) (division_sol divide x y out (length d)) (fun _ _ => True).
Proof.
  intros Hd K. pose proof (proj1 (known_below_all _ _) K) as B. pose proof (own_variables_length divide x y out d) as Ln.
  set (own := own_variables divide x y out d) in *.
  assert (Le : (length d <= length (d ++ own))%nat) by (unfold domains, iset in *; rewrite app_length; lia).
  constructor; cbn [in_vars in_states in_props in_inits map]; auto.
  - apply own_ok; [assumption|apply own_variables_ok].
  - intros a a' Sm (H1 & H2 & H3 & H4). pose proof (quotient_below _ _ _ Ln) as Lq.
    assert (V : forall v, In v [x; y; out] -> var_value a' v = var_value a v).
    { intros v I. symmetry. apply (same_below_value (length (d ++ own)) a a' v Sm). apply (below_more (length d)); [assumption|]. now apply (proj1 (Forall_forall _ _) B). }
    split; [|split; [|split]].
    + apply (local_more (length d) (length (d ++ own)) _ Le (division_local _ divide x y out B)) with (a := a); auto.
    + etransitivity; [symmetry; apply Sm; exact Lq|]. etransitivity; [exact H2|]. now rewrite !V by (simpl; auto).
    + etransitivity; [symmetry; apply Sm; exact Ln|]. etransitivity; [exact H3|]. now rewrite !V by (simpl; auto).
    + intro E. etransitivity; [symmetry; apply Sm|now apply H4]. eapply Nat.le_lt_trans; [|exact Ln]. unfold divisor_magnitude, quotient_magnitude. rewrite E. do 2 apply le_S. apply le_n.
  - intros a Wa (N & E). apply Forall_cons_iff in K. destruct K as [Kx K]. apply Forall_cons_iff in K. destruct K as [Ky K]. apply Forall_cons_iff in K. destruct K as [Ko _].
    pose proof (magnitude_spec d x a Hd Kx Wa) as Mx. pose proof (magnitude_spec d y a Hd Ky Wa) as My. pose proof (magnitude_spec d out a Hd Ko Wa) as Mo.
    set (q := Z.abs (Z.quot (var_value a x) (var_value a y))). set (b := Z.abs (var_value a y)) in *.
    assert (Qx : 0 <= q <= Z.abs (var_value a x)) by (destruct (divided (var_value a x) (var_value a y) N) as (D1 & D2 & D3 & _); unfold q; nia).
    destruct (own_values d own a (fun k => nth k (if divide then [0; q; b] else [q; b]) 0) Wa) as (a' & Sm & Wa' & Va').
    { unfold own, own_variables. intros k Hk. destruct divide.
      - assert (q = Z.abs (var_value a out)) by (unfold q; now rewrite E). destruct k as [|[|[|k]]]; cbn [nth] in *; [| | |simpl in Hk; lia]; eexists _, _; (split; [now left|lia]).
      - destruct k as [|[|k]]; cbn [nth] in *; [| |simpl in Hk; lia]; eexists _, _; (split; [now left|lia]). }
    assert (V : forall v, In v [x; y; out] -> var_value a' v = var_value a v).
    { intros v I. symmetry. apply (same_below_value (length d) a a' v Sm). now apply (proj1 (Forall_forall _ _) B). }
    exists a'. split; [assumption|]. split; [assumption|]. split; [|split; [|split]].
    + now apply (division_local _ divide x y out B a).
    + rewrite !V by (simpl; auto). fold q. unfold quotient_magnitude. specialize (Va' (if divide then 1 else 0)%nat). destruct divide; cbn [nth] in Va'; [now rewrite Nat.add_1_r in Va'|now rewrite Nat.add_0_r in Va'].
    + rewrite !V by (simpl; auto). fold b. unfold divisor_magnitude, quotient_magnitude. specialize (Va' (if divide then 2 else 1)%nat). destruct divide; cbn [nth] in Va'; [|now rewrite Nat.add_1_r in Va'].
      rewrite Nat.add_comm in Va'. exact Va'.
    + intros ->. specialize (Va' 0%nat). now rewrite Nat.add_0_r in Va'.
  - intros nv Inv Lv St Id _. exists [division_rel divide x y out], []. split; [|split; [constructor|]].
    + constructor; [|constructor]. unfold division_propagator.
      assert (Bn : Forall (var_below nv) [x; y; out]) by (eapply Forall_impl; [|exact B]; intros v; apply below_more; exact (Nat.le_trans _ _ _ Le Lv)).
      assert (Ln' : (divisor_magnitude divide (length d) < nv)%nat) by (unfold domains, iset in *; lia).
      pose proof Bn as Bn'. apply Forall_cons_iff in Bn'. destruct Bn' as [Bx B']. apply Forall_cons_iff in B'. destruct B' as [By B']. apply Forall_cons_iff in B'. destruct B' as [Bo _].
      apply (meets_supports nv (d ++ own) Inv _ (fun _ => settling (division_pass divide x y out (length d))) _ [x; y; out]); auto.
      * intro i. cbn [p_run body_propagator]. destruct (body_run_out (settling (division_pass divide x y out (length d))) i) as (A1 & A2 & A3 & _). auto.
      * intros D c I. apply (Id D c I).
      * apply incl_refl.
      * intros v k I U. apply listed_subscribes with (v := v); [|assumption]. rewrite app_nil_r. simpl app. apply distinct_variables_In. split; [simpl in *; tauto|congruence].
      * intros _. apply settling_meets; [now apply pass_says|]. intros D a H1 H2 H3 H4 H5. now apply (pass_checks nv divide x y out (length d) D a).
    + intros a _ F _. now inversion F.
Qed.

(** ** The table *)

Definition table_rel (divide : bool) (x y out : var_id) (n : nat) (a : assignment) : Prop :=
  division_rel divide x y out a /\ (divide = false -> Z.quot (var_value a x) (var_value a y) = recover_quotient (a n) (var_value a x) (var_value a y)).

Lemma in_relation x y q r : is_in_relation x y q r = true <-> y <> 0 /\ Z.quot x y = q /\ Z.rem x y = r.
Proof.
  unfold is_in_relation. destruct (Z.eqb_spec y 0) as [E|E]; [split; [discriminate|tauto]|]. rewrite andb_true_iff, !Z.eqb_eq. tauto.
Qed.

Lemma recovered x y : y <> 0 -> recover_quotient (Z.abs (Z.quot x y)) x y = Z.quot x y.
Proof.
  intro N. destruct (quotient_sign x y N) as (A & B & C & D). unfold recover_quotient. destruct (Z.leb_spec 0 x), (Z.leb_spec 0 y); cbn [xorb].
  - specialize (A ltac:(lia) ltac:(lia)). lia.
  - specialize (B ltac:(lia) ltac:(lia)). lia.
  - specialize (C ltac:(lia) ltac:(lia)). lia.
  - specialize (D ltac:(lia) ltac:(lia)). lia.
Qed.

Lemma sol_table divide x y out n a : division_sol divide x y out n a -> table_rel divide x y out n a.
Proof.
  intros (R & A & _). split; [assumption|]. intros ->. cbn [quotient_magnitude] in A. rewrite A. symmetry. apply recovered. apply R.
Qed.

(** The dividend from the rest, when its sign is known. *)
Lemma dividend_found x y aux sign : y <> 0 -> Z.quot x y = recover_quotient aux x y -> (sign = 1 /\ 0 <= x \/ sign = -1 /\ x <= 0) -> sign * aux * Z.abs y + Z.rem x y = x.
Proof.
  intros N Q S. pose proof (Z.quot_rem' x y) as E. rewrite Q in E. unfold recover_quotient in *. destruct (Z.leb_spec 0 x) as [Hx|Hx], (Z.leb_spec 0 y) as [Hy|Hy]; cbn [xorb] in *.
  - destruct S as [[-> S]|[-> S]]; [rewrite (Z.abs_eq y) by lia; lia|]. assert (x = 0) by lia. subst x. rewrite Z.quot_0_l in Q by assumption. subst aux. lia.
  - destruct S as [[-> S]|[-> S]]; [rewrite (Z.abs_neq y) by lia; lia|]. assert (x = 0) by lia. subst x. rewrite Z.quot_0_l in Q by assumption. assert (aux = 0) by lia. subst aux. lia.
  - destruct S as [[-> S]|[-> S]]; [lia|]. rewrite (Z.abs_eq y) by lia. lia.
  - destruct S as [[-> S]|[-> S]]; [lia|]. rewrite (Z.abs_neq y) by lia. lia.
Qed.

Lemma slot_solved q c o z : c = 1 \/ c = -1 -> slot_solve (q, c, o) (c * z + o) = Some z.
Proof.
  intro U. unfold slot_solve. cbn [slot_offset slot_coeff fst snd]. replace (c * z + o - o) with (z * c) by lia.
  rewrite Z.rem_mul, Z.quot_mul by lia. reflexivity.
Qed.

Lemma same_positions s q : same_position (Some q) (slot_position s) = false -> fst (fst s) <> Some q.
Proof.
  destruct s as [[p c] o]. unfold slot_position; cbn [fst]. destruct p as [p|]; simpl; [|discriminate]. intros E [= ->]. now rewrite Nat.eqb_refl in E.
Qed.

Lemma slot_same s q values zs : fst (fst s) <> Some q -> (forall j, j <> q -> nth j values 0 = nth j zs 0) -> slot_value s values = slot_value s zs.
Proof. intros N Ag. destruct s as [[p c] o]. cbn [fst slot_value] in *. destruct p as [p|]; [|reflexivity]. rewrite Ag; [reflexivity|congruence]. Qed.

Lemma division_plan_spec divide x y out n d : domains_ok d -> Forall (var_below n) [x; y; out] -> (n < length d)%nat -> let pl := division_plan divide x y out n d in
  plan_ok_in d pl /\ Forall (var_below (length d)) (pl_vars pl) /\ NoDup (underlying_list (pl_vars pl)) /\
  (forall s, pl_accept pl (map (var_value s) (pl_vars pl)) = true <-> table_rel divide x y out n s).
Proof.
  intros Hd Bn Hn pl. assert (B : Forall (var_below (length d)) [x; y; out]) by (eapply Forall_impl; [|exact Bn]; intros v; apply below_more; lia).
  pose proof (proj2 (known_below_all _ _) B) as K. unfold division_plan in pl. destruct divide.
  - destruct (place_slots [affine_of x; affine_of y; affine_of out] []) as [vars slots] eqn:E.
    destruct (placed_vars d [x; y; out] vars slots K E) as (Bv & ND & F & _).
    inversion F as [|? s1 ? ? F1 F' E1 E2]; subst. inversion F' as [|? s2 ? ? F2 F'' E1 E2]; subst. inversion F'' as [|? s3 ? ? F3 F''' E1 E2]; subst. cbn [nth] in pl.
    unfold pl. cbn [pl_vars pl_accept]. split; [|split; [assumption|split; [assumption|]]].
    + constructor; cbn [pl_vars pl_determined pl_reification]; [intros p f []|discriminate].
    + intro s. rewrite F1, F2, F3, in_relation. unfold table_rel, division_rel. pose proof (Z.quot_rem' (var_value s x) (var_value s y)) as Q. split.
      * intros (N & A & _). split; [auto|discriminate].
      * intros ((N & A) & _). split; [assumption|]. split; [auto|]. rewrite A. lia.
  - destruct (place_slots [affine_of x; affine_of y; affine_of out; affine_of (VSimple n)] []) as [vars slots] eqn:E.
    assert (K' : Forall (var_known d) [x; y; out; VSimple n]) by (pose proof K as K'; repeat (apply Forall_cons_iff in K'; destruct K' as [? K']); repeat constructor; auto).
    destruct (placed_vars d [x; y; out; VSimple n] vars slots K' E) as (Bv & ND & F & _). destruct (place_slots_spec _ _ _ _ E) as (_ & Sl & _ & _).
    inversion F as [|? s1 ? ? F1 F' E1 E2]; subst. inversion F' as [|? s2 ? ? F2 F'' E1 E2]; subst. inversion F'' as [|? s3 ? ? F3 F3' E1 E2]; subst. inversion F3' as [|? s4 ? ? F4 F4' E1 E2]; subst. clear F F' F'' F3' F4'. cbn [nth] in pl.
    assert (S1 : slot_for vars (affine_of x) s1) by now inversion Sl.
    assert (Sl2 : Forall2 (slot_for vars) [affine_of y; affine_of out; affine_of (VSimple n)] [s2; s3; s4]) by (inversion Sl as [|? ? ? ? ? F' E1 E2]; subst; inversion F' as [|? ? ? ? ? F'' E1 E2]; subst; repeat (constructor; [assumption|]); inversion F'' as [|? ? ? ? ? F3' E1 E2]; subst; inversion F3' as [|? ? ? ? ? F4' E1 E2]; subst; repeat (constructor; [assumption|]); constructor).
    assert (S3 : slot_for vars (affine_of out) s3) by (inversion Sl2 as [|? ? ? ? ? F']; now inversion F').
    assert (S4 : slot_for vars (affine_of (VSimple n)) s4) by (inversion Sl2 as [|? ? ? ? ? F']; inversion F' as [|? ? ? ? ? F'']; now inversion F'').
    clear Sl Sl2.
    assert (Aux : forall v q c o, var_below n v -> slot_for vars (affine_of v) (Some q, c, o) -> fst (fst s4) <> Some q).
    { intros v q c o Bq Sv. destruct s4 as [[[p|] c4] o4]; [|destruct S4]. simpl in S4. destruct S4 as (Ep & _). cbn [fst]. intros [= ->].
      destruct v as [m|m neg add|k]; simpl in Sv; [| |destruct Sv]; destruct Sv as (Eq & _); rewrite Ep in Eq; injection Eq as <-; unfold var_below in Bq; simpl in Bq; lia. }
    assert (Ac : forall s, pl_accept pl (map (var_value s) (pl_vars pl)) = true <-> table_rel false x y out n s).
    { intro s. unfold pl. cbn [pl_vars pl_accept]. rewrite F1, F2, F3, F4, in_relation. unfold table_rel, division_rel. cbn [var_value]. split.
      - intros (N & A & C). auto.
      - intros ((N & A) & C). auto. }
    split; [|split; [assumption|split; [assumption|exact Ac]]].
    constructor; unfold pl; cbn [pl_vars pl_determined pl_reification]; [|discriminate].
    intros p f I. unfold modulus_determined in I. apply in_app_iff in I.
    pose proof (proj1 (Forall_forall _ _) Bn) as Bv'.
    destruct I as [I|I].
    + destruct s3 as [[[q|] c] o]; [|destruct I]. cbn [slot_position fst] in I. destruct (same_position (Some q) (slot_position s1) || same_position (Some q) (slot_position s2)) eqn:En; [destruct I|].
      apply orb_false_iff in En. destruct En as [N1 N2]. apply same_positions in N1. apply same_positions in N2. destruct I as [[= <- <-]|[]].
      destruct (unit_slot _ _ _ _ _ S3) as [Lq Uc]. split; [assumption|]. split; [discriminate|]. intros a values Wa. cbv zeta. set (zs := map (var_value a) vars). intros Lz A _ Ag.
      apply Ac in A. destruct A as ((N & A) & Q). specialize (Q eq_refl). cbv zeta.
      rewrite (slot_same s1 q values zs N1 Ag), (slot_same s2 q values zs N2 Ag), (slot_same s4 q values zs (Aux out q c o ltac:(apply Bv'; simpl; auto) S3) Ag). unfold zs. rewrite F1, F2, F4. cbn [var_value]. rewrite <- Q.
      pose proof (Z.quot_rem' (var_value a x) (var_value a y)) as Qr. specialize (F3 a). cbn [slot_value] in F3. rewrite A in F3.
      replace (var_value a x - Z.quot (var_value a x) (var_value a y) * var_value a y) with (c * nth q (map (var_value a) vars) 0 + o) by lia. now apply slot_solved.
    + destruct s1 as [[[q|] c] o]; [|destruct I]. cbn [slot_position fst] in I. destruct (same_position (Some q) (slot_position s2) || same_position (Some q) (slot_position s3)) eqn:En; [destruct I|].
      apply orb_false_iff in En. destruct En as [N1 N2]. apply same_positions in N1. apply same_positions in N2.
      destruct ((0 <=? lower_bound d x) || (upper_bound d x <=? 0)) eqn:Sg; [|destruct I]. destruct I as [[= <- <-]|[]].
      destruct (unit_slot _ _ _ _ _ S1) as [Lq Uc]. split; [assumption|]. split; [discriminate|]. intros a values Wa. cbv zeta. set (zs := map (var_value a) vars). intros Lz A _ Ag.
      apply Ac in A. destruct A as ((N & A) & Q). specialize (Q eq_refl).
      rewrite (slot_same s2 q values zs N1 Ag), (slot_same s3 q values zs N2 Ag), (slot_same s4 q values zs (Aux x q c o ltac:(apply Bv'; simpl; auto) S1) Ag). unfold zs. rewrite F2, F3, F4, A. cbn [var_value].
      destruct (value_bounds d x a Hd (proj1 (Forall_forall _ _) K x (or_introl eq_refl)) Wa) as [Lx Ux].
      rewrite (dividend_found (var_value a x) (var_value a y) (a n) (if upper_bound d x <=? 0 then -1 else 1) N Q).
      * specialize (F1 a). cbn [slot_value] in F1. rewrite <- F1. now apply slot_solved.
      * apply orb_true_iff in Sg. rewrite !Z.leb_le in Sg. destruct (Z.leb_spec (upper_bound d x) 0); [right|left]; split; try reflexivity; lia.
Qed.

(** ** Installation *)

Lemma constant_zero y : constant_of y = Some 0 -> forall a, var_value a y = 0.
Proof. destruct y as [n|n neg add|k]; simpl; [discriminate|discriminate|]. now intros [= ->]. Qed.

(** With a table or without. *)
Definition proper_division (divide : bool) (l : level) (x y out : var_id) : installer := fun d cs =>
  let own := own_variables divide x y out d in let p := division_propagator divide x y out (length d) in
  let pl := division_plan divide x y out (length d) (d ++ own) in
  if want_tabulation l (d ++ own) pl then
    let i := install_tabulation pl (d ++ own) cs in mk_installation (own ++ in_vars i) (in_states i) (p :: in_props i) (in_inits i)
  else mk_installation own [] [p] [].

Lemma division_cases divide l x y out : constant_of y = Some 0 \/ constant_of y <> Some 0 /\ forall d cs, division divide l x y out d cs = proper_division divide l x y out d cs.
Proof.
  unfold division. destruct (constant_of y) as [[|k|k]|]; [now left| | |]; right; (split; [discriminate|reflexivity]).
Qed.

Lemma table_over d divide x y out : domains_ok d -> Forall (var_known d) [x; y; out] -> let own := own_variables divide x y out d in
  let pl := division_plan divide x y out (length d) (d ++ own) in
  domains_ok (d ++ own) /\ plan_ok_in (d ++ own) pl /\ Forall (var_below (length (d ++ own))) (pl_vars pl) /\ NoDup (underlying_list (pl_vars pl)) /\
  (forall s, pl_accept pl (map (var_value s) (pl_vars pl)) = true <-> table_rel divide x y out (length d) s).
Proof.
  intros Hd K own pl. assert (Hd' : domains_ok (d ++ own)) by (apply own_ok; [assumption|apply own_variables_ok]). split; [assumption|].
  apply division_plan_spec; [assumption|now apply known_below_all|]. eapply Nat.le_lt_trans; [|apply own_variables_length]. unfold divisor_magnitude, quotient_magnitude. destruct divide; repeat (apply le_n || apply le_S).
Qed.

Lemma division_installs d cs divide l x y out : domains_ok d -> Forall (var_known d) [x; y; out] ->
  exists sol Own, installs d cs (division divide l x y out d cs) [x; y; out] (division_rel divide x y out) sol Own.
Proof.
  intros Hd Kd. pose proof (proj1 (known_below_all _ _) Kd) as Bd.
  destruct (division_cases divide l x y out) as [Z0|[_ E]].
  - exists (division_rel divide x y out), (fun _ _ => True). unfold division. rewrite Z0. apply failing_installs; auto; [intros a _ (N & _); apply N; now apply constant_zero|now apply division_local].
  - rewrite E. unfold proper_division. cbv zeta. destruct (table_over d divide x y out Hd Kd) as (Hd' & Ok & Bv & _ & Ac). pose proof (base_installs d cs divide x y out Hd Kd) as I1.
    destruct (want_tabulation _ _ _); [|exists (division_sol divide x y out (length d)), (fun _ _ => True); exact I1].
    destruct (tabulation_installs _ cs _ Ok Hd' Bv) as (sol2 & I2).
    exists (fun a => division_sol divide x y out (length d) a /\ sol2 a), (fun _ _ => True).
    refine (installs_then d cs _ [_] _ _ _ _ _ _ _ _ I1 I2 _). intros a _ S. apply Ac. now apply sol_table.
Qed.

Lemma division_means d0 divide l x y out : Forall (var_known d0) [x; y; out] -> means d0 (division divide l x y out) [x; y; out] (division_rel divide x y out).
Proof.
  intro K. pose proof (proj1 (known_below_all _ _) K) as B. split; [assumption|]. split; [now apply division_local|]. intros hidden cs Hd. apply division_installs; [assumption|now apply known_hidden].
Qed.

(** What the plan is about. *)
Definition table_handles (divide : bool) (x y out : var_id) (n : nat) : list var_id := if divide then [x; y; out] else [x; y; out; VSimple n].

Lemma small_division l d divide x y out n : domains_ok d -> Forall (var_known d) (table_handles divide x y out n) -> tabulates l d (table_handles divide x y out n) ->
  want_tabulation l d (division_plan divide x y out n d) = true.
Proof.
  intros Hd K [->|(t & -> & L)]; [reflexivity|]. unfold division_plan, table_handles in *. destruct divide.
  - destruct (place_slots [affine_of x; affine_of y; affine_of out] []) as [vars slots] eqn:Ep. cbv zeta. now apply (small_plan d [x; y; out] vars slots).
  - destruct (place_slots [affine_of x; affine_of y; affine_of out; affine_of (VSimple n)] []) as [vars slots] eqn:Ep. cbv zeta. now apply (small_plan d [x; y; out; VSimple n] vars slots).
Qed.

Lemma division_consistent d0 cs divide l x y out : domains_ok d0 -> Forall (var_known d0) [x; y; out] ->
  tabulates l (d0 ++ own_variables divide x y out d0) (table_handles divide x y out (length d0)) ->
  (exists s, within s d0 /\ division_rel divide x y out s) ->
  let i := division divide l x y out d0 cs in exists p q, in_props i = [p; q] /\
  forall D, ConsistencySpec.outcome (length (d0 ++ in_vars i)) (fun d _ => inside (d0 ++ in_vars i) d) q D ->
  domain_consistent D [x; y; out] (division_rel divide x y out) /\ rerun_is_quiet q D.
Proof.
  intros Hd K Lv (s & Ws & Ss). destruct (division_cases divide l x y out) as [Z0|[_ E]]; [destruct Ss as [N _]; now destruct (N (constant_zero y Z0 s))|].
  cbv zeta. rewrite E. unfold proper_division. cbv zeta. destruct (table_over d0 divide x y out Hd K) as (Hd' & Ok & Bv & ND & Ac).
  set (own := own_variables divide x y out d0) in *.
  assert (K' : Forall (var_known (d0 ++ own)) (table_handles divide x y out (length d0))).
  { pose proof (known_hidden d0 own _ K) as K'. unfold table_handles. destruct divide; [assumption|]. apply (Forall_app _ [x; y; out] [_]). split; [assumption|]. constructor; [|constructor]. simpl.
    rewrite app_length. unfold own, own_variables. simpl. lia. }
  pose proof (small_division l (d0 ++ own) divide x y out (length d0) Hd' K' Lv) as W.
  match goal with |- context [if ?b then _ else _] => replace b with true by (symmetry; exact W) end.
  destruct (ins_extends _ _ _ _ _ _ _ (base_installs d0 cs divide x y out Hd K) s Ws Ss) as (s' & _ & Ws' & Ss'). cbn [in_vars] in Ws'.
  destruct (tabulation_gives (d0 ++ own) cs _ [x; y; out] (table_rel divide x y out (length d0)) Ok Hd' Bv ND Ac) as (q & Ep & H).
  { exists s'. split; [exact Ws'|]. now apply sol_table. }
  exists (division_propagator divide x y out (length d0)), q. cbn [in_props in_vars]. split.
  - f_equal. exact Ep.
  - rewrite app_assoc. intros D O. destruct (H D O) as [Dc Q]. split; [|assumption]. intros v t Iv Et. destruct (Dc v t Iv Et) as (u & Wu & Vu & Su). exists u. split; [assumption|]. split; [assumption|]. apply Su.
Qed.

(** What the propagator leaves. *)
Lemma division_rests d0 cs divide l x y out : Forall (var_known d0) [x; y; out] -> constant_of y <> Some 0 ->
  exists p ps, in_props (division divide l x y out d0 cs) = p :: ps /\
  forall nv Inv D, (length d0 + 3 <= nv)%nat -> ConsistencySpec.outcome nv Inv p D -> rerun_is_quiet p D /\ in_domain D y 0 = false.
Proof.
  intros K N0. destruct (division_cases divide l x y out) as [Z0|[_ E]]; [now destruct N0|]. rewrite E. unfold proper_division. cbv zeta.
  exists (division_propagator divide x y out (length d0)). match goal with |- context [if ?b then _ else _] => destruct b end; cbn [in_props]; eexists; (split; [reflexivity|]); intros nv Inv D Ln O.
  all: assert (B : Forall (var_below nv) [x; y; out]) by (apply known_below_all in K; eapply Forall_impl; [|exact K]; intros v; apply below_more; lia).
  all: apply Forall_cons_iff in B; destruct B as [Bx B]; apply Forall_cons_iff in B; destruct B as [By B]; apply Forall_cons_iff in B; destruct B as [Bo _].
  all: assert (Ln' : (divisor_magnitude divide (length d0) < nv)%nat) by (unfold divisor_magnitude, quotient_magnitude; destruct divide; lia).
  all: destruct (settling_rerun nv _ _ (pass_says nv divide x y out (length d0) Bx By Bo Ln') _ _ _ Inv D O) as (Hd & L & S & Q); (split; [exact Q|]).
  all: assert (S' : still (infer_when (in_domain D y 0) (LCond (cond_ne y 0)) Stop) D) by (intros a Wa; specialize (S a Wa); unfold division_pass in S; cbv zeta in S; cbn [inferred] in S; rewrite inferred_when in S; apply Forall_app in S; rewrite inferred_when; cbn [inferred]; rewrite app_nil_r; apply S).
  all: apply still_when in S'; destruct S' as [Ny _]; destruct (in_domain D y 0) eqn:I; [exfalso|reflexivity].
  all: pose proof (known_here nv D y L By) as Ky; apply in_domain_spec in I; auto; apply view_member_iff in I; auto; destruct I as (a & Wa & Va); specialize (Ny eq_refl a Wa); unfold lit_holds, cond_holds in Ny; cbn in Ny; contradiction.
Qed.

(** The same in the terms of the catalogue's statements. *)
Lemma domain_size_prefix (d more : domains) v : var_known d v -> domain_size (d ++ more) v = domain_size d v.
Proof.
  intro K. destruct v as [n|n neg add|k]; simpl in K; unfold domain_size; cbn [deview]; try reflexivity; unfold dom; now rewrite app_nth1.
Qed.

Lemma divide_tabulated d0 cs l x y q : domains_ok d0 -> Forall (var_known d0) [x; y; q] ->
  l = Tabulated \/ (exists threshold, l = Auto threshold /\ domain_size d0 x * domain_size d0 y * domain_size d0 q <= threshold) ->
  (exists s, within s d0 /\ var_value s y <> 0 /\ var_value s q = Z.quot (var_value s x) (var_value s y)) ->
  let i := divide l x y q d0 cs in exists p t, in_props i = [p; t] /\
  forall D, ConsistencySpec.outcome (length (d0 ++ in_vars i)) (fun d _ => inside (d0 ++ in_vars i) d) t D ->
  domain_consistent D [x; y; q] (fun s => var_value s y <> 0 /\ var_value s q = Z.quot (var_value s x) (var_value s y)) /\ rerun_is_quiet t D.
Proof.
  intros Hd K Lv Ex. refine (division_consistent d0 cs true l x y q Hd K _ Ex). destruct Lv as [->|(t & -> & L)]; [now left|right]. exists t. split; [reflexivity|].
  pose proof (proj1 (Forall_forall _ _) K) as Kv. cbn [table_handles]. unfold sizes. cbn [map fold_right]. rewrite !domain_size_prefix by (apply Kv; simpl; auto). lia.
Qed.

Lemma modulus_tabulated d0 cs l x y r : domains_ok d0 -> Forall (var_known d0) [x; y; r] ->
  (let d := d0 ++ in_vars (modulus BC x y r d0 cs) in
   l = Tabulated \/ (exists threshold, l = Auto threshold /\ domain_size d x * domain_size d y * domain_size d r * domain_size d (VSimple (length d0)) <= threshold)) ->
  (exists s, within s d0 /\ var_value s y <> 0 /\ var_value s r = Z.rem (var_value s x) (var_value s y)) ->
  let i := modulus l x y r d0 cs in exists p t, in_props i = [p; t] /\
  forall D, ConsistencySpec.outcome (length (d0 ++ in_vars i)) (fun d _ => inside (d0 ++ in_vars i) d) t D ->
  domain_consistent D [x; y; r] (fun s => var_value s y <> 0 /\ var_value s r = Z.rem (var_value s x) (var_value s y)) /\ rerun_is_quiet t D.
Proof.
  intros Hd K Lv Ex. refine (division_consistent d0 cs false l x y r Hd K _ Ex).
  assert (E : in_vars (modulus BC x y r d0 cs) = own_variables false x y r d0).
  { unfold modulus. destruct (division_cases false BC x y r) as [Z0|[_ E]]; [destruct Ex as (s & _ & N & _); now destruct (N (constant_zero y Z0 s))|]. now rewrite E. }
  cbv zeta in Lv. rewrite E in Lv. destruct Lv as [->|(t & -> & L)]; [now left|right]. exists t. split; [reflexivity|]. cbn [table_handles]. unfold sizes. cbn [map fold_right]. lia.
Qed.
