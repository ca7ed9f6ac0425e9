(** Lemmas about the binary encoding. *)
From Coq Require Import ZArith List Bool Lia.
From Verif Require Import Integer BitsEncoding BitsSpec.
Import ListNotations.
Local Open Scope Z_scope.

(** ** Powers of two *)

Definition powers (k : nat) : list Z := map (fun b => 2 ^ Z.of_nat b) (seq 0 k).

Lemma powers_S k : powers (S k) = 1 :: map (Z.mul 2) (powers k).
Proof.
  unfold powers. cbn [seq map]. f_equal. rewrite <- seq_shift, !map_map. apply map_ext. intro b.
  rewrite Nat2Z.inj_succ, Z.pow_succ_r by lia. reflexivity.
Qed.

Lemma powers_length k : length (powers k) = k.
Proof. unfold powers. now rewrite map_length, seq_length. Qed.

Lemma worth_scale c ws : forall bs, worth (map (Z.mul c) ws) bs = c * worth ws bs.
Proof. induction ws as [|w r IH]; intros [|b bs]; simpl; try lia. rewrite IH. lia. Qed.

Lemma bit_value_bound b : 0 <= bit_value b <= 1.
Proof. destruct b; simpl; lia. Qed.

Lemma pow_S k : 2 ^ Z.of_nat (S k) = 2 * 2 ^ Z.of_nat k.
Proof. rewrite Nat2Z.inj_succ, Z.pow_succ_r by lia. reflexivity. Qed.

Lemma powers_bound k : forall bs, 0 <= worth (powers k) bs < 2 ^ Z.of_nat k.
Proof.
  induction k as [|k IH]; intro bs; [simpl; lia|]. rewrite powers_S, pow_S. pose proof (IH []) as Z0.
  destruct bs as [|b bs]; cbn [worth]; [lia|].
  rewrite worth_scale. specialize (IH bs). pose proof (bit_value_bound b). lia.
Qed.

Lemma powers_unique k : forall bs bs', length bs = k -> length bs' = k -> worth (powers k) bs = worth (powers k) bs' -> bs = bs'.
Proof.
  induction k as [|k IH]; intros bs bs' L L' E.
  - destruct bs; [|discriminate]. now destruct bs'.
  - destruct bs as [|b bs]; [discriminate|]. destruct bs' as [|b' bs']; [discriminate|]. rewrite powers_S in E. cbn [worth] in E. rewrite !worth_scale in E.
    injection L as L. injection L' as L'. assert (b = b') as -> by (destruct b, b'; unfold bit_value in E; try reflexivity; lia). f_equal. apply IH; auto. lia.
Qed.

Lemma powers_reach k : forall v, 0 <= v < 2 ^ Z.of_nat k -> exists bs, length bs = k /\ worth (powers k) bs = v.
Proof.
  induction k as [|k IH]; intros v B.
  - exists []. simpl in *. split; [reflexivity|lia].
  - rewrite pow_S in B. destruct (IH (Z.div2 v)) as (bs & L & W).
    { rewrite Z.div2_div. split; [apply Z.div_pos; lia|apply Z.div_lt_upper_bound; lia]. }
    exists (Z.odd v :: bs). split; [simpl; now rewrite L|]. rewrite powers_S. cbn [worth]. rewrite worth_scale, W.
    pose proof (Z.div2_odd v) as D. unfold bit_value, Z.b2z in *. destruct (Z.odd v); lia.
Qed.

(** ** With a sign bit *)

Definition weights (signed : bool) (k : nat) : list Z := if signed then - 2 ^ Z.of_nat k :: powers k else powers k.

Definition least (signed : bool) (k : nat) : Z := if signed then - 2 ^ Z.of_nat k else 0.

Lemma weights_length signed k : length (weights signed k) = ((if signed then 1 else 0) + k)%nat.
Proof. destruct signed; simpl; now rewrite powers_length. Qed.

Lemma pow_pos k : 0 < 2 ^ Z.of_nat k.
Proof. apply Z.pow_pos_nonneg; lia. Qed.

Lemma weights_bound signed k bs : least signed k <= worth (weights signed k) bs < 2 ^ Z.of_nat k.
Proof.
  pose proof (pow_pos k). destruct signed; simpl; [|apply powers_bound]. destruct bs as [|b bs]; simpl; [lia|].
  pose proof (powers_bound k bs). destruct b; simpl; lia.
Qed.

Lemma weights_unique signed k bs bs' :
  length bs = length (weights signed k) -> length bs' = length (weights signed k) -> worth (weights signed k) bs = worth (weights signed k) bs' -> bs = bs'.
Proof.
  rewrite weights_length. destruct signed; simpl; [|apply powers_unique]. intros L L' E.
  destruct bs as [|b bs]; [discriminate|]. destruct bs' as [|b' bs']; [discriminate|]. simpl in *. injection L as L. injection L' as L'.
  pose proof (powers_bound k bs). pose proof (powers_bound k bs').
  assert (b = b') as -> by (destruct b, b'; unfold bit_value in E; try reflexivity; lia). f_equal. apply (powers_unique k); auto. lia.
Qed.

Lemma weights_reach signed k v : least signed k <= v < 2 ^ Z.of_nat k -> exists bs, encodes (weights signed k) bs v.
Proof.
  intro B. unfold encodes. rewrite weights_length. destruct signed; simpl in *.
  - destruct (Z.ltb_spec v 0).
    + destruct (powers_reach k (v + 2 ^ Z.of_nat k)) as (bs & L & W); [lia|]. exists (true :: bs). simpl. rewrite L, W. split; lia.
    + destruct (powers_reach k v) as (bs & L & W); [lia|]. exists (false :: bs). simpl. rewrite L, W. split; lia.
  - destruct (powers_reach k v B) as (bs & L & W). eauto.
Qed.

(** ** The widths chosen *)

Lemma bit_width_spec n : 0 <= n -> 0 <= bit_width n /\ n < 2 ^ bit_width n /\ (0 < n -> 2 ^ (bit_width n - 1) <= n).
Proof.
  intro N. unfold bit_width. destruct (Z.leb_spec n 0).
  - simpl. lia.
  - pose proof (Z.log2_spec n ltac:(lia)) as [A B]. pose proof (Z.log2_nonneg n). replace (Z.log2 n + 1 - 1) with (Z.log2 n) by lia.
    replace (Z.log2 n + 1) with (Z.succ (Z.log2 n)) by lia. repeat split; try lia.
Qed.

Lemma bit_width_least n w : 0 <= n -> 0 <= w -> n < 2 ^ w -> bit_width n <= w.
Proof.
  intros N W L. destruct (bit_width_spec n N) as (A & B & C). destruct (Z.eq_dec n 0) as [->|]; [exact W|].
  destruct (Z.le_gt_cases (bit_width n) w); [assumption|]. exfalso. specialize (C ltac:(lia)).
  assert (2 ^ w <= 2 ^ (bit_width n - 1)) by (apply Z.pow_le_mono_r; lia). lia.
Qed.

Lemma to_unsigned_same n : 0 <= n < 2 ^ 63 -> to_unsigned n = n.
Proof. intro B. unfold to_unsigned. apply Z.mod_small. change (2 ^ 64) with (2 * 2 ^ 63). lia. Qed.

(** What the highest value is. *)
Definition magnitude (lower upper : Z) : Z := if lower <? 0 then Z.max (- lower - 1) upper else upper.

Lemma add_exact a b : fits64 a -> fits64 b -> fits64 (a + b) -> int_add a b = Some (a + b).
Proof.
  unfold fits64, int_add, add_overflows, int64_max, int64_min. change (2 ^ 63) with 9223372036854775808. intros.
  destruct (Z.leb_spec 0 b); match goal with |- context[?x <? ?y] => destruct (Z.ltb_spec x y) end; try lia; reflexivity.
Qed.

Lemma sub_exact a b : fits64 a -> fits64 b -> fits64 (a - b) -> int_sub a b = Some (a - b).
Proof.
  unfold fits64, int_sub, sub_overflows, int64_max, int64_min. change (2 ^ 63) with 9223372036854775808. intros.
  destruct (Z.leb_spec 0 b); match goal with |- context[?x <? ?y] => destruct (Z.ltb_spec x y) end; try lia; reflexivity.
Qed.

Lemma magnitude_bound lower upper : fits64 lower -> fits64 upper -> lower <= upper -> 0 <= magnitude lower upper < 2 ^ 63.
Proof. unfold magnitude, fits64. change (2 ^ 63) with 9223372036854775808. intros. destruct (Z.ltb_spec lower 0); lia. Qed.

Lemma shift_spec lower upper : fits64 lower -> fits64 upper -> lower <= upper -> lower <> - 2 ^ 63 ->
  highest_bit_shift lower upper = Some (bit_width (magnitude lower upper) - 1).
Proof.
  intros Fl Fu Le Nm. pose proof (magnitude_bound lower upper Fl Fu Le) as M.
  assert (W : 0 <= bit_width (magnitude lower upper) <= 63).
  { split; [apply bit_width_spec; lia|apply bit_width_least; lia]. }
  assert (H : highest_abs_value lower upper = Some (magnitude lower upper)).
  { unfold highest_abs_value, magnitude. destruct (Z.ltb_spec lower 0); [|reflexivity]. unfold int_abs.
    destruct (Z.eqb_spec lower int64_min); [unfold int64_min in *; change (2 ^ 63) with 9223372036854775808 in *; lia|].
    rewrite sub_exact; [f_equal; f_equal; lia|unfold fits64 in *; lia..]. }
  unfold highest_bit_shift. rewrite H, to_unsigned_same by assumption. apply sub_exact; unfold fits64; change (2 ^ 63) with 9223372036854775808; lia.
Qed.

Definition width (lower upper : Z) : nat := Z.to_nat (bit_width (magnitude lower upper)).

Lemma width_Z lower upper : fits64 lower -> fits64 upper -> lower <= upper -> Z.of_nat (width lower upper) = bit_width (magnitude lower upper).
Proof. intros. unfold width. apply Z2Nat.id. apply bit_width_spec. now apply magnitude_bound. Qed.

(** The range the width covers. *)
Lemma width_covers lower upper : fits64 lower -> fits64 upper -> lower <= upper ->
  least (lower <? 0) (width lower upper) <= lower /\ upper < 2 ^ Z.of_nat (width lower upper).
Proof.
  intros Fl Fu Le. rewrite width_Z by assumption. pose proof (magnitude_bound lower upper Fl Fu Le) as M.
  destruct (bit_width_spec (magnitude lower upper)) as (_ & B & _); [lia|]. unfold least. rewrite width_Z by assumption.
  unfold magnitude in *. destruct (Z.ltb_spec lower 0); lia.
Qed.

Lemma width_tight lower upper k : fits64 lower -> fits64 upper -> lower <= upper ->
  least (lower <? 0) k <= lower -> upper < 2 ^ Z.of_nat k -> (width lower upper <= k)%nat.
Proof.
  intros Fl Fu Le A B. apply Nat2Z.inj_le. rewrite width_Z by assumption. pose proof (magnitude_bound lower upper Fl Fu Le) as M.
  apply bit_width_least; try lia. unfold least in *. unfold magnitude in *. pose proof (pow_pos k). destruct (Z.ltb_spec lower 0); lia.
Qed.

Definition fitting (lower upper : Z) : Prop := 0 <= lower \/ (- 2 ^ 62 <= lower /\ upper < 2 ^ 62).

Lemma magnitude_fitting lower upper : fits64 lower -> fits64 upper -> lower <= upper -> lower < 0 ->
  (bit_width (magnitude lower upper) < 63 <-> fitting lower upper).
Proof.
  intros Fl Fu Le N. pose proof (magnitude_bound lower upper Fl Fu Le) as M. destruct (bit_width_spec (magnitude lower upper)) as (_ & B & _); [lia|].
  unfold fitting. split.
  - intro W. right. assert (2 ^ bit_width (magnitude lower upper) <= 2 ^ 62) by (apply Z.pow_le_mono_r; lia). unfold magnitude in *. destruct (Z.ltb_spec lower 0); lia.
  - intros [C|[C D]]; [lia|]. enough (bit_width (magnitude lower upper) <= 62) by lia. apply bit_width_least; try lia. unfold magnitude in *. destruct (Z.ltb_spec lower 0); lia.
Qed.

Lemma power2_some i : 0 <= i < 63 -> power2 i = Some (2 ^ i).
Proof. intro B. unfold power2. destruct (Z.ltb_spec i 0); [lia|]. destruct (Z.leb_spec 63 i); [lia|]. reflexivity. Qed.

Lemma power2_none i : i < 0 \/ 63 <= i -> power2 i = None.
Proof. intro B. unfold power2. destruct (Z.ltb_spec i 0); [reflexivity|]. destruct (Z.leb_spec 63 i); [reflexivity|lia]. Qed.

Lemma coeffs_spec lower upper : fits64 lower -> fits64 upper -> lower <= upper ->
  (fitting lower upper -> get_bits_encoding_coeffs lower upper =
    Some (Z.of_nat (width lower upper) - 1, (if (width lower upper =? 0)%nat then 0 else 2 ^ (Z.of_nat (width lower upper) - 1)),
      if lower <? 0 then - 2 ^ Z.of_nat (width lower upper) else 0)) /\
  (~ fitting lower upper -> get_bits_encoding_coeffs lower upper = None).
Proof.
  intros Fl Fu Le. destruct (Z.eq_dec lower (- 2 ^ 63)) as [->|Nm].
  { split; [intros [F|[F _]]; change (2 ^ 63) with 9223372036854775808 in F; change (2 ^ 62) with 4611686018427387904 in F; lia|reflexivity]. }
  unfold get_bits_encoding_coeffs. rewrite (shift_spec lower upper Fl Fu Le Nm). pose proof (width_Z lower upper Fl Fu Le) as W. rewrite <- W.
  pose proof (magnitude_bound lower upper Fl Fu Le) as M.
  assert (W63 : Z.of_nat (width lower upper) <= 63) by (rewrite W; apply bit_width_least; lia).
  assert (C : (if 0 <=? Z.of_nat (width lower upper) - 1 then power2 (Z.of_nat (width lower upper) - 1) else Some 0) =
    Some (if (width lower upper =? 0)%nat then 0 else 2 ^ (Z.of_nat (width lower upper) - 1))).
  { destruct (Nat.eqb_spec (width lower upper) 0) as [->|]; [reflexivity|]. destruct (Z.leb_spec 0 (Z.of_nat (width lower upper) - 1)); [|lia]. apply power2_some. lia. }
  rewrite C. destruct (Z.ltb_spec lower 0) as [N|N].
  - rewrite add_exact; [|unfold fits64; change (2 ^ 63) with 9223372036854775808; lia..]. replace (Z.of_nat (width lower upper) - 1 + 1) with (Z.of_nat (width lower upper)) by lia.
    rewrite <- (magnitude_fitting lower upper Fl Fu Le N), <- W. split; intro F.
    + rewrite power2_some by lia. unfold int_neg. pose proof (pow_pos (width lower upper)). destruct (Z.eqb_spec (2 ^ Z.of_nat (width lower upper)) int64_min) as [E|]; [unfold int64_min in E; lia|reflexivity].
    + rewrite power2_none by lia. reflexivity.
  - split; [reflexivity|]. intro F. exfalso. apply F. now left.
Qed.

Lemma fits_spec lower upper : fits64 lower -> fits64 upper -> lower <= upper ->
  (fitting lower upper -> bits_encoding_fits lower upper = Some true) /\ (~ fitting lower upper -> bits_encoding_fits lower upper = Some false).
Proof.
  intros Fl Fu Le. unfold bits_encoding_fits. destruct (Z.eqb_spec lower int64_min) as [->|Nm].
  { split; [|reflexivity]. intros [F|[F _]]; unfold int64_min in F; change (2 ^ 62) with 4611686018427387904 in F; lia. }
  assert (Nm' : lower <> - 2 ^ 63) by (unfold int64_min in Nm; change (2 ^ 63) with 9223372036854775808; lia).
  rewrite (shift_spec lower upper Fl Fu Le Nm'). pose proof (magnitude_bound lower upper Fl Fu Le) as M.
  assert (W : 0 <= bit_width (magnitude lower upper) <= 63) by (split; [apply bit_width_spec; lia|apply bit_width_least; lia]).
  destruct (Z.ltb_spec lower 0) as [N|N].
  - rewrite add_exact; [|unfold fits64; change (2 ^ 63) with 9223372036854775808; lia..]. rewrite <- (magnitude_fitting lower upper Fl Fu Le N).
    split; intro F; f_equal; [apply Z.ltb_lt|apply Z.ltb_ge]; lia.
  - split; [intros _; f_equal; apply Z.ltb_lt; lia|]. intro F. exfalso. apply F. now left.
Qed.

Lemma fits_exactly lower upper : fits64 lower -> fits64 upper -> lower <= upper ->
  exists b, bits_encoding_fits lower upper = Some b /\
    (b = true <-> 0 <= lower \/ (- 2 ^ 62 <= lower /\ upper < 2 ^ 62)) /\
    (b = true <-> exists c, get_bits_encoding_coeffs lower upper = Some c).
Proof.
  intros Fl Fu Le. destruct (fits_spec lower upper Fl Fu Le) as [A B]. destruct (coeffs_spec lower upper Fl Fu Le) as [C D].
  assert (Dec : fitting lower upper \/ ~ fitting lower upper) by (unfold fitting; lia). destruct Dec as [F|F].
  - exists true. split; [auto|]. split; [split; auto|]. split; [intros _; eexists; now apply C|reflexivity].
  - exists false. split; [auto|]. split; [split; [discriminate|contradiction]|]. split; [discriminate|]. intros (c & E). rewrite D in E by assumption. discriminate.
Qed.

(** ** The weights chosen *)

Lemma weights_chosen force lower upper shift coeff negative : fits64 lower -> fits64 upper -> lower <= upper ->
  get_bits_encoding_coeffs lower upper = Some (shift, coeff, negative) ->
  bit_weights force shift negative = weights (force || (lower <? 0)) (width lower upper).
Proof.
  intros Fl Fu Le E. destruct (coeffs_spec lower upper Fl Fu Le) as [C D].
  assert (Dec : fitting lower upper \/ ~ fitting lower upper) by (unfold fitting; lia). destruct Dec as [F|F]; [|rewrite D in E by assumption; discriminate].
  rewrite C in E by assumption. injection E as <- <- <-. unfold bit_weights. replace (Z.of_nat (width lower upper) - 1 + 1) with (Z.of_nat (width lower upper)) by lia.
  rewrite Nat2Z.id. fold (powers (width lower upper)). pose proof (pow_pos (width lower upper)) as P. destruct (Z.ltb_spec lower 0) as [N|N].
  - rewrite orb_true_r. assert (X : - 2 ^ Z.of_nat (width lower upper) =? 0 = false) by (apply Z.eqb_neq; lia). now rewrite X, andb_false_r, X.
  - rewrite orb_false_r. cbn [Z.eqb]. rewrite andb_true_r. destruct force; simpl; [|reflexivity].
    assert (X : - 2 ^ Z.of_nat (width lower upper) =? 0 = false) by (apply Z.eqb_neq; lia). now rewrite X.
Qed.

Section Chosen.
Variables (force : bool) (lower upper shift coeff negative : Z).
Hypotheses (Fl : fits64 lower) (Fu : fits64 upper) (Le : lower <= upper) (E : get_bits_encoding_coeffs lower upper = Some (shift, coeff, negative)).

Let ws := bit_weights force shift negative.

Lemma ws_eq : ws = weights (force || (lower <? 0)) (width lower upper).
Proof. eapply weights_chosen; eauto. Qed.

Lemma least_more k : least (force || (lower <? 0)) k <= least (lower <? 0) k.
Proof. pose proof (pow_pos k). unfold least. destruct force, (lower <? 0); simpl; lia. Qed.

Lemma encoding_exists v : lower <= v <= upper -> exists bs, encodes ws bs v.
Proof.
  intro B. rewrite ws_eq. apply weights_reach. destruct (width_covers lower upper Fl Fu Le). pose proof (least_more (width lower upper)). lia.
Qed.

Lemma encoding_unique bs bs' v : encodes ws bs v -> encodes ws bs' v -> bs = bs'.
Proof. rewrite ws_eq. intros [A B] [A' B']. eapply weights_unique; eauto. congruence. Qed.

(** Dropping the sign bit if there is one, and the highest of the other bits, leaves
    too few. *)
Lemma encoding_tight k signed : (signed = true -> lower < 0) -> (forall v, lower <= v <= upper -> exists bs, encodes (weights signed k) bs v) ->
  (length (weights (lower <? 0)%Z (width lower upper)) <= length (weights signed k))%nat.
Proof.
  intros S A. destruct (A lower) as (bl & _ & Wl); [lia|]. destruct (A upper) as (bu & _ & Wu); [lia|].
  pose proof (weights_bound signed k bl). pose proof (weights_bound signed k bu).
  assert (X : signed = (lower <? 0)). { destruct signed; [symmetry; apply Z.ltb_lt; now apply S|]. simpl in *. symmetry. apply Z.ltb_ge. lia. }
  subst signed. rewrite !weights_length. pose proof (width_tight lower upper k Fl Fu Le). lia.
Qed.

End Chosen.

(** Reading a value's bits off it. *)
Lemma quot_bits : forall k v, 0 <= v < 2 ^ Z.of_nat k -> worth (powers k) (map (fun c => Z.rem (Z.quot v c) 2 =? 1) (powers k)) = v.
Proof.
  assert (G : forall k v c, 0 <= v -> 0 < c -> c * worth (powers k) (map (fun p => Z.rem (Z.quot v (c * p)) 2 =? 1) (powers k)) = c * (Z.quot v c mod 2 ^ Z.of_nat k)).
  { intro k. induction k as [|k IH]; intros v c V C; [simpl; rewrite Z.mod_1_r; lia|]. rewrite powers_S. cbn [map worth]. rewrite map_map, worth_scale.
    assert (X : map (fun x => Z.rem (Z.quot v (c * (2 * x))) 2 =? 1) (powers k) = map (fun p => Z.rem (Z.quot v ((2 * c) * p)) 2 =? 1) (powers k)).
    { apply map_ext. intro p. do 3 f_equal. lia. }
    rewrite X. specialize (IH v (2 * c) V ltac:(lia)). rewrite Z.mul_1_r. rewrite pow_S.
    assert (Q : Z.quot v (2 * c) = Z.quot v c / 2).
    { rewrite !Z.quot_div_nonneg by lia. rewrite Z.div_div by lia. f_equal. lia. }
    rewrite Q in IH. set (q := Z.quot v c) in *. assert (0 <= q) by (apply Z.quot_pos; lia).
    rewrite (Z.rem_mod_nonneg q 2) by lia. pose proof (pow_pos k) as P. rewrite (Z.rem_mul_r q 2 (2 ^ Z.of_nat k)) by lia.
    set (r := (q / 2) mod 2 ^ Z.of_nat k) in *. set (y := worth (powers k) _) in *. assert (Y : y = r) by (apply (Z.mul_reg_l _ _ (2 * c)); lia). rewrite Y.
    pose proof (Z.mod_pos_bound q 2 ltac:(lia)). assert (D : q mod 2 = 0 \/ q mod 2 = 1) by lia. destruct D as [D|D]; rewrite D; [change (0 =? 1) with false|change (1 =? 1) with true]; unfold bit_value; ring. }
  intros k v B. specialize (G k v 1 ltac:(lia) ltac:(lia)). rewrite !Z.mul_1_l, Z.quot_1_r, Z.mod_small in G by assumption. etransitivity; [|exact G].
  f_equal. apply map_ext. intro p. now rewrite Z.mul_1_l.
Qed.

Lemma powers_positive k c : In c (powers k) -> 0 < c.
Proof. unfold powers. intro I. apply in_map_iff in I. destruct I as (b & <- & _). apply pow_pos. Qed.

Lemma read_bits_weights signed k v : least signed k <= v < 2 ^ Z.of_nat k ->
  encodes (weights signed k) (bits_of_value (if signed then - 2 ^ Z.of_nat k else 0) (weights signed k) v) v.
Proof.
  intro B. split; [unfold bits_of_value; now rewrite map_length|]. pose proof (pow_pos k) as P. unfold bits_of_value, weights. destruct signed; simpl in *.
  - assert (X : - 2 ^ Z.of_nat k =? 0 = false) by (apply Z.eqb_neq; lia). assert (Y : - 2 ^ Z.of_nat k <? 0 = true) by (apply Z.ltb_lt; lia).
    rewrite X, Y. simpl. rewrite (map_ext_in _ (fun c => Z.rem (Z.quot (if v <? 0 then v - - 2 ^ Z.of_nat k else v) c) 2 =? 1)).
    + destruct (Z.ltb_spec v 0); rewrite quot_bits by lia; simpl; lia.
    + intros c I. apply powers_positive in I. destruct (Z.ltb_spec c 0); [lia|reflexivity].
  - rewrite (map_ext_in _ (fun c => Z.rem (Z.quot v c) 2 =? 1)); [apply quot_bits; lia|].
    intros c I. apply powers_positive in I. destruct (Z.ltb_spec c 0); [lia|reflexivity].
Qed.

(** The statements. *)
Lemma every_value_once always_signed lower upper shift coeff negative : fits64 lower -> fits64 upper -> lower <= upper ->
  get_bits_encoding_coeffs lower upper = Some (shift, coeff, negative) ->
  forall v, lower <= v <= upper -> exists! bits, encodes (bit_weights always_signed shift negative) bits v.
Proof.
  intros Fl Fu Le E v B. destruct (encoding_exists always_signed _ _ _ _ _ Fl Fu Le E v B) as (bs & Eb). exists bs. split; [assumption|].
  intros bs' Eb'. exact (encoding_unique always_signed _ _ _ _ _ Fl Fu Le E bs bs' v Eb Eb').
Qed.

Lemma no_value_twice always_signed lower upper shift coeff negative : fits64 lower -> fits64 upper -> lower <= upper ->
  get_bits_encoding_coeffs lower upper = Some (shift, coeff, negative) ->
  forall v bits bits', encodes (bit_weights always_signed shift negative) bits v -> encodes (bit_weights always_signed shift negative) bits' v -> bits = bits'.
Proof. intros Fl Fu Le E v bits bits'. exact (encoding_unique always_signed _ _ _ _ _ Fl Fu Le E bits bits' v). Qed.

Lemma value_read lower upper shift coeff negative : fits64 lower -> fits64 upper -> lower <= upper ->
  get_bits_encoding_coeffs lower upper = Some (shift, coeff, negative) ->
  forall v, lower <= v <= upper -> encodes (bit_weights false shift negative) (bits_of_value negative (bit_weights false shift negative) v) v.
Proof.
  intros Fl Fu Le E v B. rewrite (weights_chosen false lower upper shift coeff negative Fl Fu Le E). simpl orb.
  assert (N : negative = if lower <? 0 then - 2 ^ Z.of_nat (width lower upper) else 0).
  { destruct (coeffs_spec lower upper Fl Fu Le) as [C D]. assert (Dec : fitting lower upper \/ ~ fitting lower upper) by (unfold fitting; lia). destruct Dec as [F|F]; [|rewrite D in E by assumption; discriminate].
    rewrite C in E by assumption. now injection E. }
  rewrite N at 1. apply read_bits_weights. destruct (width_covers lower upper Fl Fu Le). lia.
Qed.

(** Any sum of a sign bit and consecutive powers of two that reaches both bounds has at
    least as many bits. *)
Lemma no_shorter lower upper shift coeff negative : fits64 lower -> fits64 upper -> lower <= upper ->
  get_bits_encoding_coeffs lower upper = Some (shift, coeff, negative) ->
  forall shift' negative', (negative' = 0 \/ (negative' = - 2 ^ (shift' + 1) /\ lower < 0)) -> -1 <= shift' ->
  (forall v, lower <= v <= upper -> exists bits, encodes (bit_weights false shift' negative') bits v) ->
  (length (bit_weights false shift negative) <= length (bit_weights false shift' negative'))%nat.
Proof.
  intros Fl Fu Le E shift' negative' N S A. rewrite (weights_chosen false lower upper shift coeff negative Fl Fu Le E). simpl orb.
  set (k := Z.to_nat (shift' + 1)). assert (K : Z.of_nat k = shift' + 1) by (unfold k; lia).
  assert (X : bit_weights false shift' negative' = weights (negb (negative' =? 0)) k).
  { unfold bit_weights. simpl andb. cbv iota. fold k. fold (powers k). destruct (Z.eqb_spec negative' 0) as [->|]; simpl; [reflexivity|].
    destruct N as [->|[-> _]]; [contradiction|]. now rewrite K. }
  rewrite X in *. eapply encoding_tight; eauto. intro Y. apply negb_true_iff, Z.eqb_neq in Y. destruct N as [->|[_ N]]; [contradiction|assumption].
Qed.
