(** Lemmas about bounds of products and quotients. *)
From Coq Require Import ZArith List Bool Lia.
From Verif Require Import ProductBounds ProductSpec.
Local Open Scope Z_scope.

(** ** Division *)

Lemma div_floor_spec a b : b <> 0 -> div_floor a b = a / b.
Proof.
  intro Hb. unfold div_floor. destruct (Z.eqb_spec a 0) as [->|Ha].
  { rewrite andb_false_r. rewrite Z.quot_0_l, Z.div_0_l; auto. }
  rewrite andb_true_r. destruct (Z.leb_spec 0 a), (Z.leb_spec 0 b); cbn [Bool.eqb negb].
  - apply Z.quot_div_nonneg; lia.
  - rewrite (Z.abs_eq a), (Z.abs_neq b) by lia.
    replace (1 - a) with (- (a - 1)) by lia. rewrite Z.quot_opp_l by lia. rewrite Z.quot_div_nonneg by lia.
    apply Z.div_unique with (r := (a - 1) mod (- b) + b + 1).
    + right. pose proof (Z.mod_pos_bound (a - 1) (- b)). lia.
    + pose proof (Z.div_mod (a - 1) (- b)). lia.
  - rewrite (Z.abs_neq a), (Z.abs_eq b) by lia. replace (1 - - a) with (- (- a - 1)) by lia. rewrite Z.quot_opp_l by lia. rewrite Z.quot_div_nonneg by lia.
    apply Z.div_unique with (r := b - 1 - (- a - 1) mod b).
    + left. pose proof (Z.mod_pos_bound (- a - 1) b). lia.
    + pose proof (Z.div_mod (- a - 1) b). lia.
  - rewrite <- (Z.opp_involutive a), <- (Z.opp_involutive b). rewrite Z.quot_opp_opp, Z.div_opp_opp by lia. apply Z.quot_div_nonneg; lia.
Qed.

Lemma div_ceil_spec a b : b <> 0 -> div_ceil a b = - ((- a) / b).
Proof.
  intro Hb. rewrite <- div_floor_spec by assumption. unfold div_ceil, div_floor. destruct (Z.eqb_spec a 0) as [->|Ha].
  { cbn [Z.opp]. change (0 =? 0) with true. cbn [negb]. rewrite !andb_false_r. rewrite Z.quot_0_l; auto. }
  destruct (Z.eqb_spec (- a) 0) as [|_]; [lia|]. rewrite !andb_true_r, Z.abs_opp.
  assert (E : forall x, 1 - x = - (x - 1)) by (intro; lia). rewrite E.
  destruct (Z.leb_spec 0 a), (Z.leb_spec 0 (- a)), (Z.leb_spec 0 b); try lia; cbn [Bool.eqb negb]; rewrite ?Z.quot_opp_l by lia; lia.
Qed.

(** [x <= a / b] and so on, for a positive divisor. *)
Lemma floor_ge a b x : 0 < b -> (x <= div_floor a b <-> x * b <= a).
Proof.
  intro Hb. rewrite div_floor_spec by lia. split; intro H.
  - pose proof (Z.mul_div_le a b Hb). nia.
  - apply Z.div_le_lower_bound; lia.
Qed.

Lemma ceil_le a b x : 0 < b -> (div_ceil a b <= x <-> a <= x * b).
Proof.
  intro Hb. rewrite div_ceil_spec by lia. pose proof (floor_ge (- a) b (- x) Hb) as H. rewrite div_floor_spec in H by lia. lia.
Qed.

Lemma floor_opp a b : b <> 0 -> div_floor (- a) (- b) = div_floor a b.
Proof. intro H. rewrite !div_floor_spec by lia. now apply Z.div_opp_opp. Qed.

Lemma ceil_opp a b : b <> 0 -> div_ceil (- a) (- b) = div_ceil a b.
Proof. intro H. rewrite !div_ceil_spec by lia. f_equal. now apply Z.div_opp_opp. Qed.

(** ** Square roots *)

Lemma newton_step n x : 0 < n -> Z.sqrt n <= x -> 0 < x -> let y := Z.quot (x + Z.quot n x) 2 in
  Z.sqrt n <= y /\ 0 < y /\ (y < x -> x <> Z.sqrt n) /\ (x <> Z.sqrt n -> y < x /\ y - Z.sqrt n <= (x - Z.sqrt n) / 2).
Proof.
  intros Hn Hx Px y. unfold y. rewrite (Z.quot_div_nonneg n x) by lia. pose proof (Z.div_pos n x ltac:(lia) Px) as Dp.
  rewrite Z.quot_div_nonneg by lia. clear y. destruct (Z.sqrt_spec n ltac:(lia)) as [S1 S2]. set (s := Z.sqrt n) in *.
  assert (Sp : 0 < s) by (apply Z.sqrt_pos; lia).
  pose proof (Z.div_mod n x ltac:(lia)) as Dm. pose proof (Z.mod_pos_bound n x Px) as Mb. set (q := n / x) in *. set (m := n mod x) in *.
  assert (Lo : 2 * s <= x + q).
  { destruct (Z_le_gt_dec (2 * s) (x + q)) as [|G]; [assumption|]. exfalso.
    assert (q + 1 <= 2 * s - x) by lia. assert (n < x * (2 * s - x)) by nia. assert (x * (2 * s - x) <= s * s) by (pose proof (Z.square_nonneg (x - s)); nia). lia. }
  assert (Y : s <= (x + q) / 2) by (apply Z.div_le_lower_bound; lia).
  split; [assumption|]. split; [lia|]. split.
  - intros L ->. assert (s <= q) by nia. assert (s + q >= 2 * s) by lia. pose proof (Z.div_le_lower_bound (s + q) 2 s). lia.
  - intro N. assert (s + 1 <= x) by lia. assert (q <= s) by nia.
    assert ((x + q) / 2 <= (x + s) / 2) by (apply Z.div_le_mono; lia).
    assert ((x + s) / 2 = s + (x - s) / 2) by (replace (x + s) with (x - s + s * 2) by lia; rewrite Z.div_add by lia; lia).
    assert ((x - s) / 2 < x - s) by (apply Z.div_lt; lia). lia.
Qed.

Lemma newton_sqrt fuel : forall n x, 0 < n -> Z.sqrt n <= x -> 0 < x -> x - Z.sqrt n < 2 ^ (Z.of_nat fuel) -> newton (S fuel) n x = Some (Z.sqrt n).
Proof.
  induction fuel as [|k IH]; intros n x Hn Hx Px Er; destruct (newton_step n x Hn Hx Px) as (A & B & C & D); cbv zeta in *; set (y := Z.quot (x + Z.quot n x) 2) in *.
  - change (2 ^ Z.of_nat 0) with 1 in Er. assert (x = Z.sqrt n) by lia. cbn [newton]. fold y. destruct (Z.ltb_spec y x) as [L|L]; [exfalso; now apply (C L)|congruence].
  - cbn [newton]. fold y. destruct (Z.ltb_spec y x) as [L|L].
    + destruct (D (C L)) as [_ E]. apply (IH n y); auto. rewrite Nat2Z.inj_succ, Z.pow_succ_r in Er by lia.
      apply (Z.le_lt_trans _ ((x - Z.sqrt n) / 2)); [assumption|]. apply Z.div_lt_upper_bound; lia.
    + f_equal. destruct (Z.eq_dec x (Z.sqrt n)) as [|N]; [assumption|]. apply D in N. lia.
Qed.

Lemma isqrt_spec n : 0 <= n -> isqrt n = Z.sqrt n.
Proof.
  intro H. unfold isqrt. destruct (Z.ltb_spec n 0); [lia|]. destruct (Z.ltb_spec n 2) as [L|L].
  - assert (n = 0 \/ n = 1) as [-> | ->] by lia; reflexivity.
  - rewrite Nat.add_succ_r, (newton_sqrt (Z.to_nat (Z.log2 n) + 1) n n); [reflexivity|lia|apply Z.sqrt_le_lin; lia|lia|].
    rewrite Nat2Z.inj_add, Z2Nat.id by apply Z.log2_nonneg. destruct (Z.log2_spec n ltac:(lia)) as [_ U]. pose proof (Z.sqrt_nonneg n). change (Z.of_nat 1) with 1. rewrite <- Z.add_1_r in U. lia.
Qed.

Lemma isqrt_bound n x : 0 <= n -> x * x <= n -> - isqrt n <= x <= isqrt n.
Proof.
  intros H S. rewrite isqrt_spec by assumption. destruct (Z.sqrt_spec n H). pose proof (Z.sqrt_nonneg n). nia.
Qed.

Lemma isqrt_square n : 0 <= n -> 0 <= isqrt n /\ isqrt n * isqrt n <= n.
Proof. intro H. rewrite isqrt_spec by assumption. destruct (Z.sqrt_spec n H). split; [apply Z.sqrt_nonneg|assumption]. Qed.

Lemma ceil_isqrt_bound n x : 0 <= n -> n <= x * x -> x <= - ceil_isqrt n \/ ceil_isqrt n <= x.
Proof.
  intros H S. unfold ceil_isqrt. rewrite isqrt_spec by assumption. destruct (Z.sqrt_spec n H). pose proof (Z.sqrt_nonneg n). destruct (Z.eqb_spec (Z.sqrt n * Z.sqrt n) n); nia.
Qed.

Lemma ceil_isqrt_square n : 0 <= n -> 0 <= ceil_isqrt n /\ n <= ceil_isqrt n * ceil_isqrt n.
Proof.
  intros H. unfold ceil_isqrt. rewrite isqrt_spec by assumption. destruct (Z.sqrt_spec n H). pose proof (Z.sqrt_nonneg n). destruct (Z.eqb_spec (Z.sqrt n * Z.sqrt n) n); nia.
Qed.

(** ** Products *)

Lemma mul_between x l u y : l <= y <= u -> Z.min (x * l) (x * u) <= x * y <= Z.max (x * l) (x * u).
Proof.
  intro H. destruct (Z_le_gt_dec 0 x).
  - assert (x * l <= x * y) by nia. assert (x * y <= x * u) by nia. lia.
  - assert (x * u <= x * y) by nia. assert (x * y <= x * l) by nia. lia.
Qed.

Lemma product_bounds_spec xl xu yl yu x y : xl <= x <= xu -> yl <= y <= yu -> fst (product_bounds xl xu yl yu) <= x * y <= snd (product_bounds xl xu yl yu).
Proof.
  intros Hx Hy. unfold product_bounds. cbn [fst snd].
  pose proof (mul_between x yl yu y Hy) as L. pose proof (mul_between yl xl xu x Hx) as A. pose proof (mul_between yu xl xu x Hx) as B.
  rewrite (Z.mul_comm yl xl), (Z.mul_comm yl xu), (Z.mul_comm yl x) in A. rewrite (Z.mul_comm yu xl), (Z.mul_comm yu xu), (Z.mul_comm yu x) in B.
  lia.
Qed.

(** The bounds are products of two of the ends. *)
Lemma product_bounds_attained xl xu yl yu : xl <= xu -> yl <= yu -> forall b, b = fst (product_bounds xl xu yl yu) \/ b = snd (product_bounds xl xu yl yu) ->
  exists x y, xl <= x <= xu /\ yl <= y <= yu /\ x * y = b.
Proof.
  intros Hx Hy b Hb. assert (E : b = xl * yl \/ b = xl * yu \/ b = xu * yl \/ b = xu * yu) by (unfold product_bounds in Hb; cbn [fst snd] in Hb; lia).
  destruct E as [->|[->|[->| ->]]]; [exists xl, yl|exists xl, yu|exists xu, yl|exists xu, yu]; lia.
Qed.

Lemma square_bounds_spec lo hi x : lo <= x <= hi -> fst (square_bounds lo hi) <= x * x <= snd (square_bounds lo hi).
Proof.
  intro H. assert (U : x * x <= lo * lo \/ x * x <= hi * hi) by (destruct (Z_le_gt_dec 0 x); [right|left]; nia). pose proof (Z.square_nonneg x).
  unfold square_bounds. destruct (Z.leb_spec lo 0), (Z.leb_spec 0 hi); cbn [andb fst snd]; try lia.
  - assert (hi * hi <= x * x) by nia. lia.
  - assert (lo * lo <= x * x) by nia. lia.
Qed.

Lemma square_bounds_attained lo hi : lo <= hi -> forall b, b = fst (square_bounds lo hi) \/ b = snd (square_bounds lo hi) -> exists x, lo <= x <= hi /\ x * x = b.
Proof.
  intros H b Hb. assert (E : (lo <= 0 <= hi /\ b = 0) \/ b = lo * lo \/ b = hi * hi).
  { unfold square_bounds in Hb. destruct (Z.leb_spec lo 0), (Z.leb_spec 0 hi); cbn [andb fst snd] in Hb; lia. }
  destruct E as [[E ->]|[->| ->]]; [exists 0|exists lo|exists hi]; lia.
Qed.

(** ** Quotients *)

Lemma corners yl yu zl zu x y : 0 < yl -> yl <= y <= yu -> zl <= x * y <= zu ->
  Z.min (div_ceil zl yl) (div_ceil zl yu) <= x <= Z.max (div_floor zu yl) (div_floor zu yu).
Proof.
  intros P Hy Hz. split.
  - destruct (Z_le_gt_dec 0 x).
    + assert (div_ceil zl yu <= x) by (apply ceil_le; nia). lia.
    + assert (div_ceil zl yl <= x) by (apply ceil_le; nia). lia.
  - destruct (Z_le_gt_dec 0 x).
    + assert (x <= div_floor zu yl) by (apply floor_ge; nia). lia.
    + assert (x <= div_floor zu yu) by (apply floor_ge; nia). lia.
Qed.

Lemma corners_negative yl yu zl zu x y : yu < 0 -> yl <= y <= yu -> zl <= x * y <= zu ->
  Z.min (div_ceil zu yl) (div_ceil zu yu) <= x <= Z.max (div_floor zl yl) (div_floor zl yu).
Proof.
  intros P Hy Hz. pose proof (corners (- yu) (- yl) (- zu) (- zl) x (- y) ltac:(lia) ltac:(lia) ltac:(lia)) as C.
  rewrite !ceil_opp, !floor_opp in C by lia. lia.
Qed.

Lemma quotient_filter_spec yl yu zl zu x y : yl <= y <= yu -> zl <= x * y <= zu ->
  match quotient_filter yl yu zl zu with NoFilter => True | EmptyBecauseYZero => False | Bounds lo hi => lo <= x <= hi end.
Proof.
  intros Hy Hz. unfold quotient_filter.
  destruct ((zl <=? 0) && (0 <=? zu) && (yl <=? 0) && (0 <=? yu)) eqn:E0; [exact I|].
  assert (Nz : ~ (zl <= 0 <= zu /\ yl <= 0 <= yu)).
  { intros (A & B). assert ((zl <=? 0) && (0 <=? zu) && (yl <=? 0) && (0 <=? yu) = true); [|congruence]. rewrite !andb_true_iff, !Z.leb_le. lia. }
  clear E0. destruct (Z.eqb_spec yl 0) as [El|Nl], (Z.eqb_spec yu 0) as [Eu|Nu]; cbn [andb].
  - assert (y = 0) by lia. subst. lia.
  - subst yl. destruct (Z.ltb_spec 0 0); [lia|]. cbn [andb]. assert (Py : 1 <= y) by (assert (y <> 0) by (intros ->; lia); lia).
    pose proof (corners 1 yu zl zu x y ltac:(lia) ltac:(lia) Hz). lia.
  - subst yu. destruct (Z.ltb_spec 0 0); [lia|]. rewrite andb_false_r. assert (Py : y <= -1) by (assert (y <> 0) by (intros ->; lia); lia).
    pose proof (corners_negative yl (-1) zl zu x y ltac:(lia) ltac:(lia) Hz). lia.
  - destruct (Z.ltb_spec yl 0), (Z.ltb_spec 0 yu); cbn [andb].
    + assert (y <> 0) by (intros ->; lia). assert (Z.abs x <= Z.abs (x * y)) by (rewrite Z.abs_mul; nia). lia.
    + pose proof (corners_negative yl yu zl zu x y ltac:(lia) ltac:(lia) Hz). lia.
    + pose proof (corners yl yu zl zu x y ltac:(lia) ltac:(lia) Hz). lia.
    + pose proof (corners yl yu zl zu x y ltac:(lia) ltac:(lia) Hz). lia.
Qed.

(** ** How tight *)

Lemma reaches_wider b yl yu yl' yu' zl zu : yl <= yl' -> yl' <= yu' -> yu' <= yu -> reaches b yl' yu' zl zu -> reaches b yl yu zl zu.
Proof. unfold reaches. intros A B C [H1 H2]. pose proof (mul_between b yl yu yl' ltac:(lia)). pose proof (mul_between b yl yu yu' ltac:(lia)). lia. Qed.

Lemma corner_ceil z y b : y <> 0 -> div_ceil z y <= b -> (0 < y /\ z <= b * y) \/ (y < 0 /\ b * y <= z).
Proof.
  intros N H. destruct (Z_lt_le_dec 0 y) as [P|P]; [left; split; [assumption|now apply ceil_le]|]. right. split; [lia|].
  rewrite <- ceil_opp in H by assumption. apply ceil_le in H; lia.
Qed.

Lemma corner_floor z y b : y <> 0 -> b <= div_floor z y -> (0 < y /\ b * y <= z) \/ (y < 0 /\ z <= b * y).
Proof.
  intros N H. destruct (Z_lt_le_dec 0 y) as [P|P]; [left; split; [assumption|now apply floor_ge]|]. right. split; [lia|].
  rewrite <- floor_opp in H by assumption. apply floor_ge in H; lia.
Qed.

Lemma min_le a b c : Z.min a b <= c -> a <= c \/ b <= c.
Proof. lia. Qed.

Lemma max_ge a b c : c <= Z.max a b -> c <= a \/ c <= b.
Proof. lia. Qed.

Lemma quotient_filter_tight yl yu zl zu b : yl <= yu -> zl <= zu -> ~ (yl < 0 < yu /\ (zu < 0 \/ 0 < zl)) ->
  match quotient_filter yl yu zl zu with NoFilter => True | EmptyBecauseYZero => False | Bounds lo hi => lo <= b <= hi end -> reaches b yl yu zl zu.
Proof.
  intros Hy Hz Sp. unfold quotient_filter. destruct ((zl <=? 0) && (0 <=? zu) && (yl <=? 0) && (0 <=? yu)) eqn:E.
  { intros _. rewrite !andb_true_iff, !Z.leb_le in E. pose proof (mul_between b yl yu 0 ltac:(lia)). unfold reaches. lia. }
  destruct ((yl =? 0) && (yu =? 0)) eqn:E0; [intros []|].
  assert (NN : ~ (zl <= 0 <= zu /\ yl <= 0 <= yu)) by (intro X; rewrite !andb_false_iff, !Z.leb_gt in E; lia).
  assert (N0 : ~ (yl = 0 /\ yu = 0)) by (intro X; rewrite andb_false_iff, !Z.eqb_neq in E0; lia).
  destruct ((yl <? 0) && (0 <? yu)) eqn:Es.
  { rewrite andb_true_iff, !Z.ltb_lt in Es. exfalso. apply Sp. lia. }
  rewrite andb_false_iff, !Z.ltb_ge in Es.
  assert (G : forall yl' yu', yl' <= yu' -> (0 < yl' \/ yu' < 0) ->
    Z.min (Z.min (Z.min (div_ceil zl yl') (div_ceil zl yu')) (div_ceil zu yl')) (div_ceil zu yu') <= b <=
    Z.max (Z.max (Z.max (div_floor zl yl') (div_floor zl yu')) (div_floor zu yl')) (div_floor zu yu') -> reaches b yl' yu' zl zu).
  { intros u w Huw Sg [A B]. unfold reaches.
    assert (A' : (0 < u -> zl <= Z.max (b * u) (b * w)) /\ (w < 0 -> Z.min (b * u) (b * w) <= zu)).
    { repeat (apply min_le in A; destruct A as [A|A]); apply corner_ceil in A; lia. }
    assert (B' : (0 < u -> Z.min (b * u) (b * w) <= zu) /\ (w < 0 -> zl <= Z.max (b * u) (b * w))).
    { repeat (apply max_ge in B; destruct B as [B|B]); apply corner_floor in B; lia. }
    lia. }
  destruct (Z.eqb_spec yl 0) as [->|Nl]; [|destruct (Z.eqb_spec yu 0) as [->|Nu]]; intro H.
  - apply (reaches_wider b 0 yu 1 yu); try lia. apply G; [lia|lia|exact H].
  - apply (reaches_wider b yl 0 yl (-1)); try lia. apply G; [lia|lia|exact H].
  - apply G; [lia|lia|exact H].
Qed.

Lemma square_roots n : 0 <= n ->
  (0 <= isqrt n /\ isqrt n * isqrt n <= n < (isqrt n + 1) * (isqrt n + 1)) /\
  (0 <= ceil_isqrt n /\ n <= ceil_isqrt n * ceil_isqrt n /\ forall r, 0 <= r -> n <= r * r -> ceil_isqrt n <= r).
Proof.
  intro H. destruct (isqrt_square n H) as [A B]. destruct (ceil_isqrt_square n H) as [C D]. pose proof (isqrt_spec n H) as E. destruct (Z.sqrt_spec n H) as [F G].
  split; [split; [assumption|]; split; [assumption|]; rewrite E; unfold Z.succ in G; lia|]. split; [assumption|]. split; [assumption|].
  intros r Hr Hs. destruct (ceil_isqrt_bound n r H Hs); [|assumption]. lia.
Qed.
