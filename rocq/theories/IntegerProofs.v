(** Lemmas about the checked integer model. *)
From Coq Require Import ZArith Bool Lia.
From Verif Require Import Integer IntegerSpec.
Local Open Scope Z_scope.

(** The specification vocabulary with the constants computed; convertible to
    [IntegerSpec.int64_range] and [IntegerSpec.exact_or_throws]. *)
Definition i64 (z : Z) : Prop := int64_min <= z <= int64_max.
Definition eot (exact : Z) (r : option Z) : Prop :=
  (i64 exact -> r = Some exact) /\ (~ i64 exact -> r = None).

Ltac bz :=
  repeat match goal with
  | H : context [?a =? ?b] |- _ => destruct (Z.eqb_spec a b)
  | |- context [?a =? ?b] => destruct (Z.eqb_spec a b)
  | |- context [?a <? ?b] => destruct (Z.ltb_spec a b)
  | |- context [?a <=? ?b] => destruct (Z.leb_spec a b)
  end.

Lemma int_add_exact a b : i64 a -> i64 b ->
  eot (a + b) (int_add a b).
Proof.
  unfold eot, i64, int_add, add_overflows, int64_min, int64_max.
  intros. bz; split; intros; try reflexivity; lia.
Qed.

Lemma int_sub_exact a b : i64 a -> i64 b ->
  eot (a - b) (int_sub a b).
Proof.
  unfold eot, i64, int_sub, sub_overflows, int64_min, int64_max.
  intros. bz; split; intros; try reflexivity; lia.
Qed.

Lemma quot_bounds_pos n d : 0 <= n -> 0 < d ->
  d * Z.quot n d <= n < d * Z.quot n d + d.
Proof.
  intros Hn Hd. rewrite Z.quot_div_nonneg by lia.
  pose proof (Z.mul_div_le n d Hd). pose proof (Z.mul_succ_div_gt n d Hd). lia.
Qed.

Lemma quot_neg_num n d : Z.quot (- n) d = - Z.quot n d.
Proof. destruct (Z.eq_dec d 0) as [->|]; [destruct n; reflexivity | apply Z.quot_opp_l; assumption]. Qed.

Lemma quot_neg_den n d : Z.quot n (- d) = - Z.quot n d.
Proof. destruct (Z.eq_dec d 0) as [->|]; [destruct n; reflexivity | apply Z.quot_opp_r; assumption]. Qed.

Lemma mul_overflows_iff a b : i64 a -> i64 b ->
  mul_overflows a b = true <-> ~ i64 (a * b).
Proof.
  unfold i64, mul_overflows. intros Ha Hb.
  set (M := int64_max). assert (HM : 0 < M) by (unfold M, int64_max; lia).
  assert (Hmin : int64_min = - (M + 1)) by reflexivity.
  rewrite Hmin in *. fold M in Ha, Hb. clearbody M.
  destruct (Z.ltb_spec 0 a); destruct (Z.ltb_spec 0 b).
  - rewrite Z.ltb_lt. pose proof (quot_bounds_pos M b ltac:(lia) ltac:(lia)). split; nia.
  - rewrite Z.ltb_lt, quot_neg_num. pose proof (quot_bounds_pos (M+1) a ltac:(lia) ltac:(lia)). split; nia.
  - rewrite Z.ltb_lt, quot_neg_num. pose proof (quot_bounds_pos (M+1) b ltac:(lia) ltac:(lia)). split; nia.
  - rewrite andb_true_iff, negb_true_iff, Z.eqb_neq, Z.ltb_lt.
    destruct (Z.eq_dec a 0) as [->|].
    + split; nia.
    + replace a with (- (- a)) at 2 by lia. rewrite quot_neg_den.
      pose proof (quot_bounds_pos M (- a) ltac:(lia) ltac:(lia)). split; nia.
Qed.

Lemma int_mul_exact a b : i64 a -> i64 b ->
  eot (a * b) (int_mul a b).
Proof.
  intros Ha Hb. pose proof (mul_overflows_iff a b Ha Hb) as E.
  unfold eot, int_mul. destruct (mul_overflows a b).
  - split; [|reflexivity]. intro; exfalso; apply E; auto.
  - split; [reflexivity|]. intro Hn. apply E in Hn. discriminate.
Qed.

Lemma quot_range a b : i64 a -> i64 b -> b <> 0 ->
  ~ (a = int64_min /\ b = -1) -> i64 (Z.quot a b).
Proof.
  unfold i64. intros Ha Hb H0 Hn.
  assert (Hmin : int64_min = - (int64_max + 1)) by reflexivity.
  rewrite Hmin in *.
  assert (HM : 0 < int64_max) by (unfold int64_max; lia).
  set (M := int64_max) in *. clearbody M. clear Hmin.
  pose proof (Z.quot_rem' a b) as E.
  destruct (Z.le_gt_cases 0 a); destruct (Z.le_gt_cases 0 b).
  - pose proof (Z.rem_bound_pos a b ltac:(lia) ltac:(lia)). nia.
  - pose proof (Z.rem_bound_pos a (-b) ltac:(lia) ltac:(lia)).
    rewrite Z.rem_opp_r in H2 by lia. nia.
  - pose proof (Z.rem_bound_pos (-a) b ltac:(lia) ltac:(lia)).
    rewrite Z.rem_opp_l in H2 by lia. nia.
  - pose proof (Z.rem_bound_pos (-a) (-b) ltac:(lia) ltac:(lia)).
    rewrite Z.rem_opp_r, Z.rem_opp_l in H2 by lia.
    destruct (Z.eq_dec b (-1)) as [->|]; nia.
Qed.

Lemma int_div_exact a b : i64 a -> i64 b ->
  (b <> 0 -> eot (Z.quot a b) (int_div a b)) /\ (b = 0 -> int_div a b = None).
Proof.
  intros Ha Hb. unfold int_div. split; intro H0.
  - unfold eot.
    destruct (Z.eqb_spec b 0); [lia|].
    destruct (Z.eqb_spec a int64_min); destruct (Z.eqb_spec b (-1)); simpl; subst.
    + split; [|reflexivity]. unfold i64, int64_min, int64_max. vm_compute.
      intros [_ H]; exfalso; apply H; reflexivity.
    + split; [reflexivity|]. intro Hn. exfalso; apply Hn, quot_range; tauto.
    + split; [reflexivity|]. intro Hn. exfalso; apply Hn, quot_range; tauto.
    + split; [reflexivity|]. intro Hn. exfalso; apply Hn, quot_range; tauto.
  - subst. reflexivity.
Qed.

(** The remainder of int64_min by -1 is 0, which fits, but the operation throws
    because the machine quotient does not. *)
Lemma int_rem_exact a b : i64 a -> i64 b ->
  int_rem a b = (if (b =? 0) || ((a =? int64_min) && (b =? -1)) then None else Some (Z.rem a b)) /\
  (b <> 0 -> i64 (Z.rem a b)).
Proof.
  intros Ha Hb. unfold int_rem. split.
  - destruct (b =? 0); [reflexivity|]. reflexivity.
  - intro H0. unfold i64 in *.
    destruct (Z.le_gt_cases 0 a).
    + pose proof (Z.rem_bound_pos a (Z.abs b) ltac:(lia) ltac:(lia)).
      rewrite Z.rem_abs_r in H1 by lia. unfold int64_min, int64_max in *. lia.
    + pose proof (Z.rem_bound_pos (-a) (Z.abs b) ltac:(lia) ltac:(lia)).
      rewrite Z.rem_abs_r, Z.rem_opp_l in H1 by lia. unfold int64_min, int64_max in *. lia.
Qed.

Lemma int_neg_exact a : i64 a -> eot (- a) (int_neg a).
Proof.
  unfold eot, i64, int_neg, int64_min, int64_max.
  intros. bz; split; intros; try reflexivity; lia.
Qed.

Lemma int_incr_exact a : i64 a -> eot (a + 1) (int_incr a).
Proof.
  unfold eot, i64, int_incr, int64_min, int64_max.
  intros. bz; split; intros; try reflexivity; lia.
Qed.

Lemma int_decr_exact a : i64 a -> eot (a - 1) (int_decr a).
Proof.
  unfold eot, i64, int_decr, int64_min, int64_max.
  intros. bz; split; intros; try reflexivity; lia.
Qed.

Lemma int_abs_exact a : i64 a -> eot (Z.abs a) (int_abs a).
Proof.
  unfold eot, i64, int_abs, int64_min, int64_max.
  intros. bz; split; intros; try reflexivity; lia.
Qed.

Lemma power2_exact i : 0 <= i -> eot (2 ^ i) (power2 i).
Proof.
  intro Hi. unfold power2, eot, i64.
  destruct (Z.ltb_spec i 0); [lia|]. simpl.
  assert (0 < 2 ^ i) by (apply Z.pow_pos_nonneg; lia).
  destruct (Z.leb_spec 63 i).
  - split; [|reflexivity]. intros [_ Hle]. exfalso.
    pose proof (Z.pow_le_mono_r 2 63 i ltac:(lia) ltac:(lia)) as P.
    change (2 ^ 63) with (int64_max + 1) in P. lia.
  - split; [reflexivity|]. intro Hn. exfalso. apply Hn.
    pose proof (Z.pow_lt_mono_r 2 i 63 ltac:(lia) ltac:(lia) ltac:(lia)) as P.
    change (2 ^ 63) with (int64_max + 1) in P. unfold int64_min. lia.
Qed.

(** ** checked_integer_power *)

Lemma pow_even_odd b e : 0 < e ->
  b ^ e = (if Z.odd e then b else 1) * (b * b) ^ (Z.div2 e).
Proof.
  intro He. rewrite (Z.div2_odd e) at 1.
  assert (0 <= Z.div2 e) by (rewrite Z.div2_div; apply Z.div_pos; lia).
  replace (b * b) with (b ^ 2) by (rewrite Z.pow_2_r; reflexivity).
  destruct (Z.odd e); simpl Z.b2z.
  - rewrite Z.pow_add_r by lia. rewrite Z.pow_mul_r by lia. rewrite Z.pow_1_r. ring.
  - rewrite Z.add_0_r, Z.pow_mul_r by lia. ring.
Qed.

Lemma abs_pow_ge_1 b e : b <> 0 -> 0 <= e -> 1 <= Z.abs (b ^ e).
Proof.
  intros Hb He. rewrite Z.abs_pow.
  assert (0 < Z.abs b ^ e) by (apply Z.pow_pos_nonneg; lia). lia.
Qed.

Lemma abs_pow_ge_base b e : b <> 0 -> 1 <= e -> Z.abs b <= Z.abs (b ^ e).
Proof.
  intros Hb He. rewrite Z.abs_pow.
  replace (Z.abs b) with (Z.abs b ^ 1) at 1 by apply Z.pow_1_r.
  apply Z.pow_le_mono_r; lia.
Qed.

Lemma no_square_2_63 b : b * b <> 2 ^ 63.
Proof.
  intro E. change (2 ^ 63) with (9223372036854775808) in E.
  assert (Z.abs b * Z.abs b = 9223372036854775808) by nia.
  assert (Z.abs b <= 3037000499 \/ 3037000500 <= Z.abs b) as [|] by lia; nia.
Qed.

Lemma i64_dec x : i64 x \/ ~ i64 x.
Proof. unfold i64. lia. Qed.

Lemma eot_some x y : eot x (Some y) -> i64 x /\ y = x.
Proof.
  intros [A B]. destruct (i64_dec x) as [H|H].
  - split; [assumption|]. specialize (A H). congruence.
  - specialize (B H). discriminate.
Qed.

Lemma eot_none x : eot x None -> ~ i64 x.
Proof. intros [A B] H. specialize (A H). discriminate. Qed.

Lemma sq_ge_4 b : 2 <= Z.abs b -> 4 <= b * b.
Proof. intro H. rewrite <- (Z.abs_square b). nia. Qed.

Lemma sq_overflow b : ~ i64 (b * b) -> 9223372036854775809 <= b * b.
Proof.
  intro Hn. pose proof (no_square_2_63 b) as Hsq. change (2^63) with 9223372036854775808 in Hsq.
  pose proof (Z.square_nonneg b). unfold i64, int64_min, int64_max in Hn. lia.
Qed.

Lemma mul_nz a b : a <> 0 -> b <> 0 -> a * b <> 0.
Proof. intros Ha Hb E. apply Z.mul_eq_0 in E. tauto. Qed.

Lemma mul_ge_r p q n : 1 <= p -> n <= q -> 0 <= n -> n <= p * q.
Proof. nia. Qed.

Lemma mul_big p q : 9223372036854775808 <= p -> 4 <= q -> 9223372036854775809 <= p * q.
Proof. nia. Qed.

Lemma big_not_range x : 9223372036854775809 <= Z.abs x -> ~ i64 x.
Proof. unfold i64, int64_min, int64_max. lia. Qed.

Lemma power_loop_spec fuel : forall result b e,
  i64 result -> i64 b -> 2 <= Z.abs b -> result <> 0 ->
  0 <= e < 2 ^ Z.of_nat fuel ->
  exists r, power_loop (S fuel) result b e = Some r /\ eot (result * b ^ e) r.
Proof.
  induction fuel as [|fuel IH]; intros result b e Hr Hb Hb2 Hr0 He.
  - simpl in He. assert (e = 0) by lia. subst e. simpl. rewrite Z.mul_1_r. exists (Some result). split; [reflexivity|].
    split; [reflexivity | intro Hn; contradiction].
  - remember (S fuel) as f. simpl power_loop.
    destruct (Z.ltb_spec 0 e).
    2: { assert (e = 0) by lia. subst e. exists (Some result). split; [reflexivity|].
         rewrite Z.pow_0_r, Z.mul_1_r. split; [reflexivity|contradiction]. }
    pose proof (pow_even_odd b e H) as Epow.
    set (e' := Z.div2 e) in *.
    assert (He' : 0 <= e' < 2 ^ Z.of_nat fuel).
    { unfold e'. rewrite Z.div2_div. subst f. rewrite Nat2Z.inj_succ, Z.pow_succ_r in He by lia.
      split; [apply Z.div_pos; lia | apply Z.div_lt_upper_bound; lia]. }
    set (bo := if Z.odd e then b else 1) in *.
    assert (Hm : (if Z.odd e then int_mul result b else Some result)
                 = if Z.odd e then int_mul result b else Some (result)) by reflexivity.
    assert (Hfst : eot (result * bo) (if Z.odd e then int_mul result b else Some result)).
    { unfold bo. destruct (Z.odd e); [apply int_mul_exact; assumption|].
      rewrite Z.mul_1_r. split; [reflexivity|contradiction]. }
    assert (Hbo0 : bo <> 0) by (unfold bo; destruct (Z.odd e); lia).
    pose proof (sq_ge_4 b Hb2) as Hsq4. assert (Hbb0 : b * b <> 0) by lia.
    assert (Hbo1 : 1 <= Z.abs (result * bo)) by (pose proof (mul_nz result bo Hr0 Hbo0); lia).
    assert (Hbb1 : 1 <= Z.abs ((b * b) ^ e')) by (apply abs_pow_ge_1; [assumption|lia]).
    assert (Hall : Z.abs (result * b ^ e) = Z.abs (result * bo) * Z.abs ((b * b) ^ e')).
    { rewrite Epow. rewrite <- Z.abs_mul. f_equal. ring. }
    destruct (if Z.odd e then int_mul result b else Some result) as [result'|] eqn:E1.
    2: { exists None. split; [reflexivity|]. split; [|reflexivity]. intro Hin. exfalso.
         pose proof (eot_none _ Hfst) as Hn1.
         destruct (Z.eq_dec e' 0) as [E0|E0].
         - apply Hn1. replace (result * bo) with (result * b ^ e); [assumption|].
           rewrite Epow, E0, Z.pow_0_r. ring.
         - revert Hin. apply big_not_range. rewrite Hall. apply mul_big.
           + revert Hn1. unfold i64, int64_min, int64_max. clear. lia.
           + pose proof (abs_pow_ge_base (b*b) e' Hbb0 ltac:(lia)). lia. }
    assert (Hres' : i64 (result * bo) /\ result' = result * bo).
    { apply eot_some. exact Hfst. }
    destruct Hres' as [Hres' ->].
    destruct (Z.ltb_spec 0 e') as [Hlt|Hge].
    + destruct (int_mul b b) as [b'|] eqn:E2.
      * assert (Hbb : i64 (b * b) /\ b' = b * b).
        { apply eot_some. rewrite <- E2. apply int_mul_exact; assumption. }
        destruct Hbb as [Hbb ->]. subst f.
        destruct (IH (result * bo) (b * b) e') as (r & Er & Hrr); try assumption; [lia|lia|].
        exists r. split; [exact Er|].
        replace (result * b ^ e) with (result * bo * (b * b) ^ e'); [assumption|]. rewrite Epow. ring.
      * exists None. split; [reflexivity|]. split; [|reflexivity]. intro Hin. exfalso.
        assert (Hnb : ~ i64 (b * b)).
        { intro Hc. apply (int_mul_exact b b Hb Hb) in Hc. congruence. }
        revert Hin. apply big_not_range. rewrite Hall. apply mul_ge_r; [assumption| |lia].
        pose proof (abs_pow_ge_base (b*b) e' Hbb0 ltac:(lia)). pose proof (sq_overflow b Hnb). lia.
    + assert (e' = 0) by lia. subst f. exists (Some (result * bo)). split.
      * simpl. replace (0 <? e') with false by (symmetry; apply Z.ltb_ge; lia). reflexivity.
      * replace (result * b ^ e) with (result * bo).
        2:{ rewrite Epow, H0, Z.pow_0_r. ring. }
        split; [reflexivity|contradiction].
Qed.

Lemma quot_1_big d : 2 <= Z.abs d -> Z.quot 1 d = 0.
Proof.
  intro H. destruct (Z.le_gt_cases 0 d).
  - apply Z.quot_small. lia.
  - replace d with (- (- d)) by lia. rewrite quot_neg_den. rewrite Z.quot_small; lia.
Qed.

Lemma pow_m1 e : 0 <= e -> (-1) ^ e = if Z.odd e then -1 else 1.
Proof.
  intro He. rewrite (Z.div2_odd e) at 1.
  assert (0 <= Z.div2 e) by (rewrite Z.div2_div; apply Z.div_pos; lia).
  assert (0 <= Z.b2z (Z.odd e)) by (destruct (Z.odd e); discriminate).
  rewrite Z.pow_add_r by lia.
  rewrite Z.pow_mul_r by lia. change ((-1)^2) with 1. rewrite Z.pow_1_l by lia.
  destruct (Z.odd e); reflexivity.
Qed.

Lemma checked_integer_power_exact base exp : i64 base -> i64 exp ->
  exists r, checked_integer_power base exp = Some r /\
    match power_meaning base exp with
    | Some exact => eot exact r
    | None => r = None
    end.
Proof.
  intros Hb He. unfold checked_integer_power, power_meaning.
  assert (R1 : i64 1) by (unfold i64, int64_min, int64_max; lia).
  assert (R0 : i64 0) by (unfold i64, int64_min, int64_max; lia).
  assert (Rm : i64 (-1)) by (unfold i64, int64_min, int64_max; lia).
  destruct (Z.eqb_spec exp 0).
  { subst. simpl. eexists; split; [reflexivity|]. split; [reflexivity|contradiction]. }
  destruct (Z.eqb_spec base 1).
  { subst. eexists; split; [reflexivity|]. destruct (Z.leb_spec 0 exp); simpl.
    - rewrite Z.pow_1_l by lia. split; [reflexivity|contradiction].
    - rewrite Z.pow_1_l by lia. split; [reflexivity|contradiction]. }
  destruct (Z.eqb_spec base (-1)).
  { subst. eexists; split; [reflexivity|]. destruct (Z.leb_spec 0 exp).
    - rewrite pow_m1 by lia. destruct (Z.odd exp); split; reflexivity || contradiction.
    - simpl (-1 =? 0). cbv iota. rewrite pow_m1 by lia. rewrite Z.odd_opp.
      destruct (Z.odd exp); split; reflexivity || contradiction. }
  destruct (Z.ltb_spec exp 0).
  { destruct (Z.leb_spec 0 exp); [lia|]. destruct (Z.eqb_spec base 0); [eexists; split; reflexivity|].
    eexists; split; [reflexivity|]. rewrite quot_1_big.
    - split; [reflexivity|contradiction].
    - pose proof (abs_pow_ge_base base (-exp)). lia. }
  destruct (Z.leb_spec 0 exp); [|lia].
  destruct (Z.eqb_spec base 0).
  { subst. eexists; split; [reflexivity|]. rewrite Z.pow_0_l by lia. split; [reflexivity|contradiction]. }
  destruct (power_loop_spec 64 1 base exp R1 Hb ltac:(lia) ltac:(lia)) as (r & E & Hr).
  { split; [lia|]. apply Z.le_lt_trans with int64_max; [apply He|]. reflexivity. }
  exists r. split; [exact E|]. rewrite Z.mul_1_l in Hr. exact Hr.
Qed.

Lemma int_rem_throws_spuriously : exists a b, i64 a /\ i64 b /\ b <> 0 /\
  i64 (Z.rem a b) /\ int_rem a b = None.
Proof.
  exists (- 2^63), (-1). unfold i64. vm_compute. repeat split; discriminate.
Qed.
