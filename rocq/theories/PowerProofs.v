(** Lemmas about powers. *)
From Coq Require Import ZArith Zquot List Bool Arith Lia.
From Verif Require Import Integer IntegerProofs IntervalSet IntervalSetSpec IntervalSetProofs Vars VarsSpec VarsProofs State StateSpec StateProofs Expressions ExpressionsSpec Epochs
  Engine EngineSpec EngineProofs SessionSpec SessionInvProofs Tracker ContractSpec ContractProofs RunProofs PartsProofs Quiet QuietProofs Settle SettleProofs
  Equals EqualsProofs Reify ReifySpec ReifyProofs Solve ConsistencySpec SolveSpec SolveProofs StatefulSpec StatefulProofs AllDifferentProofs
  Linear LinearSpec LinearProofs LexProofs NegativeTable Table TableSpec TableProofs Tabulation TabulationProofs Passes PassesProofs ProductBounds ProductSpec ProductBoundsProofs Multiply MultiplyProofs
  Stages StagesProofs DivideModulus DivideModulusProofs RegexAutomatonProofs PowerSpec Power.
Import ListNotations.
Local Open Scope Z_scope.

(** ** Numbers *)

Lemma checked_product a b z : i64 a -> i64 b -> int_mul a b = Some z -> z = a * b /\ i64 z.
Proof.
  intros A B E. destruct (int_mul_exact a b A B) as [X Y]. assert (D : i64 (a * b) \/ ~ i64 (a * b)) by (unfold i64, int64_min, int64_max; lia).
  destruct D as [D|D]; [rewrite (X D) in E; injection E as <-; auto|rewrite (Y D) in E; discriminate].
Qed.

Lemma product_refused a b : i64 a -> i64 b -> int_mul a b = None -> ~ i64 (a * b).
Proof.
  intros A B E D. destruct (int_mul_exact a b A B) as [X _]. rewrite (X D) in E. discriminate.
Qed.

Lemma positive_power b e : 2 <= Z.abs b -> Z.abs b <= Z.abs (b ^ Zpos e).
Proof.
  intro B. rewrite Z.abs_pow. rewrite <- (Z.pow_1_r (Z.abs b)) at 1. apply Z.pow_le_mono_r; lia.
Qed.

Lemma power_loop_spec e : forall r b, i64 r -> i64 b -> r <> 0 -> 2 <= Z.abs b ->
  match power_loop r b e with Some z => z = r * b ^ Zpos e /\ i64 z | None => ~ i64 (r * b ^ Zpos e) end.
Proof.
  assert (Sq : forall b e, (b * b) ^ Zpos e = b ^ Zpos (xO e)) by (intros b e'; rewrite Pos2Z.inj_xO, Z.pow_mul_r, Z.pow_2_r by lia; reflexivity).
  assert (Sq1 : forall b e, b * (b * b) ^ Zpos e = b ^ Zpos (xI e)) by (intros b e'; rewrite Sq, Pos2Z.inj_xI, Z.add_comm, Z.pow_add_r, Z.pow_1_r, Pos2Z.inj_xO by lia; reflexivity).
  assert (Nsq : forall b, 9223372036854775807 < b * b -> 9223372036854775808 < b * b) by (intros b H; assert (9223372036854775808 <> b * b) by (destruct (Z.le_gt_cases (Z.abs b) 3037000499); nia); lia).
  assert (Far : forall r b e, r <> 0 -> 2 <= Z.abs b -> ~ i64 (b * b) -> ~ i64 (r * (b * b) ^ Zpos e)).
  { intros r b e' R B N. unfold i64, int64_min, int64_max in *. assert (P : 0 <= b * b) by nia. assert (9223372036854775808 < b * b) by (apply Nsq; lia).
    pose proof (positive_power (b * b) e' ltac:(lia)) as G. rewrite Z.abs_pow in G. rewrite (Z.abs_eq (b * b)) in G by lia. set (w := (b * b) ^ Zpos e') in *. intro I. nia. }
  induction e as [e IH|e IH|]; intros r b R B Nr Nb; cbn [power_loop].
  - destruct (int_mul r b) as [r'|] eqn:E1.
    + apply checked_product in E1; auto. destruct E1 as [-> R'].
      destruct (int_mul b b) as [b'|] eqn:E2.
      * apply checked_product in E2; auto. destruct E2 as [-> B']. specialize (IH (r * b) (b * b) R' B' ltac:(nia) ltac:(nia)).
        rewrite <- Z.mul_assoc, Sq1 in IH. exact IH.
      * apply product_refused in E2; auto. rewrite <- Sq1, Z.mul_assoc. apply Far; auto. nia.
    + apply product_refused in E1; auto. rewrite <- Sq1, Z.mul_assoc. assert (P : 1 <= (b * b) ^ Zpos e) by (rewrite <- (Z.pow_1_l (Zpos e)) at 1 by lia; apply Z.pow_le_mono_l; nia).
      unfold i64, int64_min, int64_max in *. set (w := (b * b) ^ Zpos e) in *. set (y := r * b) in *. intro I. nia.
  - destruct (int_mul b b) as [b'|] eqn:E2.
    + apply checked_product in E2; auto. destruct E2 as [-> B']. specialize (IH r (b * b) R B' Nr ltac:(nia)). rewrite Sq in IH. exact IH.
    + apply product_refused in E2; auto. rewrite <- Sq. now apply Far.
  - rewrite Z.pow_1_r. destruct (int_mul r b) eqn:E; [now apply checked_product|now apply product_refused].
Qed.

Lemma same_range z : i64 z <-> representable z.
Proof. unfold i64, representable, int64_min, int64_max. reflexivity. Qed.

(** What is 1 or -1. *)
Definition parity (k : Z) : Z := if Z.even k then 1 else -1.

Lemma power_minus_one k : 0 <= k -> (-1) ^ k = parity k.
Proof.
  intro K. unfold parity. destruct (Z.even k) eqn:E.
  - apply Z.even_spec in E. change ((-1) ^ k) with ((Z.opp 1) ^ k). rewrite (Z.pow_opp_even 1 k E). now apply Z.pow_1_l.
  - assert (O : Z.odd k = true) by (rewrite <- Z.negb_even, E; reflexivity). apply Z.odd_spec in O. change ((-1) ^ k) with ((Z.opp 1) ^ k). rewrite (Z.pow_opp_odd 1 k O). now rewrite Z.pow_1_l.
Qed.

Lemma parity_opp k : parity (- k) = parity k.
Proof. unfold parity. now rewrite Z.even_opp. Qed.

Lemma parity_unit k : parity k = 1 \/ parity k = -1.
Proof. unfold parity. destruct (Z.even k); auto. Qed.

Lemma raises_positive x k z : 0 <= k -> (raises x k z <-> z = x ^ k).
Proof. intro K. unfold raises. split; [intros [H|H]; tauto || lia|auto]. Qed.

Lemma raises_negative x k z : k < 0 -> (raises x k z <-> x <> 0 /\ (2 <= x -> z = 0) /\ (x < -1 -> z = 0) /\ (x = 1 -> z = 1) /\ (x = -1 -> z = parity k)).
Proof.
  intro K. assert (X : x <> 0 -> Z.quot 1 (x ^ (- k)) = if 2 <=? Z.abs x then 0 else if x =? 1 then 1 else parity k).
  { intro N. destruct (Z.leb_spec 2 (Z.abs x)) as [L|L].
    - assert (P : 2 <= Z.abs (x ^ (- k))) by (destruct (- k) as [|p|p] eqn:E; [lia| |lia]; pose proof (positive_power x p L); lia).
      set (w := x ^ (- k)) in *. destruct (Z.lt_ge_cases w 0) as [Hw|Hw].
      + replace w with (- - w) by lia. rewrite Z.quot_opp_r by lia. rewrite Z.quot_small by lia. reflexivity.
      + apply Z.quot_small. lia.
    - destruct (Z.eqb_spec x 1) as [->|M]; [rewrite Z.pow_1_l by lia; reflexivity|]. assert (x = -1) by lia. subst x. rewrite power_minus_one by lia. rewrite parity_opp. destruct (parity_unit k) as [->| ->]; reflexivity. }
  unfold raises. split.
  - intros [H|(_ & N & ->)]; [lia|]. rewrite (X N). split; [assumption|]. destruct (Z.leb_spec 2 (Z.abs x)), (Z.eqb_spec x 1); repeat split; intros; try lia; reflexivity.
  - intros (N & A & B & C & D). right. split; [assumption|]. split; [assumption|]. rewrite (X N). destruct (Z.leb_spec 2 (Z.abs x)) as [L|L]; [destruct (Z.lt_ge_cases x 0); [apply B|apply A]; lia|].
    destruct (Z.eqb_spec x 1) as [E|E]; [auto|apply D; lia].
Qed.

Lemma raises_small x k z : 0 < k -> -1 <= x <= 1 -> (raises x k z <-> (x = 0 -> z = 0) /\ (x = 1 -> z = 1) /\ (x = -1 -> z = parity k)).
Proof.
  intros K B. rewrite raises_positive by lia. assert (C : x = 0 \/ x = 1 \/ x = -1) by lia. destruct C as [->|[->| ->]].
  - rewrite Z.pow_0_l by assumption. lia.
  - rewrite Z.pow_1_l by lia. lia.
  - rewrite power_minus_one by lia. lia.
Qed.

Lemma raises_large x k z : 62 < k -> raises x k z -> -9223372036854775808 < z <= 9223372036854775807 -> -1 <= x <= 1.
Proof.
  intros K R B. apply raises_positive in R; [|lia]. destruct (Z.le_gt_cases (Z.abs x) 1) as [H|H]; [lia|]. exfalso.
  assert (P : 2 ^ 63 <= Z.abs z) by (subst z; rewrite Z.abs_pow; transitivity (2 ^ k); [apply Z.pow_le_mono_r; lia|apply Z.pow_le_mono_l; lia]).
  change (2 ^ 63) with 9223372036854775808 in P. lia.
Qed.

Lemma checked_power_exact x k z : representable x -> (checked_power x k = Some z <-> raises x k z /\ representable z).
Proof.
  intro Rx. unfold checked_power. destruct (Z.eqb_spec k 0) as [->|Nk].
  - rewrite raises_positive by lia. rewrite Z.pow_0_r. split; [intros [= <-]; unfold representable; split; [reflexivity|lia]|intros [-> _]; reflexivity].
  - destruct (Z.eqb_spec x 1) as [->|N1].
    { assert (E : raises 1 k z <-> z = 1).
      { destruct (Z.lt_ge_cases k 0); [rewrite raises_negative by assumption|rewrite raises_small by lia]; lia. }
      rewrite E. split; [intros [= <-]; unfold representable; split; [reflexivity|lia]|intros [-> _]; reflexivity]. }
    destruct (Z.eqb_spec x (-1)) as [->|N2].
    { assert (E : raises (-1) k z <-> z = parity k).
      { destruct (Z.lt_ge_cases k 0); [rewrite raises_negative by assumption|rewrite raises_small by lia]; lia. }
      rewrite E. unfold parity. split; [intros [= <-]; split; [reflexivity|]; destruct (Z.even k); unfold representable; lia|intros [-> _]; reflexivity]. }
    destruct (Z.ltb_spec k 0) as [L|L].
    { rewrite raises_negative by assumption. destruct (Z.eqb_spec x 0) as [->|N0].
      - split; [discriminate|]. intros [(H & _) _]. now destruct H.
      - split; [intros [= <-]; unfold representable; lia|]. intros [(_ & A & B & _) _]. destruct (Z.lt_ge_cases x 0); f_equal; symmetry; [apply B|apply A]; lia. }
    destruct (Z.eqb_spec x 0) as [->|N0].
    { rewrite raises_small by lia. split; [intros [= <-]; unfold representable; lia|]. intros [(A & _) _]. now rewrite A. }
    destruct k as [|p|p]; [lia| |lia]. cbn [Z.to_pos]. rewrite raises_positive by lia.
    pose proof (power_loop_spec p 1 x ltac:(unfold i64, int64_min, int64_max; lia) (proj2 (same_range x) Rx) ltac:(lia) ltac:(lia)) as Sp. rewrite Z.mul_1_l in Sp.
    destruct (power_loop 1 x p) as [w|].
    + destruct Sp as [-> I]. apply same_range in I. split; [intros [= <-]; auto|]. intros [-> _]. reflexivity.
    + split; [discriminate|]. intros [-> I]. apply same_range in I. now destruct Sp.
Qed.

(** Whatever is computed is the power. *)
Lemma power_loop_sound e : forall r b z, power_loop r b e = Some z -> z = r * b ^ Zpos e.
Proof.
  assert (Mu : forall a b c, int_mul a b = Some c -> c = a * b) by (intros a b c; unfold int_mul; destruct (mul_overflows a b); [discriminate|now intros [= <-]]).
  assert (Sq : forall b e, (b * b) ^ Zpos e = b ^ Zpos (xO e)) by (intros b e'; rewrite Pos2Z.inj_xO, Z.pow_mul_r, Z.pow_2_r by lia; reflexivity).
  assert (Sq1 : forall b e, b * (b * b) ^ Zpos e = b ^ Zpos (xI e)) by (intros b e'; rewrite Sq, Pos2Z.inj_xI, Z.add_comm, Z.pow_add_r, Z.pow_1_r, Pos2Z.inj_xO by lia; reflexivity).
  induction e as [e IH|e IH|]; intros r b z E; cbn [power_loop] in E.
  - destruct (int_mul r b) as [r'|] eqn:E1; [|discriminate]. destruct (int_mul b b) as [b'|] eqn:E2; [|discriminate]. apply Mu in E1, E2. subst. apply IH in E. now rewrite <- Sq1, Z.mul_assoc.
  - destruct (int_mul b b) as [b'|] eqn:E2; [|discriminate]. apply Mu in E2. subst. apply IH in E. now rewrite <- Sq.
  - apply Mu in E. now rewrite Z.pow_1_r.
Qed.

Lemma checked_power_sound x k z : checked_power x k = Some z -> raises x k z.
Proof.
  unfold checked_power. destruct (Z.eqb_spec k 0) as [->|Nk]; [intros [= <-]; now apply raises_positive|].
  destruct (Z.eqb_spec x 1) as [->|N1]; [intros [= <-]; destruct (Z.lt_ge_cases k 0); [rewrite raises_negative by assumption|rewrite raises_small by lia]; lia|].
  destruct (Z.eqb_spec x (-1)) as [->|N2]; [change (if Z.even k then 1 else -1) with (parity k); intros [= <-]; destruct (Z.lt_ge_cases k 0); [rewrite raises_negative by assumption|rewrite raises_small by lia]; lia|].
  destruct (Z.ltb_spec k 0) as [L|L].
  { rewrite raises_negative by assumption. destruct (Z.eqb_spec x 0) as [->|N0]; [discriminate|]. intros [= <-]. lia. }
  destruct (Z.eqb_spec x 0) as [->|N0]; [intros [= <-]; rewrite raises_small by lia; lia|].
  destruct k as [|p|p]; [lia| |lia]. cbn [Z.to_pos]. intro E. apply power_loop_sound in E. rewrite Z.mul_1_l in E. apply raises_positive; [lia|assumption].
Qed.

(** ** Equalities *)

Definition fair (s : sum_of var_id) (value : Z) : Prop := let '(t, m) := tidy_up_linear s in terms t <> [] \/ value + m <= 0.

(** An equality that can come out differently has variables. *)
Lemma varying_fair s value a b : weighted_sum s a <> weighted_sum s b -> fair s value.
Proof.
  intro N. unfold fair. destruct (tidy_up_linear s) as [t m] eqn:E. destruct (tidy_up_spec s t m E) as (_ & Sm & _). left. intro T. apply N. now rewrite !Sm, T.
Qed.

Section Equality.
Variable nv : nat.
Variable s : sum_of var_id.
Variable value : Z.
Hypothesis Bv : Forall (var_below nv) (map snd s).
Hypothesis Fs : fair s value.

Lemma equality_says (P : assignment -> Prop) rest : (forall a, P a -> weighted_sum s a = value) -> says nv P rest -> says nv P (equality_stage s value rest).
Proof.
  intros H R. unfold equality_stage. unfold fair in Fs. destruct (tidy_up_linear s) as [t m] eqn:E. destruct (tidy_up_spec s t m E) as (Ts & Sm & _). pose proof (terms_below nv s Bv t m E) as B.
  cbn [says]. intros d Hd L. pose proof (propagate_linear_ok nv d t Ts B False (value + m) true ltac:(tauto)) as Ok.
  apply (infers_says nv (fun a => P a /\ within a d)).
  - apply Forall_rev. apply (bo_legit _ _ _ _ _ _ Ok d); auto. now intros a.
  - intros a [Pa Wa]. apply Forall_rev. apply (bo_sound _ _ _ _ _ _ Ok d); auto; [now intros b|]. unfold linear_rel. specialize (H a Pa). rewrite Sm in H. lia.
  - apply (says_weaken nv rest P); [tauto|assumption].
Qed.

Lemma equality_still d rest : domains_ok d -> length d = nv -> still (equality_stage s value rest) d ->
  still rest d /\ (Forall (fixed d) (map snd s) -> forall a, within a d -> weighted_sum s a = value).
Proof.
  intros Hd L S. unfold equality_stage in S. unfold fair in Fs. destruct (tidy_up_linear s) as [t m] eqn:E. destruct (tidy_up_spec s t m E) as (Ts & Sm & V). pose proof (terms_below nv s Bv t m E) as B.
  assert (S' : still (infers (rev (t_lits (fst (propagate_linear t (value + m) true d)))) rest) d) by exact S. clear S. apply infers_still in S'. destruct S' as [R A]. split; [assumption|].
  intros F a Wa. pose proof (propagate_linear_ok nv d t Ts B False (value + m) true ltac:(tauto)) as Ok.
  assert (I : inside d d) by now intros b. pose proof (bo_legit _ _ _ _ _ _ Ok d Hd L I) as Lg.
  assert (Ka : keeps a (fst (propagate_linear t (value + m) true d))) by (unfold keeps; rewrite <- (rev_involutive (t_lits _)); apply Forall_rev; now apply A).
  destruct (keeps_alive nv d Hd L _ a Lg Wa Ka) as [Ff Wt].
  assert (C : linear_rel t (value + m) true a).
  { apply (bo_checks _ _ _ _ _ _ Ok d); auto. apply Forall_forall. intros w Iw. unfold term_vars in Iw. apply in_map_iff in Iw. destruct Iw as ([c k] & <- & Ik). cbn [snd].
    apply (in_map snd) in Ik. cbn [snd] in Ik. destruct (V k Ik) as (v & Iv & U). apply (fixed_underlying d v k); auto.
    - pose proof (proj1 (Forall_forall _ _) B k Ik). unfold domains, iset in *. lia.
    - now apply (proj1 (Forall_forall _ _) F). }
  unfold linear_rel in C. rewrite Sm. lia.
Qed.
End Equality.

(** ** Gated equalities *)

Section Gated.
Variable nv : nat.
Variable result : var_id.
Variable gate : cond.
Variable value : Z.
Hypothesis Br : var_below nv result.
Hypothesis Gf : gate_fine nv (Some gate).

Lemma gated_says (P : assignment -> Prop) rest : (forall a, P a -> cond_holds a gate -> var_value a result = value) -> says nv P rest -> says nv P (run_stages (gated_equality result gate value) rest).
Proof.
  intros H R. unfold gated_equality, run_stages. cbn [fold_right].
  apply stage_says; [now constructor|assumption| |apply stage_says; [now constructor|assumption| |assumption]]; intros a Pa O; rewrite one_term; specialize (H a Pa O); lia.
Qed.

Lemma gated_still d rest : domains_ok d -> length d = nv -> still (run_stages (gated_equality result gate value) rest) d ->
  still rest d /\ (fixed d result -> (forall a, within a d -> cond_holds a gate) -> forall a, within a d -> var_value a result = value).
Proof.
  intros Hd L S. unfold gated_equality, run_stages in S. cbn [fold_right] in S.
  apply (stage_still nv [(1, result)] _ _ (Forall_cons _ Br (Forall_nil _)) Gf) in S; auto. destruct S as [S A].
  apply (stage_still nv [(-1, result)] _ _ (Forall_cons _ Br (Forall_nil _)) Gf) in S; auto. destruct S as [S B]. split; [assumption|].
  intros F Op a Wa. specialize (A Op 0%nat a). specialize (B Op 0%nat a). rewrite !one_term in *.
  assert (X : forall (c : Z) v, In v (map snd [(c, result)]) -> v = VSimple 0 \/ fixed d v) by (intros c v [<-|[]]; now right).
  specialize (A (X 1) Wa). specialize (B (X (-1)) Wa). lia.
Qed.
End Gated.

(** ** Multiplications *)

Definition link_rel (a : assignment) (l : link) : Prop := product_rel (fst (fst l)) (snd (fst l)) (snd l) a.
Definition link_below (nv : nat) (l : link) : Prop := var_below nv (fst (fst l)) /\ var_below nv (snd (fst l)) /\ var_below nv (snd l).
Definition run_links (ls : list link) (rest : prog) : prog := fold_right (fun l rest => multiply_pass (fst (fst l)) (snd (fst l)) (snd l) rest) rest ls.

Lemma links_say nv ls (P : assignment -> Prop) rest : Forall (link_below nv) ls -> (forall a, P a -> Forall (link_rel a) ls) -> says nv P rest -> says nv P (run_links ls rest).
Proof.
  intros B H R. induction ls as [|l r IH]; [exact R|]. apply Forall_cons_iff in B. destruct B as [(B1 & B2 & B3) B]. cbn [run_links fold_right].
  apply multiply_says; auto; [intros a Pa; specialize (H a Pa); now inversion H|]. apply IH; auto. intros a Pa. specialize (H a Pa). now inversion H.
Qed.

Lemma square_bound_rest x up b rest d : still (infer_square_bound x up b rest) d -> still rest d.
Proof.
  intro S. unfold infer_square_bound in S. assert (S' : still (let '(cur_lo, cur_hi) := bounds d x in
    if (if up then cur_hi <=? b else b <=? cur_lo) then rest
    else Infer (LCond (if up then cond_lt x (b + 1) else cond_ge x b)) rest) d) by exact S. clear S. destruct (bounds d x) as [lo hi].
  match goal with H : still (if ?c then _ else _) _ |- _ => destruct c end; [assumption|]. intros a Wa. specialize (S' a Wa). now inversion S'.
Qed.

Lemma filter_factor_rest t c z rest d : still (filter_factor t c z rest) d -> still rest d.
Proof.
  intro S. unfold filter_factor in S. assert (S' : still (let '(cof_lo, cof_hi) := bounds d c in
    let '(z_lo, z_hi) := bounds d z in
    let '(t_lo, t_hi) := bounds d t in
    match quotient_filter cof_lo cof_hi z_lo z_hi with
    | NoFilter => rest
    | EmptyBecauseYZero => Infer LFalse rest
    | Bounds lo hi =>
        infer_when (hi <? t_hi) (LCond (cond_lt t (hi + 1)))
          (infer_when (t_lo <? lo) (LCond (cond_ge t lo)) rest)
    end) d) by exact S. clear S. destruct (bounds d c), (bounds d z), (bounds d t). destruct (quotient_filter _ _ _ _) as [| |lo hi].
  - assumption.
  - intros a Wa. specialize (S' a Wa). now inversion S'.
  - apply still_when in S'. destruct S' as [_ S']. apply still_when in S'. tauto.
Qed.

Lemma filter_root_rest x z rest d : still (filter_root x z rest) d -> still rest d.
Proof.
  intro S. unfold filter_root in S. assert (S' : still (let '(z_lo, z_hi) := bounds d z in
    if z_hi <? 0 then rest
    else
      let u := isqrt z_hi in
      infer_square_bound x true u
        (infer_square_bound x false (- u)
          (if 0 <? z_lo then
             let m := ceil_isqrt z_lo in
             Look (fun d' =>
               let '(cur_lo, cur_hi) := bounds d' x in
               if - m <? cur_lo then infer_square_bound x false m rest
               else if cur_hi <? m then infer_square_bound x true (- m) rest
               else rest)
           else rest))) d) by exact S. clear S. destruct (bounds d z) as [zl zh]. destruct (zh <? 0); [assumption|]. cbv zeta in S'.
  apply square_bound_rest, square_bound_rest in S'. destruct (0 <? zl); [|assumption].
  assert (S : still (let '(cur_lo, cur_hi) := bounds d x in
               if - ceil_isqrt zl <? cur_lo then infer_square_bound x false (ceil_isqrt zl) rest
               else if cur_hi <? ceil_isqrt zl then infer_square_bound x true (- ceil_isqrt zl) rest
               else rest) d) by exact S'. clear S'. destruct (bounds d x) as [lo hi].
  destruct (- ceil_isqrt zl <? lo); [now apply square_bound_rest in S|]. destruct (hi <? ceil_isqrt zl); [now apply square_bound_rest in S|assumption].
Qed.

(** A product of two known numbers is known. *)
Lemma link_still nv x y z rest d : var_below nv x -> var_below nv y -> var_below nv z -> domains_ok d -> length d = nv -> still (multiply_pass x y z rest) d ->
  still rest d /\ (fixed d x -> fixed d y -> forall a, within a d -> product_rel x y z a).
Proof.
  intros Bx By Bz Hd L S. apply (still_pass nv x y z Bz) in S; auto. destruct S as (A & B & S). split.
  - destruct (var_eqb x y); [now apply filter_root_rest in S|]. now apply filter_factor_rest, filter_factor_rest in S.
  - intros Fx Fy a Wa. destruct (fixed_bounds d x a Hd (known_here nv d x L Bx) Fx Wa) as [Lx Ux]. destruct (fixed_bounds d y a Hd (known_here nv d y L By) Fy Wa) as [Ly Uy].
    pose proof (value_bounds d z a Hd (known_here nv d z L Bz) Wa) as Vz.
    assert (H : hull x y d = (var_value a x * var_value a y, var_value a x * var_value a y)).
    { unfold hull. rewrite Lx, Ux, Ly, Uy. destruct (var_eqb x y) eqn:E.
      - apply var_eqb_spec in E. rewrite <- E. unfold square_bounds. pose proof (Z.square_nonneg (var_value a x)). destruct (Z.leb_spec (var_value a x) 0), (Z.leb_spec 0 (var_value a x)); cbn [andb]; f_equal; nia.
      - unfold product_bounds. f_equal; lia. }
    rewrite H in A, B. cbn [fst snd] in A, B. unfold product_rel. lia.
Qed.

(** ** The chain *)

Lemma saturated a b m : i64 a -> i64 b -> 0 <= m <= 9223372036854775807 -> saturating_product a b m = Z.max (- m) (Z.min (a * b) m).
Proof.
  intros A B M. unfold saturating_product. destruct (int_mul a b) as [p|] eqn:E; [apply checked_product in E; auto; now destruct E as [-> _]|].
  apply product_refused in E; auto. unfold i64, int64_min, int64_max in E. destruct (Z.ltb_spec 0 a) as [Ha|Ha], (Z.ltb_spec 0 b) as [Hb|Hb]; cbn [Bool.eqb].
  - assert (0 < a * b) by nia. lia.
  - assert (a * b <= 0) by nia. lia.
  - assert (a * b <= 0) by nia. lia.
  - assert (0 <= a * b) by nia. lia.
Qed.

Definition clamped (m z : Z) : Z := Z.max (- m) (Z.min z m).

Lemma clamped_min m a b : Z.min (clamped m a) (clamped m b) = clamped m (Z.min a b).
Proof. unfold clamped. lia. Qed.

Lemma clamped_max m a b : Z.max (clamped m a) (clamped m b) = clamped m (Z.max a b).
Proof. unfold clamped. lia. Qed.

Lemma clamped_spec m a b : 0 <= m -> a <= b -> - m <= clamped m a <= clamped m b /\ clamped m b <= m /\ forall w, a <= w <= b -> - m <= w <= m -> clamped m a <= w <= clamped m b.
Proof. intros. unfold clamped. split; [lia|]. split; [lia|]. intros. lia. Qed.

Lemma next_bounds_spec d prev base m : i64 (lower_bound d prev) -> i64 (upper_bound d prev) -> i64 (lower_bound d base) -> i64 (upper_bound d base) -> 0 <= m <= 9223372036854775807 ->
  let b := next_bounds d prev base m in
  fst b <= snd b /\ - m <= fst b /\ snd b <= m /\
  forall u x, lower_bound d prev <= u <= upper_bound d prev -> lower_bound d base <= x <= upper_bound d base -> - m <= u * x <= m -> fst b <= u * x <= snd b.
Proof.
  intros I1 I2 I3 I4 M. unfold next_bounds. rewrite !bounds_spec. rewrite !saturated by assumption. cbv zeta. cbn [fst snd].
  set (p1 := lower_bound d prev * lower_bound d base). set (p2 := lower_bound d prev * upper_bound d base). set (p3 := upper_bound d prev * lower_bound d base). set (p4 := upper_bound d prev * upper_bound d base).
  fold (clamped m p1) (clamped m p2) (clamped m p3) (clamped m p4). rewrite !clamped_min, !clamped_max.
  destruct (clamped_spec m (Z.min (Z.min p1 p2) (Z.min p3 p4)) (Z.max (Z.max p1 p2) (Z.max p3 p4)) ltac:(lia) ltac:(lia)) as (A & B & C).
  split; [lia|]. split; [lia|]. split; [lia|]. intros u x Hu Hx Bw. apply C; [|assumption]. pose proof (product_bounds_spec _ _ _ _ u x Hu Hx) as P. unfold product_bounds in P. cbn [fst snd] in P. fold p1 p2 p3 p4 in P.
  generalize dependent (u * x). clear. intros. lia.
Qed.

Lemma chain_step base result m todo d prev : chain base result m (S (S todo)) d prev =
  (let '(owns, links) := chain base result m (S todo) (d ++ [[next_bounds d prev base m]]) (VSimple (length d)) in
   ([next_bounds d prev base m] :: owns, (prev, base, VSimple (length d)) :: links)).
Proof. reflexivity. Qed.

(** Whatever the bounds are. *)
Lemma chain_shape base result m todo : forall d prev own ls, chain base result m (S todo) d prev = (own, ls) -> Forall (var_below (length d)) [prev; base; result] ->
  length own = todo /\ Forall (link_below (length (d ++ own))) ls /\
  (forall a, Forall (link_rel a) ls -> var_value a result = var_value a prev * var_value a base ^ Z.of_nat (S todo)) /\
  (forall nv D, (length (d ++ own) <= nv)%nat -> domains_ok D -> length D = nv -> fixed D prev -> fixed D base -> still (run_links ls Stop) D -> forall a, within a D -> var_value a result = var_value a prev * var_value a base ^ Z.of_nat (S todo)).
Proof.
  induction todo as [|todo IH]; intros d prev own ls E B; pose proof B as B'; apply Forall_cons_iff in B'; destruct B' as [Bp B']; apply Forall_cons_iff in B'; destruct B' as [Bb B']; apply Forall_cons_iff in B'; destruct B' as [Br _].
  - injection E as <- <-. rewrite app_nil_r. split; [reflexivity|]. split; [constructor; [repeat split; assumption|constructor]|]. change (Z.of_nat 1) with 1. split.
    + intros a F. inversion F as [|? ? L _]. unfold link_rel, product_rel in L. cbn [fst snd] in L. rewrite Z.pow_1_r. lia.
    + intros nv D Ln Hd L F1 F2 S a Wa. rewrite Z.pow_1_r. cbn [run_links fold_right fst snd] in S.
      assert (Bm : forall v, var_below (length d) v -> var_below nv v) by (intros v; now apply below_more).
      apply (link_still nv prev base result) in S; auto. destruct S as [_ S]. specialize (S F1 F2 a Wa). unfold product_rel in S. lia.
  - rewrite chain_step in E. set (o := [next_bounds d prev base m]) in *. destruct (chain base result m (S todo) (d ++ [o]) (VSimple (length d))) as [own' ls'] eqn:E'. injection E as <- <-.
    assert (Ln : length (d ++ [o]) = S (length d)) by (unfold domains, iset in *; rewrite app_length; simpl; lia).
    destruct (IH _ _ _ _ E') as (L1 & L2 & L3 & L4).
    { rewrite Ln. assert (X : forall v, var_below (length d) v -> var_below (S (length d)) v) by (intros v; apply below_more, le_S, le_n). constructor; [exact (le_n _)|]. auto. }
    assert (Ea : (d ++ [o]) ++ own' = d ++ o :: own') by (rewrite <- app_assoc; reflexivity). rewrite Ea in *.
    assert (Lt : (length d < length (d ++ o :: own'))%nat) by (unfold domains, iset in *; rewrite app_length; simpl; lia).
    assert (Pw : forall x y : Z, x * y * y ^ Z.of_nat (S todo) = x * y ^ Z.of_nat (S (S todo))).
    { intros x y. rewrite (Nat2Z.inj_succ (S todo)), Z.pow_succ_r by lia. lia. }
    split; [simpl; now rewrite L1|]. split; [|split].
    + constructor; [|exact L2]. repeat split; cbn [fst snd]; try (apply (below_more (length d)); [apply Nat.lt_le_incl; assumption|assumption]). exact Lt.
    + intros a F. apply Forall_cons_iff in F. destruct F as [F1 F]. unfold link_rel, product_rel in F1. cbn [fst snd var_value] in F1. specialize (L3 a F). cbn [var_value] in L3. rewrite L3, <- F1. apply Pw.
    + intros nv D Lv Hd L F1 F2 S a Wa. cbn [run_links fold_right fst snd] in S.
      assert (Bm : forall v, var_below (length d) v -> var_below nv v) by (intros v; apply below_more; exact (Nat.le_trans _ _ _ (Nat.lt_le_incl _ _ Lt) Lv)).
      apply (link_still nv) in S; auto; [|exact (Nat.lt_le_trans _ _ _ Lt Lv)]. destruct S as [S P]. specialize (P F1 F2). unfold product_rel in P. cbn [var_value] in P.
      rewrite (L4 nv D Lv Hd L) with (a := a); auto; [cbn [var_value]; rewrite <- (P a Wa); apply Pw|].
      destruct F1 as (x & F1), F2 as (y & F2). exists (x * y). intros b Wb. cbn [var_value]. rewrite <- (P b Wb), F1, F2 by assumption. reflexivity.
Qed.

Lemma power_bound x i j m : 1 <= m -> 0 <= i <= j -> - m <= x ^ j <= m -> - m <= x ^ i <= m.
Proof.
  intros M I B. assert (A : Z.abs (x ^ i) <= Z.max 1 (Z.abs (x ^ j))); [|lia]. rewrite !Z.abs_pow. set (y := Z.abs x). assert (0 <= y) by (unfold y; lia).
  destruct (Z.le_gt_cases y 1) as [Y|Y]; [|pose proof (Z.pow_le_mono_r y i j ltac:(lia) ltac:(lia)); lia].
  assert (y ^ i <= 1); [|lia]. rewrite <- (Z.pow_1_l i) by lia. apply Z.pow_le_mono_l. lia.
Qed.

(** The variables of the chain can take the powers. *)
Lemma prefix_bounds (d more : domains) v : var_known d v -> lower_bound (d ++ more) v = lower_bound d v /\ upper_bound (d ++ more) v = upper_bound d v.
Proof. destruct v as [n|n neg add|c]; simpl; auto; intro K; unfold dom; rewrite app_nth1 by assumption; auto. Qed.

Lemma prefix_known (d more : domains) v : var_known d v -> var_known (d ++ more) v.
Proof. destruct v; simpl; auto; rewrite app_length; unfold domains, iset in *; lia. Qed.

Lemma last_bounds (d : domains) lo hi : lower_bound (d ++ [[(lo, hi)]]) (VSimple (length d)) = lo /\ upper_bound (d ++ [[(lo, hi)]]) (VSimple (length d)) = hi.
Proof. simpl. unfold dom. rewrite app_nth2, Nat.sub_diag by apply le_n. split; reflexivity. Qed.

Lemma chain_values base result m todo : forall d prev own ls a i, chain base result m (S todo) d prev = (own, ls) -> domains_ok d -> Forall (var_known d) [prev; base; result] ->
  1 <= m <= 9223372036854775807 -> i64 (lower_bound d prev) -> i64 (upper_bound d prev) -> i64 (lower_bound d base) -> i64 (upper_bound d base) ->
  within a d -> 0 <= i -> var_value a prev = var_value a base ^ i -> var_value a result = var_value a base ^ (i + Z.of_nat (S todo)) -> - m <= var_value a result <= m ->
  domains_ok (d ++ own) /\ exists a', same_below (length d) a a' /\ within a' (d ++ own) /\ Forall (link_rel a') ls.
Proof.
  induction todo as [|todo IH]; intros d prev own ls a i E Hd K M I1 I2 I3 I4 Wa Hi Vp Vr Br.
  - injection E as <- <-. rewrite app_nil_r. split; [assumption|]. exists a. split; [apply same_below_refl|]. split; [assumption|]. constructor; [|constructor].
    unfold link_rel, product_rel. cbn [fst snd]. rewrite Vp, Vr. change (Z.of_nat 1) with 1. rewrite Z.pow_add_r, Z.pow_1_r by lia. reflexivity.
  - rewrite chain_step in E. destruct (next_bounds_spec d prev base m I1 I2 I3 I4 ltac:(lia)) as (N1 & N2 & N3 & N4). destruct (next_bounds d prev base m) as [lo hi] eqn:En. cbn [fst snd] in *.
    set (o := [(lo, hi)]) in *. destruct (chain base result m (S todo) (d ++ [o]) (VSimple (length d))) as [own' ls'] eqn:E'. injection E as <- <-.
    pose proof K as K'. apply Forall_cons_iff in K'. destruct K' as [Kp K']. apply Forall_cons_iff in K'. destruct K' as [Kb K']. apply Forall_cons_iff in K'. destruct K' as [Kr _].
    assert (Oo : domains_ok [o]).
    { intros n Hn. destruct n as [|n]; [|simpl in Hn; lia]. cbn [nth]. split; [simpl; lia|]. exists lo, lo, hi. split; [now left|lia]. }
    assert (Od : domains_ok (d ++ [o])) by now apply own_ok.
    assert (V1 : var_value a prev * var_value a base = var_value a base ^ (i + 1)) by (rewrite Vp, Z.pow_add_r, Z.pow_1_r by lia; reflexivity).
    assert (Bn : - m <= var_value a prev * var_value a base <= m).
    { rewrite V1. apply (power_bound _ _ (i + Z.of_nat (S (S todo)))); try lia. }
    destruct (own_values d [o] a (fun _ => var_value a prev * var_value a base) Wa) as (a1 & Sm1 & Wa1 & Va1).
    { intros k Hk. destruct k as [|k]; [|simpl in Hk; lia]. cbn [nth]. exists lo, hi. split; [now left|].
      apply N4; auto; now apply value_bounds. }
    specialize (Va1 0%nat). rewrite Nat.add_0_r in Va1.
    assert (Same : forall v, var_known d v -> var_value a1 v = var_value a v) by (intros v Kv; symmetry; apply (same_below_value (length d)); [assumption|]; now apply known_below).
    pose proof (last_bounds d lo hi) as Bt. fold o in Bt. destruct Bt as [Bl Bu].
    destruct (prefix_bounds d [o] base Kb) as [Xl Xu].
    assert (Lo : length (d ++ [o]) = S (length d)) by (unfold domains, iset in *; rewrite app_length; simpl; lia).
    destruct (IH (d ++ [o]) (VSimple (length d)) own' ls' a1 (i + 1) E') as (Ok & a2 & Sm2 & Wa2 & Fl); auto.
    + repeat constructor; try (apply prefix_known; assumption). red. unfold domains, iset in *. rewrite Lo. apply le_n.
    + rewrite Bl. unfold i64, int64_min, int64_max. lia.
    + rewrite Bu. unfold i64, int64_min, int64_max. lia.
    + now rewrite Xl.
    + now rewrite Xu.
    + lia.
    + cbn [var_value]. rewrite Va1, V1. now rewrite Same.
    + rewrite !Same by assumption. rewrite Vr. f_equal. lia.
    + now rewrite Same.
    + rewrite <- app_assoc in Ok, Wa2. split; [exact Ok|]. exists a2. split; [|split; [exact Wa2|]].
      * intros n Hn. rewrite (Sm1 n Hn). apply Sm2. rewrite Lo. lia.
      * constructor; [|exact Fl]. unfold link_rel, product_rel. cbn [fst snd var_value].
        assert (Same2 : forall v, var_known d v -> var_value a2 v = var_value a v).
        { intros v Kv. rewrite <- (Same v Kv). symmetry. apply (same_below_value (length (d ++ [o]))); [assumption|]. apply known_below. now apply prefix_known. }
        rewrite !Same2 by assumption. rewrite <- Va1. apply Sm2. rewrite Lo. lia.
Qed.

Lemma chain_ok base result m todo : forall d prev own ls, chain base result m (S todo) d prev = (own, ls) -> domains_ok d -> Forall (var_known d) [prev; base] ->
  1 <= m <= 9223372036854775807 -> i64 (lower_bound d prev) -> i64 (upper_bound d prev) -> i64 (lower_bound d base) -> i64 (upper_bound d base) -> domains_ok (d ++ own).
Proof.
  induction todo as [|todo IH]; intros d prev own ls E Hd K M I1 I2 I3 I4.
  - injection E as <- <-. now rewrite app_nil_r.
  - rewrite chain_step in E. destruct (next_bounds_spec d prev base m I1 I2 I3 I4 ltac:(lia)) as (N1 & N2 & N3 & _). destruct (next_bounds d prev base m) as [lo hi] eqn:En. cbn [fst snd] in *.
    set (o := [(lo, hi)]) in *. destruct (chain base result m (S todo) (d ++ [o]) (VSimple (length d))) as [own' ls'] eqn:E'. injection E as <- <-.
    apply Forall_cons_iff in K. destruct K as [_ K]. apply Forall_cons_iff in K. destruct K as [Kb _].
    assert (Oo : domains_ok [o]).
    { intros n Hn. destruct n as [|n]; [|simpl in Hn; lia]. cbn [nth]. split; [simpl; lia|]. exists lo, lo, hi. split; [now left|lia]. }
    assert (Od : domains_ok (d ++ [o])) by now apply own_ok.
    pose proof (last_bounds d lo hi) as Bt. fold o in Bt. destruct Bt as [Bl Bu].
    destruct (prefix_bounds d [o] base Kb) as [Xl Xu].
    assert (Lo : length (d ++ [o]) = S (length d)) by (unfold domains, iset in *; rewrite app_length; simpl; lia).
    change (domains_ok (d ++ [o] ++ own')). rewrite app_assoc. apply (IH _ _ _ _ E'); auto.
    + repeat constructor; try (apply prefix_known; assumption). red. unfold domains, iset in *. rewrite Lo. apply le_n.
    + rewrite Bl. unfold i64, int64_min, int64_max. lia.
    + rewrite Bu. unfold i64, int64_min, int64_max. lia.
    + now rewrite Xl.
    + now rewrite Xu.
Qed.

(** ** The parts *)

(** What the propagator keeps to: the values, the result being in range, and the
    variables of the chain. *)
Definition power_sol (base : var_id) (k : Z) (result : var_id) (ls : list link) (a : assignment) : Prop :=
  power_rel base (VConst k) result a /\ -9223372036854775808 < var_value a result <= 9223372036854775807 /\ Forall (link_rel a) ls.

Record parts_ok (base : var_id) (k : Z) (result : var_id) (d : domains) (pp : power_parts) : Prop :=
  { po_own : domains_ok (d ++ chain_vars pp);
    po_links : Forall (link_below (length (d ++ chain_vars pp))) (links pp);
    po_says : forall nv, (length (d ++ chain_vars pp) <= nv)%nat -> says nv (power_sol base k result (links pp)) (power_pass base pp);
    po_checks : forall nv D a, (length (d ++ chain_vars pp) <= nv)%nat -> domains_ok D -> length D = nv -> fixed D base -> fixed D result -> still (power_pass base pp) D -> within a D ->
      power_rel base (VConst k) result a;
    po_extends : forall a, within a d -> power_rel base (VConst k) result a -> exists a', same_below (length d) a a' /\ within a' (d ++ chain_vars pp) /\ power_sol base k result (links pp) a' }.

Lemma constant_handle v c : constant_of v = Some c -> v = VConst c.
Proof. destruct v; simpl; congruence. Qed.

Lemma not_constant v : constant_of v = None -> exists n, underlying v = Some n.
Proof. destruct v; simpl; eauto; discriminate. Qed.

(** A variable can take different values. *)
Lemma varies v n (a : assignment) : underlying v = Some n -> exists b, var_value b v <> var_value a v /\ forall w, underlying w <> Some n -> var_value b w = var_value a w.
Proof.
  intro U. exists (fun m => if Nat.eqb m n then a n + 1 else a m). split.
  - destruct v as [m|m neg add|c]; simpl in *; try discriminate; injection U as ->; rewrite Nat.eqb_refl; [lia|destruct neg; lia].
  - intros w N. destruct w as [m|m neg add|c]; simpl in *; try reflexivity; destruct (Nat.eqb_spec m n) as [->|]; try reflexivity; now destruct N.
Qed.

Section Parts.
Variable base result : var_id.
Variable d : domains.
Hypothesis Hd : domains_ok d.
Hypothesis Kb : var_known d base.
Hypothesis Kr : var_known d result.
Hypothesis Range : within_range d base result.

Lemma result_range a : within a d -> -9223372036854775808 < var_value a result <= 9223372036854775807.
Proof. intro Wa. pose proof (value_bounds d result a Hd Kr Wa). destruct Range as (_ & _ & R1 & R2). unfold representable in *. lia. Qed.

(** A propagator that keeps one linear equality. *)
Lemma equality_parts k s value : fair s value -> incl (map snd s) [base; result] -> (forall a, power_rel base (VConst k) result a <-> weighted_sum s a = value) ->
  parts_ok base k result d (mk_parts false [(s, value)] [] [] []).
Proof.
  intros F I E. assert (Bs : forall nv, (length d <= nv)%nat -> Forall (var_below nv) (map snd s)).
  { intros nv L. apply Forall_forall. intros v Iv. apply (below_more (length d)); [assumption|]. apply known_below. apply I in Iv. destruct Iv as [<-|[<-|[]]]; assumption. }
  constructor; cbn [chain_vars links]; rewrite ?app_nil_r; auto.
  - intros nv L. unfold power_pass. cbn [prune_zero equalities inequalities links fold_right run_stages fst snd andb]. intros D HD LD. cbn [infer_when].
    apply (equality_says nv); auto; [|exact Logic.I]. intros a [(R & _) _]. now apply E.
  - intros nv D a L HD LD F1 F2 S Wa. assert (S' : still (equality_stage s value Stop) D) by exact S. apply (equality_still nv) in S'; auto. destruct S' as [_ S']. apply E. apply S'; auto.
    apply Forall_forall. intros v Iv. apply I in Iv. destruct Iv as [<-|[<-|[]]]; assumption.
  - intros a Wa R. exists a. split; [apply same_below_refl|]. split; [assumption|]. split; [assumption|]. split; [now apply result_range|constructor].
Qed.

Lemma gate_ok nv c : (length d <= nv)%nat -> (exists x, c = cond_ge base x \/ c = cond_lt base x \/ c = cond_eq base x) -> gate_fine nv (Some c).
Proof.
  intros L (x & H). split; [|now exists base, x]. apply (below_more (length d)); [assumption|]. apply known_below. destruct H as [->|[->| ->]]; assumption.
Qed.

Lemma fixed_gate nv D c a : (length d <= nv)%nat -> domains_ok D -> length D = nv -> fixed D base -> within a D -> (exists x, c = cond_ge base x \/ c = cond_lt base x \/ c = cond_eq base x) ->
  cond_holds a c -> forall b, within b D -> cond_holds b c.
Proof.
  intros L HD LD (y & F) Wa (x & H) C b Wb. pose proof (F a Wa) as Ea. pose proof (F b Wb) as Eb.
  destruct H as [->|[->| ->]]; unfold cond_holds in *; cbn in *; rewrite Eb; rewrite Ea in C; exact C.
Qed.

Lemma negative_parts k : k < 0 -> let parity := if Z.even k then 1 else -1 in
  parts_ok base k result d (mk_parts true [] (gated_equality result (cond_ge base 2) 0 ++ gated_equality result (cond_lt base (-1)) 0 ++ gated_equality result (cond_eq base 1) 1 ++ gated_equality result (cond_eq base (-1)) parity) [] []).
Proof.
  intros Hk par. assert (Br : forall nv, (length d <= nv)%nat -> var_below nv result) by (intros nv L; apply (below_more (length d)); [assumption|]; now apply known_below).
  assert (Bb : forall nv, (length d <= nv)%nat -> var_below nv base) by (intros nv L; apply (below_more (length d)); [assumption|]; now apply known_below).
  constructor; cbn [chain_vars links]; rewrite ?app_nil_r; auto.
  - intros nv L. unfold power_pass. cbn [prune_zero equalities inequalities links fold_right fst snd andb]. intros D HD LD. rewrite !run_stages_app.
    assert (R : forall a, (power_sol base k result [] a /\ within a D) -> raises (var_value a base) k (var_value a result)) by (intros a [(R & _) _]; exact R).
    apply says_when; [|repeat (apply gated_says; [now apply Br|apply gate_ok; [assumption|eauto]| |])].
    + intros _. split; [exact (Bb nv L)|]. intros a Pa. apply R, raises_negative in Pa; [|assumption]. exact (proj1 Pa).
    + intros a Pa C. apply R, raises_negative in Pa; [|assumption]. unfold cond_holds in C; cbn in C. destruct Pa as (_ & X & _). apply X. lia.
    + intros a Pa C. apply R, raises_negative in Pa; [|assumption]. unfold cond_holds in C; cbn in C. destruct Pa as (_ & _ & X & _). apply X. lia.
    + intros a Pa C. apply R, raises_negative in Pa; [|assumption]. unfold cond_holds in C; cbn in C. destruct Pa as (_ & _ & _ & X & _). apply X. lia.
    + intros a Pa C. apply R, raises_negative in Pa; [|assumption]. unfold cond_holds in C; cbn in C. destruct Pa as (_ & _ & _ & _ & X). apply X. lia.
    + exact Logic.I.
  - intros nv D a L HD LD F1 F2 S Wa.
    assert (S' : still (infer_when (in_domain D base 0) (LCond (cond_ne base 0)) (run_stages (gated_equality result (cond_ge base 2) 0 ++ gated_equality result (cond_lt base (-1)) 0 ++ gated_equality result (cond_eq base 1) 1 ++ gated_equality result (cond_eq base (-1)) par) Stop)) D) by exact S. clear S. rename S' into S.
    apply still_when in S. destruct S as [N S]. rewrite !run_stages_app in S.
    assert (Op : forall c, (exists x, c = cond_ge base x \/ c = cond_lt base x \/ c = cond_eq base x) -> cond_holds a c -> forall b, within b D -> cond_holds b c) by (intros c Hc; now apply (fixed_gate nv D c a)).
    apply (gated_still nv) in S; auto; [|apply gate_ok; eauto]. destruct S as [S1 A1]. specialize (A1 F2).
    apply (gated_still nv) in S1; auto; [|apply gate_ok; eauto]. destruct S1 as [S2 A2]. specialize (A2 F2).
    apply (gated_still nv) in S2; auto; [|apply gate_ok; eauto]. destruct S2 as [S3 A3]. specialize (A3 F2).
    apply (gated_still nv) in S3; auto; [|apply gate_ok; eauto]. destruct S3 as [_ A4]. specialize (A4 F2).
    apply raises_negative; [assumption|]. repeat split; intro C.
    + assert (I : in_domain D base 0 = true) by (apply in_domain_spec; [assumption|now apply (known_here nv), Bb|]; apply view_member_iff; [assumption|now apply (known_here nv), Bb|]; eauto).
      specialize (N I a Wa). exact (N C).
    + apply A1; [|assumption]. apply Op; [eauto|]. unfold cond_holds. cbn. lia.
    + apply A2; [|assumption]. apply Op; [eauto|]. unfold cond_holds. cbn. lia.
    + apply A3; [|assumption]. apply Op; [eauto|]. unfold cond_holds. cbn. lia.
    + apply A4; [|assumption]. apply Op; [eauto|]. unfold cond_holds. cbn. lia.
  - intros a Wa R. exists a. split; [apply same_below_refl|]. split; [assumption|]. split; [assumption|]. split; [now apply result_range|constructor].
Qed.

Lemma large_parts k : 62 < k -> let parity := if Z.even k then 1 else -1 in
  parts_ok base k result d (mk_parts false [] ([le_stage [(1, base)] 1 None; le_stage [(-1, base)] 1 None] ++ gated_equality result (cond_eq base 0) 0 ++ gated_equality result (cond_eq base 1) 1 ++ gated_equality result (cond_eq base (-1)) parity) [] []).
Proof.
  intros Hk par. assert (Br : forall nv, (length d <= nv)%nat -> var_below nv result) by (intros nv L; apply (below_more (length d)); [assumption|]; now apply known_below).
  assert (Bb : forall nv, (length d <= nv)%nat -> var_below nv base) by (intros nv L; apply (below_more (length d)); [assumption|]; now apply known_below).
  constructor; cbn [chain_vars links]; rewrite ?app_nil_r; auto.
  - intros nv L. unfold power_pass. cbn [prune_zero equalities inequalities links fold_right fst snd andb]. intros D HD LD. cbn [infer_when]. rewrite !run_stages_app.
    assert (R : forall a, (power_sol base k result [] a /\ within a D) -> -1 <= var_value a base <= 1 /\
      (var_value a base = 0 -> var_value a result = 0) /\ (var_value a base = 1 -> var_value a result = 1) /\ (var_value a base = -1 -> var_value a result = parity k)).
    { intros a [(R & Rg & _) _]. pose proof (raises_large _ _ _ Hk R Rg) as B1. split; [assumption|]. apply (proj1 (raises_small (var_value a base) k (var_value a result) ltac:(lia) B1)). exact R. }
    change (run_stages [le_stage [(1, base)] 1 None; le_stage [(-1, base)] 1 None]) with (fun rest => run_stage (le_stage [(1, base)] 1 None) (run_stage (le_stage [(-1, base)] 1 None) rest)). cbv beta.
    apply stage_says; [constructor; [now apply Bb|constructor]|exact Logic.I| |apply stage_says; [constructor; [now apply Bb|constructor]|exact Logic.I| |]].
    + intros a Pa _. rewrite one_term. apply R in Pa. lia.
    + intros a Pa _. rewrite one_term. apply R in Pa. lia.
    + repeat (apply gated_says; [now apply Br|apply gate_ok; [assumption|eauto]| |]).
      * intros a Pa C. apply R in Pa. unfold cond_holds in C; cbn in C. destruct Pa as (_ & X & _). apply X. lia.
      * intros a Pa C. apply R in Pa. unfold cond_holds in C; cbn in C. destruct Pa as (_ & _ & X & _). apply X. lia.
      * intros a Pa C. apply R in Pa. unfold cond_holds in C; cbn in C. destruct Pa as (_ & _ & _ & X). apply X. lia.
      * exact Logic.I.
  - intros nv D a L HD LD F1 F2 S Wa.
    assert (S' : still (run_stages ([le_stage [(1, base)] 1 None; le_stage [(-1, base)] 1 None] ++ gated_equality result (cond_eq base 0) 0 ++ gated_equality result (cond_eq base 1) 1 ++ gated_equality result (cond_eq base (-1)) par) Stop) D) by exact S. clear S. rename S' into S.
    rewrite !run_stages_app in S.
    assert (S' : still (run_stage (le_stage [(1, base)] 1 None) (run_stage (le_stage [(-1, base)] 1 None) (run_stages (gated_equality result (cond_eq base 0) 0) (run_stages (gated_equality result (cond_eq base 1) 1) (run_stages (gated_equality result (cond_eq base (-1)) par) Stop))))) D) by exact S. clear S. rename S' into S.
    assert (Op : forall c, (exists x, c = cond_ge base x \/ c = cond_lt base x \/ c = cond_eq base x) -> cond_holds a c -> forall b, within b D -> cond_holds b c) by (intros c Hc; now apply (fixed_gate nv D c a)).
    apply (stage_still nv [(1, base)] 1 None (Forall_cons _ (Bb nv L) (Forall_nil _)) Logic.I) in S; auto. destruct S as [S U].
    apply (stage_still nv [(-1, base)] 1 None (Forall_cons _ (Bb nv L) (Forall_nil _)) Logic.I) in S; auto. destruct S as [S V].
    specialize (U (fun _ _ => Logic.I) 0%nat a). specialize (V (fun _ _ => Logic.I) 0%nat a). rewrite one_term in U, V.
    specialize (U ltac:(intros v [<-|[]]; now right) Wa). specialize (V ltac:(intros v [<-|[]]; now right) Wa).
    apply (gated_still nv) in S; auto; [|apply gate_ok; eauto]. destruct S as [S1 A1]. specialize (A1 F2).
    apply (gated_still nv) in S1; auto; [|apply gate_ok; eauto]. destruct S1 as [S2 A2]. specialize (A2 F2).
    apply (gated_still nv) in S2; auto; [|apply gate_ok; eauto]. destruct S2 as [_ A3]. specialize (A3 F2).
    change (raises (var_value a base) k (var_value a result)). apply raises_small; [lia|lia|]. repeat split; intro C.
    + apply A1; [|assumption]. apply Op; [eauto|]. unfold cond_holds. cbn. lia.
    + apply A2; [|assumption]. apply Op; [eauto|]. unfold cond_holds. cbn. lia.
    + apply A3; [|assumption]. apply Op; [eauto|]. unfold cond_holds. cbn. lia.
  - intros a Wa R. exists a. split; [apply same_below_refl|]. split; [assumption|]. split; [assumption|]. split; [now apply result_range|constructor].
Qed.

Lemma largest_spec : 1 <= largest d result <= 9223372036854775807 /\ forall a, within a d -> - largest d result <= var_value a result <= largest d result.
Proof.
  destruct (within_exists d Hd) as [b Wb]. pose proof (value_bounds d result b Hd Kr Wb) as Vb. destruct Range as (_ & _ & R1 & R2). unfold representable, largest, magnitude in *. split; [lia|].
  intros a Wa. pose proof (value_bounds d result a Hd Kr Wa). lia.
Qed.

Lemma chain_parts k own ls : 2 <= k -> chain base result (largest d result) (Z.to_nat k - 1) d base = (own, ls) -> parts_ok base k result d (mk_parts false [] [] own ls).
Proof.
  intros Hk E. destruct (Z.to_nat k - 1)%nat as [|todo] eqn:Et; [lia|]. destruct largest_spec as [M Mr]. set (m := largest d result) in *.
  assert (B : Forall (var_below (length d)) [base; base; result]) by (apply known_below_all; auto).
  destruct (chain_shape base result m todo d base own ls E B) as (L1 & L2 & L3 & L4).
  assert (Ek : k = 1 + Z.of_nat (S todo)) by lia.
  destruct Range as (R1 & R2 & _). apply same_range in R1. apply same_range in R2.
  assert (Pk : forall x : Z, x * x ^ Z.of_nat (S todo) = x ^ k) by (intro x; rewrite Ek, Z.pow_add_r, Z.pow_1_r by lia; reflexivity).
  constructor; cbn [chain_vars links]; auto.
  - apply (chain_ok base result m todo d base own ls); auto.
  - intros nv L. unfold power_pass. cbn [prune_zero equalities inequalities links fold_right run_stages fst snd andb]. intros D HD LD. cbn [infer_when]. fold (run_links ls Stop).
    apply links_say; [|intros a [(_ & _ & F) _]; exact F|exact Logic.I]. eapply Forall_impl; [|exact L2]. intros l (X & Y & Z). repeat split; eapply below_more; eauto.
  - intros nv D a L HD LD F1 F2 S Wa. assert (S' : still (run_links ls Stop) D) by exact S. change (raises (var_value a base) k (var_value a result)). apply raises_positive; [lia|].
    rewrite (L4 nv D L HD LD F1 F1 S' a Wa). apply Pk.
  - intros a Wa R. change (raises (var_value a base) k (var_value a result)) in R. pose proof R as R'. apply raises_positive in R'; [|lia].
    destruct (chain_values base result m todo d base own ls a 1 E) as (_ & a' & Sm & Wa' & F); auto; try lia.
    + now rewrite <- Ek.
    + exists a'. split; [assumption|]. split; [assumption|].
      assert (Same : forall v, var_known d v -> var_value a' v = var_value a v) by (intros v Kv; symmetry; apply (same_below_value (length d)); [assumption|]; now apply known_below).
      split; [|split; [|assumption]].
      * unfold power_rel. rewrite (Same base Kb), (Same result Kr). exact R.
      * rewrite Same by assumption. now apply result_range.
Qed.
End Parts.

Lemma parts_spec base k result d pp : domains_ok d -> var_known d base -> var_known d result -> within_range d base result -> ~ cancels base (VConst k) result ->
  prepare_power base k result d = Some pp -> parts_ok base k result d pp.
Proof.
  intros Hd Kb Kr Rg Nc E. unfold prepare_power in E. destruct (constant_of base) as [c|] eqn:Eb.
  - apply constant_handle in Eb. subst base. destruct (checked_power c k) as [value|] eqn:Ec; [|discriminate]. injection E as <-.
    pose proof Rg as (R1' & _). assert (R1 : representable c) by (simpl in R1'; now rewrite ?Z.add_0_r in R1'). clear R1'. pose proof (checked_power_exact c k value R1) as X. apply X in Ec. destruct Ec as [Rv Iv].
    assert (exists n, underlying result = Some n) as (n & U) by (cbn in Nc; destruct (underlying result) as [n|]; [eauto|now destruct Nc]).
    assert (G : forall a, power_rel (VConst c) (VConst k) result a <-> weighted_sum [(1, result)] a = value).
    { intro a. rewrite one_term, Z.mul_1_l. unfold power_rel. cbn [var_value]. split; [|now intros ->]. intro H.
      clear - H Rv. unfold raises in *. destruct H as [[H1 ->]|(H1 & H2 & ->)], Rv as [[V1 ->]|(V1 & V2 & ->)]; lia || reflexivity. }
    apply equality_parts; auto; [|intros v [<-|[]]; simpl; auto].
    destruct (varies result n (fun _ => 0) U) as (b & N & _). apply (varying_fair _ _ b (fun _ => 0)). rewrite !one_term. lia.
  - assert (C : cancels base (VConst k) result <-> k = 0 /\ underlying result = None \/ k = 1 /\ underlying base = underlying result) by (destruct base; simpl in Eb |- *; [reflexivity|reflexivity|discriminate]).
    rewrite C in Nc. clear C. destruct (not_constant base Eb) as (n & U). destruct (Z.eqb_spec k 0) as [->|N0].
    { injection E as <-. destruct (underlying result) as [j|] eqn:Ur; [|destruct Nc; auto]. apply equality_parts; auto; [|intros v [<-|[]]; simpl; auto|].
      - destruct (varies result j (fun _ => 0) Ur) as (b & N & _). apply (varying_fair _ _ b (fun _ => 0)). rewrite !one_term. lia.
      - intro a. rewrite one_term, Z.mul_1_l. unfold power_rel. cbn [var_value]. rewrite raises_positive by lia. now rewrite Z.pow_0_r. }
    destruct (Z.eqb_spec k 1) as [->|N1].
    { injection E as <-. apply equality_parts; auto; [|intros v [<-|[<-|[]]]; simpl; auto|].
      - destruct (varies base n (fun _ => 0) U) as (b & N & Same). apply (varying_fair _ _ b (fun _ => 0)). rewrite !two_terms. rewrite (Same result); [lia|]. intro Ur. destruct Nc. right. split; [reflexivity|congruence].
      - intro a. rewrite two_terms. unfold power_rel. cbn [var_value]. rewrite raises_positive by lia. rewrite Z.pow_1_r. lia. }
    destruct (Z.ltb_spec k 0) as [L|L]; cbn [orb] in E; [injection E as <-; now apply negative_parts|].
    destruct (Z.ltb_spec 62 k) as [G|G]; [injection E as <-; now apply large_parts|].
    destruct (chain base result (largest d result) (Z.to_nat k - 1) d base) as [own ls] eqn:Ec. injection E as <-. apply chain_parts; auto. lia.
Qed.

(** ** Installation *)

Lemma link_local n ls : Forall (link_below n) ls -> local n (fun a => Forall (link_rel a) ls).
Proof.
  intros B a a' Sm F. apply Forall_forall. intros l Il. pose proof (proj1 (Forall_forall _ _) F l Il) as R. destruct (proj1 (Forall_forall _ _) B l Il) as (B1 & B2 & B3).
  unfold link_rel, product_rel in *. rewrite <- !(same_below_value n a a') by assumption. exact R.
Qed.

Lemma power_local n base exponent result : Forall (var_below n) [base; exponent; result] -> local n (power_rel base exponent result).
Proof.
  intros B a a' Sm R. unfold power_rel in *. pose proof (proj1 (Forall_forall _ _) B) as Bv. rewrite <- !(same_below_value n a a') by (auto; apply Bv; simpl; auto). exact R.
Qed.

Lemma parts_install base k result d cs pp : domains_ok d -> var_known d base -> var_known d result -> parts_ok base k result d pp ->
  installs d cs (mk_installation (chain_vars pp) [] [power_propagator base result pp] []) [base; VConst k; result] (power_rel base (VConst k) result) (power_sol base k result (links pp)) (fun _ _ => True).
Proof.
  intros Hd Kb Kr [Ow Li Sy Ck Ex].
  assert (B : Forall (var_below (length d)) [base; VConst k; result]) by (apply known_below_all; repeat constructor; assumption).
  assert (Le : (length d <= length (d ++ chain_vars pp))%nat) by (unfold domains, iset in *; rewrite app_length; lia).
  constructor; cbn [in_vars in_states in_props in_inits map]; auto.
  - intros a a' Sm (R1 & R2 & R3). split; [|split].
    + apply (local_more (length d) (length (d ++ chain_vars pp)) _ Le (power_local _ _ _ _ B)) with (a := a); auto.
    + rewrite <- (same_below_value (length (d ++ chain_vars pp)) a a' result Sm); [exact R2|]. apply (below_more (length d)); [assumption|]. now apply known_below.
    + now apply (link_local _ _ Li a).
  - intros nv Inv Lv St Id _. exists [power_rel base (VConst k) result], []. split; [|split; [constructor|]].
    + constructor; [|constructor]. unfold power_propagator.
      apply (meets_supports nv (d ++ chain_vars pp) Inv _ (fun _ => settling (power_pass base pp)) _ [base; VConst k; result]); auto.
      * intro i. cbn [p_run body_propagator]. destruct (body_run_out (settling (power_pass base pp)) i) as (A1 & A2 & A3 & _). auto.
      * intros D c I. apply (Id D c I).
      * eapply Forall_impl; [|exact B]. intros v. apply below_more. exact (Nat.le_trans _ _ _ Le Lv).
      * apply incl_refl.
      * intros v x I U. apply listed_subscribes with (v := v); [|assumption]. rewrite app_nil_r. simpl app. apply distinct_variables_In. split; [|congruence].
        destruct I as [<-|[<-|[<-|[]]]]; [now left|discriminate|right; now left].
      * intros _. apply settling_meets; [now apply Sy|]. intros D a H1 H2 H3 H4 H5. rewrite Forall_forall in H3. apply (Ck nv D a); auto; apply H3; simpl; auto.
    + intros a _ F _. now inversion F.
Qed.

(** ** The table *)

Lemma power_plan_spec base k result d : domains_ok d -> Forall (var_known d) [base; result] -> within_range d base result -> let pl := power_plan base k result in
  plan_ok_in d pl /\ Forall (var_below (length d)) (pl_vars pl) /\ NoDup (underlying_list (pl_vars pl)) /\
  (forall a, pl_accept pl (map (var_value a) (pl_vars pl)) = true <-> checked_power (var_value a base) k = Some (var_value a result)).
Proof.
  intros Hd K Rg pl. unfold power_plan in pl. destruct (place_slots [affine_of base; affine_of result] []) as [vars slots] eqn:E.
  destruct (placed_vars d [base; result] vars slots K E) as (B & ND & F & _). destruct (place_slots_spec _ _ _ _ E) as (_ & Sl & _ & _).
  inversion F as [|? s1 ? ? F1 F' E1 E2]; subst. inversion F' as [|? s2 ? ? F2 F'' E1 E2]; subst. inversion F''. subst. cbn [nth] in pl.
  assert (S2 : slot_for vars (affine_of result) s2) by (inversion Sl as [|? ? ? ? ? Sl']; now inversion Sl'). clear F F' F'' Sl.
  assert (Ac : forall a, pl_accept pl (map (var_value a) (pl_vars pl)) = true <-> checked_power (var_value a base) k = Some (var_value a result)).
  { intro a. unfold pl. cbn [pl_vars pl_accept]. rewrite F1, F2. destruct (checked_power (var_value a base) k) as [w|]; [rewrite Z.eqb_eq; split; [now intros ->|congruence]|split; discriminate]. }
  split; [|split; [assumption|split; [assumption|exact Ac]]].
  constructor; unfold pl; cbn [pl_vars pl_determined pl_reification]; [|discriminate].
  intros p f I. destruct s2 as [[[q|] c] o]; [|destruct I]. cbn [slot_position fst] in I. destruct (same_position (Some q) (slot_position s1)) eqn:En; [destruct I|]. apply same_positions in En.
  destruct I as [[= <- <-]|[]]. destruct (unit_slot _ _ _ _ _ S2) as [Lq Uc]. split; [assumption|]. split; [discriminate|]. intros a values Wa. cbv zeta. set (zs := map (var_value a) vars). intros Lz A _ Ag.
  apply Ac in A. rewrite (slot_same s1 q values zs En Ag). unfold zs. rewrite F1, A. specialize (F2 a). cbn [slot_value] in F2. rewrite <- F2. now apply slot_solved.
Qed.

Lemma table_relation base k result d a : domains_ok d -> var_known d base -> var_known d result -> within_range d base result -> within a d ->
  (checked_power (var_value a base) k = Some (var_value a result) <-> power_rel base (VConst k) result a).
Proof.
  intros Hd Kb Kr Rg Wa. pose proof (value_bounds d base a Hd Kb Wa) as Vb. pose proof (value_bounds d result a Hd Kr Wa) as Vr. destruct Rg as (R1 & R2 & R3 & R4).
  rewrite checked_power_exact by (unfold representable in *; lia). unfold power_rel. cbn [var_value]. unfold representable in *. split; [tauto|]. intro R. split; [assumption|lia].
Qed.

Lemma range_more d more base result : var_known d base -> var_known d result -> within_range d base result -> within_range (d ++ more) base result.
Proof.
  intros Kb Kr Rg. unfold within_range. destruct (prefix_bounds d more base Kb) as [E1 E2]. destruct (prefix_bounds d more result Kr) as [E3 E4].
  unfold domains, iset in *. rewrite E1, E2, E3, E4. exact Rg.
Qed.

Lemma constant_power_installs d cs l base k result : domains_ok d -> var_known d base -> var_known d result -> within_range d base result -> ~ cancels base (VConst k) result ->
  exists sol, installs d cs (constant_power l base k result d cs) [base; VConst k; result] (power_rel base (VConst k) result) sol (fun _ _ => True).
Proof.
  intros Hd Kb Kr Rg Nc. unfold constant_power.
  assert (B : Forall (var_below (length d)) [base; VConst k; result]) by (apply known_below_all; repeat constructor; assumption).
  destruct (prepare_power base k result d) as [pp|] eqn:E.
  - pose proof (parts_spec base k result d pp Hd Kb Kr Rg Nc E) as Po. pose proof (parts_install base k result d cs pp Hd Kb Kr Po) as In1.
    match goal with |- context [if ?b then _ else _] => destruct b end; [|eauto]. cbv zeta.
    assert (K2 : Forall (var_known (d ++ chain_vars pp)) [base; result]) by (repeat constructor; now apply prefix_known).
    pose proof (po_own _ _ _ _ _ Po) as Ow.
    destruct (power_plan_spec base k result (d ++ chain_vars pp) Ow K2 (range_more _ _ _ _ Kb Kr Rg)) as (P1 & P2 & _ & P4).
    destruct (tabulation_installs (d ++ chain_vars pp) cs (power_plan base k result) P1 Ow P2) as (sol2 & In2).
    exists (fun a => power_sol base k result (links pp) a /\ sol2 a).
    refine (installs_then d cs (chain_vars pp) [power_propagator base result pp] _ _ _ (install_tabulation (power_plan base k result) (d ++ chain_vars pp) cs) _ _ _ _ In1 In2 _).
    intros a Wa (R & _). apply P4. apply (table_relation base k result (d ++ chain_vars pp)); auto; try (now apply prefix_known). now apply range_more.
  - exists (power_rel base (VConst k) result). apply failing_installs; auto; [|now apply power_local].
    intros a Wa R. unfold prepare_power in E. destruct (constant_of base) as [c|] eqn:Eb.
    + apply constant_handle in Eb. subst base. destruct (checked_power c k) as [v|] eqn:Ec; [discriminate|].
      pose proof (proj2 (table_relation (VConst c) k result d a Hd Kb Kr Rg Wa) R) as X. cbn [var_value] in X. congruence.
    + destruct (k =? 0); [discriminate|]. destruct (k =? 1); [discriminate|]. destruct ((k <? 0) || (62 <? k)); [discriminate|]. destruct (chain _ _ _ _ _ _). discriminate.
Qed.

(** ** A variable exponent *)

Lemma power_tuples_In d base exponent result t : domains_ok d -> var_known d result -> In t (power_tuples d base exponent result) <->
  exists x k z, In x (each_value d base) /\ In k (each_value d exponent) /\ checked_power x k = Some z /\ view_member d result z /\ t = [Some x; Some k; Some z].
Proof.
  intros Hd Kr. unfold power_tuples. rewrite in_flat_map. split.
  - intros (x & Ix & It). apply in_flat_map in It. destruct It as (k & Ik & It). destruct (checked_power x k) as [z|] eqn:E; [|destruct It].
    destruct (in_domain d result z) eqn:Ez; [|destruct It]. destruct It as [<-|[]]. apply in_domain_spec in Ez; auto. exists x, k, z. auto 6.
  - intros (x & k & z & Ix & Ik & E & Ez & ->). exists x. split; [assumption|]. apply in_flat_map. exists k. split; [assumption|]. rewrite E. apply in_domain_spec in Ez; auto. rewrite Ez. now left.
Qed.

Lemma power_listed d base exponent result a : domains_ok d -> Forall (var_known d) [base; exponent; result] -> within_range d base result -> within a d ->
  (listed_in a [base; exponent; result] (power_tuples d base exponent result) <-> power_rel base exponent result a).
Proof.
  intros Hd K Rg Wa. apply Forall_cons_iff in K. destruct K as [Kb K]. apply Forall_cons_iff in K. destruct K as [Ke K]. apply Forall_cons_iff in K. destruct K as [Kr _].
  pose proof (value_bounds d base a Hd Kb Wa) as Vb. pose proof (value_bounds d result a Hd Kr Wa) as Vr. pose proof Rg as (R1 & R2 & R3 & R4).
  assert (Ix : representable (var_value a base)) by (unfold representable in *; lia). assert (Iz : representable (var_value a result)) by (unfold representable in *; lia).
  unfold listed_in. rewrite Exists_exists. split.
  - intros (t & It & Ag). apply power_tuples_In in It; auto. destruct It as (x & k & z & _ & _ & E & _ & ->).
    unfold agrees in Ag. inversion Ag as [|? ? ? ? A1 Ag']; subst. inversion Ag' as [|? ? ? ? A2 Ag'']; subst. inversion Ag'' as [|? ? ? ? A3 _]; subst.
    apply checked_power_exact in E; [|assumption]. apply E.
  - intro R. exists [Some (var_value a base); Some (var_value a exponent); Some (var_value a result)]. split; [|repeat constructor].
    apply power_tuples_In; auto. exists (var_value a base), (var_value a exponent), (var_value a result).
    split; [apply each_value_In; apply view_member_iff; eauto|]. split; [apply each_value_In; apply view_member_iff; eauto|].
    split; [apply checked_power_exact; [assumption|]; split; assumption|]. split; [apply view_member_iff; eauto|reflexivity].
Qed.

Lemma power_table_installs d cs base exponent result : domains_ok d -> Forall (var_known d) [base; exponent; result] -> within_range d base result ->
  exists sol Own, installs d cs (power_table base exponent result d cs) [base; exponent; result] (power_rel base exponent result) sol Own.
Proof.
  intros Hd K Rg. unfold power_table. destruct (table [base; exponent; result] (power_tuples d base exponent result)) as [i|] eqn:E.
  - destruct (table_means d _ _ i K E) as (_ & _ & M). destruct (M [] cs) as (sol & Own & In1); [now rewrite app_nil_r|].
    rewrite app_nil_r in In1. exists sol, Own. revert In1. apply installs_within. intros a Wa. now apply power_listed.
  - exfalso. apply table_refuses in E. apply Exists_exists in E. destruct E as (t & It & N).
    apply Forall_cons_iff in K. destruct K as [Kb K]. apply Forall_cons_iff in K. destruct K as [Ke K]. apply Forall_cons_iff in K. destruct K as [Kr _].
    apply power_tuples_In in It; auto. destruct It as (x & k & z & _ & _ & _ & _ & ->). now destruct N.
Qed.

Lemma power_means d0 l base exponent result : Forall (var_known d0) [base; exponent; result] -> within_range d0 base result -> ~ cancels base exponent result ->
  means d0 (power l base exponent result) [base; exponent; result] (power_rel base exponent result).
Proof.
  intros K Rg Nc. pose proof (proj1 (known_below_all _ _) K) as B. split; [assumption|]. split; [now apply power_local|]. intros hidden cs Hd.
  assert (K' : Forall (var_known (d0 ++ hidden)) [base; exponent; result]) by now apply known_hidden.
  pose proof K as Kc. apply Forall_cons_iff in Kc. destruct Kc as [Kb Kc]. apply Forall_cons_iff in Kc. destruct Kc as [Ke Kc]. apply Forall_cons_iff in Kc. destruct Kc as [Kr _].
  pose proof (range_more d0 hidden base result Kb Kr Rg) as Rg'. unfold power. destruct (constant_of exponent) as [k|] eqn:Ee.
  - apply constant_handle in Ee. subst exponent. destruct (constant_power_installs (d0 ++ hidden) cs l base k result) as (sol & In1); eauto; now apply prefix_known.
  - now apply power_table_installs.
Qed.

(** ** Consistency *)

Lemma power_tabulated d0 cs l base k result : domains_ok d0 -> Forall (var_known d0) [base; result] -> within_range d0 base result -> ~ cancels base (VConst k) result -> underlying base <> None ->
  l = Tabulated \/ (exists threshold, l = Auto threshold /\ domain_size d0 base * domain_size d0 result <= threshold) ->
  (exists s, within s d0 /\ power_rel base (VConst k) result s) ->
  let i := power l base (VConst k) result d0 cs in exists p t, in_props i = [p; t] /\
  forall D, ConsistencySpec.outcome (length (d0 ++ in_vars i)) (fun d _ => inside (d0 ++ in_vars i) d) t D ->
  domain_consistent D [base; result] (power_rel base (VConst k) result) /\ rerun_is_quiet t D.
Proof.
  intros Hd K Rg Nc Nb Lv (s & Ws & Ss). pose proof (proj1 (Forall_forall _ _) K base (or_introl eq_refl)) as Kb. pose proof (proj1 (Forall_forall _ _) K result (or_intror (or_introl eq_refl))) as Kr.
  assert (Eb : constant_of base = None) by (destruct base; [reflexivity|reflexivity|now destruct Nb]).
  cbv zeta. unfold power. cbn [constant_of]. unfold constant_power. destruct (prepare_power base k result d0) as [pp|] eqn:E.
  2: { exfalso. clear - E Eb. unfold prepare_power in E. rewrite Eb in E. destruct (k =? 0); [discriminate|]. destruct (k =? 1); [discriminate|]. destruct ((k <? 0) || (62 <? k)); [discriminate|]. destruct (chain _ _ _ _ _ _). discriminate. }
  pose proof (parts_spec base k result d0 pp Hd Kb Kr Rg Nc E) as Po. pose proof (parts_install base k result d0 cs pp Hd Kb Kr Po) as In1. pose proof (po_own _ _ _ _ _ Po) as Ow. rewrite Eb. cbv zeta.
  assert (K2 : Forall (var_known (d0 ++ chain_vars pp)) [base; result]) by (repeat constructor; now apply prefix_known).
  pose proof (range_more d0 (chain_vars pp) base result Kb Kr Rg) as Rg2.
  destruct (power_plan_spec base k result (d0 ++ chain_vars pp) Ow K2 Rg2) as (P1 & P2 & P3 & P4).
  assert (W : want_tabulation l (d0 ++ chain_vars pp) (power_plan base k result) = true).
  { destruct Lv as [->|(t & -> & L)]; [reflexivity|]. unfold power_plan. destruct (place_slots [affine_of base; affine_of result] []) as [vars slots] eqn:Ep. cbv zeta.
    apply (small_plan (d0 ++ chain_vars pp) [base; result] vars slots); auto. unfold sizes. cbn [map fold_right]. rewrite !domain_size_prefix by assumption. lia. }
  match goal with |- context [if ?b then _ else _] => replace b with true by (symmetry; exact W) end.
  destruct (ins_extends _ _ _ _ _ _ _ In1 s Ws Ss) as (s' & _ & Ws' & Ss'). cbn [in_vars] in Ws'.
  destruct (tabulation_gives (d0 ++ chain_vars pp) cs (power_plan base k result) [base; result] (fun a => checked_power (var_value a base) k = Some (var_value a result)) P1 Ow P2 P3) as (q & Ep & H).
  - exact P4.
  - exists s'. split; [exact Ws'|]. apply (table_relation base k result (d0 ++ chain_vars pp)); auto; try (now apply prefix_known). apply Ss'.
  - exists (power_propagator base result pp), q. cbn [in_props in_vars]. split; [f_equal; exact Ep|].
    rewrite app_assoc. intros D Ou. destruct (H D Ou) as [Dc Q]. split; [|assumption].
    intros v x Iv Ex. destruct (Dc v x Iv Ex) as (a & Wa & Va & Sa). exists a. split; [assumption|]. split; [assumption|]. now apply checked_power_sound.
Qed.

Lemma power_table_consistent d0 cs l base exponent result : domains_ok d0 -> Forall (var_known d0) [base; exponent; result] -> within_range d0 base result -> NoDup (underlying_list [base; exponent; result]) ->
  underlying exponent <> None -> forall p, in_props (power l base exponent result d0 cs) = [p] ->
  forall D, ConsistencySpec.outcome (S (length d0)) (fun d _ => inside (d0 ++ in_vars (power l base exponent result d0 cs)) d) p D ->
  domain_consistent D [base; exponent; result] (power_rel base exponent result) /\ rerun_is_quiet p D.
Proof.
  intros Hd K Rg ND Ne p Ep D Ou. unfold power in *. destruct (constant_of exponent) as [k|] eqn:Ee; [apply constant_handle in Ee; subst exponent; now destruct Ne|].
  unfold power_table in *. destruct (table [base; exponent; result] (power_tuples d0 base exponent result)) as [i|] eqn:E; [|discriminate].
  destruct (table_consistent d0 cs _ _ i p Hd K ND E Ep D Ou) as [Dc Q]. split; [|exact Q].
  intros v x Iv Ex. destruct (Dc v x Iv Ex) as (a & Wa & Va & Sa). exists a. split; [assumption|]. split; [assumption|].
  unfold listed_in in Sa. apply Exists_exists in Sa. destruct Sa as (t & It & Ag). apply power_tuples_In in It; [|assumption|apply (proj1 (Forall_forall _ _) K); simpl; auto].
  destruct It as (y & k & z & _ & _ & Ep' & _ & ->). unfold agrees in Ag. inversion Ag as [|? ? ? ? A1 Ag']; subst. inversion Ag' as [|? ? ? ? A2 Ag'']; subst. inversion Ag'' as [|? ? ? ? A3 _]; subst.
  now apply checked_power_sound.
Qed.

Lemma power_rests d0 cs l base k result : domains_ok d0 -> Forall (var_known d0) [base; result] -> within_range d0 base result -> ~ cancels base (VConst k) result -> underlying base <> None ->
  exists p ps, in_props (power l base (VConst k) result d0 cs) = p :: ps /\
  forall nv Inv D, (length (d0 ++ in_vars (power l base (VConst k) result d0 cs)) <= nv)%nat -> ConsistencySpec.outcome nv Inv p D -> rerun_is_quiet p D.
Proof.
  intros Hd K Rg Nc Nb. pose proof (proj1 (Forall_forall _ _) K base (or_introl eq_refl)) as Kb. pose proof (proj1 (Forall_forall _ _) K result (or_intror (or_introl eq_refl))) as Kr.
  assert (Eb : constant_of base = None) by (destruct base; [reflexivity|reflexivity|now destruct Nb]).
  unfold power. cbn [constant_of]. unfold constant_power. destruct (prepare_power base k result d0) as [pp|] eqn:E.
  2: { exfalso. clear - E Eb. unfold prepare_power in E. rewrite Eb in E. destruct (k =? 0); [discriminate|]. destruct (k =? 1); [discriminate|]. destruct ((k <? 0) || (62 <? k)); [discriminate|]. destruct (chain _ _ _ _ _ _). discriminate. }
  pose proof (po_says _ _ _ _ _ (parts_spec base k result d0 pp Hd Kb Kr Rg Nc E)) as Sy. cbv zeta.
  exists (power_propagator base result pp). match goal with |- context [if ?b then _ else _] => destruct b end; cbn [in_props in_vars]; eexists; (split; [reflexivity|]); intros nv Inv D Ln Ou.
  all: unfold domains, iset in *; rewrite !app_length in *.
  all: assert (Ln' : (length d0 + length (chain_vars pp) <= nv)%nat) by (first [exact Ln|eapply Nat.le_trans; [|exact Ln]; apply Nat.add_le_mono_l, Nat.le_add_r]).
  all: apply (settling_rerun nv _ _ (Sy nv Ln') _ _ _ Inv D Ou).
Qed.
