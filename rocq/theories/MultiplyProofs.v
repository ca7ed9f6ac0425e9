(** Lemmas about products of two variables. *)
From Coq Require Import ZArith List Bool Arith Lia.
From Verif Require Import IntervalSet IntervalSetSpec IntervalSetProofs Vars VarsSpec VarsProofs State StateSpec StateProofs Expressions ExpressionsSpec Epochs
  Engine EngineSpec EngineProofs SessionSpec SessionInvProofs Tracker ContractSpec ContractProofs RunProofs Quiet QuietProofs Settle SettleProofs
  Equals EqualsProofs Reify ReifySpec ReifyProofs Solve ConsistencySpec SolveSpec SolveProofs StatefulSpec AllDifferentProofs
  Linear LinearSpec LinearProofs LexProofs Tabulation TabulationProofs Passes PassesProofs ProductBounds ProductSpec ProductBoundsProofs Multiply.
Import ListNotations.
Local Open Scope Z_scope.

Definition product_rel (x y z : var_id) (a : assignment) : Prop := var_value a x * var_value a y = var_value a z.

(** ** Bounds *)

Lemma lit_le a v x : lit_holds a (LCond (cond_le v x)) <-> var_value a v <= x.
Proof. unfold lit_holds, cond_holds; cbn. lia. Qed.

Lemma lit_lt a v x : lit_holds a (LCond (cond_lt v x)) <-> var_value a v < x.
Proof. unfold lit_holds, cond_holds; cbn. lia. Qed.

Lemma lit_ge a v x : lit_holds a (LCond (cond_ge v x)) <-> x <= var_value a v.
Proof. unfold lit_holds, cond_holds; cbn. lia. Qed.

Lemma lower_at d v : domains_ok d -> var_known d v -> exists a, within a d /\ var_value a v = lower_bound d v.
Proof. intros Hd K. destruct (lower_bound_spec d v Hd K) as [A _]. rewrite view_member_iff in A by assumption. destruct A as (a & Wa & E). eauto. Qed.

Lemma upper_at d v : domains_ok d -> var_known d v -> exists a, within a d /\ var_value a v = upper_bound d v.
Proof. intros Hd K. destruct (upper_bound_spec d v Hd K) as [A _]. rewrite view_member_iff in A by assumption. destruct A as (a & Wa & E). eauto. Qed.

Lemma lower_le_upper d v : domains_ok d -> var_known d v -> lower_bound d v <= upper_bound d v.
Proof. intros Hd K. destruct (lower_at d v Hd K) as (a & Wa & <-). now apply value_bounds. Qed.

(** ** What is said *)

Section Pass.
Variable nv : nat.
Variable x y z : var_id.
Hypothesis Bx : var_below nv x.
Hypothesis By : var_below nv y.
Hypothesis Bz : var_below nv z.

Lemma known_here d v : length d = nv -> var_below nv v -> var_known d v.
Proof. intros L B. now apply (var_below_known nv). Qed.

Lemma filter_factor_says t c (P : assignment -> Prop) rest : var_below nv t -> var_below nv c -> (forall a, P a -> var_value a t * var_value a c = var_value a z) ->
  says nv P rest -> says nv P (filter_factor t c z rest).
Proof.
  intros Bt Bc H R. unfold filter_factor. cbn [says]. intros d Hd L.
  assert (R' : says nv (fun a => P a /\ within a d) rest) by (apply (says_weaken nv rest P); [tauto|assumption]).
  rewrite !bounds_spec by auto using known_here. cbn [fst snd].
  assert (Q : forall a, P a /\ within a d -> match quotient_filter (lower_bound d c) (upper_bound d c) (lower_bound d z) (upper_bound d z) with
    NoFilter => True | EmptyBecauseYZero => False | Bounds lo hi => lo <= var_value a t <= hi end).
  { intros a [Pa Wa]. apply (quotient_filter_spec _ _ _ _ _ (var_value a c)); [apply value_bounds; auto using known_here|]. rewrite (H a Pa). apply value_bounds; auto using known_here. }
  destruct (quotient_filter (lower_bound d c) (upper_bound d c) (lower_bound d z) (upper_bound d z)) as [| |lo hi].
  - exact R'.
  - cbn [says]. split; [exact Logic.I|]. split; [|exact R']. intros a Pa. destruct (Q a Pa).
  - apply says_when; [|apply says_when; [|exact R']]; intros _; split; try exact Bt; intros a Pa; specialize (Q a Pa); [apply lit_lt|apply lit_ge]; lia.
Qed.

Lemma square_bound_says v (up : bool) b (P : assignment -> Prop) rest : var_below nv v -> (forall a, P a -> if up then var_value a v <= b else b <= var_value a v) ->
  says nv P rest -> says nv P (infer_square_bound v up b rest).
Proof.
  intros Bv H R. unfold infer_square_bound. cbn [says]. intros d Hd L.
  assert (R' : says nv (fun a => P a /\ within a d) rest) by (apply (says_weaken nv rest P); [tauto|assumption]).
  rewrite bounds_spec by auto using known_here. cbn [fst snd].
  match goal with |- context [if ?b then rest else _] => destruct b end; [exact R'|]. cbn [says]. split; [destruct up; exact Bv|]. split; [|exact R']. intros a [Pa _]. specialize (H a Pa). destruct up; [apply lit_lt|apply lit_ge]; lia.
Qed.

Lemma filter_root_says (P : assignment -> Prop) rest : (forall a, P a -> var_value a x * var_value a x = var_value a z) ->
  says nv P rest -> says nv P (filter_root x z rest).
Proof.
  intros H R. unfold filter_root. cbn [says]. intros d Hd L.
  assert (R' : says nv (fun a => P a /\ within a d) rest) by (apply (says_weaken nv rest P); [tauto|assumption]).
  rewrite bounds_spec by auto using known_here. cbn [fst snd]. destruct (Z.ltb_spec (upper_bound d z) 0) as [N|N]; [exact R'|].
  assert (Q : forall a, P a /\ within a d -> - isqrt (upper_bound d z) <= var_value a x <= isqrt (upper_bound d z)).
  { intros a [Pa Wa]. apply isqrt_bound; [assumption|]. rewrite (H a Pa). apply value_bounds; auto using known_here. }
  apply square_bound_says; [assumption|intros a Pa; specialize (Q a Pa); lia|]. apply square_bound_says; [assumption|intros a Pa; specialize (Q a Pa); lia|].
  destruct (Z.ltb_spec 0 (lower_bound d z)) as [G|G]; [|exact R'].
  cbn [says]. intros d' Hd' L'. rewrite bounds_spec by auto using known_here. cbn [fst snd].
  assert (R'' : says nv (fun a => (P a /\ within a d) /\ within a d') rest) by (apply (says_weaken nv rest P); [tauto|assumption]).
  assert (C : forall a, (P a /\ within a d) /\ within a d' -> (var_value a x <= - ceil_isqrt (lower_bound d z) \/ ceil_isqrt (lower_bound d z) <= var_value a x) /\ lower_bound d' x <= var_value a x <= upper_bound d' x).
  { intros a [[Pa Wa] Wa']. split; [|apply value_bounds; auto using known_here]. apply ceil_isqrt_bound; [lia|]. rewrite (H a Pa). apply value_bounds; auto using known_here. }
  destruct (Z.ltb_spec (- ceil_isqrt (lower_bound d z)) (lower_bound d' x)) as [A|A]; [|destruct (Z.ltb_spec (upper_bound d' x) (ceil_isqrt (lower_bound d z))) as [B|B]; [|exact R'']];
    (apply square_bound_says; [assumption| |exact R'']); intros a Pa; specialize (C a Pa); lia.
Qed.

Lemma multiply_says (P : assignment -> Prop) rest : (forall a, P a -> product_rel x y z a) -> says nv P rest -> says nv P (multiply_pass x y z rest).
Proof.
  intros H R. unfold multiply_pass. cbn [says]. intros d Hd L. rewrite !bounds_spec by auto using known_here.
  assert (R' : says nv (fun a => P a /\ within a d) rest) by (apply (says_weaken nv rest P); [tauto|assumption]).
  set (pr := if var_eqb x y then square_bounds (lower_bound d x) (upper_bound d x) else product_bounds (lower_bound d x) (upper_bound d x) (lower_bound d y) (upper_bound d y)).
  assert (Q : forall a, P a /\ within a d -> fst pr <= var_value a z <= snd pr).
  { intros a [Pa Wa]. rewrite <- (H a Pa). unfold pr. destruct (var_eqb x y) eqn:E; [apply var_eqb_spec in E; subst y; apply square_bounds_spec|apply product_bounds_spec]; apply value_bounds; auto using known_here. }
  destruct pr as [lo hi]. cbn [fst snd] in Q.
  apply says_when; [intros _; split; [exact Bz|]; intros a Pa; specialize (Q a Pa); apply lit_le; lia|].
  apply says_when; [intros _; split; [exact Bz|]; intros a Pa; specialize (Q a Pa); apply lit_ge; lia|].
  destruct (var_eqb x y) eqn:E.
  - apply var_eqb_spec in E. apply filter_root_says; [|exact R']. intros a [Pa _]. specialize (H a Pa). unfold product_rel in H. now rewrite <- E in H.
  - apply filter_factor_says; [assumption|assumption|intros a [Pa _]; now apply H|]. apply filter_factor_says; [assumption|assumption| |exact R'].
    intros a [Pa _]. rewrite Z.mul_comm. now apply H.
Qed.

(** ** What is left *)

(** Nothing that is inferred removes anything. *)
Lemma still_when b l rest d : still (infer_when b l rest) d -> (b = true -> forall a, within a d -> lit_holds a l) /\ still rest d.
Proof.
  intro S. split.
  - intros -> a Wa. specialize (S a Wa). now inversion S.
  - intros a Wa. specialize (S a Wa). rewrite inferred_when in S. apply Forall_app in S. tauto.
Qed.

Lemma still_bounds d v b l rest : domains_ok d -> var_known d v -> still (infer_when b l rest) d ->
  (forall x, l = LCond (cond_le v x) -> b = (x <? upper_bound d v) -> upper_bound d v <= x) /\
  (forall x, l = LCond (cond_lt v (x + 1)) -> b = (x <? upper_bound d v) -> upper_bound d v <= x) /\
  (forall x, l = LCond (cond_ge v x) -> b = (lower_bound d v <? x) -> x <= lower_bound d v).
Proof.
  intros Hd K S. apply still_when in S. destruct S as [S _]. repeat split; intros t -> ->.
  - destruct (Z.ltb_spec t (upper_bound d v)) as [N|N]; [|lia]. destruct (upper_at d v Hd K) as (a & Wa & <-). specialize (S eq_refl a Wa). now apply (proj1 (lit_le _ _ _)) in S.
  - destruct (Z.ltb_spec t (upper_bound d v)) as [N|N]; [|lia]. destruct (upper_at d v Hd K) as (a & Wa & <-). specialize (S eq_refl a Wa). apply (proj1 (lit_lt _ _ _)) in S. lia.
  - destruct (Z.ltb_spec (lower_bound d v) t) as [N|N]; [|lia]. destruct (lower_at d v Hd K) as (a & Wa & <-). specialize (S eq_refl a Wa). now apply (proj1 (lit_ge _ _ _)) in S.
Qed.

Lemma still_factor d t c rest : domains_ok d -> length d = nv -> var_below nv t -> var_below nv c -> still (filter_factor t c z rest) d ->
  still rest d /\ match quotient_filter (lower_bound d c) (upper_bound d c) (lower_bound d z) (upper_bound d z) with
    NoFilter => True | EmptyBecauseYZero => False | Bounds lo hi => lo <= lower_bound d t /\ upper_bound d t <= hi end.
Proof.
  intros Hd L Bt Bc S. unfold filter_factor in S. assert (S' : still (let '(cof_lo, cof_hi) := bounds d c in let '(z_lo, z_hi) := bounds d z in let '(t_lo, t_hi) := bounds d t in
    match quotient_filter cof_lo cof_hi z_lo z_hi with NoFilter => rest | EmptyBecauseYZero => Infer LFalse rest
    | Bounds lo hi => infer_when (hi <? t_hi) (LCond (cond_lt t (hi + 1))) (infer_when (t_lo <? lo) (LCond (cond_ge t lo)) rest) end) d) by exact S. clear S. rename S' into S.
  rewrite !bounds_spec in S by auto using known_here. cbn [fst snd] in S.
  destruct (quotient_filter (lower_bound d c) (upper_bound d c) (lower_bound d z) (upper_bound d z)) as [| |lo hi].
  - auto.
  - destruct (lower_at d t Hd (known_here d t L Bt)) as (a & Wa & _). specialize (S a Wa). inversion S as [|? ? F]. destruct F.
  - pose proof (still_bounds d t _ _ _ Hd (known_here d t L Bt) S) as (_ & A & _). specialize (A hi eq_refl eq_refl).
    apply still_when in S. destruct S as [_ S].
    pose proof (still_bounds d t _ _ _ Hd (known_here d t L Bt) S) as (_ & _ & B). specialize (B lo eq_refl eq_refl). apply still_when in S. tauto.
Qed.

Lemma still_square_bound d v (up : bool) b rest : domains_ok d -> length d = nv -> var_below nv v -> still (infer_square_bound v up b rest) d ->
  still rest d /\ if up then upper_bound d v <= b else b <= lower_bound d v.
Proof.
  intros Hd L Bv S. assert (S' : still (let '(cur_lo, cur_hi) := bounds d v in if (if up then cur_hi <=? b else b <=? cur_lo) then rest
    else Infer (LCond (if up then cond_lt v (b + 1) else cond_ge v b)) rest) d) by exact S. clear S. rename S' into S.
  rewrite bounds_spec in S by auto using known_here. cbn [fst snd] in S. pose proof (known_here d v L Bv) as K.
  destruct up.
  - destruct (Z.leb_spec (upper_bound d v) b) as [N|N]; [auto|]. exfalso. destruct (upper_at d v Hd K) as (a & Wa & Va). specialize (S a Wa). inversion S as [|? ? F]. apply (proj1 (lit_lt _ _ _)) in F. lia.
  - destruct (Z.leb_spec b (lower_bound d v)) as [N|N]; [auto|]. exfalso. destruct (lower_at d v Hd K) as (a & Wa & Va). specialize (S a Wa). inversion S as [|? ? F]. apply (proj1 (lit_ge _ _ _)) in F. lia.
Qed.

Lemma still_root d rest : domains_ok d -> length d = nv -> still (filter_root x z rest) d -> 0 <= upper_bound d z ->
  still rest d /\ (let u := isqrt (upper_bound d z) in upper_bound d x <= u /\ - u <= lower_bound d x) /\
  (0 < lower_bound d z -> let m := ceil_isqrt (lower_bound d z) in
     m <= lower_bound d x \/ upper_bound d x <= - m \/ (lower_bound d x <= - m /\ m <= upper_bound d x)).
Proof.
  intros Hd L S N. pose proof (known_here d x L Bx) as K. assert (S' : still (let '(z_lo, z_hi) := bounds d z in
    if z_hi <? 0 then rest
    else
      let u := isqrt z_hi in
      infer_square_bound x true u
        (infer_square_bound x false (- u)
          (if 0 <? z_lo then
             let m := ceil_isqrt z_lo in
             Look (fun d' =>
               let '(cur_lo, cur_hi) := bounds d' x in
               if - m <? cur_lo then infer_square_bound x false m rest
               else if cur_hi <? m then infer_square_bound x true (- m) rest
               else rest)
           else rest))) d) by exact S. clear S. rename S' into S.
  rewrite bounds_spec in S by auto using known_here. cbn [fst snd] in S. destruct (Z.ltb_spec (upper_bound d z) 0) as [N'|_]; [lia|]. cbv zeta in S |- *.
  apply still_square_bound in S; auto. destruct S as [S A]. apply still_square_bound in S; auto. destruct S as [S B].
  destruct (Z.ltb_spec 0 (lower_bound d z)) as [G|G].
  - assert (S' : still (let '(cur_lo, cur_hi) := bounds d x in if - ceil_isqrt (lower_bound d z) <? cur_lo then infer_square_bound x false (ceil_isqrt (lower_bound d z)) rest
               else if cur_hi <? ceil_isqrt (lower_bound d z) then infer_square_bound x true (- ceil_isqrt (lower_bound d z)) rest else rest) d) by exact S. clear S. rename S' into S.
    rewrite bounds_spec in S by auto using known_here. cbn [fst snd] in S.
    destruct (Z.ltb_spec (- ceil_isqrt (lower_bound d z)) (lower_bound d x)) as [C|C].
    + apply still_square_bound in S; auto. destruct S as [S D]. split; [assumption|]. split; [auto|]. intros _. now left.
    + destruct (Z.ltb_spec (upper_bound d x) (ceil_isqrt (lower_bound d z))) as [E|E].
      * apply still_square_bound in S; auto. destruct S as [S D]. split; [assumption|]. split; [auto|]. intros _. right. now left.
      * split; [assumption|]. split; [auto|]. intros _. right. right. lia.
  - split; [assumption|]. split; [auto|]. lia.
Qed.

Definition hull (d : domains) : Z * Z :=
  if var_eqb x y then square_bounds (lower_bound d x) (upper_bound d x) else product_bounds (lower_bound d x) (upper_bound d x) (lower_bound d y) (upper_bound d y).

Lemma still_pass d rest : domains_ok d -> length d = nv -> still (multiply_pass x y z rest) d ->
  fst (hull d) <= lower_bound d z /\ upper_bound d z <= snd (hull d) /\
  still (if var_eqb x y then filter_root x z rest else filter_factor x y z (filter_factor y x z rest)) d.
Proof.
  intros Hd L S. assert (S' : still (let '(x_lo, x_hi) := bounds d x in
    let '(y_lo, y_hi) := bounds d y in
    let square := var_eqb x y in
    let '(prod_lo, prod_hi) := if square then square_bounds x_lo x_hi else product_bounds x_lo x_hi y_lo y_hi in
    let '(z_lo, z_hi) := bounds d z in
    infer_when (prod_hi <? z_hi) (LCond (cond_le z prod_hi))
      (infer_when (z_lo <? prod_lo) (LCond (cond_ge z prod_lo))
        (if square then filter_root x z rest else filter_factor x y z (filter_factor y x z rest)))) d) by exact S. clear S. rename S' into S.
  rewrite !bounds_spec in S by auto using known_here. cbv zeta in S. fold (hull d) in S. destruct (hull d) as [lo hi]. cbn [fst snd].
  pose proof (still_bounds d z _ _ _ Hd (known_here d z L Bz) S) as (A & _ & _). specialize (A hi eq_refl eq_refl). apply still_when in S. destruct S as [_ S].
  pose proof (still_bounds d z _ _ _ Hd (known_here d z L Bz) S) as (_ & _ & B). specialize (B lo eq_refl eq_refl). apply still_when in S. destruct S as [_ S]. auto.
Qed.

(** ** Fixed *)

Lemma checks d a rest : domains_ok d -> length d = nv -> Forall (fixed d) [x; y; z] -> within a d -> Forall (lit_holds a) (inferred (multiply_pass x y z rest) d) -> product_rel x y z a.
Proof.
  intros Hd L F Wa I. apply Forall_cons_iff in F. destruct F as [Fx F]. apply Forall_cons_iff in F. destruct F as [Fy F]. apply Forall_cons_iff in F. destruct F as [Fz _].
  destruct (fixed_bounds d x a Hd (known_here d x L Bx) Fx Wa) as [Lx Ux]. destruct (fixed_bounds d y a Hd (known_here d y L By) Fy Wa) as [Ly Uy]. destruct (fixed_bounds d z a Hd (known_here d z L Bz) Fz Wa) as [Lz Uz].
  unfold multiply_pass in I. cbn [inferred] in I. rewrite !bounds_spec in I by auto using known_here. cbv zeta in I. fold (hull d) in I.
  assert (H : hull d = (var_value a x * var_value a y, var_value a x * var_value a y)).
  { unfold hull. rewrite Lx, Ux, Ly, Uy. destruct (var_eqb x y) eqn:E.
    - apply var_eqb_spec in E. rewrite <- E. unfold square_bounds. pose proof (Z.square_nonneg (var_value a x)). destruct (Z.leb_spec (var_value a x) 0), (Z.leb_spec 0 (var_value a x)); cbn [andb]; f_equal; nia.
    - unfold product_bounds. f_equal; lia. }
  rewrite H in I. rewrite Lz, Uz in I. rewrite !inferred_when in I. unfold product_rel.
  destruct (Z.ltb_spec (var_value a x * var_value a y) (var_value a z)) as [A|A].
  - simpl in I. apply Forall_cons_iff in I. destruct I as [I _]. apply (proj1 (lit_le _ _ _)) in I. lia.
  - destruct (Z.ltb_spec (var_value a z) (var_value a x * var_value a y)) as [B|B]; [|lia]. simpl in I. apply Forall_cons_iff in I. destruct I as [I _]. apply (proj1 (lit_ge _ _ _)) in I. lia.
Qed.
End Pass.

(** ** Correctness *)

Lemma distinct_variables_In vs v : In v (distinct_variables vs) <-> In v vs /\ underlying v <> None.
Proof.
  unfold distinct_variables. assert (G : forall vs done, In v (fold_left (fun done v => match v with VConst _ => done | _ => if existsb (var_eqb v) done then done else done ++ [v] end) vs done) <-> In v done \/ In v vs /\ underlying v <> None).
  { clear vs. induction vs as [|w vs IH]; intro done; simpl; [tauto|]. rewrite IH.
    assert (X : forall w, In v (if existsb (var_eqb w) done then done else done ++ [w]) <-> In v done \/ v = w).
    { intro u. destruct (existsb (var_eqb u) done) eqn:E; [|rewrite in_app_iff; simpl; intuition]. split; [auto|]. intros [H|H]; [assumption|]. subst u. apply existsb_exists in E. destruct E as (t & It & Et). apply var_eqb_spec in Et. now subst. }
    destruct w; rewrite ?X; (split; [|]); intros H; repeat (destruct H as [H|H]); subst; try tauto; try (right; split; [|discriminate]; tauto); try (right; tauto).
    - destruct H as [[H|H] N]; subst; auto.
    - destruct H as [[H|H] N]; subst; auto.
    - destruct H as [[H|H] N]; subst; auto. now destruct N. }
  rewrite G. simpl. tauto.
Qed.

Lemma settling_correct (d0 : domains) (p : prog) scope (sat : assignment -> Prop) on_change on_bounds on_instantiated :
  Forall (var_known d0) scope -> (forall v n, In v scope -> underlying v = Some n -> In v (on_change ++ on_bounds ++ on_instantiated)) ->
  (forall nv, (length d0 <= nv)%nat -> Forall (var_below nv) scope -> says nv sat p /\
    (forall d a, domains_ok d -> length d = nv -> Forall (fixed d) scope -> within a d -> Forall (lit_holds a) (inferred p d) -> sat a)) ->
  correct_on d0 (fun _ => ([body_propagator (settling p) on_change on_bounds on_instantiated], [])) scope sat.
Proof.
  intros K Inc P. apply (correct_intro _ _ _ sat); [tauto|]. intros nv Inv Ln St In0. apply known_below_all in K. apply (below_more_all _ _ _ Ln) in K. split; [assumption|].
  destruct (P nv Ln K) as [Sy Ck].
  exists [sat], []. split; [|split; [constructor|]].
  - constructor; [|constructor]. apply (propagates_supports _ _ _ scope); [apply incl_refl|].
    apply (body_propagates _ d0); auto.
    + intros v n Hv U. specialize (Inc v n Hv U). rewrite !in_app_iff in Inc. unfold subscribes. cbn.
      destruct Inc as [H|[H|H]]; [left|right; left|right; right]; exists v; auto.
    + apply settling_ok; [assumption|]. intros d a Hd L F S Wa. apply (Ck d); auto.
  - intros a _ F _. now inversion F.
Qed.

Lemma multiply_bc_correct d0 x y z : Forall (var_known d0) [x; y; z] -> correct_on d0 (multiply_bc x y z) [x; y; z] (product_rel x y z).
Proof.
  intro K. unfold multiply_bc. apply settling_correct; [assumption| |].
  - intros v n I U. rewrite app_nil_r. simpl app. apply distinct_variables_In. split; [assumption|congruence].
  - intros nv Ln B. apply Forall_cons_iff in B. destruct B as [Bx B]. apply Forall_cons_iff in B. destruct B as [By B]. apply Forall_cons_iff in B. destruct B as [Bz _]. split.
    + apply multiply_says; simpl; auto.
    + intros d a Hd L F Wa I. now apply (checks nv x y z Bx By Bz d a Stop).
Qed.

(** ** The table *)

Lemma unit_slot vars z q c o : slot_for vars (affine_of z) (Some q, c, o) -> (q < length vars)%nat /\ (c = 1 \/ c = -1).
Proof.
  destruct z as [n|n neg add|k]; simpl; [| |intros []].
  - intros (E & -> & _). split; [apply nth_error_Some; congruence|lia].
  - intros (E & -> & _). split; [apply nth_error_Some; congruence|destruct neg; lia].
Qed.

Lemma product_plan_spec x y z d : Forall (var_known d) [x; y; z] -> let pl := product_plan x y z in
  plan_ok pl /\ Forall (var_below (length d)) (pl_vars pl) /\ NoDup (underlying_list (pl_vars pl)) /\
  (forall s, pl_accept pl (map (var_value s) (pl_vars pl)) = true <-> product_rel x y z s) /\
  (forall D, domains_ok D -> (length d <= length D)%nat -> Forall (fixed D) [x; y; z] -> Forall (fixed D) (pl_vars pl)).
Proof.
  intros K pl. unfold product_plan in pl. destruct (place_slots [affine_of x; affine_of y; affine_of z] []) as [vars slots] eqn:E.
  destruct (placed_vars d [x; y; z] vars slots K E) as (B & ND & F & Sc). destruct (place_slots_spec _ _ _ _ E) as (_ & Sl & _ & _).
  destruct slots as [|s1 [|s2 [|s3 [|s4 more]]]]; try (exfalso; repeat match goal with H : Forall2 _ (_ :: _) _ |- _ => inversion H; clear H; subst | H : Forall2 _ [] _ |- _ => inversion H; clear H; subst end; discriminate || fail).
  assert (F1 : forall a, slot_value s1 (map (var_value a) vars) = var_value a x) by now inversion F.
  assert (F2 : forall a, slot_value s2 (map (var_value a) vars) = var_value a y) by (inversion F as [|? ? ? ? ? F']; now inversion F').
  assert (F3 : (forall a, slot_value s3 (map (var_value a) vars) = var_value a z) /\ slot_for vars (affine_of z) s3).
  { split; [inversion F as [|? ? ? ? ? F']; inversion F' as [|? ? ? ? ? F'']; now inversion F''|]. inversion Sl as [|? ? ? ? ? F']; inversion F' as [|? ? ? ? ? F'']; now inversion F''. }
  destruct F3 as [F3 S3]. cbn [nth] in pl. clear F Sl.
  unfold pl. cbn [pl_vars pl_accept]. split; [|split; [assumption|split; [assumption|split; [|assumption]]]].
  - constructor; cbn [pl_vars pl_determined pl_reification pl_accept]; [|discriminate].
    intros p f I. unfold product_determined in I. destruct s3 as [[q c] o]. unfold slot_position in I. cbn [fst snd slot_offset slot_coeff] in I.
    destruct q as [q|]; [|destruct I]. destruct (is_at (fst (fst s1)) q || is_at (fst (fst s2)) q) eqn:En; [destruct I|]. apply orb_false_iff in En. destruct En as [N1 N2].
    destruct (unit_slot _ _ _ _ _ S3) as [Lq Uc]. destruct I as [[= <- <-]|[]]. split; [assumption|split; [discriminate|]].
    intros zs values Lz Lv Ac _ Ag. apply Z.eqb_eq in Ac.
    assert (Same : forall s, is_at (fst (fst s)) q = false -> slot_value s values = slot_value s zs).
    { intros [[p c'] o'] N. simpl in *. destruct p as [p|]; [|reflexivity]. rewrite Ag; [reflexivity|]. intros ->. simpl in N. now rewrite Nat.eqb_refl in N. }
    rewrite !Same by assumption. cbv zeta. rewrite Ac. cbn [slot_value].
    destruct (solved_for c (nth q zs 0) (- (c * nth q zs 0)) ltac:(lia) ltac:(lia)) as [A1 A2].
    replace (c * nth q zs 0 + o - o) with (- - (c * nth q zs 0)) by lia. now rewrite A1, A2.
  - intro s. rewrite F1, F2, F3. apply Z.eqb_eq.
Qed.

Lemma product_local n x y z : Forall (var_below n) [x; y; z] -> local n (product_rel x y z).
Proof.
  intros B s s' Sm H. unfold product_rel in *. pose proof (proj1 (Forall_forall _ _) B) as Bv.
  rewrite <- !(same_below_value n s s') by (auto; apply Bv; simpl; auto). exact H.
Qed.

(** ** Constant operands *)

Lemma linear_for_constant x y z sum value : linear_for_constant_operand x y z = Some (sum, value) ->
  incl (map snd sum) [x; y; z] /\ forall a, weighted_sum sum a = value <-> product_rel x y z a.
Proof.
  unfold linear_for_constant_operand, product_rel. intro E.
  destruct x as [n|n neg add|k], y as [m|m neg' add'|k']; simpl in E; try discriminate; injection E as <- <-; (split; [intros v Iv; simpl in *; tauto|intro a; unfold weighted_sum; cbn [map fold_right fst snd var_value]]).
  all: cbn [sum_worth]; unfold term_worth; cbn [fst snd var_value]; generalize (var_value a z); intro; try destruct neg; try destruct neg'; nia.
Qed.

Lemma means_either d0 (f : domains -> bool) (k1 k2 : installer) scope sat : means d0 k1 scope sat -> means d0 k2 scope sat ->
  means d0 (fun d cs => if f d then k1 d cs else k2 d cs) scope sat.
Proof. intros (A & B & M1) (_ & _ & M2). split; [assumption|]. split; [assumption|]. intros hidden cs Hd. destruct (f (d0 ++ hidden)); auto. Qed.

Lemma means_same d0 (k k' : installer) scope sat : (forall d cs, k d cs = k' d cs) -> means d0 k scope sat -> means d0 k' scope sat.
Proof. intros E (A & B & M). split; [assumption|]. split; [assumption|]. intros hidden cs Hd. rewrite <- E. auto. Qed.

Definition is_tabulated (l : level) : bool := match l with Tabulated => true | _ => false end.

Lemma multiply_means d0 l x y z : Forall (var_known d0) [x; y; z] -> means d0 (multiply l x y z) [x; y; z] (product_rel x y z).
Proof.
  intro K. pose proof (proj1 (known_below_all _ _) K) as B. unfold multiply. destruct (linear_for_constant_operand x y z) as [[sum value]|] eqn:E.
  - destruct (linear_for_constant _ _ _ _ _ E) as [In Sm].
    assert (Ks : Forall (var_known d0) (map snd sum)) by (apply Forall_forall; intros v Iv; apply (proj1 (Forall_forall _ _) K); now apply In).
    apply (means_same d0 (fun d cs => if is_tabulated (linear_level l d sum) then tabulated_linear sum value RMustHold d cs else simple (linear_eq sum value) d cs)).
    { intros d cs. now destruct (linear_level l d sum). }
    apply (means_either d0 (fun d => is_tabulated (linear_level l d sum))).
    + refine (means_ext d0 _ _ _ _ _ Sm _ B (tabulated_linear_means d0 sum value RMustHold _)); cbn [reif_scope reif_cond]; rewrite ?app_nil_r; auto.
    + unfold simple. refine (means_ext d0 _ _ _ _ _ Sm _ B (simple_means 0 d0 (linear_eq sum value) (map snd sum) (fun a => weighted_sum sum a = value) _ _ _ _)); auto.
      * intros s s' S H. apply Sm. apply Sm in H. revert S H. now apply product_local.
      * now apply known_below_all.
      * intros hidden Hd. apply linear_equalities; [assumption|]. now apply known_hidden.
  - destruct (product_plan_spec x y z d0 K) as (Ok & Bp & _ & Ac & Sc). apply tabulated_means; auto.
    + now apply product_local.
    + intros hidden Hd. apply multiply_bc_correct. now apply known_hidden.
Qed.

(** ** Consistency *)

Lemma distinct_sizes d : domains_ok d -> forall vs ns, Forall (var_known d) vs -> NoDup ns -> (forall n, In n ns -> exists v, In v vs /\ underlying v = Some n) -> sizes d (map VSimple ns) <= sizes d vs.
Proof.
  intro Hd. induction vs as [|v vs IH]; intros ns K ND Of.
  - destruct ns as [|n ns]; [unfold sizes; simpl; lia|]. destruct (Of n (or_introl eq_refl)) as (v & [] & _).
  - apply Forall_cons_iff in K. destruct K as [Kv K]. change (sizes d (v :: vs)) with (domain_size d v * sizes d vs). pose proof (domain_size_positive d v Hd Kv) as Pv. pose proof (sizes_positive d vs Hd K) as Ps.
    assert (Skip : (forall n, In n ns -> underlying v <> Some n) -> sizes d (map VSimple ns) <= domain_size d v * sizes d vs).
    { intro N. specialize (IH ns K ND). assert (sizes d (map VSimple ns) <= sizes d vs); [|nia]. apply IH. intros n I. destruct (Of n I) as (w & [<-|Iw] & U); [now apply N in I|eauto]. }
    destruct (underlying v) as [n|] eqn:U; [|apply Skip; discriminate].
    destruct (in_dec Nat.eq_dec n ns) as [I|N]; [|apply Skip; intros m Im [= ->]; auto].
    apply in_split in I. destruct I as (l1 & l2 & ->). apply NoDup_remove in ND. destruct ND as [ND N].
    assert (H : sizes d (map VSimple (l1 ++ l2)) <= sizes d vs).
    { apply IH; auto. intros m Im. destruct (Of m) as (w & [<-|Iw] & Uw); [apply in_app_iff in Im; apply in_app_iff; simpl; tauto| |eauto]. rewrite U in Uw. injection Uw as ->. now destruct N. }
    rewrite map_app in *. cbn [map]. rewrite sizes_app in *. change (sizes d (VSimple n :: map VSimple l2)) with (domain_size d (VSimple n) * sizes d (map VSimple l2)). rewrite <- (domain_size_underlying d v n U). nia.
Qed.

Lemma skip_one_small ss : Forall (fun s => 1 <= s) ss -> skip_one_largest ss <= fold_right Z.mul 1 ss.
Proof.
  intro P. unfold skip_one_largest. set (big := fold_left Z.max ss 0). clearbody big.
  assert (G : forall b size prod, 1 <= size -> size <= prod -> snd (fold_left (fun (acc : bool * Z) s => let '(skipped, size) := acc in if negb skipped && (s =? big) then (true, size) else (skipped, size * s)) ss (b, size)) <= prod * fold_right Z.mul 1 ss).
  { induction P as [|s ss Hs P IH]; intros b size prod L1 L2; cbn [fold_left fold_right]; [simpl; lia|].
    destruct (negb b && (s =? big)).
    - specialize (IH true size (prod * s) L1 ltac:(nia)). lia.
    - specialize (IH b (size * s) (prod * s) ltac:(nia) ltac:(nia)). lia. }
  specialize (G false 1 1 ltac:(lia) ltac:(lia)). lia.
Qed.

(** Wanted, or small. *)
Definition tabulates (l : level) (d : domains) (vs : list var_id) : Prop := l = Tabulated \/ exists threshold, l = Auto threshold /\ sizes d vs <= threshold.

Lemma multiply_consistent d0 cs l x y z : domains_ok d0 -> Forall (var_known d0) [x; y; z] -> tabulates l d0 [x; y; z] ->
  (exists s, within s d0 /\ product_rel x y z s) ->
  let i := multiply l x y z d0 cs in exists ps q, in_props i = ps ++ [q] /\
  forall D, ConsistencySpec.outcome (length (d0 ++ in_vars i)) (fun d _ => inside (d0 ++ in_vars i) d) q D ->
  domain_consistent D [x; y; z] (product_rel x y z) /\ rerun_is_quiet q D.
Proof.
  intros Hd K Lv Ex. unfold multiply. destruct (linear_for_constant_operand x y z) as [[sum value]|] eqn:E.
  - destruct (linear_for_constant _ _ _ _ _ E) as [In Sm].
    assert (Ks : Forall (var_known d0) (map snd sum)) by (apply Forall_forall; intros v Iv; apply (proj1 (Forall_forall _ _) K); now apply In).
    assert (T : linear_level l d0 sum = Tabulated).
    { destruct Lv as [->|(t & -> & L)]; [reflexivity|]. cbn [linear_level]. destruct (tidy_up_linear sum) as [s m] eqn:Et. cbn [fst].
      destruct (tidy_up_spec sum s m Et) as (Ts & _ & V). destruct (Z.leb_spec (skip_one_largest (map (domain_size d0) (term_vars s))) t) as [A|A]; [reflexivity|exfalso].
      assert (S1 : skip_one_largest (map (domain_size d0) (term_vars s)) <= sizes d0 (term_vars s)).
      { apply skip_one_small. apply Forall_map. apply Forall_forall. intros v Iv. apply domain_size_positive; [assumption|].
        assert (Bt : Forall (var_below (length d0)) (term_vars s)) by (apply term_vars_below; exact (tidied_below d0 sum Ks (length d0) s m (le_n _) Et)). apply known_below_all in Bt. now apply (proj1 (Forall_forall _ _) Bt). }
      assert (S2 : sizes d0 (term_vars s) <= sizes d0 [x; y; z]).
      { replace (term_vars s) with (map VSimple (map snd (terms s))) by (unfold term_vars; now rewrite map_map). apply distinct_sizes; auto; [apply (td_nodup _ Ts)|]. intros n I. destruct (V n I) as (v & Iv & U). exists v. auto. }
      lia. }
    rewrite T. cbv zeta. destruct (tabulated_linear_gives d0 cs sum value RMustHold [x; y; z] Hd) as (q & Ep & H).
    + cbn [reif_scope reif_cond]. now rewrite app_nil_r.
    + intros v n [].
    + destruct Ex as (s & Ws & Ss). exists s. split; [assumption|]. now apply Sm.
    + exists [], q. split; [exact Ep|]. intros D O. destruct (H D O) as [Dc Q]. split; [|assumption].
      intros v t Iv Et. destruct (Dc v t Iv Et) as (u & Wu & Vu & Su). exists u. split; [assumption|]. split; [assumption|]. now apply Sm.
  - destruct (product_plan_spec x y z d0 K) as (Ok & Bp & ND & Ac & _).
    assert (W : want_tabulation l d0 (product_plan x y z) = true).
    { destruct Lv as [->|(t & -> & L)]; [reflexivity|]. unfold product_plan. destruct (place_slots [affine_of x; affine_of y; affine_of z] []) as [vars slots] eqn:Ep. cbv zeta. now apply (small_plan d0 [x; y; z] vars slots). }
    destruct (tabulated_gives d0 cs l (multiply_bc x y z) (product_plan x y z) [x; y; z] (product_rel x y z) (plan_in _ _ Ok) Hd Bp ND W Ac Ex) as (q & Ep & H). eauto.
Qed.

(** What the propagator leaves. *)
Lemma multiply_rests x y z nv Inv d : Forall (var_below nv) [x; y; z] ->
  let q := body_propagator (settling (multiply_pass x y z Stop)) [] (distinct_variables [x; y; z]) [] in
  ConsistencySpec.outcome nv Inv q d -> domains_ok d /\ length d = nv /\ still (multiply_pass x y z Stop) d /\ rerun_is_quiet q d.
Proof.
  intros B q O. apply Forall_cons_iff in B. destruct B as [Bx B]. apply Forall_cons_iff in B. destruct B as [By B]. apply Forall_cons_iff in B. destruct B as [Bz _].
  refine (settling_rerun nv _ (product_rel x y z) _ _ _ _ Inv d O). apply multiply_says; simpl; auto.
Qed.

Lemma multiply_bounds x y z nv d : Forall (var_below nv) [x; y; z] -> domains_ok d -> length d = nv -> still (multiply_pass x y z Stop) d -> x <> y ->
  let xl := lower_bound d x in let xu := upper_bound d x in let yl := lower_bound d y in let yu := upper_bound d y in let zl := lower_bound d z in let zu := upper_bound d z in
  (Z.min (Z.min (xl * yl) (xl * yu)) (Z.min (xu * yl) (xu * yu)) <= zl /\ zu <= Z.max (Z.max (xl * yl) (xl * yu)) (Z.max (xu * yl) (xu * yu))) /\
  (forall b, b = xl \/ b = xu -> (yl < 0 < yu /\ (zu < 0 \/ 0 < zl)) \/ reaches b yl yu zl zu) /\
  (forall b, b = yl \/ b = yu -> (xl < 0 < xu /\ (zu < 0 \/ 0 < zl)) \/ reaches b xl xu zl zu).
Proof.
  intros B Hd L S N. apply Forall_cons_iff in B. destruct B as [Bx B]. apply Forall_cons_iff in B. destruct B as [By B]. apply Forall_cons_iff in B. destruct B as [Bz _].
  destruct (still_pass nv x y z Bz d Stop Hd L S) as (A1 & A2 & S'). unfold hull in A1, A2.
  destruct (var_eqb x y) eqn:E; [apply var_eqb_spec in E; now destruct N|]. cbv zeta.
  destruct (still_factor nv z d x y _ Hd L Bx By S') as (S2 & Fx). destruct (still_factor nv z d y x _ Hd L By Bx S2) as (_ & Fy).
  pose proof (lower_le_upper d x Hd (known_here nv d x L Bx)) as Hx. pose proof (lower_le_upper d y Hd (known_here nv d y L By)) as Hy. pose proof (lower_le_upper d z Hd (known_here nv d z L Bz)) as Hz.
  split; [unfold product_bounds in A1, A2; cbn [fst snd] in A1, A2; lia|].
  assert (G : forall cl cu tl tu, cl <= cu -> tl <= tu -> match quotient_filter cl cu (lower_bound d z) (upper_bound d z) with NoFilter => True | EmptyBecauseYZero => False | Bounds lo hi => lo <= tl /\ tu <= hi end ->
    forall b, b = tl \/ b = tu -> (cl < 0 < cu /\ (upper_bound d z < 0 \/ 0 < lower_bound d z)) \/ reaches b cl cu (lower_bound d z) (upper_bound d z)).
  { intros cl cu tl tu Hc Ht Q b Hb. assert (Dec : (cl < 0 < cu /\ (upper_bound d z < 0 \/ 0 < lower_bound d z)) \/ ~ (cl < 0 < cu /\ (upper_bound d z < 0 \/ 0 < lower_bound d z))) by lia.
    destruct Dec as [Y|Nn]; [now left|right]. apply quotient_filter_tight; auto. destruct (quotient_filter cl cu (lower_bound d z) (upper_bound d z)); auto. lia. }
  split; [apply (G _ _ _ _ Hy Hx Fx)|apply (G _ _ _ _ Hx Hy Fy)].
Qed.

Lemma square_hull x z nv d : Forall (var_below nv) [x; z] -> domains_ok d -> length d = nv -> still (multiply_pass x x z Stop) d ->
  let xl := lower_bound d x in let xu := upper_bound d x in let zl := lower_bound d z in let zu := upper_bound d z in
  zl <= xl * xl <= zu /\ zl <= xu * xu <= zu /\ zu = Z.max (xl * xl) (xu * xu) /\ 0 <= zl /\ (0 < xl \/ xu < 0 -> zl = Z.min (xl * xl) (xu * xu)).
Proof.
  intros B Hd L S. apply Forall_cons_iff in B. destruct B as [Bx B]. apply Forall_cons_iff in B. destruct B as [Bz _]. cbv zeta.
  destruct (still_pass nv x x z Bz d Stop Hd L S) as (A1 & A2 & S'). unfold hull in A1, A2.
  assert (E : var_eqb x x = true) by now apply var_eqb_spec. rewrite E in *.
  pose proof (lower_le_upper d x Hd (known_here nv d x L Bx)) as Hx. pose proof (lower_le_upper d z Hd (known_here nv d z L Bz)) as Hz.
  assert (Z0 : 0 <= lower_bound d z).
  { eapply Z.le_trans; [|exact A1]. unfold square_bounds. destruct (_ && _); cbn [fst]; [lia|]. pose proof (Z.square_nonneg (lower_bound d x)). pose proof (Z.square_nonneg (upper_bound d x)). lia. }
  destruct (still_root nv x z Bx d Stop Hd L S' ltac:(lia)) as (_ & (U1 & U2) & M). cbv zeta in M.
  destruct (isqrt_square (upper_bound d z) ltac:(lia)) as [I0 I1].
  assert (X1 : lower_bound d x * lower_bound d x <= upper_bound d z) by nia. assert (X2 : upper_bound d x * upper_bound d x <= upper_bound d z) by nia.
  assert (Y : lower_bound d z <= lower_bound d x * lower_bound d x /\ lower_bound d z <= upper_bound d x * upper_bound d x).
  { destruct (Z_lt_le_dec 0 (lower_bound d z)) as [P|P]; [|pose proof (Z.square_nonneg (lower_bound d x)); pose proof (Z.square_nonneg (upper_bound d x)); lia].
    destruct (ceil_isqrt_square (lower_bound d z) ltac:(lia)) as [C0 C1]. destruct (M P) as [C|[C|[C C']]]; split; nia. }
  unfold square_bounds in A1, A2.
  destruct ((lower_bound d x <=? 0) && (0 <=? upper_bound d x)) eqn:Eb; cbn [fst snd] in A1, A2.
  - rewrite andb_true_iff, !Z.leb_le in Eb. lia.
  - lia.
Qed.

Lemma multiply_tabulated d0 cs l x y z : domains_ok d0 -> Forall (var_known d0) [x; y; z] ->
  l = Tabulated \/ (exists threshold, l = Auto threshold /\ domain_size d0 x * domain_size d0 y * domain_size d0 z <= threshold) ->
  (exists s, within s d0 /\ var_value s x * var_value s y = var_value s z) ->
  let i := multiply l x y z d0 cs in exists ps q, in_props i = ps ++ [q] /\
  forall D, ConsistencySpec.outcome (length (d0 ++ in_vars i)) (fun d _ => inside (d0 ++ in_vars i) d) q D ->
  domain_consistent D [x; y; z] (fun s => var_value s x * var_value s y = var_value s z) /\ rerun_is_quiet q D.
Proof.
  intros Hd K Lv. apply multiply_consistent; auto. destruct Lv as [->|(t & -> & L)]; [now left|right]. exists t. split; [reflexivity|].
  change (sizes d0 [x; y; z]) with (domain_size d0 x * (domain_size d0 y * (domain_size d0 z * 1))). lia.
Qed.

Lemma multiply_reaches d0 x y z : Forall (var_known d0) [x; y; z] -> x <> y ->
  exists p, fst (multiply_bc x y z d0) = [p] /\
  forall nv Inv D, (length d0 <= nv)%nat -> ConsistencySpec.outcome nv Inv p D -> rerun_is_quiet p D /\
  let xl := lower_bound D x in let xu := upper_bound D x in let yl := lower_bound D y in let yu := upper_bound D y in let zl := lower_bound D z in let zu := upper_bound D z in
  (Z.min (Z.min (xl * yl) (xl * yu)) (Z.min (xu * yl) (xu * yu)) <= zl /\ zu <= Z.max (Z.max (xl * yl) (xl * yu)) (Z.max (xu * yl) (xu * yu))) /\
  (forall b, b = xl \/ b = xu -> (yl < 0 < yu /\ (zu < 0 \/ 0 < zl)) \/ reaches b yl yu zl zu) /\
  (forall b, b = yl \/ b = yu -> (xl < 0 < xu /\ (zu < 0 \/ 0 < zl)) \/ reaches b xl xu zl zu).
Proof.
  intros K N. eexists. split; [reflexivity|]. intros nv Inv D Ln O. apply known_below_all in K. apply (below_more_all _ _ _ Ln) in K.
  destruct (multiply_rests x y z nv Inv D K O) as (Hd & L & S & Q). split; [assumption|]. now apply (multiply_bounds x y z nv D).
Qed.

Lemma square_reaches d0 x z : Forall (var_known d0) [x; z] ->
  exists p, fst (multiply_bc x x z d0) = [p] /\
  forall nv Inv D, (length d0 <= nv)%nat -> ConsistencySpec.outcome nv Inv p D -> rerun_is_quiet p D /\
  let xl := lower_bound D x in let xu := upper_bound D x in let zl := lower_bound D z in let zu := upper_bound D z in
  zl <= xl * xl <= zu /\ zl <= xu * xu <= zu /\ zu = Z.max (xl * xl) (xu * xu) /\ 0 <= zl /\ (0 < xl \/ xu < 0 -> zl = Z.min (xl * xl) (xu * xu)).
Proof.
  intros K. eexists. split; [reflexivity|]. intros nv Inv D Ln O. apply known_below_all in K. apply (below_more_all _ _ _ Ln) in K.
  assert (K3 : Forall (var_below nv) [x; x; z]) by (inversion K; constructor; auto).
  destruct (multiply_rests x x z nv Inv D K3 O) as (Hd & L & S & Q). split; [assumption|]. now apply (square_hull x z nv D).
Qed.
