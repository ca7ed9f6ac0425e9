(** Proofs about the rows of the pseudo-Boolean model. *)
From Coq Require Import ZArith List Bool Lia.
From Verif Require Import Vars VarsSpec Expressions ExpressionsSpec ExpressionsProofs BitsEncoding BitsSpec BitsProofs PseudoBoolean PseudoBooleanSpec.
Import ListNotations.
Local Open Scope Z_scope.

(** ** Truth *)

Lemma op_true_iff op x value upper : op_true op x value upper = true <-> op_holds op x value upper.
Proof.
  destruct op; cbn [op_true op_holds]; rewrite ?negb_true_iff, ?andb_true_iff, ?andb_false_iff, ?Z.eqb_eq, ?Z.eqb_neq, ?Z.leb_le, ?Z.ltb_lt, ?Z.leb_gt; lia.
Qed.

Lemma literal_true_iff w l : literal_true w l = true <-> lit_holds (w_int w) l.
Proof.
  destruct l as [c| |]; simpl; [apply op_true_iff|tauto|]. split; [discriminate|contradiction].
Qed.

(** ** Rows *)

Lemma x_true_not al x : x_true al (x_not x) = negb (x_true al x).
Proof. unfold x_true, x_not. simpl. destruct (al (x_id x)), (x_negated x); reflexivity. Qed.

Lemma x_not_not x : x_not (x_not x) = x.
Proof. unfold x_not. destruct x as [i n]. simpl. now rewrite negb_involutive. Qed.

Lemma row_sum_app al a b : row_sum al (a ++ b) = row_sum al a + row_sum al b.
Proof. induction a as [|[w x] r IH]; simpl; [reflexivity|]. rewrite IH. lia. Qed.

Lemma row_sum_scaled al w bits : row_sum al (scaled w bits) = w * row_sum al bits.
Proof.
  induction bits as [|[b x] r IH]; cbn [scaled map row_sum]; [lia|]. fold (scaled w r). rewrite IH.
  rewrite Z.mul_add_distr_l. f_equal. lia.
Qed.

Lemma b2z_le b : 0 <= Z.b2z b <= 1.
Proof. destruct b; simpl; lia. Qed.

Lemma b2z_not b : Z.b2z (negb b) = 1 - Z.b2z b.
Proof. destruct b; reflexivity. Qed.

(** ** Literals as the row sees them *)

Definition seen_cond (nm : names) (al : alpha) (s : simple_literal) : option bool :=
  match s with
  | STrue => Some true
  | SFalse => Some false
  | SCond c => option_map (x_true al) (find_condition nm c)
  end.

Definition lit_seen nm al (l : plit) : option bool :=
  match simplify_literal nm l with None => None | Some s => seen_cond nm al s end.

Definition term_seen nm al (t : pterm) : option Z :=
  match t with
  | TLit l => option_map Z.b2z (lit_seen nm al l)
  | TFlag f => option_map (fun x => Z.b2z (x_true al x)) (find_flag nm f)
  | TVar (VSimple n) => option_map (row_sum al) (n_bits nm (PSimple n))
  | TVar (VView n neg add) =>
      match n_view nm n neg add with
      | Some v => option_map (row_sum al) (n_bits nm (POnly v))
      | None => option_map (fun bits => (if neg then - row_sum al bits else row_sum al bits) + add) (n_bits nm (PSimple n))
      end
  | TVar (VConst c) => Some c
  | TOnly n => option_map (row_sum al) (n_bits nm (POnly n))
  | TBit b => option_map (fun x => Z.b2z (x_true al x)) (get_bit nm b)
  end.

Definition guard_seen nm al (g : guard) : option bool :=
  match g with
  | GLit l => lit_seen nm al l
  | GFlag f => option_map (x_true al) (find_flag nm f)
  | GBit b => option_map (x_true al) (get_bit nm b)
  end.

Fixpoint sum_seen nm al (s : sum_of pterm) : option Z :=
  match s with
  | [] => Some 0
  | (w, t) :: rest =>
      if w =? 0 then sum_seen nm al rest
      else match term_seen nm al t, sum_seen nm al rest with
           | Some a, Some b => Some (w * a + b)
           | _, _ => None
           end
  end.

Lemma fold_term_seen nm al w t ts k : append_or_fold_term nm w t = Some (ts, k) ->
  exists s, term_seen nm al t = Some s /\ row_sum al ts = k - w * s.
Proof.
  destruct t as [l|f|v|n|b]; cbn [append_or_fold_term term_seen].
  - unfold lit_seen. destruct (simplify_literal nm l) as [[c| |]|]; try discriminate; cbn [seen_cond].
    + destruct (find_condition nm c) as [x|]; [|discriminate]. intros [= <- <-]. eexists. split; [reflexivity|]. cbn [row_sum]. lia.
    + intros [= <- <-]. eexists. split; [reflexivity|]. simpl. lia.
    + intros [= <- <-]. eexists. split; [reflexivity|]. simpl. lia.
  - destruct (find_flag nm f) as [x|]; [|discriminate]. intros [= <- <-]. eexists. split; [reflexivity|]. cbn [row_sum]. lia.
  - destruct v as [n|n neg add|c].
    + destruct (n_bits nm (PSimple n)) as [bits|]; [|discriminate]. intros [= <- <-]. eexists. split; [reflexivity|]. rewrite row_sum_scaled. lia.
    + destruct (n_view nm n neg add) as [v|].
      * destruct (n_bits nm (POnly v)) as [bits|]; [|discriminate]. intros [= <- <-]. eexists. split; [reflexivity|]. rewrite row_sum_scaled. lia.
      * destruct (n_bits nm (PSimple n)) as [bits|]; [|discriminate]. intros [= <- <-]. eexists. split; [reflexivity|]. rewrite row_sum_scaled. destruct neg; lia.
    + intros [= <- <-]. eexists. split; [reflexivity|]. simpl. lia.
  - destruct (n_bits nm (POnly n)) as [bits|]; [|discriminate]. intros [= <- <-]. eexists. split; [reflexivity|]. rewrite row_sum_scaled. lia.
  - destruct (get_bit nm b) as [x|]; [|discriminate]. intros [= <- <-]. eexists. split; [reflexivity|]. cbn [row_sum]. lia.
Qed.

Lemma terms_seen nm al s : forall r r', append_terms nm s r = Some r' ->
  exists t, sum_seen nm al s = Some t /\ row_sum al (fst r') - snd r' = row_sum al (fst r) - snd r - t.
Proof.
  induction s as [|[w t] rest IH]; intros r r' E; cbn [append_terms sum_seen] in *.
  - injection E as <-. exists 0. split; [reflexivity|lia].
  - destruct (w =? 0); [now apply IH|]. destruct (append_or_fold_term nm w t) as [[ts k]|] eqn:F; [|discriminate].
    destruct (fold_term_seen nm al w t ts k F) as (a & Sa & Ea). destruct (IH _ _ E) as (b & Sb & Eb). rewrite Sa, Sb.
    exists (w * a + b). split; [reflexivity|]. cbn [fst snd] in Eb. rewrite row_sum_app in Eb. lia.
Qed.

Lemma emit_seen nm al i r : emit_inequality nm i = Some r ->
  exists t, sum_seen nm al (le_lhs i) = Some t /\ (row_holds al r <-> t <= le_rhs i).
Proof.
  intro E. destruct (terms_seen nm al _ _ _ E) as (t & S & Eq). exists t. split; [assumption|]. unfold row_holds. cbn [fst snd row_sum] in Eq. lia.
Qed.

(** *** Negation *)

Definition s_not (s : simple_literal) : simple_literal :=
  match s with
  | STrue => SFalse
  | SFalse => STrue
  | SCond c => let c' := cond_not (mk_cond (VSimple 0) (pc_op c) (pc_value c) (pc_upper c)) in SCond (mk_pcond (pc_var c) (c_op c') (c_value c') (c_upper c'))
  end.

Lemma find_condition_not nm c : match s_not (SCond c) with SCond c' => find_condition nm c' = option_map x_not (find_condition nm c) | _ => True end.
Proof.
  destruct c as [v op k u]. destruct op; cbn; unfold find_condition; simpl; try reflexivity;
    match goal with |- ?x = option_map _ (option_map _ ?x) => destruct x; simpl; rewrite ?x_not_not; reflexivity end.
Qed.

Lemma seen_not nm al s : seen_cond nm al (s_not s) = option_map negb (seen_cond nm al s).
Proof.
  destruct s as [c| |]; try reflexivity. cbn [seen_cond s_not]. pose proof (find_condition_not nm c) as F. cbn [s_not] in F. rewrite F.
  destruct (find_condition nm c); simpl; [|reflexivity]. now rewrite x_true_not.
Qed.

Lemma canonicalise_not v op value upper : is_range_op op = true ->
  let c' := cond_not (mk_cond (VSimple 0) op value upper) in
  canonicalise_range (mk_pcond v (c_op c') (c_value c') (c_upper c')) = s_not (canonicalise_range (mk_pcond v op value upper)).
Proof.
  intro R. destruct op; try discriminate; unfold canonicalise_range; simpl; destruct (upper <? value); try reflexivity; destruct (value =? upper); reflexivity.
Qed.

Lemma range_op_not op value upper v : is_range_op (c_op (cond_not (mk_cond v op value upper))) = is_range_op op.
Proof. destruct op; reflexivity. Qed.

Lemma truth_not b : truth_literal (negb b) = s_not (truth_literal b).
Proof. destruct b; reflexivity. Qed.

Lemma simplify_not nm l : simplify_literal nm (plit_not l) = option_map s_not (simplify_literal nm l).
Proof.
  destruct l as [[[v op value upper]| |]|n op value upper]; try reflexivity.
  - cbn [plit_not lit_not simplify_literal c_var c_op c_value c_upper]. destruct v as [n|n neg add|x].
    + destruct op; try reflexivity; unfold canonicalise_range; simpl; destruct (upper <? value); try reflexivity; destruct (value =? upper); reflexivity.
    + destruct op; try reflexivity; cbn; destruct (n_view nm n neg add); try reflexivity; destruct neg; reflexivity.
    + destruct op; cbn [cond_not c_op c_var c_value c_upper option_map]; f_equal; rewrite <- truth_not; f_equal; apply eq_true_iff_eq;
        rewrite ?negb_true_iff, ?negb_false_iff, ?andb_true_iff, ?andb_false_iff, ?orb_true_iff, ?orb_false_iff, ?Z.eqb_eq, ?Z.eqb_neq, ?Z.leb_le, ?Z.leb_gt, ?Z.ltb_lt, ?Z.ltb_ge; lia.
  - destruct op; try reflexivity; unfold canonicalise_range; simpl; unfold canonicalise_range; simpl; destruct (upper <? value); try reflexivity; destruct (value =? upper); reflexivity.
Qed.

Lemma lit_seen_not nm al l : lit_seen nm al (plit_not l) = option_map negb (lit_seen nm al l).
Proof. unfold lit_seen. rewrite simplify_not. destruct (simplify_literal nm l) as [s|]; simpl; [apply seen_not|reflexivity]. Qed.

Lemma find_flag_not nm f : find_flag nm (flag_not f) = option_map x_not (find_flag nm f).
Proof. unfold find_flag, flag_not. destruct f as [i p]. simpl. destruct p, (n_flag nm i); simpl; rewrite ?x_not_not; reflexivity. Qed.

Lemma get_bit_not nm b : get_bit nm (bit_not b) = option_map x_not (get_bit nm b).
Proof.
  unfold get_bit, bit_not. destruct b as [v p pos]. simpl. destruct (n_bits nm v) as [bits|]; [|reflexivity]. destruct (nth_error bits p) as [[c x]|]; [|reflexivity].
  destruct pos; simpl; rewrite ?x_not_not; reflexivity.
Qed.

Lemma negated_seen nm al g : term_seen nm al (negated_term g) = option_map (fun b => 1 - Z.b2z b) (guard_seen nm al g).
Proof.
  destruct g as [l|f|b]; cbn [negated_term term_seen guard_seen].
  - rewrite lit_seen_not. destruct (lit_seen nm al l); simpl; [|reflexivity]. now rewrite b2z_not.
  - rewrite find_flag_not. destruct (find_flag nm f); simpl; [|reflexivity]. now rewrite x_true_not, b2z_not.
  - rewrite get_bit_not. destruct (get_bit nm b); simpl; [|reflexivity]. now rewrite x_true_not, b2z_not.
Qed.

(** *** The reification constant *)

Lemma fold_positive al w bits : forall acc, acc + w * row_sum al bits <= fold_left (fun acc '(b, _) => acc + Z.max 0 (w * b)) bits acc.
Proof.
  induction bits as [|[b x] r IH]; intro acc; cbn [fold_left row_sum]; [lia|]. specialize (IH (acc + Z.max 0 (w * b))).
  pose proof (b2z_le (x_true al x)). assert (w * (b * Z.b2z (x_true al x)) <= Z.max 0 (w * b)).
  { destruct (x_true al x); simpl; lia. }
  lia.
Qed.

Lemma fold_positive_pos w (bits : list (Z * xlit)) : forall acc, acc <= fold_left (fun acc '(b, _) => acc + Z.max 0 (w * b)) bits acc.
Proof. induction bits as [|[b x] r IH]; intro acc; cbn [fold_left]; [lia|]. specialize (IH (acc + Z.max 0 (w * b))). lia. Qed.

Lemma positive_bits_enough al w bits : w * row_sum al bits <= positive_bits w bits /\ 0 <= positive_bits w bits.
Proof. unfold positive_bits. split; [exact (fold_positive al w bits 0)|exact (fold_positive_pos w bits 0)]. Qed.

Lemma scaled_bool w b : w * Z.b2z b <= Z.max 0 w.
Proof. destruct b; simpl; lia. Qed.

Lemma positive_enough nm al w t m s : positive_contribution nm w t = Some m -> term_seen nm al t = Some s -> w * s <= m.
Proof.
  destruct t as [l|f|v|n|b]; cbn [positive_contribution term_seen].
  - intros [= <-]. destruct (lit_seen nm al l); [|discriminate]. intros [= <-]. apply scaled_bool.
  - intros [= <-]. destruct (find_flag nm f); [|discriminate]. intros [= <-]. apply scaled_bool.
  - destruct v as [n|n neg add|c].
    + destruct (n_bits nm (PSimple n)) as [bits|]; [|discriminate]. intros [= <-] [= <-]. apply positive_bits_enough.
    + destruct (n_view nm n neg add) as [v|].
      * destruct (n_bits nm (POnly v)) as [bits|]; [|discriminate]. intros [= <-] [= <-]. apply positive_bits_enough.
      * destruct (n_bits nm (PSimple n)) as [bits|]; [|discriminate]. intros [= <-] [= <-]. rewrite Z.mul_add_distr_l.
        destruct neg; [destruct (positive_bits_enough al (- w) bits)|destruct (positive_bits_enough al w bits)]; lia.
    + intros [= <-] [= <-]. lia.
  - destruct (n_bits nm (POnly n)) as [bits|]; [|discriminate]. intros [= <-] [= <-]. apply positive_bits_enough.
  - intros [= <-]. destruct (get_bit nm b); [|discriminate]. intros [= <-]. apply scaled_bool.
Qed.

Lemma positive_contribution_pos nm w t m : positive_contribution nm w t = Some m -> 0 <= m.
Proof.
  assert (P : forall w (bits : list (Z * xlit)), 0 <= positive_bits w bits) by (intros; apply (positive_bits_enough (fun _ => false))).
  destruct t as [l|f|[n|n neg add|c]|n|b]; cbn [positive_contribution].
  - intros [= <-]. lia.
  - intros [= <-]. lia.
  - destruct (n_bits nm (PSimple n)); [|discriminate]. intros [= <-]. apply P.
  - destruct (n_view nm n neg add) as [v|].
    + destruct (n_bits nm (POnly v)); [|discriminate]. intros [= <-]. apply P.
    + destruct (n_bits nm (PSimple n)) as [bits|]; [|discriminate]. intros [= <-]. specialize (P (if neg then - w else w) bits). lia.
  - intros [= <-]. lia.
  - destruct (n_bits nm (POnly n)); [|discriminate]. intros [= <-]. apply P.
  - intros [= <-]. lia.
Qed.

Lemma contributions_enough nm al s : forall m t, positive_contributions nm s = Some m -> sum_seen nm al s = Some t -> t <= m /\ 0 <= m.
Proof.
  induction s as [|[w t] rest IH]; intros m s; cbn [positive_contributions sum_seen].
  - intros [= <-] [= <-]. lia.
  - destruct (positive_contribution nm w t) as [a|] eqn:A; [|discriminate]. destruct (positive_contributions nm rest) as [b|]; [|discriminate]. intros [= <-].
    pose proof (positive_contribution_pos _ _ _ _ A). destruct (Z.eqb_spec w 0).
    + intro S. destruct (IH _ _ eq_refl S). lia.
    + destruct (term_seen nm al t) as [x|] eqn:T; [|discriminate]. destruct (sum_seen nm al rest) as [y|]; [|discriminate]. intros [= <-].
      pose proof (positive_enough _ al _ _ _ _ A T). destruct (IH _ _ eq_refl eq_refl). lia.
Qed.

(** *** The reified row *)

Lemma sum_seen_app nm al s s' : sum_seen nm al (s ++ s') =
  match sum_seen nm al s, sum_seen nm al s' with Some a, Some b => Some (a + b) | _, _ => None end.
Proof.
  induction s as [|[w t] r IH]; cbn [sum_seen app].
  - destruct (sum_seen nm al s'); reflexivity.
  - destruct (w =? 0); [apply IH|]. rewrite IH. destruct (term_seen nm al t); [|reflexivity]. destruct (sum_seen nm al r); [|reflexivity]. destruct (sum_seen nm al s'); [|reflexivity]. f_equal. lia.
Qed.

Fixpoint guards_seen nm al (gs : list guard) : option (list bool) :=
  match gs with
  | [] => Some []
  | g :: r => match guard_seen nm al g, guards_seen nm al r with Some b, Some bs => Some (b :: bs) | _, _ => None end
  end.

Definition how_many_false (bs : list bool) : Z := fold_right (fun b n => (1 - Z.b2z b) + n) 0 bs.

Lemma how_many_false_spec bs : 0 <= how_many_false bs /\ (how_many_false bs = 0 <-> forall b, In b bs -> b = true).
Proof.
  induction bs as [|b r [P Q]]; cbn [how_many_false fold_right].
  - split; [lia|]. split; [intros _ b []|reflexivity].
  - fold (how_many_false r). pose proof (b2z_le b). split; [lia|]. split.
    + intros E c [<-|I]; [destruct b; [reflexivity|]; change (1 - 0 + how_many_false r = 0) in E; lia|]. apply Q; [lia|assumption].
    + intro A. rewrite (proj2 Q) by (intros; apply A; now right). rewrite (A b) by now left. reflexivity.
Qed.

Lemma guards_sum nm al w gs : w <> 0 -> sum_seen nm al (map (fun g => (w, negated_term g)) gs) = option_map (fun bs => w * how_many_false bs) (guards_seen nm al gs).
Proof.
  intro W. induction gs as [|g r IH]; cbn [map sum_seen guards_seen how_many_false fold_right].
  - simpl. f_equal. lia.
  - destruct (Z.eqb_spec w 0); [contradiction|]. rewrite negated_seen, IH. destruct (guard_seen nm al g) as [b|]; cbn [option_map]; [|reflexivity]. destruct (guards_seen nm al r) as [bs|]; cbn [option_map]; [|reflexivity]. f_equal. cbn [how_many_false fold_right]. fold (how_many_false bs). lia.
Qed.

Lemma literally_false_seen nm al l : is_literally_false l = true -> forall b, lit_seen nm al (PLit l) = Some b -> b = false.
Proof.
  intros F b. destruct l as [[v op value upper]| |]; try discriminate.
  - destruct v as [n|n neg add|x]; try discriminate. unfold is_literally_false in F. cbn in F. apply negb_true_iff in F.
    unfold lit_seen. cbn. destruct op; cbn in F; rewrite F; cbn; now intros [= <-].
  - cbn. now intros [= <-].
Qed.

Lemma guards_seen_in nm al gs : forall bs, guards_seen nm al gs = Some bs ->
  (forall b, In b bs -> b = true) <-> (forall g, In g gs -> guard_seen nm al g = Some true).
Proof.
  induction gs as [|g r IH]; intros bs; cbn [guards_seen].
  - intros [= <-]. split; intros _ ? [].
  - destruct (guard_seen nm al g) as [b|] eqn:G; [|discriminate]. destruct (guards_seen nm al r) as [bs'|]; [|discriminate]. intros [= <-].
    specialize (IH _ eq_refl). split.
    + intros A g' [<-|I]; [rewrite G; f_equal; apply A; now left|]. apply (proj1 IH); [|assumption]. intros; apply A. now right.
    + intros A b' [<-|I]; [specialize (A g (or_introl eq_refl)); congruence|]. apply (proj2 IH); [|assumption]. intros; apply A. now right.
Qed.

(** The row says exactly the implication, as the 0-1 variables see it. *)
Lemma reified_seen nm al i gs r : constraint_row nm i (Some gs) = Some r ->
  exists t, sum_seen nm al (le_lhs i) = Some t /\ (forall g, In g gs -> exists b, guard_seen nm al g = Some b) /\
    (row_holds al r <-> ((forall g, In g gs -> guard_seen nm al g = Some true) -> t <= le_rhs i)).
Proof.
  unfold constraint_row, reify, reification_shape. destruct (positive_contributions nm (le_lhs i)) as [m|] eqn:M; [|discriminate].
  set (w := Z.min (- m + le_rhs i) (-1)). intro E. destruct (emit_seen nm al _ _ E) as (t & S & H). cbn [le_lhs le_rhs at_most] in S, H.
  rewrite sum_seen_app in S. destruct (sum_seen nm al (le_lhs i)) as [a|] eqn:A; [|discriminate]. rewrite guards_sum in S by lia.
  destruct (guards_seen nm al gs) as [bs|] eqn:G; [|discriminate]. injection S as <-. exists a. split; [reflexivity|]. split.
  - clear -G. revert bs G. induction gs as [|g r IH]; intros bs; cbn [guards_seen]; [intros _ g []|].
    destruct (guard_seen nm al g) as [b|] eqn:B; [|discriminate]. destruct (guards_seen nm al r) as [bs'|]; [|discriminate]. intros _ g' [<-|I]; eauto.
  - destruct (contributions_enough nm al _ _ _ M A) as [L P]. destruct (how_many_false_spec bs) as [Q R]. rewrite <- (guards_seen_in _ _ _ _ G), <- R, H.
    assert (Fq : existsb literally_false_guard gs = true -> 1 <= how_many_false bs).
    { intro X. apply existsb_exists in X as (g & I & X). assert (how_many_false bs <> 0); [|lia]. intro Z. pose proof (proj1 R Z) as T.
      pose proof (proj1 (guards_seen_in _ _ _ _ G) T g I) as Sg. destruct g as [[l|]| |]; try discriminate. pose proof (literally_false_seen nm al l X true Sg). discriminate. }
    destruct (existsb literally_false_guard gs).
    + specialize (Fq eq_refl). split; [intros _; lia|]. intros _. nia.
    + split; [intros X Z; rewrite Z in X; lia|]. intro X. destruct (Z.eq_dec (how_many_false bs) 0) as [Z|N]; [rewrite Z; specialize (X Z); lia|]. nia.
Qed.

(** Without conditions. *)
Lemma plain_seen nm al i r : constraint_row nm i None = Some r ->
  exists t, sum_seen nm al (le_lhs i) = Some t /\ (row_holds al r <-> t <= le_rhs i).
Proof. apply emit_seen. Qed.

(** ** The two ways of writing a reified row *)

Lemma append_terms_app nm s s' : forall r, append_terms nm (s ++ s') r = match append_terms nm s r with Some r => append_terms nm s' r | None => None end.
Proof.
  induction s as [|[w t] rest IH]; intro r; cbn [append_terms app]; [reflexivity|]. destruct (w =? 0); [apply IH|].
  destruct (append_or_fold_term nm w t) as [[ts k]|]; [apply IH|reflexivity].
Qed.

Lemma append_guard_same nm w g : append_guard nm w g = append_or_fold_term nm w (negated_term g).
Proof.
  destruct g as [l|f|b]; try reflexivity. cbn [append_guard negated_term append_or_fold_term]. rewrite simplify_not.
  destruct (simplify_literal nm l) as [[c| |]|]; try reflexivity. cbn [option_map]. pose proof (find_condition_not nm c) as F. cbn [s_not] in F |- *. rewrite F.
  destruct (find_condition nm c); reflexivity.
Qed.

Lemma append_guards_same nm w gs : w <> 0 -> forall r, append_guards nm w gs r = append_terms nm (map (fun g => (w, negated_term g)) gs) r.
Proof.
  intro W. induction gs as [|g rest IH]; intro r; cbn [append_guards map append_terms]; [reflexivity|]. destruct (Z.eqb_spec w 0); [contradiction|]. rewrite append_guard_same.
  destruct (append_or_fold_term nm w (negated_term g)) as [[ts k]|]; [apply IH|reflexivity].
Qed.

Lemma emit_reified_same nm i gs : emit_reified_inequality nm i gs = constraint_row nm i (Some gs).
Proof.
  unfold emit_reified_inequality, constraint_row, reify, reification_shape, emit_inequality. destruct (positive_contributions nm (le_lhs i)) as [m|]; [|reflexivity].
  cbn [le_lhs le_rhs at_most]. rewrite append_terms_app. destruct (append_terms nm (le_lhs i) _) as [r|]; [|reflexivity]. apply append_guards_same. lia.
Qed.

(** ** What coherent names see *)

Section Coherent.
Context (nm : names) (w : world) (al : alpha) (Co : coherent nm w al).

Lemma condition_true c x : find_condition nm c = Some x -> x_true al x = op_true (pc_op c) (pvar_value w (pc_var c)) (pc_value c) (pc_upper c).
Proof.
  destruct c as [v op k u]. unfold find_condition. cbn [pc_op pc_var pc_value pc_upper]. destruct op; cbn [op_true flip_if].
  - apply (co_eq _ _ _ Co).
  - destruct (n_eq nm v k) as [y|] eqn:E; [|discriminate]. intros [= <-]. rewrite x_true_not. f_equal. now apply (co_eq _ _ _ Co).
  - apply (co_ge _ _ _ Co).
  - destruct (n_ge nm v k) as [y|] eqn:E; [|discriminate]. intros [= <-]. rewrite x_true_not, (co_ge _ _ _ Co _ _ _ E). now rewrite Z.ltb_antisym.
  - apply (co_in _ _ _ Co).
  - destruct (n_in nm v k u) as [y|] eqn:E; [|discriminate]. intros [= <-]. rewrite x_true_not. f_equal. now apply (co_in _ _ _ Co).
Qed.

Definition simple_true (s : simple_literal) : bool :=
  match s with
  | STrue => true
  | SFalse => false
  | SCond c => op_true (pc_op c) (pvar_value w (pc_var c)) (pc_value c) (pc_upper c)
  end.

Lemma seen_simple s b : seen_cond nm al s = Some b -> b = simple_true s.
Proof.
  destruct s as [c| |]; cbn [seen_cond simple_true]; try congruence. destruct (find_condition nm c) as [x|] eqn:E; [|discriminate]. intros [= <-]. now apply condition_true.
Qed.

Lemma canonicalise_true c : is_range_op (pc_op c) = true -> simple_true (canonicalise_range c) = op_true (pc_op c) (pvar_value w (pc_var c)) (pc_value c) (pc_upper c).
Proof.
  destruct c as [v op k u]. intro R. unfold canonicalise_range. cbn [pc_op pc_var pc_value pc_upper] in *. destruct op; try discriminate; destruct (Z.ltb_spec u k);
  try destruct (Z.eqb_spec k u); cbn [simple_true op_true pc_op pc_var pc_value pc_upper]; try reflexivity; apply eq_true_iff_eq;
  rewrite ?negb_true_iff, ?andb_true_iff, ?andb_false_iff, ?Z.eqb_eq, ?Z.eqb_neq, ?Z.leb_le, ?Z.leb_gt; try lia; (split; [discriminate|lia]).
Qed.

Lemma truth_literal_true b : simple_true (truth_literal b) = b.
Proof. destruct b; reflexivity. Qed.

Lemma simplify_true l s : simplify_literal nm l = Some s -> simple_true s = plit_true w l.
Proof.
  destruct l as [[[v op k u]| |]|n op k u]; try (now intros [= <-]).
  - cbn [simplify_literal c_var c_op c_value c_upper plit_true literal_true]. destruct v as [n|n neg add|x].
    + intros [= <-]. destruct (is_range_op op) eqn:R; [now rewrite canonicalise_true|reflexivity].
    + destruct (is_range_op op) eqn:R; [discriminate|]. destruct (n_view nm n neg add) as [v|] eqn:V; intros [= <-].
      * cbn [simple_true pc_op pc_var pc_value pc_upper pvar_value]. rewrite (co_view _ _ _ Co _ _ _ _ V). destruct op; try discriminate; reflexivity.
      * cbn [var_value]. destruct op; try discriminate; destruct neg; cbn [simple_true op_true pc_op pc_var pc_value pc_upper pvar_value]; apply eq_true_iff_eq;
        rewrite ?negb_true_iff, ?Z.eqb_eq, ?Z.eqb_neq, ?Z.leb_le, ?Z.ltb_lt; lia.
    + destruct op; intros [= <-]; rewrite truth_literal_true; cbn [op_true var_value]; try reflexivity. rewrite negb_andb. now rewrite <- !Z.ltb_antisym.
  - intros [= <-]. destruct (is_range_op op) eqn:R; [now rewrite canonicalise_true|reflexivity].
Qed.

Lemma lit_seen_true l b : lit_seen nm al l = Some b -> b = plit_true w l.
Proof.
  unfold lit_seen. destruct (simplify_literal nm l) as [s|] eqn:S; [|discriminate]. intro E. rewrite (seen_simple _ _ E). now apply simplify_true.
Qed.

Lemma flag_seen_true f x : find_flag nm f = Some x -> x_true al x = flag_true w f.
Proof.
  unfold find_flag, flag_true. destruct f as [i p]. cbn. destruct p; cbn; [apply (co_flag _ _ _ Co)|].
  destruct (n_flag nm i) as [y|] eqn:E; [|discriminate]. intros [= <-]. rewrite x_true_not. f_equal. now apply (co_flag _ _ _ Co).
Qed.

Lemma bit_seen_true b x : get_bit nm b = Some x -> x_true al x = bit_true w b.
Proof.
  unfold get_bit, bit_true. destruct b as [v p pos]. cbn. destruct (n_bits nm v) as [bits|] eqn:B; [|discriminate]. destruct (nth_error bits p) as [[c y]|] eqn:N; [|discriminate].
  pose proof (co_bit _ _ _ Co _ _ _ _ _ B N). destruct pos; intros [= <-]; rewrite ?x_true_not; congruence.
Qed.

Lemma guard_seen_true g b : guard_seen nm al g = Some b -> b = guard_true w g.
Proof.
  destruct g as [l|f|p]; cbn [guard_seen guard_true].
  - apply lit_seen_true.
  - destruct (find_flag nm f) as [x|] eqn:E; [|discriminate]. intros [= <-]. now apply flag_seen_true.
  - destruct (get_bit nm p) as [x|] eqn:E; [|discriminate]. intros [= <-]. now apply bit_seen_true.
Qed.

Lemma term_seen_value t z : term_seen nm al t = Some z -> z = term_value w t.
Proof.
  destruct t as [l|f|[n|n neg add|c]|n|p]; cbn [term_seen term_value var_value].
  - destruct (lit_seen nm al l) as [b|] eqn:E; [|discriminate]. intros [= <-]. f_equal. now apply lit_seen_true.
  - destruct (find_flag nm f) as [x|] eqn:E; [|discriminate]. intros [= <-]. f_equal. now apply flag_seen_true.
  - destruct (n_bits nm (PSimple n)) as [bits|] eqn:E; [|discriminate]. intros [= <-]. exact (co_bits _ _ _ Co _ _ E).
  - destruct (n_view nm n neg add) as [v|] eqn:V.
    + destruct (n_bits nm (POnly v)) as [bits|] eqn:E; [|discriminate]. intros [= <-]. rewrite (co_bits _ _ _ Co _ _ E). exact (co_view _ _ _ Co _ _ _ _ V).
    + destruct (n_bits nm (PSimple n)) as [bits|] eqn:E; [|discriminate]. intros [= <-]. rewrite (co_bits _ _ _ Co _ _ E). reflexivity.
  - now intros [= <-].
  - destruct (n_bits nm (POnly n)) as [bits|] eqn:E; [|discriminate]. intros [= <-]. exact (co_bits _ _ _ Co _ _ E).
  - destruct (get_bit nm p) as [x|] eqn:E; [|discriminate]. intros [= <-]. f_equal. now apply bit_seen_true.
Qed.

Lemma sum_seen_value s : forall z, sum_seen nm al s = Some z -> z = sum_worth (term_value w) s.
Proof.
  induction s as [|[c t] r IH]; intro z; cbn [sum_seen sum_worth]; [congruence|]. unfold term_worth. cbn [fst snd]. destruct (Z.eqb_spec c 0) as [->|].
  - intro E. rewrite (IH _ E). lia.
  - destruct (term_seen nm al t) as [a|] eqn:T; [|discriminate]. destruct (sum_seen nm al r) as [b|]; [|discriminate]. intros [= <-].
    rewrite (term_seen_value _ _ T), (IH _ eq_refl). lia.
Qed.

(** The row of an inequality says what the inequality, reified or not, says. *)
Lemma row_exact i half_reif r : constraint_row nm i half_reif = Some r ->
  (row_holds al r <-> reified w half_reif (le_true (term_value w) i)).
Proof.
  destruct half_reif as [gs|]; intro E; cbn [reified].
  - destruct (reified_seen nm al i gs r E) as (t & S & D & H). rewrite H. unfold le_true. rewrite <- (sum_seen_value _ _ S). unfold guards_true.
    assert (X : (forall g, In g gs -> guard_seen nm al g = Some true) <-> (forall g, In g gs -> guard_true w g = true)).
    { split; intros A g I; destruct (D g I) as (b & B).
      - specialize (A g I). symmetry. now apply guard_seen_true.
      - rewrite B. f_equal. rewrite (guard_seen_true _ _ B). now apply A. }
    now rewrite X.
  - destruct (plain_seen nm al i r E) as (t & S & H). rewrite H. unfold le_true. now rewrite <- (sum_seen_value _ _ S).
Qed.

Lemma reified_and half_reif P Q : reified w half_reif P /\ reified w half_reif Q <-> reified w half_reif (P /\ Q).
Proof. destruct half_reif; cbn [reified]; tauto. Qed.

Lemma reified_iff half_reif P Q : (P <-> Q) -> (reified w half_reif P <-> reified w half_reif Q).
Proof. destruct half_reif; cbn [reified]; tauto. Qed.

Lemma both_some {A B} (x : option A) (y : option B) p : both x y = Some p -> x = Some (fst p) /\ y = Some (snd p).
Proof. destruct x, y; try discriminate. now intros [= <-]. Qed.

Lemma equality_exact e half_reif rr : equality_rows nm e half_reif = Some rr ->
  (row_holds al (fst rr) /\ row_holds al (snd rr) <-> reified w half_reif (equals_true (term_value w) e)).
Proof.
  intro E. apply both_some in E as [A B]. rewrite (row_exact _ _ _ A), (row_exact _ _ _ B), reified_and. apply reified_iff.
  unfold equals_true. rewrite at_least_true. unfold le_true. cbn [at_most le_lhs le_rhs]. lia.
Qed.

Lemma flag_not_true f : flag_true w (flag_not f) = negb (flag_true w f).
Proof. unfold flag_true, flag_not. destruct f as [i []]; simpl; rewrite ?negb_involutive; reflexivity. Qed.

Lemma two_way_exact i f rr : two_way_rows nm i f = Some rr ->
  (row_holds al (fst rr) /\ row_holds al (snd rr) <-> (flag_true w f = true <-> le_true (term_value w) i)).
Proof.
  intro E. apply both_some in E as [A B]. rewrite (row_exact _ _ _ A), (row_exact _ _ _ B). cbn [reified]. unfold guards_true. cbn [In].
  rewrite negate_true. split.
  - intros [X Y]. split; [intro T; apply X; now intros g [<-|[]]|]. intro L. destruct (flag_true w f) eqn:F; [reflexivity|]. exfalso. revert L. apply Y. intros g [<-|[]]. cbn. now rewrite flag_not_true, F.
  - intros X. split; [intros G; apply X, (G (GFlag f)); now left|]. intros G L. specialize (G (GFlag (flag_not f)) (or_introl eq_refl)). cbn in G. rewrite flag_not_true in G. apply X in L. rewrite L in G. discriminate.
Qed.

(** *** Clauses *)

Lemma cond_term_value c : term_value w (cond_term c) = Z.b2z (op_true (pc_op c) (pvar_value w (pc_var c)) (pc_value c) (pc_upper c)).
Proof. destruct c as [[n|n] op k u]; reflexivity. Qed.

Lemma clause_sum cs : 0 <= sum_worth (term_value w) (map (fun c => (1, cond_term c)) cs) /\
  (1 <= sum_worth (term_value w) (map (fun c => (1, cond_term c)) cs) <-> exists c, In c cs /\ simple_true (SCond c) = true).
Proof.
  induction cs as [|c r [P Q]]; cbn [map sum_worth].
  - split; [lia|]. split; [lia|]. intros (c & [] & _).
  - unfold term_worth. cbn [fst snd]. rewrite cond_term_value. fold (simple_true (SCond c)). pose proof (b2z_le (simple_true (SCond c))). split; [lia|]. split.
    + intro L. destruct (simple_true (SCond c)) eqn:T; [exists c; split; [now left|assumption]|]. destruct (proj1 Q) as (c' & I & T'); [simpl in L; lia|]. exists c'. split; [now right|assumption].
    + intros (c' & [<-|I] & T); [rewrite T; change (Z.b2z true) with 1; lia|]. assert (1 <= sum_worth (term_value w) (map (fun c => (1, cond_term c)) r)) by (apply Q; eauto). lia.
Qed.

Lemma clause_terms_spec ls : forall cs t, clause_terms nm ls = Some (cs, t) ->
  ((exists l, In l ls /\ plit_true w l = true) <-> t = true \/ exists c, In c cs /\ simple_true (SCond c) = true).
Proof.
  induction ls as [|l r IH]; intros cs t; cbn [clause_terms].
  - intros [= <- <-]. split; [intros (l & [] & _)|]. intros [X|(c & [] & _)]. discriminate.
  - destruct (simplify_literal nm l) as [s|] eqn:S; [|discriminate]. pose proof (simplify_true _ _ S) as T. destruct (clause_terms nm r) as [[cs' t']|]; [|destruct s; discriminate].
    specialize (IH _ _ eq_refl). destruct s as [c| |]; intros [= <- <-]; cbn [simple_true] in T.
    + split.
      * intros (l' & [<-|I] & L); [right; exists c; split; [now left|]; cbn [simple_true]; congruence|]. destruct (proj1 IH) as [X|(c' & I' & X)]; [eauto|now left|]. right. exists c'. split; [now right|assumption].
      * intros [X|(c' & [<-|I] & X)].
        -- destruct (proj2 IH) as (l' & I & L); [now left|]. exists l'. split; [now right|assumption].
        -- exists l. split; [now left|]. cbn [simple_true] in X. congruence.
        -- destruct (proj2 IH) as (l' & I' & L); [right; eauto|]. exists l'. split; [now right|assumption].
    + split; [now left|]. intros _. exists l. split; [now left|congruence].
    + rewrite <- IH. split.
      * intros (l' & [<-|I] & L); [congruence|eauto].
      * intros (l' & I & L). exists l'. split; [now right|assumption].
Qed.

Lemma clause_exact ls r : clause_row nm ls = Some r -> (row_holds al r <-> exists l, In l ls /\ plit_true w l = true).
Proof.
  unfold clause_row. destruct (clause_terms nm ls) as [[cs t]|] eqn:C; [|discriminate]. intro E.
  rewrite (row_exact _ None _ E). cbn [reified]. rewrite at_least_true, (clause_terms_spec _ _ _ C). destruct (clause_sum cs) as [P Q]. destruct t.
  - split; [now left|]. lia.
  - rewrite <- Q. split; [right; lia|]. intros [X|X]; [discriminate|lia].
Qed.

End Coherent.

(** ** What the definitions of names say *)

Lemma some_inj {A} (x y : A) : Some x = Some y -> x = y.
Proof. now intros [= ->]. Qed.

Section Definitions.
Context (nm : names) (al : alpha).

Lemma pvar_term_seen v : term_seen nm al (pvar_term v) = option_map (row_sum al) (n_bits nm v).
Proof. destruct v; reflexivity. Qed.

Lemma pvar_lit_seen v op k : is_range_op op = false -> lit_seen nm al (pvar_lit v op k) = option_map (x_true al) (find_condition nm (mk_pcond v op k 0)).
Proof. intro R. unfold lit_seen. destruct v; cbn [pvar_lit simplify_literal c_var c_op c_value c_upper]; rewrite R; reflexivity. Qed.

Lemma ge_lit_seen v k : lit_seen nm al (pvar_lit v OpGreaterEqual k) = option_map (x_true al) (n_ge nm v k).
Proof. now rewrite pvar_lit_seen. Qed.

Lemma lt_lit_seen v k : lit_seen nm al (pvar_lit v OpLess k) = option_map (fun x => negb (x_true al x)) (n_ge nm v k).
Proof. rewrite pvar_lit_seen by reflexivity. cbn. destruct (n_ge nm v k); cbn; [now rewrite x_true_not|reflexivity]. Qed.

Lemma eq_lit_seen v k : lit_seen nm al (pvar_lit v OpEqual k) = option_map (x_true al) (n_eq nm v k).
Proof. now rewrite pvar_lit_seen. Qed.

Lemma ne_lit_seen v k : lit_seen nm al (pvar_lit v OpNotEqual k) = option_map (fun x => negb (x_true al x)) (n_eq nm v k).
Proof. rewrite pvar_lit_seen by reflexivity. cbn. destruct (n_eq nm v k); cbn; [now rewrite x_true_not|reflexivity]. Qed.

Lemma one_guard_seen i g r : constraint_row nm i (Some [g]) = Some r ->
  exists t b, sum_seen nm al (le_lhs i) = Some t /\ guard_seen nm al g = Some b /\ (row_holds al r <-> (b = true -> t <= le_rhs i)).
Proof.
  intro E. destruct (reified_seen nm al i [g] r E) as (t & S & D & H). destruct (D g (or_introl eq_refl)) as (b & B). exists t, b. split; [assumption|]. split; [assumption|].
  rewrite H. split.
  - intros X ->. apply X. now intros g' [<-|[]].
  - intros X A. apply X. specialize (A g (or_introl eq_refl)). congruence.
Qed.

Lemma ge_rows_exact v k rr : ge_rows nm v k = Some rr ->
  exists bits x, n_bits nm v = Some bits /\ n_ge nm v k = Some x /\
    (row_holds al (fst rr) /\ row_holds al (snd rr) <-> x_true al x = (k <=? row_sum al bits)).
Proof.
  intro E. apply both_some in E as [A B]. destruct (one_guard_seen _ _ _ A) as (t1 & b1 & S1 & G1 & H1). destruct (one_guard_seen _ _ _ B) as (t2 & b2 & S2 & G2 & H2).
  cbn [guard_seen] in G1, G2. rewrite ge_lit_seen in G1. rewrite lt_lit_seen in G2. cbn [le_lhs at_least negate_terms map sum_seen Z.opp Z.eqb] in S1, S2. rewrite pvar_term_seen in S1, S2.
  destruct (n_bits nm v) as [bits|]; [|discriminate]. destruct (n_ge nm v k) as [x|]; [|discriminate]. exists bits, x. split; [reflexivity|]. split; [reflexivity|].
  cbn [option_map] in *. apply some_inj in S1, S2; subst t1 t2. injection G1 as <-. injection G2 as <-. rewrite H1, H2. cbn [le_rhs at_least].
  destruct (x_true al x); cbn [negb]; destruct (Z.leb_spec k (row_sum al bits)); (split; [intros [X Y]; try (specialize (X eq_refl)); try (specialize (Y eq_refl)); try reflexivity; exfalso; lia|intro X; try discriminate; split; intros Y; try discriminate; lia]).
Qed.

Lemma ge_term_seen v k : term_seen nm al (TLit (pvar_lit v OpGreaterEqual k)) = option_map (fun x => Z.b2z (x_true al x)) (n_ge nm v k).
Proof. cbn [term_seen]. rewrite ge_lit_seen. destruct (n_ge nm v k); reflexivity. Qed.

Lemma not_ge_term_seen v k : term_seen nm al (TLit (plit_not (pvar_lit v OpGreaterEqual k))) = option_map (fun x => 1 - Z.b2z (x_true al x)) (n_ge nm v k).
Proof. cbn [term_seen]. rewrite lit_seen_not, ge_lit_seen. destruct (n_ge nm v k); cbn; [now rewrite b2z_not|reflexivity]. Qed.

Lemma eq_rows_exact compact bounds v k rr value :
  (forall k x, n_ge nm v k = Some x -> x_true al x = (k <=? value)) ->
  (forall l u, bounds = Some (l, u) -> l <= value <= u) ->
  eq_rows compact bounds nm v k = Some rr ->
  exists x, n_eq nm v k = Some x /\ (row_holds al (fst rr) /\ row_holds al (snd rr) <-> x_true al x = (value =? k)).
Proof.
  intros Ge Bo E. unfold eq_rows in E. cbv zeta in E.
  destruct (compact && match bounds with Some (l, _) => l =? k | None => false end) eqn:C1;
  [|destruct (compact && match bounds with Some (_, u) => u =? k | None => false end) eqn:C2];
  apply both_some in E as [A B]; destruct (one_guard_seen _ _ _ A) as (t1 & b1 & S1 & G1 & H1); destruct (one_guard_seen _ _ _ B) as (t2 & b2 & S2 & G2 & H2);
  cbn [guard_seen] in G1, G2; rewrite eq_lit_seen in G1; rewrite ne_lit_seen in G2;
  (destruct (n_eq nm v k) as [x|]; [|discriminate]); exists x; (split; [reflexivity|]); rewrite H1, H2; cbn [option_map] in G1, G2; injection G1 as <-; injection G2 as <-;
  cbn [le_lhs at_least negate_terms map sum_seen Z.opp Z.eqb] in S1, S2; rewrite ?ge_term_seen, ?not_ge_term_seen in S1; rewrite ?ge_term_seen, ?not_ge_term_seen in S2.
  - apply andb_true_iff in C1 as [_ C]. destruct bounds as [[l u]|]; [|discriminate]. apply Z.eqb_eq in C. subst l. specialize (Bo _ _ eq_refl).
    destruct (n_ge nm v (k + 1)) as [g|] eqn:G; [|discriminate]. cbn [option_map] in *. apply some_inj in S1, S2; subst t1 t2. rewrite (Ge _ _ G). cbn [le_rhs at_least].
    destruct (Z.leb_spec (k + 1) value), (Z.eqb_spec value k), (x_true al x); cbn [negb Z.b2z]; try lia; (split; [intros [X Y]; try (specialize (X eq_refl)); try (specialize (Y eq_refl)); try reflexivity; exfalso; lia|intro X; try discriminate; split; intros Y; try discriminate; lia]).
  - apply andb_true_iff in C2 as [_ C]. destruct bounds as [[l u]|]; [|discriminate]. apply Z.eqb_eq in C. subst u. specialize (Bo _ _ eq_refl).
    destruct (n_ge nm v k) as [g|] eqn:G; [|discriminate]. cbn [option_map] in *. apply some_inj in S1, S2; subst t1 t2. rewrite (Ge _ _ G). cbn [le_rhs at_least].
    destruct (Z.leb_spec k value), (Z.eqb_spec value k), (x_true al x); cbn [negb Z.b2z]; try lia; (split; [intros [X Y]; try (specialize (X eq_refl)); try (specialize (Y eq_refl)); try reflexivity; exfalso; lia|intro X; try discriminate; split; intros Y; try discriminate; lia]).
  - destruct (n_ge nm v (k + 1)) as [g'|] eqn:G'; [|destruct (n_ge nm v k); discriminate]. destruct (n_ge nm v k) as [g|] eqn:G; [|discriminate].
    cbn [option_map] in *. apply some_inj in S1, S2; subst t1 t2. rewrite (Ge _ _ G), (Ge _ _ G'). cbn [le_rhs at_least].
    destruct (Z.leb_spec k value), (Z.leb_spec (k + 1) value), (Z.eqb_spec value k), (x_true al x); cbn [negb Z.b2z]; try lia; (split; [intros [X Y]; try (specialize (X eq_refl)); try (specialize (Y eq_refl)); try reflexivity; exfalso; lia|intro X; try discriminate; split; intros Y; try discriminate; lia]).
Qed.

Lemma view_rows_exact v n neg add rr : view_rows nm v n neg add = Some rr ->
  exists bv bn, n_bits nm (POnly v) = Some bv /\ n_bits nm (PSimple n) = Some bn /\
    (row_holds al (fst rr) /\ row_holds al (snd rr) <-> row_sum al bv = (if neg then - row_sum al bn else row_sum al bn) + add).
Proof.
  intro E. apply both_some in E as [A B]. destruct (plain_seen nm al _ _ A) as (t1 & S1 & H1). destruct (plain_seen nm al _ _ B) as (t2 & S2 & H2).
  cbn [le_lhs le_rhs at_least at_most negate_terms map sum_seen eq_lhs eq_rhs equals] in S1, S2, H1, H2.
  cbn [term_seen] in S1, S2. destruct (n_bits nm (POnly v)) as [bv|]; [|discriminate].
  destruct neg; cbn [Z.opp Z.eqb] in S1, S2; (destruct (n_bits nm (PSimple n)) as [bn|]; [|discriminate]); exists bv, bn; (split; [reflexivity|]); (split; [reflexivity|]); rewrite H1, H2;
  cbn [option_map] in S1, S2; apply some_inj in S1, S2; subst t1 t2; lia.
Qed.

Lemma bound_rows_exact bits lower upper :
  row_holds al (lower_bound_row bits lower) /\ row_holds al (upper_bound_row bits upper) <-> lower <= row_sum al bits <= upper.
Proof. unfold row_holds, lower_bound_row, upper_bound_row. cbn [fst snd]. rewrite row_sum_scaled. lia. Qed.

End Definitions.

(** ** Whole models *)

Section Model.
Context (compact : bool) (bounds : pvar -> option (Z * Z)) (nm : names) (meaning : nat -> option atom) (ds : list declaration).
Context (Pr : proper bounds nm meaning ds).

Lemma all_rows_in l : forall rows, all_rows compact bounds nm l = Some rows ->
  forall P : row -> Prop, (forall r, In r rows -> P r) <-> (forall d, In d l -> exists rs, declared_rows compact bounds nm d = Some rs /\ forall r, In r rs -> P r).
Proof.
  induction l as [|d rest IH]; intros rows; cbn [all_rows].
  - intros [= <-] P. split; intros _ ? [].
  - destruct (declared_rows compact bounds nm d) as [rs|] eqn:D; [|discriminate]. destruct (all_rows compact bounds nm rest) as [rows'|]; [|discriminate]. intros [= <-] P. specialize (IH _ eq_refl P). split.
    + intros A d' [<-|I]; [exists rs; split; [assumption|]; intros; apply A, in_or_app; now left|]. apply (proj1 IH); [|assumption]. intros; apply A, in_or_app. now right.
    + intros A r I. apply in_app_or in I as [I|I].
      * destruct (A d (or_introl eq_refl)) as (rs' & E & B). rewrite D in E. injection E as <-. now apply B.
      * apply (proj2 IH); [|assumption]. intros d' I'. apply A. now right.
Qed.

Lemma pair_rows_hold al p rs : pair_rows p = Some rs -> exists rr, p = Some rr /\ ((forall r, In r rs -> row_holds al r) <-> row_holds al (fst rr) /\ row_holds al (snd rr)).
Proof.
  destruct p as [[a b]|]; [|discriminate]. intros [= <-]. exists (a, b). split; [reflexivity|]. cbn [fst snd In]. split.
  - intro A. split; apply A; auto.
  - intros [X Y] r [<-|[<-|[]]]; assumption.
Qed.

Lemma single_row_holds al r0 : (forall r, In r [r0] -> row_holds al r) <-> row_holds al r0.
Proof. split; [intro A; apply A; now left|]. now intros A r [<-|[]]. Qed.

Lemma row_sum_worth al bits : row_sum al bits = worth (map fst bits) (map (fun b => x_true al (snd b)) bits).
Proof. induction bits as [|[c x] r IH]; cbn [row_sum map worth fst snd]; [reflexivity|]. rewrite IH. reflexivity. Qed.

Lemma nth_map_eq {A B} (f g : A -> B) l : map f l = map g l -> forall p a, nth_error l p = Some a -> f a = g a.
Proof. intros E p a N. assert (In a l) as I by (eapply nth_error_In; eauto). clear N. induction l as [|b r IH]; [destruct I|]. cbn in E. injection E as E1 E2. destruct I as [<-|I]; auto. Qed.

Lemma nth_seq_map {A} (f : nat -> A) n : forall s p, (p < n)%nat -> nth_error (map f (seq s n)) p = Some (f (s + p)%nat).
Proof.
  induction n as [|n IH]; intros s p L; [lia|]. destruct p as [|p]; cbn [seq map nth_error]; [now rewrite Nat.add_0_r|]. rewrite IH by lia. f_equal. f_equal. lia.
Qed.

Section Reading.
Context (w : world) (al : alpha) (Be : bits_encode nm w).

(** The bits are those of the world, there being only one way to encode each value. *)
Lemma bits_read v bits : n_bits nm v = Some bits -> row_sum al bits = pvar_value w v ->
  forall p c x, nth_error bits p = Some (c, x) -> x_true al x = w_bit w v p.
Proof.
  intros B S p c x N. pose proof (Be _ _ B) as W. assert (L : (p < length bits)%nat) by (apply nth_error_Some; congruence).
  assert (E : map (fun b => x_true al (snd b)) bits = map (w_bit w v) (seq 0 (length bits))).
  { destruct (pr_bits _ _ _ _ Pr _ _ B) as [(l & u & I)|(I & y & -> & _)].
    - destruct (pr_var _ _ _ _ Pr _ _ _ I) as (Le & Fl & Fu & bits' & shift & coeff & negative & B' & Co & We). rewrite B in B'. injection B' as <-.
      apply (no_value_twice false l u shift coeff negative Fl Fu Le Co (pvar_value w v)); rewrite <- We; split; rewrite ?map_length, ?seq_length; try reflexivity; [|exact W].
      now rewrite <- row_sum_worth.
    - cbn in S, W |- *. unfold bit_value in W. unfold Z.b2z in S. destruct (x_true al y), (w_bit w v 0); try reflexivity; lia. }
  assert (X : nth_error (map (fun b => x_true al (snd b)) bits) p = Some (x_true al x)) by (erewrite map_nth_error; [|exact N]; reflexivity).
  rewrite E, nth_seq_map in X by assumption. now injection X as <-.
Qed.

Lemma bool_read v x : In (DBool v) ds -> n_eq nm v 1 = Some x -> (forall b, n_bits nm v = Some b -> row_sum al b = pvar_value w v) -> pvar_value w v = Z.b2z (x_true al x).
Proof.
  intros I E B. destruct (pr_bool _ _ _ _ Pr _ I) as (y & Bi & E1 & _). rewrite E in E1. injection E1 as <-. rewrite <- (B _ Bi). cbn [row_sum]. lia.
Qed.

(** Names are given their meaning by the rows that define them. *)
Lemma rows_coherent rows : all_rows compact bounds nm ds = Some rows -> (forall r, In r rows -> row_holds al r) -> reads nm al w -> coherent nm w al.
Proof.
  intros A H [Rb Rf]. pose proof (proj1 (all_rows_in _ _ A (row_holds al)) H) as D. clear H A rows.
  assert (Bnd : forall v l u, In (DVar v l u) ds -> l <= pvar_value w v <= u).
  { intros v l u I. destruct (D _ I) as (rs & E & R). cbn in E. destruct (n_bits nm v) as [bits|] eqn:B; [|discriminate]. injection E as <-. rewrite <- (Rb _ _ B). apply bound_rows_exact.
    split; apply R; [now left|right; now left]. }
  assert (Ge : forall v k x, n_ge nm v k = Some x -> x_true al x = (k <=? pvar_value w v)).
  { intros v k x G. destruct (pr_ge _ _ _ _ Pr _ _ _ G) as [I _]. destruct (D _ I) as (rs & E & R). cbn in E. destruct (pair_rows_hold al _ _ E) as (rr & E' & X).
    destruct (ge_rows_exact nm al v k rr E') as (bits & y & B & G' & Y). rewrite G in G'. injection G' as <-. rewrite <- (Rb _ _ B). apply Y, X, R. }
  constructor.
  - exact Rb.
  - intros v bits p c x B N. eapply bits_read; eauto.
  - intros v k x E. destruct (pr_eq _ _ _ _ Pr _ _ _ E) as [[I _]|[I K]].
    + destruct (D _ I) as (rs & E' & R). cbn in E'. destruct (pair_rows_hold al _ _ E') as (rr & E'' & X).
      destruct (eq_rows_exact nm al compact (bounds v) v k rr (pvar_value w v)) as (y & G & Y); [intros; now apply Ge|intros l u Bo; apply Bnd; now apply (pr_bounds _ _ _ _ Pr)|assumption|].
      rewrite E in G. injection G as <-. apply Y, X, R.
    + destruct (pr_bool _ _ _ _ Pr _ I) as (y & B & E1 & E0). pose proof (bool_read v y I E1 (fun b => Rb v b)) as V. destruct K as [-> | ->].
      * rewrite E0 in E. injection E as <-. rewrite x_true_not, V. now destruct (x_true al y).
      * rewrite E1 in E. injection E as <-. rewrite V. now destruct (x_true al y).
  - exact Ge.
  - intros v l u x E. rewrite (pr_in _ _ _ _ Pr) in E. discriminate.
  - exact Rf.
  - intros n neg add v E. pose proof (pr_view _ _ _ _ Pr _ _ _ _ E) as I. destruct (D _ I) as (rs & E' & R). cbn [declared_rows] in E'. destruct (pair_rows_hold al _ _ E') as (rr & E'' & X).
    destruct (view_rows_exact nm al v n neg add rr E'') as (bv & bn & Bv & Bn & Y). pose proof (proj1 Y (proj1 X R)) as Z. rewrite (Rb _ _ Bv), (Rb _ _ Bn) in Z. exact Z.
Qed.

Lemma declared_exact : coherent nm w al -> forall d, In d ds -> forall rs, declared_rows compact bounds nm d = Some rs ->
  ((forall d', In d' ds -> match d' with DVar v l u => l <= pvar_value w v <= u | _ => True end) -> declaration_holds w d -> forall r, In r rs -> row_holds al r) /\
  ((forall r, In r rs -> row_holds al r) -> declaration_holds w d).
Proof.
  intros Co d I rs E. destruct d as [v l u|v|v k|v k|v n neg add|i hr|e hr|ls|i f]; cbn [declared_rows declaration_holds] in *.
  - destruct (n_bits nm v) as [bits|] eqn:B; [|discriminate]. injection E as <-. rewrite <- (co_bits _ _ _ Co _ _ B). split.
    + intros _ X. apply (bound_rows_exact al bits l u) in X as [X Y]. intros r [<-|[<-|[]]]; assumption.
    + intro R. apply bound_rows_exact. split; apply R; [now left|right; now left].
  - destruct (n_eq nm v 1) as [x|] eqn:E1; [|discriminate]. injection E as <-. split.
    + intros _ _ r [<-|[]]. unfold row_holds. cbn [fst snd row_sum]. pose proof (b2z_le (x_true al x)). lia.
    + intros _. rewrite (bool_read v x I E1 (fun b => co_bits _ _ _ Co v b)). apply b2z_le.
  - destruct (pair_rows_hold al _ _ E) as (rr & E' & X). destruct (ge_rows_exact nm al v k rr E') as (bits & x & B & G & Y). split; [|trivial]. intros _ _. apply X, Y.
    rewrite (co_bits _ _ _ Co _ _ B). now apply (co_ge _ _ _ Co).
  - destruct (pair_rows_hold al _ _ E) as (rr & E' & X). split; [|trivial]. intros Bnd _. apply X.
    destruct (eq_rows_exact nm al compact (bounds v) v k rr (pvar_value w v)) as (y & G & Y); [intros; now apply (co_ge _ _ _ Co)| |assumption|].
    + intros l u Bo. exact (Bnd _ (pr_bounds _ _ _ _ Pr _ _ _ Bo)).
    + apply Y. now apply (co_eq _ _ _ Co).
  - destruct (pair_rows_hold al _ _ E) as (rr & E' & X). destruct (view_rows_exact nm al v n neg add rr E') as (bv & bn & Bv & Bn & Y).
    rewrite (co_bits _ _ _ Co _ _ Bv), (co_bits _ _ _ Co _ _ Bn) in Y. rewrite X, Y. split; [intros _|]; auto.
  - destruct (constraint_row nm i hr) as [r|] eqn:C; [|discriminate]. injection E as <-. rewrite single_row_holds, (row_exact nm w al Co _ _ _ C). tauto.
  - destruct (pair_rows_hold al _ _ E) as (rr & E' & X). rewrite X, (equality_exact nm w al Co _ _ _ E'). tauto.
  - destruct (clause_row nm ls) as [r|] eqn:C; [|discriminate]. injection E as <-. rewrite single_row_holds, (clause_exact nm w al Co _ _ C). tauto.
  - destruct (pair_rows_hold al _ _ E) as (rr & E' & X). rewrite X, (two_way_exact nm w al Co _ _ _ E'). tauto.
Qed.

End Reading.

(** The 0-1 variables with the values of what they are names of. *)
Definition described (w : world) : alpha := fun i =>
  match meaning i with
  | Some (ABit v p) => w_bit w v p
  | Some (AEq v k) => pvar_value w v =? k
  | Some (AGe v k) => k <=? pvar_value w v
  | Some (AFlag i) => w_flag w i
  | None => false
  end.

Lemma x_described w x m : x_negated x = false -> meaning (x_id x) = Some m -> x_true (described w) x =
  match m with ABit v p => w_bit w v p | AEq v k => pvar_value w v =? k | AGe v k => k <=? pvar_value w v | AFlag i => w_flag w i end.
Proof. intros N M. unfold x_true, described. rewrite N, M, xorb_false_r. destruct m; reflexivity. Qed.

Lemma described_bits w v bits : n_bits nm v = Some bits -> row_sum (described w) bits = worth (map fst bits) (map (w_bit w v) (seq 0 (length bits))).
Proof.
  intro B. rewrite row_sum_worth. f_equal. apply nth_ext with (d := false) (d' := false); [now rewrite !map_length, seq_length|]. intros p L. rewrite map_length in L.
  destruct (nth_error bits p) as [[c x]|] eqn:N; [|apply nth_error_None in N; lia].
  rewrite (nth_error_nth (map (fun b => x_true (described w) (snd b)) bits) p false (x := x_true (described w) x)) by (erewrite map_nth_error; [|exact N]; reflexivity).
  rewrite (nth_error_nth (map (w_bit w v) (seq 0 (length bits))) p false (x := w_bit w v p)) by (now rewrite nth_seq_map).
  destruct (pr_bit_meaning _ _ _ _ Pr _ _ _ _ _ B N) as [Ne M]. now rewrite (x_described w x _ Ne M).
Qed.

Lemma described_coherent w : bits_encode nm w -> (forall d, In d ds -> declaration_holds w d) -> coherent nm w (described w).
Proof.
  intros Be H. assert (Bi : forall v bits, n_bits nm v = Some bits -> row_sum (described w) bits = pvar_value w v) by (intros v bits B; rewrite (described_bits w v bits B); now apply Be).
  constructor.
  - exact Bi.
  - intros v bits p c x B N. destruct (pr_bit_meaning _ _ _ _ Pr _ _ _ _ _ B N) as [Ne M]. now rewrite (x_described w x _ Ne M).
  - intros v k x E. destruct (pr_eq_meaning _ _ _ _ Pr _ _ _ E) as [[I K]|[Ne M]]; [|now rewrite (x_described w x _ Ne M)].
    destruct (pr_bool _ _ _ _ Pr _ I) as (y & B & E1 & E0). pose proof (bool_read w (described w) v y I E1 (fun b => Bi v b)) as V. destruct K as [-> | ->].
    + rewrite E0 in E. injection E as <-. rewrite x_true_not, V. now destruct (x_true (described w) y).
    + rewrite E1 in E. injection E as <-. rewrite V. now destruct (x_true (described w) y).
  - intros v k x E. destruct (pr_ge_meaning _ _ _ _ Pr _ _ _ E) as [Ne M]. now rewrite (x_described w x _ Ne M).
  - intros v l u x E. rewrite (pr_in _ _ _ _ Pr) in E. discriminate.
  - intros i x E. destruct (pr_flag_meaning _ _ _ _ Pr _ _ E) as [Ne M]. now rewrite (x_described w x _ Ne M).
  - intros n neg add v E. exact (H _ (pr_view _ _ _ _ Pr _ _ _ _ E)).
Qed.

(** The solutions of the rows, read as values of the variables, are the solutions of what
    was declared. *)
Lemma model_exact rows w : all_rows compact bounds nm ds = Some rows -> bits_encode nm w ->
  ((exists al, reads nm al w /\ forall r, In r rows -> row_holds al r) <-> forall d, In d ds -> declaration_holds w d).
Proof.
  intros A Be. split.
  - intros (al & R & H) d I. pose proof (rows_coherent w al Be rows A H R) as Co. destruct (proj1 (all_rows_in _ _ A (row_holds al)) H d I) as (rs & E & X).
    exact (proj2 (declared_exact w al Co d I rs E) X).
  - intro H. pose proof (described_coherent w Be H) as Co. exists (described w). split; [split; [exact (co_bits _ _ _ Co)|exact (co_flag _ _ _ Co)]|].
    apply (all_rows_in _ _ A (row_holds (described w))). intros d I.
    assert (exists rs, declared_rows compact bounds nm d = Some rs) as (rs & E).
    { clear -A I. revert rows A. generalize ds I. intros l. induction l as [|d' rest IH]; [intros []|]. intros J rows. cbn [all_rows]. destruct (declared_rows compact bounds nm d') as [rs|] eqn:E; [|discriminate].
      destruct (all_rows compact bounds nm rest) as [rows'|]; [|discriminate]. intros _. destruct J as [<-|J]; eauto. }
    exists rs. split; [assumption|]. apply (proj1 (declared_exact w (described w) Co d I rs E)); [|now apply H].
    intros d' I'. specialize (H d' I'). destruct d'; auto.
Qed.

End Model.

(** ** The objective *)

Lemma objective_exact nm v ts : objective_terms nm v = Some ts ->
  exists offset, forall w al, coherent nm w al -> row_sum al ts = var_value (w_int w) v - offset.
Proof.
  destruct v as [n|n neg add|c]; cbn [objective_terms]; [| |discriminate].
  - intro B. exists 0. intros w al Co. rewrite (co_bits _ _ _ Co _ _ B). cbn. lia.
  - destruct (n_view nm n neg add) as [v|] eqn:V.
    + intro B. exists 0. intros w al Co. rewrite (co_bits _ _ _ Co _ _ B). cbn [pvar_value]. rewrite (co_view _ _ _ Co _ _ _ _ V). lia.
    + destruct (n_bits nm (PSimple n)) as [bits|] eqn:B; [|discriminate]. intros [= <-]. exists add. intros w al Co. rewrite row_sum_scaled, (co_bits _ _ _ Co _ _ B). cbn [pvar_value var_value]. destruct neg; lia.
Qed.

Lemma objective_order nm v ts : objective_terms nm v = Some ts -> forall w al w' al', coherent nm w al -> coherent nm w' al' ->
  (row_sum al ts < row_sum al' ts <-> var_value (w_int w) v < var_value (w_int w') v).
Proof.
  intros O w al w' al' C C'. destruct (objective_exact nm v ts O) as (offset & E). rewrite (E _ _ C), (E _ _ C'). lia.
Qed.
