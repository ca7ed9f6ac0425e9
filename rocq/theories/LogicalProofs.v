(** Lemmas about conjunction and disjunction. *)
From Coq Require Import ZArith List Bool Arith Lia.
From Verif Require Import IntervalSet IntervalSetSpec IntervalSetProofs Vars VarsSpec VarsProofs State StateSpec StateProofs Epochs
  Engine EngineSpec EngineProofs SessionSpec SessionInvProofs Tracker ContractSpec ContractProofs RunProofs NogoodsProofs Logical.
Import ListNotations.
Local Open Scope Z_scope.

(** The handle a literal is about. *)
Definition lit_scope (l : literal) : list var_id := match l with LCond c => [c_var c] | _ => [] end.

Lemma lit_scope_not l : lit_scope (lit_not l) = lit_scope l.
Proof. destruct l as [c| |]; simpl; auto. unfold cond_not. destruct (c_op c); reflexivity. Qed.

Lemma lit_below_scope nv l : Forall (var_below nv) (lit_scope l) -> lit_below nv l.
Proof. destruct l as [c| |]; simpl; auto; try (intros; exact Logic.I). intro F. inversion F; subst. assumption. Qed.

Lemma lit_same_fixed d l a b : Forall (fixed d) (lit_scope l) -> within a d -> within b d -> lit_holds a l -> lit_holds b l.
Proof.
  destruct l as [c| |]; simpl; auto. intros F Wa Wb. inversion_clear F as [|? ? (x & Fx) _]. unfold cond_holds.
  now rewrite (Fx a Wa), (Fx b Wb).
Qed.

Lemma lit_not_not_holds a l : lit_holds a (lit_not (lit_not l)) <-> lit_holds a l.
Proof. rewrite !lit_not_holds. destruct (lit_holds_dec a l); tauto. Qed.

Lemma lit_sane_not l : lit_sane l -> lit_sane (lit_not l).
Proof. destruct l as [c| |]; simpl; auto. unfold cond_sane, cond_not. destruct (c_op c); simpl; auto. Qed.

Lemma trigger_scope l : incl (lit_scope l) (change_trigger l ++ bounds_trigger l).
Proof. destruct l as [c| |]; simpl; intros v I; auto. destruct (c_op c); simpl in *; auto. Qed.

Section Conjunction.
Variable nv : nat.
Variable lits : list literal.
Variable fr : literal.
Hypothesis Bl : Forall (lit_below nv) lits.
Hypothesis Bf : lit_below nv fr.
Hypothesis Sl : Forall lit_sane lits.
Hypothesis Sf : lit_sane fr.

Definition conj_sat (a : assignment) : Prop := lit_holds a fr <-> Forall (lit_holds a) lits.

Section At.
Variable d : domains.
Hypothesis Hd : domains_ok d.
Hypothesis Ld : length d = nv.

Lemma known_lit l : lit_below nv l -> lit_known d l.
Proof. now apply lit_below_known. Qed.

Lemma test_true l : lit_below nv l -> lit_sane l -> test_literal d l = DefinitelyTrue -> forall a, within a d -> lit_holds a l.
Proof. intros B S. now apply (test_exact d l Hd (known_lit l B) S). Qed.

Lemma test_false l : lit_below nv l -> lit_sane l -> test_literal d l = DefinitelyFalse -> forall a, within a d -> ~ lit_holds a l.
Proof. intros B S. now apply (test_exact d l Hd (known_lit l B) S). Qed.

Lemma test_decided l : lit_below nv l -> lit_sane l -> Forall (fixed d) (lit_scope l) -> test_literal d l <> Undecided.
Proof.
  intros B S F E. destruct (test_exact d l Hd (known_lit l B) S) as [T1 T2]. destruct (within_exists d Hd) as [a Wa].
  destruct (lit_holds_dec a l) as [Y|N].
  - assert (test_literal d l = DefinitelyTrue) by (apply T1; intros b Wb; now apply (lit_same_fixed d l a b)). congruence.
  - assert (test_literal d l = DefinitelyFalse) by (apply T2; intros b Wb Y; apply N; now apply (lit_same_fixed d l b a)). congruence.
Qed.

(** What the search for an undecided literal finds. *)
Lemma look_spec ls : Forall (lit_below nv) ls -> Forall lit_sane ls -> forall af un,
  match look_for_undecided d ls af un with
  | None => True
  | Some (af', un') =>
      (af = true -> af' = true) /\ (af' = true -> af = true \/ forall a, within a d -> ~ Forall (lit_holds a) ls) /\
      (af' = false -> match un' with
        | None => un = None /\ forall a, within a d -> Forall (lit_holds a) ls
        | Some l => (un = Some l /\ forall a, within a d -> Forall (lit_holds a) ls) \/
                    (un = None /\ In l ls /\ forall a, within a d -> (Forall (lit_holds a) ls <-> lit_holds a l)) end)
  end.
Proof.
  induction ls as [|l r IH]; intros B S af un; simpl.
  - split; [auto|]. split; [auto|]. intros _. destruct un as [l|]; [left|]; split; auto.
  - inversion_clear B as [|? ? Bl' Br]. inversion_clear S as [|? ? Sl' Sr]. destruct (test_literal d l) eqn:T.
    + specialize (IH Br Sr af un). pose proof (test_true l Bl' Sl' T) as H.
      destruct (look_for_undecided d r af un) as [[af' un']|]; auto. destruct IH as (A & B & C). split; [auto|]. split.
      * intro E. destruct (B E) as [B'|B']; [auto|right]. intros a Wa F. inversion F; subst. eapply B'; eauto.
      * intro E. specialize (C E). destruct un' as [u|].
        -- destruct C as [[C1 C2]|(C1 & C2 & C3)]; [left; split; auto|right; split; auto; split; [now right|]].
           intros a Wa. rewrite <- (C3 a Wa). split; [intro F; now inversion F|intro F; constructor; auto].
        -- destruct C as [C1 C2]. split; auto.
    + specialize (IH Br Sr true un). pose proof (test_false l Bl' Sl' T) as H.
      destruct (look_for_undecided d r true un) as [[af' un']|]; auto. destruct IH as (A & B & C). split; [auto|]. split.
      * intros _. right. intros a Wa F. inversion F; subst. eapply H; eauto.
      * intro E. rewrite A in E by reflexivity. discriminate.
    + destruct un as [u|]; [exact Logic.I|]. specialize (IH Br Sr af (Some l)).
      destruct (look_for_undecided d r af (Some l)) as [[af' un']|]; auto. destruct IH as (A & B & C). split; [auto|]. split.
      * intro E. destruct (B E) as [B'|B']; [auto|right]. intros a Wa F. inversion F; subst. eapply B'; eauto.
      * intro E. specialize (C E). destruct un' as [u|].
        -- destruct C as [[C1 C2]|(C1 & _)]; [|discriminate]. injection C1 as ->. right. split; [auto|]. split; [now left|].
           intros a Wa. split; [intro F; now inversion F|intro F; constructor; auto].
        -- destruct C as [C1 _]. discriminate.
Qed.

Lemma look_decided ls : Forall (lit_below nv) ls -> Forall lit_sane ls -> Forall (fixed d) (flat_map lit_scope ls) -> forall af un,
  exists af', look_for_undecided d ls af un = Some (af', un).
Proof.
  induction ls as [|l r IH]; intros B S F af un; simpl; [eauto|].
  inversion_clear B as [|? ? Bl' Br]. inversion_clear S as [|? ? Sl' Sr]. simpl in F. apply Forall_app in F. destruct F as [F1 F2].
  pose proof (test_decided l Bl' Sl' F1) as N. destruct (test_literal d l); [auto|auto|congruence].
Qed.

Lemma some_false : existsb (fun l => is_definitely DefinitelyFalse (test_literal d l)) lits = true -> forall a, within a d -> ~ Forall (lit_holds a) lits.
Proof.
  intro E. apply existsb_exists in E. destruct E as (l & I & E). intros a Wa F. rewrite Forall_forall in F, Bl, Sl.
  destruct (test_literal d l) eqn:T; try discriminate. exact (test_false l (Bl l I) (Sl l I) T a Wa (F l I)).
Qed.

Lemma all_true : forallb (fun l => is_definitely DefinitelyTrue (test_literal d l)) lits = true -> forall a, within a d -> Forall (lit_holds a) lits.
Proof.
  intros E a Wa. rewrite forallb_forall in E. apply Forall_forall. intros l I. rewrite Forall_forall in Bl, Sl. specialize (E l I).
  destruct (test_literal d l) eqn:T; try discriminate. exact (test_true l (Bl l I) (Sl l I) T a Wa).
Qed.

Lemma conj_honest : honest nv d conj_sat (fst (conjunction_body lits fr d)).
Proof.
  unfold conjunction_body. destruct (test_literal d fr) eqn:T; cbn [fst].
  - apply honest_tell_all; auto. { apply honest_track. }
    intros a Wa Sa. apply Sa. exact (test_true fr Bf Sf T a Wa).
  - pose proof (look_spec lits Bl Sl false None) as H. pose proof (test_false fr Bf Sf T) as NF.
    destruct (look_for_undecided d lits false None) as [[[|] [u|]]|]; try apply honest_track; destruct H as (_ & _ & H); specialize (H eq_refl); cbn [fst].
    + destruct H as [[X _]|(_ & Iu & H)]; [discriminate|]. apply honest_tell; auto; [|apply honest_track|].
      * apply lit_not_below. rewrite Forall_forall in Bl. auto.
      * intros _ _ _ a Wa _ Sa. apply lit_not_holds. rewrite <- (H a Wa). intro F. apply (NF a Wa). now apply Sa.
    + destruct H as [_ H]. apply honest_tell; auto; [exact Logic.I|apply honest_track|]. intros _ _ _ a Wa _ Sa. apply (NF a Wa). apply Sa. auto.
  - destruct (existsb _ lits) eqn:E1; [|destruct (forallb _ lits) eqn:E2; [|apply honest_track]]; cbn [fst].
    + apply honest_tell; auto; [now apply lit_not_below|apply honest_track|]. intros _ _ _ a Wa _ Sa. apply lit_not_holds. intro H.
      apply (some_false E1 a Wa). now apply Sa.
    + apply honest_tell; auto; [apply honest_track|]. intros _ _ _ a Wa _ Sa. apply Sa. now apply all_true.
Qed.

(** When the body does not ask to be run again, or finds every handle fixed, the relation holds. *)
Lemma conj_done a : live nv d (fst (conjunction_body lits fr d)) a ->
  snd (conjunction_body lits fr d) = DisableUntilBacktrack \/ Forall (fixed d) (flat_map lit_scope lits ++ lit_scope fr) -> conj_sat a.
Proof.
  unfold conjunction_body. destruct (test_literal d fr) eqn:T.
  - cbn [fst snd]. intros Lv _. apply (tell_all_back nv d Hd Ld) in Lv; auto; [|apply legit_track]. destruct Lv as [Lv F].
    unfold conj_sat. split; [auto|]. intros _. apply (test_true fr Bf Sf T). exact (live_within nv d Hd Ld _ _ Lv).
  - pose proof (look_spec lits Bl Sl false None) as H. pose proof (test_false fr Bf Sf T) as NF. unfold conj_sat.
    destruct (look_for_undecided d lits false None) as [[[|] [u|]]|] eqn:E; cbn [fst snd]; intros Lv D.
    + destruct H as (_ & H & _). destruct (H eq_refl) as [X|H']; [discriminate|]. pose proof (live_within nv d Hd Ld _ _ Lv) as Wa.
      split; [intro X; now apply NF in X|intro X; exfalso; now apply (H' a)].
    + destruct H as (_ & H & _). destruct (H eq_refl) as [X|H']; [discriminate|]. pose proof (live_within nv d Hd Ld _ _ Lv) as Wa.
      split; [intro X; now apply NF in X|intro X; exfalso; now apply (H' a)].
    + destruct H as (_ & _ & H). destruct (H eq_refl) as [[X _]|(_ & Iu & H')]; [discriminate|].
      apply (tell_back nv d Hd Ld) in Lv; [|apply lit_not_below; rewrite Forall_forall in Bl; auto|apply legit_track]. destruct Lv as [Lv N].
      pose proof (live_within nv d Hd Ld _ _ Lv) as Wa. apply lit_not_holds in N.
      split; [intro X; now apply NF in X|intro X; exfalso; apply N; now apply (H' a)].
    + apply (tell_back nv d Hd Ld LFalse) in Lv; [destruct Lv as [_ []]|exact Logic.I|apply legit_track].
    + destruct D as [D|D]; [discriminate|]. apply Forall_app in D. destruct D as [D _].
      destruct (look_decided lits Bl Sl D false None) as (af & Ea). congruence.
  - destruct (existsb _ lits) eqn:E1; [|destruct (forallb _ lits) eqn:E2]; cbn [fst snd]; intros Lv D.
    + apply (tell_back nv d Hd Ld) in Lv; [|now apply lit_not_below|apply legit_track]. destruct Lv as [Lv N]. apply lit_not_holds in N.
      pose proof (live_within nv d Hd Ld _ _ Lv) as Wa. unfold conj_sat. split; [tauto|]. intro F. exfalso. now apply (some_false E1 a).
    + apply (tell_back nv d Hd Ld) in Lv; [|assumption|apply legit_track]. destruct Lv as [Lv N].
      pose proof (live_within nv d Hd Ld _ _ Lv) as Wa. unfold conj_sat. split; [intros _|auto]. now apply all_true.
    + destruct D as [D|D]; [discriminate|]. apply Forall_app in D. destruct D as [_ D]. now apply test_decided in D.
Qed.

End At.

Lemma conj_body_ok d0 alias : body_ok nv d0 alias (conjunction_body lits fr) (flat_map lit_scope lits ++ lit_scope fr) conj_sat.
Proof.
  apply body_ok_intro.
  - intros. now apply conj_honest.
  - intros d a Hd L I F Lv. apply (conj_done d Hd L a Lv). now right.
  - intros d a Hd L I _ R. exfalso. revert R. unfold conjunction_body. destruct (test_literal d fr); [discriminate| |].
    + destruct (look_for_undecided d lits false None) as [[[|] [u|]]|]; discriminate.
    + destruct (existsb _ lits); [discriminate|]. destruct (forallb _ lits); discriminate.
  - intros d a Hd L I R Lv. apply (conj_done d Hd L a Lv). now left.
Qed.

End Conjunction.

Definition lits_scope (lits : list literal) (fr : literal) : list var_id := flat_map lit_scope lits ++ lit_scope fr.

Lemma lits_below d0 nv lits : (length d0 <= nv)%nat -> Forall (var_known d0) (flat_map lit_scope lits) -> Forall (lit_below nv) lits.
Proof.
  intros L K. rewrite Forall_forall in *. intros l I. apply lit_below_scope. apply Forall_forall. intros v Iv. apply (known_below_more d0); auto.
  apply K. apply in_flat_map. eauto.
Qed.

Lemma conjunction_correct d0 lits fr : domains_ok d0 -> Forall (var_known d0) (lits_scope lits fr) -> Forall lit_sane lits -> lit_sane fr ->
  correct_on d0 (conjunction lits fr) (lits_scope lits fr) (fun a => lit_holds a fr <-> Forall (lit_holds a) lits).
Proof.
  intros Hd K Sl Sf. pose proof K as K'. unfold lits_scope in K'. apply Forall_app in K'. destruct K' as [Kl Kf].
  assert (BL : forall nv, (length d0 <= nv)%nat -> Forall (lit_below nv) lits) by (intros; eapply lits_below; eauto).
  assert (BF : forall nv, (length d0 <= nv)%nat -> lit_below nv fr).
  { intros nv L. apply lit_below_scope. eapply Forall_impl; [|exact Kf]. intros v Kv. now apply (known_below_more d0). }
  unfold conjunction. destruct (is_definitely DefinitelyTrue (test_literal d0 fr)) eqn:E1; [|destruct (existsb is_false_literal lits) eqn:E2].
  - apply (initialiser_correct d0 _ (fun d => tell_all lits (track d)) _ (conj_sat lits fr)); auto; [rewrite E1; reflexivity|reflexivity|].
    destruct (test_literal d0 fr) eqn:T; try discriminate.
    pose proof (test_true (length d0) d0 Hd eq_refl fr (BF _ (le_n _)) Sf T) as FT.
    intros nv d Ln Hd' L I. split.
    + apply honest_tell_all; auto; [apply honest_track|]. intros a Wa Sa. apply Sa. auto.
    + intros a Lv. apply (tell_all_back nv d Hd' L) in Lv; auto; [|apply legit_track]. destruct Lv as [Lv F].
      pose proof (live_within nv d Hd' L _ _ Lv). unfold conj_sat. split; auto.
  - apply (initialiser_correct d0 _ (fun d => tell (lit_not fr) (track d)) _ (conj_sat lits fr)); auto; [rewrite E1; reflexivity|reflexivity|].
    assert (NF : forall a, ~ Forall (lit_holds a) lits).
    { intros a F. apply existsb_exists in E2. destruct E2 as (l & Il & El). rewrite Forall_forall in F. specialize (F l Il). destruct l; try discriminate. exact F. }
    intros nv d Ln Hd' L I. split.
    + apply honest_tell; auto; [apply lit_not_below; auto|apply honest_track|]. intros _ _ _ a Wa _ Sa. apply lit_not_holds. intro H. apply (NF a). now apply Sa.
    + intros a Lv. apply (tell_back nv d Hd' L) in Lv; [|apply lit_not_below; auto|apply legit_track]. destruct Lv as [Lv N]. apply lit_not_holds in N.
      unfold conj_sat. split; [tauto|]. intro F. now apply NF in F.
  - eapply (one_propagator_correct d0 _ _ _ _ _ []); [rewrite E1; reflexivity| |assumption| | |].
    + intro a. apply iff_refl.
    + unfold lits_scope. intros v I. rewrite !in_app_iff, !in_flat_map. apply in_app_or in I. destruct I as [I|I].
      * apply in_flat_map in I. destruct I as (l & Il & Iv). apply trigger_scope in Iv. apply in_app_or in Iv. destruct Iv as [Iv|Iv]; [left; left|right; left; left]; eauto.
      * apply trigger_scope in I. apply in_app_or in I. destruct I; tauto.
    + intros nv Ln. apply (conj_body_ok nv lits fr); auto.
    + intros nv g d _ [].
Qed.

Lemma lits_scope_not lits fr : lits_scope (map lit_not lits) (lit_not fr) = lits_scope lits fr.
Proof.
  unfold lits_scope. rewrite lit_scope_not. f_equal. induction lits as [|l r IH]; simpl; [reflexivity|]. now rewrite lit_scope_not, IH.
Qed.

Lemma none_of a lits : Forall (lit_holds a) (map lit_not lits) <-> ~ Exists (lit_holds a) lits.
Proof.
  rewrite Forall_map, <- Forall_Exists_neg. split; apply Forall_impl; intros l H; now apply lit_not_holds.
Qed.

Lemma exists_lit_dec a lits : Exists (lit_holds a) lits \/ ~ Exists (lit_holds a) lits.
Proof. destruct (Exists_dec (lit_holds a) lits (lit_holds_dec a)); auto. Qed.

Lemma and_correct d0 lits fr : domains_ok d0 -> Forall (var_known d0) (lits_scope lits fr) -> Forall lit_sane lits -> lit_sane fr ->
  correct_on d0 (and_lits lits fr) (lits_scope lits fr) (fun a => lit_holds a fr <-> Forall (lit_holds a) lits).
Proof. exact (conjunction_correct d0 lits fr). Qed.

Lemma or_correct d0 lits fr : domains_ok d0 -> Forall (var_known d0) (lits_scope lits fr) -> Forall lit_sane lits -> lit_sane fr ->
  correct_on d0 (or_lits lits fr) (lits_scope lits fr) (fun a => lit_holds a fr <-> Exists (lit_holds a) lits).
Proof.
  intros Hd K Sl Sf. rewrite <- lits_scope_not in K |- *. eapply correct_ext; [|apply conjunction_correct; auto].
  - intro a. cbv beta. rewrite none_of, lit_not_holds. destruct (lit_holds_dec a fr), (exists_lit_dec a lits); tauto.
  - rewrite Forall_map. eapply Forall_impl; [|exact Sl]. apply lit_sane_not.
  - now apply lit_sane_not.
Qed.

(** Over 0/1-style variables, read as non-zero. *)
Lemma to_lits_scope vars fr : lits_scope (to_lits vars) fr = vars ++ lit_scope fr.
Proof. unfold lits_scope. f_equal. induction vars as [|v r IH]; simpl; [reflexivity|]. now rewrite IH. Qed.

Lemma to_lits_sane vars : Forall lit_sane (to_lits vars).
Proof. unfold to_lits. rewrite Forall_map. apply Forall_forall. intros v _. exact Logic.I. Qed.

Lemma to_lits_all a vars : Forall (lit_holds a) (to_lits vars) <-> Forall (fun v => var_value a v <> 0) vars.
Proof. unfold to_lits. rewrite Forall_map. reflexivity. Qed.

Lemma to_lits_some a vars : Exists (lit_holds a) (to_lits vars) <-> Exists (fun v => var_value a v <> 0) vars.
Proof. unfold to_lits. rewrite Exists_exists, Exists_exists. split.
  - intros (l & I & H). apply in_map_iff in I. destruct I as (v & <- & I). eauto.
  - intros (v & I & H). exists (LCond (cond_ne v 0)). split; [apply in_map_iff; eauto|exact H].
Qed.

Lemma logical_vars_correct d0 vars y : domains_ok d0 -> Forall (var_known d0) vars -> var_known d0 y ->
  correct_on d0 (and_vars vars) vars (fun a => Forall (fun v => var_value a v <> 0) vars) /\
  correct_on d0 (and_vars_iff vars y) (vars ++ [y]) (fun a => var_value a y <> 0 <-> Forall (fun v => var_value a v <> 0) vars) /\
  correct_on d0 (or_vars vars) vars (fun a => Exists (fun v => var_value a v <> 0) vars) /\
  correct_on d0 (or_vars_iff vars y) (vars ++ [y]) (fun a => var_value a y <> 0 <-> Exists (fun v => var_value a v <> 0) vars).
Proof.
  intros Hd K Ky.
  assert (K0 : Forall (var_known d0) (lits_scope (to_lits vars) LTrue)) by (rewrite to_lits_scope; apply Forall_app; split; [assumption|constructor]).
  assert (K1 : Forall (var_known d0) (lits_scope (to_lits vars) (LCond (cond_ne y 0)))) by (rewrite to_lits_scope; apply Forall_app; split; [assumption|constructor; [assumption|constructor]]).
  pose proof (to_lits_sane vars) as S.
  pose proof (and_correct d0 (to_lits vars) LTrue Hd K0 S Logic.I) as A.
  pose proof (and_correct d0 (to_lits vars) (LCond (cond_ne y 0)) Hd K1 S Logic.I) as B.
  pose proof (or_correct d0 (to_lits vars) LTrue Hd K0 S Logic.I) as C.
  pose proof (or_correct d0 (to_lits vars) (LCond (cond_ne y 0)) Hd K1 S Logic.I) as D.
  rewrite to_lits_scope in A, B, C, D. cbn [lit_scope] in A, C. rewrite app_nil_r in A, C.
  split; [|split; [|split]].
  - eapply correct_ext; [|exact A]. intro a. cbv beta. rewrite to_lits_all. cbn [lit_holds]. tauto.
  - eapply correct_ext; [|exact B]. intro a. cbv beta. rewrite to_lits_all. reflexivity.
  - eapply correct_ext; [|exact C]. intro a. cbv beta. rewrite to_lits_some. cbn [lit_holds]. tauto.
  - eapply correct_ext; [|exact D]. intro a. cbv beta. rewrite to_lits_some. reflexivity.
Qed.
