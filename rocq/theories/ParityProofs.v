(** Lemmas about ParityOdd. *)
From Coq Require Import ZArith List Bool Arith Lia.
From Verif Require Import IntervalSet IntervalSetSpec IntervalSetProofs Vars VarsSpec VarsProofs State StateSpec StateProofs Epochs
  Engine EngineSpec EngineProofs SessionSpec SessionInvProofs Tracker ContractSpec ContractProofs RunProofs NogoodsProofs Logical LogicalProofs Parity GlobalsSpec.
Import ListNotations.
Local Open Scope Z_scope.

Lemma number_exists a lits : exists n, number_holding a lits n.
Proof. induction lits as [|l r [n IH]]; [exists 0%nat; constructor|]. destruct (lit_holds_dec a l); [exists (S n)|exists n]; constructor; auto. Qed.

Lemma number_unique a lits : forall n m, number_holding a lits n -> number_holding a lits m -> n = m.
Proof. induction lits as [|l r IH]; intros n m A B; inversion A; inversion B; subst; try contradiction; auto. Qed.

Section Parity.
Variable nv : nat.
Variable d : domains.
Hypothesis Hd : domains_ok d.
Hypothesis Ld : length d = nv.

(** What the loop finds. *)
Lemma count_true_spec lits : Forall (lit_below nv) lits -> Forall lit_sane lits -> forall trues unknown a m, within a d -> number_holding a lits m ->
  match count_true d lits trues unknown with
  | None => True
  | Some (n, None) => unknown = None /\ n = (trues + m)%nat
  | Some (n, Some l) =>
      (unknown = Some l /\ n = (trues + m)%nat) \/
      (unknown = None /\ In l lits /\ ((lit_holds a l /\ S n = (trues + m)%nat) \/ (~ lit_holds a l /\ n = (trues + m)%nat)))
  end.
Proof.
  induction lits as [|l r IH]; intros B S trues unknown a m Wa N; simpl.
  - inversion N; subst. destruct unknown as [u|]; [left|]; split; auto.
  - inversion_clear B as [|? ? Bl Br]. inversion_clear S as [|? ? Sl Sr]. destruct (test_literal d l) eqn:T.
    + pose proof (test_true nv d Hd Ld l Bl Sl T a Wa) as H. inversion N as [|? ? n H' N'|? ? n H' N']; subst; [|contradiction].
      specialize (IH Br Sr (Datatypes.S trues) unknown a n Wa N'). destruct (count_true d r (Datatypes.S trues) unknown) as [[k [u|]]|]; auto.
      * destruct IH as [[E1 E2]|(E1 & I & E2)]; [left; split; [assumption|lia]|right; split; [assumption|]; split; [now right|]; destruct E2 as [[? ?]|[? ?]]; [left|right]; split; auto; lia].
      * destruct IH. split; [assumption|lia].
    + pose proof (test_false nv d Hd Ld l Bl Sl T a Wa) as H. inversion N as [|? ? n H' N'|? ? n H' N']; subst; [contradiction|].
      specialize (IH Br Sr trues unknown a m Wa N'). destruct (count_true d r trues unknown) as [[k [u|]]|]; auto.
      destruct IH as [[E1 E2]|(E1 & I & E2)]; [left; auto|right; split; [assumption|]; split; [now right|assumption]].
    + destruct unknown as [u|]; [exact Logic.I|].
      inversion N as [|? ? n H' N'|? ? n H' N']; subst.
      * specialize (IH Br Sr trues (Some l) a n Wa N'). destruct (count_true d r trues (Some l)) as [[k [u|]]|]; auto; [|destruct IH; discriminate].
        destruct IH as [[E1 E2]|(E1 & _)]; [|discriminate]. injection E1 as <-. right. split; [reflexivity|]. split; [now left|]. left. split; [assumption|lia].
      * specialize (IH Br Sr trues (Some l) a m Wa N'). destruct (count_true d r trues (Some l)) as [[k [u|]]|]; auto; [|destruct IH; discriminate].
        destruct IH as [[E1 E2]|(E1 & _)]; [|discriminate]. injection E1 as <-. right. split; [reflexivity|]. split; [now left|]. right. split; [assumption|lia].
Qed.

Lemma count_true_decided lits : Forall (lit_below nv) lits -> Forall lit_sane lits -> Forall (fixed d) (flat_map lit_scope lits) -> forall trues unknown,
  exists n, count_true d lits trues unknown = Some (n, unknown).
Proof.
  induction lits as [|l r IH]; intros B S F trues unknown; simpl; [eauto|]. inversion_clear B as [|? ? Bl Br]. inversion_clear S as [|? ? Sl Sr]. simpl in F. apply Forall_app in F. destruct F as [F1 F2].
  pose proof (test_decided nv d Hd Ld l Bl Sl F1) as N. destruct (test_literal d l); [auto|auto|congruence].
Qed.
End Parity.

Section Body.
Variable nv : nat.
Variable lits : list literal.
Hypothesis Bl : Forall (lit_below nv) lits.
Hypothesis Sl : Forall lit_sane lits.

Lemma odd_flip n m : S n = m -> (Nat.Odd m <-> Nat.odd n = false).
Proof. intros <-. rewrite <- Nat.odd_spec, Nat.odd_succ, <- Nat.negb_odd. destruct (Nat.odd n); simpl; split; congruence. Qed.

Lemma parity_honest d : domains_ok d -> length d = nv -> honest nv d (odd_number lits) (fst (parity_body lits d)).
Proof.
  intros Hd Ld. unfold parity_body. pose proof (count_true_spec nv d Hd Ld lits Bl Sl 0 None) as C. destruct (count_true d lits 0 None) as [[n [l|]]|]; [| |apply honest_track].
  - cbn [fst]. assert (I : In l lits).
    { destruct (within_exists d Hd) as [a Wa]. destruct (number_exists a lits) as [m N]. destruct (C a m Wa N) as [[X _]|(_ & I & _)]; [discriminate|assumption]. }
    rewrite Forall_forall in Bl. apply honest_tell; auto; [destruct (Nat.odd n); [apply lit_not_below|]; auto|apply honest_track|].
    intros _ _ _ a Wa _ (m & N & O). destruct (C a m Wa N) as [[X _]|(_ & _ & E)]; [discriminate|]. simpl in E.
    destruct (Nat.odd n) eqn:On.
    + apply lit_not_holds. intro H. destruct E as [[_ E]|[X _]]; [|contradiction]. apply (odd_flip n m E) in O. congruence.
    + destruct E as [[X _]|[_ E]]; [assumption|]. subst m. apply Nat.odd_spec in O. congruence.
  - destruct (Nat.odd n) eqn:On; cbn [fst]; [apply honest_track|]. apply honest_tell; auto; [exact Logic.I|apply honest_track|].
    intros _ _ _ a Wa _ (m & N & O). destruct (C a m Wa N) as [_ E]. simpl in E. subst m. apply Nat.odd_spec in O. congruence.
Qed.

Lemma parity_done d a : domains_ok d -> length d = nv -> live nv d (fst (parity_body lits d)) a ->
  snd (parity_body lits d) = DisableUntilBacktrack \/ Forall (fixed d) (flat_map lit_scope lits) -> odd_number lits a.
Proof.
  intros Hd Ld Lv D. pose proof (live_within nv d Hd Ld _ a Lv) as Wa. destruct (number_exists a lits) as [m N]. exists m. split; [assumption|].
  revert Lv D. unfold parity_body. pose proof (count_true_spec nv d Hd Ld lits Bl Sl 0 None a m Wa N) as C. pose proof (count_true_decided nv d Hd Ld lits Bl Sl) as De.
  destruct (count_true d lits 0 None) as [[n [l|]]|] eqn:E; cbn [fst snd]; intros Lv D.
  - destruct C as [[X _]|(_ & I & C)]; [discriminate|]. simpl in C. rewrite Forall_forall in Bl.
    assert (B : lit_below nv (if Nat.odd n then lit_not l else l)) by (destruct (Nat.odd n); [apply lit_not_below|]; auto).
    apply (tell_back nv d Hd Ld _ _ _ B (legit_track nv d)) in Lv. destruct Lv as [_ H]. destruct (Nat.odd n) eqn:On.
    + apply lit_not_holds in H. destruct C as [[X _]|[_ C]]; [contradiction|]. subst m. now apply Nat.odd_spec.
    + destruct C as [[_ C]|[X _]]; [|contradiction]. now apply (odd_flip n m C).
  - destruct C as [_ C]. simpl in C. subst m. destruct (Nat.odd n) eqn:On; [now apply Nat.odd_spec|]. exfalso. cbn [fst] in Lv.
    apply (tell_back nv d Hd Ld) in Lv; [|exact Logic.I|apply legit_track]. exact (proj2 Lv).
  - destruct D as [D|D]; [discriminate|]. destruct (De D 0%nat None) as [n X]. congruence.
Qed.

Lemma parity_ok d0 alias : body_ok nv d0 alias (parity_body lits) (flat_map lit_scope lits) (odd_number lits).
Proof.
  apply body_ok_intro.
  - intros. now apply parity_honest.
  - intros d a Hd L _ F Lv. apply (parity_done d); auto.
  - intros d a Hd L _ _ R. exfalso. unfold parity_body in R. destruct (count_true d lits 0 None) as [[n [l|]]|]; [discriminate| |discriminate]. destruct (Nat.odd n); discriminate.
  - intros d a Hd L _ R Lv. apply (parity_done d); auto.
Qed.
End Body.

Lemma parity_correct d0 lits : Forall (lit_known d0) lits -> Forall lit_sane lits ->
  correct_on d0 (parity_odd lits) (flat_map lit_scope lits) (odd_number lits).
Proof.
  intros K S. apply (one_propagator_correct d0 _ (parity_body lits) (flat_map change_trigger lits) (flat_map bounds_trigger lits) [] [] _ (odd_number lits)); try reflexivity.
  - apply Forall_flat_map. eapply Forall_impl; [|exact K]. intros [c| |] Kc; simpl; auto.
  - rewrite app_nil_r. intros v I. apply in_flat_map in I. destruct I as (l & Il & Iv). apply trigger_scope in Iv. apply in_app_or in Iv. apply in_or_app.
    destruct Iv as [Iv|Iv]; [left|right]; apply in_flat_map; eauto.
  - intros nv Ln. apply parity_ok; auto. eapply Forall_impl; [|exact K]. intros [c| |] Kc; simpl in *; auto. now apply (known_below_more d0).
  - intros nv g d Ln [].
Qed.
