(* No literal is defined twice. *)
From Coq Require Import ZArith List Bool Sorted Lia.
From Verif Require Import Partition PartitionSpec PartitionProofs.
Import ListNotations.
Open Scope Z_scope.

Lemma nodup_snoc : forall (A : Type) (l : list A) x, NoDup l -> ~ In x l -> NoDup (l ++ [x]).
Proof.
  induction l as [|y l IH]; intros x Hn Hx; simpl.
  - constructor; [auto|constructor].
  - inversion Hn; subst. constructor.
    + rewrite in_app_iff. intros [H|[H|[]]]; [contradiction|]. subst. apply Hx. simpl. auto.
    + apply IH; auto. intros H. apply Hx. simpl. auto.
Qed.

Lemma cells_nodup : forall bs, StronglySorted Z.lt bs -> NoDup (cells bs).
Proof.
  induction bs as [|x r IH]; intros Hs; [constructor|].
  inversion Hs as [|? ? Hr Hf]; subst. rewrite Forall_forall in Hf.
  destruct r as [|y r']; [constructor|].
  change (cells (x :: y :: r')) with ((x, y - 1) :: cells (y :: r')). constructor; [|auto].
  intros H. apply cells_gap in H; [|exact Hr]. destruct H as (H & _). cbn [fst] in H.
  specialize (Hf x H). lia.
Qed.

Section Bounds.
  Variables lb ub : Z.
  Hypothesis lb_ub : lb <= ub.

  Definition ends (bs : list Z) (s : partition) : Prop :=
    forall i, In i (q_ranges s) -> meets lb ub i ->
      In (Z.max (fst i) lb) bs /\ In (Z.min (snd i) ub + 1) bs.

  Definition once (s : partition) : Prop :=
    NoDup (q_ranges s) /\ NoDup (q_atoms s) /\ forall bs, q_boundaries s = Some bs -> ends bs s.

  Lemma with_cell_once : forall s c, NoDup (q_ranges s) -> NoDup (q_atoms s) ->
    ~ In c (q_ranges s) -> NoDup (q_ranges (with_cell s c)) /\ NoDup (q_atoms (with_cell s c)).
  Proof.
    intros s c Hr Ha Hc. unfold with_cell. destruct (fst c =? snd c).
    - destruct (has (fst c) (q_atoms s)) eqn:E; [auto|]. simpl. split; [exact Hr|].
      apply nodup_snoc; [exact Ha|]. rewrite <- has_In. congruence.
    - simpl. split; [|exact Ha]. apply nodup_snoc; auto.
  Qed.

  Lemma cut_is : forall k bs s p, ok lb ub bs s -> lb <= p <= ub + 1 ->
    (In p bs /\ ensure_cut (need_equality (S k) lb ub) s p = Some s) \/
    (~ In p bs /\ exists a b, gap bs (a, b) /\ a < p <= b /\
       ensure_cut (need_equality (S k) lb ub) s p =
       Some (add_covering (with_cell (with_cell (set_boundaries s (put p bs)) (a, p - 1)) (p, b))
               (Some (a, b), [(a, p - 1); (p, b)]))).
  Proof.
    intros k bs s p Ho Hp. unfold ensure_cut. rewrite (o_here _ _ _ _ Ho).
    destruct (has p bs) eqn:Eh.
    { apply has_In in Eh. left. auto. }
    right. assert (Hn : ~ In p bs) by (rewrite <- has_In; congruence). split; [exact Hn|].
    assert (Hpu : p <> ub + 1) by (intros ->; apply Hn; apply (o_ub _ _ _ _ Ho)).
    destruct (cell_found bs p lb (ub + 1) (o_sorted _ _ _ _ Ho) (o_lb _ _ _ _ Ho) (o_ub _ _ _ _ Ho))
      as ([a b] & Ef & Hg & Hab); [lia|].
    rewrite Ef. simpl in Hab.
    assert (Hap : a < p <= b).
    { destruct Hg as (G1 & _). simpl in G1. assert (a <> p) by (intros ->; auto). lia. }
    pose proof (gap_halves bs a b p Hg Hap) as [H1 H2].
    exists a, b. split; [exact Hg|]. split; [exact Hap|].
    rewrite (define_cell_is lb ub k _ (put p bs)) by (reflexivity || apply H1).
    destruct (with_cell_facts (set_boundaries s (put p bs)) (a, p - 1)) as (B1 & _); [apply H1|].
    rewrite (define_cell_is lb ub k _ (put p bs)) by (apply H2 || (rewrite B1; reflexivity)).
    reflexivity.
  Qed.

  Lemma cut_once : forall k bs s p s', ok lb ub bs s -> once s -> lb <= p <= ub + 1 ->
    ensure_cut (need_equality (S k) lb ub) s p = Some s' ->
    once s' /\ forall i, In i (q_ranges s') -> In i (q_ranges s) \/
      (~ In p bs /\ exists bs', q_boundaries s' = Some bs' /\ gap bs' i).
  Proof.
    intros k bs s p s' Ho (Nr & Na & He) Hp E.
    specialize (He bs (o_here _ _ _ _ Ho)).
    destruct (cut_is k bs s p Ho Hp) as [[Hin F]|(Hn & a & b & Hg & Hap & F)];
      rewrite E in F; inversion F; subst s'; clear F E.
    { split; [|auto]. split; [exact Nr|]. split; [exact Na|]. intros bs' Eb.
      rewrite (o_here _ _ _ _ Ho) in Eb. inversion Eb; subst. exact He. }
    pose proof (gap_halves bs a b p Hg Hap) as [H1 H2].
    assert (Rab : lb <= a /\ b <= ub).
    { destruct Hg as (Ga & Gb & _). simpl in Ga, Gb.
      apply (o_range _ _ _ _ Ho) in Ga, Gb. lia. }
    assert (N1 : ~ In (a, p - 1) (q_ranges s)).
    { intros Hi. apply Hn. destruct (He _ Hi) as [_ H].
      - unfold meets. simpl. lia.
      - simpl in H. replace (Z.min (p - 1) ub + 1) with p in H by lia. exact H. }
    assert (N2 : ~ In (p, b) (q_ranges s)).
    { intros Hi. apply Hn. destruct (He _ Hi) as [H _].
      - unfold meets. simpl. lia.
      - simpl in H. replace (Z.max p lb) with p in H by lia. exact H. }
    set (s0 := set_boundaries s (put p bs)).
    destruct (with_cell_once s0 (a, p - 1) Nr Na N1) as [Nr1 Na1].
    destruct (with_cell_facts s0 (a, p - 1)) as (B1 & _ & _ & _ & _ & R1); [apply H1|].
    set (s1 := with_cell s0 (a, p - 1)) in *.
    assert (N3 : ~ In (p, b) (q_ranges s1)).
    { intros Hi. destruct (R1 _ Hi) as [H|[H _]]; [contradiction|]. inversion H. lia. }
    destruct (with_cell_once s1 (p, b) Nr1 Na1 N3) as [Nr2 Na2].
    destruct (with_cell_facts s1 (p, b)) as (B2 & _ & _ & _ & _ & R2); [apply H2|].
    assert (Eb : q_boundaries (with_cell s1 (p, b)) = Some (put p bs)).
    { rewrite B2, B1. reflexivity. }
    assert (Hall : forall i, In i (q_ranges (with_cell s1 (p, b))) ->
                   In i (q_ranges s) \/ gap (put p bs) i).
    { intros i Hi. destruct (R2 i Hi) as [Hi'|[-> _]]; [|auto].
      destruct (R1 i Hi') as [?|[-> _]]; auto. }
    split.
    - split; [exact Nr2|]. split; [exact Na2|]. intros bs' E'.
      change (q_boundaries (with_cell s1 (p, b)) = Some bs') in E'. rewrite Eb in E'.
      inversion E'; subst bs'. intros i Hi Hm. destruct (Hall i Hi) as [Hi'|Hg'].
      + destruct (He i Hi' Hm). rewrite !put_In. auto.
      + destruct Hg' as (Ga & Gb & Gc & _).
        assert (forall x, In x (put p bs) -> lb <= x <= ub + 1) as Hr.
        { intros x Hx. apply put_In in Hx. destruct Hx as [->|Hx]; [exact Hp|].
          apply (o_range _ _ _ _ Ho). exact Hx. }
        pose proof (Hr _ Ga). pose proof (Hr _ Gb).
        replace (Z.max (fst i) lb) with (fst i) by lia.
        replace (Z.min (snd i) ub) with (snd i) by lia. auto.
    - intros i Hi. destruct (Hall i Hi) as [?|Hg']; [auto|]. right. split; [exact Hn|].
      exists (put p bs). split; [exact Eb|exact Hg'].
  Qed.

  Lemma need_equality_once : forall s v s', fine lb ub s -> once s ->
    need_equality 3 lb ub s v = Some s' -> once s'.
  Proof.
    intros s v s' Hf Hs E. rewrite need_equality_S in E. cbv zeta in E.
    destruct (has v (q_atoms s)) eqn:Eh; [inversion E; subst; exact Hs|].
    assert (Hs1 : once (add_atom s v)).
    { destruct Hs as (Nr & Na & He). split; [exact Nr|]. split; [|exact He].
      simpl. apply nodup_snoc; [exact Na|]. rewrite <- has_In. congruence. }
    unfold fine in Hf. change (q_boundaries (add_atom s v)) with (q_boundaries s) in E.
    destruct (q_boundaries s) as [bs|] eqn:Eb; [|inversion E; subst; exact Hs1].
    destruct ((lb <=? v) && (v <=? ub)) eqn:Ev; [|inversion E; subst; exact Hs1].
    rewrite andb_true_iff, !Z.leb_le in Ev. destruct Hf as [Ho Ha].
    assert (Ho1 : ok lb ub bs (add_atom s v)).
    { apply (ok_more_atoms lb ub bs s); auto. simpl. intros w Hw. apply in_app_iff. auto. }
    assert (Ha1 : atoms_ok lb ub (fun _ => True) bs (add_atom s v)) by (intros w _ _; auto).
    destruct (ensure_cut_spec lb ub 1 bs (add_atom s v) v _ Ho1 Ha1) as (s2 & bs2 & E2 & O2 & _);
      [lia|]. rewrite E2 in E.
    destruct (cut_once 1 bs _ v s2 Ho1 Hs1) as [Hs2 _]; [lia|exact E2|].
    destruct (cut_once 1 bs2 s2 (v + 1) s' O2 Hs2) as [Hs3 _]; [lia|exact E|]. exact Hs3.
  Qed.

  Lemma define_cells_once : forall k bs cs s s', q_boundaries s = Some bs ->
    (forall c, In c cs -> In (fst c) bs /\ In (snd c + 1) bs /\ fst c <= snd c) ->
    NoDup cs -> NoDup (q_ranges s) -> NoDup (q_atoms s) ->
    (forall c, In c cs -> ~ In c (q_ranges s)) ->
    define_cells (need_equality (S k) lb ub) s cs = Some s' ->
    NoDup (q_ranges s') /\ NoDup (q_atoms s').
  Proof.
    induction cs as [|c cs IH]; intros s s' Hb Hc Hn Nr Na Hno E; cbn [define_cells] in E.
    - inversion E; subst. auto.
    - destruct (Hc c (or_introl eq_refl)) as (H1 & H2 & H3).
      rewrite (define_cell_is lb ub k s bs c Hb H1 H2) in E.
      destruct (with_cell_facts s c H3) as (B1 & _ & _ & _ & _ & R1).
      destruct (with_cell_once s c Nr Na (Hno c (or_introl eq_refl))) as [Nr1 Na1].
      inversion Hn as [|? ? Hnc Hn']; subst.
      apply (IH (with_cell s c) s'); auto.
      + rewrite B1. exact Hb.
      + intros d Hd. apply Hc. right. exact Hd.
      + intros d Hd Hi. destruct (R1 d Hi) as [H|[-> _]].
        * apply (Hno d (or_intror Hd) H).
        * contradiction.
  Qed.

  Lemma init_once : forall s lo hi s', fine lb ub s -> once s -> q_boundaries s = None ->
    lb <= lo -> lo <= hi -> hi <= ub -> init_partition lb ub s lo hi = Some s' ->
    once s' /\ forall i, In i (q_ranges s') -> In i (q_ranges s) \/
      exists bs', q_boundaries s' = Some bs' /\ gap bs' i.
  Proof.
    intros s lo hi s' Hf (Nr & Na & _) Hn H1 H2 H3 E. unfold fine in Hf. rewrite Hn in Hf.
    destruct Hf as [Hc Hr]. unfold init_partition in E.
    pose proof (first_boundaries_spec lb ub lb_ub (q_atoms s) lo hi H1 H2 H3) as
      (Bs & Br & Bl & Bu & Blo & Bhi & Ba).
    set (bs := first_boundaries lb ub (q_atoms s) lo hi) in *.
    assert (Hcells : forall c, In c (cells bs) ->
              In (fst c) bs /\ In (snd c + 1) bs /\ fst c <= snd c).
    { intros c Hin. apply cells_gap in Hin; [|exact Bs]. destruct Hin as (? & ? & ? & _). auto. }
    assert (Hm : forall c, In c (cells bs) ->
              lb <= fst c /\ snd c <= ub /\ meets lb ub c).
    { intros c Hin. destruct (Hcells c Hin) as (A & B & C). apply Br in A, B.
      unfold meets. lia. }
    destruct (define_cells_spec lb ub 1 bs (cells bs) (set_boundaries s bs) eq_refl Hcells)
      as (s1 & E1 & B1 & C1 & G1 & X1 & A1 & R1).
    rewrite E1 in E. inversion E; subst s'; clear E.
    destruct (define_cells_once 1 bs (cells bs) (set_boundaries s bs) s1 eq_refl Hcells
                (cells_nodup bs Bs) Nr Na) as [N1 N2]; [|exact E1|].
    { intros c Hin Hi. simpl in Hi. apply (proj2 (Hr c Hi)). apply Hm. exact Hin. }
    split.
    - split; [exact N1|]. split; [exact N2|]. intros bs' Eb. simpl in Eb. rewrite B1 in Eb.
      inversion Eb; subst bs'. intros i Hi Hmi. simpl in Hi.
      destruct (R1 i Hi) as [Hi'|[Hi' _]].
      + destruct (Hr i Hi') as [_ Hno]. contradiction.
      + destruct (Hm i Hi') as (P & Q & _). destruct (Hcells i Hi') as (A & B & _).
        replace (Z.max (fst i) lb) with (fst i) by lia.
        replace (Z.min (snd i) ub) with (snd i) by lia. auto.
    - intros i Hi. simpl in Hi. destruct (R1 i Hi) as [Hi'|[Hi' _]]; [auto|]. right.
      exists bs. split; [exact B1|]. apply cells_gap; auto.
  Qed.

  Lemma seek_next : forall sl sh r bs, StronglySorted Z.lt bs -> seek sl bs = Some (sl :: r) ->
    gap bs (sl, sh) -> next_is (sh + 1) (sl :: r) = true.
  Proof.
    induction bs as [|x bs IH]; intros Hs E Hg; [discriminate|].
    inversion Hs as [|? ? Hs' Hf]; subst. rewrite Forall_forall in Hf. simpl in E.
    destruct (x =? sl) eqn:Ex.
    - inversion E; subst. destruct Hg as (_ & G2 & G3 & G4). simpl in G2, G3, G4.
      destruct G2 as [G2|G2]; [lia|]. destruct r as [|y r']; [destruct G2|]. simpl.
      apply Z.eqb_eq. pose proof (Hf y (or_introl eq_refl)) as Hy.
      pose proof (G4 y (or_intror (or_introl eq_refl))).
      destruct G2 as [G2|G2]; [exact G2|].
      inversion Hs' as [|? ? _ Hf']; subst. rewrite Forall_forall in Hf'. specialize (Hf' _ G2). lia.
    - apply Z.eqb_neq in Ex. apply IH; auto.
      destruct Hg as (G1 & G2 & G3 & G4). simpl in G1, G2, G3, G4.
      destruct G1 as [G1|G1]; [congruence|]. pose proof (Hf _ G1).
      destruct G2 as [G2|G2]; [lia|].
      split; [exact G1|split; [exact G2|split; [exact G3|]]].
      intros z Hz. apply G4. right. exact Hz.
  Qed.

  Lemma need_range_once : forall s lo hi s', fine lb ub s -> once s ->
    need_range lb ub s lo hi = Some s' -> once s'.
  Proof.
    intros s lo hi s' Hf Hs E. unfold need_range in E.
    destruct (hi <? lo) eqn:E0; [inversion E; subst; exact Hs|]. apply Z.ltb_ge in E0.
    destruct (lo =? hi) eqn:E1; [eapply need_equality_once; eauto|]. apply Z.eqb_neq in E1.
    destruct (existsb (fun i => (fst i =? lo) && (snd i =? hi)) (q_ranges s)) eqn:E2;
      [inversion E; subst; exact Hs|].
    assert (Hnew : ~ In (lo, hi) (q_ranges s)).
    { intros Hi. assert (existsb (fun i => (fst i =? lo) && (snd i =? hi)) (q_ranges s) = true).
      { apply existsb_exists. exists (lo, hi). split; [exact Hi|]. simpl. rewrite !Z.eqb_refl. auto. }
      congruence. }
    cbv zeta in E. set (sl := Z.max lo lb) in *. set (sh := Z.min hi ub) in *.
    destruct (sh <? sl) eqn:E3.
    { apply Z.ltb_lt in E3. inversion E; subst s'. destruct Hs as (Nr & Na & He).
      split; [simpl; apply nodup_snoc; auto|]. split; [exact Na|].
      intros bs Eb i Hi Hm. simpl in Hi. apply in_app_iff in Hi. destruct Hi as [Hi|[<-|[]]].
      - apply (He bs Eb i Hi Hm).
      - unfold meets in Hm. simpl in Hm. fold sl sh in Hm. lia. }
    apply Z.ltb_ge in E3.
    assert (Hmid : forall s2,
      match q_boundaries s with
      | None => init_partition lb ub s sl sh
      | Some _ =>
          match ensure_cut (need_equality 2 lb ub) s sl with
          | None => None
          | Some s1 => ensure_cut (need_equality 2 lb ub) s1 (sh + 1)
          end
      end = Some s2 -> once s2 /\ exists bs, ok lb ub bs s2 /\ In sl bs /\ In (sh + 1) bs /\
      (In (lo, hi) (q_ranges s2) -> gap bs (lo, hi))).
    { intros s2 F. destruct (q_boundaries s) as [bs|] eqn:Eb.
      - unfold fine in Hf. rewrite Eb in Hf. destruct Hf as [Ho Ha].
        destruct (ensure_cut_spec lb ub 1 bs s sl _ Ho Ha) as (s1 & bs1 & F1 & O1 & A1 & G1 & P1 & M1);
          [unfold sl, sh in *; lia|]. rewrite F1 in F.
        destruct (ensure_cut_spec lb ub 1 bs1 s1 (sh + 1) _ O1 A1) as (s3 & bs2 & F2 & O2 & A2 & G2 & P2 & M2);
          [unfold sl, sh in *; lia|]. rewrite F in F2. inversion F2; subst s3; clear F2.
        destruct (cut_once 1 bs s sl s1 Ho Hs) as [Hs1 K1]; [unfold sl, sh in *; lia|exact F1|].
        destruct (cut_once 1 bs1 s1 (sh + 1) s2 O1 Hs1) as [Hs2 K2];
          [unfold sl, sh in *; lia|exact F|].
        split; [exact Hs2|]. exists bs2. split; [exact O2|]. split; [auto|]. split; [exact P2|].
        intros Hi. destruct (K2 _ Hi) as [Hi1|(_ & bs' & Eb' & Hg)].
        + destruct (K1 _ Hi1) as [Hi0|(_ & bs' & Eb' & Hg)]; [contradiction|].
          rewrite (o_here _ _ _ _ O1) in Eb'. inversion Eb'; subst bs'.
          destruct Hg as (Ga & Gb & Gc & Gd). simpl in Ga, Gb, Gc, Gd.
          pose proof (o_range _ _ _ _ O1 _ Gb) as Hr.
          assert (Esh : sh = hi) by (unfold sh; lia).
          destruct (cut_is 1 bs1 s1 (sh + 1) O1) as [[_ F3]|(Hno & _)];
            [unfold sl, sh in *; lia| |rewrite Esh in Hno; contradiction].
          rewrite F in F3. inversion F3; subst s2.
          assert (bs2 = bs1).
          { pose proof (o_here _ _ _ _ O2) as Q. rewrite (o_here _ _ _ _ O1) in Q.
            inversion Q; reflexivity. }
          subst bs2. unfold gap. simpl. auto.
        + rewrite (o_here _ _ _ _ O2) in Eb'. inversion Eb'; subst bs'. exact Hg.
      - assert (B : lb <= sl /\ sl <= sh /\ sh <= ub) by (unfold sl, sh in *; lia).
        destruct B as (B1 & B2 & B3).
        destruct (init_spec lb ub lb_ub s sl sh Hf Eb B1 B2 B3) as (s3 & bs & F2 & O2 & _ & _ & P1 & P2).
        rewrite F in F2. inversion F2; subst s3; clear F2.
        destruct (init_once s sl sh s2 Hf Hs Eb B1 B2 B3 F) as [Hs2 K].
        split; [exact Hs2|]. exists bs. split; [exact O2|]. split; [exact P1|]. split; [exact P2|].
        intros Hi. destruct (K _ Hi) as [Hi0|(bs' & Eb' & Hg)]; [contradiction|].
        rewrite (o_here _ _ _ _ O2) in Eb'. inversion Eb'; subst bs'. exact Hg. }
    destruct (match q_boundaries s with
      | None => init_partition lb ub s sl sh
      | Some _ =>
          match ensure_cut (need_equality 2 lb ub) s sl with
          | None => None
          | Some s1 => ensure_cut (need_equality 2 lb ub) s1 (sh + 1)
          end
      end) as [s2|]; [|discriminate].
    destruct (Hmid s2 eq_refl) as (Hs2 & bs & Ho & Hl & Hh & Hgap). clear Hmid.
    rewrite (o_here _ _ _ _ Ho) in E.
    destruct (seek_spec sl bs Hl (o_sorted _ _ _ _ Ho)) as (r & Es & _). rewrite Es in E.
    destruct ((lo =? sl) && (hi =? sh) && next_is (sh + 1) (sl :: r)) eqn:E4;
      [inversion E; subst; exact Hs2|].
    destruct (cells_until (sh + 1) (sl :: r)) as [cs|]; [|discriminate].
    inversion E; subst s'; clear E.
    assert (Hnot : ~ In (lo, hi) (q_ranges s2)).
    { intros Hi. specialize (Hgap Hi). destruct Hgap as (Ga & Gb & Gc & Gd).
      simpl in Ga, Gb, Gc, Gd.
      pose proof (o_range _ _ _ _ Ho _ Ga). pose proof (o_range _ _ _ _ Ho _ Gb).
      assert (El : lo = sl) by (unfold sl; lia). assert (Eh : hi = sh) by (unfold sh; lia).
      rewrite (seek_next sl sh r bs (o_sorted _ _ _ _ Ho) Es) in E4.
      - rewrite <- El, <- Eh in E4. rewrite !Z.eqb_refl in E4. discriminate.
      - rewrite <- El, <- Eh. unfold gap. simpl. auto. }
    destruct Hs2 as (Nr & Na & He). split; [simpl; apply nodup_snoc; auto|]. split; [exact Na|].
    intros bs' Eb i Hi Hm. simpl in Hi, Eb. apply in_app_iff in Hi. destruct Hi as [Hi|[<-|[]]].
    - apply (He bs' Eb i Hi Hm).
    - simpl. rewrite (o_here _ _ _ _ Ho) in Eb. inversion Eb; subst bs'. auto.
  Qed.

  Lemma ask_all_once : forall rs s s', fine lb ub s -> once s ->
    ask_all lb ub s rs = Some s' -> once s'.
  Proof.
    induction rs as [|r rs IH]; intros s s' Hf Hs E; cbn [ask_all] in E.
    - inversion E; subst. exact Hs.
    - destruct (ask lb ub s r) as [s1|] eqn:E1; [|discriminate].
      destruct r as [v|lo hi]; cbn [ask] in E1.
      + destruct (need_equality_spec lb ub s v Hf) as (s2 & F & Hf2 & _).
        rewrite E1 in F. inversion F; subst s2.
        apply (IH s1 s' Hf2); [|exact E]. exact (need_equality_once s v s1 Hf Hs E1).
      + destruct (need_range_spec lb ub lb_ub s lo hi Hf) as (s2 & F & Hf2 & _).
        rewrite E1 in F. inversion F; subst s2.
        apply (IH s1 s' Hf2); [|exact E]. exact (need_range_once s lo hi s1 Hf Hs E1).
  Qed.
End Bounds.

Lemma partition_once : forall lb ub rs s, lb <= ub -> ask_all lb ub no_partition rs = Some s ->
  NoDup (q_ranges s) /\ NoDup (q_atoms s).
Proof.
  intros lb ub rs s Hb E.
  assert (Ho : once lb ub no_partition).
  { split; [constructor|]. split; [constructor|]. intros bs Eb. discriminate. }
  destruct (ask_all_once lb ub Hb rs no_partition s (fine_start lb ub) Ho E) as (A & B & _).
  split; [exact A|exact B].
Qed.
