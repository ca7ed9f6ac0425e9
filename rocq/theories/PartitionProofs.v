From Coq Require Import ZArith List Bool Sorted Lia.
From Verif Require Import Partition PartitionSpec.
Import ListNotations.
Open Scope Z_scope.

Lemma put_In : forall p bs z, In z (put p bs) <-> z = p \/ In z bs.
Proof.
  induction bs as [|x r IH]; intros z; simpl; [intuition|].
  destruct (p <? x); [simpl; intuition|]. destruct (p =? x) eqn:E.
  - apply Z.eqb_eq in E. subst. simpl. intuition.
  - simpl. rewrite IH. intuition.
Qed.

Lemma put_sorted : forall p bs, StronglySorted Z.lt bs -> StronglySorted Z.lt (put p bs).
Proof.
  induction bs as [|x r IH]; intros H; simpl; [constructor; constructor|].
  inversion H as [|? ? Hs Hf]; subst. rewrite Forall_forall in Hf.
  destruct (p <? x) eqn:E.
  - apply Z.ltb_lt in E. constructor; [exact H|]. rewrite Forall_forall.
    intros z [<-|Hz]; [exact E|]. specialize (Hf z Hz). lia.
  - apply Z.ltb_ge in E. destruct (p =? x) eqn:E2; [exact H|]. apply Z.eqb_neq in E2.
    constructor; [auto|]. rewrite Forall_forall. intros z Hz. apply put_In in Hz.
    destruct Hz as [->|Hz]; [lia|auto].
Qed.

Lemma has_In : forall p bs, has p bs = true <-> In p bs.
Proof.
  intros. unfold has. rewrite existsb_exists. split.
  - intros (x & Hx & E). apply Z.eqb_eq in E. subst. exact Hx.
  - intros H. exists p. rewrite Z.eqb_refl. auto.
Qed.

Definition gap (bs : list Z) (c : Z * Z) : Prop :=
  In (fst c) bs /\ In (snd c + 1) bs /\ fst c <= snd c /\
  forall z, In z bs -> ~ (fst c < z <= snd c).

Lemma cells_gap : forall bs c, StronglySorted Z.lt bs -> (In c (cells bs) <-> gap bs c).
Proof.
  induction bs as [|x r IH]; intros c Hs.
  - simpl. split; [tauto|]. intros (H & _). exact H.
  - inversion Hs as [|? ? Hr Hf]; subst. rewrite Forall_forall in Hf.
    destruct r as [|y r'].
    + simpl. split; [tauto|]. intros (H1 & H2 & H3 & _). simpl in *. lia.
    + inversion Hr as [|? ? Hr' Hf']; subst. rewrite Forall_forall in Hf'.
      change (cells (x :: y :: r')) with ((x, y - 1) :: cells (y :: r')).
      assert (Hxy : x < y) by (apply Hf; simpl; auto).
      split.
      * intros [<-|Hc].
        -- unfold gap. simpl. repeat split; auto; try lia.
           intros z [->|[->|Hz]]; try lia. specialize (Hf' z Hz). lia.
        -- apply IH in Hc; [|exact Hr]. destruct Hc as (H1 & H2 & H3 & H4).
           split; [right; exact H1|split; [right; exact H2|split; [exact H3|]]].
           intros z [<-|Hz]; [|auto]. specialize (Hf _ H1). lia.
      * intros (H1 & H2 & H3 & H4). destruct H1 as [H1|H1].
        -- left. assert (snd c + 1 = y).
           { pose proof (H4 y (or_intror (or_introl eq_refl))) as Hy.
             destruct H2 as [H2|[H2|H2]]; try lia.
             specialize (Hf' _ H2). lia. }
           destruct c as [c1 c2]. simpl in *. f_equal; lia.
        -- right. apply IH; [exact Hr|]. destruct H2 as [H2|H2].
           { specialize (Hf _ H1). lia. }
           split; [exact H1|split; [exact H2|split; [exact H3|]]].
           intros z Hz. apply H4. right. exact Hz.
Qed.

Lemma cell_found : forall bs p x y, StronglySorted Z.lt bs -> In x bs -> In y bs -> x <= p < y ->
  exists c, find (fun c => (fst c <=? p) && (p <=? snd c)) (cells bs) = Some c /\
            gap bs c /\ fst c <= p <= snd c.
Proof.
  intros bs p x y Hs Hx Hy Hp.
  assert (He : exists c, In c (cells bs) /\ fst c <= p <= snd c).
  { revert x Hx Hy Hp. induction Hs as [|z r Hs IH Hf]; intros x Hx Hy Hp; [destruct Hx|].
    rewrite Forall_forall in Hf.
    destruct r as [|w r'].
    - destruct Hx as [<-|[]]. destruct Hy as [<-|[]]. lia.
    - change (cells (z :: w :: r')) with ((z, w - 1) :: cells (w :: r')).
      assert (Hzx : z <= x) by (destruct Hx as [->|Hx]; [lia|specialize (Hf x Hx); lia]).
      destruct (Z_lt_le_dec p w).
      + exists (z, w - 1). simpl. split; [auto|lia].
      + destruct Hy as [<-|Hy]; [lia|].
        destruct (IH w (or_introl eq_refl) Hy) as (c & Hc & Hcp); [lia|].
        exists c. split; [right; exact Hc|exact Hcp]. }
  destruct He as (c & Hc & Hcp).
  destruct (find (fun c => (fst c <=? p) && (p <=? snd c)) (cells bs)) as [d|] eqn:E.
  - exists d. split; [reflexivity|]. apply find_some in E. destruct E as [Hd Ed].
    rewrite andb_true_iff, !Z.leb_le in Ed. split; [apply cells_gap; auto|exact Ed].
  - exfalso. apply (find_none _ _ E) in Hc. rewrite andb_false_iff, !Z.leb_gt in Hc. lia.
Qed.

Section Bounds.
  Variables lb ub : Z.
  Hypothesis lb_ub : lb <= ub.

  Definition meets (i : Z * Z) : Prop := Z.max (fst i) lb <= Z.min (snd i) ub.

  Record ok (bs : list Z) (s : partition) : Prop :=
    { o_here : q_boundaries s = Some bs;
      o_sorted : StronglySorted Z.lt bs;
      o_range : forall x, In x bs -> lb <= x <= ub + 1;
      o_lb : In lb bs;
      o_ub : In (ub + 1) bs;
      o_proper : forall i, In i (q_ranges s) -> fst i < snd i;
      o_cells : forall c, gap bs c -> exists_literal s c;
      o_reject : forall i R, In i (q_ranges s) -> meets i -> propagated s R ->
                 (forall c, gap bs c -> within_of c i -> R c) -> R i;
      o_root : forall R, propagated s R -> (forall c, gap bs c -> R c) -> conflict s R;
      o_true : forall c x, In c (q_coverings s) -> lb <= x <= ub -> covers x c;
      o_known : forall i cs, In (i, cs) (q_coverings s) ->
                (forall c, In c cs -> exists_literal s c) /\
                match i with None => True | Some i => exists_literal s i end }.

  Definition atoms_ok (exc : Z -> Prop) (bs : list Z) (s : partition) : Prop :=
    forall v, In v (q_atoms s) -> lb <= v <= ub -> exc v \/ (In v bs /\ In (v + 1) bs).

  (* the literals only grow *)
  Definition grows (s s' : partition) : Prop :=
    (forall v, In v (q_atoms s) -> In v (q_atoms s')) /\
    (forall i, In i (q_ranges s) -> In i (q_ranges s')).

  Lemma grows_refl : forall s, grows s s.
  Proof. split; auto. Qed.

  Lemma grows_trans : forall a b c, grows a b -> grows b c -> grows a c.
  Proof. intros a b c [] []. split; auto. Qed.

  Lemma grows_literal : forall s s' i, grows s s' -> exists_literal s i -> exists_literal s' i.
  Proof. intros s s' i [H1 H2] [[? ?]|[? ?]]; [left|right]; auto. Qed.

  (* the state with a cell defined, when nothing needs to be cut *)
  Definition with_cell (s : partition) (c : Z * Z) : partition :=
    if fst c =? snd c then (if has (fst c) (q_atoms s) then s else add_atom s (fst c))
    else add_range s c.

  Lemma with_cell_facts : forall s c, fst c <= snd c ->
    q_boundaries (with_cell s c) = q_boundaries s /\ q_coverings (with_cell s c) = q_coverings s /\
    grows s (with_cell s c) /\ exists_literal (with_cell s c) c /\
    (forall v, In v (q_atoms (with_cell s c)) -> In v (q_atoms s) \/ (v = fst c /\ v = snd c)) /\
    (forall i, In i (q_ranges (with_cell s c)) -> In i (q_ranges s) \/ (i = c /\ fst c < snd c)).
  Proof.
    intros s c Hc. unfold with_cell. destruct (fst c =? snd c) eqn:E.
    - apply Z.eqb_eq in E. destruct (has (fst c) (q_atoms s)) eqn:Eh.
      + apply has_In in Eh. repeat split; auto. left. auto.
      + repeat split; auto; simpl.
        * intros v Hv. apply in_app_iff. auto.
        * left. split; [exact E|]. simpl. apply in_app_iff. simpl. auto.
        * intros v Hv. apply in_app_iff in Hv. destruct Hv as [Hv|[<-|[]]]; auto.
    - apply Z.eqb_neq in E. repeat split; auto; simpl.
      + intros i Hi. apply in_app_iff. auto.
      + right. split; [lia|]. simpl. apply in_app_iff. simpl. auto.
      + intros i Hi. apply in_app_iff in Hi. destruct Hi as [Hi|[<-|[]]]; auto.
        right. split; [reflexivity|lia].
  Qed.

  Lemma define_cell_is : forall k s bs c, q_boundaries s = Some bs ->
    In (fst c) bs -> In (snd c + 1) bs ->
    define_cell (need_equality (S k) lb ub) s c = Some (with_cell s c).
  Proof.
    intros k s bs c Hb H1 H2. unfold define_cell, with_cell.
    destruct (fst c =? snd c) eqn:E; [|reflexivity]. apply Z.eqb_eq in E. simpl.
    destruct (has (fst c) (q_atoms s)); [reflexivity|]. rewrite Hb.
    destruct ((lb <=? fst c) && (fst c <=? ub)); [|reflexivity].
    unfold ensure_cut at 1. simpl. rewrite Hb.
    rewrite (proj2 (has_In _ _) H1). unfold ensure_cut. simpl. rewrite Hb.
    rewrite E. rewrite (proj2 (has_In _ _) H2). reflexivity.
  Qed.

  Lemma gap_split_new : forall bs a b p c, gap bs (a, b) -> a < p <= b ->
    gap (put p bs) c -> c = (a, p - 1) \/ c = (p, b) \/ (gap bs c /\ c <> (a, b)).
  Proof.
    intros bs a b p [c1 c2] (G1 & G2 & G3 & G4) Hp (H1 & H2 & H3 & H4). simpl in *.
    rewrite put_In in H1, H2.
    assert (K : forall z, In z bs -> ~ (c1 < z <= c2)).
    { intros z Hz. apply H4. apply put_In. auto. }
    pose proof (H4 p (proj2 (put_In p bs p) (or_introl eq_refl))) as Kp.
    destruct H1 as [->|H1].
    - destruct H2 as [H2|H2]; [lia|]. right. left.
      pose proof (G4 _ H2). pose proof (K _ G2). f_equal; lia.
    - destruct H2 as [H2|H2].
      + left. pose proof (G4 _ H1). pose proof (K _ G1). f_equal; lia.
      + right. right. split; [repeat split; auto|]. intros E. inversion E. lia.
  Qed.

  Lemma gap_split_old : forall bs a b p c, gap bs (a, b) -> a < p <= b ->
    gap bs c -> c = (a, b) \/ gap (put p bs) c.
  Proof.
    intros bs a b p [c1 c2] (G1 & G2 & G3 & G4) Hp (H1 & H2 & H3 & H4). simpl in *.
    destruct (Z_le_gt_dec p c1) as [L|L]; [|destruct (Z_lt_le_dec c2 p) as [M|M]].
    - right. repeat split; simpl; auto; try (apply put_In; auto).
      intros z Hz. apply put_In in Hz. destruct Hz as [->|Hz]; [lia|auto].
    - right. repeat split; simpl; auto; try (apply put_In; auto).
      intros z Hz. apply put_In in Hz. destruct Hz as [->|Hz]; [lia|auto].
    - left. pose proof (G4 _ H1). pose proof (G4 _ H2). pose proof (H4 _ G1). pose proof (H4 _ G2).
      f_equal; lia.
  Qed.

  Lemma gap_halves : forall bs a b p, gap bs (a, b) -> a < p <= b ->
    gap (put p bs) (a, p - 1) /\ gap (put p bs) (p, b).
  Proof.
    intros bs a b p (G1 & G2 & G3 & G4) Hp. simpl in *.
    split; (split; [|split; [|split]]); simpl; rewrite ?put_In; auto; try lia.
    - intros z Hz. apply put_In in Hz. destruct Hz as [->|Hz]; [lia|]. pose proof (G4 z Hz). lia.
    - intros z Hz. apply put_In in Hz. destruct Hz as [->|Hz]; [lia|]. pose proof (G4 z Hz). lia.
  Qed.

  Lemma ensure_cut_spec : forall k bs s p exc, ok bs s -> atoms_ok exc bs s -> lb <= p <= ub + 1 ->
    exists s' bs', ensure_cut (need_equality (S k) lb ub) s p = Some s' /\ ok bs' s' /\
      atoms_ok exc bs' s' /\ grows s s' /\ In p bs' /\ (forall z, In z bs -> In z bs').
  Proof.
    intros k bs s p exc Ho Ha Hp. unfold ensure_cut. rewrite (o_here _ _ Ho).
    destruct (has p bs) eqn:Eh.
    { apply has_In in Eh. exists s, bs.
      split; [reflexivity|]. split; [exact Ho|]. split; [exact Ha|].
      split; [apply grows_refl|]. auto. }
    assert (Hn : ~ In p bs) by (rewrite <- has_In; congruence).
    assert (Hpu : p <> ub + 1) by (intros ->; apply Hn; apply (o_ub _ _ Ho)).
    destruct (cell_found bs p lb (ub + 1) (o_sorted _ _ Ho) (o_lb _ _ Ho) (o_ub _ _ Ho))
      as ([a b] & Ef & Hg & Hab); [lia|].
    rewrite Ef. simpl in Hab.
    assert (Hap : a < p <= b).
    { destruct Hg as (G1 & _). simpl in G1. assert (a <> p) by (intros ->; auto). lia. }
    pose proof (gap_halves bs a b p Hg Hap) as [H1 H2].
    rewrite (define_cell_is k _ (put p bs)) by (reflexivity || apply H1).
    set (s0 := set_boundaries s (put p bs)).
    destruct (with_cell_facts s0 (a, p - 1)) as (B1 & C1 & G1 & E1 & A1 & R1); [apply H1|].
    rewrite (define_cell_is k _ (put p bs)) by (apply H2 || (rewrite B1; reflexivity)).
    set (s1 := with_cell s0 (a, p - 1)) in *.
    destruct (with_cell_facts s1 (p, b)) as (B2 & C2 & G2 & E2 & A2 & R2); [apply H2|].
    set (s2 := with_cell s1 (p, b)) in *.
    set (s3 := add_covering s2 (Some (a, b), [(a, p - 1); (p, b)])).
    assert (Gr : grows s s3).
    { apply grows_trans with s1; [exact G1|exact G2]. }
    assert (Hcov : q_coverings s3 = q_coverings s ++ [(Some (a, b), [(a, p - 1); (p, b)])]).
    { unfold s3. simpl. rewrite C2, C1. reflexivity. }
    assert (Hprop : forall R, propagated s3 R -> propagated s R /\
              (R (a, p - 1) -> R (p, b) -> R (a, b))).
    { intros R HR. split.
      - intros i cs Hi. apply HR. rewrite Hcov. apply in_app_iff. auto.
      - intros Ra Rb. apply (HR (a, b) [(a, p - 1); (p, b)]).
        + rewrite Hcov. apply in_app_iff. simpl. auto.
        + intros c [<-|[<-|[]]]; auto. }
    assert (Hold : forall R, propagated s3 R -> forall i,
              (forall c, gap (put p bs) c -> within_of c i -> R c) ->
              forall c, gap bs c -> within_of c i -> R c).
    { intros R HR i Hall c Hc Hi.
      destruct (gap_split_old bs a b p c Hg Hap Hc) as [->|Hc']; [|auto].
      unfold within_of in *. simpl in *.
      apply (proj2 (Hprop R HR)); apply Hall; auto; simpl; lia. }
    assert (Hex : exists_literal s3 (a, p - 1) /\ exists_literal s3 (p, b)).
    { split; [apply (grows_literal s1 s3); [exact G2|exact E1]|exact E2]. }
    exists s3, (put p bs). split; [reflexivity|]. split; [|split; [|split; [exact Gr|split]]].
    - constructor.
      + unfold s3. simpl. rewrite B2, B1. reflexivity.
      + apply put_sorted. apply (o_sorted _ _ Ho).
      + intros x Hx. apply put_In in Hx. destruct Hx as [->|Hx]; [lia|apply (o_range _ _ Ho); auto].
      + apply put_In. right. apply (o_lb _ _ Ho).
      + apply put_In. right. apply (o_ub _ _ Ho).
      + intros i Hi. unfold s3 in Hi. simpl in Hi. apply R2 in Hi. destruct Hi as [Hi|[-> Hi]]; [|exact Hi].
        apply R1 in Hi. destruct Hi as [Hi|[-> Hi]]; [|exact Hi]. apply (o_proper _ _ Ho). exact Hi.
      + intros c Hc. destruct (gap_split_new bs a b p c Hg Hap Hc) as [->|[->|[Hc' _]]]; try apply Hex.
        apply (grows_literal s s3); [exact Gr|]. apply (o_cells _ _ Ho). exact Hc'.
      + intros i R Hi Hm HR Hall. unfold s3 in Hi. simpl in Hi. apply R2 in Hi.
        destruct Hi as [Hi|[-> Hi]].
        * apply R1 in Hi. destruct Hi as [Hi|[-> Hi]].
          -- apply (o_reject _ _ Ho i R); auto; [apply Hprop; exact HR|]. apply Hold; auto.
          -- apply Hall; [apply H1|]. unfold within_of. lia.
        * apply Hall; [apply H2|]. unfold within_of. lia.
      + intros R HR Hall. destruct (o_root _ _ Ho R) as (cs & Hcs & Hr); [apply Hprop; exact HR| |].
        * intros c Hc. destruct (gap_split_old bs a b p c Hg Hap Hc) as [->|Hc']; [|auto].
          apply (proj2 (Hprop R HR)); apply Hall; auto.
        * exists cs. split; [|exact Hr]. rewrite Hcov. apply in_app_iff. auto.
      + intros c x Hc Hx. rewrite Hcov in Hc. apply in_app_iff in Hc. destruct Hc as [Hc|[<-|[]]].
        * apply (o_true _ _ Ho); auto.
        * unfold covers, holds. simpl. intros Hab2. destruct (Z_lt_le_dec x p).
          -- exists (a, p - 1). simpl. split; [auto|lia].
          -- exists (p, b). simpl. split; [auto|lia].
      + intros i cs Hi. rewrite Hcov in Hi. apply in_app_iff in Hi. destruct Hi as [Hi|[Hi|[]]].
        * destruct (o_known _ _ Ho i cs Hi) as [K1 K2]. split.
          -- intros c Hc. apply (grows_literal s s3); [exact Gr|auto].
          -- destruct i; [|exact K2]. apply (grows_literal s s3); [exact Gr|exact K2].
        * inversion Hi; subst. split.
          -- intros c [<-|[<-|[]]]; apply Hex.
          -- apply (grows_literal s s3); [exact Gr|]. apply (o_cells _ _ Ho). exact Hg.
    - intros v Hv Hb. unfold s3 in Hv. simpl in Hv. rewrite !put_In. apply A2 in Hv.
      destruct Hv as [Hv|[-> Hv]].
      + apply A1 in Hv. destruct Hv as [Hv|[-> Hv]].
        * destruct (Ha v Hv Hb) as [He|[X Y]]; auto.
        * simpl in *. right. destruct Hg as (Ga & _). simpl in Ga. split; [auto|left; lia].
      + simpl in *. right. destruct Hg as (_ & Gb & _). simpl in Gb. subst b. auto.
    - apply put_In. auto.
    - intros z Hz. apply put_In. auto.
  Qed.

  Lemma ok_more_atoms : forall bs s s', ok bs s -> q_boundaries s' = q_boundaries s ->
    q_ranges s' = q_ranges s -> q_coverings s' = q_coverings s ->
    (forall v, In v (q_atoms s) -> In v (q_atoms s')) -> ok bs s'.
  Proof.
    intros bs s s' Ho Hb Hr Hc Ha.
    assert (Gr : grows s s') by (split; [exact Ha|rewrite Hr; auto]).
    constructor; try apply Ho.
    - rewrite Hb. apply Ho.
    - intros i. rewrite Hr. apply (o_proper _ _ Ho).
    - intros c Hg. apply (grows_literal s s' c Gr). apply (o_cells _ _ Ho). exact Hg.
    - intros i R. unfold propagated. rewrite Hr, Hc. apply (o_reject _ _ Ho).
    - intros R. unfold propagated, conflict. rewrite Hc. apply (o_root _ _ Ho).
    - intros c x. rewrite Hc. apply (o_true _ _ Ho).
    - intros i cs Hi. rewrite Hc in Hi. destruct (o_known _ _ Ho i cs Hi) as [K1 K2]. split.
      + intros c Hin. apply (grows_literal s s' c Gr). auto.
      + destruct i; [|exact K2]. apply (grows_literal s s' _ Gr). exact K2.
  Qed.

  Definition fine (s : partition) : Prop :=
    match q_boundaries s with
    | None => q_coverings s = [] /\ forall i, In i (q_ranges s) -> fst i < snd i /\ ~ meets i
    | Some bs => ok bs s /\ atoms_ok (fun _ => False) bs s
    end.

  Lemma need_equality_S : forall k s v, need_equality (S k) lb ub s v =
    if has v (q_atoms s) then Some s
    else
      let s1 := add_atom s v in
      match q_boundaries s1 with
      | None => Some s1
      | Some _ =>
          if (lb <=? v) && (v <=? ub) then
            match ensure_cut (need_equality k lb ub) s1 v with
            | None => None
            | Some s2 => ensure_cut (need_equality k lb ub) s2 (v + 1)
            end
          else Some s1
      end.
  Proof. reflexivity. Qed.

  Lemma need_equality_spec : forall s v, fine s ->
    exists s', need_equality 3 lb ub s v = Some s' /\ fine s' /\ grows s s' /\ In v (q_atoms s').
  Proof.
    intros s v Hf. rewrite need_equality_S. cbv zeta. destruct (has v (q_atoms s)) eqn:Eh.
    { apply has_In in Eh. exists s. split; [reflexivity|]. split; [exact Hf|].
      split; [apply grows_refl|exact Eh]. }
    assert (Gr : grows s (add_atom s v)).
    { split; simpl; auto. intros w Hw. apply in_app_iff. auto. }
    assert (Hv : In v (q_atoms (add_atom s v))) by (simpl; apply in_app_iff; simpl; auto).
    unfold fine in Hf. change (q_boundaries (add_atom s v)) with (q_boundaries s).
    destruct (q_boundaries s) as [bs|] eqn:Eb.
    - destruct Hf as [Ho Ha].
      assert (Ho1 : ok bs (add_atom s v)).
      { apply (ok_more_atoms bs s); auto. apply Gr. }
      assert (Ha1 : atoms_ok (fun w => w = v) bs (add_atom s v)).
      { intros w Hw Hb. simpl in Hw. apply in_app_iff in Hw. destruct Hw as [Hw|[<-|[]]]; [|auto].
        destruct (Ha w Hw Hb) as [[]|H]. auto. }
      destruct ((lb <=? v) && (v <=? ub)) eqn:Ev.
      + rewrite andb_true_iff, !Z.leb_le in Ev.
        destruct (ensure_cut_spec 1 bs (add_atom s v) v _ Ho1 Ha1) as (s2 & bs2 & E2 & O2 & A2 & G2 & P2 & M2);
          [lia|]. rewrite E2.
        destruct (ensure_cut_spec 1 bs2 s2 (v + 1) _ O2 A2) as (s3 & bs3 & E3 & O3 & A3 & G3 & P3 & M3);
          [lia|]. rewrite E3.
        exists s3. split; [reflexivity|]. split; [|split].
        * unfold fine. rewrite (o_here _ _ O3). split; [exact O3|].
          intros w Hw Hb. destruct (A3 w Hw Hb) as [->|H]; [|auto]. right. auto.
        * apply grows_trans with s2; [apply grows_trans with (add_atom s v)|]; auto.
        * apply G3, G2, Hv.
      + exists (add_atom s v). split; [reflexivity|]. split; [|split; [exact Gr|exact Hv]].
        unfold fine. simpl. rewrite Eb. split; [exact Ho1|].
        intros w Hw Hb. destruct (Ha1 w Hw Hb) as [->|H]; [|auto].
        rewrite andb_false_iff, !Z.leb_gt in Ev. lia.
    - exists (add_atom s v). split; [reflexivity|]. split; [|split; [exact Gr|exact Hv]].
      unfold fine. simpl. rewrite Eb. exact Hf.
  Qed.

  Lemma define_cells_spec : forall k bs cs s, q_boundaries s = Some bs ->
    (forall c, In c cs -> In (fst c) bs /\ In (snd c + 1) bs /\ fst c <= snd c) ->
    exists s', define_cells (need_equality (S k) lb ub) s cs = Some s' /\
      q_boundaries s' = Some bs /\ q_coverings s' = q_coverings s /\ grows s s' /\
      (forall c, In c cs -> exists_literal s' c) /\
      (forall v, In v (q_atoms s') -> In v (q_atoms s) \/ In (v, v) cs) /\
      (forall i, In i (q_ranges s') -> In i (q_ranges s) \/ (In i cs /\ fst i < snd i)).
  Proof.
    induction cs as [|c cs IH]; intros s Hb Hc; cbn [define_cells].
    - exists s. split; [reflexivity|]. split; [exact Hb|]. split; [reflexivity|].
      split; [apply grows_refl|]. split; [intros c []|]. auto.
    - destruct (Hc c (or_introl eq_refl)) as (H1 & H2 & H3).
      rewrite (define_cell_is k s bs c Hb H1 H2).
      destruct (with_cell_facts s c H3) as (B1 & C1 & G1 & E1 & A1 & R1).
      destruct (IH (with_cell s c)) as (s' & E & B & C & G & X & A & R).
      + rewrite B1. exact Hb.
      + intros d Hd. apply Hc. right. exact Hd.
      + exists s'. split; [exact E|]. split; [exact B|]. split; [rewrite C; exact C1|].
        split; [apply grows_trans with (with_cell s c); auto|]. split; [|split].
        * intros d [<-|Hd]; [|auto]. apply (grows_literal _ _ _ G E1).
        * intros v Hv. destruct (A v Hv) as [Hv'|Hv']; [|simpl; auto].
          destruct (A1 v Hv') as [?|[-> Q]]; [auto|]. right. left.
          destruct c as [c1 c2]. simpl in *. f_equal; lia.
        * intros i Hi. destruct (R i Hi) as [Hi'|[Hi' ?]]; [|simpl; auto].
          destruct (R1 i Hi') as [?|[-> ?]]; simpl; auto.
  Qed.

  Lemma first_boundaries_spec : forall atoms lo hi, lb <= lo -> lo <= hi -> hi <= ub ->
    let bs := first_boundaries lb ub atoms lo hi in
    StronglySorted Z.lt bs /\ (forall x, In x bs -> lb <= x <= ub + 1) /\
    In lb bs /\ In (ub + 1) bs /\ In lo bs /\ In (hi + 1) bs /\
    (forall v, In v atoms -> lb <= v <= ub -> In v bs /\ In (v + 1) bs).
  Proof.
    intros atoms lo hi H1 H2 H3. unfold first_boundaries.
    assert (Hf : forall atoms base, StronglySorted Z.lt base ->
              (forall x, In x base -> lb <= x <= ub + 1) ->
              let bs := fold_left (fun bs v => if (lb <=? v) && (v <=? ub)
                                               then put (v + 1) (put v bs) else bs) atoms base in
              StronglySorted Z.lt bs /\ (forall x, In x bs -> lb <= x <= ub + 1) /\
              (forall x, In x base -> In x bs) /\
              (forall v, In v atoms -> lb <= v <= ub -> In v bs /\ In (v + 1) bs)).
    { clear. induction atoms as [|v atoms IH]; intros base Hs Hr; simpl; [intuition|].
      destruct ((lb <=? v) && (v <=? ub)) eqn:E.
      - rewrite andb_true_iff, !Z.leb_le in E.
        destruct (IH (put (v + 1) (put v base))) as (A & B & C & D).
        + apply put_sorted, put_sorted, Hs.
        + intros x. rewrite !put_In. intros [->|[->|H]]; try lia. auto.
        + split; [exact A|]. split; [exact B|]. split.
          * intros x Hx. apply C. rewrite !put_In. auto.
          * intros w [<-|Hw] Hb; [|auto]. split; apply C; rewrite !put_In; auto.
      - destruct (IH base Hs Hr) as (A & B & C & D). split; [exact A|]. split; [exact B|].
        split; [exact C|]. intros w [<-|Hw] Hb; [|auto].
        rewrite andb_false_iff, !Z.leb_gt in E. lia. }
    destruct (Hf atoms (put (ub + 1) (put lb []))) as (A & B & C & D).
    - apply put_sorted, put_sorted. constructor.
    - intros x. rewrite !put_In. intros [->|[->|[]]]; lia.
    - cbv zeta. split; [apply put_sorted, put_sorted, A|]. split.
      { intros x. rewrite !put_In. intros [->|[->|H]]; try lia. auto. }
      rewrite !put_In. split; [right; right; apply C; rewrite !put_In; auto|].
      split; [right; right; apply C; rewrite !put_In; auto|].
      split; [auto|]. split; [auto|].
      intros v Hv Hb. rewrite !put_In. destruct (D v Hv Hb). auto.
  Qed.

  Lemma init_spec : forall s lo hi, fine s -> q_boundaries s = None ->
    lb <= lo -> lo <= hi -> hi <= ub ->
    exists s' bs, init_partition lb ub s lo hi = Some s' /\ ok bs s' /\
      atoms_ok (fun _ => False) bs s' /\ grows s s' /\ In lo bs /\ In (hi + 1) bs.
  Proof.
    intros s lo hi Hf Hn H1 H2 H3. unfold fine in Hf. rewrite Hn in Hf. destruct Hf as [Hc Hr].
    unfold init_partition.
    pose proof (first_boundaries_spec (q_atoms s) lo hi H1 H2 H3) as
      (Bs & Br & Bl & Bu & Blo & Bhi & Ba).
    set (bs := first_boundaries lb ub (q_atoms s) lo hi) in *.
    destruct (define_cells_spec 1 bs (cells bs) (set_boundaries s bs) eq_refl)
      as (s' & E & B & C & G & X & A & R).
    { intros c Hin. apply cells_gap in Hin; [|exact Bs]. destruct Hin as (? & ? & ? & _). auto. }
    rewrite E. exists (add_covering s' (None, cells bs)), bs. split; [reflexivity|].
    simpl in C. rewrite Hc in C.
    assert (Hcov : q_coverings (add_covering s' (None, cells bs)) = [(None, cells bs)]).
    { simpl. rewrite C. reflexivity. }
    split; [|split; [|split; [exact G|split; [exact Blo|exact Bhi]]]].
    - constructor; auto.
      + intros i Hi. simpl in Hi. destruct (R i Hi) as [Hi'|[_ ?]]; [|auto]. apply Hr. exact Hi'.
      + intros c Hg. apply (X c). apply cells_gap; auto.
      + intros i P Hi Hm HP Hall. simpl in Hi. destruct (R i Hi) as [Hi'|[Hi' ?]].
        * destruct (Hr i Hi') as [_ Hno]. contradiction.
        * apply Hall; [apply cells_gap; auto|]. unfold within_of. lia.
      + intros P HP Hall. exists (cells bs). split; [rewrite Hcov; simpl; auto|].
        intros c Hin. apply Hall. apply cells_gap; auto.
      + intros c x Hin Hx. rewrite Hcov in Hin. destruct Hin as [<-|[]].
        unfold covers, holds. simpl. intros _.
        destruct (cell_found bs x lb (ub + 1) Bs Bl Bu) as (c & _ & Hg & Hcx); [lia|].
        exists c. split; [apply cells_gap; auto|exact Hcx].
      + intros i cs Hi. rewrite Hcov in Hi. destruct Hi as [Hi|[]]. inversion Hi; subst.
        split; [exact X|trivial].
    - intros v Hv Hb. right. simpl in Hv. destruct (A v Hv) as [Hv'|Hv'].
      + apply Ba; auto.
      + apply cells_gap in Hv'; [|exact Bs]. destruct Hv' as (? & ? & _). simpl in *. auto.
  Qed.

  Lemma seek_spec : forall v bs, In v bs -> StronglySorted Z.lt bs ->
    exists r, seek v bs = Some (v :: r) /\ StronglySorted Z.lt (v :: r) /\
      (forall c, In c (cells (v :: r)) -> In c (cells bs)) /\
      (forall z, In z bs -> v <= z -> In z (v :: r)).
  Proof.
    induction bs as [|x bs IH]; intros Hv Hs; [destruct Hv|].
    inversion Hs as [|? ? Hs' Hf]; subst. rewrite Forall_forall in Hf. simpl.
    destruct (x =? v) eqn:E.
    - apply Z.eqb_eq in E. subst. exists bs. split; [reflexivity|]. auto.
    - apply Z.eqb_neq in E. destruct Hv as [Hv|Hv]; [congruence|].
      destruct (IH Hv Hs') as (r & Er & Sr & Cr & Zr). exists r.
      split; [exact Er|]. split; [exact Sr|]. split.
      + intros c Hc. specialize (Cr c Hc). destruct bs as [|y bs']; [destruct Cr|].
        right. exact Cr.
      + intros z [<-|Hz] Hvz; [|apply Zr; auto]. specialize (Hf v Hv). lia.
  Qed.

  Lemma cells_until_spec : forall stop bs, StronglySorted Z.lt bs -> In stop bs ->
    exists cs, cells_until stop bs = Some cs /\
      (forall c, In c cs -> In c (cells bs) /\ snd c < stop /\
                 match bs with [] => False | x :: _ => x <= fst c end) /\
      (forall z, match bs with [] => False | x :: _ => x <= z end -> z < stop ->
                 exists c, In c cs /\ fst c <= z <= snd c).
  Proof.
    induction bs as [|x bs IH]; intros Hs Hin; [destruct Hin|].
    inversion Hs as [|? ? Hs' Hf]; subst. rewrite Forall_forall in Hf.
    cbn [cells_until]. destruct (x =? stop) eqn:E.
    - apply Z.eqb_eq in E. subst. exists []. split; [reflexivity|].
      split; [intros c []|]. intros z Hz Hz'. lia.
    - apply Z.eqb_neq in E. destruct Hin as [Hin|Hin]; [congruence|].
      destruct bs as [|y bs']; [destruct Hin|].
      destruct (IH Hs' Hin) as (cs & Ec & H1 & H2). rewrite Ec.
      exists ((x, y - 1) :: cs). split; [reflexivity|].
      assert (Hxy : x < y) by (apply Hf; simpl; auto).
      assert (Hys : y <= stop).
      { inversion Hs' as [|? ? ? Hf']; subst. rewrite Forall_forall in Hf'.
        destruct Hin as [->|Hin]; [lia|]. specialize (Hf' _ Hin). lia. }
      split.
      + intros c [<-|Hc].
        * simpl. split; [auto|lia].
        * destruct (H1 c Hc) as (K1 & K2 & K3). split; [right; exact K1|]. lia.
      + intros z Hz Hz'. destruct (Z_lt_le_dec z y).
        * exists (x, y - 1). simpl. split; [auto|lia].
        * destruct (H2 z) as (c & Hc & Hcz); [lia|lia|]. exists c. split; [right; exact Hc|exact Hcz].
  Qed.

  Lemma add_covered : forall bs s lo hi cs, ok bs s -> lo < hi ->
    (forall c, In c cs -> gap bs c /\ within_of c (lo, hi)) ->
    (forall x, lb <= x <= ub -> lo <= x <= hi -> exists c, In c cs /\ holds x c) ->
    ok bs (add_covering (add_range s (lo, hi)) (Some (lo, hi), cs)).
  Proof.
    intros bs s lo hi cs Ho Hlh Hcs Hx. set (s' := add_covering _ _).
    assert (Gr : grows s s').
    { split; simpl; auto. intros i Hi. apply in_app_iff. auto. }
    assert (Hold : forall R, propagated s' R -> propagated s R).
    { intros R HR i ds Hi. apply HR. simpl. apply in_app_iff. auto. }
    constructor; try apply Ho.
    - intros i Hi. simpl in Hi. apply in_app_iff in Hi. destruct Hi as [Hi|[<-|[]]].
      + apply (o_proper _ _ Ho). exact Hi.
      + exact Hlh.
    - intros c Hg. apply (grows_literal s s' c Gr). apply (o_cells _ _ Ho). exact Hg.
    - intros i R Hi Hm HR Hall. simpl in Hi. apply in_app_iff in Hi. destruct Hi as [Hi|[<-|[]]].
      + apply (o_reject _ _ Ho i R); auto.
      + apply (HR (lo, hi) cs).
        * simpl. apply in_app_iff. simpl. auto.
        * intros c Hc. destruct (Hcs c Hc). auto.
    - intros R HR Hall. destruct (o_root _ _ Ho R (Hold R HR) Hall) as (ds & Hd & Hr).
      exists ds. split; [|exact Hr]. simpl. apply in_app_iff. auto.
    - intros c x Hc Hxb. simpl in Hc. apply in_app_iff in Hc. destruct Hc as [Hc|[<-|[]]].
      + apply (o_true _ _ Ho); auto.
      + unfold covers. simpl. intros Hh. apply Hx; auto.
    - intros i ds Hi. simpl in Hi. apply in_app_iff in Hi. destruct Hi as [Hi|[Hi|[]]].
      + destruct (o_known _ _ Ho i ds Hi) as [K1 K2]. split.
        * intros c Hin. apply (grows_literal s s' c Gr). auto.
        * destruct i; [|exact K2]. apply (grows_literal s s' _ Gr). exact K2.
      + inversion Hi; subst. split.
        * intros c Hc. apply (grows_literal s s' c Gr). apply (o_cells _ _ Ho). apply Hcs. exact Hc.
        * right. simpl. split; [exact Hlh|]. apply in_app_iff. simpl. auto.
  Qed.

  Lemma need_range_spec : forall s lo hi, fine s ->
    exists s', need_range lb ub s lo hi = Some s' /\ fine s' /\ grows s s' /\
      (lo <= hi -> exists_literal s' (lo, hi)).
  Proof.
    intros s lo hi Hf. unfold need_range. destruct (hi <? lo) eqn:E0.
    { apply Z.ltb_lt in E0. exists s. split; [reflexivity|]. split; [exact Hf|].
      split; [apply grows_refl|lia]. }
    apply Z.ltb_ge in E0. destruct (lo =? hi) eqn:E1.
    { apply Z.eqb_eq in E1. destruct (need_equality_spec s lo Hf) as (s' & E & F & G & Hin).
      exists s'. split; [exact E|]. split; [exact F|]. split; [exact G|]. intros _. left. auto. }
    apply Z.eqb_neq in E1. assert (Hlh : lo < hi) by lia.
    destruct (existsb (fun i => (fst i =? lo) && (snd i =? hi)) (q_ranges s)) eqn:E2.
    { apply existsb_exists in E2. destruct E2 as ([a b] & Hi & Ei).
      simpl in Ei. rewrite andb_true_iff, !Z.eqb_eq in Ei. destruct Ei; subst.
      exists s. split; [reflexivity|]. split; [exact Hf|]. split; [apply grows_refl|].
      intros _. right. auto. }
    cbv zeta. set (sl := Z.max lo lb). set (sh := Z.min hi ub).
    destruct (sh <? sl) eqn:E3.
    { apply Z.ltb_lt in E3.
      assert (Gr : grows s (add_range s (lo, hi))).
      { split; simpl; auto. intros i Hi. apply in_app_iff. auto. }
      exists (add_range s (lo, hi)). split; [reflexivity|]. split; [|split; [exact Gr|]].
      - unfold fine in *. simpl. destruct (q_boundaries s) as [bs|] eqn:Eb.
        + destruct Hf as [Ho Ha]. split; [|exact Ha].
          constructor; try apply Ho.
          * intros i Hi. simpl in Hi. apply in_app_iff in Hi. destruct Hi as [Hi|[<-|[]]].
            -- apply (o_proper _ _ Ho). exact Hi.
            -- exact Hlh.
          * intros c Hg. apply (grows_literal s _ c Gr). apply (o_cells _ _ Ho). exact Hg.
          * intros i R Hi Hm HR Hall. simpl in Hi. apply in_app_iff in Hi.
            destruct Hi as [Hi|[<-|[]]].
            -- apply (o_reject _ _ Ho i R); auto.
            -- unfold meets in Hm. simpl in Hm. fold sl sh in Hm. lia.
          * intros i cs Hi. destruct (o_known _ _ Ho i cs Hi) as [K1 K2]. split.
            -- intros c Hin. apply (grows_literal s _ c Gr). auto.
            -- destruct i; [|exact K2]. apply (grows_literal s _ _ Gr). exact K2.
        + destruct Hf as [Hc Hr]. split; [exact Hc|]. intros i Hi. apply in_app_iff in Hi.
          destruct Hi as [Hi|[<-|[]]]; [auto|]. simpl. split; [exact Hlh|].
          unfold meets. simpl. fold sl sh. lia.
      - intros _. right. simpl. split; [exact Hlh|]. apply in_app_iff. simpl. auto. }
    apply Z.ltb_ge in E3.
    assert (Hmid : exists s2 bs,
      match q_boundaries s with
      | None => init_partition lb ub s sl sh
      | Some _ =>
          match ensure_cut (need_equality 2 lb ub) s sl with
          | None => None
          | Some s1 => ensure_cut (need_equality 2 lb ub) s1 (sh + 1)
          end
      end = Some s2 /\ ok bs s2 /\ atoms_ok (fun _ => False) bs s2 /\ grows s s2 /\
      In sl bs /\ In (sh + 1) bs).
    { destruct (q_boundaries s) as [bs|] eqn:Eb.
      - unfold fine in Hf. rewrite Eb in Hf. destruct Hf as [Ho Ha].
        destruct (ensure_cut_spec 1 bs s sl _ Ho Ha) as (s1 & bs1 & F1 & O1 & A1 & G1 & P1 & M1);
          [unfold sl, sh in *; lia|]. rewrite F1.
        destruct (ensure_cut_spec 1 bs1 s1 (sh + 1) _ O1 A1) as (s2 & bs2 & F2 & O2 & A2 & G2 & P2 & M2);
          [unfold sl, sh in *; lia|].
        exists s2, bs2. split; [exact F2|]. split; [exact O2|]. split; [exact A2|].
        split; [apply grows_trans with s1; auto|]. auto.
      - apply init_spec; auto; unfold sl, sh in *; lia. }
    destruct Hmid as (s2 & bs & Em & Ho & Ha & Gr & Hl & Hh). rewrite Em. rewrite (o_here _ _ Ho).
    destruct (seek_spec sl bs Hl (o_sorted _ _ Ho)) as (r & Es & Sr & Cr & Zr). rewrite Es.
    destruct ((lo =? sl) && (hi =? sh) && next_is (sh + 1) (sl :: r)) eqn:E4.
    - rewrite !andb_true_iff, !Z.eqb_eq in E4. destruct E4 as [[El Eh] En].
      exists s2. split; [reflexivity|]. split; [|split; [exact Gr|]].
      { unfold fine. rewrite (o_here _ _ Ho). auto. }
      intros _. apply (o_cells _ _ Ho). apply cells_gap; [apply Ho|]. apply Cr.
      destruct r as [|y r']; [discriminate|]. simpl in En. apply Z.eqb_eq in En.
      left. f_equal; lia.
    - destruct (cells_until_spec (sh + 1) (sl :: r) Sr) as (cs & Ec & H1 & H2).
      { apply Zr; [exact Hh|]. lia. }
      rewrite Ec. eexists. split; [reflexivity|]. split; [|split].
      + unfold fine. cbn [q_boundaries add_covering add_range]. rewrite (o_here _ _ Ho).
        split; [|exact Ha]. apply add_covered; auto.
        * intros c Hc. destruct (H1 c Hc) as (K1 & K2 & K3). split.
          -- apply cells_gap; [apply Ho|]. apply Cr. exact K1.
          -- unfold within_of. simpl. unfold sl, sh in *. lia.
        * intros x Hx Hx'. unfold holds. apply H2; unfold sl, sh; lia.
      + destruct Gr as [Ga Gb]. split; simpl; auto. intros i Hi. apply in_app_iff. auto.
      + intros _. right. simpl. split; [exact Hlh|]. apply in_app_iff. simpl. auto.
  Qed.

  Lemma ask_all_spec : forall rs s, fine s ->
    exists s', ask_all lb ub s rs = Some s' /\ fine s' /\ grows s s' /\
      forall r, In r rs -> answered s' r.
  Proof.
    induction rs as [|r rs IH]; intros s Hf; simpl.
    - exists s. split; [reflexivity|]. split; [exact Hf|]. split; [apply grows_refl|]. intros r [].
    - assert (H1 : exists s1, ask lb ub s r = Some s1 /\ fine s1 /\ grows s s1 /\ answered s1 r).
      { destruct r as [v|lo hi]; simpl.
        - destruct (need_equality_spec s v Hf) as (s1 & E & F & G & Hin).
          exists s1. split; [exact E|]. split; [exact F|]. split; [exact G|]. left. auto.
        - apply need_range_spec. exact Hf. }
      destruct H1 as (s1 & E & F & G & An). rewrite E.
      destruct (IH s1 F) as (s2 & E2 & F2 & G2 & An2). exists s2.
      split; [exact E2|]. split; [exact F2|]. split; [apply grows_trans with s1; auto|].
      intros q [<-|Hq]; [|auto]. destruct r as [v|lo hi]; simpl in *.
      + apply (grows_literal s1 s2 _ G2 An).
      + intros Hle. apply (grows_literal s1 s2 _ G2 (An Hle)).
  Qed.

  Lemma fine_start : fine no_partition.
  Proof. unfold fine. simpl. split; [reflexivity|]. intros i []. Qed.

  Lemma cell_is_gap : forall bs s c, q_boundaries s = Some bs -> (cell s c <-> gap bs c).
  Proof.
    intros bs s c Hb. unfold cell, gap. split.
    - intros (bs' & E & H). rewrite Hb in E. inversion E; subst. exact H.
    - intros H. exists bs. auto.
  Qed.
End Bounds.

Lemma partition_answers : forall lb ub rs, lb <= ub ->
  exists s, ask_all lb ub no_partition rs = Some s /\ forall r, In r rs -> answered s r.
Proof.
  intros lb ub rs Hb. destruct (ask_all_spec lb ub Hb rs _ (fine_start lb ub)) as (s & E & _ & _ & An).
  exists s. auto.
Qed.

Lemma partition_rejects : forall lb ub rs s, lb <= ub -> ask_all lb ub no_partition rs = Some s ->
  forall i rejected, exists_literal s i -> fst i < snd i ->
    Z.max (fst i) lb <= Z.min (snd i) ub -> propagated s rejected ->
    (forall c, cell s c -> within_of c i -> rejected c) -> rejected i.
Proof.
  intros lb ub rs s Hb E i R Hi Hlt Hm HR Hall.
  destruct (ask_all_spec lb ub Hb rs _ (fine_start lb ub)) as (s' & E' & F & _).
  rewrite E in E'. inversion E'; subst s'. clear E'.
  destruct Hi as [[Heq _]|[_ Hi]]; [lia|].
  unfold fine in F. destruct (q_boundaries s) as [bs|] eqn:Eb.
  - destruct F as [Ho _]. apply (o_reject _ _ _ _ Ho i R); auto.
    intros c Hg. apply Hall. apply (cell_is_gap bs s c Eb). exact Hg.
  - destruct F as [_ Hr]. destruct (Hr i Hi) as [_ Hno]. elim Hno. exact Hm.
Qed.

Lemma partition_wipeout : forall lb ub rs s, lb <= ub -> ask_all lb ub no_partition rs = Some s ->
  q_boundaries s <> None ->
  forall rejected, propagated s rejected -> (forall c, cell s c -> rejected c) -> conflict s rejected.
Proof.
  intros lb ub rs s Hb E Hn R HR Hall.
  destruct (ask_all_spec lb ub Hb rs _ (fine_start lb ub)) as (s' & E' & F & _).
  rewrite E in E'. inversion E'; subst s'. clear E'.
  unfold fine in F. destruct (q_boundaries s) as [bs|] eqn:Eb; [|congruence].
  destruct F as [Ho _]. apply (o_root _ _ _ _ Ho R HR). intros c Hg. apply Hall.
  apply (cell_is_gap bs s c Eb). exact Hg.
Qed.

Lemma partition_sound : forall lb ub rs s i cs, lb <= ub -> ask_all lb ub no_partition rs = Some s ->
  In (i, cs) (q_coverings s) ->
  (forall x, lb <= x <= ub -> covers x (i, cs)) /\
  (forall c, In c cs -> exists_literal s c) /\
  match i with None => True | Some p => exists_literal s p end.
Proof.
  intros lb ub rs s i cs Hb E Hin.
  destruct (ask_all_spec lb ub Hb rs _ (fine_start lb ub)) as (s' & E' & F & _).
  rewrite E in E'. inversion E'; subst s'. clear E'.
  unfold fine in F. destruct (q_boundaries s) as [bs|] eqn:Eb.
  - destruct F as [Ho _]. split; [|apply (o_known _ _ _ _ Ho i cs Hin)].
    intros x Hx. apply (o_true _ _ _ _ Ho); auto.
  - destruct F as [Hc _]. rewrite Hc in Hin. destruct Hin.
Qed.

Lemma partition_cells : forall lb ub rs s, lb <= ub -> ask_all lb ub no_partition rs = Some s ->
  q_boundaries s <> None ->
  (forall c, cell s c -> exists_literal s c /\ lb <= fst c /\ snd c <= ub) /\
  (forall x, lb <= x <= ub -> exists c, cell s c /\ holds x c) /\
  (forall v, In v (q_atoms s) -> lb <= v <= ub -> cell s (v, v)).
Proof.
  intros lb ub rs s Hb E Hn.
  destruct (ask_all_spec lb ub Hb rs _ (fine_start lb ub)) as (s' & E' & F & _).
  rewrite E in E'. inversion E'; subst s'. clear E'.
  unfold fine in F. destruct (q_boundaries s) as [bs|] eqn:Eb; [|congruence].
  destruct F as [Ho Ha]. split; [|split].
  - intros c Hc. apply (cell_is_gap bs s c Eb) in Hc. split; [apply (o_cells _ _ _ _ Ho c Hc)|].
    destruct Hc as (H1 & H2 & _). apply (o_range _ _ _ _ Ho) in H1, H2. lia.
  - intros x Hx.
    destruct (cell_found bs x lb (ub + 1) (o_sorted _ _ _ _ Ho) (o_lb _ _ _ _ Ho) (o_ub _ _ _ _ Ho))
      as (c & _ & Hg & Hcx); [lia|].
    exists c. split; [apply (cell_is_gap bs s c Eb); exact Hg|exact Hcx].
  - intros v Hv Hvb. destruct (Ha v Hv Hvb) as [[]|[H1 H2]].
    apply (cell_is_gap bs s _ Eb). unfold gap. simpl. repeat split; auto; try lia.
Qed.
