(** Lemmas about layered graphs. *)
From Coq Require Import ZArith List Bool Arith Lia.
From Verif Require Import IntervalSet Vars VarsSpec State StateSpec StateProofs Epochs Engine EngineSpec EngineProofs SessionSpec Tracker ContractSpec ContractProofs
  RunProofs ChoiceProofs Solve SolveSpec SolveProofs Stateful StatefulSpec StatefulProofs ConsistencySpec Table TableProofs ElementProofs LexProofs GacAllDifferentProofs Layered LayeredSpec.
Import ListNotations.
Local Open Scope Z_scope.

Lemma edge_eqb_spec e f : edge_eqb e f = true <-> e = f.
Proof.
  destruct e as [i q v r], f as [i' q' v' r']. unfold edge_eqb; simpl. rewrite !andb_true_iff, Nat.eqb_eq, !Z.eqb_eq.
  split; [intros (((-> & ->) & ->) & ->); reflexivity|intros [= -> -> -> ->]; auto].
Qed.

Lemma remove_edge_In e f g : In f (remove_edge e g) <-> In f g /\ f <> e.
Proof.
  unfold remove_edge. rewrite filter_In, negb_true_iff. split; intros [I N]; split; auto.
  - intros ->. assert (edge_eqb e e = true) by now apply edge_eqb_spec. congruence.
  - destruct (edge_eqb e f) eqn:E; [|reflexivity]. apply edge_eqb_spec in E. congruence.
Qed.

Lemma out_edges_In i q g e : In e (out_edges i q g) <-> In e g /\ ed_at e = i /\ ed_from e = q.
Proof. unfold out_edges. now rewrite filter_In, andb_true_iff, Nat.eqb_eq, Z.eqb_eq. Qed.

Lemma in_edges_In i q g e : In e (in_edges i q g) <-> In e g /\ S (ed_at e) = i /\ ed_to e = q.
Proof. unfold in_edges. now rewrite filter_In, andb_true_iff, Nat.eqb_eq, Z.eqb_eq. Qed.

Lemma supports_value_spec g i v : supports_value g i v = true <-> exists e, In e g /\ ed_at e = i /\ ed_by e = v.
Proof.
  unfold supports_value. rewrite existsb_exists. split; intros (e & I & H); exists e; split; auto.
  - now apply andb_true_iff in H; rewrite Nat.eqb_eq, Z.eqb_eq in H.
  - now rewrite andb_true_iff, Nat.eqb_eq, Z.eqb_eq.
Qed.

Lemma is_one_of_In l x : is_one_of l x = true <-> In x l.
Proof. unfold is_one_of. rewrite existsb_exists. split; [intros (y & I & E); apply Z.eqb_eq in E; now subst|intro I; exists x; split; [assumption|apply Z.eqb_refl]]. Qed.

Lemma targets_In ts q v r : In r (targets ts q v) <-> In (q, v, r) ts.
Proof.
  unfold targets. rewrite in_map_iff. split.
  - intros ([[p x] r'] & E & I). apply filter_In in I. destruct I as [I H]. apply andb_true_iff in H. rewrite !Z.eqb_eq in H. simpl in E. destruct H as [-> ->]. now subst.
  - intro I. exists (q, v, r). split; [reflexivity|]. apply filter_In. split; [assumption|]. now rewrite !Z.eqb_refl.
Qed.

Lemma read_write_edges g : read_edges (flat_map write_edge g) = g.
Proof. induction g as [|[i q v r] g IH]; simpl; [reflexivity|]. now rewrite Nat2Z.id, IH. Qed.

(** ** Taking edges away *)

Lemma fold_smaller (f : graph -> edge -> graph) es : (forall g e, In e es -> incl (f g e) g) -> forall g, incl (fold_left f es g) g.
Proof.
  induction es as [|e r IH]; intros H g; simpl; [apply incl_refl|]. eapply incl_tran; [apply IH; intros; apply H; now right|]. apply H. now left.
Qed.

Lemma fold_gone (f : graph -> edge -> graph) es : (forall g e, In e es -> incl (f g e) (remove_edge e g)) -> forall g e, In e es -> ~ In e (fold_left f es g).
Proof.
  induction es as [|e0 r IH]; intros H g e I; [destruct I|]. simpl.
  assert (Hr : forall g e, In e r -> incl (f g e) (remove_edge e g)) by (intros; apply H; now right).
  destruct I as [->|I]; [|now apply IH].
  intro J. apply (fold_smaller f r) in J.
  - apply (H g e (or_introl eq_refl)) in J. apply remove_edge_In in J. tauto.
  - intros g' e' I' x Hx. apply (Hr g' e' I') in Hx. now apply remove_edge_In in Hx.
Qed.

Lemma fold_inv (P : graph -> Prop) (f : graph -> edge -> graph) es : (forall g e, In e es -> P g -> P (f g e)) -> forall g, P g -> P (fold_left f es g).
Proof. induction es as [|e r IH]; intros H g Pg; simpl; [assumption|]. apply IH; [intros; apply H; auto; now right|]. apply H; [now left|assumption]. Qed.

Lemma remove_incl e g : incl (remove_edge e g) g.
Proof. intros f I. now apply remove_edge_In in I. Qed.

Lemma drop_back_incl i : forall k g, incl (drop_back i k g) g.
Proof.
  induction i as [|j IH]; intros k g; cbn [drop_back]; [apply incl_refl|]. destruct (out_edges (S j) k g); [|apply incl_refl].
  apply fold_smaller. intros g' e _. eapply incl_tran; [apply IH|apply remove_incl].
Qed.

Lemma drop_ahead_incl left : forall i k g, incl (drop_ahead left i k g) g.
Proof.
  induction left as [|l IH]; intros i k g; cbn [drop_ahead]; [apply incl_refl|]. destruct (in_edges i k g); [|apply incl_refl].
  apply fold_smaller. intros g' e _. eapply incl_tran; [apply IH|apply remove_incl].
Qed.

Lemma drop_edge_incl n g e : incl (drop_edge n g e) (remove_edge e g).
Proof. unfold drop_edge. eapply incl_tran; [apply drop_ahead_incl|apply drop_back_incl]. Qed.

Definition into (i : nat) (k : Z) (e : edge) : Prop := S (ed_at e) = i /\ ed_to e = k.
Definition out_of (i : nat) (k : Z) (e : edge) : Prop := ed_at e = i /\ ed_from e = k.

Section Trim.
  Context (n : nat) (final : list Z).

  (** The edge is continued, to the last layer or by another edge. *)
  Definition goes_on (g : graph) (e : edge) : Prop := (S (ed_at e) = n /\ In (ed_to e) final) \/ exists f, In f g /\ out_of (S (ed_at e)) (ed_to e) f.

  (** It can be come to. *)
  Definition comes_from (g : graph) (e : edge) : Prop := (ed_at e = 0%nat /\ ed_from e = 0) \/ exists f, In f g /\ into (ed_at e) (ed_from e) f.

  Definition early (g : graph) : Prop := forall e, In e g -> (ed_at e < n)%nat.

  Lemma early_incl g g' : incl g' g -> early g -> early g'.
  Proof. intros I E e H. apply E. now apply I. Qed.

  Lemma goes_on_remove g e f : goes_on g f -> goes_on (remove_edge e g) f \/ into (ed_at e) (ed_from e) f.
  Proof.
    intros [H|(h & I & Ho)]; [left; now left|]. destruct (edge_eqb e h) eqn:E.
    - apply edge_eqb_spec in E. subst h. right. destruct Ho as [-> ->]. now split.
    - left. right. exists h. split; [|assumption]. apply remove_edge_In. split; [assumption|]. intros ->. assert (edge_eqb e e = true) by now apply edge_eqb_spec. congruence.
  Qed.

  Lemma comes_from_remove g e f : comes_from g f -> comes_from (remove_edge e g) f \/ out_of (S (ed_at e)) (ed_to e) f.
  Proof.
    intros [H|(h & I & Ho)]; [left; now left|]. destruct (edge_eqb e h) eqn:E.
    - apply edge_eqb_spec in E. subst h. right. destruct Ho as [H1 H2]. now split.
    - left. right. exists h. split; [|assumption]. apply remove_edge_In. split; [assumption|]. intros ->. assert (edge_eqb e e = true) by now apply edge_eqb_spec. congruence.
  Qed.

  (** *** Backwards *)

  Lemma drop_back_goes_on i : forall k g (X : edge -> Prop),
    (forall e, In e g -> into i k e \/ goes_on g e \/ X e) ->
    forall e, In e (drop_back i k g) -> goes_on (drop_back i k g) e \/ X e.
  Proof.
    induction i as [|j IH]; intros k g X H.
    - cbn [drop_back]. intros e I. destruct (H e I) as [[H1 _]|H1]; [discriminate|assumption].
    - cbn [drop_back]. destruct (out_edges (S j) k g) as [|o os] eqn:Eo.
      + set (f := fun g e => drop_back j (ed_from e) (remove_edge e g)). set (es := in_edges (S j) k g).
        assert (P : forall g', incl g' g -> (forall e, In e g' -> into (S j) k e \/ goes_on g' e \/ X e) ->
           incl (fold_left f es g') g /\ forall e, In e (fold_left f es g') -> into (S j) k e \/ goes_on (fold_left f es g') e \/ X e).
        { intros g' I' H'. apply (fold_inv (fun g' => incl g' g /\ forall e, In e g' -> into (S j) k e \/ goes_on g' e \/ X e)); [|now split].
          intros g1 e I1 [Ig Hg]. split; [eapply incl_tran; [apply drop_back_incl|]; eapply incl_tran; [apply remove_incl|assumption]|].
          intros e1 Ie1. destruct (IH (ed_from e) (remove_edge e g1) (fun e => into (S j) k e \/ X e)) with (e := e1) as [G|[G|G]]; [|exact Ie1|right; now left|now left|right; now right].
          intros e2 I2. assert (I2' := I2). apply remove_edge_In in I2'. destruct I2' as [I2' _]. apply in_edges_In in I1. destruct I1 as (_ & A & _). injection A as A.
          destruct (Hg e2 I2') as [G|[G|G]]; [right; right; now left| |right; right; now right].
          destruct (goes_on_remove g1 e e2 G) as [G1|G1]; [right; now left|]. left. now rewrite A in G1. }
        destruct (P g (incl_refl g) H) as [Ig Hg]. fold es. change (forall e, In e (fold_left f es g) -> goes_on (fold_left f es g) e \/ X e).
        intros e I. destruct (Hg e I) as [G|G]; [|assumption]. exfalso. apply (fold_gone f es) with (g := g) (e := e); [|apply in_edges_In; split; [now apply Ig|exact G]|exact I].
        intros g' e' _. apply drop_back_incl.
      + intros e I. destruct (H e I) as [[A B]|H1]; [|assumption]. left. right. exists o. assert (Io : In o (out_edges (S j) k g)) by (rewrite Eo; now left).
        apply out_edges_In in Io. destruct Io as (Ig & B1 & B2). split; [assumption|]. split; congruence.
  Qed.

  Lemma drop_back_comes_from i : forall k g (X : edge -> Prop),
    (forall e, In e g -> comes_from g e \/ X e) -> forall e, In e (drop_back i k g) -> comes_from (drop_back i k g) e \/ X e.
  Proof.
    induction i as [|j IH]; intros k g X H; cbn [drop_back]; [assumption|]. destruct (out_edges (S j) k g) as [|o os] eqn:Eo; [|assumption].
    apply (fold_inv (fun g' => incl g' g /\ forall e, In e g' -> comes_from g' e \/ X e)); [|split; [apply incl_refl|assumption]].
    intros g1 e I1 [Ig Hg]. split; [eapply incl_tran; [apply drop_back_incl|]; eapply incl_tran; [apply remove_incl|assumption]|].
    apply IH. intros e1 Ie1. apply remove_edge_In in Ie1. destruct Ie1 as [Ie1 _]. destruct (Hg e1 Ie1) as [G|G]; [|now right].
    destruct (comes_from_remove g1 e e1 G) as [G1|[G1 G2]]; [now left|]. exfalso. apply in_edges_In in I1. destruct I1 as (_ & A & B).
    assert (Io : In e1 (out_edges (S j) k g)) by (apply out_edges_In; split; [now apply Ig|]; split; congruence). rewrite Eo in Io. destruct Io.
  Qed.

  (** *** Forwards *)

  Lemma drop_ahead_comes_from left : forall i k g (X : edge -> Prop), (left + i = n)%nat -> early g ->
    (forall e, In e g -> out_of i k e \/ comes_from g e \/ X e) ->
    forall e, In e (drop_ahead left i k g) -> comes_from (drop_ahead left i k g) e \/ X e.
  Proof.
    induction left as [|l IH]; intros i k g X Hn Er H.
    - cbn [drop_ahead]. intros e I. destruct (H e I) as [[H1 _]|H1]; [|assumption]. apply Er in I. lia.
    - cbn [drop_ahead]. destruct (in_edges i k g) as [|o os] eqn:Eo.
      + set (f := fun g e => drop_ahead l (S i) (ed_to e) (remove_edge e g)). set (es := out_edges i k g).
        assert (P : incl (fold_left f es g) g /\ forall e, In e (fold_left f es g) -> out_of i k e \/ comes_from (fold_left f es g) e \/ X e).
        { apply (fold_inv (fun g' => incl g' g /\ forall e, In e g' -> out_of i k e \/ comes_from g' e \/ X e)); [|split; [apply incl_refl|assumption]].
          intros g1 e I1 [Ig Hg]. split; [eapply incl_tran; [apply drop_ahead_incl|]; eapply incl_tran; [apply remove_incl|assumption]|].
          intros e1 Ie1. destruct (IH (S i) (ed_to e) (remove_edge e g1) (fun e => out_of i k e \/ X e)) with (e := e1) as [G|[G|G]]; [lia| | |exact Ie1|right; now left|now left|right; now right].
          - apply (early_incl g); [|assumption]. eapply incl_tran; [apply remove_incl|assumption].
          - intros e2 I2. assert (I2' := I2). apply remove_edge_In in I2'. destruct I2' as [I2' _]. apply out_edges_In in I1. destruct I1 as (_ & A & _).
            destruct (Hg e2 I2') as [G|[G|G]]; [right; right; now left| |right; right; now right].
            destruct (comes_from_remove g1 e e2 G) as [G1|G1]; [right; now left|]. left. now rewrite A in G1. }
        destruct P as [Ig Hg]. change (forall e, In e (fold_left f es g) -> comes_from (fold_left f es g) e \/ X e).
        intros e I. destruct (Hg e I) as [G|G]; [|assumption]. exfalso. apply (fold_gone f es) with (g := g) (e := e); [|apply out_edges_In; split; [now apply Ig|exact G]|exact I].
        intros g' e' _. apply drop_ahead_incl.
      + intros e I. destruct (H e I) as [[A B]|H1]; [|assumption]. left. right. exists o. assert (Io : In o (in_edges i k g)) by (rewrite Eo; now left).
        apply in_edges_In in Io. destruct Io as (Ig & B1 & B2). split; [assumption|]. split; congruence.
  Qed.

  Lemma drop_ahead_goes_on left : forall i k g (X : edge -> Prop),
    (forall e, In e g -> goes_on g e \/ X e) -> forall e, In e (drop_ahead left i k g) -> goes_on (drop_ahead left i k g) e \/ X e.
  Proof.
    induction left as [|l IH]; intros i k g X H; cbn [drop_ahead]; [assumption|]. destruct (in_edges i k g) as [|o os] eqn:Eo; [|assumption].
    apply (fold_inv (fun g' => incl g' g /\ forall e, In e g' -> goes_on g' e \/ X e)); [|split; [apply incl_refl|assumption]].
    intros g1 e I1 [Ig Hg]. split; [eapply incl_tran; [apply drop_ahead_incl|]; eapply incl_tran; [apply remove_incl|assumption]|].
    apply IH. intros e1 Ie1. apply remove_edge_In in Ie1. destruct Ie1 as [Ie1 _]. destruct (Hg e1 Ie1) as [G|G]; [|now right].
    destruct (goes_on_remove g1 e e1 G) as [G1|[G1 G2]]; [now left|]. exfalso. apply out_edges_In in I1. destruct I1 as (_ & A & B).
    assert (Io : In e1 (in_edges i k g)) by (apply in_edges_In; split; [now apply Ig|]; split; congruence). rewrite Eo in Io. destruct Io.
  Qed.

  (** *** Together *)

  Definition trimmed (g : graph) : Prop := early g /\ forall e, In e g -> goes_on g e /\ comes_from g e.

  Lemma drop_edge_trimmed g e : In e g \/ (ed_at e < n)%nat -> trimmed g -> trimmed (drop_edge n g e).
  Proof.
    intros Ie [Er T]. assert (Ea : (ed_at e < n)%nat) by (destruct Ie as [Ie|Ie]; [now apply Er|assumption]).
    assert (Er' : early (drop_edge n g e)) by (apply (early_incl g); [eapply incl_tran; [apply drop_edge_incl|apply remove_incl]|assumption]).
    split; [assumption|]. unfold drop_edge in *. set (g1 := remove_edge e g) in *. set (g2 := drop_back (ed_at e) (ed_from e) g1) in *.
    assert (G2 : forall f, In f g2 -> goes_on g2 f \/ False).
    { apply drop_back_goes_on. intros f I. apply remove_edge_In in I. destruct I as [I _]. destruct (goes_on_remove g e f (proj1 (T f I))); [right; now left|now left]. }
    assert (C2 : forall f, In f g2 -> comes_from g2 f \/ out_of (S (ed_at e)) (ed_to e) f).
    { apply drop_back_comes_from. intros f I. apply remove_edge_In in I. destruct I as [I _]. apply (comes_from_remove g e f (proj2 (T f I))). }
    intros f I. split.
    - destruct (drop_ahead_goes_on (n - S (ed_at e)) (S (ed_at e)) (ed_to e) g2 (fun _ => False) G2 f I); tauto.
    - destruct (drop_ahead_comes_from (n - S (ed_at e)) (S (ed_at e)) (ed_to e) g2 (fun _ => False)) with (e := f); try tauto; [lia| |].
      + apply (early_incl g); [|assumption]. eapply incl_tran; [apply drop_back_incl|apply remove_incl].
      + intros h Ih. destruct (C2 h Ih); tauto.
  Qed.

  Lemma refresh_layer_trimmed d i v g : trimmed g -> trimmed (refresh_layer d n g (i, v)).
  Proof.
    intro T. unfold refresh_layer. apply (fold_inv trimmed); [|assumption]. intros g' e I T'. apply drop_edge_trimmed; [|assumption]. right. apply filter_In in I. now apply (proj1 T).
  Qed.

  (** What must not be taken away: each continued and come to by another. *)
  Section Keep.
    Context (L : edge -> Prop) (Ahead : forall e, L e -> (S (ed_at e) < n)%nat -> exists f, L f /\ out_of (S (ed_at e)) (ed_to e) f)
      (Back : forall e, L e -> (0 < ed_at e)%nat -> exists f, L f /\ into (ed_at e) (ed_from e) f).

    Definition kept (g : graph) : Prop := forall e, L e -> In e g.

    Lemma kept_remove g e : ~ L e -> kept g -> kept (remove_edge e g).
    Proof. intros N K f Lf. apply remove_edge_In. split; [now apply K|]. congruence. Qed.

    Lemma drop_back_kept i : forall k g, (i < n)%nat -> kept g -> kept (drop_back i k g).
    Proof.
      induction i as [|j IH]; intros k g Hi K; cbn [drop_back]; [assumption|]. destruct (out_edges (S j) k g) as [|o os] eqn:Eo; [|assumption].
      apply (fold_inv kept); [|assumption]. intros g' e I K'. apply IH; [lia|]. apply kept_remove; [|assumption]. intro Le.
      apply in_edges_In in I. destruct I as (_ & A & B). destruct (Ahead e Le) as (f & Lf & F1 & F2); [lia|].
      assert (Io : In f (out_edges (S j) k g)) by (apply out_edges_In; split; [now apply K|]; split; congruence). rewrite Eo in Io. destruct Io.
    Qed.

    Lemma drop_ahead_kept left : forall i k g, (0 < i)%nat -> kept g -> kept (drop_ahead left i k g).
    Proof.
      induction left as [|l IH]; intros i k g Hi K; cbn [drop_ahead]; [assumption|]. destruct (in_edges i k g) as [|o os] eqn:Eo; [|assumption].
      apply (fold_inv kept); [|assumption]. intros g' e I K'. apply IH; [lia|]. apply kept_remove; [|assumption]. intro Le.
      apply out_edges_In in I. destruct I as (_ & A & B). destruct (Back e Le) as (f & Lf & F1 & F2); [lia|].
      assert (Io : In f (in_edges i k g)) by (apply in_edges_In; split; [now apply K|]; split; congruence). rewrite Eo in Io. destruct Io.
    Qed.

    Lemma drop_edge_kept g e : (ed_at e < n)%nat -> ~ L e -> kept g -> kept (drop_edge n g e).
    Proof. intros H N K. apply drop_ahead_kept; [lia|]. apply drop_back_kept; [assumption|]. now apply kept_remove. Qed.
  End Keep.
End Trim.

(** ** Paths *)

Section Paths.
  Context (trans : nat -> list arrow) (final : list Z).

  (** A path from a state of a layer. *)
  Inductive path : nat -> Z -> list edge -> Z -> Prop :=
  | path_stop i q : path i q [] q
  | path_step i q v r es f : In (q, v, r) (trans i) -> path (S i) r es f -> path i q (mk_edge i q v r :: es) f.

  Lemma path_at i q es f : path i q es f -> forall k e, nth_error es k = Some e -> ed_at e = (i + k)%nat /\ In (ed_from e, ed_by e, ed_to e) (trans (ed_at e)).
  Proof.
    induction 1 as [i q|i q v r es f T P IH]; intros k e E; [destruct k; discriminate|].
    destruct k as [|k]; simpl in E; [injection E as <-; simpl; split; [lia|assumption]|]. destruct (IH k e E) as [A B]. split; [lia|assumption].
  Qed.

  Lemma path_next i q es f : path i q es f -> forall k e, nth_error es k = Some e ->
    (S k = length es /\ ed_to e = f) \/ exists e', nth_error es (S k) = Some e' /\ out_of (S (ed_at e)) (ed_to e) e'.
  Proof.
    induction 1 as [i q|i q v r es f T P IH]; intros k e E; [destruct k; discriminate|].
    destruct k as [|k]; simpl in E.
    - injection E as <-. simpl. inversion P as [|i' q' v' r' es' f' T' P']; subst; [left; auto|]. right. eexists. split; [reflexivity|]. split; reflexivity.
    - destruct (IH k e E) as [[A B]|(e' & A & B)]; [left; simpl; split; [lia|assumption]|right; exists e'; auto].
  Qed.

  Lemma path_first i q es f e : path i q es f -> nth_error es 0 = Some e -> ed_from e = q.
  Proof. destruct 1; simpl; [discriminate|]. intros [= <-]. reflexivity. Qed.

  Lemma path_prev i q es f : path i q es f -> forall k e, nth_error es (S k) = Some e -> exists e', nth_error es k = Some e' /\ into (ed_at e) (ed_from e) e'.
  Proof.
    intros P k e E. assert (H : exists e', nth_error es k = Some e') by (destruct (nth_error es k) as [e'|] eqn:E'; [eauto|]; apply nth_error_None in E'; assert (S k < length es)%nat by (apply nth_error_Some; congruence); lia).
    destruct H as (e' & E'). exists e'. split; [assumption|]. destruct (path_next i q es f P k e' E') as [[A _]|(e2 & A & B1 & B2)].
    - assert (S k < length es)%nat by (apply nth_error_Some; congruence). lia.
    - rewrite E in A. injection A as <-. split; congruence.
  Qed.

  Definition accepting (n : nat) (es : list edge) : Prop := length es = n /\ exists f, path 0 0 es f /\ In f final.

  Definition word (es : list edge) : list Z := map ed_by es.

  (** Which edges are on an accepting path of possible values. *)
  Definition useful (n : nat) (ok : nat -> Z -> Prop) (e : edge) : Prop :=
    exists es, accepting n es /\ (forall k f, nth_error es k = Some f -> ok k (ed_by f)) /\ In e es.

  Lemma useful_real n ok e : useful n ok e -> (ed_at e < n)%nat /\ In (ed_from e, ed_by e, ed_to e) (trans (ed_at e)) /\ ok (ed_at e) (ed_by e).
  Proof.
    intros (es & (L & f & P & F) & K & I). apply In_nth_error in I. destruct I as (k & E). destruct (path_at _ _ _ _ P k e E) as [A B]. simpl in A.
    split; [|split; [assumption|rewrite A; now apply (K k)]]. rewrite A, <- L. apply nth_error_Some. congruence.
  Qed.

  Lemma useful_ahead n ok e : useful n ok e -> (S (ed_at e) < n)%nat -> exists f, useful n ok f /\ out_of (S (ed_at e)) (ed_to e) f.
  Proof.
    intros (es & A & K & I) H. assert (A' := A). destruct A' as (L & f & P & F). apply In_nth_error in I. destruct I as (k & E).
    destruct (path_at _ _ _ _ P k e E) as [B _]. simpl in B. destruct (path_next _ _ _ _ P k e E) as [[C _]|(e' & C & D)]; [lia|].
    exists e'. split; [|assumption]. exists es. split; [assumption|]. split; [assumption|]. now apply nth_error_In in C.
  Qed.

  Lemma useful_back n ok e : useful n ok e -> (0 < ed_at e)%nat -> exists f, useful n ok f /\ into (ed_at e) (ed_from e) f.
  Proof.
    intros (es & A & K & I) H. assert (A' := A). destruct A' as (L & f & P & F). apply In_nth_error in I. destruct I as (k & E).
    destruct (path_at _ _ _ _ P k e E) as [B _]. simpl in B. destruct k as [|k]; [lia|]. destruct (path_prev _ _ _ _ P k e E) as (e' & C & D).
    exists e'. split; [|assumption]. exists es. split; [assumption|]. split; [assumption|]. now apply nth_error_In in C.
  Qed.

  Lemma path_app i q es r es' f : path i q es r -> path (i + length es) r es' f -> path i q (es ++ es') f.
  Proof.
    induction 1 as [i q|i q v r es f' T P IH]; simpl; intro Q; [now rewrite Nat.add_0_r in Q|]. constructor; [assumption|]. apply IH. now rewrite Nat.add_succ_comm.
  Qed.

  (** *** Each edge of a trimmed graph is on an accepting path within it *)

  Definition real (g : graph) : Prop := forall e, In e g -> In (ed_from e, ed_by e, ed_to e) (trans (ed_at e)).

  Lemma path_on n g : trimmed n final g -> real g -> forall k e, In e g -> (S (ed_at e) + k = n)%nat ->
    exists es f, path (S (ed_at e)) (ed_to e) es f /\ length es = k /\ incl es g /\ In f final.
  Proof.
    intros [Er T] R. induction k as [|k IH]; intros e I H.
    - exists [], (ed_to e). split; [constructor|]. split; [reflexivity|]. split; [apply incl_nil_l|]. destruct (proj1 (T e I)) as [[_ F]|(f & If & A & _)]; [assumption|]. apply Er in If. lia.
    - destruct (proj1 (T e I)) as [[A _]|(f & If & A & B)]; [lia|]. destruct (IH f If) as (es & fin & P & Le & Ie & F); [lia|].
      exists (f :: es), fin. split; [|split; [simpl; congruence|split; [|assumption]]].
      + destruct f as [i q v r]. simpl in *. subst i q. constructor; [apply (R _ If)|]. exact P.
      + intros x [<-|Ix]; auto.
  Qed.

  Lemma path_to n g : trimmed n final g -> real g -> forall k e, In e g -> ed_at e = k ->
    exists es, path 0 0 es (ed_from e) /\ length es = k /\ incl es g.
  Proof.
    intros [Er T] R. induction k as [|k IH]; intros e I H.
    - exists []. destruct (proj2 (T e I)) as [[_ F]|(f & If & A & _)]; [|lia]. rewrite F. split; [constructor|]. split; [reflexivity|apply incl_nil_l].
    - destruct (proj2 (T e I)) as [[A _]|(f & If & A & B)]; [lia|]. destruct (IH f If) as (es & P & Le & Ie); [lia|].
      exists (es ++ [f]). split; [|split; [rewrite app_length; simpl; lia|]].
      + apply (path_app _ _ _ _ _ _ P). simpl. rewrite Le. destruct f as [i q v r]. simpl in *. assert (i = k) by lia. subst i r. constructor; [apply (R _ If)|constructor].
      + apply incl_app; [assumption|]. intros x [<-|[]]. assumption.
  Qed.

  Lemma path_through n g e : trimmed n final g -> real g -> In e g -> exists es, accepting n es /\ incl es g /\ nth_error es (ed_at e) = Some e.
  Proof.
    intros T R I. assert (H := proj1 T e I). destruct (path_to n g T R (ed_at e) e I eq_refl) as (es & P & L & Ie).
    destruct (path_on n g T R (n - S (ed_at e)) e I) as (es' & f & P' & L' & Ie' & F); [lia|].
    exists (es ++ e :: es'). split; [|split].
    - split; [rewrite app_length; simpl; lia|]. exists f. split; [|assumption]. apply (path_app _ _ _ _ _ _ P). simpl. rewrite L.
      assert (Re := R e I). destruct e as [i q v r]. simpl in *. now constructor.
    - apply incl_app; [assumption|]. intros x [<-|Ix]; auto.
    - rewrite nth_error_app2 by lia. rewrite L, Nat.sub_diag. reflexivity.
  Qed.

  Lemma accepting_ext n (ok : nat -> Z -> Prop) g : trimmed n final g -> real g -> (forall e, In e g -> ok (ed_at e) (ed_by e)) -> forall e, In e g -> useful n ok e.
  Proof.
    intros T R V e I. destruct (path_through n g e T R I) as (es & A & J & E). exists es. split; [assumption|]. split; [|now apply nth_error_In in E].
    intros k f Ef. destruct A as (_ & fin & P & _). destruct (path_at _ _ _ _ P k f Ef) as [B _]. simpl in B. rewrite <- B. apply V. apply J. now apply nth_error_In in Ef.
  Qed.

  (** *** The first graph *)

  Definition listed_values (doms : list (list Z)) (i : nat) (v : Z) : Prop := exists vals, nth_error doms i = Some vals /\ In v vals.

  (** Following forward from the states of this layer gives all that can be reached. *)
  Lemma forward_length doms : forall i now, length (forward trans i doms now) = S (length doms).
  Proof. induction doms as [|vals r IH]; intros i now; cbn [forward length]; [reflexivity|]. now rewrite IH. Qed.

  (** What is built backwards: the edges, and the states that have one. *)
  Lemma backward_edges doms : forall i now e, In e (fst (backward trans final i doms (forward trans i doms now))) ->
    (i <= ed_at e < i + length doms)%nat /\ In (ed_from e, ed_by e, ed_to e) (trans (ed_at e)) /\ listed_values doms (ed_at e - i) (ed_by e).
  Proof.
    induction doms as [|vals r IH]; intros i now e I; [destruct I|]. cbn [forward backward] in I.
    set (next := nodup Z.eq_dec _) in I. specialize (IH (S i) next).
    destruct (backward trans final (S i) r (forward trans (S i) r next)) as [g alive] eqn:B. cbn [fst] in I, IH. apply in_app_or in I. destruct I as [I|I].
    - apply in_flat_map in I. destruct I as (v & Iv & I). apply in_flat_map in I. destruct I as (q & Iq & I). apply in_map_iff in I. destruct I as (t & <- & I).
      apply filter_In in I. destruct I as [I _]. apply targets_In in I. simpl. split; [lia|]. split; [assumption|]. rewrite Nat.sub_diag. exists vals. auto.
    - destruct (IH e I) as (A & B1 & vs & C & D). split; [simpl; lia|]. split; [assumption|]. exists vs. split; [|assumption]. replace (ed_at e - i)%nat with (S (ed_at e - S i)) by lia. exact C.
  Qed.

  Lemma backward_alive doms : forall i now q, In q (snd (backward trans final i doms (forward trans i doms now))) -> In q now.
  Proof.
    destruct doms as [|vals r]; intros i now q I; cbn [forward backward] in I; [cbn [snd] in I; now apply filter_In in I|].
    match type of I with context [backward ?a ?b ?c ?d ?e] => destruct (backward a b c d e) end. cbn [snd] in I. now apply filter_In in I.
  Qed.

  (** Each alive state is at an end or has an edge; every edge out of this layer is from
      one of its alive states, and leads to one of the next. *)
  Lemma backward_trim doms : forall i now, let '(g, alive) := backward trans final i doms (forward trans i doms now) in
    (forall q, In q alive -> In q now /\ ((doms = [] /\ In q final) \/ exists e, In e g /\ out_of i q e)) /\
    (forall e, In e g -> goes_on (i + length doms) final g e /\ (ed_at e = i /\ In (ed_from e) alive \/ exists f, In f g /\ into (ed_at e) (ed_from e) f)).
  Proof.
    induction doms as [|vals r IH]; intros i now.
    - cbn [forward backward]. split; [|intros e []]. intros q I. apply filter_In in I. destruct I as [I F]. apply is_one_of_In in F. auto.
    - cbn [forward backward]. set (next := nodup Z.eq_dec _). specialize (IH (S i) next).
      destruct (backward trans final (S i) r (forward trans (S i) r next)) as [g alive]. destruct IH as [Ha Hg].
      set (out := flat_map _ vals).
      assert (Out : forall e, In e out -> ed_at e = i /\ In (ed_from e) now /\ In (ed_to e) alive).
      { intros e I. apply in_flat_map in I. destruct I as (v & Iv & I). apply in_flat_map in I. destruct I as (q & Iq & I). apply in_map_iff in I. destruct I as (t & <- & I).
        apply filter_In in I. destruct I as [_ I]. apply is_one_of_In in I. simpl. auto. }
      assert (Meet : forall q, In q alive -> exists f, In f out /\ into (S i) q f).
      { intros q I. destruct (Ha q I) as [In1 _]. apply nodup_In in In1. apply in_flat_map in In1. destruct In1 as (v & Iv & In1). apply in_flat_map in In1. destruct In1 as (p & Ip & In1).
        exists (mk_edge i p v q). split; [|split; reflexivity]. apply in_flat_map. exists v. split; [assumption|]. apply in_flat_map. exists p. split; [assumption|].
        apply in_map. apply filter_In. split; [assumption|]. now apply is_one_of_In. }
      split.
      + intros q I. apply filter_In in I. destruct I as [I E]. split; [assumption|]. right. apply existsb_exists in E. destruct E as (e & Ie & E). apply Z.eqb_eq in E.
        exists e. split; [apply in_or_app; now left|]. split; [now apply Out|assumption].
      + intros e I. simpl length. rewrite Nat.add_succ_r. apply in_app_or in I. destruct I as [I|I].
        * destruct (Out e I) as (A & B & C). split.
          -- destruct (Ha (ed_to e) C) as [_ [[-> F]|(f & If & G)]].
             ++ left. rewrite A. simpl. split; [lia|assumption].
             ++ right. exists f. split; [apply in_or_app; now right|]. now rewrite A.
          -- left. split; [assumption|]. apply filter_In. split; [assumption|]. apply existsb_exists. exists e. split; [assumption|apply Z.eqb_refl].
        * destruct (Hg e I) as [G1 G2]. rewrite Nat.add_succ_l in G1. split.
          -- destruct G1 as [G1|(f & If & G1)]; [now left|]. right. exists f. split; [apply in_or_app; now right|assumption].
          -- right. destruct G2 as [[A B]|(f & If & G2)].
             ++ destruct (Meet _ B) as (f & If & M). exists f. split; [apply in_or_app; now left|]. now rewrite A.
             ++ exists f. split; [apply in_or_app; now right|assumption].
  Qed.

  (** No accepting path is lost. *)
  Lemma backward_complete doms : forall i now q es f, In q now -> path i q es f -> In f final -> length es = length doms ->
    (forall k e, nth_error es k = Some e -> listed_values doms k (ed_by e)) ->
    incl es (fst (backward trans final i doms (forward trans i doms now))) /\ In q (snd (backward trans final i doms (forward trans i doms now))).
  Proof.
    induction doms as [|vals r IH]; intros i now q es f Iq P F L V.
    - destruct es; [|discriminate L]. inversion P; subst. cbn [forward backward fst snd]. split; [apply incl_nil_l|]. apply filter_In. split; [assumption|]. now apply is_one_of_In.
    - destruct es as [|e es]; [discriminate L|]. inversion P as [|i' q' v t es' f' T P']; subst. cbn [forward backward]. set (next := nodup Z.eq_dec _).
      destruct (V 0%nat _ eq_refl) as (vs & E0 & Iv). simpl in E0. injection E0 as <-. simpl in Iv.
      destruct (IH (S i) next t es f) as [J Ja]; auto.
      { apply nodup_In. apply in_flat_map. exists v. split; [assumption|]. apply in_flat_map. exists q. split; [assumption|]. now apply targets_In. }
      { intros k e E. apply (V (S k) e). exact E. }
      destruct (backward trans final (S i) r (forward trans (S i) r next)) as [g alive]. cbn [fst snd] in *. set (out := flat_map _ vals).
      assert (Io : In (mk_edge i q v t) out).
      { apply in_flat_map. exists v. split; [assumption|]. apply in_flat_map. exists q. split; [assumption|]. apply in_map. apply filter_In. split; [now apply targets_In|now apply is_one_of_In]. }
      split.
      + intros e [<-|I]; apply in_or_app; [now left|right; now apply J].
      + apply filter_In. split; [assumption|]. apply existsb_exists. eexists. split; [exact Io|]. apply Z.eqb_refl.
  Qed.

  Lemma initial_trimmed doms : trimmed (length doms) final (initial_graph trans final doms).
  Proof.
    unfold initial_graph. pose proof (backward_edges doms 0 [0]) as B. pose proof (backward_trim doms 0 [0]) as T. pose proof (backward_alive doms 0 [0]) as A.
    destruct (backward trans final 0 doms (forward trans 0 doms [0])) as [g alive]. cbn [fst snd] in *. destruct T as [Ha Hg]. split.
    - intros e I. destruct (B e I) as (H & _). lia.
    - intros e I. destruct (Hg e I) as [G [[C D]|D]]; (split; [exact G|]); [left|right; exact D]. split; [assumption|]. destruct (A _ D) as [<-|[]]. reflexivity.
  Qed.

  Lemma initial_real doms : real (initial_graph trans final doms).
  Proof. intros e I. now apply backward_edges in I. Qed.

  Lemma initial_values doms e : In e (initial_graph trans final doms) -> listed_values doms (ed_at e) (ed_by e).
  Proof. intro I. apply backward_edges in I. destruct I as (_ & _ & I). now rewrite Nat.sub_0_r in I. Qed.

  Lemma initial_kept doms : kept (useful (length doms) (listed_values doms)) (initial_graph trans final doms).
  Proof.
    intros e (es & (L & f & P & F) & V & I). destruct (backward_complete doms 0 [0] 0 es f) as [J _]; auto. now left.
  Qed.
End Paths.

(** ** The propagator *)

Lemma numbered_In vars i v : In (i, v) (numbered vars) <-> nth_error vars i = Some v.
Proof. exact (positions_In vars i v). Qed.

Lemma word_members (D : domains) vars : forall es, length es = length vars ->
  (forall k w f, nth_error vars k = Some w -> nth_error es k = Some f -> view_member D w (ed_by f)) -> Forall2 (view_member D) vars (word es).
Proof.
  induction vars as [|w r IH]; intros [|f es] L At; try discriminate; constructor.
  - apply (At 0%nat); reflexivity.
  - apply IH; [now injection L|]. intros k. apply (At (S k)).
Qed.

Section Propagate.
  Context (trans : nat -> list arrow) (final : list Z) (vars : list var_id).

  Definition possible_at (d : domains) (k : nat) (x : Z) : Prop := exists v a, nth_error vars k = Some v /\ within a d /\ var_value a v = x.

  (** What is kept between runs. *)
  Definition sound_graph (d : domains) (g : graph) : Prop :=
    trimmed (length vars) final g /\ real trans g /\ kept (useful trans final (length vars) (possible_at d)) g.

  Definition layered_own (d : domains) (s : cstate) : Prop := s = [0] \/ exists g, s = write_graph g /\ sound_graph d g.

  Lemma useful_mono d d' e : inside d d' -> useful trans final (length vars) (possible_at d') e -> useful trans final (length vars) (possible_at d) e.
  Proof.
    intros I (es & A & V & Ie). exists es. split; [assumption|]. split; [|assumption]. intros k f E. destruct (V k f E) as (v & a & Ev & W & X). exists v, a. auto.
  Qed.

  Lemma layered_own_mono d d' s : inside d d' -> layered_own d s -> layered_own d' s.
  Proof.
    intros I [->|(g & -> & T & R & K)]; [now left|]. right. exists g. split; [reflexivity|]. split; [assumption|]. split; [assumption|]. intros e U. apply K. now apply (useful_mono d d').
  Qed.

  (** A solution is the word of an accepting path. *)
  Definition layered_sat (a : assignment) : Prop := exists es, accepting trans final (length vars) es /\ word es = map (var_value a) vars.

  Section Run.
    Context (nv : nat) (d : domains) (Hd : domains_ok d) (Ld : length d = nv) (B : Forall (var_below nv) vars).

    Let n := length vars.

    Lemma var_here i v : nth_error vars i = Some v -> var_below nv v.
    Proof. intro E. apply nth_error_In in E. rewrite Forall_forall in B. auto. Qed.

    Lemma possible_member i v x : nth_error vars i = Some v -> (possible_at d i x <-> view_member d v x).
    Proof.
      intro E. rewrite view_member_iff; [|assumption|apply (var_below_known nv); [assumption|now apply (var_here i)]]. split.
      - intros (w & a & Ew & W & X). rewrite E in Ew. injection Ew as <-. eauto.
      - intros (a & W & X). exists v, a. auto.
    Qed.

    Lemma stale_useless e v : nth_error vars (ed_at e) = Some v -> in_domain d v (ed_by e) = false -> ~ useful trans final n (possible_at d) e.
    Proof.
      intros E F U. apply useful_real in U. destruct U as (_ & _ & P). apply (possible_member _ v) in P; [|assumption].
      apply (in_domain_spec d v) in P; [congruence|assumption|]. apply (var_below_known nv); [assumption|now apply (var_here (ed_at e))].
    Qed.

    Lemma refresh_layer_sound g i v : nth_error vars i = Some v -> sound_graph d g ->
      let g' := refresh_layer d n g (i, v) in
      sound_graph d g' /\ incl g' g /\ forall e, In e g' -> ed_at e = i -> in_domain d v (ed_by e) = true.
    Proof.
      intros E (T & R & K) g'. unfold n, refresh_layer in *.
      assert (Ig : incl g' g) by (apply fold_smaller; intros g1 e _; eapply incl_tran; [apply drop_edge_incl|apply remove_incl]).
      split; [|split; [assumption|]].
      - split; [now apply refresh_layer_trimmed|]. split; [intros e I; apply R; now apply Ig|].
        apply (fold_inv (kept (useful trans final (length vars) (possible_at d)))); [|assumption]. intros g1 e I K1. apply filter_In in I. destruct I as [I F].
        apply andb_true_iff in F. destruct F as [F1 F2]. apply Nat.eqb_eq in F1. apply negb_true_iff in F2.
        apply drop_edge_kept; auto.
        + intros; now apply useful_ahead.
        + intros; now apply useful_back.
        + now apply (proj1 T).
        + apply (stale_useless e v); [now rewrite F1|assumption].
      - intros e I A. destruct (in_domain d v (ed_by e)) eqn:X; [reflexivity|]. exfalso.
        apply (fold_gone (drop_edge (length vars)) (filter (fun e => Nat.eqb (ed_at e) i && negb (in_domain d v (ed_by e))) g)) with (g := g) (e := e); [intros; apply drop_edge_incl| |exact I].
        apply filter_In. split; [now apply Ig|]. rewrite X. simpl. rewrite andb_true_r. now apply Nat.eqb_eq.
    Qed.

    Lemma refresh_sound g : sound_graph d g ->
      let g' := refresh d vars g in
      sound_graph d g' /\ forall e, In e g' -> possible_at d (ed_at e) (ed_by e).
    Proof.
      intros Sg g'. unfold refresh in g'. subst g'.
      assert (G : forall l g, (forall i v, In (i, v) l -> nth_error vars i = Some v) -> sound_graph d g ->
         let g' := fold_left (refresh_layer d n) l g in sound_graph d g' /\ incl g' g /\ forall i v e, In (i, v) l -> In e g' -> ed_at e = i -> in_domain d v (ed_by e) = true).
      { clear g Sg. induction l as [|[i v] r IH]; intros g H Sg; cbv zeta; cbn [fold_left]; [split; [assumption|split; [apply incl_refl|intros i v e []]]|].
        destruct (refresh_layer_sound g i v (H i v (or_introl eq_refl)) Sg) as (S1 & I1 & V1).
        destruct (IH (refresh_layer d n g (i, v))) as (S2 & I2 & V2); [intros; apply H; now right|assumption|].
        split; [assumption|]. split; [now apply (incl_tran I2)|]. intros i' v' e [[= <- <-]|J] Ie A; [|now apply (V2 i' v' e)]. apply (V1 e); [now apply I2|assumption]. }
      destruct (G (numbered vars) g) as (S1 & _ & V1); [intros i v I; now apply numbered_In|assumption|]. split; [assumption|].
      intros e I. assert (H : (ed_at e < length vars)%nat) by now apply (proj1 (proj1 S1)). apply nth_error_Some in H.
      destruct (nth_error vars (ed_at e)) as [v|] eqn:E; [|congruence]. apply (possible_member _ v); [assumption|].
      apply in_domain_spec; [assumption|apply (var_below_known nv); [assumption|now apply (var_here (ed_at e))]|]. apply (V1 (ed_at e) v e); auto. now apply numbered_In.
    Qed.

    Lemma initial_sound : sound_graph d (initial_graph trans final (map (each_value d) vars)).
    Proof.
      pose proof (initial_trimmed trans final (map (each_value d) vars)) as T. pose proof (initial_kept trans final (map (each_value d) vars)) as K. rewrite map_length in T, K.
      split; [exact T|]. split; [apply initial_real|]. intros e (es & A & V & I). apply K. exists es. split; [assumption|]. split; [|assumption].
      intros k f E. destruct (V k f E) as (v & a & Ev & W & X). exists (each_value d v). split; [now apply map_nth_error|]. apply each_value_In. apply (possible_member k); [assumption|]. exists v, a. auto.
    Qed.

    (** *** What is inferred from the graph *)

    Context (g : graph) (Sg : sound_graph d g) (Vg : forall e, In e g -> possible_at d (ed_at e) (ed_by e)).

    Lemma solution_supported a i v : within a d -> layered_sat a -> nth_error vars i = Some v -> supports_value g i (var_value a v) = true.
    Proof.
      intros W (es & A & Wd) E. apply supports_value_spec.
      assert (Ew : nth_error (word es) i = Some (var_value a v)) by (rewrite Wd; now apply map_nth_error).
      unfold word in Ew. rewrite nth_error_map in Ew. destruct (nth_error es i) as [e|] eqn:Ee; [|discriminate]. injection Ew as Ew. exists e.
      split; [|split; [|assumption]].
      - apply Sg. exists es. split; [assumption|]. split; [|now apply nth_error_In in Ee]. intros k f Ef.
        assert (Lk : (k < length vars)%nat) by (rewrite <- (proj1 A); apply nth_error_Some; congruence). apply nth_error_Some in Lk. destruct (nth_error vars k) as [w|] eqn:Ek; [|congruence].
        exists w, a. split; [assumption|]. split; [assumption|]. assert (X : nth_error (word es) k = Some (var_value a w)) by (rewrite Wd; now apply map_nth_error).
        unfold word in X. rewrite nth_error_map, Ef in X. now injection X as X.
      - destruct A as (_ & f & P & _). now apply (path_at _ _ _ _ _ P i e).
    Qed.

    Lemma prune_honest : honest nv d layered_sat (prune g vars (track d)).
    Proof.
      apply honest_for_each; auto; [|apply honest_track]. intros [i v] t I H. apply numbered_In in I. apply honest_for_each; auto. intros x t' _ H'.
      destruct (supports_value g i x) eqn:S; [assumption|]. apply honest_tell; auto; [now apply (var_here i)|]. intros _ _ _ a W _ Sa. simpl. intro Ex. change (var_value a v = x) in Ex. subst x.
      rewrite (solution_supported a i v W Sa I) in S. discriminate.
    Qed.

    Lemma prune_legit : legit nv d (prune g vars (track d)).
    Proof. apply prune_honest. Qed.

    Lemma pruned_supported a : live nv d (prune g vars (track d)) a -> forall i v, nth_error vars i = Some v -> supports_value g i (var_value a v) = true.
    Proof.
      intros Lv i v E.
      assert (Lt : forall i v x t, nth_error vars i = Some v -> later nv d t (if supports_value g i x then t else tell_ne v x t)).
      { intros j w x t Ej. destruct (supports_value g j x); [apply later_refl|]. apply later_tell; auto. now apply (var_here j). }
      apply (for_each_later nv d (fun iv => supports_value g (fst iv) (var_value a (snd iv)) = true) a) in Lv.
      - destruct Lv as [_ F]. rewrite Forall_forall in F. apply (F (i, v)). now apply numbered_In.
      - intros [j w] t I. apply numbered_In in I. apply later_for_each. intros x t' _. now apply Lt.
      - intros [j w] t I G L1 L0. apply numbered_In in I. cbn [fst snd].
        apply (for_each_later nv d (fun x => var_value a w = x -> supports_value g j x = true) a) in L1.
        + destruct L1 as [_ F]. rewrite Forall_forall in F. apply (F (var_value a w)); [|reflexivity]. apply value_listed.
          * now apply (live_ok nv d Hd Ld t a).
          * apply (var_below_known nv); [now apply (live_length nv d Hd Ld t a)|now apply (var_here j)].
          * apply L0.
        + intros x t' _. now apply Lt.
        + intros x t' _ G' L' _ Ex. destruct (supports_value g j x) eqn:S; [reflexivity|]. apply tell_back in L'; auto; [|now apply (var_here j)]. destruct L' as [_ L']. exfalso. apply L'. exact Ex.
        + exact G.
      - apply legit_track.
    Qed.

    (** Values that are supported stay, if no variable is behind two handles. *)
    Lemma pruned_stays i v x : NoDup (underlying_list vars) -> nth_error vars i = Some v -> supports_value g i x = true -> view_member d v x ->
      t_failed (prune g vars (track d)) = false -> view_member (t_domains (prune g vars (track d))) v x.
    Proof.
      intros ND E S M F. revert F.
      assert (G : legit nv d (prune g vars (track d)) /\ (t_failed (prune g vars (track d)) = false -> view_member (t_domains (prune g vars (track d))) v x)).
      { apply (for_each_ind (fun t => legit nv d t /\ (t_failed t = false -> view_member (t_domains t) v x))); [|split; [apply legit_track|auto]].
        intros [j w] t I H. apply numbered_In in I. apply (for_each_ind (fun t => legit nv d t /\ (t_failed t = false -> view_member (t_domains t) v x))); [|assumption].
        intros y t' _ [G' M']. destruct (supports_value g j y) eqn:S'; [now split|]. assert (Bw := var_here j w I). split; [now apply legit_tell|].
        intro F. assert (Ft : t_failed t' = false) by (unfold tell_ne, tell in F; destruct (t_failed t') eqn:X; [congruence|reflexivity]).
        destruct (Nat.eq_dec i j) as [<-|N].
        - rewrite E in I. injection I as <-. apply tell_ne_here with (nv := nv) (d := d); auto. split; [auto|]. intros ->. congruence.
        - apply (tell_elsewhere nv d Hd Ld); auto. now apply (unrelated_positions vars i j). }
      apply G.
    Qed.

    Lemma word_of es : accepting trans final n es -> incl es g -> forall a, (forall i v e, nth_error vars i = Some v -> nth_error es i = Some e -> var_value a v = ed_by e) -> layered_sat a.
    Proof.
      intros A I a H. exists es. split; [assumption|]. destruct A as [L _]. unfold word. apply nth_ext with (d := 0) (d' := 0); [now rewrite !map_length|].
      intros k Hk. rewrite map_length in Hk. assert (Hk' : (k < length vars)%nat) by (unfold n in L; lia).
      apply nth_error_Some in Hk. destruct (nth_error es k) as [e|] eqn:Ee; [|congruence]. apply nth_error_Some in Hk'. destruct (nth_error vars k) as [v|] eqn:Ev; [|congruence].
      rewrite (nth_error_nth (map ed_by es) k 0 (map_nth_error ed_by k es Ee)), (nth_error_nth (map (var_value a) vars) k 0 (map_nth_error (var_value a) k vars Ev)). symmetry. now apply (H k).
    Qed.

    Lemma pruned_checks a : vars <> [] -> Forall (fixed d) vars -> live nv d (prune g vars (track d)) a -> layered_sat a.
    Proof.
      intros Ne F Lv. assert (Wa := live_within nv d Hd Ld _ _ Lv). assert (E0 : exists v, nth_error vars 0 = Some v) by (destruct vars; [congruence|simpl; eauto]).
      destruct E0 as (v & E0). pose proof (pruned_supported a Lv 0 v E0) as S. apply supports_value_spec in S. destruct S as (e & Ie & A & _).
      destruct Sg as (T & R & _). destruct (path_through trans final n g e T R Ie) as (es & Ac & J & _).
      apply (word_of es Ac J). intros i w f Ew Ef. assert (If : In f g) by (apply J; now apply nth_error_In in Ef).
      destruct (Vg f If) as (w' & b & Ew' & Wb & Xb). destruct Ac as (_ & fin & P & _). destruct (path_at _ _ _ _ _ P i f Ef) as [Af _]. simpl in Af. rewrite Af, Ew in Ew'. injection Ew' as <-.
      rewrite Forall_forall in F. destruct (F w (nth_error_In _ _ Ew)) as (x & Fx). rewrite <- Xb, (Fx a Wa), (Fx b Wb). reflexivity.
    Qed.

    Lemma pruned_consistent : NoDup (underlying_list vars) -> t_failed (prune g vars (track d)) = false ->
      domain_consistent (t_domains (prune g vars (track d))) vars layered_sat.
    Proof.
      intros ND F v x I (a & W & <-). apply In_nth_error in I. destruct I as (i & E).
      assert (Lv : live nv d (prune g vars (track d)) a) by (split; [apply prune_legit|auto]).
      pose proof (pruned_supported a Lv i v E) as S. apply supports_value_spec in S. destruct S as (e & Ie & A & Be).
      destruct Sg as (T & R & _). destruct (path_through trans final n g e T R Ie) as (es & Ac & J & Ee). rewrite A in Ee.
      assert (L : length es = length vars) by apply Ac.
      assert (At : forall k w f, nth_error vars k = Some w -> nth_error es k = Some f -> view_member (t_domains (prune g vars (track d))) w (ed_by f)).
      { intros k w f Ew Ef. assert (If : In f g) by (apply J; now apply nth_error_In in Ef). destruct Ac as (_ & fin & P & _). destruct (path_at _ _ _ _ _ P k f Ef) as [Af _]. simpl in Af.
        apply (pruned_stays k); auto.
        - apply supports_value_spec. exists f. auto.
        - apply (possible_member k); [assumption|]. rewrite <- Af. now apply Vg. }
      destruct (choose_list (t_domains (prune g vars (track d))) vars (word es)) as (b & Wb & Xb).
      - now apply (legit_ok nv d Hd Ld _ prune_legit).
      - eapply Forall_impl; [|exact B]. intros w Bw. apply (var_below_known nv); [|assumption]. apply (legit_length nv d Hd Ld _ prune_legit).
      - assumption.
      - now apply word_members.
      - exists b. split; [assumption|]. split; [|exists es; split; [assumption|now symmetry]].
        assert (X : nth_error (map (var_value b) vars) i = Some (ed_by e)) by (rewrite Xb; unfold word; now apply map_nth_error). rewrite (map_nth_error _ _ _ E) in X. injection X as X. congruence.
    Qed.

    Lemma pruned_again : NoDup (underlying_list vars) -> t_failed (prune g vars (track d)) = false ->
      prune g vars (track (t_domains (prune g vars (track d)))) = track (t_domains (prune g vars (track d))).
    Proof.
      intros ND F. set (D := t_domains (prune g vars (track d))). apply for_each_same. intros [i v] I. apply numbered_In in I. apply for_each_same. intros x Ix. cbn [track t_domains] in Ix.
      apply each_value_In in Ix. apply view_member_iff in Ix; [|now apply (legit_ok nv d Hd Ld _ prune_legit)|apply (var_below_known nv); [apply (legit_length nv d Hd Ld _ prune_legit)|now apply (var_here i)]].
      destruct Ix as (a & W & <-). now rewrite (pruned_supported a (conj prune_legit (conj F W)) i v I).
    Qed.
  End Run.
End Propagate.

(** *** One run *)

Definition graph_at (trans : nat -> list arrow) (final : list Z) (vars : list var_id) (d : domains) (s : cstate) : graph :=
  match s with
  | 1 :: es => read_edges es
  | _ => initial_graph trans final (map (each_value d) vars)
  end.

Lemma graph_at_sound trans final vars nv d s : domains_ok d -> length d = nv -> Forall (var_below nv) vars -> layered_own trans final vars d s ->
  sound_graph trans final vars d (graph_at trans final vars d s).
Proof.
  intros Hd Ld B [->|(g & -> & S)]; simpl; [now apply (initial_sound trans final vars nv)|]. now rewrite read_write_edges.
Qed.

Lemma layered_body_cases checks trans final vars d s m : checks = true \/ vars <> [] ->
  (vars = [] /\ layered_body checks trans final vars d s m = mk_effect (if is_one_of final 0 then track d else tell_false (track d)) s m Enable) \/
  (vars <> [] /\ layered_body checks trans final vars d s m =
     mk_effect (prune (refresh d vars (graph_at trans final vars d s)) vars (track d)) (write_graph (refresh d vars (graph_at trans final vars d s))) m Enable).
Proof.
  intros [->|H]; unfold layered_body.
  - destruct vars; [left; auto|right; split; [discriminate|reflexivity]].
  - right. split; [assumption|]. destruct vars; [congruence|]. reflexivity.
Qed.

Lemma layered_empty trans final a : layered_sat trans final [] a <-> In 0 final.
Proof.
  split.
  - intros (es & (L & f & P & F) & _). destruct es; [|discriminate L]. inversion P; subst. assumption.
  - intro I. exists []. split; [|reflexivity]. split; [reflexivity|]. exists 0. split; [constructor|assumption].
Qed.

Lemma layered_body_ok checks trans final vars nv d0 alias : Forall (var_below nv) vars -> checks = true \/ vars <> [] ->
  state_body_ok nv d0 (layered_own trans final vars) alias (layered_body checks trans final vars) vars (layered_sat trans final vars).
Proof.
  intros B Hc. constructor.
  - intros d s m Hd Ld _ O. destruct (layered_body_cases checks trans final vars d s m Hc) as [[-> ->]|[Ne ->]]; cbn [e_tracker].
    + destruct (is_one_of final 0) eqn:F; [apply honest_track|]. apply honest_tell; auto; [exact Logic.I|apply honest_track|]. intros _ _ _ a _ _ Sa. apply layered_empty, is_one_of_In in Sa. congruence.
    + destruct (refresh_sound trans final vars nv d Hd Ld B _ (graph_at_sound trans final vars nv d s Hd Ld B O)) as [Sg Vg]. now apply prune_honest.
  - intros d s m Hd Ld _ O F. destruct (layered_body_cases checks trans final vars d s m Hc) as [[-> E]|[Ne E]]; rewrite E in *; cbn [e_tracker e_state] in *.
    + destruct (is_one_of final 0); [assumption|]. discriminate F.
    + destruct (refresh_sound trans final vars nv d Hd Ld B _ (graph_at_sound trans final vars nv d s Hd Ld B O)) as [Sg Vg].
      apply (layered_own_mono trans final vars d).
      * apply (legit_inside nv d Hd Ld); [|assumption]. now apply (prune_legit trans final vars nv d Hd Ld B).
      * right. eexists. split; [reflexivity|]. exact Sg.
  - intros d s m a Hd Ld _ O Fx Lv. destruct (layered_body_cases checks trans final vars d s m Hc) as [[-> E]|[Ne E]]; rewrite E in *; cbn [e_tracker] in *.
    + apply layered_empty. destruct (is_one_of final 0) eqn:F; [now apply is_one_of_In|]. destruct Lv as (_ & Fl & _). discriminate Fl.
    + destruct (refresh_sound trans final vars nv d Hd Ld B _ (graph_at_sound trans final vars nv d s Hd Ld B O)) as [Sg Vg]. now apply (pruned_checks trans final vars nv d Hd Ld B _ Sg Vg).
  - intros d s m a _ _ _ _ _ R. exfalso. destruct (layered_body_cases checks trans final vars d s m Hc) as [[-> E]|[Ne E]]; rewrite E in R; discriminate R.
  - intros d s m a _ _ _ _ R. exfalso. destruct (layered_body_cases checks trans final vars d s m Hc) as [[-> E]|[Ne E]]; rewrite E in R; discriminate R.
Qed.

Lemma layered_local trans final vars n : Forall (var_below n) vars -> local n (layered_sat trans final vars).
Proof.
  intros B a b H (es & A & W). exists es. split; [assumption|]. rewrite W. apply map_ext_in. intros v I. rewrite Forall_forall in B. apply (same_below_value n); auto.
Qed.

Lemma layered_means checks trans final vars d0 : Forall (var_known d0) vars -> checks = true \/ vars <> [] ->
  means d0 (layered checks trans final vars) vars (layered_sat trans final vars).
Proof.
  intros K Hc. assert (B : Forall (var_below (length d0)) vars) by now apply known_below_all.
  split; [assumption|]. split; [now apply layered_local|]. intros hidden cs Hd.
  assert (Le : (length d0 <= length (d0 ++ hidden))%nat) by (unfold domains, iset in *; rewrite app_length; lia).
  assert (Bv : Forall (var_below (length (d0 ++ hidden))) vars) by (eapply Forall_impl; [|exact B]; intros v; now apply below_more).
  exists (layered_sat trans final vars), (owned (length cs) (layered_own trans final vars)). apply state_installs; auto.
  - now apply layered_local.
  - rewrite !app_nil_r. apply incl_refl.
  - intros D D' s _ _ I. now apply layered_own_mono.
  - intros more _. now left.
  - intros nv Ln. apply layered_body_ok; [|assumption]. eapply Forall_impl; [|exact Bv]. intros v. now apply below_more.
Qed.

(** The graph is kept through every run and every backtrack, so that each run comes
    to the same as one that starts again. *)
Lemma layered_consistent checks trans final vars d0 (cs : list cstate) : domains_ok d0 -> Forall (var_known d0) vars -> NoDup (underlying_list vars) -> vars <> [] ->
  let p := state_propagator (length cs) (layered_body checks trans final vars) vars [] [] in
  forall i s D evs, lives p (length cs) d0 [0] (i_domains i) s -> nth_error (i_cstates i) (length cs) = Some s ->
    apply_lits (i_domains i) (o_infer (p_run p i)) = (D, evs, false) ->
    domain_consistent D vars (layered_sat trans final vars) /\
    forall j, i_domains j = D -> nth_error (i_cstates j) (length cs) = nth_error (o_cstates (p_run p i)) (length cs) -> apply_lits D (o_infer (p_run p j)) = (D, [], false).
Proof.
  intros Hd0 K ND Ne p i s D evs L E A. assert (B : Forall (var_below (length d0)) vars) by now apply known_below_all.
  assert (Hc : checks = true \/ vars <> []) by now right.
  destruct (lives_own (length d0) d0 (layered_body checks trans final vars) [0] (length cs) (layered_own trans final vars) (aliased p) vars (layered_sat trans final vars) vars [] [] Hd0 eq_refl) with (D := i_domains i) (s := s)
    as (H1 & H2 & H3 & O); auto.
  { intros D1 D2 s' _ _ I. now apply layered_own_mono. }
  { now left. }
  { now apply layered_body_ok. }
  assert (Hh : (length cs < length (i_cstates i))%nat) by (apply nth_error_Some; congruence).
  cbn [p state_propagator p_run state_run o_infer o_cstates] in *. rewrite (nth_error_nth _ _ _ E) in *.
  destruct (refresh_sound trans final vars (length d0) (i_domains i) H1 H2 B _ (graph_at_sound trans final vars (length d0) (i_domains i) s H1 H2 B O)) as [Sg Vg].
  destruct (layered_body_cases checks trans final vars (i_domains i) s (i_memo i) Hc) as [[Ev _]|[_ Eb]]; [congruence|]. rewrite Eb in *. cbn [e_tracker e_state] in *.
  set (g := refresh (i_domains i) vars (graph_at trans final vars (i_domains i) s)) in *.
  pose proof (prune_legit trans final vars (length d0) (i_domains i) H1 H2 B g Sg) as Lg. destruct (lg_apply _ _ _ Lg) as (ev & A'). rewrite A' in A. injection A as <- _ F.
  split; [now apply (pruned_consistent trans final vars (length d0))|].
  intros j Ej Es. rewrite nth_error_set_nth in Es by assumption. rewrite (nth_error_nth _ _ _ Es), Ej.
  set (D := t_domains (prune g vars (track (i_domains i)))) in *.
  assert (HD : domains_ok D) by now apply (legit_ok (length d0) (i_domains i) H1 H2 _ Lg). assert (LD : length D = length d0) by apply (legit_length (length d0) (i_domains i) H1 H2 _ Lg).
  destruct (layered_body_cases checks trans final vars D (write_graph g) (i_memo j) Hc) as [[Ev _]|[_ Ej']]; [congruence|]. rewrite Ej'. cbn [e_tracker].
  assert (Eg : graph_at trans final vars D (write_graph g) = g) by (unfold graph_at, write_graph; apply read_write_edges). rewrite Eg.
  assert (Er : refresh D vars g = g).
  { assert (Nothing : forall i v, nth_error vars i = Some v -> refresh_layer D (length vars) g (i, v) = g).
    { intros k v Ek. unfold refresh_layer.
      replace (filter (fun e => Nat.eqb (ed_at e) k && negb (in_domain D v (ed_by e))) g) with (@nil edge); [reflexivity|]. symmetry.
      destruct (filter (fun e => Nat.eqb (ed_at e) k && negb (in_domain D v (ed_by e))) g) as [|e es] eqn:Ef; [reflexivity|]. exfalso.
      assert (Ie : In e (filter (fun e => Nat.eqb (ed_at e) k && negb (in_domain D v (ed_by e))) g)) by (rewrite Ef; now left).
      apply filter_In in Ie. destruct Ie as [Ie X]. apply andb_true_iff in X. destruct X as [X1 X2]. apply Nat.eqb_eq in X1. apply negb_true_iff in X2.
      assert (M : view_member D v (ed_by e)).
      { apply (pruned_stays vars (length d0) (i_domains i) H1 H2 B g k); auto.
        - apply supports_value_spec. exists e. auto.
        - apply (possible_member vars (length d0) (i_domains i) H1 H2 B k); [assumption|]. rewrite <- X1. now apply Vg. }
      apply in_domain_spec in M; [congruence|assumption|]. apply (var_below_known (length d0)); [assumption|]. apply nth_error_In in Ek. rewrite Forall_forall in B. now apply B. }
    unfold refresh. assert (G : forall l, (forall i v, In (i, v) l -> nth_error vars i = Some v) -> fold_left (refresh_layer D (length vars)) l g = g).
    { induction l as [|[k v] r IH]; intro Hl; cbn [fold_left]; [reflexivity|]. rewrite Nothing by (apply Hl; now left). apply IH. intros; apply Hl; now right. }
    apply G. intros k v I. now apply numbered_In. }
  rewrite Er. unfold D. rewrite (pruned_again trans final vars (length d0)); auto.
Qed.

(** ** What is accepted *)

Lemma path_reads trans step : (forall i q v r, In (q, v, r) (trans i) <-> step q v r) ->
  forall w i q f, (exists es, path trans i q es f /\ word es = w) <-> reads step q w f.
Proof.
  intro T. induction w as [|v w IH]; intros i q f; split.
  - intros (es & P & W). destruct es; [|discriminate]. inversion P; subst. constructor.
  - intro R. inversion R; subst. exists []. split; [constructor|reflexivity].
  - intros (es & P & W). destruct es as [|e es]; [discriminate|]. inversion P as [|i' q' v' r es' f' T' P']; subst. simpl in W. injection W as -> W.
    apply (reads_one step q v r); [now apply (T i)|]. apply (IH (S i)). eauto.
  - intro R. inversion R as [|q' v' r w' f' Sv R']; subst. apply (IH (S i)) in R'. destruct R' as (es & P & W). exists (mk_edge i q v r :: es). split; [|simpl; congruence]. constructor; [now apply T|assumption].
Qed.

Lemma with_index_In {X} (xs : list X) : forall i k x, In (k, x) (with_index i xs) <-> i <= k /\ nth_error xs (Z.to_nat (k - i)) = Some x.
Proof.
  induction xs as [|y r IH]; intros i k x; cbn [with_index In].
  - split; [intros []|]. intros [_ E]. destruct (Z.to_nat (k - i)); discriminate.
  - rewrite IH. split.
    + intros [[= -> ->]|[H E]]; [split; [lia|]; now rewrite Z.sub_diag|]. split; [lia|]. replace (Z.to_nat (k - i)) with (S (Z.to_nat (k - (i + 1)))) by lia. exact E.
    + intros [H E]. destruct (Z.eq_dec k i) as [->|N].
      * left. rewrite Z.sub_diag in E. simpl in E. congruence.
      * right. split; [lia|]. replace (Z.to_nat (k - i)) with (S (Z.to_nat (k - (i + 1)))) in E by lia. exact E.
Qed.

Lemma arrows_of_In rows q v r : In (q, v, r) (arrows_of rows) <-> moves rows q v r.
Proof.
  unfold arrows_of, moves. rewrite in_flat_map. split.
  - intros ([q' row] & I & J). apply with_index_In in I. destruct I as [H E]. rewrite Z.sub_0_r in E. apply in_map_iff in J. destruct J as ([v' r'] & [= -> -> ->] & J).
    apply filter_In in J. destruct J as [J N]. exists row. split; [assumption|]. split; [assumption|]. split; [assumption|]. intros ->. discriminate.
  - intros (row & H & E & I & N). exists (q, row). split; [apply with_index_In; rewrite Z.sub_0_r; auto|]. apply in_map_iff. exists (v, r). split; [reflexivity|]. apply filter_In. split; [assumption|].
    apply negb_true_iff. now apply Z.eqb_neq.
Qed.

Lemma table_rows_moves table q v r : moves (table_rows table) q v r <-> table_moves table q v r.
Proof.
  unfold moves, table_moves, table_rows. split.
  - intros (row & H & E & I & N). rewrite nth_error_map in E. destruct (nth_error table (Z.to_nat q)) as [l|] eqn:El; [|discriminate]. injection E as <-. apply with_index_In in I. rewrite Z.sub_0_r in I. exists l. tauto.
  - intros (row & H & E & Hv & I & N). exists (with_index 0 row). split; [assumption|]. split; [now apply map_nth_error|]. split; [|assumption]. apply with_index_In. now rewrite Z.sub_0_r.
Qed.

Lemma word_length es : length (word es) = length es.
Proof. apply map_length. Qed.

Lemma regular_sat ts final vars a : layered_sat (fun _ => ts) final vars a <-> accepts (fun q v r => In (q, v, r) ts) final (map (var_value a) vars).
Proof.
  split.
  - intros (es & (L & f & P & F) & W). exists f. split; [|assumption]. apply (path_reads (fun _ => ts) _ (fun _ _ _ _ => iff_refl _) _ 0). eauto.
  - intros (f & R & F). apply (path_reads (fun _ => ts) _ (fun _ _ _ _ => iff_refl _) _ 0) in R. destruct R as (es & P & W). exists es. split; [|assumption].
    split; [rewrite <- word_length, W; apply map_length|]. eauto.
Qed.

Lemma reads_ext (step step' : Z -> Z -> Z -> Prop) : (forall q v r, step q v r -> step' q v r) -> forall q w f, reads step q w f -> reads step' q w f.
Proof. intros H q w f R. induction R; econstructor; eauto. Qed.

Lemma accepts_ext (step step' : Z -> Z -> Z -> Prop) final w : (forall q v r, step q v r <-> step' q v r) -> (accepts step final w <-> accepts step' final w).
Proof. intro H. split; intros (f & R & F); exists f; (split; [|assumption]); eapply reads_ext; try exact R; intros; now apply H. Qed.

Lemma path_leads layers : forall i q w f trans, (forall k, (k < length layers)%nat -> trans (i + k)%nat = arrows_of (nth k layers [])) ->
  (exists es, path trans i q es f /\ word es = w /\ length es = length layers) <-> leads layers q w f.
Proof.
  induction layers as [|rows layers IH]; intros i q w f trans T; split.
  - intros (es & P & W & L). destruct es; [|discriminate]. inversion P; subst. constructor.
  - intro R. inversion R; subst. exists []. split; [constructor|split; reflexivity].
  - intros (es & P & W & L). destruct es as [|e es]; [discriminate|]. inversion P as [|i' q' v r es' f' T' P']; subst. simpl. constructor 2 with (r := r).
    + apply arrows_of_In. specialize (T 0%nat). simpl in T. rewrite Nat.add_0_r in T. rewrite <- T by lia. exact T'.
    + apply (IH (S i) r _ f trans); [intros k Hk; specialize (T (S k)); simpl in T; rewrite <- T by lia; f_equal; lia|]. exists es. simpl in L. auto.
  - intro R. inversion R as [|rows' layers' q' v r w' f' Sv R']; subst. apply (IH (S i) r _ f trans) in R'; [|intros k Hk; specialize (T (S k)); simpl in T; rewrite <- T by lia; f_equal; lia].
    destruct R' as (es & P & W & L). exists (mk_edge i q v r :: es). split; [|split; simpl; congruence]. constructor; [|assumption].
    specialize (T 0%nat). simpl in T. rewrite Nat.add_0_r in T. rewrite T by lia. now apply arrows_of_In.
Qed.

Lemma mdd_sat layers accepting vars a : length layers = length vars ->
  (layered_sat (fun i => arrows_of (nth i layers [])) accepting vars a <-> diagram_accepts layers accepting (map (var_value a) vars)).
Proof.
  intro Ln. assert (T : forall k, (k < length layers)%nat -> (fun i => arrows_of (nth i layers [])) (0 + k)%nat = arrows_of (nth k layers [])) by reflexivity. split.
  - intros (es & (L & f & P & F) & W). exists f. split; [|assumption]. apply (path_leads layers 0 0 _ f _ T). exists es. split; [exact P|]. split; [assumption|congruence].
  - intros (f & R & F). apply (path_leads layers 0 0 _ f _ T) in R. destruct R as (es & P & W & L). exists es. split; [|assumption]. split; [congruence|]. eauto.
Qed.

(** ** The constraints *)

Lemma regular_means vars ts final d0 : Forall (var_known d0) vars ->
  means d0 (regular vars ts final) vars (fun a => accepts (fun q v r => In (q, v, r) ts) final (map (var_value a) vars)).
Proof.
  intro K. apply (means_ext d0 _ vars vars (layered_sat (fun _ => ts) final vars)); [intro a; apply regular_sat|apply incl_refl|now apply known_below_all|].
  apply layered_means; auto.
Qed.

Lemma regular_maps_means vars rows final d0 : Forall (var_known d0) vars ->
  means d0 (regular_maps vars rows final) vars (fun a => accepts (moves rows) final (map (var_value a) vars)).
Proof.
  intro K. eapply means_ext; [| |now apply known_below_all|exact (regular_means vars (arrows_of rows) final d0 K)]; [|apply incl_refl].
  intro a. apply accepts_ext. intros. apply arrows_of_In.
Qed.

Lemma regular_table_means vars table final d0 : Forall (var_known d0) vars ->
  means d0 (regular_table vars table final) vars (fun a => accepts (table_moves table) final (map (var_value a) vars)).
Proof.
  intro K. eapply means_ext; [| |now apply known_below_all|exact (regular_maps_means vars (table_rows table) final d0 K)]; [|apply incl_refl].
  intro a. apply accepts_ext. intros. apply table_rows_moves.
Qed.

Lemma regular_consistent vars ts final d0 (cs : list cstate) : domains_ok d0 -> Forall (var_known d0) vars -> NoDup (underlying_list vars) ->
  exists p s0, in_props (regular vars ts final d0 cs) = [p] /\ in_states (regular vars ts final d0 cs) = [s0] /\
  forall i s D evs, lives p (length cs) d0 s0 (i_domains i) s -> nth_error (i_cstates i) (length cs) = Some s -> apply_lits (i_domains i) (o_infer (p_run p i)) = (D, evs, false) ->
    domain_consistent D vars (fun a => accepts (fun q v r => In (q, v, r) ts) final (map (var_value a) vars)) /\
    forall j, i_domains j = D -> nth_error (i_cstates j) (length cs) = nth_error (o_cstates (p_run p i)) (length cs) -> apply_lits D (o_infer (p_run p j)) = (D, [], false).
Proof.
  intros Hd K ND. do 2 eexists. split; [reflexivity|]. split; [reflexivity|]. intros i s D evs L E A.
  destruct vars as [|v r].
  - split; [intros v x []|]. intros j Ej Es. clear L. revert A. cbn [p_run state_propagator]. unfold state_run, layered_body. cbn [o_infer].
    destruct (is_one_of final 0); cbn; [reflexivity|discriminate].
  - destruct (layered_consistent true (fun _ => ts) final (v :: r) d0 cs Hd K ND ltac:(discriminate) i s D evs L E A) as [C R]. split; [|exact R].
    eapply domain_consistent_ext; [..|exact C]; [apply incl_refl|]. intro a. apply regular_sat.
Qed.

Lemma combine_nth {X Y} (l : list X) : forall (m : list Y) n x y, nth_error (combine l m) n = Some (x, y) <-> nth_error l n = Some x /\ nth_error m n = Some y.
Proof.
  induction l as [|x0 l IH]; intros [|y0 m] [|n] x y; simpl; split; try (intros [A B]; discriminate); try discriminate.
  - intros [= -> ->]. auto.
  - intros [[= ->] [= ->]]. reflexivity.
  - apply IH.
  - apply IH.
Qed.

Lemma mdd_sizes vars layers nodes accepting : (exists k, mdd vars layers nodes accepting = Some k) <-> well_sized vars layers nodes.
Proof.
  unfold mdd, well_sized. destruct (Nat.eqb (length nodes) (S (length vars)) && Nat.eqb (length layers) (length vars) && Nat.eqb (hd O nodes) 1 &&
     forallb (fun '(rows, n) => (n <=? length rows)%nat) (combine layers nodes)) eqn:B.
  - split; [intros _|eauto]. rewrite !andb_true_iff in B. destruct B as (((L & M) & H) & F). apply Nat.eqb_eq in L, M, H. split; [assumption|]. split; [assumption|].
    split; [destruct nodes; [discriminate L|]; cbn in *; now subst|]. intros i rows n Ei En. rewrite forallb_forall in F.
    assert (I : In (rows, n) (combine layers nodes)) by (apply nth_error_In with i; now apply combine_nth). apply F in I. now apply Nat.leb_le in I.
  - split; [intros (k & [=])|]. intros (L & M & H & F). exfalso. rewrite <- not_true_iff_false in B. apply B. rewrite !andb_true_iff. repeat apply conj; try apply Nat.eqb_eq; try assumption.
    + destruct nodes; [discriminate|]. now injection H as ->.
    + apply forallb_forall. intros [rows n] I. apply In_nth_error in I. destruct I as (i & E). apply Nat.leb_le. apply combine_nth in E. destruct E. now apply (F i).
Qed.

Lemma mdd_shape vars layers nodes accepting k : mdd vars layers nodes accepting = Some k ->
  length layers = length vars /\ k = layered false (fun i => arrows_of (nth i layers [])) accepting vars.
Proof.
  intro E. split.
  - assert (W : well_sized vars layers nodes) by (apply (mdd_sizes vars layers nodes accepting); eauto). now destruct W as (_ & ? & _).
  - unfold mdd in E. destruct (_ && _) in E; [now injection E as <-|discriminate].
Qed.

Lemma mdd_means vars layers nodes accepting k d0 : Forall (var_known d0) vars -> vars <> [] -> mdd vars layers nodes accepting = Some k ->
  means d0 k vars (fun a => diagram_accepts layers accepting (map (var_value a) vars)).
Proof.
  intros K Ne E. destruct (mdd_shape _ _ _ _ _ E) as [L ->].
  eapply means_ext; [| |now apply known_below_all|apply layered_means; auto]; [|apply incl_refl]. intro a. now apply mdd_sat.
Qed.

Lemma mdd_consistent vars layers nodes accepting k d0 (cs : list cstate) : domains_ok d0 -> Forall (var_known d0) vars -> NoDup (underlying_list vars) -> vars <> [] ->
  mdd vars layers nodes accepting = Some k ->
  exists p s0, in_props (k d0 cs) = [p] /\ in_states (k d0 cs) = [s0] /\
  forall i s D evs, lives p (length cs) d0 s0 (i_domains i) s -> nth_error (i_cstates i) (length cs) = Some s -> apply_lits (i_domains i) (o_infer (p_run p i)) = (D, evs, false) ->
    domain_consistent D vars (fun a => diagram_accepts layers accepting (map (var_value a) vars)) /\
    forall j, i_domains j = D -> nth_error (i_cstates j) (length cs) = nth_error (o_cstates (p_run p i)) (length cs) -> apply_lits D (o_infer (p_run p j)) = (D, [], false).
Proof.
  intros Hd K ND Ne E. destruct (mdd_shape _ _ _ _ _ E) as [Ln ->]. do 2 eexists. split; [reflexivity|]. split; [reflexivity|]. intros i s D evs L Es A.
  destruct (layered_consistent false (fun i => arrows_of (nth i layers [])) accepting vars d0 cs Hd K ND Ne i s D evs L Es A) as [C R]. split; [|exact R].
  eapply domain_consistent_ext; [..|exact C]; [apply incl_refl|]. intro a. now apply mdd_sat.
Qed.
