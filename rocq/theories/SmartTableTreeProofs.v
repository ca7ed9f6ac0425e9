(** Proofs about the trees of a row of a SmartTable. *)
From Coq Require Import ZArith List Bool Arith Lia Permutation.
From Verif Require Import IntervalSet Vars VarsSpec State Engine Tracker SmartTable SmartTableSpec.
Import ListNotations.

Lemma entry_eq_dec (e e' : entry) : {e = e'} + {e <> e'}.
Proof. repeat decide equality. Qed.

Lemma mem_nat_iff x l : mem_nat x l = true <-> In x l.
Proof.
  induction l as [|y l IH]; simpl; [split; [discriminate|tauto]|]. rewrite orb_true_iff, IH, Nat.eqb_eq. split; intros [A|A]; auto.
Qed.

Lemma mem_nat_not x l : mem_nat x l = false <-> ~ In x l.
Proof. rewrite <- mem_nat_iff. destruct (mem_nat x l); split; congruence. Qed.

Lemma touches_iff x e : touches x e = true <-> exists v, In v (entry_vars e) /\ var_number v = x.
Proof.
  unfold touches. rewrite existsb_exists. split; intros (v & I & E); exists v; (split; [assumption|]); now apply Nat.eqb_eq.
Qed.

Lemma connected_trans r x y z : connected r x y -> connected r y z -> connected r x z.
Proof. intros A B. induction B as [|y' u v w t B IH I z O]; [assumption|]. now apply (connected_step r x u v w t (IH A) I). Qed.

Lemma connected_one r v w t : In (Compare v w t) r -> connected r (var_number v) (var_number w) /\ connected r (var_number w) (var_number v).
Proof. intro I. split; (eapply connected_step; [apply connected_refl|exact I|tauto]). Qed.

Lemma connected_sym r x y : connected r x y -> connected r y x.
Proof.
  intro A. induction A as [|x u v w t A IH I z O]; [constructor|]. apply (connected_trans r z u); [|assumption].
  destruct (connected_one r v w t I) as [B C]. destruct O as [[<- <-]|[<- <-]]; assumption.
Qed.

Lemma connected_incl r r' x y : incl r r' -> connected r x y -> connected r' x y.
Proof. intros H A. induction A as [|x u v w t A IH I z O]; [constructor|]. eapply connected_step; [exact IH|apply H; exact I|exact O]. Qed.

(** ** How a tree grows *)

Inductive grown (r0 : nat) : list (nat * nat) -> list (nat * entry) -> Prop :=
| grown_root : grown r0 [(r0, 0)] []
| grown_leaf D out l e v : grown r0 D out -> entry_vars e = [v] -> In (var_number v, l) D -> grown r0 D (out ++ [(l, e)])
| grown_pair D out l v w t p c : grown r0 D out -> (var_number v = p /\ var_number w = c) \/ (var_number w = p /\ var_number v = c) ->
    In (p, l) D -> ~ In c (map fst D) -> grown r0 (D ++ [(c, S l)]) (out ++ [(l, Compare v w t)]).

Lemma grown_start r0 D out : grown r0 D out -> In (r0, 0) D.
Proof. induction 1; auto; [now left|]. apply in_or_app. now left. Qed.

Lemma grown_keys r0 D out : grown r0 D out -> NoDup (map fst D).
Proof.
  induction 1 as [|? ? ? ? ? G IH|D out l v w t p c G IH O I N]; [repeat constructor; intros []|assumption|]. rewrite map_app. cbn [map fst].
  apply (Permutation_NoDup (Permutation_cons_append (map fst D) c)). now constructor.
Qed.

Lemma grown_touched r0 D out : grown r0 D out -> forall l e x, In (l, e) out -> touches x e = true -> In x (map fst D).
Proof.
  induction 1 as [|D out l e v G IH E I|D out l v w t p c G IH O I N]; intros l' e' x I' T; [destruct I'| |].
  - apply in_app_or in I'. destruct I' as [I'|[[= <- <-]|[]]]; [now apply (IH l' e')|]. apply touches_iff in T. destruct T as (u & Iu & <-). rewrite E in Iu. destruct Iu as [<-|[]].
    apply in_map_iff. exists (var_number v, l). auto.
  - rewrite map_app. apply in_or_app. apply in_app_or in I'. destruct I' as [I'|[[= <- <-]|[]]]; [left; now apply (IH l' e')|]. apply touches_iff in T. destruct T as (u & Iu & <-).
    assert (Ip : In p (map fst D)) by (apply in_map_iff; exists (p, l); auto). cbn [entry_vars] in Iu. cbn [map fst].
    destruct Iu as [<-|[<-|[]]], O as [[E1 E2]|[E1 E2]]; rewrite ?E1, ?E2; auto; right; now left.
Qed.

Lemma grown_connected r0 D out : grown r0 D out -> forall x, In x (map fst D) -> connected (map snd out) r0 x.
Proof.
  induction 1 as [|D out l e v G IH E I|D out l v w t p c G IH O I N]; intros x Ix.
  - destruct Ix as [<-|[]]. constructor.
  - apply (connected_incl (map snd out)); [intros y Iy; rewrite map_app; apply in_or_app; now left|auto].
  - assert (In0 : incl (map snd out) (map snd (out ++ [(l, Compare v w t)]))) by (intros y Iy; rewrite map_app; apply in_or_app; now left).
    rewrite map_app in Ix. apply in_app_or in Ix. destruct Ix as [Ix|[<-|[]]]; [now apply (connected_incl (map snd out)); [|apply IH]|].
    assert (Ip : In p (map fst D)) by (apply in_map_iff; exists (p, l); auto).
    apply (connected_step _ r0 p v w t); [apply (connected_incl (map snd out)); auto|rewrite map_app; apply in_or_app; right; now left|exact O].
Qed.

(** The depth of a key is the only one. *)
Lemma key_once (D : list (nat * nat)) x l l' : NoDup (map fst D) -> In (x, l) D -> In (x, l') D -> l = l'.
Proof.
  induction D as [|[y k] D IH]; intros N I I'; [destruct I|]. simpl in N. inversion N as [|? ? A B]; subst.
  destruct I as [E|I], I' as [E'|I']; [congruence| | |auto]; exfalso; apply A; apply in_map_iff; [exists (x, l')|exists (x, l)]; (split; [simpl; congruence|assumption]).
Qed.

(** Whatever touches a variable is at the depth of it, but for the entry it was found by,
    which is one above. *)
Lemma grown_found r0 D out : grown r0 D out -> forall o1 l v w t o2, out = o1 ++ (l, Compare v w t) :: o2 ->
  exists p c, ((var_number v = p /\ var_number w = c) \/ (var_number w = p /\ var_number v = c)) /\ In (c, S l) D /\ In (p, l) D /\
    forall l' e', In (l', e') (o1 ++ o2) -> touches c e' = true -> l' = S l.
Proof.
  induction 1 as [|D out l e u G IH E I|D out l v w t p c G IH O I N]; intros o1 k v' w' t' o2 Eq.
  - destruct o1; discriminate.
  - destruct (exists_last (l := (k, Compare v' w' t') :: o2) ltac:(discriminate)) as (o3 & z & Ez). rewrite Ez in Eq. rewrite app_assoc in Eq. apply app_inj_tail in Eq. destruct Eq as [Eo <-].
    destruct o3 as [|[k3 e3] o3]; simpl in Ez; injection Ez; intros; subst; [discriminate E|]. destruct (IH _ _ _ _ _ _ eq_refl) as (p & c & A & B & C & F). exists p, c. split; [assumption|]. split; [assumption|]. split; [assumption|].
    intros l' e' I' T. rewrite app_assoc in I'. apply in_app_or in I'. destruct I' as [I'|[[= <- <-]|[]]]; [now apply (F l' e')|]. apply touches_iff in T. destruct T as (y & Iy & Ey). rewrite E in Iy. destruct Iy as [<-|[]].
    rewrite Ey in I. apply (key_once D c); auto. now apply (grown_keys r0 D _ G).
  - destruct (exists_last (l := (k, Compare v' w' t') :: o2) ltac:(discriminate)) as (o3 & z & Ez). rewrite Ez in Eq. rewrite app_assoc in Eq. apply app_inj_tail in Eq. destruct Eq as [Eo <-].
    destruct o3 as [|[k3 e3] o3]; simpl in Ez; injection Ez; intros; subst; clear Ez.
    + rewrite ?app_nil_r in *. exists p, c. split; [assumption|]. split; [apply in_or_app; right; now left|]. split; [apply in_or_app; now left|].
      intros l' e' I' T. exfalso. apply N. rewrite ?app_nil_r in I', G. now apply (grown_touched r0 D _ G l' e').
    + destruct (IH _ _ _ _ _ _ eq_refl) as (p' & c' & A & B & C & F). exists p', c'. split; [assumption|]. split; [apply in_or_app; now left|]. split; [apply in_or_app; now left|].
      intros l' e' I' T. rewrite app_assoc in I'. apply in_app_or in I'. destruct I' as [I'|[[= <- <-]|[]]]; [now apply (F l' e')|].
      assert (Kc : In c' (map fst D)) by (apply in_map_iff; eexists (c', _); split; [reflexivity|exact B]).
      assert (c' = p) as -> by (apply touches_iff in T; destruct T as (y & Iy & Ey); cbn [entry_vars] in Iy; destruct Iy as [<-|[<-|[]]], O as [[E1 E2]|[E1 E2]]; congruence).
      apply (key_once D p); auto. now apply (grown_keys r0 D _ G).
Qed.

(** ** Building one *)

Definition unseen (nodes vis : list nat) : nat := length (filter (fun x => negb (mem_nat x vis)) nodes).

Lemma unseen_less nodes vis vis' : (forall x, In x vis -> In x vis') -> (unseen nodes vis' <= unseen nodes vis)%nat.
Proof.
  intro H. unfold unseen. induction nodes as [|x nodes IH]; [simpl; lia|]. cbn [filter]. destruct (mem_nat x vis') eqn:E; destruct (mem_nat x vis) eqn:E'; cbn [negb length]; try lia.
  apply mem_nat_iff in E'. apply H in E'. apply mem_nat_iff in E'. congruence.
Qed.

Lemma unseen_drop nodes vis x : In x nodes -> ~ In x vis -> (unseen nodes (x :: vis) < unseen nodes vis)%nat.
Proof.
  intros I N. unfold unseen. induction nodes as [|y nodes IH]; [destruct I|]. cbn [filter]. destruct I as [<-|I].
  - assert (E : mem_nat y (y :: vis) = true) by (apply mem_nat_iff; now left). assert (E' : mem_nat y vis = false) by now apply mem_nat_not. rewrite E, E'. cbn [negb length].
    pose proof (unseen_less nodes vis (y :: vis) (fun z I => or_intror I)) as L. unfold unseen in L. lia.
  - specialize (IH I). destruct (mem_nat y (x :: vis)) eqn:E; destruct (mem_nat y vis) eqn:E'; cbn [negb length]; try lia.
    apply mem_nat_iff in E'. assert (In y (x :: vis)) by now right. apply mem_nat_iff in H. congruence.
Qed.

Section Build.
Variable r : row.
Hypothesis Apart : forall v w t, In (Compare v w t) r -> var_number v <> var_number w.
Variable V0 : list nat.
Hypothesis Closed : forall e x y, In e r -> touches x e = true -> touches y e = true -> In x V0 -> In y V0.
Variable r0 : nat.

(** All that is known of a variable that is done. *)
Definition done (D : list (nat * nat)) (out : list (nat * entry)) (e : entry) : Prop :=
  (forall y, touches y e = true -> In y (map fst D)) /\ (acyclic r -> In e (map snd out)).

Record state (D : list (nat * nat)) (g : growth) : Prop :=
  { st_grown : grown r0 D (snd g);
    st_row : incl (map snd (snd g)) r;
    st_seen : forall x, In x (fst g) <-> In x V0 \/ In x (map fst D);
    st_new : forall x, In x (map fst D) -> ~ In x V0 }.

Lemma done_more D out e D' out' : incl D D' -> incl out out' -> done D out e -> done D' out' e.
Proof.
  intros HD HO [A B]. split.
  - intros y T. apply A in T. apply in_map_iff in T. destruct T as (z & <- & I). apply in_map. auto.
  - intro Ac. specialize (B Ac). apply in_map_iff in B. destruct B as (z & <- & I). apply in_map. auto.
Qed.

Definition finished (D : list (nat * nat)) (g : growth) (D' : list (nat * nat)) (g' : growth) : Prop :=
  state D' g' /\ incl D D' /\ incl (snd g) (snd g') /\
  forall x, In x (map fst D') -> ~ In x (map fst D) -> forall e, In e r -> touches x e = true -> done D' (snd g') e.

Lemma finished_trans D g D1 g1 D2 g2 : finished D g D1 g1 -> finished D1 g1 D2 g2 -> finished D g D2 g2.
Proof.
  intros (S1 & I1 & O1 & F1) (S2 & I2 & O2 & F2). split; [assumption|]. split; [eapply incl_tran; eassumption|]. split; [eapply incl_tran; eassumption|].
  intros x K N e Ie T. destruct (in_dec Nat.eq_dec x (map fst D1)) as [K1|K1]; [|now apply (F2 x)]. apply (done_more D1 (snd g1)); auto. now apply (F1 x).
Qed.

Lemma row_node e x : In e r -> touches x e = true -> In x (row_nodes r).
Proof.
  intros I T. apply touches_iff in T. destruct T as (v & Iv & <-). unfold row_nodes. apply in_map. apply in_flat_map. exists e. auto.
Qed.

Lemma build_tree_spec : forall fuel root level vis out D, grown r0 D out -> incl (map snd out) r -> In (root, level) D ->
  (forall x, In x vis <-> In x V0 \/ (In x (map fst D) /\ x <> root)) -> (forall x, In x (map fst D) -> ~ In x V0) ->
  In root (row_nodes r) -> (unseen (row_nodes r) vis <= fuel)%nat ->
  exists D', finished D (vis, out) D' (build_tree fuel r root level (vis, out)) /\
    forall e, In e r -> touches root e = true -> done D' (snd (build_tree fuel r root level (vis, out))) e.
Proof.
  induction fuel as [|f IH]; intros root level vis out D G Ro Kr Sv Nw Nr Fu.
  - exfalso. assert (~ In root vis) by (rewrite Sv; intros [A|[_ A]]; [|congruence]; apply (Nw root); [apply in_map_iff; now exists (root, level)|assumption]).
    pose proof (unseen_drop (row_nodes r) vis root Nr H). lia.
  - assert (Rv : ~ In root vis) by (rewrite Sv; intros [A|[_ A]]; [|congruence]; apply (Nw root); [apply in_map_iff; now exists (root, level)|assumption]).
    pose proof (unseen_drop (row_nodes r) vis root Nr Rv) as Fu'. cbn [build_tree fst snd].
    assert (Kr' : In root (map fst D)) by (apply in_map_iff; now exists (root, level)).
    assert (S0 : state D (root :: vis, out)).
    { constructor; auto. intro x. cbn [fst]. destruct (Nat.eq_dec x root) as [->|Nx]; [split; [auto|intros _; now left]|].
      split; [intros [E|I]; [congruence|apply Sv in I; tauto]|]. intros I. right. apply Sv. tauto. }
    assert (F0 : finished D (vis, out) D (root :: vis, out)) by (split; [assumption|]; split; [apply incl_refl|]; split; [apply incl_refl|]; intros x A B; contradiction).
    set (step := fun (g : growth) (e : entry) => _).
    assert (Lp : forall es g Dg, (forall e, In e es -> In e r /\ touches root e = true) -> state Dg g -> incl D Dg -> (unseen (row_nodes r) (fst g) <= f)%nat ->
      exists D', finished Dg g D' (fold_left step es g) /\ forall e, In e es -> done D' (snd (fold_left step es g)) e).
    { induction es as [|e es IHe]; intros g Dg He Sg ID Fg.
      { exists Dg. split; [|intros e []]. split; [assumption|]. split; [apply incl_refl|]. split; [apply incl_refl|]. intros x A B. contradiction. }
      destruct (He e (or_introl eq_refl)) as [Ie Te]. assert (Krg : In (root, level) Dg) by auto.
      assert (Kg : In root (map fst Dg)) by (apply in_map_iff; now exists (root, level)).
      assert (One : exists D1, finished Dg g D1 (step g e) /\ done D1 (snd (step g e)) e).
      { assert (Leaf : forall v, entry_vars e = [v] -> exists D1, finished Dg g D1 (add_entry level e g) /\ done D1 (snd (add_entry level e g)) e).
        { intros v Ev. exists Dg. destruct g as [gv go]. unfold add_entry. cbn [fst snd] in *. assert (Ev' : var_number v = root) by (apply touches_iff in Te; destruct Te as (u & Iu & <-); rewrite Ev in Iu; destruct Iu as [<-|[]]; reflexivity).
          split; [split|].
          - destruct Sg as [A B C E]. constructor; cbn [fst snd] in *; auto; [apply (grown_leaf r0 Dg go level e v); auto; now rewrite Ev'|].
            rewrite map_app. apply incl_app; [assumption|]. intros z [<-|[]]. assumption.
          - split; [apply incl_refl|]. split; [apply incl_appl, incl_refl|]. intros x A B. contradiction.
          - split; [|intros _; rewrite map_app; apply in_or_app; right; now left]. intros y Ty. apply touches_iff in Ty. destruct Ty as (u & Iu & <-). rewrite Ev in Iu. destruct Iu as [<-|[]]. now rewrite Ev'. }
        destruct e as [v w t|v x t|v vs i]; [|now apply (Leaf v)|now apply (Leaf v)]. clear Leaf. pose proof (Apart v w t Ie) as Nvw.
        assert (Down : forall c, (var_number v = root /\ var_number w = c) \/ (var_number w = root /\ var_number v = c) -> ~ In c (fst g) ->
          exists D1, finished Dg g D1 (build_tree f r c (S level) (add_entry level (Compare v w t) g)) /\ done D1 (snd (build_tree f r c (S level) (add_entry level (Compare v w t) g))) (Compare v w t)).
        { intros c Oc Nc. destruct g as [gv go]. unfold add_entry. cbn [fst snd] in *. destruct Sg as [A B C E]. cbn [fst snd] in *.
          assert (Nk : ~ In c (map fst Dg)) by (intro X; apply Nc; apply C; now right). assert (N0 : ~ In c V0) by (intro X; apply Nc; apply C; now left).
          assert (Tc : touches c (Compare v w t) = true) by (apply touches_iff; destruct Oc as [[_ X]|[_ X]]; [exists w|exists v]; (split; [simpl; auto|assumption])).
          destruct (IH c (S level) gv (go ++ [(level, Compare v w t)]) (Dg ++ [(c, S level)])) as (D1 & (S1 & I1 & O1 & F1) & R1).
          - apply (grown_pair r0 Dg go level v w t root c); auto.
          - rewrite map_app. apply incl_app; [assumption|]. intros z [<-|[]]. assumption.
          - apply in_or_app. right. now left.
          - intro x. rewrite C, map_app, in_app_iff. simpl. split; [intros [X|X]; [now left|right; split; [auto|congruence]]|]. intros [X|[[X|[X|[]]] Y]]; auto. congruence.
          - intros x X. rewrite map_app in X. apply in_app_or in X. destruct X as [X|[<-|[]]]; auto.
          - now apply (row_node (Compare v w t)).
          - assumption.
          - exists D1. split; [split; [assumption|]; split; [|split]|].
            + intros z Iz. apply I1. apply in_or_app. now left.
            + intros z Iz. apply O1. cbn [snd]. apply in_or_app. now left.
            + intros x Kx Nx e' Ie' T'. destruct (Nat.eq_dec x c) as [->|Nxc]; [now apply R1|]. apply (F1 x); auto. rewrite map_app. intro X. apply in_app_or in X. destruct X as [X|[X|[]]]; [contradiction|]. simpl in X. congruence.
            + now apply R1. }
        unfold step. unfold visited. destruct (mem_nat (var_number v) (fst g)) eqn:Mv; cbn [negb].
        - destruct (mem_nat (var_number w) (fst g)) eqn:Mw; cbn [negb].
          + (* both seen *)
            apply mem_nat_iff in Mv, Mw. exists Dg. split; [split; [assumption|]; split; [apply incl_refl|]; split; [apply incl_refl|]; intros x A B; contradiction|].
            assert (Ends : In (var_number v) (map fst Dg) /\ In (var_number w) (map fst Dg)).
            { destruct Sg as [A B C E]. assert (Tv : touches (var_number v) (Compare v w t) = true) by (apply touches_iff; exists v; simpl; auto). assert (Tw : touches (var_number w) (Compare v w t) = true) by (apply touches_iff; exists w; simpl; auto).
              split; [apply C in Mv; destruct Mv as [X|X]; [|assumption]|apply C in Mw; destruct Mw as [X|X]; [|assumption]]; exfalso; apply (E root Kg); eapply (Closed (Compare v w t)); eauto. }
            split.
            * intros y Ty. apply touches_iff in Ty. destruct Ty as (u & Iu & <-). cbn [entry_vars] in Iu. destruct Iu as [<-|[<-|[]]]; apply Ends.
            * intro Ac. destruct (in_dec entry_eq_dec (Compare v w t) (map snd (snd g))) as [X|X]; [assumption|]. exfalso.
              apply (Ac v w t Ie (map snd (snd g)) (st_row _ _ Sg) X). pose proof (grown_connected _ _ _ (st_grown _ _ Sg)) as Cn.
              apply (connected_trans _ _ r0); [apply connected_sym|]; apply Cn; apply Ends.
          + apply Down; [|now apply mem_nat_not]. apply touches_iff in Te. destruct Te as (u & Iu & Eu). cbn [entry_vars] in Iu. destruct Iu as [<-|[<-|[]]]; [auto|].
            exfalso. apply mem_nat_not in Mw. apply Mw. rewrite Eu. apply (st_seen _ _ Sg). now right.
        - apply Down; [|now apply mem_nat_not]. apply touches_iff in Te. destruct Te as (u & Iu & Eu). cbn [entry_vars] in Iu. destruct Iu as [<-|[<-|[]]]; [|auto].
          exfalso. apply mem_nat_not in Mv. apply Mv. rewrite Eu. apply (st_seen _ _ Sg). now right. }
      destruct One as (D1 & F1 & E1). destruct (IHe (step g e) D1) as (D2 & F2 & E2).
      { intros e' Ie'. apply He. now right. }
      { apply F1. }
      { eapply incl_tran; [exact ID|apply F1]. }
      { etransitivity; [|exact Fg]. apply unseen_less. intros x Ix. apply (st_seen _ _ (proj1 F1)). apply (st_seen _ _ Sg) in Ix. destruct Ix as [Ix|Ix]; [now left|]. right. apply in_map_iff in Ix. destruct Ix as (z & <- & Iz). apply in_map. now apply F1. }
      exists D2. split; [now apply (finished_trans Dg g D1 (step g e))|]. intros e' [<-|Ie']; [|now apply E2]. apply (done_more D1 (snd (step g e))); auto; apply F2. }
    destruct (Lp (adjacent r root) (root :: vis, out) D) as (D' & F1 & E1); auto.
    { intros e Ie. apply filter_In in Ie. exact Ie. }
    { apply incl_refl. }
    { cbn [fst]. lia. }
    exists D'. split; [now apply (finished_trans D (vis, out) D (root :: vis, out))|]. intros e Ie Te. apply E1. apply filter_In. auto.
Qed.
End Build.

(** ** The order in which a tree is filtered *)

(** One side of each comparison is not looked at any more afterwards. *)
Fixpoint ordered (es : list entry) : Prop :=
  match es with
  | [] => True
  | e :: post =>
      match e with
      | Compare v w _ => exists p c, ((v = p /\ w = c) \/ (w = p /\ v = c)) /\ forall e', In e' post -> touches (var_number c) e' = false
      | _ => True
      end /\ ordered post
  end.

Fixpoint descending (L : list (nat * entry)) : Prop :=
  match L with [] => True | x :: post => (forall y, In y post -> (fst y <= fst x)%nat) /\ descending post end.

Lemma descending_app A B : descending A -> descending B -> (forall a b, In a A -> In b B -> (fst b <= fst a)%nat) -> descending (A ++ B).
Proof.
  induction A as [|a A IH]; intros HA HB H; [assumption|]. destruct HA as [H1 H2]. split.
  - intros y I. apply in_app_or in I. destruct I as [I|I]; [auto|]. apply H; [now left|assumption].
  - apply IH; auto. intros. apply H; [now right|assumption].
Qed.

Definition leveled (out : list (nat * entry)) (k : nat) : list (nat * entry) := flat_map (fun l => filter (fun p => Nat.eqb (fst p) l) out) (rev (seq 0 k)).

Lemma leveled_S out k : leveled out (S k) = filter (fun p => Nat.eqb (fst p) k) out ++ leveled out k.
Proof. unfold leveled. rewrite seq_S, rev_app_distr. reflexivity. Qed.

Lemma leveled_perm out k : Permutation (leveled out k) (filter (fun p => Nat.ltb (fst p) k) out).
Proof.
  induction k as [|k IH].
  - unfold leveled. simpl. induction out as [|[l e] out IH]; [constructor|exact IH].
  - rewrite leveled_S. transitivity (filter (fun p => Nat.eqb (fst p) k) out ++ filter (fun p => Nat.ltb (fst p) k) out); [now apply Permutation_app_head|]. clear IH.
    induction out as [|[l e] out IH]; [constructor|]. cbn [filter fst]. destruct (Nat.eqb_spec l k) as [->|N].
    + assert (E : Nat.ltb k k = false) by (apply Nat.ltb_ge; lia). assert (E' : Nat.ltb k (S k) = true) by (apply Nat.ltb_lt; lia). rewrite E, E'. simpl. now constructor.
    + destruct (Nat.ltb_spec l k) as [L|L].
      * assert (E' : Nat.ltb l (S k) = true) by (apply Nat.ltb_lt; lia). rewrite E'. etransitivity; [symmetry; apply Permutation_middle|]. now constructor.
      * assert (E' : Nat.ltb l (S k) = false) by (apply Nat.ltb_ge; lia). now rewrite E'.
Qed.

Lemma leveled_all out : Permutation (leveled out (S (list_max (map fst out)))) out.
Proof.
  etransitivity; [apply leveled_perm|]. assert (H : forall p, In p out -> Nat.ltb (fst p) (S (list_max (map fst out))) = true).
  { intros p I. apply Nat.ltb_lt. assert (Le : Forall (fun x => (x <= list_max (map fst out))%nat) (map fst out)) by (apply list_max_le; lia).
    rewrite Forall_forall in Le. assert (In (fst p) (map fst out)) by now apply in_map. apply Le in H. lia. }
  revert H. generalize (S (list_max (map fst out))). intros k H. induction out as [|p out IH]; [constructor|]. simpl. rewrite (H p (or_introl eq_refl)). constructor. apply IH. intros q I. apply H. now right.
Qed.

Lemma leveled_descends out k : descending (leveled out k).
Proof.
  induction k as [|k IH]; [exact Logic.I|]. rewrite leveled_S. apply descending_app; [|assumption|].
  - assert (H : forall p, In p (filter (fun p => Nat.eqb (fst p) k) out) -> fst p = k) by (intros p I; apply filter_In in I; now apply Nat.eqb_eq).
    induction (filter (fun p => Nat.eqb (fst p) k) out) as [|p l IHl]; [exact Logic.I|]. split; [|apply IHl; intros q I; apply H; now right].
    intros y I. rewrite (H p (or_introl eq_refl)), (H y (or_intror I)). lia.
  - intros a b Ia Ib. apply filter_In in Ia. destruct Ia as [_ Ea]. apply Nat.eqb_eq in Ea. apply (Permutation_in _ (leveled_perm out k)) in Ib. apply filter_In in Ib. destruct Ib as [_ Eb]. apply Nat.ltb_lt in Eb. lia.
Qed.

Lemma grown_ordered r0 D out : grown r0 D out -> ordered (tree_edges out).
Proof.
  intro G. unfold tree_edges. fold (leveled out (S (list_max (map fst out)))).
  assert (H : forall L pre, Permutation (pre ++ L) out -> descending L -> ordered (map snd L)).
  { induction L as [|[l e] L IH]; intros pre P Ds; [exact Logic.I|]. destruct Ds as [D1 D2]. cbn [map snd ordered]. split; [|apply (IH (pre ++ [(l, e)])); [now rewrite <- app_assoc|assumption]].
    destruct e as [v w t| |]; auto. assert (I : In (l, Compare v w t) out) by (apply (Permutation_in _ P); apply in_or_app; right; now left).
    apply in_split in I. destruct I as (o1 & o2 & E). rewrite E in P. apply Permutation_app_inv in P. destruct (grown_found r0 D out G o1 l v w t o2 E) as (p & c & O & Kc & Kp & F).
    assert (H : forall e', In e' (map snd L) -> touches c e' = false).
    { intros e' I'. apply in_map_iff in I'. destruct I' as ([l' e''] & <- & I'). cbn [snd]. destruct (touches c e'') eqn:T; [|reflexivity]. exfalso.
      assert (l' = S l) by (apply (F l' e''); [apply (Permutation_in _ P); apply in_or_app; now right|assumption]). specialize (D1 _ I'). simpl in D1. lia. }
    destruct O as [[E1 E2]|[E1 E2]]; [exists v, w|exists w, v]; (split; [auto|]); intros e' I'; rewrite E2; auto. }
  apply (H _ []); [apply leveled_all|apply leveled_descends].
Qed.

Lemma tree_edges_In out e : In e (tree_edges out) <-> In e (map snd out).
Proof.
  unfold tree_edges. fold (leveled out (S (list_max (map fst out)))). pose proof (Permutation_map snd (leveled_all out)) as P.
  split; apply Permutation_in; [assumption|now symmetry].
Qed.

(** ** The trees of a row *)

Fixpoint separate_trees (ts : list (list entry)) : Prop :=
  match ts with
  | [] => True
  | es :: more => ordered es /\ (forall x e e', In e es -> In e' (concat more) -> touches x e = true -> touches x e' = true -> False) /\ separate_trees more
  end.

Section Forest.
Variable r : row.
Hypothesis Apart : forall v w t, In (Compare v w t) r -> var_number v <> var_number w.

Lemma grow_forest_spec : forall roots seen, (forall e x y, In e r -> touches x e = true -> touches y e = true -> In x seen -> In y seen) -> incl roots (row_nodes r) ->
  separate_trees (grow_forest r roots seen) /\ incl (concat (grow_forest r roots seen)) r /\
  (forall e x, In e (concat (grow_forest r roots seen)) -> touches x e = true -> ~ In x seen) /\
  (acyclic r -> forall e x, In x roots -> ~ In x seen -> In e r -> touches x e = true -> In e (concat (grow_forest r roots seen))).
Proof.
  induction roots as [|x roots IH]; intros seen Cl In0.
  - split; [exact Logic.I|]. split; [intros e []|]. split; [intros e y []|]. intros _ e y [].
  - cbn [grow_forest]. destruct (mem_nat x seen) eqn:M.
    + destruct (IH seen Cl (fun y I => In0 y (or_intror I))) as (A & B & C & E). split; [assumption|]. split; [assumption|]. split; [assumption|].
      intros Ac e y [<-|Iy] Ny; [apply mem_nat_iff in M; contradiction|]. now apply E.
    + apply mem_nat_not in M.
      destruct (build_tree_spec r Apart seen Cl x (S (length (row_nodes r))) x 0 seen [] [(x, 0)]) as (D' & (St & ID & IO & Fi) & Dn).
      { constructor. } { intros e []. } { now left. }
      { intro y. split; [auto|]. intros [Y|[[Y|[]] Z]]; [assumption|]. simpl in Y. congruence. }
      { intros y [<-|[]]. exact M. }
      { apply In0. now left. }
      { unfold unseen. clear. induction (row_nodes r) as [|z l IH]; simpl; [lia|]. destruct (negb (mem_nat z seen)); simpl; lia. }
      destruct (build_tree (S (length (row_nodes r))) r x 0 (seen, [])) as [seen' out]. cbn [fst snd] in *. destruct St as [G Ro Sv Nw]. cbn [fst snd] in *.
      assert (All : forall y e, In y (map fst D') -> In e r -> touches y e = true -> done r D' out e).
      { intros y e Ky Ie T. destruct (Nat.eq_dec y x) as [->|N]; [now apply Dn|]. apply (Fi y); auto. intros [E|[]]. simpl in E. congruence. }
      assert (Cl' : forall e y z, In e r -> touches y e = true -> touches z e = true -> In y seen' -> In z seen').
      { intros e y z Ie Ty Tz Iy. apply Sv. apply Sv in Iy. destruct Iy as [Iy|Iy]; [left; now apply (Cl e y z)|]. right. destruct (All y e Iy Ie Ty) as [H _]. auto. }
      destruct (IH seen' Cl' (fun y I => In0 y (or_intror I))) as (A & B & C & E). cbn [separate_trees concat].
      split; [split; [now apply (grown_ordered x D')|split; [|assumption]]|split; [|split]].
      * intros y e e' Ie Ie' Te Te'. apply (C e' y Ie' Te'). apply Sv. right. rewrite tree_edges_In, in_map_iff in Ie. destruct Ie as ([l e0] & Ee & Ie). simpl in Ee. subst e0. now apply (grown_touched x D' out G l e).
      * apply incl_app; [|assumption]. intros e Ie. apply Ro. now rewrite <- tree_edges_In.
      * intros e y Ie Te. apply in_app_or in Ie. destruct Ie as [Ie|Ie].
        -- rewrite tree_edges_In, in_map_iff in Ie. destruct Ie as ([l e0] & Ee & Ie). simpl in Ee. subst e0. apply Nw. now apply (grown_touched x D' out G l e).
        -- intro Iy. apply (C e y Ie Te). apply Sv. now left.
      * intros Ac e y Iy Ny Ie Te. apply in_or_app. destruct (in_dec Nat.eq_dec y (map fst D')) as [Ky|Ky].
        -- left. rewrite tree_edges_In. now apply (All y e).
        -- right. assert (Ny' : ~ In y seen') by (rewrite Sv; tauto). destruct Iy as [<-|Iy]; [|now apply (E Ac e y)].
           exfalso. apply Ky. apply in_map_iff. exists (x, 0). split; [reflexivity|]. apply ID. now left.
Qed.

Lemma forest_separate order : separate_trees (forest order r).
Proof. unfold forest. apply grow_forest_spec; [intros e x y _ _ _ []|]. apply incl_app; [|apply incl_refl]. intros x I. apply filter_In in I. apply mem_nat_iff, I. Qed.

Lemma forest_of_row order e : In e (concat (forest order r)) -> In e r.
Proof. unfold forest. apply grow_forest_spec; [intros e' x y _ _ _ []|]. apply incl_app; [|apply incl_refl]. intros x I. apply filter_In in I. apply mem_nat_iff, I. Qed.

Lemma forest_all order e : acyclic r -> In e r -> In e (concat (forest order r)).
Proof.
  intros Ac Ie. unfold forest. assert (exists v, In v (entry_vars e)) as (v & Iv) by (destruct e as [v| v | v]; exists v; now left).
  assert (T : touches (var_number v) e = true) by (apply touches_iff; exists v; auto).
  destruct (grow_forest_spec (filter (fun x => mem_nat x (row_nodes r)) order ++ row_nodes r) []) as (_ & _ & _ & H).
  - intros e' x y _ _ _ [].
  - apply incl_app; [|apply incl_refl]. intros x I. apply filter_In in I. apply mem_nat_iff, I.
  - apply (H Ac e (var_number v)); auto. apply in_or_app. right. now apply (row_node r e).
Qed.
End Forest.
