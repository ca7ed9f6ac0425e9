(** The automaton of a regular expression, the reference matcher, and the constraint. *)
From Coq Require Import ZArith List Bool Arith Ascii Lia.
From Verif Require Import IntervalSet Vars VarsSpec State StateSpec StateProofs Epochs Engine EngineSpec EngineQueueProofs SessionSpec Tracker ContractSpec ContractProofs RunProofs
  Solve SolveSpec SolveProofs LexProofs GacAllDifferentProofs Stateful StatefulSpec ConsistencySpec Layered LayeredSpec LayeredProofs RegexSpec Regex RegexProofs.
Import ListNotations.
Local Open Scope Z_scope.

(** ** Searching *)

Lemma is_in_spec xs x : is_in xs x = true <-> In x xs.
Proof.
  unfold is_in. rewrite existsb_exists. split; [intros (y & I & E); apply Nat.eqb_eq in E; now subst|]. intro I. exists x. split; [assumption|apply Nat.eqb_refl].
Qed.

Lemma unseen_In ys : forall seen z, In z (unseen seen ys) <-> In z ys /\ ~ In z seen.
Proof.
  induction ys as [|y ys IH]; intros seen z; simpl; [tauto|]. destruct (is_in seen y) eqn:E.
  - rewrite IH. apply is_in_spec in E. split; [tauto|]. intros [[->|I] N]; [contradiction|auto].
  - rewrite <- not_true_iff_false, is_in_spec in E. simpl. rewrite IH. simpl. split.
    + intros [->|[I N]]; [auto|]. split; [now right|tauto].
    + intros [[->|I] N]; [now left|]. destruct (Nat.eq_dec y z) as [->|Ne]; [now left|]. right. split; [assumption|]. intros [?|?]; [contradiction|contradiction].
Qed.

Lemma unseen_NoDup ys : forall seen, NoDup (unseen seen ys).
Proof.
  induction ys as [|y ys IH]; intro seen; simpl; [constructor|]. destruct (is_in seen y); [apply IH|]. constructor; [|apply IH]. rewrite unseen_In. simpl. tauto.
Qed.

Section Explore.
  Context (next : nat -> list nat) (U : list nat) (Closed : forall x, In x U -> incl (next x) U).

  Inductive reach : nat -> nat -> Prop :=
  | reach_here x : reach x x
  | reach_next x y z : reach x y -> In z (next y) -> reach x z.

  Lemma reach_first x y z : In y (next x) -> reach y z -> reach x z.
  Proof. intros I R. induction R as [y|y u v R IH J]; [apply (reach_next x x); [constructor|assumption]|]. apply (reach_next x u); auto. Qed.

  Lemma explore_spec stack fuel : forall seen todo, NoDup seen -> incl seen U -> incl todo seen -> (length U + length todo <= fuel + length seen)%nat ->
    (forall x, In x seen -> In x todo \/ incl (next x) seen) ->
    let found := explore next stack fuel seen todo in
    (exists more, found = seen ++ more) /\ NoDup found /\ incl found U /\ (forall x, In x found -> incl (next x) found) /\
    (forall x, In x found -> exists y, In y seen /\ reach y x).
  Proof.
    induction fuel as [|fuel IH]; intros seen todo ND IU IT Hf Cl.
    - assert (L : (length seen <= length U)%nat) by now apply NoDup_incl_length. destruct todo; [|simpl in Hf; lia]. simpl. split; [exists []; now rewrite app_nil_r|]. split; [assumption|]. split; [assumption|].
      split; [intros x I; destruct (Cl x I) as [[]|]; assumption|]. intros x I. exists x. split; [assumption|constructor].
    - destruct todo as [|x rest].
      { simpl. split; [exists []; now rewrite app_nil_r|]. split; [assumption|]. split; [assumption|]. split; [intros x I; destruct (Cl x I) as [[]|]; assumption|]. intros x I. exists x. split; [assumption|constructor]. }
      cbn [explore]. set (new := unseen seen (next x)). assert (Ix : In x seen) by (apply IT; now left).
      assert (Tl : forall z, In z (if stack then rev new ++ rest else rest ++ new) <-> In z rest \/ In z new).
      { intro z. destruct stack; rewrite in_app_iff, <- ?in_rev; tauto. }
      destruct (IH (seen ++ new) (if stack then rev new ++ rest else rest ++ new)) as ((more & E) & A & B & C & D).
      + apply NoDup_app_disj; [assumption|apply unseen_NoDup|]. intros z I J. apply unseen_In in J. tauto.
      + intros z I. apply in_app_iff in I. destruct I as [I|I]; [now apply IU|]. apply unseen_In in I. apply (Closed x); [now apply IU|tauto].
      + intros z I. apply Tl in I. apply in_app_iff. destruct I as [I|I]; [left; apply IT; now right|now right].
      + rewrite app_length. simpl in Hf. destruct stack; rewrite app_length, ?rev_length; lia.
      + intros z I. destruct (Nat.eq_dec z x) as [->|Ne].
        * right. intros y J. apply in_app_iff. destruct (in_dec Nat.eq_dec y seen) as [?|N]; [now left|]. right. now apply unseen_In.
        * apply in_app_iff in I. rewrite Tl. destruct I as [I|I]; [|auto]. destruct (Cl z I) as [[->|J]|J]; [congruence|auto|]. right. intros y Jy. apply in_app_iff. left. now apply J.
      + split; [exists (new ++ more); now rewrite app_assoc|]. split; [assumption|]. split; [assumption|]. split; [assumption|]. intros z I. destruct (D z I) as (y & J & R). apply in_app_iff in J.
        destruct J as [J|J]; [eauto|]. exists x. split; [assumption|]. apply unseen_In in J. destruct J as [J _]. now apply reach_first with y.
  Qed.

  Lemma explored stack x fuel : In x U -> (length U <= fuel)%nat -> let found := explore next stack fuel [x] [x] in
    (exists more, found = x :: more) /\ NoDup found /\ incl found U /\ (forall y, In y found <-> reach x y).
  Proof.
    intros I L. destruct (explore_spec stack fuel [x] [x]) as (A & B & C & D & E).
    - repeat constructor. intros [].
    - intros y [<-|[]]. assumption.
    - apply incl_refl.
    - simpl. lia.
    - intros y [->|[]]. left. now left.
    - split; [exact A|]. split; [assumption|]. split; [assumption|]. intro y. split.
      + intro J. destruct (E y J) as (z & [->|[]] & R). assumption.
      + intro R. clear E. induction R as [x|x y z R IH J]; [destruct A as (more & ->); now left|]. apply (D y); auto.
  Qed.
End Explore.

(** ** Automata with silent moves *)

Inductive path (E : nat -> option Z -> nat -> Prop) : nat -> list Z -> nat -> Prop :=
| path_here q : path E q [] q
| path_eps p q w r : E p None q -> path E q w r -> path E p w r
| path_sym p v q w r : E p (Some v) q -> path E q w r -> path E p (v :: w) r.

Lemma path_more (E E' : nat -> option Z -> nat -> Prop) p w q : (forall p l q, E p l q -> E' p l q) -> path E p w q -> path E' p w q.
Proof. intros I P. induction P; [constructor|eapply path_eps; eauto|eapply path_sym; eauto]. Qed.

Lemma path_app E p u q v r : path E p u q -> path E q v r -> path E p (u ++ v) r.
Proof. intros P Q. induction P; simpl; [assumption|eapply path_eps; eauto|eapply path_sym; eauto]. Qed.

Lemma path_silent E p w q r s : path E p w q -> E q None r -> path E r s r -> s = [] -> path E p w r.
Proof. intros P X _ _. rewrite <- (app_nil_r w). apply (path_app _ _ _ q); [assumption|]. eapply path_eps; [exact X|constructor]. Qed.

Definition edges (b : builder) (p : nat) (l : option Z) (q : nat) : Prop :=
  match l with None => In (p, q) (b_eps b) | Some v => In (p, v, q) (b_sym b) end.

Lemma edges_eps es b p l q : edges (add_eps es b) p l q <-> edges b p l q \/ (l = None /\ In (p, q) es).
Proof. destruct l; simpl; [intuition congruence|]. rewrite in_app_iff. tauto. Qed.

Lemma edges_sym es b p l q : edges (add_sym es b) p l q <-> edges b p l q \/ exists v, l = Some v /\ In (p, v, q) es.
Proof.
  destruct l as [v|]; simpl.
  - rewrite in_app_iff. split; [intros [?|?]; eauto|]. intros [?|(v' & [= <-] & ?)]; auto.
  - split; [auto|]. intros [?|(v' & [=] & _)]. assumption.
Qed.

(** The edges of the fragment, and what it accepts. *)
Definition fragment (x : core) (b b' : builder) (s a : nat) : Prop :=
  (b_states b <= s < b_states b')%nat /\ (b_states b <= a < b_states b')%nat /\
  exists E, (forall p l q, edges b' p l q <-> edges b p l q \/ E p l q) /\
    (forall p l q, E p l q -> (b_states b <= p < b_states b')%nat /\ (b_states b <= q < b_states b')%nat) /\
    forall w, path E s w a <-> denotes x w.

Lemma concat_path (Ex Ey : nat -> option Z -> nat -> Prop) n0 n1 n2 xa ys q :
  (forall p l q, Ex p l q -> (n0 <= p < n1)%nat /\ (n0 <= q < n1)%nat) -> (forall p l q, Ey p l q -> (n1 <= p < n2)%nat /\ (n1 <= q < n2)%nat) ->
  (n0 <= xa < n1)%nat -> (n1 <= ys < n2)%nat ->
  forall p w, path (fun p l r => Ex p l r \/ Ey p l r \/ (p = xa /\ l = None /\ r = ys)) p w q -> (n1 <= q < n2)%nat ->
  ((n0 <= p < n1)%nat -> exists u v, w = u ++ v /\ path Ex p u xa /\ path Ey ys v q) /\ ((n1 <= p < n2)%nat -> path Ey p w q).
Proof.
  intros Rx Ry Hx Hy p w P Hq. induction P as [q|p p' w q X P IH|p v p' w q X P IH].
  - split; [lia|constructor].
  - specialize (IH Hq). destruct X as [X|[X|(-> & _ & ->)]].
    + destruct (Rx _ _ _ X). split; [|lia]. intros _. destruct IH as [IH _]. destruct (IH ltac:(lia)) as (u & v & -> & A & B). exists u, v. repeat split; auto. eapply path_eps; eauto.
    + destruct (Ry _ _ _ X). split; [lia|]. intros _. eapply path_eps; [exact X|]. apply IH. lia.
    + split; [|lia]. intros _. exists [], w. repeat split; [constructor|]. apply IH. lia.
  - specialize (IH Hq). destruct X as [X|[X|(-> & [=] & ->)]].
    + destruct (Rx _ _ _ X). split; [|lia]. intros _. destruct IH as [IH _]. destruct (IH ltac:(lia)) as (u & v' & -> & A & B). exists (v :: u), v'. repeat split; auto. eapply path_sym; eauto.
    + destruct (Ry _ _ _ X). split; [lia|]. intros _. eapply path_sym; [exact X|]. apply IH. lia.
Qed.

Lemma union_path (Ex Ey : nat -> option Z -> nat -> Prop) s n1 n2 xs xa ys ya :
  (forall p l q, Ex p l q -> (2 + s <= p < n1)%nat /\ (2 + s <= q < n1)%nat) -> (forall p l q, Ey p l q -> (n1 <= p < n2)%nat /\ (n1 <= q < n2)%nat) ->
  (2 + s <= xs < n1)%nat -> (2 + s <= xa < n1)%nat -> (n1 <= ys < n2)%nat -> (n1 <= ya < n2)%nat ->
  forall q p w, path (fun p l r => Ex p l r \/ Ey p l r \/ (l = None /\ In (p, r) [(s, xs); (s, ys); (xa, S s); (ya, S s)])) p w q -> q = S s ->
  ((2 + s <= p < n1)%nat -> path Ex p w xa) /\ ((n1 <= p < n2)%nat -> path Ey p w ya) /\ (p = S s -> w = []) /\ (p = s -> path Ex xs w xa \/ path Ey ys w ya).
Proof.
  intros Rx Ry H1 H2 H3 H4 q p w P Hq. induction P as [q|p p' w q X P IH|p v p' w q X P IH].
  - subst q. repeat split; try lia; auto.
  - specialize (IH Hq). destruct IH as (I1 & I2 & I3 & I4). destruct X as [X|[X|(_ & X)]].
    + destruct (Rx _ _ _ X). repeat split; try lia. intros _. eapply path_eps; [exact X|]. apply I1. lia.
    + destruct (Ry _ _ _ X). repeat split; try lia. intros _. eapply path_eps; [exact X|]. apply I2. lia.
    + destruct X as [[= <- <-]|[[= <- <-]|[[= <- <-]|[[= <- <-]|[]]]]]; repeat split; try lia.
      * intros _. left. apply I1. lia.
      * intros _. right. apply I2. lia.
      * intros _. rewrite (I3 eq_refl). constructor.
      * intros _. rewrite (I3 eq_refl). constructor.
  - specialize (IH Hq). destruct IH as (I1 & I2 & I3 & I4). destruct X as [X|[X|([=] & X)]].
    + destruct (Rx _ _ _ X). repeat split; try lia. intros _. eapply path_sym; [exact X|]. apply I1. lia.
    + destruct (Ry _ _ _ X). repeat split; try lia. intros _. eapply path_sym; [exact X|]. apply I2. lia.
Qed.

Lemma star_path (Ex : nat -> option Z -> nat -> Prop) s n1 xs xa :
  (forall p l q, Ex p l q -> (2 + s <= p < n1)%nat /\ (2 + s <= q < n1)%nat) -> (2 + s <= xs < n1)%nat -> (2 + s <= xa < n1)%nat ->
  forall q p w, path (fun p l r => Ex p l r \/ (l = None /\ In (p, r) [(s, xs); (s, S s); (xa, xs); (xa, S s)])) p w q -> q = S s ->
  ((2 + s <= p < n1)%nat -> exists u ws, w = u ++ concat ws /\ path Ex p u xa /\ Forall (fun v => path Ex xs v xa) ws) /\ (p = S s -> w = []) /\
  (p = s -> exists ws, w = concat ws /\ Forall (fun v => path Ex xs v xa) ws).
Proof.
  intros Rx H1 H2 q p w P Hq. induction P as [q|p p' w q X P IH|p v p' w q X P IH].
  - subst q. repeat split; try lia.
  - specialize (IH Hq). destruct IH as (I1 & I2 & I3). destruct X as [X|(_ & X)].
    + destruct (Rx _ _ _ X). repeat split; try lia. intros _. destruct (I1 ltac:(lia)) as (u & ws & -> & A & F). exists u, ws. repeat split; auto. eapply path_eps; eauto.
    + destruct X as [[= <- <-]|[[= <- <-]|[[= <- <-]|[[= <- <-]|[]]]]]; repeat split; try lia.
      * intros _. destruct (I1 ltac:(lia)) as (u & ws & -> & A & F). exists (u :: ws). split; [reflexivity|now constructor].
      * intros _. rewrite (I2 eq_refl). exists []. split; [reflexivity|constructor].
      * intros _. destruct (I1 ltac:(lia)) as (u & ws & -> & A & F). exists [], (u :: ws). repeat split; [constructor|now constructor].
      * intros _. rewrite (I2 eq_refl). exists [], []. repeat split; constructor.
  - specialize (IH Hq). destruct IH as (I1 & I2 & I3). destruct X as [X|([=] & X)].
    destruct (Rx _ _ _ X). repeat split; try lia. intros _. destruct (I1 ltac:(lia)) as (u & ws & -> & A & F). exists (v :: u), ws. repeat split; auto. eapply path_sym; eauto.
Qed.

Lemma build_fragment x : forall b b' s a, build x b = (b', (s, a)) -> fragment x b b' s a.
Proof.
  induction x as [|vs|x IHx y IHy|x IHx y IHy|x IHx]; intros b b' s a E; cbn [build] in E.
  - injection E as <- <- <-. split; [simpl; lia|]. split; [simpl; lia|]. exists (fun p l q => l = None /\ In (p, q) [(b_states b, S (b_states b))]). split; [|split].
    + intros p l q. rewrite edges_eps. reflexivity.
    + intros p l q (_ & [[= <- <-]|[]]). simpl. lia.
    + intro w. simpl. split.
      * intro P. assert (G : forall q p w, path (fun p l q => l = None /\ In (p, q) [(b_states b, S (b_states b))]) p w q -> w = []); [|now apply (G _ _ _ P)].
        intros q p w' P'. induction P' as [q|p p' w' q X P' IH|p v p' w' q X P' IH]; auto. destruct X as [[=] _].
      * intros ->. eapply path_eps; [|constructor]. split; [reflexivity|now left].
  - injection E as <- <- <-. split; [simpl; lia|]. split; [simpl; lia|]. exists (fun p l q => exists v, l = Some v /\ In (p, v, q) (map (fun v => (b_states b, v, S (b_states b))) vs)). split; [|split].
    + intros p l q. rewrite edges_sym. reflexivity.
    + intros p l q (v & _ & I). apply in_map_iff in I. destruct I as (v' & [= <- <- <-] & _). simpl. lia.
    + intro w. simpl. split.
      * intro P. inversion P as [q Eq|p p' w' q X P'|p v p' w' q X P']; subst; [lia|destruct X as (u & [=] & _)|].
        destruct X as (v' & [= <-] & I). apply in_map_iff in I. destruct I as (v' & [= <- <-] & I). exists v'. split; [|assumption]. f_equal.
        inversion P' as [q Eq|p p' w'' q X P''|p u p' w'' q X P'']; subst; [reflexivity| |]; destruct X as (u' & Ev & J); [discriminate|]; apply in_map_iff in J; destruct J as (v'' & Ej & _); injection Ej; intros; lia.
      * intros (v & -> & I). eapply path_sym; [|constructor]. exists v. split; [reflexivity|]. apply in_map_iff. eauto.
  - destruct (build x b) as [b1 [xs xa]] eqn:Ex. destruct (build y b1) as [b2 [ys ya]] eqn:Ey. injection E as <- <- <-.
    destruct (IHx _ _ _ _ Ex) as (H1 & H2 & E1 & Ed1 & R1 & P1). destruct (IHy _ _ _ _ Ey) as (H3 & H4 & E2 & Ed2 & R2 & P2). split; [simpl; lia|]. split; [simpl; lia|].
    exists (fun p l r => E1 p l r \/ E2 p l r \/ (p = xa /\ l = None /\ r = ys)). split; [|split].
    + intros p l q. rewrite edges_eps, Ed2, Ed1. simpl. split; [intros [[[?|?]|?]|(-> & [[= <- <-]|[]])]; auto 8|]. intros [?|[?|[?|(-> & -> & ->)]]]; auto.
    + simpl. intros p l q [X|[X|(-> & _ & ->)]]; [apply R1 in X|apply R2 in X|]; lia.
    + intro w. simpl. split.
      * intro P. destruct (concat_path E1 E2 _ _ _ xa ys ya R1 R2 H2 H3 _ _ P H4) as [Q _]. destruct (Q H1) as (u & v & -> & A & B). exists u, v. split; [reflexivity|]. split; [now apply P1|now apply P2].
      * intros (u & v & -> & A & B). apply P1 in A. apply P2 in B. apply (path_app _ _ _ xa); [eapply path_more; [|exact A]; auto|]. eapply path_eps; [right; right; auto|]. eapply path_more; [|exact B]. auto.
  - destruct (build x (add_two b)) as [b1 [xs xa]] eqn:Ex. destruct (build y b1) as [b2 [ys ya]] eqn:Ey. injection E as <- <- <-.
    destruct (IHx _ _ _ _ Ex) as (H1 & H2 & E1 & Ed1 & R1 & P1). destruct (IHy _ _ _ _ Ey) as (H3 & H4 & E2 & Ed2 & R2 & P2). cbn [add_two b_states] in *. split; [simpl; lia|]. split; [simpl; lia|].
    set (s := b_states b) in *.
    exists (fun p l r => E1 p l r \/ E2 p l r \/ (l = None /\ In (p, r) [(s, xs); (s, ys); (xa, S s); (ya, S s)])). split; [|split].
    + intros p l q. rewrite edges_eps, Ed2, Ed1. change (edges (add_two b) p l q) with (edges b p l q). tauto.
    + intros p l q [X|[X|(_ & X)]]; [apply R1 in X; simpl; lia|apply R2 in X; simpl; lia|]. simpl b_states. destruct X as [[= <- <-]|[[= <- <-]|[[= <- <-]|[[= <- <-]|[]]]]]; lia.
    + intro w. cbn [denotes]. rewrite <- P1, <- P2. split.
      * intro P. destruct (union_path E1 E2 s _ _ xs xa ys ya R1 R2 H1 H2 H3 H4 _ _ _ P eq_refl) as (_ & _ & _ & Q). now apply Q.
      * intros [P|P].
        -- eapply path_eps; [right; right; split; [reflexivity|left; reflexivity]|]. rewrite <- (app_nil_r w). apply (path_app _ _ _ xa); [eapply path_more; [|exact P]; auto|]. eapply path_eps; [|constructor]. right. right. simpl. auto 10.
        -- eapply path_eps; [right; right; split; [reflexivity|right; left; reflexivity]|]. rewrite <- (app_nil_r w). apply (path_app _ _ _ ya); [eapply path_more; [|exact P]; auto|]. eapply path_eps; [|constructor]. right. right. simpl. auto 10.
  - destruct (build x (add_two b)) as [b1 [xs xa]] eqn:Ex. injection E as <- <- <-. destruct (IHx _ _ _ _ Ex) as (H1 & H2 & E1 & Ed1 & R1 & P1). cbn [add_two b_states] in *.
    split; [simpl; lia|]. split; [simpl; lia|]. set (s := b_states b) in *. exists (fun p l r => E1 p l r \/ (l = None /\ In (p, r) [(s, xs); (s, S s); (xa, xs); (xa, S s)])). split; [|split].
    + intros p l q. rewrite edges_eps, Ed1. change (edges (add_two b) p l q) with (edges b p l q). tauto.
    + intros p l q [X|(_ & X)]; [apply R1 in X; simpl; lia|]. simpl b_states. destruct X as [[= <- <-]|[[= <- <-]|[[= <- <-]|[[= <- <-]|[]]]]]; lia.
    + intro w. cbn [denotes]. split.
      * intro P. destruct (star_path E1 s _ xs xa R1 H1 H2 _ _ _ P eq_refl) as (_ & _ & Q). destruct (Q eq_refl) as (ws & -> & F). exists ws. split; [reflexivity|]. eapply Forall_impl; [|exact F]. intros v. apply P1.
      * intros (ws & -> & F). destruct ws as [|u ws]; [eapply path_eps; [|constructor]; right; simpl; auto 10|].
        eapply path_eps; [right; split; [reflexivity|left; reflexivity]|].
        revert u F. induction ws as [|v ws IHw]; intros u F; apply Forall_cons_iff in F; destruct F as [D F]; apply P1 in D; simpl.
        -- apply (path_app _ _ _ xa); [eapply path_more; [|exact D]; auto|]. eapply path_eps; [|constructor]. right. simpl. auto 10.
        -- apply (path_app _ _ _ xa); [eapply path_more; [|exact D]; auto|]. eapply path_eps; [right; split; [reflexivity|right; right; left; reflexivity]|]. apply (IHw v F).
Qed.

(** ** Without silent moves *)

Section Automaton.
  Context (b : builder) (E : nat -> option Z -> nat -> Prop) (Ed : forall p l q, edges b p l q <-> E p l q)
    (R : forall p l q, E p l q -> (p < b_states b)%nat /\ (q < b_states b)%nat).

  Lemma eps_from_In p q : In q (eps_from b p) <-> E p None q.
  Proof.
    rewrite <- Ed. unfold eps_from. cbn [edges]. rewrite in_map_iff. split.
    - intros ([p' q'] & <- & I). apply filter_In in I. destruct I as [I H]. apply Nat.eqb_eq in H. simpl in *. now subst.
    - intro I. exists (p, q). split; [reflexivity|]. apply filter_In. split; [assumption|apply Nat.eqb_refl].
  Qed.

  Lemma sym_from_In p v q : In (v, q) (sym_from b p) <-> E p (Some v) q.
  Proof.
    rewrite <- Ed. unfold sym_from. cbn [edges]. rewrite in_map_iff. split.
    - intros ([[p' v'] q'] & [= <- <-] & I). apply filter_In in I. destruct I as [I H]. apply Nat.eqb_eq in H. now subst.
    - intro I. exists (p, v, q). split; [reflexivity|]. apply filter_In. split; [assumption|apply Nat.eqb_refl].
  Qed.

  Definition silent : nat -> nat -> Prop := reach (eps_from b).

  Lemma closure_In q p : (q < b_states b)%nat -> (In p (closure b q) <-> silent q p).
  Proof.
    intro Hq. unfold closure. rewrite filter_In, is_in_spec. destruct (explored (eps_from b) (seq 0 (b_states b))) with (stack := true) (x := q) (fuel := b_states b) as (_ & _ & I & S).
    - intros x _ y J. apply eps_from_In in J. apply R in J. apply in_seq. lia.
    - apply in_seq. lia.
    - now rewrite seq_length.
    - rewrite S. split; [tauto|]. intro H. split; [|assumption]. apply I. now apply S.
  Qed.

  Lemma moves_from_In q v t : (q < b_states b)%nat -> (In (v, t) (moves_from b q) <-> exists p, silent q p /\ E p (Some v) t).
  Proof.
    intro Hq. unfold moves_from. rewrite in_flat_map. split; intros (p & A & B); exists p; (split; [now apply closure_In|now apply sym_from_In]).
  Qed.

  Lemma silent_path q p w r : silent q p -> path E p w r -> path E q w r.
  Proof. intros S. revert w. induction S as [q|q p p' S IH I]; intros w P; [assumption|]. apply IH. eapply path_eps; [|exact P]. now apply eps_from_In. Qed.

  Lemma path_silent_first q w r : path E q w r ->
    match w with [] => silent q r | v :: w' => exists p t, silent q p /\ E p (Some v) t /\ path E t w' r end.
  Proof.
    induction 1 as [q|p q w r X P IH|p v q w r X P IH].
    - constructor.
    - apply eps_from_In in X. destruct w as [|v w]; [now apply reach_first with q|]. destruct IH as (p' & t & S & A & B). exists p', t. split; [now apply reach_first with q|auto].
    - exists p, q. split; [constructor|auto].
  Qed.

  Context (start accept : nat) (Hs : (start < b_states b)%nat).
  Let states := kept_states b start.

  Lemma kept : (exists more, states = start :: more) /\ incl states (seq 0 (b_states b)) /\ forall q v t, In q states -> In (v, t) (moves_from b q) -> In t states.
  Proof.
    destruct (explored (fun q => map snd (moves_from b q)) (seq 0 (b_states b))) with (stack := false) (x := start) (fuel := b_states b) as (A & _ & I & S).
    - intros x Ix y J. apply in_map_iff in J. destruct J as ([v t] & <- & J). apply in_seq in Ix. apply moves_from_In in J; [|lia]. destruct J as (p & _ & X). apply R in X. apply in_seq. simpl. lia.
    - apply in_seq. lia.
    - now rewrite seq_length.
    - split; [exact A|]. split; [exact I|]. intros q v t Iq It. apply S. apply S in Iq. apply (reach_next _ _ q); [assumption|]. apply in_map_iff. exists (v, t). auto.
  Qed.

  Lemma index_of_spec t xs : In t xs -> 0 <= index_of t xs /\ nth_error xs (Z.to_nat (index_of t xs)) = Some t.
  Proof.
    induction xs as [|x xs IH]; intro I; [destruct I|]. cbn [index_of]. destruct (Nat.eqb_spec t x) as [->|Ne]; [split; [lia|reflexivity]|].
    destruct I as [->|I]; [congruence|]. destruct (IH I) as [H E']. split; [lia|]. replace (Z.to_nat (1 + index_of t xs)) with (S (Z.to_nat (index_of t xs))) by lia. assumption.
  Qed.

  Lemma automaton_accepts w : forall i q, 0 <= i -> nth_error states (Z.to_nat i) = Some q ->
    ((exists f, reads (fun p v r => In (p, v, r) (flat_map (fun '(i, q) => map (fun '(v, t) => (i, v, index_of t states)) (moves_from b q)) (with_index 0 states))) i w f /\
       In f (map fst (filter (fun '(_, q) => is_in (closure b q) accept) (with_index 0 states)))) <-> path E q w accept).
  Proof.
    destruct kept as (_ & IU & Cl). induction w as [|v w IH]; intros i q Hi Eq.
    - assert (Hq : (q < b_states b)%nat) by (apply nth_error_In in Eq; apply IU, in_seq in Eq; lia). split.
      + intros (f & Rd & I). inversion Rd; subst. apply in_map_iff in I. destruct I as ([i' q'] & <- & I). apply filter_In in I. destruct I as [I J]. apply with_index_In in I. destruct I as [_ E']. simpl in Eq.
        rewrite Z.sub_0_r in E'. rewrite Eq in E'. injection E' as <-. apply is_in_spec, closure_In in J; [|assumption]. now apply (silent_path q accept); [|constructor].
      + intro P. apply path_silent_first in P. exists i. split; [constructor|]. apply in_map_iff. exists (i, q). split; [reflexivity|]. apply filter_In. split; [apply with_index_In; rewrite Z.sub_0_r; auto|].
        apply is_in_spec. now apply closure_In.
    - assert (Iq : In q states) by now apply nth_error_In in Eq. assert (Hq : (q < b_states b)%nat) by (apply IU, in_seq in Iq; lia). split.
      + intros (f & Rd & I). inversion Rd as [|? ? r ? ? X Rd']; subst. apply in_flat_map in X. destruct X as ([i' q'] & J & X). apply in_map_iff in X. destruct X as ([v' t] & [= -> -> <-] & X).
        apply with_index_In in J. destruct J as [_ J]. rewrite Z.sub_0_r in J. rewrite Eq in J. injection J as <-. assert (It : In t states) by now apply (Cl q v). destruct (index_of_spec t states It) as [H0 Et].
        assert (P : path E t w accept) by (apply (IH _ _ H0 Et); eauto). apply moves_from_In in X; [|assumption]. destruct X as (p & S & X). apply (silent_path q p); [assumption|]. eapply path_sym; eauto.
      + intro P. apply path_silent_first in P. destruct P as (p & t & S & X & P). assert (M : In (v, t) (moves_from b q)) by (apply moves_from_In; eauto).
        assert (It : In t states) by now apply (Cl q v). destruct (index_of_spec t states It) as [H0 Et]. destruct (proj2 (IH _ _ H0 Et) P) as (f & Rd & F). exists f. split; [|assumption].
        econstructor; [|exact Rd]. apply in_flat_map. exists (i, q). split; [apply with_index_In; rewrite Z.sub_0_r; auto|]. apply in_map_iff. exists (v, t). auto.
  Qed.
End Automaton.

Lemma build_nfa_accepts root w : accepts (fun q v r => In (q, v, r) (nfa_arrows (build_nfa root))) (nfa_final (build_nfa root)) w <-> denotes root w.
Proof.
  unfold build_nfa. destruct (build root no_states) as [b [start accept]] eqn:Eb. destruct (build_fragment root _ _ _ _ Eb) as (H1 & H2 & E & Ed & R & P). rewrite <- P. cbn [nfa_arrows nfa_final].
  assert (Ed' : forall p l q, edges b p l q <-> E p l q) by (intros p l q; rewrite Ed; split; [|auto]; intros [X|X]; [|assumption]; destruct l; destruct X).
  assert (R' : forall p l q, E p l q -> (p < b_states b)%nat /\ (q < b_states b)%nat) by (intros p l q X; apply R in X; lia).
  destruct (kept b E Ed' R' start ltac:(lia)) as ((more & Em) & _).
  apply (automaton_accepts b E Ed' R' start accept ltac:(lia) w 0 start); [lia|]. now rewrite Em.
Qed.

(** ** The reference matcher *)

Lemma skipn_cons_nth {X} (l : list X) i v : nth_error l i = Some v <-> exists rest, skipn i l = v :: rest.
Proof.
  revert l. induction i as [|i IH]; intros [|x l]; simpl.
  - split; [discriminate|intros (r & [=])].
  - split; [intros [= ->]; eauto|intros (r & [= -> _]); reflexivity].
  - split; [discriminate|intros (r & [=])].
  - apply IH.
Qed.

Lemma skipn_further {X} (l : list X) i u rest : skipn i l = u ++ rest -> skipn (i + length u) l = rest.
Proof.
  revert l. induction i as [|i IH]; intros l E.
  - cbn [skipn] in E. subst l. cbn [Nat.add]. rewrite skipn_app, Nat.sub_diag, skipn_all. reflexivity.
  - destruct l as [|x l]; [|exact (IH l E)]. cbn [skipn] in E. symmetry in E. apply app_eq_nil in E. destruct E as [-> ->]. reflexivity.
Qed.

Lemma match_ends_spec x w : forall i j, (i <= length w)%nat -> (In j (match_ends x w i) <-> exists u rest, skipn i w = u ++ rest /\ denotes x u /\ j = (i + length u)%nat).
Proof.
  assert (Le : forall i u rest, (i <= length w)%nat -> skipn i w = u ++ rest -> (i + length u <= length w)%nat).
  { intros i u rest H E. apply (f_equal (@length Z)) in E. rewrite skipn_length, app_length in E. lia. }
  induction x as [|vs|x IHx y IHy|x IHx y IHy|x IHx]; intros i j Hi; cbn [match_ends denotes].
  - split; [intros [<-|[]]; exists [], (skipn i w); simpl; repeat split; lia|]. intros (u & rest & E & -> & ->). simpl. lia.
  - destruct (nth_error w i) as [v|] eqn:En.
    + apply skipn_cons_nth in En. destruct En as (rest & En). destruct (existsb (Z.eqb v) vs) eqn:Ex.
      * split.
        -- intros [<-|[]]. apply existsb_exists in Ex. destruct Ex as (v' & I & H). apply Z.eqb_eq in H. subst v'. exists [v], rest. split; [assumption|]. split; [eauto|simpl; lia].
        -- intros (u & rest' & E & (v' & -> & I) & ->). simpl. lia.
      * split; [intros []|]. intros (u & rest' & E & (v' & -> & I) & ->). exfalso. rewrite En in E. injection E as <- <-. rewrite <- not_true_iff_false in Ex. apply Ex. apply existsb_exists. exists v. split; [assumption|apply Z.eqb_refl].
    + split; [intros []|]. intros (u & rest' & E & (v' & -> & I) & ->). exfalso. assert (H : nth_error w i = Some v') by (apply skipn_cons_nth; eauto). congruence.
  - rewrite in_flat_map. split.
    + intros (k & A & B). apply IHx in A; [|assumption]. destruct A as (u & rest & E & D & ->). apply IHy in B; [|eauto]. destruct B as (v & rest' & E' & D' & ->).
      rewrite (skipn_further _ _ _ _ E) in E'. subst rest. exists (u ++ v), rest'. split; [now rewrite <- app_assoc|]. split; [eauto|]. rewrite app_length. lia.
    + intros (uv & rest & E & (u & v & -> & D & D') & ->). rewrite <- app_assoc in E. exists (i + length u)%nat. split; [apply IHx; eauto|]. apply IHy; [eauto|]. exists v, rest. split; [now apply skipn_further|]. split; [assumption|]. rewrite app_length. lia.
  - rewrite in_app_iff, (IHx i j Hi), (IHy i j Hi). split.
    + intros [(u & rest & E & D & ->)|(u & rest & E & D & ->)]; exists u, rest; auto.
    + intros (u & rest & E & [D|D] & ->); [left|right]; exists u, rest; auto.
  - assert (Cl : forall k, In k (seq 0 (S (length w))) -> incl (match_ends x w k) (seq 0 (S (length w)))).
    { intros k Ik m Im. apply in_seq in Ik. apply IHx in Im; [|lia]. destruct Im as (u & rest & E & _ & ->). apply Le in E; [|lia]. apply in_seq. lia. }
    destruct (explored (match_ends x w) (seq 0 (S (length w))) Cl true i (S (length w))) as (_ & _ & IU & S); [apply in_seq; lia|now rewrite seq_length|]. rewrite S. split.
    + intro Rc. clear S IU. induction Rc as [i|i k m Rc IH I].
      * exists [], (skipn i w). simpl. repeat split; [exists []; auto|lia].
      * destruct (IH Hi) as (u & rest & E & (ws & -> & F) & ->). apply IHx in I; [|eauto]. destruct I as (v & rest' & E' & D & ->). rewrite (skipn_further _ _ _ _ E) in E'. subst rest.
        exists (concat ws ++ v), rest'. split; [now rewrite <- app_assoc|]. split; [|rewrite app_length; lia]. exists (ws ++ [v]). rewrite concat_app. simpl. rewrite app_nil_r. split; [reflexivity|]. apply Forall_app. auto.
    + intros (u & rest & E & (ws & -> & F) & ->). clear S IU. revert i Hi E. induction F as [|v ws D F IH]; intros i Hi E; simpl in *; [rewrite Nat.add_0_r; constructor|].
      rewrite <- app_assoc in E. apply reach_first with (i + length v)%nat; [apply IHx; eauto|]. rewrite app_length, Nat.add_assoc. apply IH; [eauto|now apply skipn_further].
Qed.

Lemma reference_denotes x w : is_in (match_ends x w 0) (length w) = true <-> denotes x w.
Proof.
  rewrite is_in_spec, match_ends_spec by lia. simpl. split.
  - intros (u & rest & E & D & L). assert (rest = []) as -> by (apply (f_equal (@length Z)) in E; rewrite app_length in E; destruct rest; [reflexivity|simpl in E; lia]). rewrite app_nil_r in E. now subst u.
  - intro D. exists w, []. rewrite app_nil_r. auto.
Qed.

(** ** Both, from the text *)

Lemma regex_compiled s r alphabet : written s r -> exists m, regex_to_nfa s alphabet = Some m /\
  forall w, accepts (fun q v t => In (q, v, t) (nfa_arrows m)) (nfa_final m) w <-> matches (fun v => In v alphabet) r w.
Proof.
  intro W. destruct (parse_regex_complete alphabet s r W) as (x & E & S). exists (build_nfa x). unfold regex_to_nfa. rewrite E. split; [reflexivity|]. intro w. rewrite build_nfa_accepts. apply S.
Qed.

Lemma regex_refused s alphabet : regex_to_nfa s alphabet = None <-> ~ exists r, written s r.
Proof.
  split.
  - intros E (r & W). destruct (regex_compiled s r alphabet W) as (m & E' & _). congruence.
  - intro N. unfold regex_to_nfa. destruct (parse_regex alphabet s) as [x|] eqn:E; [|reflexivity]. exfalso. apply N. destruct (parse_regex_sound alphabet s x E) as (r & W & _). eauto.
Qed.

Lemma reference_accepts s r alphabet w : written s r -> exists b, regex_reference_accepts s alphabet w = Some b /\ (b = true <-> matches (fun v => In v alphabet) r w).
Proof.
  intro W. destruct (parse_regex_complete alphabet s r W) as (x & E & S). unfold regex_reference_accepts. rewrite E. eexists. split; [reflexivity|]. rewrite reference_denotes. apply S.
Qed.

(** ** The constraint *)

Lemma matches_any (P Q : Z -> Prop) r : forall w, (forall v, In v w -> (P v <-> Q v)) -> (matches P r w <-> matches Q r w).
Proof.
  induction r as [v| |negated is|r IHr s IHs|r IHr s IHs|r IHr least most]; intros w H; cbn [matches].
  - reflexivity.
  - split; intros (v & -> & A); exists v; (split; [reflexivity|]; apply (H v); [now left|assumption]).
  - destruct negated; [|reflexivity]. split; intros (v & -> & A & B); exists v; (split; [reflexivity|]; split; [apply (H v); [now left|assumption]|assumption]).
  - split; intros (u & v & -> & A & B); exists u, v; (split; [reflexivity|]; split; [apply IHr|apply IHs]; auto; intros x I; apply H; apply in_app_iff; auto).
  - rewrite (IHr w H), (IHs w H). reflexivity.
  - assert (G : forall ws, w = concat ws -> (Forall (matches P r) ws <-> Forall (matches Q r) ws)).
    { intros ws ->. rewrite !Forall_forall. split; intros F u I; (apply IHr; [|now apply F]); intros v J; apply H; apply in_concat; eauto. }
    split; intros (ws & E & F & B); exists ws; (split; [assumption|]; split; [|assumption]); now apply G.
Qed.

Lemma fold_min vs : forall v x, In x (v :: vs) -> fold_left Z.min vs v <= x.
Proof.
  induction vs as [|u vs IH]; intros v x I; simpl; [destruct I as [->|[]]; lia|]. destruct I as [->|[->|I]].
  - specialize (IH (Z.min x u) _ (or_introl eq_refl)). lia.
  - specialize (IH (Z.min v x) _ (or_introl eq_refl)). lia.
  - apply IH. now right.
Qed.

Lemma fold_max vs : forall v x, In x (v :: vs) -> x <= fold_left Z.max vs v.
Proof.
  induction vs as [|u vs IH]; intros v x I; simpl; [destruct I as [->|[]]; lia|]. destruct I as [->|[->|I]].
  - specialize (IH (Z.max x u) _ (or_introl eq_refl)). lia.
  - specialize (IH (Z.max v x) _ (or_introl eq_refl)). lia.
  - apply IH. now right.
Qed.

Lemma alphabet_has d vars a v : domains_ok d -> within a d -> Forall (var_known d) vars -> In v vars -> In (var_value a v) (regex_alphabet d vars).
Proof.
  intros Hd W K I. assert (J : In (var_value a v) (flat_map (each_value d) vars)).
  { apply in_flat_map. exists v. split; [assumption|]. rewrite Forall_forall in K. apply each_value_In. apply view_member_iff; eauto. }
  unfold regex_alphabet. destruct (flat_map (each_value d) vars) as [|x xs]; [destruct J|]. apply value_range_In. split; [now apply fold_min|now apply fold_max].
Qed.

Lemma installs_within d cs i scope (sat sat' sol : assignment -> Prop) Own : (forall a, within a d -> (sat a <-> sat' a)) ->
  installs d cs i scope sat sol Own -> installs d cs i scope sat' sol Own.
Proof.
  intros S [A1 A2 A3 A4 A5 A6 A7]. constructor; auto.
  - intros a W Sa. apply A4; [assumption|]. now apply S.
  - intros nv Inv Ln St Id Fr. destruct (A7 nv Inv Ln St Id Fr) as (pp & ip & FP & FI & Con). exists pp, ip. split; [assumption|]. split; [assumption|]. intros a W HP HI. apply S; [now apply within_prefix in W|]. now apply Con.
Qed.

Lemma regular_expression_means vars s r k d0 : Forall (var_known d0) vars -> written s r -> regular_expression vars s = Some k ->
  means d0 k vars (fun a => matches (fun _ => True) r (map (var_value a) vars)).
Proof.
  intros K W E. unfold regular_expression in E. destruct (parse_regex [] s); [|discriminate]. injection E as <-. pose proof (proj1 (known_below_all _ _) K) as B. split; [assumption|]. split.
  - intros a a' Sm H. erewrite map_ext_in; [exact H|]. intros v I. symmetry. rewrite Forall_forall in B. apply (same_below_value (length d0)); auto.
  - intros hidden cs Hd. destruct (regex_compiled s r (regex_alphabet (d0 ++ hidden) vars) W) as (m & Em & Am).
    destruct (regular_means vars (nfa_arrows m) (nfa_final m) d0 K) as (_ & _ & M). destruct (M hidden cs Hd) as (sol & Own & Ins). exists sol, Own.
    eapply (installs_within _ _ _ _ (fun a => accepts (fun q v t => In (q, v, t) (nfa_arrows m)) (nfa_final m) (map (var_value a) vars))); [|cbv beta; match goal with |- installs _ _ ?i _ _ _ _ => replace i with (regular vars (nfa_arrows m) (nfa_final m) (d0 ++ hidden) cs); [exact Ins|] end; unfold domains, iset in *; now rewrite Em]. intros a Wa. rewrite Am. apply matches_any. intros v I. apply in_map_iff in I. destruct I as (x & <- & I). split; [auto|]. intros _. apply alphabet_has; auto.
    apply Forall_forall. intros y Iy. rewrite Forall_forall in K. specialize (K y Iy). destruct y; simpl in *; auto; rewrite app_length; unfold domains, iset in *; lia.
Qed.

Lemma regular_expression_refused vars s : regular_expression vars s = None <-> ~ exists r, written s r.
Proof.
  rewrite <- (regex_refused s []). unfold regular_expression, regex_to_nfa. destruct (parse_regex [] s); simpl; split; congruence.
Qed.

Lemma written_same s r r' w : written s r -> written s r' -> (matches (fun _ => True) r w <-> matches (fun _ => True) r' w).
Proof.
  intros W W'. destruct (regex_compiled s r w W) as (m & E & A). destruct (regex_compiled s r' w W') as (m' & E' & A'). rewrite E in E'. injection E' as <-.
  rewrite (matches_any (fun _ => True) (fun v => In v w) r w), (matches_any (fun _ => True) (fun v => In v w) r' w) by (intros; tauto). rewrite <- A, <- A'. reflexivity.
Qed.

Lemma regular_expression_some vars s k : regular_expression vars s = Some k -> exists r, written s r.
Proof.
  intro E. unfold regular_expression in E. destruct (parse_regex [] s) as [x|] eqn:P; [|discriminate]. destruct (parse_regex_sound [] s x P) as (r & W & _). eauto.
Qed.

Lemma regular_expression_posts vars s k d0 : Forall (var_known d0) vars -> regular_expression vars s = Some k ->
  means d0 k vars (fun a => exists r, written s r /\ matches (fun _ => True) r (map (var_value a) vars)).
Proof.
  intros K E. destruct (regular_expression_some _ _ _ E) as (r & W). eapply means_ext; [|apply incl_refl| |exact (regular_expression_means vars s r k d0 K W E)].
  - intro a. split; [eauto|]. intros (r' & W' & M). now apply (written_same s r' r).
  - now apply known_below_all.
Qed.

Lemma matches_more (P Q : Z -> Prop) r : (forall v, P v -> Q v) -> forall w, matches P r w -> matches Q r w.
Proof.
  intro H. induction r as [v| |negated is|r IHr s IHs|r IHr s IHs|r IHr least most]; intro w; cbn [matches]; auto.
  - intros (v & -> & A). eauto.
  - destruct negated; [|auto]. intros (v & -> & A & B). exists v. auto.
  - intros (u & v & -> & A & B). exists u, v. auto.
  - intros [A|A]; auto.
  - intros (ws & E & F & B). exists ws. split; [assumption|]. split; [|assumption]. eapply Forall_impl; [|exact F]. exact IHr.
Qed.

Lemma regular_expression_consistent vars s r k d0 (cs : list cstate) : domains_ok d0 -> Forall (var_known d0) vars -> NoDup (underlying_list vars) -> written s r -> regular_expression vars s = Some k ->
  exists p s0, in_props (k d0 cs) = [p] /\ in_states (k d0 cs) = [s0] /\
  forall i st D evs, lives p (length cs) d0 s0 (i_domains i) st -> nth_error (i_cstates i) (length cs) = Some st -> apply_lits (i_domains i) (o_infer (p_run p i)) = (D, evs, false) ->
    domain_consistent D vars (fun a => matches (fun _ => True) r (map (var_value a) vars)) /\
    forall j, i_domains j = D -> nth_error (i_cstates j) (length cs) = nth_error (o_cstates (p_run p i)) (length cs) -> apply_lits D (o_infer (p_run p j)) = (D, [], false).
Proof.
  intros Hd K ND W E. unfold regular_expression in E. destruct (parse_regex [] s); [|discriminate]. injection E as <-. destruct (regex_compiled s r (regex_alphabet d0 vars) W) as (m & Em & Am). rewrite Em.
  destruct (regular_consistent vars (nfa_arrows m) (nfa_final m) d0 cs Hd K ND) as (p & s0 & Ep & Es & C). exists p, s0. split; [assumption|]. split; [assumption|]. intros i st D evs L N A.
  destruct (C i st D evs L N A) as [C1 C2]. split; [|assumption]. eapply domain_consistent_ext; [apply incl_refl| |exact C1]. intros a Ac. apply Am in Ac. eapply matches_more; [|exact Ac]. auto.
Qed.
