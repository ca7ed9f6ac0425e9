(** Lemmas about reading and writing s-expressions. *)
From Coq Require Import List Bool Ascii Arith Lia.
From Verif Require Import SExpr SExprSpec.
Import ListNotations.
Local Open Scope char_scope.

Lemma is_space_spec c : is_space c = true <-> white c.
Proof.
  unfold is_space, white. rewrite existsb_exists. split.
  - intros (x & I & E). apply Ascii.eqb_eq in E. subst x. simpl in *. tauto.
  - intro I. exists c. split; [simpl in *; tauto|apply Ascii.eqb_refl].
Qed.

Lemma white_dec c : white c \/ ~ white c.
Proof. destruct (is_space c) eqn:E; [left; now apply is_space_spec|right]. intro W. apply is_space_spec in W. congruence. Qed.

Lemma white_not c : white c -> c <> "(" /\ c <> ")".
Proof. unfold white. simpl. intro W. split; intros ->; repeat destruct W as [W|W]; try discriminate; contradiction. Qed.

Definition atomic (c : ascii) : bool := negb (is_space c) && negb (is_open c) && negb (is_close c).

Lemma atomic_spec c : atomic c = true <-> atom_char c.
Proof.
  unfold atomic, atom_char, is_open, is_close. rewrite !andb_true_iff, !negb_true_iff. rewrite <- is_space_spec.
  rewrite !Ascii.eqb_neq. destruct (is_space c); split; intros; intuition congruence.
Qed.

Lemma not_atomic c : atomic c = false <-> ~ atom_char c.
Proof. rewrite <- atomic_spec. destruct (atomic c); split; intros; try congruence; tauto. Qed.

(** ** White space *)

Lemma skip_blank ws t : blank ws -> skip_whitespace (ws ++ t) = skip_whitespace t.
Proof. induction 1 as [|c r W _ IH]; [reflexivity|]. simpl. apply is_space_spec in W. now rewrite W. Qed.

Lemma skip_spec t : exists ws, t = ws ++ skip_whitespace t /\ blank ws /\ match skip_whitespace t with [] => True | c :: _ => ~ white c end.
Proof.
  induction t as [|c r IH]; [exists []; repeat split; constructor|]. simpl. destruct (is_space c) eqn:E.
  - destruct IH as (ws & A & B & C). exists (c :: ws). split; [simpl; now rewrite <- A|]. split; [constructor; [now apply is_space_spec|assumption]|assumption].
  - exists []. split; [reflexivity|]. split; [constructor|]. intro W. apply is_space_spec in W. congruence.
Qed.

Lemma skip_solid c r : ~ white c -> skip_whitespace (c :: r) = c :: r.
Proof. intro N. simpl. destruct (is_space c) eqn:E; [|reflexivity]. apply is_space_spec in E. contradiction. Qed.

Lemma skip_only_blank t : skip_whitespace t = [] <-> blank t.
Proof.
  split; intro H.
  - destruct (skip_spec t) as (ws & A & B & _). rewrite H, app_nil_r in A. now subst.
  - rewrite <- (app_nil_r t). now rewrite skip_blank.
Qed.

Lemma at_end_spec t : at_end t = true <-> blank t.
Proof. unfold at_end. rewrite <- skip_only_blank. destruct (skip_whitespace t); split; congruence. Qed.

(** ** Atoms *)

Lemma take_atom_cons c r : take_atom (c :: r) = if atomic c then let '(a, rest) := take_atom r in (c :: a, rest) else ([], c :: r).
Proof. reflexivity. Qed.

Lemma take_atom_all a rest : Forall atom_char a -> ends_before rest -> take_atom (a ++ rest) = (a, rest).
Proof.
  intros H E. induction H as [|c r A _ IH].
  - simpl app. destruct rest as [|c r]; [reflexivity|]. rewrite take_atom_cons. apply not_atomic in E. now rewrite E.
  - rewrite <- app_comm_cons, take_atom_cons. apply atomic_spec in A. rewrite A. now rewrite IH.
Qed.

Lemma take_atom_spec t : let '(a, rest) := take_atom t in t = a ++ rest /\ Forall atom_char a /\ ends_before rest.
Proof.
  induction t as [|c r IH]; [repeat split; constructor|]. rewrite take_atom_cons. destruct (atomic c) eqn:E.
  - destruct (take_atom r) as [a rest]. destruct IH as (A & B & C). split; [simpl; now rewrite A|]. split; [constructor; [now apply atomic_spec|assumption]|assumption].
  - split; [reflexivity|]. split; [constructor|]. now apply not_atomic.
Qed.

(** ** Reading *)

Lemma read_one_S n t : read_one (S n) t =
  match skip_whitespace t with
  | [] => Throws ExpectingTerm
  | c :: r =>
      if is_close c then Throws UnexpectedClose
      else if is_open c then
        match read_children n r with Value (children, rest) => Value (SList children, rest) | Throws e => Throws e | OutOfFuel => OutOfFuel end
      else let '(a, rest) := take_atom (c :: r) in Value (Atom a, rest)
  end.
Proof. reflexivity. Qed.

Lemma read_children_S n t : read_children (S n) t =
  match skip_whitespace t with
  | [] => Throws Unclosed
  | c :: r =>
      if is_close c then Value ([], r)
      else
        match read_one n (c :: r) with
        | Value (e, rest) => match read_children n rest with Value (es, rest') => Value (e :: es, rest') | Throws x => Throws x | OutOfFuel => OutOfFuel end
        | Throws x => Throws x
        | OutOfFuel => OutOfFuel
        end
  end.
Proof. reflexivity. Qed.

Lemma skip_length t : length (skip_whitespace t) <= length t.
Proof. induction t as [|c r IH]; simpl; [lia|]. destruct (is_space c); simpl; lia. Qed.

(** An expression starts with something that is neither white nor a closing
    parenthesis. *)
Lemma denotes_head t e : denotes t e -> exists c r, t = c :: r /\ ~ white c /\ c <> ")".
Proof.
  intros [a [N F]|u es D].
  - destruct F as [|c r (W & _ & C) _]; [congruence|]. eauto.
  - exists "(", (u ++ [")"]). split; [reflexivity|]. split; [|discriminate]. intro W. apply white_not in W. now destruct W.
Qed.

Lemma separated_more e r c rest : ~ atom_char c -> (separated e r <-> separated e (r ++ c :: rest)).
Proof. intro N. destruct e; simpl; [|tauto]. destruct r; simpl; tauto. Qed.

Lemma close_not_atom : ~ atom_char ")".
Proof. intros (_ & _ & N). now apply N. Qed.

(** What is read is what the grammar says. *)
Lemma read_sound n :
  (forall t e rest, read_one n t = Value (e, rest) -> exists ws w, t = ws ++ w ++ rest /\ blank ws /\ denotes w e /\ separated e rest) /\
  (forall t es rest, read_children n t = Value (es, rest) -> exists w, t = w ++ ")" :: rest /\ denotes_all w es).
Proof.
  induction n as [|n [IH1 IH2]]; [split; discriminate|]. split; intros t x rest.
  - rewrite read_one_S. destruct (skip_spec t) as (ws & A & B & C). destruct (skip_whitespace t) as [|c r]; [discriminate|].
    unfold is_close, is_open. destruct (Ascii.eqb_spec c ")") as [|Nc]; [discriminate|]. destruct (Ascii.eqb_spec c "(") as [->|No].
    + destruct (read_children n r) as [[es rest']| |] eqn:E; try discriminate. intros [= <- <-]. apply IH2 in E. destruct E as (w & -> & D).
      exists ws, ("(" :: w ++ [")"]). split; [rewrite A; simpl; now rewrite <- app_assoc|]. split; [assumption|]. split; [now constructor|exact I].
    + pose proof (take_atom_spec (c :: r)) as S. rewrite take_atom_cons in *.
      assert (Ac : atomic c = true) by (apply atomic_spec; repeat split; assumption). rewrite Ac in *.
      destruct (take_atom r) as [a rest']. destruct S as (S & F & E). intros [= <- <-]. exists ws, (c :: a). split; [rewrite A, S; reflexivity|].
      split; [assumption|]. split; [constructor; split; [discriminate|assumption]|exact E].
  - rewrite read_children_S. destruct (skip_spec t) as (ws & A & B & C). destruct (skip_whitespace t) as [|c r]; [discriminate|].
    unfold is_close. destruct (Ascii.eqb_spec c ")") as [->|Nc].
    + intros [= <- <-]. exists ws. split; [assumption|now constructor].
    + destruct (read_one n (c :: r)) as [[e rest1]| |] eqn:E1; try discriminate. destruct (read_children n rest1) as [[es rest2]| |] eqn:E2; try discriminate.
      intros [= <- <-]. apply IH1 in E1. destruct E1 as (ws' & w & Ew & Bw & D & Sp). apply IH2 in E2. destruct E2 as (w2 & -> & D2).
      exists ((ws ++ ws') ++ w ++ w2). split; [rewrite A, Ew; now rewrite <- !app_assoc|].
      constructor; auto; [now apply Forall_app|]. apply <- separated_more; [exact Sp|exact close_not_atom].
Qed.

(** The grammar is unambiguous and the reader reads all of it. *)
Scheme denotes_mut := Minimality for denotes Sort Prop
  with denotes_all_mut := Minimality for denotes_all Sort Prop.
Combined Scheme denotes_both from denotes_mut, denotes_all_mut.

Lemma read_complete :
  (forall t e, denotes t e -> forall ws rest n, blank ws -> separated e rest -> 2 * length (ws ++ t ++ rest) + 1 <= n -> read_one n (ws ++ t ++ rest) = Value (e, rest)) /\
  (forall t es, denotes_all t es -> forall rest n, 2 * length (t ++ ")" :: rest) + 2 <= n -> read_children n (t ++ ")" :: rest) = Value (es, rest)).
Proof.
  apply denotes_both.
  - intros a [Na F] ws rest n B Sp L. destruct n as [|n]; [lia|]. rewrite read_one_S, skip_blank by assumption.
    destruct F as [|c r Ac F]; [congruence|]. pose proof Ac as (W & O & C). rewrite <- app_comm_cons, skip_solid by assumption.
    unfold is_close, is_open. destruct (Ascii.eqb_spec c ")") as [|_]; [contradiction|]. destruct (Ascii.eqb_spec c "(") as [|_]; [contradiction|].
    rewrite app_comm_cons, take_atom_all; auto.
  - intros u es _ IH ws rest n B _ L. destruct n as [|n]; [lia|]. rewrite read_one_S, skip_blank by assumption.
    rewrite <- app_comm_cons, skip_solid by (intro W; apply white_not in W; now destruct W). simpl is_close. simpl is_open. cbv iota.
    rewrite <- app_assoc. simpl app at 2. rewrite IH; [reflexivity|]. rewrite !app_length in L. simpl length in L. rewrite app_length in *. simpl in *. lia.
  - intros ws B rest n L. destruct n as [|n]; [lia|]. rewrite read_children_S, skip_blank by assumption. rewrite skip_solid; [reflexivity|]. intro W. apply white_not in W. now destruct W.
  - intros ws t e r es B D IH Sp _ IHs rest n L. destruct n as [|n]; [lia|]. rewrite read_children_S, <- !app_assoc, skip_blank by assumption.
    destruct (denotes_head t e D) as (c & t' & -> & W & C). rewrite <- app_comm_cons, skip_solid by assumption. unfold is_close. destruct (Ascii.eqb_spec c ")") as [|_]; [contradiction|].
    rewrite !app_length in L. simpl in L.
    pose proof (IH [] (r ++ ")" :: rest) n (Forall_nil _)) as R. simpl app in R. rewrite R.
    + rewrite IHs; [reflexivity|]. rewrite app_length. simpl. lia.
    + apply separated_more; [exact close_not_atom|assumption].
    + repeat (rewrite app_length || cbn [length app]). repeat (rewrite app_length in L || cbn [length app] in L). lia.
Qed.

Lemma read_shorter n t e rest : read_one n t = Value (e, rest) -> length rest < length t.
Proof.
  intro E. apply (proj1 (read_sound n)) in E. destruct E as (ws & w & -> & _ & D & _). apply denotes_head in D. destruct D as (c & r & -> & _).
  rewrite !app_length. simpl. lia.
Qed.

Lemma read_fuel n : (forall t, 2 * length t + 1 <= n -> read_one n t <> OutOfFuel) /\ (forall t, 2 * length t + 2 <= n -> read_children n t <> OutOfFuel).
Proof.
  induction n as [|n [IH1 IH2]]; [split; intros; lia|]. split; intros t L.
  - rewrite read_one_S. pose proof (skip_length t) as Ls. destruct (skip_whitespace t) as [|c r]; [discriminate|]. simpl in Ls.
    destruct (is_close c); [discriminate|]. destruct (is_open c).
    + specialize (IH2 r). destruct (read_children n r) as [[]| |]; try discriminate. exfalso. apply IH2; [lia|reflexivity].
    + destruct (take_atom (c :: r)). discriminate.
  - rewrite read_children_S. pose proof (skip_length t) as Ls. destruct (skip_whitespace t) as [|c r]; [discriminate|].
    destruct (is_close c); [discriminate|]. specialize (IH1 (c :: r)). destruct (read_one n (c :: r)) as [[e rest]| |] eqn:E; try discriminate; [|exfalso; apply IH1; [simpl in *; lia|reflexivity]].
    apply read_shorter in E. specialize (IH2 rest). destruct (read_children n rest) as [[]| |]; try discriminate. exfalso. apply IH2; [simpl in *; lia|reflexivity].
Qed.

(** ** Parsing *)

Lemma parse_fuel t : parse_s_expr t <> OutOfFuel.
Proof.
  unfold parse_s_expr. destruct (at_end t); [discriminate|]. pose proof (proj1 (read_fuel (enough t)) t) as F. unfold enough in *.
  destruct (read_one (2 * length t + 2) t) as [[e rest]| |]; [destruct (at_end rest); discriminate|discriminate|]. exfalso. apply F; [lia|reflexivity].
Qed.

Lemma parse_spec t e : parse_s_expr t = Value e <-> exists before w after, t = before ++ w ++ after /\ blank before /\ denotes w e /\ blank after.
Proof.
  unfold parse_s_expr. split.
  - destruct (at_end t); [discriminate|]. destruct (read_one (enough t) t) as [[e' rest]| |] eqn:E; try discriminate.
    destruct (at_end rest) eqn:A; [|discriminate]. intros [= <-]. apply (proj1 (read_sound _)) in E. destruct E as (ws & w & T & B & D & _).
    exists ws, w, rest. repeat split; auto. now apply at_end_spec.
  - intros (before & w & after & -> & B & D & Af). destruct (at_end (before ++ w ++ after)) eqn:E.
    + exfalso. apply at_end_spec in E. apply Forall_app in E. destruct E as [_ E]. apply Forall_app in E. destruct E as [E _].
      destruct (denotes_head w e D) as (c & r & -> & W & _). now inversion E.
    + rewrite (proj1 read_complete w e D before after); auto.
      * apply at_end_spec in Af. now rewrite Af.
      * destruct e; simpl; [|exact I]. destruct Af as [|c r W _]; simpl; [exact I|]. intros [N _]. contradiction.
      * unfold enough. lia.
Qed.

Lemma read_all_fuel n : forall t, length t < n -> read_all n t <> OutOfFuel.
Proof.
  induction n as [|n IH]; intros t L; [lia|]. simpl. destruct (at_end t); [discriminate|].
  pose proof (proj1 (read_fuel (enough t)) t) as F. destruct (read_one (enough t) t) as [[e rest]| |] eqn:E; [|discriminate|exfalso; apply F; [unfold enough; lia|reflexivity]].
  apply read_shorter in E. specialize (IH rest). destruct (read_all n rest); [discriminate|discriminate|]. exfalso. apply IH; [lia|reflexivity].
Qed.

Lemma read_all_spec n : forall t es, length t < n -> (read_all n t = Value es <-> denotes_all t es).
Proof.
  induction n as [|n IH]; intros t es L; [lia|]. simpl. split.
  - destruct (at_end t) eqn:A; [intros [= <-]; constructor; now apply at_end_spec|].
    destruct (read_one (enough t) t) as [[e rest]| |] eqn:E; try discriminate. pose proof (read_shorter _ _ _ _ E) as Lr.
    destruct (read_all n rest) as [es'| |] eqn:R; try discriminate. intros [= <-]. apply IH in R; [|lia].
    apply (proj1 (read_sound _)) in E. destruct E as (ws & w & -> & B & D & Sp). now constructor.
  - intro D. inversion D as [ws B|ws w e r es' B Dw Sp Dr]; subst.
    + apply at_end_spec in B. now rewrite B.
    + destruct (at_end (ws ++ w ++ r)) eqn:E.
      * exfalso. apply at_end_spec in E. apply Forall_app in E. destruct E as [_ E]. apply Forall_app in E. destruct E as [E _].
        destruct (denotes_head w e Dw) as (c & x & -> & W & _). now inversion E.
      * rewrite (proj1 read_complete w e Dw ws r); auto; [|unfold enough; lia]. apply IH in Dr; [now rewrite Dr|].
        destruct (denotes_head w e Dw) as (c & x & -> & _). rewrite !app_length in L. simpl in L. lia.
Qed.

Lemma parse_seq_spec t es : parse_s_expr_seq t = Value es <-> denotes_all t es.
Proof. apply read_all_spec. lia. Qed.

Lemma parse_seq_fuel t : parse_s_expr_seq t <> OutOfFuel.
Proof. apply read_all_fuel. lia. Qed.

(** ** Writing *)

Section Induction.
Variable P : sexpr -> Prop.
Hypothesis Pa : forall a, P (Atom a).
Hypothesis Pl : forall es, Forall P es -> P (SList es).
Fixpoint sexpr_all (e : sexpr) : P e :=
  match e with
  | Atom a => Pa a
  | SList es => Pl es ((fix go l : Forall P l := match l with [] => Forall_nil P | x :: r => Forall_cons x (sexpr_all x) (go r) end) es)
  end.
End Induction.

Lemma writable_list es : writable (SList es) <-> Forall writable es.
Proof.
  simpl. induction es as [|e r IH]; simpl; [split; constructor|]. split.
  - intros [A B]. constructor; [assumption|now apply IH].
  - intro H. inversion H; subst. split; [assumption|now apply IH].
Qed.

Lemma white_space : white " ".
Proof. now left. Qed.

Lemma join_denotes first es : Forall (fun e => denotes (render e) e) es -> denotes_all (join first (map render es)) es.
Proof.
  intro H. revert first. induction H as [|e r D _ IH]; intro first; [constructor; constructor|]. cbn [map join].
  constructor; auto.
  - destruct first; [constructor|]. constructor; [exact white_space|constructor].
  - destruct e; simpl; [|exact I]. destruct r as [|e' r]; simpl; [exact I|]. intros [N _]. apply N. exact white_space.
Qed.

Lemma render_denotes e : writable e -> denotes (render e) e.
Proof.
  induction e as [a|es IH] using sexpr_all; intro W; [now constructor|]. cbn [render]. rewrite writable_list in W. constructor.
  apply join_denotes. rewrite Forall_forall in *. auto.
Qed.

Lemma denotes_writable : (forall t e, denotes t e -> writable e) /\ (forall t es, denotes_all t es -> Forall writable es).
Proof. apply denotes_both; auto. intros. now apply writable_list. Qed.

Lemma round_trip e : writable e -> parse_s_expr (render e) = Value e.
Proof.
  intro W. apply parse_spec. exists [], (render e), []. split; [now rewrite app_nil_r|]. repeat split; try constructor. now apply render_denotes.
Qed.

Lemma round_trip_only e : parse_s_expr (render e) = Value e -> writable e.
Proof. intro H. apply parse_spec in H. destruct H as (b & w & a & _ & _ & D & _). now apply (proj1 denotes_writable w). Qed.

Lemma seq_round_trip es : Forall writable es -> parse_s_expr_seq (render_bare (SList es)) = Value es.
Proof. intro W. apply parse_seq_spec. apply join_denotes. eapply Forall_impl; [|exact W]. apply render_denotes. Qed.

(** Reading, writing and reading again is reading. *)
Lemma read_write_read t e : parse_s_expr t = Value e -> parse_s_expr (render e) = Value e.
Proof. intro H. apply round_trip. apply parse_spec in H. destruct H as (b & w & a & _ & _ & D & _). now apply (proj1 denotes_writable w). Qed.

(** So a canonical text is reproduced. *)
Lemma write_read_write e t : writable e -> t = render e -> exists e', parse_s_expr t = Value e' /\ render e' = t.
Proof. intros W ->. exists e. split; [now apply round_trip|reflexivity]. Qed.

(** Lines, each of which is the inside of a list, as in an .scp file. *)
Lemma lines_round_trip es : Forall writable es -> parse_s_expr_seq (flat_map (fun e => render e ++ ["010"]) es) = Value es.
Proof.
  intro W. apply parse_seq_spec. assert (A : forall ws, blank ws -> denotes_all (ws ++ flat_map (fun e => render e ++ ["010"]) es) es); [|exact (A [] (Forall_nil _))].
  assert (Wn : white "010") by (unfold white; simpl; tauto).
  induction W as [|e r We _ IH]; intros ws B; [simpl; rewrite app_nil_r; now constructor|]. cbn [flat_map]. rewrite <- app_assoc. constructor; auto.
  - now apply render_denotes.
  - destruct e; simpl; [|exact I]. intros [N _]. contradiction.
  - apply IH. constructor; [assumption|constructor].
Qed.

Lemma parse_answers t : (exists e, parse_s_expr t = Value e) \/ (exists x, parse_s_expr t = Throws x).
Proof. pose proof (parse_fuel t). destruct (parse_s_expr t); eauto. contradiction. Qed.

Lemma parse_seq_answers t : (exists es, parse_s_expr_seq t = Value es) \/ (exists x, parse_s_expr_seq t = Throws x).
Proof. pose proof (parse_seq_fuel t). destruct (parse_s_expr_seq t); eauto. contradiction. Qed.

Lemma render_distinct e e' : writable e -> writable e' -> render e = render e' -> e = e'.
Proof. intros W W' E. apply round_trip in W, W'. rewrite E in W. congruence. Qed.

Lemma round_trip_iff e : parse_s_expr (render e) = Value e <-> writable e.
Proof. split; [apply round_trip_only|apply round_trip]. Qed.

Lemma unambiguous t e e' : denotes t e -> denotes t e' -> e = e'.
Proof.
  assert (A : forall x, denotes t x -> parse_s_expr t = Value x).
  { intros x D. apply parse_spec. exists [], t, []. rewrite app_nil_r. repeat split; auto; constructor. }
  intros D D'. apply A in D, D'. congruence.
Qed.

(** The errors. *)
Lemma parse_empty t : parse_s_expr t = Throws EmptyInput <-> blank t.
Proof.
  unfold parse_s_expr. rewrite <- at_end_spec. destruct (at_end t) eqn:A; [tauto|]. split; [|discriminate].
  assert (R : forall n, (forall t, read_one n t <> Throws EmptyInput) /\ (forall t, read_children n t <> Throws EmptyInput)).
  { induction n as [|n [IH1 IH2]]; [split; discriminate|]. split; intro u.
    - rewrite read_one_S. destruct (skip_whitespace u) as [|c r]; [discriminate|]. destruct (is_close c); [discriminate|]. destruct (is_open c).
      + specialize (IH2 r). destruct (read_children n r) as [[]|x|]; congruence.
      + destruct (take_atom (c :: r)). discriminate.
    - rewrite read_children_S. destruct (skip_whitespace u) as [|c r]; [discriminate|]. destruct (is_close c); [discriminate|].
      specialize (IH1 (c :: r)). destruct (read_one n (c :: r)) as [[e rest]|x|]; try congruence.
      specialize (IH2 rest). destruct (read_children n rest) as [[]|y|]; congruence. }
  pose proof (proj1 (R (enough t)) t) as R'. destruct (read_one (enough t) t) as [[e rest]|x|]; [destruct (at_end rest); discriminate|congruence|discriminate].
Qed.
