(** Lemmas about regular expressions and their automata. *)
From Coq Require Import ZArith List Bool Arith Ascii Lia.
From Verif Require Import RegexSpec Regex.
Import ListNotations.
Local Open Scope Z_scope.

(** ** Tokens *)

Ltac each_char := let c := fresh in intro c; destruct c as [[] [] [] [] [] [] [] []].

Definition look_up {X} (l : list (ascii * X)) (c : ascii) : option X := option_map snd (find (fun p => Ascii.eqb (fst p) c) l).

Lemma look_up_In {X} (l : list (ascii * X)) c x : look_up l c = Some x -> In (c, x) l.
Proof.
  unfold look_up. destruct (find _ l) as [[c' x']|] eqn:E; [|discriminate]. intros [= <-]. apply find_some in E. destruct E as [I E]. simpl in E. apply Ascii.eqb_eq in E. now subst.
Qed.

Lemma digit_look_up : forall c, look_up digits c = digit_value c.
Proof. each_char; reflexivity. Qed.

Lemma symbol_look_up : forall c, look_up symbols c = symbol_token c.
Proof. each_char; reflexivity. Qed.

Lemma digit_value_spec c d : digit_value c = Some d <-> In (c, d) digits.
Proof.
  split; [rewrite <- digit_look_up; apply look_up_In|]. intro I. simpl in I. repeat (destruct I as [I|I]; [injection I as <- <-; reflexivity|]). contradiction.
Qed.

Lemma symbol_token_spec c t : symbol_token c = Some t <-> In (c, t) symbols.
Proof.
  split; [rewrite <- symbol_look_up; apply look_up_In|]. intro I. simpl in I. repeat (destruct I as [I|I]; [injection I as <- <-; reflexivity|]). contradiction.
Qed.

Lemma is_blank_spec c : is_blank c = true <-> blank_char c.
Proof.
  unfold is_blank, blank_char. rewrite existsb_exists. split; [intros (x & I & E); apply Ascii.eqb_eq in E; now subst|]. intro I. exists c. split; [assumption|apply Ascii.eqb_refl].
Qed.

Lemma symbol_no_digit c t d : In (c, t) symbols -> ~ In (c, d) digits.
Proof. intros I J. apply digit_value_spec in J. simpl in I. repeat (destruct I as [I|I]; [injection I as <- <-; discriminate J|]). contradiction. Qed.

Lemma symbol_no_blank c t : In (c, t) symbols -> is_blank c = false.
Proof. intro I. simpl in I. repeat (destruct I as [I|I]; [injection I as <- <-; reflexivity|]). contradiction. Qed.

Lemma blank_no_digit c d : blank_char c -> ~ In (c, d) digits.
Proof. intros I J. apply digit_value_spec in J. simpl in I. repeat (destruct I as [<-|I]; [discriminate J|]). contradiction. Qed.

(** More digits after a number. *)
Inductive more : N -> list ascii -> N -> Prop :=
| more_none n : more n [] n
| more_digit n c d cs m : In (c, d) digits -> more (n * 10 + d) cs m -> more n (c :: cs) m.

Lemma decimal_app cs n cs' m : decimal cs n -> more n cs' m -> decimal (cs ++ cs') m.
Proof.
  intros D M. revert cs D. induction M as [n|n c d cs' m I M IH]; intros cs D; [now rewrite app_nil_r|].
  change (c :: cs') with ([c] ++ cs'). rewrite app_assoc. apply IH. rewrite N.mul_comm. now constructor.
Qed.

Lemma more_snoc n cs m c d : more n cs m -> In (c, d) digits -> more n (cs ++ [c]) (10 * m + d).
Proof.
  intros M I. induction M as [n|n c' d' cs m I' M IH].
  - simpl. econstructor; [exact I|]. rewrite N.mul_comm. constructor.
  - simpl. econstructor; [exact I'|assumption].
Qed.

Lemma decimal_first cs m : decimal cs m -> exists c d r, cs = c :: r /\ In (c, d) digits /\ more d r m.
Proof.
  induction 1 as [c d I|cs n c d _ (c' & d' & r & -> & I' & M) I].
  - exists c, d, []. split; [reflexivity|]. split; [assumption|constructor].
  - exists c', d', (r ++ [c]). split; [reflexivity|]. split; [assumption|]. now apply more_snoc.
Qed.

Lemma tokenize_spec s : forall value ts, tokenize value s = Some ts <->
  match value with
  | None => lexes s ts
  | Some n => exists cs rest m us, s = cs ++ rest /\ more n cs m /\ no_digit_first rest /\ lexes rest us /\ ts = TInteger m :: us
  end.
Proof.
  induction s as [|c s IH]; intros value ts.
  - simpl. destruct value as [n|]; simpl.
    + split.
      * intros [= <-]. exists [], [], n, []. repeat split; try constructor. intros c d r [=].
      * intros (cs & rest & m & us & E & M & _ & L & ->). symmetry in E. apply app_eq_nil in E. destruct E as [-> ->]. inversion M; subst. inversion L as [| |cs n' s ts' D|]; subst; [reflexivity|].
        apply decimal_first in D. destruct D as (c & d & r & -> & _). discriminate.
    + split; [intros [= <-]; constructor|]. inversion 1 as [| |cs n s ts' D|]; subst; [reflexivity|]. apply decimal_first in D. destruct D as (c & d & r & -> & _). discriminate.
  - cbn [tokenize]. destruct (digit_value c) as [d|] eqn:Dc.
    + apply digit_value_spec in Dc. rewrite IH. clear IH.
      destruct value as [n|].
      * split.
        { intros (cs & rest & m & us & -> & M & N & L & ->). exists (c :: cs), rest, m, us. repeat split; auto. now apply (more_digit n c d). }
        { intros (cs & rest & m & us & E & M & N & L & ->). destruct cs as [|c' cs]; [simpl in E; subst rest; exfalso; now apply (N c d s)|].
          injection E as <- ->. inversion M as [|? ? d' ? ? I M']; subst. exists cs, rest, m, us.
          assert (d' = d) as -> by (apply digit_value_spec in I, Dc; congruence). auto. }
      * split.
        { intros (cs & rest & m & us & -> & M & N & L & ->). change (c :: cs ++ rest) with ((c :: cs) ++ rest). apply lexes_number; auto. apply (decimal_app [c] d); [now constructor|assumption]. }
        { intro L. inversion L as [|? ? ? B L' E|cs n s0 us D N L' E|? t ? us I L' E]; subst; [exfalso; now apply (blank_no_digit _ _ B Dc)| |exfalso; now apply (symbol_no_digit _ _ _ I Dc)].
          apply decimal_first in D. destruct D as (c' & d' & r & -> & I & M). injection E as -> <-. exists r, s0, n, us.
          assert (d' = d) as -> by (apply digit_value_spec in I, Dc; congruence). auto. }
    + assert (Nd : forall d, ~ In (c, d) digits) by (intros d I; apply digit_value_spec in I; congruence).
      assert (A : forall us, (if is_blank c then tokenize None s else match symbol_token c with Some t => option_map (cons t) (tokenize None s) | None => None end) = Some us <-> lexes (c :: s) us).
      { intro us. destruct (is_blank c) eqn:B.
        - rewrite IH. apply is_blank_spec in B. split; [now constructor|]. intro L. inversion L as [|? ? ? B' L' E|cs n s0 us' D N L' E|? t ? us' I L' E]; subst; [assumption| |].
          + apply decimal_first in D. destruct D as (c' & d' & r & -> & I & _). injection E as -> _. exfalso. now apply (Nd d').
          + apply symbol_no_blank in I. apply is_blank_spec in B. congruence.
        - destruct (symbol_token c) as [t|] eqn:T.
          + apply symbol_token_spec in T. split.
            * intro E. destruct (tokenize None s) as [us'|] eqn:Es; [|discriminate]. injection E as <-. apply IH in Es. now apply lexes_symbol.
            * intro L. inversion L as [|? ? ? B' L' E|cs n s0 us' D N L' E|? t' ? us' I L' E]; subst.
              -- apply is_blank_spec in B'. congruence.
              -- apply decimal_first in D. destruct D as (c' & d' & r & -> & I & _). injection E as -> _. exfalso. now apply (Nd d').
              -- apply symbol_token_spec in I, T. assert (t' = t) as -> by congruence. apply (IH None) in L'. now rewrite L'.
          + split; [discriminate|]. intro L. inversion L as [|? ? ? B' L' E|cs n s0 us' D N L' E|? t' ? us' I L' E]; subst.
            * apply is_blank_spec in B'. congruence.
            * apply decimal_first in D. destruct D as (c' & d' & r & -> & I & _). injection E as -> _. exfalso. now apply (Nd d').
            * apply symbol_token_spec in I. congruence. }
      revert A. generalize (if is_blank c then tokenize None s else match symbol_token c with Some t => option_map (cons t) (tokenize None s) | None => None end). intros o A.
      destruct value as [n|].
      * split.
        { intro E. destruct o as [us|]; [|discriminate]. injection E as <-. exists [], (c :: s), n, us. repeat split; [constructor| |now apply A]. intros c' d r [= <- <-]. apply Nd. }
        { intros (cs & rest & m & us & E & M & N & L & ->). destruct cs as [|c' cs]; [|injection E as <- ->; inversion M as [|? ? d ? ? I]; subst; exfalso; exact (Nd d I)].
          simpl in E. subst rest. inversion M; subst. apply A in L. now rewrite L. }
      * rewrite <- A. destruct o; simpl; [reflexivity|]. split; discriminate.
Qed.

(** ** What the expressions of the parser mean *)

Fixpoint denotes (x : core) (w : list Z) : Prop :=
  match x with
  | CEmpty => w = []
  | CSymbols vs => exists v, w = [v] /\ In v vs
  | CConcat x y => exists u v, w = u ++ v /\ denotes x u /\ denotes y v
  | CUnion x y => denotes x w \/ denotes y w
  | CStar x => exists ws, w = concat ws /\ Forall (denotes x) ws
  end.

Lemma append_copies_denotes n x : forall result w, denotes (append_copies result n x) w <->
  exists u ws, w = u ++ concat ws /\ denotes result u /\ length ws = n /\ Forall (denotes x) ws.
Proof.
  induction n as [|n IH]; intros result w; cbn [append_copies].
  - split; [intro D; exists w, []; repeat split; auto; simpl; now rewrite app_nil_r|]. intros (u & [|v ws] & -> & D & L & _); [|discriminate]. simpl. now rewrite app_nil_r.
  - rewrite IH. split.
    + intros (u & ws & -> & (u' & v & -> & D & E) & L & F). exists u', (v :: ws). simpl. rewrite app_assoc. auto.
    + intros (u & [|v ws] & -> & D & L & F); [discriminate|]. apply Forall_cons_iff in F. destruct F as [Dv F]. exists (u ++ v), ws. simpl. rewrite app_assoc. injection L as L. repeat split; auto. exists u, v. auto.
Qed.

Lemma repeat_exact_denotes x n w : denotes (repeat_exact x n) w <-> exists ws, w = concat ws /\ Forall (denotes x) ws /\ length ws = N.to_nat n.
Proof.
  unfold repeat_exact. destruct (N.eqb_spec n 0) as [->|Hn].
  - simpl. split; [intros ->; exists []; auto|]. intros ([|v ws] & -> & _ & L); [reflexivity|discriminate].
  - rewrite append_copies_denotes. split.
    + intros (u & ws & -> & D & L & F). exists (u :: ws). simpl. split; [reflexivity|]. split; [now constructor|]. rewrite L. lia.
    + intros ([|u ws] & -> & F & L); [simpl in L; lia|]. apply Forall_cons_iff in F. destruct F as [D F]. exists u, ws. simpl in *. repeat split; auto. lia.
Qed.

Lemma repeat_at_least_denotes x n w : denotes (repeat_at_least x n) w <-> exists ws, w = concat ws /\ Forall (denotes x) ws /\ (N.to_nat n <= length ws)%nat.
Proof.
  unfold repeat_at_least. cbn [denotes]. split.
  - intros (u & v & -> & D & vs & -> & F). apply repeat_exact_denotes in D. destruct D as (us & -> & Fu & L). exists (us ++ vs). rewrite concat_app, app_length, Forall_app. repeat split; auto. lia.
  - intros (ws & -> & F & L). rewrite <- (firstn_skipn (N.to_nat n) ws), Forall_app in F. destruct F as [F1 F2].
    exists (concat (firstn (N.to_nat n) ws)), (concat (skipn (N.to_nat n) ws)). rewrite <- concat_app, firstn_skipn. split; [reflexivity|]. split; [|eauto].
    apply repeat_exact_denotes. exists (firstn (N.to_nat n) ws). repeat split; auto. now apply firstn_length_le.
Qed.

Lemma optional_words x vs : Forall (denotes (CUnion x CEmpty)) vs -> exists us, concat us = concat vs /\ Forall (denotes x) us /\ (length us <= length vs)%nat.
Proof.
  induction 1 as [|v vs [D|D] _ (us & E & F & L)].
  - exists []. auto.
  - exists (v :: us). simpl. rewrite E. repeat split; auto. lia.
  - exists us. simpl in *. subst v. repeat split; auto.
Qed.

Lemma repeat_between_denotes x n m w : (n <= m)%N ->
  (denotes (repeat_between x n m) w <-> exists ws, w = concat ws /\ Forall (denotes x) ws /\ (N.to_nat n <= length ws <= N.to_nat m)%nat).
Proof.
  intro Le. unfold repeat_between. rewrite append_copies_denotes. split.
  - intros (u & vs & -> & D & L & F). apply repeat_exact_denotes in D. destruct D as (us & -> & Fu & Lu). destruct (optional_words _ _ F) as (vs' & <- & Fv & Lv).
    exists (us ++ vs'). rewrite concat_app, app_length, Forall_app. repeat split; auto; lia.
  - intros (ws & -> & F & L). rewrite <- (firstn_skipn (N.to_nat n) ws), Forall_app in F. destruct F as [F1 F2].
    exists (concat (firstn (N.to_nat n) ws)), (skipn (N.to_nat n) ws ++ repeat [] (N.to_nat m - length ws)).
    assert (R : forall k, concat (repeat ([] : list Z) k) = []) by (induction k; auto). rewrite concat_app, R, app_nil_r, <- concat_app, firstn_skipn. split; [reflexivity|]. split; [|split].
    + apply repeat_exact_denotes. exists (firstn (N.to_nat n) ws). repeat split; auto. apply firstn_length_le. lia.
    + rewrite app_length, repeat_length, skipn_length. lia.
    + apply Forall_app. split; [eapply Forall_impl; [|exact F2]; intros v D; now left|]. apply Forall_forall. intros v I. apply repeat_spec in I. subst v. now right.
Qed.

Lemma value_range_In from to v : In v (value_range from to) <-> from <= v <= to.
Proof.
  unfold value_range. rewrite in_map_iff. split.
  - intros (i & <- & I). apply in_seq in I. lia.
  - intro H. exists (Z.to_nat (v - from)). split; [lia|]. apply in_seq. lia.
Qed.

(** ** The parser *)

Scheme expression_ind' := Minimality for expression Sort Prop
  with term_ind' := Minimality for term Sort Prop
  with factor_ind' := Minimality for factor Sort Prop
  with atom_ind' := Minimality for atom Sort Prop.
Combined Scheme grammar_ind from expression_ind', term_ind', factor_ind', atom_ind'.

Definition quantifies (ts : list token) : bool :=
  match ts with
  | TStar :: _ | TPlus :: _ | TOptional :: _ | TQuantOpen :: _ => true
  | _ => false
  end.
Definition divides (ts : list token) : bool := match ts with TUnion :: _ => true | _ => false end.

Section Parser.
  Context (alphabet : list Z).

  (** The two mean the same. *)
  Definition stands_for (x : core) (r : regex) : Prop := forall w, denotes x w <-> matches (fun v => In v alphabet) r w.

  Lemma stands_star x r : stands_for x r -> stands_for (CStar x) (Repeat r 0 None).
  Proof.
    intros S w. simpl. split; intros (ws & -> & F).
    - exists ws. repeat split; [|lia]. eapply Forall_impl; [|exact F]. intros v. apply S.
    - destruct F as (F & _). exists ws. split; [reflexivity|]. eapply Forall_impl; [|exact F]. intros v. apply S.
  Qed.

  Lemma stands_all x r ws : stands_for x r -> (Forall (denotes x) ws <-> Forall (matches (fun v => In v alphabet) r) ws).
  Proof. intro S. split; intro F; (eapply Forall_impl; [|exact F]); intros v; apply S. Qed.

  Lemma stands_plus x r : stands_for x r -> stands_for (CConcat x (CStar x)) (Repeat r 1 None).
  Proof.
    intros S w. simpl. split.
    - intros (u & v & -> & D & ws & -> & F). exists (u :: ws). rewrite <- (stands_all x r _ S). simpl. repeat split; auto. lia.
    - intros (ws & -> & F & L & _). rewrite <- (stands_all x r _ S) in F. destruct ws as [|u ws]; [simpl in L; lia|]. apply Forall_cons_iff in F. destruct F as [D F]. simpl. eauto 8.
  Qed.

  Lemma stands_optional x r : stands_for x r -> stands_for (CUnion x CEmpty) (Repeat r 0 (Some 1%nat)).
  Proof.
    intros S w. simpl. split.
    - intros [D| ->]; [exists [w]|exists []]; simpl; rewrite ?app_nil_r; repeat split; auto; try lia. constructor; [now apply S|constructor].
    - intros (ws & -> & F & _ & L). destruct ws as [|u [|v ws]]; simpl in *; [now right|left; rewrite app_nil_r; apply S; now apply Forall_inv in F|lia].
  Qed.

  Lemma stands_exactly x r n : stands_for x r -> stands_for (repeat_exact x n) (Repeat r (N.to_nat n) (Some (N.to_nat n))).
  Proof.
    intros S w. rewrite repeat_exact_denotes. cbn [matches]. split; intros (ws & -> & F & L); exists ws; rewrite (stands_all x r _ S) in *; repeat split; auto; lia.
  Qed.

  Lemma stands_at_least x r n : stands_for x r -> stands_for (repeat_at_least x n) (Repeat r (N.to_nat n) None).
  Proof.
    intros S w. rewrite repeat_at_least_denotes. cbn [matches]. split; intros (ws & -> & F & L); exists ws; rewrite (stands_all x r _ S) in *; repeat split; auto; lia.
  Qed.

  Lemma stands_between x r n m : (n <= m)%N -> stands_for x r -> stands_for (repeat_between x n m) (Repeat r (N.to_nat n) (Some (N.to_nat m))).
  Proof.
    intros Le S w. rewrite repeat_between_denotes by assumption. cbn [matches]. split; intros (ws & -> & F & L); exists ws; rewrite (stands_all x r _ S) in *; repeat split; auto; lia.
  Qed.

  Lemma stands_then x y r s : stands_for x r -> stands_for y s -> stands_for (CConcat x y) (Then r s).
  Proof. intros S T w. simpl. split; intros (u & v & -> & A & B); exists u, v; (split; [reflexivity|]; split; [now apply S|now apply T]). Qed.

  Lemma stands_or x y r s : stands_for x r -> stands_for y s -> stands_for (CUnion x y) (Or r s).
  Proof. intros S T w. simpl. rewrite (S w), (T w). reflexivity. Qed.

  Lemma stands_class negated is vs : (forall v, In v vs <-> listed_value is v) -> stands_for (CSymbols (class_values alphabet negated vs)) (Class negated is).
  Proof.
    intros E w. destruct negated; simpl; split.
    - intros (v & -> & I). apply filter_In in I. destruct I as [I N]. exists v. split; [reflexivity|]. split; [assumption|]. intro L. apply E in L.
      apply negb_true_iff in N. rewrite <- not_true_iff_false in N. apply N. apply existsb_exists. exists v. split; [assumption|apply Z.eqb_refl].
    - intros (v & -> & I & N). exists v. split; [reflexivity|]. apply filter_In. split; [assumption|]. apply negb_true_iff. rewrite <- not_true_iff_false. intro H. apply existsb_exists in H.
      destruct H as (v' & J & H). apply Z.eqb_eq in H. subst v'. now apply N, E.
    - intros (v & -> & I). exists v. split; [reflexivity|]. now apply E.
    - intros (v & -> & I). exists v. split; [reflexivity|]. now apply E.
  Qed.

  (** *** Classes *)

  Lemma set_items_sound n : forall ts vs rest, (length ts <= n)%nat -> set_items ts = Some (vs, rest) ->
    exists is us, ts = us ++ rest /\ class_items is us /\ forall v, In v vs <-> listed_value is v.
  Proof.
    induction n as [|n IH]; intros ts vs rest L E.
    { destruct ts; [|simpl in L; lia]. injection E as <- <-. exists [], []. repeat split; [constructor|intros []|]. intros (a & b & [] & _). }
    assert (Z0 : Some ([], ts) = Some (vs, rest) -> exists is us, ts = us ++ rest /\ class_items is us /\ forall v, In v vs <-> listed_value is v).
    { intros [= <- <-]. exists [], []. repeat split; [constructor|intros []|]. intros (a & b & [] & _). }
    assert (One : forall k r, ts = TInteger k :: r -> option_map (fun '(vs, rest) => (Z.of_N k :: vs, rest)) (set_items r) = Some (vs, rest) ->
      exists is us, ts = us ++ rest /\ class_items is us /\ forall v, In v vs <-> listed_value is v).
    { intros k r -> H. destruct (set_items r) as [[vs' rest']|] eqn:Er; [|discriminate]. injection H as <- <-. simpl in L. destruct (IH r vs' rest' ltac:(lia) Er) as (is & us & -> & C & Ev).
      exists ((Z.of_N k, Z.of_N k) :: is), (TInteger k :: us). split; [reflexivity|]. split; [now constructor|]. intro v. simpl. rewrite Ev. split.
      - intros [<-|(a & b & I & H')]; [exists (Z.of_N k), (Z.of_N k); split; [now left|lia]|exists a, b; split; [now right|assumption]].
      - intros (a & b & I & H'); destruct I as [I|I]; [injection I as <- <-; left; lia|right; exists a, b; auto]. }
    destruct ts as [|t r]; [now apply Z0|]. destruct t as [k| | | | | | | | | | | | | |]; try (now apply Z0).
    destruct r as [|t r]; [now apply (One k [])|]. destruct t as [k'| | | | | | | | | | | | | |]; try (cbn [set_items] in E; now apply (One k _ eq_refl)); [].
    destruct r as [|t r]; [discriminate|]. destruct t as [k'| | | | | | | | | | | | | |]; try discriminate E. cbn [set_items] in E. simpl in L.
    destruct (k' <? k)%N eqn:Lt; destruct (set_items r) as [[vs' rest']|] eqn:Er; try discriminate E; injection E as <- <-; destruct (IH r vs' rest' ltac:(lia) Er) as (is & us & -> & C & Ev);
      (exists ((Z.of_N k, Z.of_N k') :: is), (TInteger k :: TClassRange :: TInteger k' :: us); split; [reflexivity|]; split; [now constructor|]; intro v; rewrite in_app_iff, value_range_In, Ev; split;
       [intros [H|(a & b & I & H)]; [exists (Z.of_N k), (Z.of_N k'); split; [now left|lia]|exists a, b; split; [now right|assumption]]
       |intros (a & b & I & H); destruct I as [I|I]; [injection I as <- <-; left|right; exists a, b; auto]]).
    - apply N.ltb_lt in Lt. lia.
    - apply N.ltb_ge in Lt. lia.
  Qed.

  Lemma set_items_complete is us : class_items is us -> forall rest, (match rest with TInteger _ :: _ | TClassRange :: _ => False | _ => True end) ->
    exists vs, set_items (us ++ rest) = Some (vs, rest).
  Proof.
    induction 1 as [|k is us C IH|k k' is us C IH]; intros rest H.
    - exists []. destruct rest as [|[] r]; try reflexivity; contradiction.
    - destruct (IH rest H) as (vs & E). exists (Z.of_N k :: vs). simpl. assert (Ne : match us ++ rest with TClassRange :: _ => False | _ => True end) by (inversion C; subst; simpl; auto; destruct rest as [|[] r]; auto).
      destruct (us ++ rest) as [|[] r] eqn:Eu; try contradiction; rewrite E; reflexivity.
    - destruct (IH rest H) as (vs & E). simpl. rewrite E. destruct (k' <? k)%N; eexists; reflexivity.
  Qed.

  Lemma items_unique is us : class_items is us -> forall is', class_items is' us -> is = is'.
  Proof.
    induction 1 as [|k is us C IH|k k' is us C IH]; intros is' C'.
    - now inversion C'.
    - inversion C' as [|? is2 ? C2 E|? ? is2 ? C2]; subst; [f_equal; auto|inversion C].
    - inversion C' as [|? is2 ? C2|? ? is2 ? C2]; subst; [inversion C2|f_equal; auto].
  Qed.

  Lemma items_start is us : class_items is us -> is <> [] -> exists k r, us = TInteger k :: r.
  Proof. inversion 1; subst; [contradiction| |]; eauto. Qed.

  Lemma parse_class_sound ts x rest : parse_class alphabet ts = Some (x, rest) -> exists r us, TClassOpen :: ts = us ++ rest /\ atom r us /\ stands_for x r.
  Proof.
    assert (G : forall negated us, match us with TInteger _ :: _ => match set_items us with Some (vs, TClassClose :: r) => Some (CSymbols (class_values alphabet negated vs), r) | _ => None end | _ => None end = Some (x, rest) ->
      exists is us', us = us' ++ TClassClose :: rest /\ class_items is us' /\ is <> [] /\ stands_for x (Class negated is)).
    { intros negated us E. destruct us as [|[k| | | | | | | | | | | | | |] r]; try discriminate E. destruct (set_items (TInteger k :: r)) as [[vs [|t rest']]|] eqn:Es; try discriminate E.
      destruct (set_items_sound _ _ _ _ (le_n _) Es) as (is & us' & Eu & C & Ev). destruct t; try discriminate E. injection E as <- <-. exists is, us'. split; [assumption|]. split; [assumption|].
      split; [|now apply stands_class]. intros ->. inversion C; subst. discriminate Eu. }
    unfold parse_class. intro E.
    assert (H : (exists r0, ts = TClassNeg :: r0) \/ (match ts with TClassNeg :: r => (true, r) | _ => (false, ts) end) = (false, ts)).
    { destruct ts as [|[] r]; eauto. }
    destruct H as [(r0 & ->)|H].
    - apply G in E. destruct E as (is & us & -> & C & Ne & S). exists (Class true is), (TClassOpen :: TClassNeg :: us ++ [TClassClose]). split; [simpl; now rewrite <- app_assoc|]. split; [now constructor|assumption].
    - rewrite H in E. apply G in E. destruct E as (is & us & -> & C & Ne & S). exists (Class false is), (TClassOpen :: us ++ [TClassClose]). split; [simpl; now rewrite <- app_assoc|]. split; [now constructor|assumption].
  Qed.

  Lemma parse_class_complete (negated : bool) is us rest : is <> [] -> class_items is us ->
    exists x, parse_class alphabet ((if negated then [TClassNeg] else []) ++ us ++ TClassClose :: rest) = Some (x, rest) /\ stands_for x (Class negated is).
  Proof.
    intros Ne C. destruct (set_items_complete is us C (TClassClose :: rest)) as (vs & E); [exact Logic.I|]. destruct (items_start is us C Ne) as (k & r & ->).
    destruct (set_items_sound _ _ _ _ (le_n _) E) as (is' & us' & Eu & C' & Ev).
    assert (Es : us' = TInteger k :: r) by (symmetry; exact (app_inv_tail _ _ _ Eu)). subst us'.
    exists (CSymbols (class_values alphabet negated vs)). split.
    - unfold parse_class. destruct negated; simpl in *; rewrite E; reflexivity.
    - apply stands_class. now rewrite (items_unique _ _ C _ C').
  Qed.

  (** *** Expressions *)

  Lemma expression_step fuel ts : parse_expression alphabet (S fuel) ts =
    match parse_term alphabet fuel ts with
    | Some (x, TUnion :: r) => option_map (fun '(y, rest) => (CUnion x y, rest)) (parse_expression alphabet fuel r)
    | other => other
    end.
  Proof. reflexivity. Qed.

  Lemma term_step fuel ts : parse_term alphabet (S fuel) ts =
    match parse_factor alphabet fuel ts with
    | Some (x, r) => if starts_atom r then option_map (fun '(y, rest) => (CConcat x y, rest)) (parse_term alphabet fuel r) else Some (x, r)
    | None => None
    end.
  Proof. reflexivity. Qed.

  Lemma factor_step fuel ts : parse_factor alphabet (S fuel) ts =
    match parse_atom alphabet fuel ts with
    | Some (x, TStar :: r) => Some (CStar x, r)
    | Some (x, TPlus :: r) => Some (CConcat x (CStar x), r)
    | Some (x, TOptional :: r) => Some (CUnion x CEmpty, r)
    | Some (x, TQuantOpen :: r) => parse_quantifier x r
    | other => other
    end.
  Proof. reflexivity. Qed.

  Lemma atom_step fuel ts : parse_atom alphabet (S fuel) ts =
    match ts with
    | TInteger n :: r => Some (CSymbols [Z.of_N n], r)
    | TAny :: r => Some (CSymbols alphabet, r)
    | TClassOpen :: r => parse_class alphabet r
    | TGroupOpen :: r =>
        match parse_expression alphabet fuel r with
        | Some (x, TGroupClose :: rest) => Some (x, rest)
        | _ => None
        end
    | _ => None
    end.
  Proof. reflexivity. Qed.

  Lemma parse_sound fuel :
    (forall ts x rest, parse_expression alphabet fuel ts = Some (x, rest) -> exists r us, ts = us ++ rest /\ expression r us /\ stands_for x r) /\
    (forall ts x rest, parse_term alphabet fuel ts = Some (x, rest) -> exists r us, ts = us ++ rest /\ term r us /\ stands_for x r) /\
    (forall ts x rest, parse_factor alphabet fuel ts = Some (x, rest) -> exists r us, ts = us ++ rest /\ factor r us /\ stands_for x r) /\
    (forall ts x rest, parse_atom alphabet fuel ts = Some (x, rest) -> exists r us, ts = us ++ rest /\ atom r us /\ stands_for x r).
  Proof.
    induction fuel as [|fuel (IHe & IHt & IHf & IHa)]; [repeat split; discriminate|]. split; [|split; [|split]]; intros ts x rest E.
    - rewrite expression_step in E. destruct (parse_term alphabet fuel ts) as [[y r]|] eqn:Et; [|discriminate E]. destruct (IHt _ _ _ Et) as (ry & us & -> & T & S).
      assert (Pl : Some (y, r) = Some (x, rest) -> exists r0 us0, us ++ r = us0 ++ rest /\ expression r0 us0 /\ stands_for x r0).
      { intros [= -> ->]. exists ry, us. repeat split; try assumption; [now constructor|apply S|apply S]. }
      destruct r as [|t r]; [now apply Pl|]. destruct t; try (now apply Pl); [].
      destruct (parse_expression alphabet fuel r) as [[z rest']|] eqn:Ez; [|discriminate E]. injection E as <- <-. destruct (IHe _ _ _ Ez) as (rz & vs & -> & X & S').
      exists (Or ry rz), (us ++ TUnion :: vs). split; [now rewrite <- app_assoc|]. split; [now constructor|now apply stands_or].
    - rewrite term_step in E. destruct (parse_factor alphabet fuel ts) as [[y r]|] eqn:Et; [|discriminate E]. destruct (IHf _ _ _ Et) as (ry & us & -> & T & S).
      destruct (starts_atom r); [|injection E as <- <-; exists ry, us; repeat split; try assumption; [now constructor|apply S|apply S]].
      destruct (parse_term alphabet fuel r) as [[z rest']|] eqn:Ez; [|discriminate E]. injection E as <- <-. destruct (IHt _ _ _ Ez) as (rz & vs & -> & X & S').
      exists (Then ry rz), (us ++ vs). split; [now rewrite <- app_assoc|]. split; [now constructor|now apply stands_then].
    - rewrite factor_step in E. destruct (parse_atom alphabet fuel ts) as [[y r]|] eqn:Et; [|discriminate E]. destruct (IHa _ _ _ Et) as (ry & us & -> & T & S).
      assert (Pl : Some (y, r) = Some (x, rest) -> exists r0 us0, us ++ r = us0 ++ rest /\ factor r0 us0 /\ stands_for x r0).
      { intros [= -> ->]. exists ry, us. repeat split; try assumption; [now constructor|apply S|apply S]. }
      destruct r as [|t r]; [now apply Pl|]. destruct t; try (now apply Pl).
      + injection E as <- <-. exists (Repeat ry 1 None), (us ++ [TPlus]). split; [now rewrite <- app_assoc|]. split; [now constructor|now apply stands_plus].
      + injection E as <- <-. exists (Repeat ry 0 None), (us ++ [TStar]). split; [now rewrite <- app_assoc|]. split; [now constructor|now apply stands_star].
      + injection E as <- <-. exists (Repeat ry 0 (Some 1%nat)), (us ++ [TOptional]). split; [now rewrite <- app_assoc|]. split; [now constructor|now apply stands_optional].
      + unfold parse_quantifier in E. destruct r as [|[n| | | | | | | | | | | | | |] [|[k| | | | | | | | | | | | | |] r]]; try discriminate E.
        * injection E as <- <-. eexists. exists (us ++ [TQuantOpen; TInteger n; TQuantClose]). split; [now rewrite <- app_assoc|]. split; [apply is_exactly; exact T|now apply stands_exactly].
        * destruct r as [|[m| | | | | | | | | | | | | |] r]; try discriminate E.
          -- destruct r as [|[] r]; try discriminate E. destruct (m <? n)%N eqn:Lt; [discriminate|]. apply N.ltb_ge in Lt. injection E as <- <-.
             eexists. exists (us ++ [TQuantOpen; TInteger n; TComma; TInteger m; TQuantClose]). split; [now rewrite <- app_assoc|]. split; [apply is_between; [exact T|exact Lt]|now apply stands_between].
          -- injection E as <- <-. eexists. exists (us ++ [TQuantOpen; TInteger n; TComma; TQuantClose]). split; [now rewrite <- app_assoc|]. split; [apply is_at_least; exact T|now apply stands_at_least].
    - rewrite atom_step in E. destruct ts as [|t ts]; [discriminate|]. destruct t; try discriminate E.
      + injection E as <- <-. exists (Literal (Z.of_N n)), [TInteger n]. split; [reflexivity|]. split; [constructor|]. intro w. simpl. split; [intros (v & -> & [<-|[]]); reflexivity|intros ->; eauto].
      + destruct (parse_expression alphabet fuel ts) as [[y [|t r]]|] eqn:Ez; try discriminate E. destruct t; try discriminate E. injection E as <- <-. destruct (IHe _ _ _ Ez) as (ry & us & -> & X & S).
        exists ry, (TGroupOpen :: us ++ [TGroupClose]). split; [simpl; now rewrite <- app_assoc|]. split; [now constructor|assumption].
      + injection E as <- <-. exists AnyValue, [TAny]. split; [reflexivity|]. split; [constructor|]. intro w. reflexivity.
      + now apply parse_class_sound.
  Qed.

  Lemma parse_complete :
    (forall r us, expression r us -> (1 <= length us)%nat /\ starts_atom us = true /\ forall rest, starts_atom rest = false -> quantifies rest = false -> divides rest = false ->
       exists x, stands_for x r /\ forall fuel, (4 * length us <= fuel)%nat -> parse_expression alphabet fuel (us ++ rest) = Some (x, rest)) /\
    (forall r us, term r us -> (1 <= length us)%nat /\ starts_atom us = true /\ forall rest, starts_atom rest = false -> quantifies rest = false ->
       exists x, stands_for x r /\ forall fuel, (4 * length us - 1 <= fuel)%nat -> parse_term alphabet fuel (us ++ rest) = Some (x, rest)) /\
    (forall r us, factor r us -> (1 <= length us)%nat /\ starts_atom us = true /\ forall rest, quantifies rest = false ->
       exists x, stands_for x r /\ forall fuel, (4 * length us - 2 <= fuel)%nat -> parse_factor alphabet fuel (us ++ rest) = Some (x, rest)) /\
    (forall r us, atom r us -> (1 <= length us)%nat /\ starts_atom us = true /\ forall rest,
       exists x, stands_for x r /\ forall fuel, (4 * length us - 3 <= fuel)%nat -> parse_atom alphabet fuel (us ++ rest) = Some (x, rest)).
  Proof.
    assert (SA : forall us vs, starts_atom us = true -> starts_atom (us ++ vs) = true) by (intros [|[] us] vs; simpl; auto; discriminate).
    assert (SQ : forall us vs, starts_atom us = true -> quantifies (us ++ vs) = false) by (intros [|[] us] vs; simpl; auto; discriminate).
    apply grammar_ind.
    - intros r us _ (L & St & IH). split; [assumption|]. split; [assumption|]. intros rest A Q D. destruct (IH rest A Q) as (x & S & P). exists x. split; [assumption|].
      intros [|fuel] Hf; [lia|]. rewrite expression_step. rewrite P by lia. destruct rest as [|[] rest]; try reflexivity. discriminate.
    - intros r s us vs _ (L & St & IH) _ (L' & St' & IH'). split; [rewrite app_length; simpl; lia|]. split; [now apply SA|]. intros rest A Q D.
      destruct (IH (TUnion :: vs ++ rest) eq_refl eq_refl) as (x & S & P). destruct (IH' rest A Q D) as (y & S' & P'). exists (CUnion x y). split; [now apply stands_or|].
      intros [|fuel] Hf; rewrite app_length in Hf; cbn [length] in Hf; [lia|]. rewrite expression_step. rewrite <- app_assoc. cbn [app]. rewrite P, P' by lia. reflexivity.
    - intros r us _ (L & St & IH). split; [assumption|]. split; [assumption|]. intros rest A Q. destruct (IH rest Q) as (x & S & P). exists x. split; [assumption|].
      intros [|fuel] Hf; [lia|]. rewrite term_step. rewrite P by lia. now rewrite A.
    - intros r s us vs _ (L & St & IH) _ (L' & St' & IH'). split; [rewrite app_length; simpl; lia|]. split; [now apply SA|]. intros rest A Q.
      destruct (IH (vs ++ rest) (SQ _ _ St')) as (x & S & P). destruct (IH' rest A Q) as (y & S' & P'). exists (CConcat x y). split; [now apply stands_then|].
      intros [|fuel] Hf; rewrite app_length in Hf; [lia|]. rewrite term_step. rewrite <- app_assoc. rewrite P by lia. rewrite (SA _ _ St'). rewrite P' by lia. reflexivity.
    - intros r us _ (L & St & IH). split; [assumption|]. split; [assumption|]. intros rest Q. destruct (IH rest) as (x & S & P). exists x. split; [assumption|].
      intros [|fuel] Hf; [lia|]. rewrite factor_step. rewrite P by lia. destruct rest as [|[] rest]; try reflexivity; discriminate.
    - intros r us _ (L & St & IH). split; [rewrite app_length; simpl; lia|]. split; [now apply SA|]. intros rest _. destruct (IH ([TStar] ++ rest)) as (x & S & P). exists (CStar x). split; [now apply stands_star|].
      intros [|fuel] Hf; rewrite app_length in Hf; [lia|]. rewrite factor_step. rewrite <- app_assoc. rewrite P by (simpl in Hf; lia). reflexivity.
    - intros r us _ (L & St & IH). split; [rewrite app_length; simpl; lia|]. split; [now apply SA|]. intros rest _. destruct (IH ([TPlus] ++ rest)) as (x & S & P). eexists. split; [now apply (stands_plus x)|].
      intros [|fuel] Hf; rewrite app_length in Hf; [lia|]. rewrite factor_step. rewrite <- app_assoc. rewrite P by (simpl in Hf; lia). reflexivity.
    - intros r us _ (L & St & IH). split; [rewrite app_length; simpl; lia|]. split; [now apply SA|]. intros rest _. destruct (IH ([TOptional] ++ rest)) as (x & S & P). eexists. split; [now apply (stands_optional x)|].
      intros [|fuel] Hf; rewrite app_length in Hf; [lia|]. rewrite factor_step. rewrite <- app_assoc. rewrite P by (simpl in Hf; lia). reflexivity.
    - intros r us n _ (L & St & IH). split; [rewrite app_length; simpl; lia|]. split; [now apply SA|]. intros rest _. destruct (IH ([TQuantOpen; TInteger n; TQuantClose] ++ rest)) as (x & S & P). eexists. split; [now apply (stands_exactly x)|].
      intros [|fuel] Hf; rewrite app_length in Hf; [lia|]. rewrite factor_step. rewrite <- app_assoc. rewrite P by (simpl in Hf; lia). reflexivity.
    - intros r us n _ (L & St & IH). split; [rewrite app_length; simpl; lia|]. split; [now apply SA|]. intros rest _. destruct (IH ([TQuantOpen; TInteger n; TComma; TQuantClose] ++ rest)) as (x & S & P). eexists. split; [now apply (stands_at_least x)|].
      intros [|fuel] Hf; rewrite app_length in Hf; [lia|]. rewrite factor_step. rewrite <- app_assoc. rewrite P by (simpl in Hf; lia). reflexivity.
    - intros r us n m _ (L & St & IH) Le. split; [rewrite app_length; simpl; lia|]. split; [now apply SA|]. intros rest _. destruct (IH ([TQuantOpen; TInteger n; TComma; TInteger m; TQuantClose] ++ rest)) as (x & S & P). eexists. split; [now apply (stands_between x r n m)|].
      intros [|fuel] Hf; rewrite app_length in Hf; [lia|]. rewrite factor_step. rewrite <- app_assoc. rewrite P by (simpl in Hf; lia). cbn [app parse_quantifier]. apply N.ltb_ge in Le. now rewrite Le.
    - intros n. split; [simpl; lia|]. split; [reflexivity|]. intro rest. exists (CSymbols [Z.of_N n]). split.
      + intro w. simpl. split; [intros (v & -> & [<-|[]]); reflexivity|intros ->; eauto].
      + intros [|fuel] Hf; [simpl in Hf; lia|]. reflexivity.
    - split; [simpl; lia|]. split; [reflexivity|]. intro rest. exists (CSymbols alphabet). split; [intro w; reflexivity|]. intros [|fuel] Hf; [simpl in Hf; lia|]. reflexivity.
    - intros is us Ne C. split; [simpl; lia|]. split; [reflexivity|]. intro rest. destruct (parse_class_complete false is us rest Ne C) as (x & E & S). exists x. split; [assumption|].
      intros [|fuel] Hf; [simpl in Hf; lia|]. rewrite atom_step. simpl. rewrite <- app_assoc. exact E.
    - intros is us Ne C. split; [simpl; lia|]. split; [reflexivity|]. intro rest. destruct (parse_class_complete true is us rest Ne C) as (x & E & S). exists x. split; [assumption|].
      intros [|fuel] Hf; [simpl in Hf; lia|]. rewrite atom_step. simpl. rewrite <- app_assoc. exact E.
    - intros r us _ (L & St & IH). split; [simpl; lia|]. split; [reflexivity|]. intro rest. destruct (IH (TGroupClose :: rest) eq_refl eq_refl eq_refl) as (x & S & P). exists x. split; [assumption|].
      intros [|fuel] Hf; cbn [length] in Hf; rewrite app_length in Hf; cbn [length] in Hf; [lia|]. rewrite atom_step. cbn [app]. rewrite <- app_assoc. cbn [app]. rewrite P by lia. reflexivity.
  Qed.

  Lemma parse_regex_complete s r : written s r -> exists x, parse_regex alphabet s = Some x /\ stands_for x r.
  Proof.
    intros (ts & L & E). apply (tokenize_spec s None) in L. destruct parse_complete as [C _]. destruct (C r ts E) as (_ & _ & P).
    destruct (P [] eq_refl eq_refl eq_refl) as (x & Sx & Q). exists x. split; [|assumption]. unfold parse_regex. rewrite L. specialize (Q (4 * S (length ts))%nat ltac:(lia)). rewrite app_nil_r in Q. now rewrite Q.
  Qed.

  Lemma parse_regex_sound s x : parse_regex alphabet s = Some x -> exists r, written s r /\ stands_for x r.
  Proof.
    unfold parse_regex. intro E. destruct (tokenize None s) as [ts|] eqn:Et; [|discriminate]. destruct (parse_expression alphabet (4 * S (length ts)) ts) as [[y [|t l]]|] eqn:Ep; try discriminate E. injection E as <-.
    destruct (parse_sound (4 * S (length ts))) as [C _]. destruct (C _ _ _ Ep) as (r & us & Eu & X & Sx). rewrite app_nil_r in Eu. subst us. exists r. split; [|assumption]. exists ts. split; [|assumption]. now apply (tokenize_spec s None).
  Qed.
End Parser.
