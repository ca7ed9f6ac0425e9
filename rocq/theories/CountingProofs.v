(** Lemmas about counting constraints. *)
From Coq Require Import ZArith List Bool Arith Lia.
From Verif Require Import IntervalSet IntervalSetSpec IntervalSetProofs Vars VarsSpec VarsProofs State StateSpec StateProofs Epochs
  Engine EngineSpec EngineProofs SessionSpec SessionInvProofs Tracker ContractSpec ContractProofs RunProofs Equals EqualsProofs Member MemberProofs
  MinMaxProofs Counting.
Import ListNotations.
Local Open Scope Z_scope.

(** ** Counting *)

Lemma count_le f g vars : (forall v, In v vars -> f v = true -> g v = true) -> how_many_of f vars <= how_many_of g vars.
Proof.
  unfold how_many_of. induction vars as [|v r IH]; intro H; simpl; [lia|]. specialize (IH (fun w I => H w (or_intror I))). specialize (H v (or_introl eq_refl)).
  destruct (f v), (g v); simpl; try lia; specialize (H eq_refl); discriminate.
Qed.

Lemma count_lt f g vars v : (forall v, In v vars -> f v = true -> g v = true) -> In v vars -> f v = false -> g v = true -> how_many_of f vars < how_many_of g vars.
Proof.
  unfold how_many_of. induction vars as [|w r IH]; intros H I Fv Gv; [contradiction|].
  pose proof (count_le f g r (fun w I => H w (or_intror I))) as Le. unfold how_many_of in Le. simpl. destruct I as [->|I].
  - rewrite Fv, Gv. simpl. lia.
  - specialize (IH (fun w I => H w (or_intror I)) I Fv Gv). specialize (H w (or_introl eq_refl)). destruct (f w), (g w); simpl; try lia; specialize (H eq_refl); discriminate.
Qed.

Lemma count_ext f g vars : (forall v, In v vars -> f v = g v) -> how_many_of f vars = how_many_of g vars.
Proof. intro H. apply Z.le_antisymm; apply count_le; intros v I E; [rewrite <- H by assumption|rewrite H by assumption]; assumption. Qed.

Lemma count_negb f vars : how_many_of f vars + how_many_of (fun v => negb (f v)) vars = Z.of_nat (length vars).
Proof. unfold how_many_of. induction vars as [|v r IH]; cbn [filter length]; [reflexivity|]. destruct (f v); cbn [negb length]; lia. Qed.

Lemma count_split f g vars : how_many_of (fun v => negb (f v) && g v) vars + how_many_of (fun v => negb (f v) && negb (g v)) vars = Z.of_nat (length vars) - how_many_of f vars.
Proof. unfold how_many_of. induction vars as [|v r IH]; cbn [filter length]; [reflexivity|]. destruct (f v), (g v); cbn [negb andb length]; lia. Qed.

(** ** Count *)

Section Count.
Variable nv : nat.
Variable vars : list var_id.
Variable voi how_many : var_id.
Hypothesis Bs : Forall (var_below nv) vars.
Hypothesis Bv : var_below nv voi.
Hypothesis Bh : var_below nv how_many.

(** How many of them take the value. *)
Definition takes (a : assignment) (x : Z) : Z := how_many_of (fun v => var_value a v =? x) vars.

Definition count_sat (a : assignment) : Prop := var_value a how_many = takes a (var_value a voi).

Section At.
Variable d : domains.
Hypothesis Hd : domains_ok d.
Hypothesis Ld : length d = nv.

Lemma known_of t v : length (t_domains t) = nv -> In v vars -> var_known (t_domains t) v.
Proof. intros L I. apply (var_below_known nv); auto. pose proof (proj1 (Forall_forall _ _) Bs) as F. now apply F. Qed.

Lemma set_takes dd a x : domains_ok dd -> length dd = nv -> within a dd -> how_many_of (is_set_to dd x) vars <= takes a x.
Proof.
  intros Ok L W. apply count_le. intros v I. unfold is_set_to. destruct (optional_single_value dd v) as [s|] eqn:E; [|discriminate].
  pose proof (known_of (track dd) v L I) as K. simpl in K.
  rewrite <- (osv_value dd v s Ok K E a W). intro H. exact H.
Qed.

Lemma takes_might dd a x : domains_ok dd -> length dd = nv -> within a dd -> takes a x <= how_many_of (might_be dd x) vars.
Proof.
  intros Ok L W. apply count_le. intros v I E. apply Z.eqb_eq in E. unfold might_be. pose proof (known_of (track dd) v L I) as K. simpl in K.
  destruct (optional_single_value dd v) as [s|] eqn:Es.
  - apply Z.eqb_eq. rewrite <- (osv_value dd v s Ok K Es a W). assumption.
  - rewrite <- E. now apply value_in_domain.
Qed.

(** The accumulated bounds are right for the values of interest seen so far. *)
Definition seen_ok (acc : count_acc) (seen : list Z) : Prop :=
  let '(t, lowest, highest) := acc in
  honest nv d count_sat t /\
  forall a, within a d -> count_sat a -> In (var_value a voi) seen ->
    exists l h, lowest = Some l /\ highest = Some h /\ l <= var_value a how_many <= h.

Lemma count_value_ok acc x seen : seen_ok acc seen -> seen_ok (count_value vars voi how_many acc x) (seen ++ [x]).
Proof.
  destruct acc as [[t lowest] highest]. intros [H S]. unfold count_value.
  set (must := how_many_of (is_set_to (t_domains t) x) vars). set (might := how_many_of (might_be (t_domains t) x) vars).
  assert (R : forall a, within a d -> count_sat a -> var_value a voi = x -> lower_bound (t_domains t) how_many <= var_value a how_many <= upper_bound (t_domains t) how_many /\
     must <= var_value a how_many <= might /\ in_domain (t_domains t) how_many (var_value a how_many) = true).
  { intros a Wa Sa Ex. destruct (honest_within nv d Hd Ld count_sat t a H Wa Sa) as [F W]. pose proof H as [G _].
    pose proof (legit_ok nv d Hd Ld t G F) as Ok. pose proof (legit_length nv d Hd Ld t G) as L. pose proof (var_below_known nv _ _ L Bh) as Kh.
    split; [now apply value_bounds|]. split; [|now apply value_in_domain]. unfold count_sat in Sa. rewrite Sa, Ex. split; [now apply set_takes|now apply takes_might]. }
  assert (No : (forall a, within a d -> count_sat a -> var_value a voi <> x) -> seen_ok (tell_ne voi x t, lowest, highest) (seen ++ [x])).
  { intro N. split.
    - apply honest_tell; auto. intros _ _ _ a Wa _ Sa. simpl. unfold cond_holds; simpl. now apply N.
    - intros a Wa Sa I. apply in_app_or in I. destruct I as [I|[I|[]]]; [now apply S|]. exfalso. apply (N a Wa Sa). now symmetry. }
  destruct (Z.ltb_spec might (lower_bound (t_domains t) how_many)) as [Lt|Ge].
  { apply No. intros a Wa Sa Ex. destruct (R a Wa Sa Ex) as (? & ? & _). lia. }
  destruct (Z.ltb_spec (upper_bound (t_domains t) how_many) must) as [Lt|Ge'].
  { apply No. intros a Wa Sa Ex. destruct (R a Wa Sa Ex) as (? & ? & _). lia. }
  destruct (existsb (in_domain (t_domains t) how_many) (zrange must might)) eqn:E.
  - split; [assumption|]. intros a Wa Sa I. eexists. eexists. split; [reflexivity|]. split; [reflexivity|]. apply in_app_or in I. destruct I as [I|[I|[]]].
    + destruct (S a Wa Sa I) as (l & h & -> & -> & B). destruct (Z.ltb_spec must l), (Z.ltb_spec h might); lia.
    + destruct (R a Wa Sa (eq_sym I)) as (_ & ? & _). destruct lowest as [l|], highest as [h|]; repeat match goal with |- context [?p <? ?q] => destruct (Z.ltb_spec p q) end; lia.
  - apply No. intros a Wa Sa Ex. destruct (R a Wa Sa Ex) as (_ & B & D).
    assert (X : existsb (in_domain (t_domains t) how_many) (zrange must might) = true); [|congruence]. apply existsb_exists. exists (var_value a how_many).
    split; [now apply zrange_In|assumption].
Qed.

Lemma count_values_ok xs : forall acc seen, seen_ok acc seen -> seen_ok (fold_left (count_value vars voi how_many) xs acc) (seen ++ xs).
Proof.
  induction xs as [|x r IH]; intros acc seen H; simpl; [now rewrite app_nil_r|]. replace (seen ++ x :: r) with ((seen ++ [x]) ++ r) by now rewrite <- app_assoc.
  apply IH. now apply count_value_ok.
Qed.

Lemma count_first : honest nv d count_sat (tell_lt how_many (how_many_of (domains_intersect d voi) vars + 1) (track d)).
Proof.
  apply honest_tell; auto; [apply honest_track|]. intros _ _ _ a Wa _ Sa. simpl. unfold cond_holds; simpl. rewrite Sa.
  enough (takes a (var_value a voi) <= how_many_of (domains_intersect d voi) vars) by lia.
  apply count_le. intros v I E. apply Z.eqb_eq in E. pose proof (known_of (track d) v Ld I) as K. simpl in K. pose proof (var_below_known nv _ _ Ld Bv) as Kv.
  apply domains_intersect_spec; auto. exists (var_value a voi). split; [now apply value_possible|]. rewrite <- E. now apply value_possible.
Qed.

Definition count_must (t1 : tracker) : Z :=
  match optional_single_value (t_domains t1) voi with Some x => how_many_of (is_set_to (t_domains t1) x) vars | None => 0 end.

Lemma count_second t1 : honest nv d count_sat t1 -> honest nv d count_sat (tell_ge how_many (count_must t1) t1).
Proof.
  intro H. apply honest_tell; auto. intros F Ok L a Wa Wt Sa. simpl. unfold cond_holds; simpl. rewrite Sa. unfold count_must.
  destruct (optional_single_value (t_domains t1) voi) as [x|] eqn:E; [|unfold takes, how_many_of; lia].
  rewrite <- (osv_value _ _ _ Ok (var_below_known nv _ _ L Bv) E a Wt). pose proof (set_takes (t_domains t1) a (var_value a voi) Ok L Wt). lia.
Qed.

Lemma count_honest : honest nv d count_sat (fst (count_body vars voi how_many d)).
Proof.
  unfold count_body. pose proof count_first as H1. set (t1 := tell_lt how_many _ (track d)) in *. pose proof (count_second t1 H1) as H2. fold (count_must t1).
  set (t2 := tell_ge how_many (count_must t1) t1) in *.
  assert (I : seen_ok (t2, None, None) []) by (split; [assumption|intros a _ _ []]).
  pose proof (count_values_ok (each_value (t_domains t2) voi) _ _ I) as S. simpl app in S.
  destruct (fold_left (count_value vars voi how_many) (each_value (t_domains t2) voi) (t2, None, None)) as [[t3 lowest] highest]. destruct S as [H3 S]. cbn [fst].
  assert (S' : forall a, within a d -> count_sat a -> exists l h, lowest = Some l /\ highest = Some h /\ l <= var_value a how_many <= h).
  { intros a Wa Sa. apply S; auto. destruct (honest_within nv d Hd Ld count_sat t2 a H2 Wa Sa) as [F W]. pose proof H2 as [G _].
    apply value_listed; [now apply (legit_ok nv d)|apply (var_below_known nv); [now apply (legit_length nv d)|assumption]|assumption]. }
  assert (H4 : honest nv d count_sat (match lowest with Some l => tell_ge how_many l t3 | None => t3 end)).
  { destruct lowest as [l|]; [|assumption]. apply honest_tell; auto. intros _ _ _ a Wa _ Sa. destruct (S' a Wa Sa) as (l' & h' & [= <-] & _ & ?). simpl. unfold cond_holds; simpl. lia. }
  destruct highest as [h|]; [|assumption]. apply honest_tell; auto. intros _ _ _ a Wa _ Sa. destruct (S' a Wa Sa) as (l' & h' & _ & [= <-] & ?). simpl. unfold cond_holds; simpl. lia.
Qed.

Lemma count_values_later xs : forall acc, later nv d (fst (fst acc)) (fst (fst (fold_left (count_value vars voi how_many) xs acc))).
Proof.
  induction xs as [|x r IH]; intro acc; simpl; [apply later_refl|]. eapply later_trans; [|apply IH]. destruct acc as [[t lo] hi]. unfold count_value.
  destruct (_ <? _); [now apply later_tell|]. destruct (_ <? _); [now apply later_tell|]. destruct (existsb _ _); [apply later_refl|now apply later_tell].
Qed.

Lemma count_checks a : Forall (fixed d) (vars ++ [voi; how_many]) -> live nv d (fst (count_body vars voi how_many d)) a -> count_sat a.
Proof.
  intros Fx. unfold count_body. set (t1 := tell_lt how_many _ (track d)). fold (count_must t1). set (t2 := tell_ge how_many (count_must t1) t1).
  pose proof (count_values_later (each_value (t_domains t2) voi) (t2, None, None)) as Lt.
  destruct (fold_left (count_value vars voi how_many) (each_value (t_domains t2) voi) (t2, None, None)) as [[t3 lowest] highest]. cbn [fst] in *. intro Lv.
  assert (G1 : legit nv d t1) by (apply legit_tell; [assumption|apply legit_track]). assert (G2 : legit nv d t2) by now apply legit_tell.
  destruct (Lt G2) as [G3 B3].
  assert (L4 : later nv d t3 (match lowest with Some l => tell_ge how_many l t3 | None => t3 end)) by (destruct lowest; [now apply later_tell|apply later_refl]).
  destruct (L4 G3) as [G4 B4]. set (t4 := match lowest with Some l => tell_ge how_many l t3 | None => t3 end) in *.
  assert (L5 : later nv d t4 (match highest with Some h => tell_lt how_many (h + 1) t4 | None => t4 end)) by (destruct highest; [now apply later_tell|apply later_refl]).
  apply (proj2 (L5 G4)), B4, B3 in Lv. apply tell_back in Lv; auto. destruct Lv as [Lv1 Hm]. pose proof Lv1 as Lv0. unfold t1 in Lv0.
  apply tell_back in Lv0; auto; [|apply legit_track]. destruct Lv0 as [Lv0 Hl]. pose proof (live_within nv d Hd Ld _ _ Lv1) as Wa.
  apply Forall_app in Fx. destruct Fx as [Fv Fx]. inversion_clear Fx as [|? ? Fvoi _]. rewrite Forall_forall in Fv.
  simpl in Hm, Hl. unfold cond_holds in Hm, Hl. simpl in Hm, Hl.
  pose proof (var_below_known nv _ _ Ld Bv) as Kv.
  assert (E1 : how_many_of (domains_intersect d voi) vars = takes a (var_value a voi)).
  { apply count_ext. intros v I. pose proof (known_of (track d) v Ld I) as K. simpl in K. apply eq_true_iff_eq. rewrite domains_intersect_spec, Z.eqb_eq by assumption. split.
    - intros (x & X1 & X2). apply (fixed_only d voi a Hd Kv Wa Fvoi) in X1. apply (fixed_only d v a Hd K Wa (Fv v I)) in X2. congruence.
    - intro E. exists (var_value a voi). split; [now apply value_possible|]. rewrite <- E. now apply value_possible. }
  assert (E2 : count_must t1 = takes a (var_value a voi)).
  { pose proof (live_ok nv d Hd Ld t1 a Lv1) as Ok. pose proof (live_length nv d Hd Ld t1 a Lv1) as L. assert (W1 : within a (t_domains t1)) by apply Lv1. unfold count_must.
    rewrite (fixed_single_value (t_domains t1) voi a Ok (var_below_known nv _ _ L Bv) W1 (live_fixed nv d Hd Ld t1 a voi Lv1 Fvoi)).
    apply count_ext. intros v I. unfold is_set_to.
    now rewrite (fixed_single_value (t_domains t1) v a Ok (known_of t1 v L I) W1 (live_fixed nv d Hd Ld t1 a v Lv1 (Fv v I))). }
  unfold count_sat. lia.
Qed.

End At.
End Count.

Lemma count_enables vars voi how_many d : snd (count_body vars voi how_many d) = Enable.
Proof. unfold count_body. destruct (fold_left _ _ _) as [[? ?] ?]. reflexivity. Qed.

Lemma count_correct d0 vars voi how_many : Forall (var_known d0) (vars ++ [voi; how_many]) ->
  correct_on d0 (count_constraint vars voi how_many) (vars ++ [voi; how_many]) (count_sat vars voi how_many).
Proof.
  intro K. pose proof K as K'. apply Forall_app in K'. destruct K' as [Ks K']. inversion_clear K' as [|? ? Kv K2]. inversion_clear K2 as [|? ? Kh _].
  apply (one_propagator_correct d0 _ (count_body vars voi how_many) (vars ++ [voi]) [how_many] [] [] _ (count_sat vars voi how_many)); auto.
  - reflexivity.
  - rewrite app_nil_r, <- app_assoc. apply incl_refl.
  - intros nv Ln. pose proof (known_below_more _ _ _ Ln Kv) as B. pose proof (known_below_more _ _ _ Ln Kh) as Bh.
    assert (Bs : Forall (var_below nv) vars) by (eapply Forall_impl; [|exact Ks]; intros v Kn; now apply (known_below_more d0)).
    apply body_ok_intro.
    + intros. now apply count_honest.
    + intros d a Hd L _ F Lv. now apply (count_checks nv vars voi how_many Bs B Bh d).
    + intros d a Hd L _ _ R. rewrite count_enables in R. discriminate R.
    + intros d a Hd L _ R. rewrite count_enables in R. discriminate R.
  - intros nv g d Ln [].
Qed.

(** ** Among *)

Section Among.
Variable nv : nat.
Variable vars : list var_id.
Variable vois : list Z.
Variable how_many : var_id.
Hypothesis Bs : Forall (var_below nv) vars.
Hypothesis Bh : var_below nv how_many.

(** How many of them take one of the values. *)
Definition takes_any (a : assignment) : Z := how_many_of (fun v => listed vois (var_value a v)) vars.

Definition among_sat (a : assignment) : Prop := var_value a how_many = takes_any a.

Definition is_must (d : domains) (v : var_id) : bool := negb (cannot_match vois d v) && all_match vois d v.
Definition is_either (d : domains) (v : var_id) : bool := negb (cannot_match vois d v) && negb (all_match vois d v).

Section At.
Variable d : domains.
Hypothesis Hd : domains_ok d.
Hypothesis Ld : length d = nv.

Lemma known_here v : In v vars -> var_known d v.
Proof. intros I. apply (var_below_known nv); auto. pose proof (proj1 (Forall_forall _ _) Bs) as F. now apply F. Qed.

Lemma below_here v : In v vars -> var_below nv v.
Proof. pose proof (proj1 (Forall_forall _ _) Bs) as F. apply F. Qed.

Lemma must_takes a v : within a d -> In v vars -> is_must d v = true -> listed vois (var_value a v) = true.
Proof.
  intros Wa I E. apply andb_prop in E. destruct E as [_ E]. unfold all_match in E. rewrite forallb_forall in E. apply E. apply value_listed; auto. now apply known_here.
Qed.

Lemma takes_can a v : within a d -> In v vars -> listed vois (var_value a v) = true -> negb (cannot_match vois d v) = true.
Proof.
  intros Wa I E. unfold cannot_match. rewrite negb_involutive. apply existsb_exists. exists (var_value a v). split; [now apply listed_In|].
  apply value_in_domain; auto. now apply known_here.
Qed.

Lemma must_le a : within a d -> how_many_of (is_must d) vars <= takes_any a.
Proof. intro Wa. apply count_le. intros v I. now apply must_takes. Qed.

Lemma can_ge a : within a d -> takes_any a <= Z.of_nat (length vars) - how_many_of (cannot_match vois d) vars.
Proof.
  intro Wa. pose proof (count_negb (cannot_match vois d) vars).
  enough (takes_any a <= how_many_of (fun v => negb (cannot_match vois d v)) vars) by lia. apply count_le. intros v I. now apply takes_can.
Qed.

Lemma must_either : how_many_of (is_must d) vars + how_many_of (is_either d) vars = Z.of_nat (length vars) - how_many_of (cannot_match vois d) vars.
Proof. apply count_split. Qed.

Lemma bounds_honest : honest nv d among_sat (among_bounds vars vois how_many d).
Proof.
  unfold among_bounds. fold (is_must d). apply honest_tell; auto.
  - apply honest_tell; auto; [apply honest_track|]. intros _ _ _ a Wa _ Sa. simpl. unfold cond_holds; simpl. rewrite Sa. pose proof (must_le a Wa). unfold is_must in *. lia.
  - intros _ _ _ a Wa _ Sa. simpl. unfold cond_holds; simpl. rewrite Sa. pose proof (can_ge a Wa). lia.
Qed.

Lemma bounds_live a : live nv d (among_bounds vars vois how_many d) a ->
  how_many_of (is_must d) vars <= var_value a how_many <= how_many_of (is_must d) vars + how_many_of (is_either d) vars.
Proof.
  unfold among_bounds. fold (is_must d). intro Lv. rewrite must_either. apply tell_back in Lv; auto.
  - destruct Lv as [Lv Hl]. apply tell_back in Lv; auto; [|apply legit_track]. destruct Lv as [_ Hg]. simpl in *. unfold cond_holds in *. simpl in *. unfold is_must in *. lia.
  - apply legit_tell; [assumption|apply legit_track].
Qed.

(** What the code reads back. *)
Lemma bounds_read t : t = among_bounds vars vois how_many d -> t_failed t = false -> bounds (t_domains t) how_many = (lower_bound (t_domains t) how_many, upper_bound (t_domains t) how_many) /\
  how_many_of (is_must d) vars <= lower_bound (t_domains t) how_many <= upper_bound (t_domains t) how_many /\
  upper_bound (t_domains t) how_many <= how_many_of (is_must d) vars + how_many_of (is_either d) vars /\
  forall a, within a (t_domains t) -> lower_bound (t_domains t) how_many <= var_value a how_many <= upper_bound (t_domains t) how_many.
Proof.
  intros -> F. set (t := among_bounds vars vois how_many d) in *. split; [apply bounds_spec|]. pose proof bounds_honest as [G _].
  pose proof (legit_ok nv d Hd Ld t G F) as Ok. pose proof (legit_length nv d Hd Ld t G) as L. pose proof (var_below_known nv _ _ L Bh) as Kh.
  destruct (lower_bound_spec (t_domains t) how_many Ok Kh) as [Lo1 Lo2]. destruct (upper_bound_spec (t_domains t) how_many Ok Kh) as [Up1 Up2].
  apply view_member_iff in Lo1; auto. destruct Lo1 as (a1 & W1 & E1). apply view_member_iff in Up1; auto. destruct Up1 as (a2 & W2 & E2).
  pose proof (bounds_live a1 (conj G (conj F W1))). pose proof (bounds_live a2 (conj G (conj F W2))).
  split; [split; [lia|]|split; [lia|]].
  - rewrite <- E1. now apply value_bounds.
  - intros a W. now apply value_bounds.
Qed.

Lemma forbid_later t : later nv d t (forbid_others vars vois t).
Proof.
  apply later_for_each. intros v t' I. destruct (all_match _ _ _); [apply later_refl|]. unfold tell_all. apply (later_for_each nv d _ tell).
  intros l t2 Il. apply in_map_iff in Il. destruct Il as (x & <- & _). apply later_tell; auto. now apply below_here.
Qed.

Lemma require_later t : later nv d t (require_others vars vois t).
Proof.
  apply later_for_each. intros v t' I. destruct (cannot_match _ _ _); [apply later_refl|]. apply later_for_each.
  intros x t2 _. destruct (listed vois x); [apply later_refl|]. apply later_tell; auto. now apply below_here.
Qed.

Lemma all_match_iff dd v : all_match vois dd v = true <-> forall x, view_member dd v x -> In x vois.
Proof.
  unfold all_match. rewrite forallb_forall. split; intros H x M.
  - apply listed_In. apply H. now apply each_value_In.
  - apply listed_In. apply H. now apply each_value_In.
Qed.

Lemma not_all_match_iff dd v : all_match vois dd v = false <-> exists x, view_member dd v x /\ ~ In x vois.
Proof.
  split.
  - unfold all_match. intro E. assert (X : existsb (fun x => negb (listed vois x)) (each_value dd v) = true).
    { revert E. induction (each_value dd v) as [|x r IH]; simpl; [discriminate|]. destruct (listed vois x); simpl; auto. }
    apply existsb_exists in X. destruct X as (x & I & N). exists x. split; [now apply each_value_In|]. intro Y. apply listed_In in Y. rewrite Y in N. discriminate.
  - intros (x & M & N). destruct (all_match vois dd v) eqn:E; [|reflexivity]. exfalso. apply N. now apply (proj1 (all_match_iff dd v) E).
Qed.

Lemma cannot_match_iff dd v : domains_ok dd -> var_known dd v -> (cannot_match vois dd v = false <-> exists x, view_member dd v x /\ In x vois).
Proof.
  intros Ok K. unfold cannot_match. rewrite negb_false_iff, existsb_exists. split; intros (x & A & B); exists x.
  - split; [now apply in_domain_spec in B|assumption].
  - split; [assumption|now apply in_domain_spec].
Qed.

(** A variable that does not have to match now did not have to at the start. *)
Lemma not_all_before t v : legit nv d t -> t_failed t = false -> In v vars -> all_match vois (t_domains t) v = false -> all_match vois d v = false.
Proof.
  intros G F I E. apply not_all_match_iff in E. destruct E as (x & M & N). apply not_all_match_iff. exists x. split; [|assumption].
  apply (member_before nv d Hd Ld t v x G F (below_here v I) M).
Qed.

(** A variable that might match now might have at the start. *)
Lemma can_before t v : legit nv d t -> t_failed t = false -> In v vars -> cannot_match vois (t_domains t) v = false -> cannot_match vois d v = false.
Proof.
  intros G F I E. pose proof (below_here v I) as B.
  apply cannot_match_iff in E; [|now apply (legit_ok nv d)|apply (var_below_known nv); [now apply (legit_length nv d)|assumption]].
  destruct E as (x & M & N). apply cannot_match_iff; auto; [now apply known_here|]. exists x. split; [|assumption].
  apply (member_before nv d Hd Ld t v x G F B M).
Qed.

Lemma forbid_honest t0 : honest nv d among_sat t0 ->
  (forall a, within a d -> among_sat a -> takes_any a = how_many_of (is_must d) vars) -> honest nv d among_sat (forbid_others vars vois t0).
Proof.
  intros H0 E. apply honest_for_each; [|assumption]. intros v t I H. destruct (all_match vois (t_domains t) v) eqn:Am; [assumption|].
  assert (N : forall a, within a d -> among_sat a -> listed vois (var_value a v) = false).
  { intros a Wa Sa. destruct (honest_within nv d Hd Ld among_sat t a H Wa Sa) as [F W]. pose proof H as [G _].
    pose proof (not_all_before t v G F I Am) as Am0. destruct (listed vois (var_value a v)) eqn:Lv; [|reflexivity]. exfalso.
    assert (Lt : how_many_of (is_must d) vars < takes_any a).
    { apply (count_lt _ _ _ v); auto; [intros w Iw; now apply must_takes|]. unfold is_must. now rewrite Am0, andb_false_r. }
    rewrite (E a Wa Sa) in Lt. lia. }
  apply honest_tell_all; auto.
  - apply Forall_forall. intros l Il. apply in_map_iff in Il. destruct Il as (x & <- & _). now apply below_here.
  - intros a Wa Sa. apply Forall_forall. intros l Il. apply in_map_iff in Il. destruct Il as (x & <- & Ix). simpl. unfold cond_holds; simpl. intros <-.
    apply listed_In in Ix. rewrite N in Ix by assumption. discriminate.
Qed.

Lemma require_honest t0 : honest nv d among_sat t0 ->
  (forall a, within a d -> among_sat a -> takes_any a = Z.of_nat (length vars) - how_many_of (cannot_match vois d) vars) -> honest nv d among_sat (require_others vars vois t0).
Proof.
  intros H0 E. apply honest_for_each; [|assumption]. intros v t I H. destruct (cannot_match vois (t_domains t) v) eqn:Cm; [assumption|].
  assert (N : forall a, within a d -> among_sat a -> listed vois (var_value a v) = true).
  { intros a Wa Sa. destruct (honest_within nv d Hd Ld among_sat t a H Wa Sa) as [F W]. pose proof H as [G _].
    pose proof (can_before t v G F I Cm) as Cm0. destruct (listed vois (var_value a v)) eqn:Lv; [reflexivity|]. exfalso.
    assert (Lt : takes_any a < how_many_of (fun v => negb (cannot_match vois d v)) vars).
    { apply (count_lt _ _ _ v); auto; [intros w Iw; now apply takes_can|]. now rewrite Cm0. }
    rewrite (E a Wa Sa) in Lt. pose proof (count_negb (cannot_match vois d) vars). lia. }
  apply honest_for_each; [|assumption]. intros x t2 _ H2. destruct (listed vois x) eqn:Lx; [assumption|]. apply honest_tell; auto; [now apply below_here|].
  intros _ _ _ a Wa _ Sa. simpl. unfold cond_holds; simpl. intros <-. rewrite N in Lx by assumption. discriminate.
Qed.

Lemma among_honest : honest nv d among_sat (fst (among_body vars vois how_many d)).
Proof.
  unfold among_body. fold (is_must d) (is_either d). pose proof bounds_honest as H. set (t := among_bounds vars vois how_many d) in *. rewrite bounds_spec.
  assert (R : forall a, within a d -> among_sat a -> how_many_of (is_must d) vars <= lower_bound (t_domains t) how_many <= upper_bound (t_domains t) how_many /\
     upper_bound (t_domains t) how_many <= how_many_of (is_must d) vars + how_many_of (is_either d) vars /\
     lower_bound (t_domains t) how_many <= takes_any a <= upper_bound (t_domains t) how_many).
  { intros a Wa Sa. destruct (honest_within nv d Hd Ld among_sat t a H Wa Sa) as [F W]. destruct (bounds_read t eq_refl F) as (_ & A & B & C).
    split; [exact A|]. split; [exact B|]. unfold among_sat in Sa. rewrite <- Sa. now apply C. }
  destruct (Z.eqb_spec (how_many_of (is_must d) vars) (upper_bound (t_domains t) how_many)) as [E|N].
  - cbn [fst]. apply forbid_honest; auto. intros a Wa Sa. specialize (R a Wa Sa). lia.
  - destruct (Z.eqb_spec (how_many_of (is_must d) vars + how_many_of (is_either d) vars) (lower_bound (t_domains t) how_many)) as [E|N']; simpl; [|exact H].
    destruct (0 <? how_many_of (is_either d) vars); [|exact H]. cbn [fst]. apply require_honest; auto. intros a Wa Sa. specialize (R a Wa Sa).
    rewrite <- must_either. lia.
Qed.

Lemma among_later : later nv d (among_bounds vars vois how_many d) (fst (among_body vars vois how_many d)).
Proof.
  unfold among_body. rewrite bounds_spec. destruct (_ =? _); [apply forbid_later|]. destruct (_ && _); [apply require_later|apply later_refl].
Qed.

Lemma among_checks a : Forall (fixed d) (vars ++ [how_many]) -> live nv d (fst (among_body vars vois how_many d)) a -> among_sat a.
Proof.
  intros Fx Lv. apply (proj2 (among_later (proj1 bounds_honest))) in Lv. pose proof (live_within nv d Hd Ld _ _ Lv) as Wa. apply bounds_live in Lv.
  apply Forall_app in Fx. destruct Fx as [Fv _]. rewrite Forall_forall in Fv.
  assert (E1 : how_many_of (is_must d) vars = takes_any a).
  { apply count_ext. intros v I. unfold is_must, cannot_match, all_match. pose proof (known_here v I) as K.
    rewrite (fixed_each_value d v a Hd K Wa (Fv v I)). simpl. rewrite andb_true_r, negb_involutive.
    destruct (listed vois (var_value a v)) eqn:El; [|apply andb_false_r]. rewrite andb_true_r. apply existsb_exists. exists (var_value a v).
    split; [now apply listed_In|now apply value_in_domain]. }
  assert (E2 : how_many_of (is_either d) vars = 0).
  { transitivity (how_many_of (fun _ => false) vars); [|unfold how_many_of; clear; induction vars; simpl; auto]. apply count_ext. intros v I. unfold is_either, cannot_match, all_match. pose proof (known_here v I) as K.
    rewrite (fixed_each_value d v a Hd K Wa (Fv v I)). simpl. rewrite andb_true_r, negb_involutive.
    destruct (listed vois (var_value a v)) eqn:El; [apply andb_false_r|]. rewrite andb_true_r.
    destruct (existsb (in_domain d v) vois) eqn:Ex; [|reflexivity]. apply existsb_exists in Ex. destruct Ex as (x & Ix & Dx).
    rewrite (fixed_in_domain d v a Hd K Wa (Fv v I)) in Dx. apply Z.eqb_eq in Dx. subst x. apply listed_In in Ix. congruence. }
  unfold among_sat. lia.
Qed.

Lemma among_no_throw : among_throws vars vois how_many d = false.
Proof.
  unfold among_throws. fold (is_must d) (is_either d). set (t := among_bounds vars vois how_many d). rewrite bounds_spec.
  destruct (t_failed t) eqn:F; [reflexivity|]. destruct (bounds_read t eq_refl F) as (_ & A & B & _). simpl.
  destruct (Z.eqb_spec (how_many_of (is_must d) vars) (upper_bound (t_domains t) how_many));
  destruct (Z.eqb_spec (how_many_of (is_must d) vars + how_many_of (is_either d) vars) (lower_bound (t_domains t) how_many));
  destruct (Z.eqb_spec (lower_bound (t_domains t) how_many) (upper_bound (t_domains t) how_many)); try reflexivity; lia.
Qed.

(** *** Nothing is left to do after disabling *)

Section Unaliased.
Hypothesis Uh : forall v, In v vars -> unrelated v how_many.
Hypothesis Uv : forall v w, In v vars -> In w vars -> v = w \/ unrelated v w.

(** The values with the property are untouched. *)
Definition untouched (keep : Z -> Prop) (t : tracker) : Prop :=
  t_failed t = false -> forall v x, In v vars -> keep x -> view_member d v x -> view_member (t_domains t) v x.

Lemma untouched_how_many keep op x y t : legit nv d t -> untouched keep t -> untouched keep (tell (LCond (mk_cond how_many op x y)) t).
Proof.
  intros G U F v z I Kz M. apply (tell_elsewhere nv d Hd Ld); auto. apply U; auto. unfold tell in F. destruct (t_failed t) eqn:X; [congruence|reflexivity].
Qed.

Lemma untouched_ne keep v x t : In v vars -> ~ keep x -> legit nv d t -> untouched keep t -> untouched keep (tell_ne v x t).
Proof.
  intros I N G U F w z Iw Kz M. assert (Ft : t_failed t = false) by (unfold tell_ne, tell in F; destruct (t_failed t) eqn:X; [congruence|reflexivity]).
  destruct (Uv w v Iw I) as [->|R].
  - apply (tell_ne_here nv d Hd Ld v x t z (below_here v I) G F). split; [now apply U|]. intros ->. contradiction.
  - apply (tell_elsewhere nv d Hd Ld v _ _ _ t w z (below_here v I) G R). now apply U.
Qed.

Lemma untouched_bounds keep : untouched keep (among_bounds vars vois how_many d).
Proof.
  unfold among_bounds. apply untouched_how_many; [apply legit_tell; [assumption|apply legit_track]|]. apply untouched_how_many; [apply legit_track|].
  intros _ v x _ _ M. exact M.
Qed.

Lemma forbid_leaves a t : legit nv d t -> untouched (fun x => ~ In x vois) t -> live nv d (forbid_others vars vois t) a ->
  Forall (fun v => is_must d v = listed vois (var_value a v)) vars.
Proof.
  intros G U Lv. apply (for_each_later_inv nv d (untouched (fun x => ~ In x vois)) (fun v => is_must d v = listed vois (var_value a v)) a) in Lv; auto; [apply Lv| | |].
  - intros v t' I. destruct (all_match _ _ _); [apply later_refl|]. unfold tell_all. apply (later_for_each nv d _ tell).
    intros l t2 Il. apply in_map_iff in Il. destruct Il as (x & <- & _). apply later_tell; auto. now apply below_here.
  - intros v t' I G' U'. destruct (all_match _ _ _); [assumption|]. unfold tell_all.
    apply (for_each_ind (fun t => legit nv d t /\ untouched (fun x => ~ In x vois) t) _ tell); [|auto].
    intros l t2 Il [G2 U2]. apply in_map_iff in Il. destruct Il as (x & <- & Ix). split; [apply legit_tell; [now apply below_here|assumption]|].
    apply (untouched_ne _ v x); auto.
  - intros v t' I G' U' Lv' Lt. pose proof (live_within nv d Hd Ld _ _ Lt) as Wa.
    destruct (listed vois (var_value a v)) eqn:El.
    + (* it matches, so it had to *)
      unfold is_must. rewrite (takes_can a v Wa I El). simpl. destruct (all_match vois d v) eqn:Am; [reflexivity|]. exfalso.
      apply not_all_match_iff in Am. destruct Am as (x & M & N).
      assert (Am : all_match vois (t_domains t') v = false) by (apply not_all_match_iff; exists x; split; [|assumption]; apply U'; auto; apply Lt).
      rewrite Am in Lv'. apply tell_all_back in Lv'; auto.
      * destruct Lv' as [_ F]. apply listed_In in El. apply (proj1 (Forall_forall _ _) F (LCond (cond_ne v (var_value a v)))); [|reflexivity].
        apply (in_map (fun val => LCond (cond_ne v val))). exact El.
      * apply Forall_forall. intros l Il. apply in_map_iff in Il. destruct Il as (y & <- & _). now apply below_here.
    + destruct (is_must d v) eqn:Em; [|reflexivity]. rewrite (must_takes a v Wa I Em) in El. discriminate.
Qed.

Lemma require_leaves a t : legit nv d t -> untouched (fun x => In x vois) t -> live nv d (require_others vars vois t) a ->
  Forall (fun v => negb (cannot_match vois d v) = listed vois (var_value a v)) vars.
Proof.
  intros G U Lv. apply (for_each_later_inv nv d (untouched (fun x => In x vois)) (fun v => negb (cannot_match vois d v) = listed vois (var_value a v)) a) in Lv; auto; [apply Lv| | |].
  - intros v t' I. destruct (cannot_match _ _ _); [apply later_refl|]. apply later_for_each.
    intros x t2 _. destruct (listed vois x); [apply later_refl|]. apply later_tell; auto. now apply below_here.
  - intros v t' I G' U'. destruct (cannot_match _ _ _); [assumption|].
    apply (for_each_ind (fun t => legit nv d t /\ untouched (fun x => In x vois) t)); [|auto].
    intros x t2 Il [G2 U2]. destruct (listed vois x) eqn:El; [auto|]. split; [apply legit_tell; [now apply below_here|assumption]|].
    apply untouched_ne; auto. intro X. apply listed_In in X. congruence.
  - intros v t' I G' U' Lv' Lt. pose proof (live_within nv d Hd Ld _ _ Lt) as Wa. pose proof (below_here v I) as Bv.
    pose proof (live_ok nv d Hd Ld _ _ Lt) as Ok. pose proof (live_length nv d Hd Ld _ _ Lt) as L. pose proof (var_below_known nv _ _ L Bv) as Kt.
    destruct (listed vois (var_value a v)) eqn:El; [now apply takes_can with a|].
    destruct (cannot_match vois d v) eqn:Cm; [reflexivity|]. exfalso. apply cannot_match_iff in Cm; auto; [|now apply known_here]. destruct Cm as (x & M & Ix).
    assert (Cm : cannot_match vois (t_domains t') v = false) by (apply cannot_match_iff; auto; exists x; split; [|assumption]; apply U'; auto; apply Lt).
    rewrite Cm in Lv'. apply (for_each_later nv d (fun y => listed vois y = false -> var_value a v <> y)) in Lv'; auto.
    + destruct Lv' as [_ F]. rewrite Forall_forall in F. apply (F (var_value a v)); auto. apply value_listed; auto. apply Lt.
    + intros y t2 _. destruct (listed vois y); [apply later_refl|now apply later_tell].
    + intros y t2 _ G2 Lv2 Lt2 Ey. rewrite Ey in Lv2. apply tell_back in Lv2; auto. apply Lv2.
Qed.

Lemma among_disables a : snd (among_body vars vois how_many d) = DisableUntilBacktrack -> live nv d (fst (among_body vars vois how_many d)) a -> among_sat a.
Proof.
  intros R Lv. pose proof (proj2 (among_later (proj1 bounds_honest)) a Lv) as Lt. pose proof (live_within nv d Hd Ld _ _ Lt) as Wa.
  revert R Lv. unfold among_body. fold (is_must d) (is_either d). pose proof bounds_honest as [G _]. set (t := among_bounds vars vois how_many d) in *.
  assert (F : t_failed t = false) by apply Lt. destruct (bounds_read t eq_refl F) as (-> & A & B & C). specialize (C a (proj2 (proj2 Lt))).
  destruct (Z.eqb_spec (how_many_of (is_must d) vars) (upper_bound (t_domains t) how_many)) as [E|N].
  - cbn [fst snd]. intros _ Lv. apply forbid_leaves in Lv; auto; [|apply untouched_bounds]. rewrite Forall_forall in Lv.
    unfold among_sat. enough (how_many_of (is_must d) vars = takes_any a) by lia. apply count_ext. exact Lv.
  - destruct (Z.eqb_spec (how_many_of (is_must d) vars + how_many_of (is_either d) vars) (lower_bound (t_domains t) how_many)) as [E|N']; simpl; [|discriminate].
    destruct (0 <? how_many_of (is_either d) vars); [|discriminate]. intros _ Lv. apply require_leaves in Lv; auto; [|apply untouched_bounds]. rewrite Forall_forall in Lv.
    unfold among_sat. enough (how_many_of (is_must d) vars + how_many_of (is_either d) vars = takes_any a) by lia.
    rewrite must_either. pose proof (count_negb (cannot_match vois d) vars). rewrite (count_ext _ _ vars Lv) in H. unfold takes_any. lia.
Qed.

End Unaliased.
End At.
End Among.

Lemma among_correct d0 vars vois how_many : Forall (var_known d0) (vars ++ [how_many]) ->
  (forall v, In v vars -> unrelated v how_many) -> (forall v w, In v vars -> In w vars -> v = w \/ unrelated v w) ->
  correct_on d0 (among_constraint vars vois how_many) (vars ++ [how_many]) (among_sat vars vois how_many).
Proof.
  intros K Uh Uv. pose proof K as K'. apply Forall_app in K'. destruct K' as [Ks K']. inversion_clear K' as [|? ? Kh _].
  apply (one_propagator_correct d0 _ (among_body vars vois how_many) vars [how_many] [] [track] _ (among_sat vars vois how_many)); auto.
  - reflexivity.
  - rewrite app_nil_r. apply incl_refl.
  - intros nv Ln. pose proof (known_below_more _ _ _ Ln Kh) as Bh.
    assert (Bs : Forall (var_below nv) vars) by (eapply Forall_impl; [|exact Ks]; intros v Kn; now apply (known_below_more d0)).
    apply body_ok_intro.
    + intros. now apply among_honest.
    + intros d a Hd L _ F Lv. now apply (among_checks nv vars vois how_many Bs Bh d).
    + intros d a Hd L _ _ R. exfalso. revert R. unfold among_body. rewrite bounds_spec. destruct (_ =? _); [discriminate|]. destruct (_ && _); discriminate.
    + intros d a Hd L _ R Lv. now apply (among_disables nv vars vois how_many Bs Bh d).
  - intros nv g d Ln [<-|[]] _ _ _. apply honest_track.
Qed.
