(** Lemmas about handles, conditions and literals. *)
From Coq Require Import ZArith List Bool Lia.
From Verif Require Import Vars VarsSpec.
Local Open Scope Z_scope.

Lemma var_plus_value a v o : var_value a (var_plus v o) = var_value a v + o.
Proof.
  destruct v as [n|n neg add|c]; simpl; try reflexivity.
  - destruct (Z.eqb_spec o 0); simpl; lia.
  - destruct neg; simpl; [lia|]. destruct (Z.eqb_spec (add + o) 0); simpl; lia.
Qed.

Lemma var_minus_value a v o : var_value a (var_minus v o) = var_value a v - o.
Proof. destruct v as [n|n neg add|c]; simpl; lia. Qed.

Lemma var_neg_value a v : var_value a (var_neg v) = - var_value a v.
Proof. destruct v as [n|n neg add|c]; simpl; try lia. destruct neg; simpl; lia. Qed.

Lemma cond_not_holds a c : cond_holds a (cond_not c) <-> ~ cond_holds a c.
Proof. unfold cond_holds, cond_not. destruct c as [v op x hi]; destruct op; simpl; lia. Qed.

Lemma lit_not_holds a l : lit_holds a (lit_not l) <-> ~ lit_holds a l.
Proof. destruct l; simpl; [apply cond_not_holds|tauto|tauto]. Qed.

Lemma cond_not_involutive c : (match c_op c with OpInRange | OpNotInRange => True | _ => c_upper c = 0 end) ->
  cond_not (cond_not c) = c.
Proof. destruct c as [v op x hi]; destruct op; simpl; intros; subst; reflexivity. Qed.

Lemma cond_sugar_holds a v x :
  (cond_holds a (cond_eq v x) <-> var_value a v = x) /\
  (cond_holds a (cond_ne v x) <-> var_value a v <> x) /\
  (cond_holds a (cond_lt v x) <-> var_value a v < x) /\
  (cond_holds a (cond_ge v x) <-> var_value a v >= x) /\
  (cond_holds a (cond_le v x) <-> var_value a v <= x) /\
  (cond_holds a (cond_gt v x) <-> var_value a v > x).
Proof. unfold cond_holds; simpl. repeat split; lia. Qed.

Lemma range_factories a v lo hi :
  (lo <= hi -> exists c c', cond_in_range v lo hi = Some c /\ cond_not_in_range v lo hi = Some c' /\
    (cond_holds a c <-> lo <= var_value a v <= hi) /\
    (cond_holds a c' <-> ~ (lo <= var_value a v <= hi)) /\ cond_sane c /\ cond_sane c') /\
  (hi < lo -> cond_in_range v lo hi = None /\ cond_not_in_range v lo hi = None).
Proof.
  unfold cond_in_range, cond_not_in_range. destruct (Z.ltb_spec hi lo); split; intro; try lia; try tauto.
  destruct (Z.eqb_spec lo hi); eexists; eexists; (split; [reflexivity|]); (split; [reflexivity|]);
    unfold cond_holds, cond_sane; simpl; repeat split; lia.
Qed.

Lemma literally_spec l : forall b, is_literally_true_or_false l = Some b -> forall a, lit_holds a l <-> b = true.
Proof.
  destruct l as [[v op x hi]| |]; simpl.
  - destruct v; try discriminate. intros b [= <-] a. unfold cond_holds; simpl.
    destruct op; simpl; rewrite ?negb_true_iff, ?andb_true_iff, ?orb_true_iff, ?Z.eqb_eq, ?Z.eqb_neq, ?Z.leb_le, ?Z.ltb_lt; lia.
  - intros b [= <-] a. tauto.
  - intros b [= <-] a. split; [tauto|discriminate].
Qed.
