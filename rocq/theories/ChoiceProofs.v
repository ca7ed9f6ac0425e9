(** Choosing values for several handles at once. *)
From Coq Require Import ZArith List Bool Arith Lia.
From Verif Require Import Vars VarsSpec State StateSpec StateProofs Epochs Engine EngineSpec EngineProofs.
Import ListNotations.
Local Open Scope Z_scope.

Lemma underlying_list_cons v vs : underlying_list (v :: vs) = match underlying v with Some x => x :: underlying_list vs | None => underlying_list vs end.
Proof. unfold underlying_list. simpl. destruct (underlying v); reflexivity. Qed.

(** Changing a variable the handle is not about. *)
Lemma value_elsewhere (a b : assignment) x v : underlying v <> Some x -> var_value (fun y => if Nat.eqb y x then b y else a y) v = var_value a v.
Proof. destruct v as [n|n neg add|c]; simpl; try reflexivity; (destruct (Nat.eqb_spec n x) as [->|]; [congruence|reflexivity]). Qed.

Lemma value_there (a b : assignment) x v : underlying v = Some x -> var_value (fun y => if Nat.eqb y x then b y else a y) v = var_value b v.
Proof. destruct v as [n|n neg add|c]; simpl; intros [= ->]; now rewrite Nat.eqb_refl. Qed.

(** If no variable is behind two of the handles, any possible values for each of them
    are possible for all of them together. *)
Lemma choose_list d vs zs : domains_ok d -> Forall (var_known d) vs -> NoDup (underlying_list vs) -> Forall2 (view_member d) vs zs ->
  exists a, within a d /\ map (var_value a) vs = zs.
Proof.
  intros Hd K ND F. revert K ND. induction F as [|v z vs zs V F IH]; intros K ND.
  - destruct (within_exists d Hd) as (a & W). exists a. split; [assumption|reflexivity].
  - apply Forall_cons_iff in K. destruct K as [Kv K]. rewrite underlying_list_cons in ND.
    assert (ND' : NoDup (underlying_list vs)) by (destruct (underlying v); [now apply NoDup_cons_iff in ND|assumption]).
    destruct (IH K ND') as (a & W & E). apply view_member_iff in V; [|assumption|assumption]. destruct V as (b & Wb & Eb).
    destruct (underlying v) as [x|] eqn:U.
    + apply NoDup_cons_iff in ND. destruct ND as [Nx _]. exists (fun y => if Nat.eqb y x then b y else a y). split.
      * intros y Hy. destruct (Nat.eqb_spec y x); [now apply Wb|now apply W].
      * simpl. f_equal; [now rewrite value_there|]. rewrite <- E. apply map_ext_in. intros w I. apply value_elsewhere. intro Uw. apply Nx. apply in_underlying_list. eauto.
    + exists a. split; [assumption|]. simpl. f_equal; [|assumption]. rewrite <- Eb. destruct v; try discriminate U. reflexivity.
Qed.
