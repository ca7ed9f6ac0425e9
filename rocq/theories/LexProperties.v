(** Properties of the lexicographic comparisons. *)
From Coq Require Import ZArith List Bool Lia.
From Verif Require Import IntervalSet IntervalSetSpec IntervalSetProofs Vars VarsSpec State StateSpec Epochs Engine EngineSpec
  Tracker SessionSpec ContractSpec Search Solve SolveSpec Stateful StatefulSpec Lex LexSpec Catalogue CatalogueSpec CatalogueProofs ConsistencySpec.
Import ListNotations.
Local Open Scope Z_scope.

(** C47: LexLessThan, LexLessThanEqual, LexGreaterThan and LexGreaterEqual compare in
    the dictionary order, for lists of any lengths, whatever variables they share. *)
Theorem C47_lex_correct : forall d0 k xs ys, domains_ok d0 -> Forall (var_known d0) (xs ++ ys) ->
  means d0 (lexicographic k xs ys) (xs ++ ys) (fun a => lex_compares k (map (var_value a) xs) (map (var_value a) ys)).
Proof. exact lexicographic_means. Qed.
Print Assumptions C47_lex_correct.

Theorem C47_lex_if_correct : forall d0 k xs ys c, domains_ok d0 -> Forall (var_known d0) ((xs ++ ys) ++ [c_var c]) -> cond_sane c ->
  means d0 (lexicographic_if k xs ys c) ((xs ++ ys) ++ [c_var c]) (fun a => cond_holds a c -> lex_compares k (map (var_value a) xs) (map (var_value a) ys)).
Proof. exact lexicographic_if_means. Qed.
Print Assumptions C47_lex_if_correct.

Theorem C47_lex_iff_correct : forall d0 k xs ys c, domains_ok d0 -> Forall (var_known d0) ((xs ++ ys) ++ [c_var c]) -> cond_sane c ->
  means d0 (lexicographic_iff k xs ys c) ((xs ++ ys) ++ [c_var c]) (fun a => cond_holds a c <-> lex_compares k (map (var_value a) xs) (map (var_value a) ys)).
Proof. exact lexicographic_iff_means. Qed.
Print Assumptions C47_lex_iff_correct.

(** C47: when a run infers nothing, every value left belongs to a solution of the
    constraint, if no variable is behind two of the handles. What is saved by earlier
    runs on the branch, however many there were, does not spoil this. *)
Theorem C47_lex_domain_consistent : forall d0 cs k xs ys, domains_ok d0 -> Forall (var_known d0) (xs ++ ys) -> NoDup (underlying_list (xs ++ ys)) ->
  exists p s0, in_props (lexicographic k xs ys d0 cs) = [p] /\ in_states (lexicographic k xs ys d0 cs) = [s0] /\
  forall i s D, lives p (length cs) d0 s0 (i_domains i) s -> nth_error (i_cstates i) (length cs) = Some s ->
    apply_lits (i_domains i) (o_infer (p_run p i)) = (D, [], false) ->
    domain_consistent D (xs ++ ys) (fun a => lex_compares k (map (var_value a) xs) (map (var_value a) ys)).
Proof. exact lexicographic_consistent. Qed.
Print Assumptions C47_lex_domain_consistent.

(** [x, y, 5] < [3, z], with x in 3..4, y in 1..4 and z in 0..3: after the first run
    x = 3, and the second gives y < z. A third finds nothing. *)
Example C47_example : let d0 := [[(3, 4)]; [(1, 4)]; [(0, 3)]] in let xs := [VSimple 0; VSimple 1; VConst 5] in let ys := [VConst 3; VSimple 2] in
  domains_ok d0 /\ Forall (var_known d0) ((xs ++ ys) ++ [VSimple 2]) /\ cond_sane (cond_ge (VSimple 2) 1) /\ NoDup (underlying_list (xs ++ ys)) /\
  lex_compares LexLess (map (var_value (fun n => nth n [3; 1; 2] 0)) xs) (map (var_value (fun n => nth n [3; 1; 2] 0)) ys) /\
  ~ lex_compares LexLess (map (var_value (fun n => nth n [3; 1; 1] 0)) xs) (map (var_value (fun n => nth n [3; 1; 1] 0)) ys) /\
  let p := nth 0 (in_props (lexicographic LexLess xs ys d0 [])) (mk_propagator (fun i => mk_out [] Enable [] [] []) [] [] [] [] []) in
  let d1 := [[(3, 3)]; [(1, 4)]; [(0, 3)]] in let d2 := [[(3, 3)]; [(1, 2)]; [(2, 3)]] in
  lives p 0 d0 [0] d2 [1] /\
  fst (fst (apply_lits d0 (o_infer (p_run p (mk_in d0 [[0]] [] [] [] (fun _ => false)))))) = d1 /\
  fst (fst (apply_lits d1 (o_infer (p_run p (mk_in d1 [[0]] [] [] [] (fun _ => false)))))) = d2 /\
  apply_lits d2 (o_infer (p_run p (mk_in d2 [[1]] [] [] [] (fun _ => false)))) = (d2, [], false).
Proof.
  cbv zeta. assert (Ok : domains_ok [[(3, 4)]; [(1, 4)]; [(0, 3)]]).
  { intros [|[|[|k]]] Hk; simpl in *; try lia; (split; [lia|]); exists 3; apply member_cons; lia. }
  split; [exact Ok|]. split; [repeat constructor; simpl; lia|]. split; [exact Logic.I|].
  split; [vm_compute; repeat constructor; simpl; intuition discriminate|].
  split; [left; exists [3], 1, 2, [5], []; repeat split; lia|]. split.
  - intros [(s & x & y & u & v & E1 & E2 & L)|(y & u & E)]; [|discriminate].
    destruct s as [|s0 [|s1 [|s2 s]]]; cbn [app map var_value nth] in E1, E2; injection E1; injection E2; intros; subst; try discriminate; try lia.
  - set (xs := [VSimple 0; VSimple 1; VConst 5]). set (ys := [VConst 3; VSimple 2]). set (d0 := [[(3, 4)]; [(1, 4)]; [(0, 3)]]) in *.
    set (p := state_propagator 0 (lex_body ys xs false) [] (ys ++ xs) []).
    change (nth 0 (in_props (lexicographic LexLess xs ys d0 [])) _) with p.
    repeat (apply conj; [|]); [|vm_compute; reflexivity..].
    set (i0 := mk_in d0 [[0]] [] [] [] (fun _ => false)). set (d1 := [[(3, 3)]; [(1, 4)]; [(0, 3)]]). set (i1 := mk_in d1 [[0]] [] [] [] (fun _ => false)).
    assert (R0 : apply_lits (i_domains i0) (o_infer (p_run p i0)) = (d1, [(0%nat, Instantiated)], false)) by (vm_compute; reflexivity).
    assert (R1 : apply_lits (i_domains i1) (o_infer (p_run p i1)) = ([[(3, 3)]; [(1, 2)]; [(2, 3)]],
      [(2%nat, BoundsChanged); (1%nat, BoundsChanged); (2%nat, BoundsChanged); (1%nat, BoundsChanged)], false)) by (vm_compute; reflexivity).
    assert (S0 : nth 0 (o_cstates (p_run p i0)) [] = [0]) by (vm_compute; reflexivity). assert (S1 : nth 0 (o_cstates (p_run p i1)) [] = [1]) by (vm_compute; reflexivity).
    pose proof (lives_ran p 0 d0 [0] i0 _ _ [0] (lives_start p 0 d0 [0]) eq_refl R0) as L0. rewrite S0 in L0.
    pose proof (lives_ran p 0 d0 [0] i1 _ _ [0] L0 eq_refl R1) as L1. rewrite S1 in L1. exact L1.
Qed.
