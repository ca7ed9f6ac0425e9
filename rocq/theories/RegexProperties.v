(** Properties of regular expressions. *)
From Coq Require Import ZArith Ascii String List Bool Lia.
From Verif Require Import IntervalSet IntervalSetSpec IntervalSetProofs Vars VarsSpec State StateSpec Epochs Engine EngineSpec
  Tracker SessionSpec ContractSpec Search Solve SolveSpec Stateful StatefulSpec ConsistencySpec Layered LayeredSpec RegexSpec Regex RegexProofs RegexAutomatonProofs
  Tabulation Catalogue CatalogueSpec ExampleProblem SolveExample ConstraintExample.
Import ListNotations.
Local Open Scope Z_scope.
Local Open Scope list_scope.

(** C53: the automaton of an expression accepts exactly the words that the expression
    matches, with the wildcard standing for the alphabet. *)
Theorem C53_automaton_exact : forall s r alphabet, written s r -> exists m, regex_to_nfa s alphabet = Some m /\
  forall w, accepts (fun q v t => In (q, v, t) (nfa_arrows m)) (nfa_final m) w <-> matches (fun v => In v alphabet) r w.
Proof. exact regex_compiled. Qed.
Print Assumptions C53_automaton_exact.

(** C53: a text is refused exactly if it is not a way to write an expression. *)
Theorem C53_refused_exactly : forall s alphabet, regex_to_nfa s alphabet = None <-> ~ exists r, written s r.
Proof. exact regex_refused. Qed.
Print Assumptions C53_refused_exactly.

(** C53: a text means one thing only. *)
Theorem C53_unambiguous : forall s r r' w, written s r -> written s r' -> (matches (fun _ => True) r w <-> matches (fun _ => True) r' w).
Proof. exact written_same. Qed.
Print Assumptions C53_unambiguous.

(** C53: the reference matcher finds the same words. *)
Theorem C53_reference_exact : forall s r alphabet w, written s r -> exists b, regex_reference_accepts s alphabet w = Some b /\ (b = true <-> matches (fun v => In v alphabet) r w).
Proof. exact reference_accepts. Qed.
Print Assumptions C53_reference_exact.

(** C53: Regular over an expression accepts exactly the words that it matches, where
    the wildcard is any integer. *)
Theorem C53_constraint_correct : forall vars s r k d0, Forall (var_known d0) vars -> written s r -> regular_expression vars s = Some k ->
  means d0 k vars (fun a => matches (fun _ => True) r (map (var_value a) vars)).
Proof. exact regular_expression_means. Qed.
Print Assumptions C53_constraint_correct.

Theorem C53_constraint_refused : forall vars s, regular_expression vars s = None <-> ~ exists r, written s r.
Proof. exact regular_expression_refused. Qed.
Print Assumptions C53_constraint_refused.

(** C53: and it is domain consistent, as C51. *)
Theorem C53_constraint_domain_consistent : forall vars s r k d0 (cs : list cstate), domains_ok d0 -> Forall (var_known d0) vars -> NoDup (underlying_list vars) ->
  written s r -> regular_expression vars s = Some k ->
  exists p s0, in_props (k d0 cs) = [p] /\ in_states (k d0 cs) = [s0] /\
  forall i st D evs, lives p (length cs) d0 s0 (i_domains i) st -> nth_error (i_cstates i) (length cs) = Some st -> apply_lits (i_domains i) (o_infer (p_run p i)) = (D, evs, false) ->
    domain_consistent D vars (fun a => matches (fun _ => True) r (map (var_value a) vars)) /\
    forall j, i_domains j = D -> nth_error (i_cstates j) (length cs) = nth_error (o_cstates (p_run p i)) (length cs) -> apply_lits D (o_infer (p_run p j)) = (D, [], false).
Proof. exact regular_expression_consistent. Qed.
Print Assumptions C53_constraint_domain_consistent.

(** A one or a two, then at least one value other than 10, 11 and 12, then maybe a 3. *)
Definition example_text : list ascii := list_ascii_of_string "(1|2) [^10-12]+ 3?".
Definition example_regex : regex :=
  Then (Or (Literal 1) (Literal 2)) (Then (Repeat (Class true [(10, 12)]) 1 None) (Repeat (Literal 3) 0 (Some 1%nat))).

Example C53_written_example : written example_text example_regex.
Proof.
  exists ([TGroupOpen; TInteger 1; TUnion; TInteger 2; TGroupClose; TClassOpen; TClassNeg; TInteger 10; TClassRange; TInteger 12; TClassClose; TPlus; TInteger 3; TOptional]). split.
  - apply (tokenize_spec example_text None). reflexivity.
  - apply is_term. apply (is_sequence _ _ [TGroupOpen; TInteger 1; TUnion; TInteger 2; TGroupClose]).
    + apply is_atom. apply (is_group _ [TInteger 1; TUnion; TInteger 2]). apply (is_either _ _ [TInteger 1] [TInteger 2]); [|apply is_term]; apply is_factor, is_atom; [exact (is_literal 1)|exact (is_literal 2)].
    + apply (is_sequence _ _ [TClassOpen; TClassNeg; TInteger 10; TClassRange; TInteger 12; TClassClose; TPlus] [TInteger 3; TOptional]).
      * apply (is_plus _ [TClassOpen; TClassNeg; TInteger 10; TClassRange; TInteger 12; TClassClose]). apply (is_negated _ [TInteger 10; TClassRange; TInteger 12]); [discriminate|].
        apply (items_range 10 12). constructor.
      * apply is_factor. apply (is_optional _ [TInteger 3]). exact (is_literal 3).
Qed.

Example C53_matches_example : matches (fun _ => True) example_regex [2; 0; 13; 3].
Proof.
  exists [2], [0; 13; 3]. split; [reflexivity|]. split; [now right|]. exists [0; 13], [3]. split; [reflexivity|]. split.
  - exists [[0]; [13]]. split; [reflexivity|]. split; [|simpl; split; [lia|exact Logic.I]].
    repeat (apply Forall_cons; [eexists; split; [reflexivity|split; [exact Logic.I|intros (a & b & J & H); destruct J as [J|[]]; injection J as <- <-; lia]]|]). apply Forall_nil.
  - exists [[3]]. split; [reflexivity|]. split; [|simpl; lia]. apply Forall_cons; [reflexivity|apply Forall_nil].
Qed.

Example C53_refused_example : regex_to_nfa (list_ascii_of_string "1|") [1; 2] = None /\ regex_to_nfa (list_ascii_of_string "1{3,2}") [1; 2] = None /\
  regex_to_nfa (list_ascii_of_string "[]") [1; 2] = None /\ regex_to_nfa [] [1; 2] = None.
Proof. repeat (apply conj; [vm_compute; reflexivity|]). vm_compute; reflexivity. Qed.

Example C53_constraint_example : let d0 := [[(0, 2)]; [(9, 11)]; [(3, 3); (12, 12)]] in let vars := [VSimple 0; VSimple 1; VSimple 2] in
  domains_ok d0 /\ Forall (var_known d0) vars /\ NoDup (underlying_list vars) /\ (exists k, regular_expression vars example_text = Some k) /\
  option_map (fun pb => summary (solve ex_never 100 100 1 (plain_callbacks vars) pb)) (problem_of d0 [RegularExpression vars example_text] None) =
  Some (Some ([[2; 9; 3]; [1; 9; 3]], true)).
Proof.
  cbv zeta. split; [|split; [repeat constructor; simpl; lia|split; [|split; [eexists; reflexivity|vm_compute; reflexivity]]]].
  - intros [|[|[|n]]] Hn; simpl in *; try lia; (split; [simpl; lia|]); [exists 0|exists 9|exists 3]; apply member_cons; lia.
  - repeat (apply NoDup_cons; [simpl; intuition congruence|]). apply NoDup_nil.
Qed.
