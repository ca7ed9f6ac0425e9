(** Properties of tables. *)
From Coq Require Import ZArith List Bool Lia.
From Verif Require Import IntervalSet IntervalSetSpec IntervalSetProofs Vars VarsSpec State StateSpec Epochs Engine EngineSpec
  Tracker SessionSpec ContractSpec Search Solve SolveSpec ConsistencySpec NegativeTable TableSpec Table TableProofs NegativeTableProofs
  Catalogue CatalogueSpec CatalogueProofs ExampleProblem SolveExample ConstraintExample Session WatchSpec NegativeTableWatchProofs WatchExample.
Import ListNotations.
Local Open Scope Z_scope.

(** C29: Table allows exactly the assignments that agree with one of its tuples. Any of
    the handles may be about the same variable as any other. *)
Theorem C29_table : forall d0 vars tuples k, Forall (var_known d0) vars -> table vars tuples = Some k ->
  means d0 k vars (fun a => listed_in a vars tuples).
Proof. exact table_means. Qed.
Print Assumptions C29_table.

(** There is an exception when it is posted exactly if one of the tuples has the wrong
    length. *)
Theorem C29_table_wrong_length : forall vars tuples, table vars tuples = None <-> Exists (fun t => length t <> length vars) tuples.
Proof. exact table_refuses. Qed.
Print Assumptions C29_table_wrong_length.

(** C29: after one run of its propagator, each remaining value belongs to an
    assignment that agrees with a tuple, and another run would do nothing. *)
Theorem C29_table_domain_consistent : forall d0 cs vars tuples k p, domains_ok d0 -> Forall (var_known d0) vars -> NoDup (underlying_list vars) ->
  table vars tuples = Some k -> in_props (k d0 cs) = [p] ->
  forall D, ConsistencySpec.outcome (S (length d0)) (fun d _ => inside (d0 ++ in_vars (k d0 cs)) d) p D ->
  domain_consistent D vars (fun a => listed_in a vars tuples) /\ rerun_is_quiet p D.
Proof. exact table_consistent. Qed.
Print Assumptions C29_table_domain_consistent.

(** C29: the supports that are remembered from run to run, and are not undone on
    backtracking, never make a difference to what is inferred, whatever is in them. *)
Theorem C29_table_residues : forall nv d sel vars tuples rows, domains_ok d -> length d = nv -> var_below nv sel -> Forall (var_below nv) vars ->
  (forall r, rows = Some r -> length r = length vars) ->
  fst (residual_pass sel vars tuples rows d) = fst (extensional_pass sel vars tuples d) /\ length (snd (residual_pass sel vars tuples rows d)) = length vars.
Proof. exact residual_pass_same. Qed.
Print Assumptions C29_table_residues.

Definition ex_tuples : list tuple := [[Some 1; Some 2; Some 3]; [Some 2; Some 1; None]; [Some 4; Some 4; Some 4]].
Definition ex_vars : list var_id := [VSimple 0; VView 1 true 5; VSimple 2].

(** Of x, 5 - y, z in (1,2,3), (2,1,any), (4,4,4), with all of x, y, z in 1..4 except
    that z is not 4: one run leaves x in 1..2, y in 3..4. *)
Example C29_table_example : let d0 := [[(1, 4)]; [(1, 4)]; [(1, 3)]] in
  domains_ok d0 /\ Forall (var_known d0) ex_vars /\ NoDup (underlying_list ex_vars) /\
  exists k, table ex_vars ex_tuples = Some k /\ in_vars (k d0 []) = [[(0, 2)]] /\
  exists p, in_props (k d0 []) = [p] /\ ConsistencySpec.outcome 4 (fun d _ => inside (d0 ++ in_vars (k d0 [])) d) p [[(1, 2)]; [(3, 4)]; [(1, 3)]; [(0, 1)]].
Proof.
  cbv zeta. split; [|split; [|split]].
  - intros [|[|[|n]]] Hn; simpl in *; try lia; (split; [lia|]); exists 1; apply member_cons; lia.
  - repeat constructor; simpl; lia.
  - vm_compute. repeat constructor; simpl; intuition discriminate.
  - eexists. split; [reflexivity|]. split; [reflexivity|]. eexists. split; [reflexivity|].
    exists (mk_in [[(1, 4)]; [(1, 4)]; [(1, 3)]; [(0, 2)]] [] [] [] [] (fun _ => false)). eexists. split; [|vm_compute; reflexivity].
    split; [|split; [reflexivity|]].
    + intros [|[|[|[|n]]]] Hn; simpl in *; try lia; (split; [lia|]); exists 1; apply member_cons; lia.
    + intros a W. exact W.
Qed.

Example C29_table_solutions :
  summary (solve ex_never 100 100 1 (plain_callbacks [VSimple 0; VSimple 1; VSimple 2])
    (match problem_of [[(1, 4)]; [(1, 4)]; [(1, 3)]] [AllowedTuples ex_vars ex_tuples] None with Some pb => pb | None => mk_problem [] [] None end)) =
  Some ([[2; 4; 3; 1]; [2; 4; 2; 1]; [2; 4; 1; 1]; [1; 3; 3; 0]], true).
Proof. vm_compute. reflexivity. Qed.

Example C29_wrong_length_example : table ex_vars [[Some 1; Some 2]] = None /\ length (A := entry) [Some 1; Some 2] <> length ex_vars.
Proof. split; [reflexivity|discriminate]. Qed.

(** One row is up to date, one is stale and one says nothing. *)
Example C29_residues_example : let d := [[(1, 4)]; [(1, 4)]; [(1, 3)]; [(0, 1)]] in
  let rows := [(1, [Some 0; Some 1; None; Some 2]); (1, [Some 2; None; None; Some 2]); (1, [None; None; None])] in
  residual_pass (VSimple 3) ex_vars ex_tuples (Some rows) d =
  (fst (extensional_pass (VSimple 3) ex_vars ex_tuples d), [(1, [Some 0; Some 1; None; Some 2]); (1, [Some 1; Some 0; None; Some 2]); (1, [Some 1; Some 1; Some 0])]).
Proof. vm_compute. reflexivity. Qed.

(** C29: a run of the NegativeTable propagator, whatever its watches and in whatever
    order they fired, and its initialiser, only make inferences that hold in every
    assignment that agrees with no tuple. What is missing is that it always notices an
    assignment that does, which is false: see C15_negative_table_violated_refuted. *)
Theorem C29_negative_table_sound_partial : forall nv vars, Forall (var_below nv) vars -> forall tuples : list tuple, Forall (fun t => length t = length vars) tuples ->
  forall Inv, sound_for nv Inv (fun a => Forall (fun t => ~ agrees a vars t) tuples) (table_propagator vars tuples).
Proof. exact table_sound. Qed.
Print Assumptions C29_negative_table_sound_partial.

(** With the tuple (1, any, 3) forbidden, x = 1 and z in 2..3: it infers that z is not 3. *)
Example C29_negative_example : let d := [[(1, 1)]; [(1, 4)]; [(2, 3)]] in let vars := [VSimple 0; VSimple 1; VSimple 2] in let tuples := [[Some 1; None; Some 3]] in
  Forall (var_below 3) vars /\ Forall (fun t : tuple => length t = length vars) tuples /\
  negative_table vars tuples = Some (fun _ => ([table_propagator vars tuples], [body_initialiser (detect_root vars tuples)])) /\
  o_infer (p_run (table_propagator vars tuples) (mk_in d [] [] [] [] (fun _ => false))) = [LCond (cond_ne (VSimple 2) 3)].
Proof. cbv zeta. split; [repeat constructor; simpl; lia|]. split; [repeat constructor|]. split; [reflexivity|]. vm_compute. reflexivity. Qed.

(** C29: if no propagator in the problem claims that a run was idempotent, then at each
    node a NegativeTable's propagator has done all it should, for every tuple: either
    no assignment still possible agrees with it, or there are two positions in which
    there may still be a difference. The 2^32 is the packing of two positions in one
    number. Missing is what happens if some propagator does make such claims. *)
Theorem C29_negative_table_enforced_partial : forall props disabled abort fuel nv Inv,
  stable nv Inv -> stays_set abort ->
  (forall p, In p props -> well_behaved nv Inv p /\ arms_unmet nv Inv p /\ claims_nothing nv Inv p) ->
  forall st ms c0 c, startable nv Inv st -> Forall (move_below nv) ms ->
  open_root props disabled abort fuel st = Some c0 -> run_moves props disabled abort fuel ms c0 = Some c ->
  c_status c = Live ->
  forall vars tuples p, Forall (var_below nv) vars -> Forall (fun t : tuple => length t = length vars) tuples -> Z.of_nat (length vars) <= 2 ^ 32 ->
  nth_error props p = Some (table_propagator vars tuples) -> disabled p = false ->
  Forall (at_ease (current (c_state c)) vars) tuples.
Proof. exact table_enforced. Qed.
Print Assumptions C29_negative_table_enforced_partial.

(** So once its variables have values it is obeyed. *)
Theorem C29_negative_table_obeyed_partial : forall d vars t a, at_ease d vars t -> Forall (fixed d) vars -> within a d -> ~ agrees a vars t.
Proof. exact at_ease_fixed. Qed.
Print Assumptions C29_negative_table_obeyed_partial.

Example C29_enforced_example : c_status calm_node = Live /\ current (c_state calm_node) = [[(0, 0)]; [(1, 3)]; [(2, 2)]] /\
  nth_error calm_props 1 = Some (table_propagator calm_vars calm_tuples) /\
  Forall (var_below 3) calm_vars /\ Forall (fun t : tuple => length t = length calm_vars) calm_tuples /\ Z.of_nat (length calm_vars) <= 2 ^ 32.
Proof. destruct calm_run as (_ & _ & _ & _ & _ & _ & D & E). repeat (apply conj; [assumption||reflexivity||exact calm_known||exact calm_sized|]). discriminate. Qed.
