(** Properties of global cardinality with generalised arc consistency. *)
From Coq Require Import ZArith List Bool Lia Sorted.
From Verif Require Import IntervalSet IntervalSetSpec IntervalSetProofs Vars VarsSpec State StateSpec Epochs Engine EngineSpec
  Tracker SessionSpec ContractSpec Search Solve SolveSpec ConsistencySpec Passes GlobalCardinalitySpec MaxFlow GacCardinalitySpec GacCardinality
  GacCardinalityProofs Catalogue CatalogueSpec ExampleProblem SolveExample ConstraintExample.
Import ListNotations.
Local Open Scope Z_scope.

(** C60: with generalised arc consistency, global cardinality has exactly the solutions it
    should, if the values in the cover differ and, unless the cover is closed, come in order. *)
Theorem C60_gac_cardinality_correct : forall d0 closed vars values counts, NoDup values -> (closed = false -> StronglySorted Z.lt values) ->
  length values = length counts -> Forall (var_known d0) (vars ++ counts) ->
  correct_on d0 (gac_global_cardinality closed vars values counts) (vars ++ counts) (cardinalities closed vars values counts).
Proof. exact gac_correct. Qed.
Print Assumptions C60_gac_cardinality_correct.

(** C60: when the propagators have nothing more to infer, every value of every variable is
    part of values for all of them, such that how often each value in the cover is taken is
    between the bounds of its count. *)
Theorem C60_every_value_supported : forall d0 closed vars values counts, NoDup values -> (closed = false -> StronglySorted Z.lt values) ->
  length values = length counts -> Forall (var_known d0) (vars ++ counts) ->
  forall d, domains_ok d -> length d = length d0 -> Forall (fun p => rerun_is_quiet p d) (fst (gac_global_cardinality closed vars values counts d0)) ->
  forall k v x, nth_error vars k = Some v -> view_member d v x -> exists ys, cardinality_support d closed vars values counts ys /\ nth_error ys k = Some x.
Proof. exact gac_consistent. Qed.
Print Assumptions C60_every_value_supported.

(** C60: whatever the cover, if there is no flow then there is a reason for it, so that the
    exception for an unexplained failure is never thrown. *)
Theorem C60_never_throws : forall d0 closed vars values counts, length values = length counts -> Forall (var_known d0) (vars ++ counts) ->
  forall d, domains_ok d -> length d = length d0 -> let t := exec (sequence (combine values counts) (pin_count vars) Stop) (track d) in
  t_failed t = false -> gac_verdict closed vars values counts (t_domains t) <> Throws.
Proof. exact gac_never_throws. Qed.
Print Assumptions C60_never_throws.

(** C60: the flow found is a flow, and no other is larger. *)
Theorem C60_flow_is_largest : forall n adj s t c, (forall u v, (u < n)%nat -> In v (adj u) -> (v < n)%nat) -> (s < n)%nat -> (t < n)%nat -> s <> t -> (forall u v, 0 <= c u v) ->
  (forall u v, (u < n)%nat -> (v < n)%nat -> 0 < c u v + c v u -> In v (adj u)) ->
  exists amount r, max_flow n adj s t c = Some (amount, r) /\ is_flow n s t c amount (fun u v => c u v - r u v) /\
  forall amount' f, is_flow n s t c amount' f -> amount' <= amount.
Proof. exact max_flow_best. Qed.
Print Assumptions C60_flow_is_largest.

(** C60: if the cover is neither closed nor in order then solutions are lost. One is taken
    once and three not at all, as the counts say, but the solver finds no solution. *)
Theorem C60_unsorted_cover_refuted : exists d0 p pb a, problem_of d0 [p] None = Some pb /\
  (exists vars values counts, p = CardinalityGac false vars values counts /\ NoDup values /\ length values = length counts) /\
  summary (solve ex_never 100 100 1 (plain_callbacks [VSimple 0]) pb) = Some ([], true) /\ solves d0 [p] a.
Proof.
  exists [[(1, 1); (3, 3); (7, 7)]], (CardinalityGac false [VSimple 0] [3; 1] [VConst 0; VConst 1]). eexists. exists (fun _ => 1).
  split; [reflexivity|]. split; [do 3 eexists; split; [reflexivity|]; split; [|reflexivity]; repeat (apply NoDup_cons; [simpl; lia|]); apply NoDup_nil|]. split; [vm_compute; reflexivity|]. split.
  - intros n Hn. destruct n as [|n]; simpl in *; [apply member_cons; lia|lia].
  - constructor; [|constructor]. split; [repeat constructor|discriminate].
Qed.
Print Assumptions C60_unsorted_cover_refuted.

(** C60: if a value is listed twice then solutions are lost, even if the cover is closed. *)
Theorem C60_repeated_values_refuted : exists d0 p pb a, problem_of d0 [p] None = Some pb /\
  (exists vars values counts, p = CardinalityGac true vars values counts /\ length values = length counts) /\
  summary (solve ex_never 100 100 1 (plain_callbacks [VSimple 0]) pb) = Some ([], true) /\ solves d0 [p] a.
Proof.
  exists [[(0, 2)]], (CardinalityGac true [VSimple 0] [1; 1] [VConst 1; VConst 1]). eexists. exists (fun _ => 1).
  split; [reflexivity|]. split; [do 3 eexists; split; reflexivity|]. split; [vm_compute; reflexivity|]. split.
  - intros n Hn. destruct n as [|n]; simpl in *; [apply member_cons; lia|lia].
  - constructor; [|constructor]. split; [repeat constructor|]. intros _. repeat constructor.
Qed.
Print Assumptions C60_repeated_values_refuted.

(** Three variables over a closed cover, each value being taken once: all solutions are
    found. *)
Example C60_solutions_example : let p := CardinalityGac true [VSimple 0; VSimple 1; VSimple 2] [3; 1; 2] [VSimple 3; VConst 1; VConst 1] in
  let d0 := [[(1, 3)]; [(1, 2)]; [(2, 4)]; [(0, 3)]] in well_posed d0 p /\
  exists pb, problem_of d0 [p] None = Some pb /\
  summary (solve ex_never 100 100 1 (plain_callbacks [VSimple 0; VSimple 1; VSimple 2; VSimple 3]) pb) = Some ([[3; 1; 2; 1]; [2; 1; 3; 1]; [1; 2; 3; 1]], true).
Proof.
  cbv zeta. split.
  - split; [repeat constructor|]. split; [constructor|]. split; [repeat (apply NoDup_cons; [simpl; lia|]); apply NoDup_nil|]. split; [discriminate|reflexivity].
  - eexists. split; [reflexivity|]. vm_compute. reflexivity.
Qed.

(** Two of three variables need the values 1 and 4, each of which may be taken once. The
    third loses both, although they are not next to each other, keeps 2 and a value that is
    not in the cover, and then there is nothing left to infer. *)
Example C60_support_example : let vars := [VSimple 0; VSimple 1; VSimple 2] in let values := [1; 2; 4] in let counts := [VConst 1; VSimple 3; VConst 1] in
  let d0 := [[(1, 1); (4, 4)]; [(1, 1); (4, 4)]; [(1, 4)]; [(0, 1)]] in
  let d := [[(1, 1); (4, 4)]; [(1, 1); (4, 4)]; [(2, 3)]; [(0, 1)]] in
  NoDup values /\ (false = false -> StronglySorted Z.lt values) /\ length values = length counts /\ Forall (var_known d0) (vars ++ counts) /\
  exists p, fst (gac_global_cardinality false vars values counts d0) = [p] /\ ConsistencySpec.outcome 4 (fun _ _ => True) p d /\ domains_ok d /\ Forall (fun p => rerun_is_quiet p d) [p] /\
  view_member d (VSimple 2) 3 /\ cardinality_support d false vars values counts [1; 4; 3].
Proof.
  cbv zeta. split; [repeat (apply NoDup_cons; [simpl; lia|]); apply NoDup_nil|]. split; [intros _; repeat constructor|]. split; [reflexivity|]. split; [repeat constructor|].
  assert (M : view_member [[(1, 1); (4, 4)]; [(1, 1); (4, 4)]; [(2, 3)]; [(0, 1)]] (VSimple 2) 3) by (apply member_cons; lia).
  eexists. split; [reflexivity|]. split; [|split; [|split; [|split; [exact M|]]]].
  - exists (mk_in [[(1, 1); (4, 4)]; [(1, 1); (4, 4)]; [(1, 4)]; [(0, 1)]] [] [] [] [] (fun _ => false)). eexists. split; [|vm_compute; reflexivity]. split; [|split; [reflexivity|exact Logic.I]].
    intros [|[|[|[|n]]]] Hn; simpl in *; try lia; (split; [simpl; lia|]); exists 1; apply member_cons; lia.
  - intros [|[|[|[|n]]]] Hn; simpl in *; try lia; (split; [simpl; lia|]); [exists 1|exists 1|exists 2|exists 1]; apply member_cons; lia.
  - constructor; [|constructor]. intros [d cs m f s w] E. cbn [i_domains] in E. subst d. vm_compute. reflexivity.
  - split; [|split; [|discriminate]].
    + constructor; [apply member_cons; lia|]. constructor; [apply member_cons; right; apply member_cons; lia|]. constructor; [exact M|constructor].
    + repeat (apply Forall2_cons; [split; vm_compute; discriminate|]). apply Forall2_nil.
Qed.

(** Three variables for two places: no flow, and a reason is found. *)
Example C60_reason_example : let vars := [VSimple 0; VSimple 1; VSimple 2] in
  let d := [[(1, 2)]; [(1, 2)]; [(1, 2)]; [(0, 1)]] in
  let t := exec (sequence (combine [1; 2] [VSimple 3; VSimple 3]) (pin_count vars) Stop) (track d) in
  t_failed t = false /\ gac_verdict false vars [1; 2] [VSimple 3; VSimple 3] (t_domains t) = Fails.
Proof. cbv zeta. split; vm_compute; reflexivity. Qed.

(** A square with a way across. *)
Example C60_flow_example : let es := [(0%nat, 1%nat, 3); (0%nat, 2%nat, 2); (1%nat, 2%nat, 2); (1%nat, 3%nat, 1); (2%nat, 3%nat, 4)] in
  option_map fst (max_flow 4 (neighbours es) 0 3 (capacity_of es)) = Some 5.
Proof. vm_compute. reflexivity. Qed.
