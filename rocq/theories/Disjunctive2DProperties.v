(** Properties of rectangles that do not overlap. *)
From Coq Require Import ZArith List Bool Lia.
From Verif Require Import IntervalSet IntervalSetSpec IntervalSetProofs Vars VarsSpec State StateSpec Epochs Engine EngineSpec
  Tracker SessionSpec ContractSpec Search Solve SolveSpec ConsistencySpec Disjunctive2DSpec Disjunctive2D Disjunctive2DProofs
  Catalogue CatalogueSpec ExampleProblem SolveExample ConstraintExample.
Import ListNotations.
Local Open Scope Z_scope.

(** C58: the constraint has exactly the solutions it should, strict or not, with variables,
    views or constants for the positions and sizes, and whatever variables they share, if
    the sizes are not negative. *)
Theorem C58_rectangles_correct : forall d0 strict xs ys ws hs, domains_ok d0 -> Forall (var_known d0) (xs ++ ys ++ ws ++ hs) ->
  length ys = length xs -> length ws = length xs -> length hs = length xs -> Forall (fun v => 0 <= lower_bound d0 v) (ws ++ hs) ->
  exists k, disjunctive_2d strict xs ys ws hs = Some k /\ correct_on d0 k (xs ++ ys ++ ws ++ hs) (no_overlap strict xs ys ws hs).
Proof. exact rectangles_correct. Qed.
Print Assumptions C58_rectangles_correct.

(** C58: the constructor throws exactly if a rectangle lacks something, or a constant size
    is negative. *)
Theorem C58_refused : forall strict xs ys ws hs, disjunctive_2d strict xs ys ws hs = None <->
  (length ys <> length xs \/ length ws <> length xs \/ length hs <> length xs \/ exists c, In (VConst c) (ws ++ hs) /\ c < 0).
Proof. exact refused_iff. Qed.
Print Assumptions C58_refused.

(** C58: unless strict, it means that no cell is in two rectangles. *)
Theorem C58_no_cell_shared : forall xs ys ws hs a, (forall i, (i < length xs)%nat -> 0 <= at_pos a ws i /\ 0 <= at_pos a hs i) ->
  (no_overlap false xs ys ws hs a <-> forall i j u v, (i < length xs)%nat -> (j < length xs)%nat -> has_cell xs ys ws hs a i u v -> has_cell xs ys ws hs a j u v -> i = j).
Proof. exact no_cell_shared. Qed.
Print Assumptions C58_no_cell_shared.

(** C58: when there is nothing more to infer, no two rectangles must take the same cell. If
    two must take the same column then neither, put as low or as high as it still can be,
    takes a row that the other must take, and so for rows. *)
Theorem C58_apart : forall d0 strict xs ys ws hs k d, domains_ok d0 -> Forall (var_known d0) (xs ++ ys ++ ws ++ hs) -> Forall (fun v => 0 <= lower_bound d0 v) (ws ++ hs) ->
  disjunctive_2d strict xs ys ws hs = Some k -> domains_ok d -> length d = length d0 -> inside d0 d -> Forall (fun p => rerun_is_quiet p d) (fst (k d0)) ->
  forall i j, (i < length xs)%nat -> (j < length xs)%nat -> i <> j ->
  (forall u v, ~ (compulsory d xs ws i u /\ compulsory d xs ws j u /\ compulsory d ys hs i v /\ compulsory d ys hs j v)) /\
  (forall u, compulsory d xs ws i u -> compulsory d xs ws j u -> keeps_clear d ys hs i j (lower_bound d (nth i ys (VConst 0))) /\ keeps_clear d ys hs i j (upper_bound d (nth i ys (VConst 0)))) /\
  (forall v, compulsory d ys hs i v -> compulsory d ys hs j v -> keeps_clear d xs ws i j (lower_bound d (nth i xs (VConst 0))) /\ keeps_clear d xs ws i j (upper_bound d (nth i xs (VConst 0)))).
Proof. exact rectangles_apart. Qed.
Print Assumptions C58_apart.

(** A rectangle of 2 by 2, and one of 1 by 2 that may be empty, on a board of 2 by 4. With
    no area the second may be anywhere, unless strict. *)
Example C58_solutions_example : let p strict := Rectangles strict [VConst 0; VSimple 0] [VSimple 1; VSimple 2] [VConst 2; VSimple 3] [VConst 2; VConst 2] in
  let d0 := [[(0, 1)]; [(0, 2)]; [(0, 0); (2, 2)]; [(0, 1)]] in well_posed d0 (p true) /\ well_posed d0 (p false) /\
  exists pb pb', problem_of d0 [p true] None = Some pb /\ problem_of d0 [p false] None = Some pb' /\
  summary (solve ex_never 100 100 1 (plain_callbacks [VSimple 0; VSimple 1; VSimple 2; VSimple 3]) pb) =
    Some ([[1; 2; 0; 1]; [1; 2; 0; 0]; [1; 0; 2; 1]; [1; 0; 2; 0]; [0; 2; 2; 0]; [0; 2; 0; 1]; [0; 2; 0; 0]; [0; 1; 2; 0];
           [0; 1; 0; 0]; [0; 0; 2; 1]; [0; 0; 2; 0]; [0; 0; 0; 0]], true) /\
  option_map (fun r => length (fst r)) (summary (solve ex_never 100 100 1 (plain_callbacks [VSimple 0; VSimple 1; VSimple 2; VSimple 3]) pb')) = Some 16%nat.
Proof.
  cbv zeta. assert (W : forall strict, well_posed [[(0, 1)]; [(0, 2)]; [(0, 0); (2, 2)]; [(0, 1)]] (Rectangles strict [VConst 0; VSimple 0] [VSimple 1; VSimple 2] [VConst 2; VSimple 3] [VConst 2; VConst 2])).
  { intro strict. split; [repeat constructor|]. split; [constructor|]. split; [repeat split|]. repeat (apply Forall_cons; [vm_compute; discriminate|]). apply Forall_nil. }
  split; [apply W|]. split; [apply W|]. eexists. eexists. split; [reflexivity|]. split; [reflexivity|]. split; vm_compute; reflexivity.
Qed.

(** Two rectangles, three columns wide, on a board four columns wide. The second is not
    below the first, whose lowest two rows it must then be above. *)
Example C58_apart_example : let d0 := [[(0, 1)]; [(0, 1)]; [(0, 1)]; [(1, 6)]] in
  exists k p, disjunctive_2d false [VSimple 0; VSimple 1] [VSimple 2; VSimple 3] [VConst 3; VConst 3] [VConst 3; VConst 2] = Some k /\ fst (k d0) = [p] /\
  ConsistencySpec.outcome 4 (fun _ _ => True) p [[(0, 1)]; [(0, 1)]; [(0, 1)]; [(3, 6)]] /\ rerun_is_quiet p [[(0, 1)]; [(0, 1)]; [(0, 1)]; [(3, 6)]] /\
  compulsory [[(0, 1)]; [(0, 1)]; [(0, 1)]; [(3, 6)]] [VSimple 0; VSimple 1] [VConst 3; VConst 3] 0 1 /\
  compulsory [[(0, 1)]; [(0, 1)]; [(0, 1)]; [(3, 6)]] [VSimple 0; VSimple 1] [VConst 3; VConst 3] 1 1.
Proof.
  cbv zeta. eexists. eexists. split; [reflexivity|]. split; [reflexivity|]. split; [|split; [|split; (split; [vm_compute; discriminate|vm_compute; reflexivity])]].
  - exists (mk_in [[(0, 1)]; [(0, 1)]; [(0, 1)]; [(1, 6)]] [] [] [] [] (fun _ => false)). eexists. split; [|vm_compute; reflexivity]. split; [|split; [reflexivity|exact Logic.I]].
    intros [|[|[|[|n]]]] Hn; simpl in *; try lia; (split; [simpl; lia|]); exists 1; apply member_cons; lia.
  - intros [d cs m f s w] E. cbn [i_domains] in E. subst d. vm_compute. reflexivity.
Qed.

(** A negative constant is refused. *)
Example C58_refused_example : disjunctive_2d true [VSimple 0] [VSimple 0] [VConst 1] [VConst (-1)] = None.
Proof. reflexivity. Qed.
