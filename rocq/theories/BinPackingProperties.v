(** Properties of bin packing. *)
From Coq Require Import ZArith List Bool Lia.
From Verif Require Import IntervalSet IntervalSetSpec IntervalSetProofs Vars VarsSpec State StateSpec Epochs Engine EngineSpec
  Tracker SessionSpec ContractSpec Search Solve SolveSpec ConsistencySpec AllDifferentSpec Knapsack BinPackingSpec BinPacking BinPackingProofs
  Catalogue CatalogueSpec ExampleProblem SolveExample ConstraintExample.
Import ListNotations.
Local Open Scope Z_scope.

(** C63: at every level the constraint accepts exactly the assignments that put each item
    into a bin, so that what is in a bin adds up to its load, or to no more than its
    capacity, whatever variables the items and the loads share. *)
Theorem C63_bin_packing_correct : forall d0 level items sizes bs, domains_ok d0 -> Forall (var_known d0) (items ++ match bs with Loads loads => loads | Capacities _ => [] end) ->
  in_bins d0 items bs -> forall k, bin_packing level items sizes bs = Some k ->
  correct_on d0 k (items ++ match bs with Loads loads => loads | Capacities _ => [] end) (packs items sizes bs).
Proof. exact bin_packing_correct. Qed.
Print Assumptions C63_bin_packing_correct.

(** C63: it is turned down exactly if not every item has a size, or a size or a capacity is
    negative, or there is no bin. *)
Theorem C63_refused : forall level items sizes bs, bin_packing level items sizes bs = None <-> ~ packable items sizes bs.
Proof. exact bin_packing_none. Qed.
Print Assumptions C63_refused.

(** C63: at every level, when nothing more is inferred, the bounds of each load and the
    places of each item agree with the least and the most that can be in the bin; and with
    capacities each value of an item goes with each bin. *)
Theorem C63_bounds_consistent : forall d0 level items sizes bs, domains_ok d0 -> Forall (var_known d0) (items ++ match bs with Loads loads => loads | Capacities _ => [] end) ->
  forall k p, bin_packing level items sizes bs = Some k -> fst (k d0) = [p] ->
  forall d, domains_ok d -> length d = length d0 -> inside d0 d -> rerun_is_quiet p d ->
  forall b, NoDup (underlying_list items) -> (b < bin_count bs)%nat ->
  match bs with
  | Loads loads => forall load, nth_error loads b = Some load -> bin_bounded d items sizes load b
  | Capacities _ => forall v x, In v items -> takes d v x -> bin_supports d items sizes bs b v x
  end.
Proof. exact rest_bounds. Qed.
Print Assumptions C63_bounds_consistent.

(** C63, per bin: with everything derived in advance, when nothing more is inferred, each
    bin can be right, with each item that can still be in it, and with each load it can
    still have. Missing: that an item can be elsewhere. *)
Theorem C63_upfront_consistent_partial : forall d0 level items sizes bs, domains_ok d0 -> Forall (var_known d0) (items ++ match bs with Loads loads => loads | Capacities _ => [] end) ->
  forall k p, bin_packing level items sizes bs = Some k -> fst (k d0) = [p] ->
  forall d, domains_ok d -> length d = length d0 -> inside d0 d -> rerun_is_quiet p d ->
  forall b, level = PerBin Upfront -> NoDup (underlying_list (items ++ match bs with Loads loads => loads | Capacities _ => [] end)) -> (b < bin_count bs)%nat ->
  (exists a, within a d /\ bin_right items sizes bs b a) /\ (forall v, In v items -> takes d v (Z.of_nat b) -> bin_supports d items sizes bs b v (Z.of_nat b)) /\
  match bs with Loads loads => forall load x, nth_error loads b = Some load -> takes d load x -> bin_supports d items sizes bs b load x | Capacities _ => True end.
Proof. exact rest_upfront. Qed.
Print Assumptions C63_upfront_consistent_partial.

(** C63: that an item can be elsewhere does not follow. *)
Theorem C63_upfront_consistent_refuted : exists d items sizes loads k p v x, domains_ok d /\ Forall (var_known d) (items ++ loads) /\ NoDup (underlying_list (items ++ loads)) /\
  in_bins d items (Loads loads) /\ bin_packing (PerBin Upfront) items sizes (Loads loads) = Some k /\ fst (k d) = [p] /\ rerun_is_quiet p d /\
  In v items /\ takes d v x /\ ~ bin_supports d items sizes (Loads loads) 0 v x.
Proof. exact upfront_one_way. Qed.
Print Assumptions C63_upfront_consistent_refuted.

(** C63: the default is not consistent per bin: there can be nothing left to infer although
    no assignment makes a bin right. *)
Theorem C63_default_consistent_refuted : exists d items sizes loads k p, domains_ok d /\ Forall (var_known d) (items ++ loads) /\ NoDup (underlying_list (items ++ loads)) /\
  in_bins d items (Loads loads) /\ bin_packing (PerBin PerCall) items sizes (Loads loads) = Some k /\ fst (k d) = [p] /\ rerun_is_quiet p d /\
  (forall a, within a d -> ~ bin_right items sizes (Loads loads) 0 a).
Proof. exact default_not_consistent. Qed.
Print Assumptions C63_default_consistent_refuted.

(** C63: the two strategies do not draw the same inferences: on the same domains one fails
    and the other does not. *)
Theorem C63_strategies_agree_refuted : exists d items sizes loads k1 k2 p1 p2, domains_ok d /\ Forall (var_known d) (items ++ loads) /\ NoDup (underlying_list (items ++ loads)) /\
  in_bins d items (Loads loads) /\ bin_packing (PerBin PerCall) items sizes (Loads loads) = Some k1 /\ bin_packing (PerBin Upfront) items sizes (Loads loads) = Some k2 /\
  fst (k1 d) = [p1] /\ fst (k2 d) = [p2] /\
  forall i, i_domains i = d -> snd (apply_lits d (o_infer (p_run p1 i))) = false /\ snd (apply_lits d (o_infer (p_run p2 i))) = true.
Proof. exact strategies_infer_alike. Qed.
Print Assumptions C63_strategies_agree_refuted.

(** C63: indeed the default runs exactly as with bounds consistency alone. *)
Theorem C63_default_is_bounds : forall d0 level items sizes bs, domains_ok d0 -> Forall (var_known d0) (items ++ match bs with Loads loads => loads | Capacities _ => [] end) ->
  forall k k' p p' i, level = PerBin PerCall -> bin_packing level items sizes bs = Some k -> bin_packing BoundsOnly items sizes bs = Some k' -> fst (k d0) = [p] -> fst (k' d0) = [p'] ->
  usable (length d0) (fun d _ => inside d0 d) i -> p_run p i = p_run p' i.
Proof. exact default_is_bounds. Qed.
Print Assumptions C63_default_is_bounds.

(** C63: the sweep that goes on from what it remembers of earlier sweeps, whatever those
    were, comes to the nodes that it would come to afresh. *)
Theorem C63_sweep_afresh : forall d0 items sizes b history d, let first := sweep_at d0 d items sizes b (cold (length items)) in let again := sweep_at d0 d items sizes b (remembered d0 items sizes b history) in
  s_fwd (fst again) = s_fwd (fst first) /\ s_bwd (fst again) = s_bwd (fst first) /\ (snd again = [] \/ snd again = snd first).
Proof. exact remembered_afresh. Qed.
Print Assumptions C63_sweep_afresh.

(** C63: and it never keeps an item out of a bin. *)
Theorem C63_sweep_idle : forall d0 items sizes bs b history d, packable items sizes bs -> domains_ok d0 -> Forall (var_known d0) items -> domains_ok d -> length d = length d0 -> inside d0 d ->
  snd (sweep_at d0 d items sizes b (remembered d0 items sizes b history)) = [].
Proof. exact remembered_idle. Qed.
Print Assumptions C63_sweep_idle.

(** Three items, the last of which is a view; an item's variable is also the load of a bin. *)
Example C63_solutions_example : forall level, let p := BinPackingOf level [VSimple 0; VSimple 1; VView 2 true 1] [2; 1; 3] (Loads [VSimple 3; VSimple 1]) in let d0 := [[(0, 1)]; [(0, 1)]; [(0, 1)]; [(0, 6)]] in
  well_posed d0 p /\ exists pb, problem_of d0 [p] None = Some pb /\
  summary (solve ex_never 100 100 1 (plain_callbacks [VSimple 0; VSimple 1; VSimple 2; VSimple 3]) pb) = Some ([[0; 1; 1; 5]; [0; 0; 1; 6]], true).
Proof.
  intros level. cbv zeta. split.
  - split; [repeat constructor|]. split; [constructor|]. split; [|repeat (constructor; [vm_compute; split; [discriminate|reflexivity]|]); constructor].
    split; [reflexivity|]. split; [repeat constructor; lia|]. split; [discriminate|exact Logic.I].
  - destruct level as [|[|]]; eexists; (split; [reflexivity|]); vm_compute; reflexivity.
Qed.

Example C63_capacities_example : forall level, let p := BinPackingOf level [VSimple 0; VSimple 1; VSimple 2] [4; 3; 3] (Capacities [6; 4]) in let d0 := [[(0, 1)]; [(0, 1)]; [(0, 1)]] in
  well_posed d0 p /\ exists pb, problem_of d0 [p] None = Some pb /\
  summary (solve ex_never 100 100 1 (plain_callbacks [VSimple 0; VSimple 1; VSimple 2]) pb) = Some ([[1; 0; 0]], true).
Proof.
  intros level. cbv zeta. split.
  - split; [repeat constructor|]. split; [constructor|]. split; [|repeat (constructor; [vm_compute; split; [discriminate|reflexivity]|]); constructor].
    split; [reflexivity|]. split; [repeat constructor; lia|]. split; [discriminate|repeat constructor; lia].
  - destruct level as [|[|]]; eexists; (split; [reflexivity|]); vm_compute; reflexivity.
Qed.

(** With sizes 2 and 3, a load of 1 or 4 cannot be had. *)
Example C63_rest_example : let d := [[(0, 1)]; [(0, 1)]; [(0, 0); (2, 3); (5, 5)]; [(0, 0); (2, 3); (5, 5)]] in
  exists k p, bin_packing (PerBin Upfront) [VSimple 0; VSimple 1] [2; 3] (Loads [VSimple 2; VSimple 3]) = Some k /\ fst (k [[(0, 1)]; [(0, 1)]; [(0, 9)]; [(0, 9)]]) = [p] /\ rerun_is_quiet p d.
Proof.
  cbv zeta. eexists. eexists. split; [reflexivity|]. split; [reflexivity|]. intros i E. cbn [p_run body_propagator]. rewrite (proj1 (ContractProofs.body_run_out _ i)), E. vm_compute. reflexivity.
Qed.

Example C63_prunes_example : let d := [[(0, 1)]; [(0, 1)]; [(0, 9)]; [(0, 9)]] in
  exists k p, bin_packing (PerBin Upfront) [VSimple 0; VSimple 1] [2; 3] (Loads [VSimple 2; VSimple 3]) = Some k /\ fst (k d) = [p] /\
  fst (fst (apply_lits d (o_infer (p_run p (mk_in d [] [] [] [] (fun _ => false)))))) = [[(0, 1)]; [(0, 1)]; [(0, 0); (2, 3); (5, 5)]; [(0, 0); (2, 3); (5, 5)]].
Proof. cbv zeta. eexists. eexists. split; [reflexivity|]. split; [reflexivity|]. vm_compute. reflexivity. Qed.

(** An item that is taken out after the first sweep. *)
Example C63_sweep_example : let d0 := [[(0, 1)]; [(0, 1)]; [(0, 1)]] in let items := [VSimple 0; VSimple 1; VSimple 2] in
  s_fwd (remembered d0 items [2; 3; 4] 0 [d0]) = [[0]; [0; 2]; [0; 3; 2; 5]; [0; 4; 3; 7; 2; 6; 5; 9]] /\
  s_fwd (remembered d0 items [2; 3; 4] 0 [d0; [[(0, 1)]; [(1, 1)]; [(0, 1)]]]) = [[0]; [0; 2]; [0; 2]; [0; 4; 2; 6]].
Proof. split; vm_compute; reflexivity. Qed.

Example C63_refused_example : forall level, bin_packing level [VSimple 0] [1; 2] (Loads [VSimple 1]) = None /\ bin_packing level [VSimple 0] [-1] (Loads [VSimple 1]) = None /\
  bin_packing level [VSimple 0] [1] (Loads []) = None /\ bin_packing level [VSimple 0] [1] (Capacities [2; -1]) = None.
Proof. intros level. repeat split. Qed.
