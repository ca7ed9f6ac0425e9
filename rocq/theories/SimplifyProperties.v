(** C70: the root simplification of difference logic. *)
From Coq Require Import ZArith List Bool Lia.
From Verif Require Import Difference DifferenceSpec Simplify SimplifySpec SimplifyProofs SimplifyEndsProofs SimplifyAllProofs.
Import ListNotations.
Local Open Scope Z_scope.

(** The simplification ends, without an exception, and with one outcome. *)
Theorem C70_finishes : forall n arcs roles, nodes_below n arcs -> length roles = length arcs ->
  exists enough o, forall fuel, (enough <= fuel)%nat -> simplify fuel n arcs roles = Some o.
Proof. exact simplify_ends. Qed.
Print Assumptions C70_finishes.

(** A contradiction is reported exactly if nothing satisfies the base graph, and then nothing else is. *)
Theorem C70_contradiction : forall fuel n arcs roles o, nodes_below n arcs -> simplify fuel n arcs roles = Some o ->
  (o_base_negative_cycle o = true <-> ~ exists x, forall e a, has_role arcs roles Base e a -> satisfies x a) /\
  (o_base_negative_cycle o = true -> (forall e, o_remove o e = false) /\ o_fix o = []).
Proof. exact simplify_negative. Qed.
Print Assumptions C70_contradiction.

(** What is removed follows from what is kept. The values may be lower bounds, or negated upper ones. *)
Theorem C70_removed_arcs : forall fuel n arcs roles o, nodes_below n arcs -> simplify fuel n arcs roles = Some o ->
  (forall e, o_remove o e = true -> exists a, has_role arcs roles Base e a \/ has_role arcs roles Candidate e a) /\
  forall x, (forall e a, has_role arcs roles Base e a -> o_remove o e = false -> satisfies x a) ->
  (forall e a, has_role arcs roles Base e a -> satisfies x a) /\
  (forall e a, has_role arcs roles Candidate e a -> o_remove o e = true -> satisfies x a).
Proof. exact simplify_removes. Qed.
Print Assumptions C70_removed_arcs.

(** A condition that is made false has a negative cycle through its arc and the base graph. *)
Theorem C70_fixed_conditions : forall fuel n arcs roles o, nodes_below n arcs -> simplify fuel n arcs roles = Some o ->
  forall e path, In (e, path) (o_fix o) ->
  exists a, has_role arcs roles Candidate e a /\ leads arcs roles (a_to a) path (a_from a) /\ a_d a + weight arcs path < 0 /\
    forall x, (forall f b, has_role arcs roles Base f b -> satisfies x b) -> ~ satisfies x a.
Proof. exact simplify_fixes. Qed.
Print Assumptions C70_fixed_conditions.

(** Nothing is missed: what is kept is shorter than every path, but for one arc as short as the
    shortest, and each condition whose arc closes a negative cycle is made false. *)
Theorem C70_nothing_missed : forall fuel n arcs roles o, nodes_below n arcs -> simplify fuel n arcs roles = Some o ->
  o_base_negative_cycle o = false ->
  (forall e a path, has_role arcs roles Base e a -> o_remove o e = false -> leads arcs roles (a_from a) path (a_to a) ->
    a_d a <= weight arcs path) /\
  (forall e a path, has_role arcs roles Candidate e a -> o_remove o e = false -> leads arcs roles (a_from a) path (a_to a) ->
    a_d a < weight arcs path) /\
  (forall e a path, has_role arcs roles Candidate e a -> leads arcs roles (a_to a) path (a_from a) ->
    a_d a + weight arcs path < 0 -> exists path', In (e, path') (o_fix o)) /\
  (forall e f a, has_role arcs roles Base e a -> has_role arcs roles Base f a -> e <> f -> o_remove o e = true \/ o_remove o f = true).
Proof. exact simplify_all. Qed.
Print Assumptions C70_nothing_missed.

(** ** Concrete cases *)

Definition example_graph : list arc :=
  [mk_arc 0 1 2; mk_arc 1 2 (-1); mk_arc 0 2 3; mk_arc 0 2 1; mk_arc 0 1 2; mk_arc 0 2 1; mk_arc 2 0 (-2); mk_arc 1 0 0; mk_arc 2 1 (-5)].
Definition example_roles : list role := [Base; Base; Base; Base; Base; Candidate; Candidate; Candidate; Ignored].

Example example_nodes : nodes_below 3 example_graph.
Proof. intros a H. repeat (destruct H as [<-|H]; [cbn; lia|]). destruct H. Qed.

(** The third arc is longer than a path, the fifth repeats the first, and the sixth says nothing
    new; the seventh contradicts the base. *)
Example example_simplified :
  option_map (fun o => (o_base_negative_cycle o, map (o_remove o) (seq 0 9), o_fix o)) (simplify 20 3 example_graph example_roles) =
  Some (false, [false; false; true; false; true; true; false; false; false], [(6%nat, [3%nat])]).
Proof. vm_compute. reflexivity. Qed.

Example example_contradiction :
  option_map o_base_negative_cycle (simplify 20 2 [mk_arc 0 1 (-2); mk_arc 1 0 1] [Base; Base]) = Some true.
Proof. vm_compute. reflexivity. Qed.
