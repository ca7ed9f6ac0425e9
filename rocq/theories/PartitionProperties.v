From Coq Require Import ZArith List Bool Lia.
From Verif Require Import Partition PartitionSpec PartitionProofs PartitionOnceProofs.
Import ListNotations.
Open Scope Z_scope.

(* Every request is answered by a literal that exists, and nothing goes wrong. *)
Theorem C69_every_request_answered : forall lb ub rs, lb <= ub ->
  exists s, ask_all lb ub no_partition rs = Some s /\ forall r, In r rs -> answered s r.
Proof. exact partition_answers. Qed.
Print Assumptions C69_every_request_answered.

(* Once the present cells inside a range literal are rejected, unit propagation rejects it, however
   often the cells were split after it was defined. *)
Theorem C69_cells_reject : forall lb ub rs s, lb <= ub -> ask_all lb ub no_partition rs = Some s ->
  forall i rejected, exists_literal s i -> fst i < snd i ->
    Z.max (fst i) lb <= Z.min (snd i) ub -> propagated s rejected ->
    (forall c, cell s c -> within_of c i -> rejected c) -> rejected i.
Proof. exact partition_rejects. Qed.
Print Assumptions C69_cells_reject.

(* Once all cells are rejected, unit propagation finds a conflict. *)
Theorem C69_wipeout : forall lb ub rs s, lb <= ub -> ask_all lb ub no_partition rs = Some s ->
  q_boundaries s <> None ->
  forall rejected, propagated s rejected -> (forall c, cell s c -> rejected c) -> conflict s rejected.
Proof. exact partition_wipeout. Qed.
Print Assumptions C69_wipeout.

(* Each covering is true of every value within the bounds, and is about literals that exist. *)
Theorem C69_coverings_sound : forall lb ub rs s i cs, lb <= ub ->
  ask_all lb ub no_partition rs = Some s -> In (i, cs) (q_coverings s) ->
  (forall x, lb <= x <= ub -> covers x (i, cs)) /\
  (forall c, In c cs -> exists_literal s c) /\
  match i with None => True | Some p => exists_literal s p end.
Proof. exact partition_sound. Qed.
Print Assumptions C69_coverings_sound.

(* The cells have literals, make up the range, and each equality within the bounds is one of them. *)
Theorem C69_cells : forall lb ub rs s, lb <= ub -> ask_all lb ub no_partition rs = Some s ->
  q_boundaries s <> None ->
  (forall c, cell s c -> exists_literal s c /\ lb <= fst c /\ snd c <= ub) /\
  (forall x, lb <= x <= ub -> exists c, cell s c /\ holds x c) /\
  (forall v, In v (q_atoms s) -> lb <= v <= ub -> cell s (v, v)).
Proof. exact partition_cells. Qed.
Print Assumptions C69_cells.

(* No literal is defined twice. *)
Theorem C69_defined_once : forall lb ub rs s, lb <= ub -> ask_all lb ub no_partition rs = Some s ->
  NoDup (q_ranges s) /\ NoDup (q_atoms s).
Proof. exact partition_once. Qed.
Print Assumptions C69_defined_once.

(* An equality, a range around it that leaves the bounds, an equality inside a cell, whose second cut
   makes an equality of the value beside it, and a range that is a cell. *)
Definition some_requests : list request :=
  [NeedEquality 4; NeedRange 2 12; NeedEquality 7; NeedEquality 9; NeedRange 0 1].

Example C69_non_vacuous :
  ask_all 0 10 no_partition some_requests =
  Some (mk_partition (Some [0; 2; 4; 5; 7; 8; 9; 10; 11]) [4; 7; 9; 8; 10]
          [(0, 1); (2, 3); (5, 10); (2, 12); (5, 6); (7, 10); (8, 10); (9, 10)]
          [(None, [(0, 1); (2, 3); (4, 4); (5, 10)]);
           (Some (2, 12), [(2, 3); (4, 4); (5, 10)]);
           (Some (5, 10), [(5, 6); (7, 10)]);
           (Some (7, 10), [(7, 7); (8, 10)]);
           (Some (8, 10), [(8, 8); (9, 10)]);
           (Some (9, 10), [(9, 9); (10, 10)])]).
Proof. vm_compute. reflexivity. Qed.
