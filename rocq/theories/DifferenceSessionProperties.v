(** C67: the difference logic propagator over a whole search. Property theorems and examples
    only. *)
From Coq Require Import ZArith List Bool Lia.
From Verif Require Import Difference DifferenceSpec DifferenceSession DifferenceSessionSpec DifferenceSessionProofs DifferenceProperties.
Import ListNotations.
Local Open Scope Z_scope.

(** The first call infers all that follows, or finds that nothing satisfies the differences. *)
Theorem C67_first_call : forall n arcs, nodes_below n arcs -> forall m flags lb ub, fresh m -> flags = [] \/ length flags = length arcs ->
  complete n arcs flags lb ub (first_wake n arcs flags lb ub None m).
Proof. exact first_complete. Qed.
Print Assumptions C67_first_call.

(** So does every other call, whatever guesses, changes, calls, contradictions and
    backtracks there have been. *)
Theorem C67_every_call : forall n arcs, nodes_below n arcs -> forall m t r, reached n arcs true m (t :: r) ->
  complete n arcs (e_flags t) (e_lb t) (e_ub_neg t) (wake n arcs (e_flags t) (e_lb t) (e_ub_neg t) (e_mark t) None m).
Proof. exact session_complete. Qed.
Print Assumptions C67_every_call.

(** No call throws, also if an inference of its own ends it. *)
Theorem C67_never_broken : forall n arcs, nodes_below n arcs -> forall m t r cut, reached n arcs true m (t :: r) ->
  wake n arcs (e_flags t) (e_lb t) (e_ub_neg t) (e_mark t) cut m <> Broken.
Proof. exact session_never_broken. Qed.
Print Assumptions C67_never_broken.

(** The potentials, which are never restored, are right for the arcs that are recorded after
    any backtrack. *)
Theorem C67_potentials_survive : forall n arcs, nodes_below n arcs -> forall m t r, reached n arcs true m (t :: r) ->
  potential arcs (m_was_active (unwind_to (e_mark t) m)) (m_potential m) /\ potential arcs (m_was_active (unwind_to (e_mark t) m)) (fun v => - m_neg_potential m v).
Proof. exact session_potentials. Qed.
Print Assumptions C67_potentials_survive.

(** ** Examples *)

Definition chain : list arc := [mk_arc 0 1 (-1); mk_arc 1 2 (-1); mk_arc 2 0 1].
Definition no_memory : memory := mk_memory (fun _ => 0) (fun _ => 0) (fun _ => 0) (fun _ => 0) [] [] example_repair example_bounds.
Definition woken (o : outcome) : memory * list (nat * Z) * list (nat * Z) := match o with Woke m l u => (m, l, u) | _ => (no_memory, [], []) end.
Definition left_by (o : outcome) : memory := match o with Woke m _ _ => m | NegativeCycle m => m | Emptied m => m | Broken => no_memory end.

Definition is_woke (o : outcome) : bool := match o with Woke _ _ _ => true | _ => false end.
Definition is_cycle (o : outcome) : bool := match o with NegativeCycle _ => true | _ => false end.


Example chain_nodes : nodes_below 3 chain.
Proof. intros a H. repeat (destruct H as [<-|H]; [cbn; lia|]). destruct H. Qed.

Example no_memory_fresh : fresh no_memory.
Proof. split; [reflexivity|]. split; intros v; split; reflexivity. Qed.

(** A chain of three with a condition on its second arc, and on an arc back that closes a
    cycle. First only the first arc is in force. *)
Definition lb0 (v : nat) : Z := 0.
Definition ub0 (v : nat) : Z := -20.
Definition call1 := first_wake 3 chain [true; false; false] lb0 ub0 None no_memory.
Definition memory1 : memory := fst (fst (woken call1)).
Definition epoch1 : epoch := mk_epoch (length (m_trail memory1)) [true; false; false] (after lb0 (snd (fst (woken call1)))) (after ub0 (snd (woken call1))).

Example first_inferences : (snd (fst (woken call1)), snd (woken call1)) = ([(1%nat, 1)], [(0%nat, -19)]).
Proof. vm_compute. reflexivity. Qed.

(** Guess that the second arc is in force and that node 0 is at least 10. *)
Definition epoch2 : epoch := mk_epoch (e_mark epoch1) [true; true; false] (fun v => if Nat.eqb v 0 then 10 else e_lb epoch1 v) (e_ub_neg epoch1).
Definition call2 := wake 3 chain (e_flags epoch2) (e_lb epoch2) (e_ub_neg epoch2) (e_mark epoch2) None memory1.
Definition memory2 : memory := fst (fst (woken call2)).

Example second_inferences : (snd (fst (woken call2)), snd (woken call2)) = ([(1%nat, 11); (2%nat, 12)], [(1%nat, -19); (0%nat, -18)]).
Proof. vm_compute. reflexivity. Qed.

Definition epoch2' : epoch := mk_epoch (length (m_trail memory2)) (e_flags epoch2) (after (e_lb epoch2) (snd (fst (woken call2)))) (after (e_ub_neg epoch2) (snd (woken call2))).

(** The arc back closes a negative cycle; then the search backtracks and guesses that node 0
    is at least 7. What follows from that is found again. *)
Definition epoch3 : epoch := mk_epoch (e_mark epoch2') [true; true; true] (e_lb epoch2') (e_ub_neg epoch2').
Definition call3 := wake 3 chain (e_flags epoch3) (e_lb epoch3) (e_ub_neg epoch3) (e_mark epoch3) None memory2.
Definition memory3 : memory := left_by call3.

Definition epoch4 : epoch := mk_epoch (e_mark epoch1) [true; true; false] (fun v => if Nat.eqb v 0 then 7 else e_lb epoch1 v) (e_ub_neg epoch1).
Definition call4 := wake 3 chain (e_flags epoch4) (e_lb epoch4) (e_ub_neg epoch4) (e_mark epoch4) None memory3.

Example fourth_inferences : (snd (fst (woken call4)), snd (woken call4)) = ([(1%nat, 8); (2%nat, 9)], [(1%nat, -19); (0%nat, -18)]).
Proof. vm_compute. reflexivity. Qed.

(** These memories and epochs are reached. *)
Example woke_is : forall o, is_woke o = true -> o = Woke (fst (fst (woken o))) (snd (fst (woken o))) (snd (woken o)).
Proof. intros [m l u|m|m|] E; try discriminate. reflexivity. Qed.

Example cycle_is : forall o, is_cycle o = true -> o = NegativeCycle (left_by o).
Proof. intros [m l u|m|m|] E; try discriminate. reflexivity. Qed.

Example first_woke : is_woke call1 = true.
Proof. vm_compute. reflexivity. Qed.

Example second_woke : is_woke call2 = true.
Proof. vm_compute. reflexivity. Qed.

Example cycle_found : is_cycle call3 = true.
Proof. vm_compute. reflexivity. Qed.

Example first_bound : e_lb epoch1 0 <= 10.
Proof. vm_compute. discriminate. Qed.

Opaque first_wake wake.

Example first_reached : reached 3 chain true memory1 [epoch1].
Proof. exact (reached_first 3 chain no_memory [true; false; false] lb0 ub0 _ _ _ no_memory_fresh (or_intror eq_refl) (woke_is call1 first_woke)). Qed.

Example shrinks_to : forall t flags lb, length flags = length (e_flags t) -> (forall e, nth e (e_flags t) false = true -> nth e flags false = true) -> (forall v, e_lb t v <= lb v) ->
  shrinks t (mk_epoch (e_mark t) flags lb (e_ub_neg t)).
Proof. intros t flags lb L F B. split; [reflexivity|]. split; [exact L|]. split; [exact F|]. split; [exact B|]. intros v. apply Z.le_refl. Qed.

Example raised : forall (f : nat -> Z) v, f 0%nat <= 10 -> f v <= (if Nat.eqb v 0 then 10 else f v).
Proof. intros f v H. destruct (Nat.eqb v 0) eqn:E; [|apply Z.le_refl]. apply Nat.eqb_eq in E. now subst v. Qed.

Example flags_grow : forall e, nth e [true; false; false] false = true -> nth e [true; true; false] false = true.
Proof. intros [|[|[|[|e]]]]; cbn; auto. Qed.

Example flags_grow' : forall e, nth e [true; true; false] false = true -> nth e [true; true; true] false = true.
Proof. intros [|[|[|[|e]]]]; cbn; auto. Qed.

Example second_shrinks : shrinks epoch1 epoch2.
Proof. exact (shrinks_to epoch1 [true; true; false] _ eq_refl flags_grow (fun v => raised (e_lb epoch1) v first_bound)). Qed.

Example second_reached : reached 3 chain true memory2 [epoch2'; epoch1].
Proof. exact (reached_wake 3 chain memory1 epoch2 [epoch1] _ _ _ (reached_shrink 3 chain memory1 epoch1 epoch2 [epoch1] (reached_guess 3 chain memory1 epoch1 [] first_reached) second_shrinks) (woke_is call2 second_woke)). Qed.

Example third_shrinks : shrinks epoch2' epoch3.
Proof. exact (shrinks_to epoch2' [true; true; true] _ eq_refl flags_grow' (fun v => Z.le_refl (e_lb epoch2' v))). Qed.

Example third_reached : reached 3 chain true memory3 [epoch1].
Proof. exact (reached_backtrack 3 chain false memory3 epoch3 epoch1 [] (reached_cycle 3 chain memory2 epoch3 [epoch1] None memory3 (reached_shrink 3 chain memory2 epoch2' epoch3 [epoch1] second_reached third_shrinks) (cycle_is call3 cycle_found))). Qed.
