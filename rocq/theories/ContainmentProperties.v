From Coq Require Import ZArith List Bool Sorted Lia.
From Verif Require Import IntervalTree IntervalTreeSpec IntervalTreeProofs
  Containment ContainmentSpec ContainmentProofs.
Import ListNotations.
Open Scope Z_scope.

(* Inserting never goes wrong, and the visits are of exactly the intervals asked for, in order. *)
Theorem C68_visits : forall calls,
  exists t, insert_all Leaf calls = Some t /\
    forall lo hi,
      visits_exactly (fun i => stored calls i /\ fst i <= lo /\ hi <= snd i)
                     (visit_containing t lo hi) /\
      visits_exactly (fun i => stored calls i /\ lo <= fst i /\ snd i <= hi)
                     (visit_contained_in t lo hi).
Proof. exact tree_exact. Qed.
Print Assumptions C68_visits.

(* The order of the insertions, repeated insertions and the random priorities cannot be observed. *)
Theorem C68_visits_canonical : forall calls calls' t t',
  (forall i, stored calls i <-> stored calls' i) ->
  insert_all Leaf calls = Some t -> insert_all Leaf calls' = Some t' ->
  forall lo hi, visit_containing t lo hi = visit_containing t' lo hi /\
                visit_contained_in t lo hi = visit_contained_in t' lo hi.
Proof. exact tree_order_irrelevant. Qed.
Print Assumptions C68_visits_canonical.

(* The tree is a heap by priority, so that its shape is that of a random order of insertion. *)
Theorem C68_heap_order : forall calls t, insert_all Leaf calls = Some t -> heap t.
Proof. exact tree_heap. Qed.
Print Assumptions C68_heap_order.

Definition some_calls : list (Z * Z * Z) :=
  [((1, 9), 5); ((3, 4), 2); ((0, 2), 7); ((3, 8), 1); ((3, 4), 0); ((4, 4), 3)].

Example C68_visits_non_vacuous : exists t, insert_all Leaf some_calls = Some t /\
  visit_containing t 4 4 = [(1, 9); (3, 4); (3, 8); (4, 4)] /\
  visit_contained_in t 3 8 = [(3, 4); (3, 8); (4, 4)] /\
  match t with Node lo hi _ _ _ _ _ => (lo, hi) = (3, 8) | Leaf => False end.
Proof. eexists. repeat split; vm_compute; reflexivity. Qed.

(* However the literals of a variable were defined, rejecting one rejects all those inside it by
   unit propagation, and accepting one accepts all those around it. *)
Theorem C68_containment_propagates : forall events, (forall e, In e events -> proper e) ->
  exists s, define_all no_literals events = Some s /\
    (forall a b, defined events a -> defined events b -> inside a b ->
       rejects (l_edges s) b a /\ accepts (l_edges s) a b).
Proof. exact containment_complete. Qed.
Print Assumptions C68_containment_propagates.

(* Each clause is true, is about two literals that exist, and its parent is a range. *)
Theorem C68_containment_sound : forall events s c p, (forall e, In e events -> proper e) ->
  define_all no_literals events = Some s -> In (c, p) (l_edges s) ->
  true_clause (c, p) /\ c <> p /\ defined events c /\ defined events p /\ fst p < snd p.
Proof. exact containment_sound. Qed.
Print Assumptions C68_containment_sound.

(* No clause is written when another literal lies between its two ends. *)
Theorem C68_containment_economical : forall events e s s',
  (forall x, In x (events ++ [e]) -> proper x) ->
  define_all no_literals events = Some s -> define s e = Some s' ->
  exists new, l_edges s' = l_edges s ++ new /\ forall x, In x new -> immediate events x.
Proof. exact containment_economical. Qed.
Print Assumptions C68_containment_economical.

(* Two equalities, then ranges in an order in which some come between others, then an equality. *)
Definition some_events : list event :=
  [Equality 4 0; Equality 9 0; Range 1 9 5 (fun _ => 3); Range 3 5 2 (fun _ => 0);
   Range 3 8 7 (fun _ => 0); Equality 5 1].

Example C68_containment_non_vacuous :
  (forall e, In e some_events -> proper e) /\
  option_map l_edges (define_all no_literals some_events) =
  Some [((4, 4), (1, 9)); ((9, 9), (1, 9)); ((3, 5), (1, 9)); ((4, 4), (3, 5));
        ((3, 8), (1, 9)); ((3, 5), (3, 8)); ((5, 5), (3, 5))].
Proof.
  split.
  - intros e H. simpl in H.
    repeat (destruct H as [<-|H]; [simpl; lia || exact I|]). destruct H.
  - vm_compute. reflexivity.
Qed.
