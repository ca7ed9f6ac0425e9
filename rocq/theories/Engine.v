(** The propagation engine.

    Models gcs/innards/propagators.cc: installing propagators, waking them, the
    ready queue, idempotence claims, disabling, condition watches and the
    undo actions registered for backtracking, together with the part of
    gcs/innards/inference_tracker.hh that records changes.

    Simplifications: a propagation function is a pure function from what it can
    read to what it does. Everything to do with proofs, reasons, statistics and
    conflict observers is left out. Propagators are not grouped by constraint.
    The order in which a propagation function interleaves its inferences with
    edits to its watches is not kept, since neither can see the other. *)
From Coq Require Import ZArith List Bool Arith.
From Verif Require Import IntervalSet Vars State StateSpec Epochs.
Import ListNotations.

(** ** Propagators *)

(** gcs/innards/propagators-fwd.hh: PropagatorState. *)
Inductive prop_state : Type := Enable | EnableButIdempotent | DisableUntilBacktrack.

(** What a propagation function asks of its RefinedWatchContext
    (gcs/innards/propagators.cc:301-365): add_refined_watch,
    clear_refined_watches, watch_state_set. *)
Inductive watch_request : Type :=
| ReqWatch (l : literal) (payload : nat)
| ReqClear
| ReqSet (key : nat) (value : Z).

(** What a propagation function can read: the domains, the constraint states,
    data of its own that is not undone on backtracking, the payloads of its
    watches that fired, its backtrackable scratch values, and is_watching. *)
Record prop_in : Type := mk_in
  { i_domains : domains;
    i_cstates : list cstate;
    i_memo : list Z;
    i_fired : list nat;
    i_scratch : list Z;
    i_watching : var_id -> bool }.

(** What it does: the literals it infers, in order; its result; the constraint
    states and private data it leaves; and its edits to its watches. A false
    literal is how it calls contradiction() (gcs/innards/inference_tracker.hh). *)
Record prop_out : Type := mk_out
  { o_infer : list literal;
    o_result : prop_state;
    o_cstates : list cstate;
    o_memo : list Z;
    o_edits : list watch_request }.

(** gcs/innards/propagators.hh: Triggers, with the propagation function. *)
Record propagator : Type := mk_propagator
  { p_run : prop_in -> prop_out;
    p_on_change : list var_id;
    p_on_bounds : list var_id;
    p_on_instantiated : list var_id;
    p_scope_only : list var_id;
    p_refined : list (literal * nat) }.

(** The mask of each kind of trigger, gcs/innards/propagators.cc:970-1015. *)
Inductive trigger : Type := OnChange | OnBounds | OnInstantiated.

Definition mask_has (t : trigger) (i : inference) : bool :=
  match t, i with
  | OnChange, (InteriorValuesChanged | BoundsChanged | Instantiated) => true
  | OnBounds, (BoundsChanged | Instantiated) => true
  | OnInstantiated, Instantiated => true
  | _, _ => false
  end.

Definition underlying_list (vs : list var_id) : list nat :=
  flat_map (fun v => match underlying v with Some n => [n] | None => [] end) vs.

(** The (variable, mask) pairs in the order they are wired,
    gcs/innards/propagators.cc:511-517. *)
Definition wiring (p : propagator) : list (nat * trigger) :=
  map (fun n => (n, OnChange)) (underlying_list (p_on_change p)) ++
  map (fun n => (n, OnBounds)) (underlying_list (p_on_bounds p)) ++
  map (fun n => (n, OnInstantiated)) (underlying_list (p_on_instantiated p)).

(** position_underlying, gcs/innards/propagators.cc:455-473. *)
Definition positions (p : propagator) : list nat :=
  underlying_list (p_on_change p) ++ underlying_list (p_on_bounds p) ++
  underlying_list (p_on_instantiated p) ++ underlying_list (p_scope_only p).

Fixpoint mem_nat (n : nat) (l : list nat) : bool :=
  match l with [] => false | x :: r => Nat.eqb n x || mem_nat n r end.

(** sort then adjacent_find, gcs/innards/propagators.cc:507-508. *)
Fixpoint has_duplicate (l : list nat) : bool :=
  match l with [] => false | x :: r => mem_nat x r || has_duplicate r end.

(** idempotence_claims_ignored. *)
Definition claims_ignored (p : propagator) : bool := has_duplicate (positions p).

(** propagator_scope, gcs/innards/propagators.cc:435-476: distinct, in order of
    first mention. *)
Fixpoint add_new (seen l : list nat) : list nat :=
  match l with
  | [] => seen
  | x :: r => if mem_nat x seen then add_new seen r else add_new (seen ++ [x]) r
  end.

Definition lit_underlying_list (l : literal) : list nat :=
  match lit_underlying l with Some n => [n] | None => [] end.

Definition scope (p : propagator) : list nat :=
  add_new [] (positions p ++ flat_map (fun r => lit_underlying_list (fst r)) (p_refined p)).

(** degree_of, gcs/innards/propagators.cc:500-501 and 1018-1041. *)
Definition degree (ps : list propagator) (n : nat) : nat :=
  length (filter (fun p => mem_nat n (scope p)) ps).

Definition nil_propagator : propagator :=
  mk_propagator (fun i => mk_out [] Enable (i_cstates i) (i_memo i) []) [] [] [] [] [].

(** ** The ready queue *)

(** queue, lookup, enqueued_begin, enqueued_end and idle_end,
    gcs/innards/propagators.cc:161-200. [0,begin) have run this round,
    [begin,end) are waiting, [end,idle) are idle and [idle,..) are disabled. *)
Record pq : Type := mk_pq
  { q_queue : list nat; q_lookup : list nat; q_begin : nat; q_end : nat; q_idle : nat }.

(** std::swap of two elements. *)
Definition swap_nth (l : list nat) (i j : nat) : list nat :=
  set_nth (set_nth l i (nth j l 0)) j (nth i l 0).

(** gcs/innards/propagators.cc:616-623. *)
Definition enqueue_if_idle (q : pq) (p : nat) : pq :=
  let lp := nth p (q_lookup q) 0 in
  if Nat.leb (q_end q) lp && Nat.ltb lp (q_idle q) then
    let being := nth (q_end q) (q_queue q) 0 in
    mk_pq (swap_nth (q_queue q) lp (q_end q)) (swap_nth (q_lookup q) p being)
          (q_begin q) (S (q_end q)) (q_idle q)
  else q.

Definition enqueue_all (ps : list nat) (q : pq) : pq := fold_left enqueue_if_idle ps q.

(** gcs/innards/propagators.cc:795-801. *)
Definition disable_one (q : pq) (p : nat) : pq :=
  let idle := Nat.pred (q_idle q) in
  let being := nth idle (q_queue q) 0 in
  mk_pq (swap_nth (q_queue q) (nth p (q_lookup q) 0) idle) (swap_nth (q_lookup q) p being)
        (q_begin q) (q_end q) idle.

Definition rewind (q : pq) : pq := mk_pq (q_queue q) (q_lookup q) 0 0 (q_idle q).

(** The lookup table built alongside a queue: lookup[queue[i]] = i. *)
Fixpoint write_lookup (i : nat) (queue lookup : list nat) : list nat :=
  match queue with
  | [] => lookup
  | p :: r => write_lookup (S i) r (set_nth lookup p i)
  end.

(** gcs/innards/propagators.cc:720-749, for [n] propagators. *)
Definition rebuild (n : nat) (disabled : nat -> bool) : pq :=
  let enabled := filter (fun p => negb (disabled p)) (seq 0 n) in
  let queue := enabled ++ filter disabled (seq 0 n) in
  mk_pq queue (write_lookup 0 queue (repeat 0 n)) 0 (length enabled) (length enabled).

(** ** Condition watches *)

(** RefinedWatch; the trigger mask is computed from the literal. *)
Record watch : Type := mk_watch { w_lit : literal; w_payload : nat; w_owner : nat; w_id : nat }.

(** refined_watch_trigger_mask, gcs/innards/propagators.cc:132-158. *)
Definition watch_mask_has (l : literal) (i : inference) : bool :=
  match l with
  | LCond c =>
      match c_op c with
      | OpEqual => mask_has OnInstantiated i
      | OpGreaterEqual | OpLess | OpInRange => mask_has OnBounds i
      | OpNotEqual | OpNotInRange => mask_has OnChange i
      end
  | _ => mask_has OnChange i
  end.

(** WatchEdit: [true] for Added, [false] for Removed. *)
Record watch_edit : Type := mk_edit { ed_added : bool; ed_var : nat; ed_watch : watch }.

(** refined_watches_by_var, next_refined_watch_id, refined_watch_edit_trail,
    watch_state_by_propagator, watch_state_trail, inbox_by_propagator, and the
    data private to each propagation function. Both trails are newest first. *)
Record wpart : Type := mk_wpart
  { wp_watches : list (list watch);
    wp_next : nat;
    wp_trail : list watch_edit;
    wp_scratch : list (list Z);
    wp_strail : list (nat * nat * Z);
    wp_inbox : list (list nat);
    wp_memo : list (list Z) }.

(** vector::resize if too short, then assign. *)
Fixpoint set_ext {X : Type} (def : X) (l : list X) (n : nat) (x : X) : list X :=
  match n, l with
  | O, [] => [x]
  | O, _ :: r => x :: r
  | S n', [] => def :: set_ext def [] n' x
  | S n', y :: r => y :: set_ext def r n' x
  end.

Definition watches_on (w : wpart) (v : nat) : list watch := nth v (wp_watches w) [].

(** watches[i] = watches.back(); watches.pop_back(). *)
Definition swap_remove (ws : list watch) (i : nat) : list watch :=
  match rev ws with
  | [] => []
  | b :: _ => removelast (set_nth ws i b)
  end.

(** gcs/innards/propagators.cc:311-322. *)
Definition register_watch (owner : nat) (l : literal) (payload : nat) (trailed : bool) (w : wpart) : wpart :=
  match lit_underlying l with
  | None => w
  | Some v =>
      let x := mk_watch l payload owner (wp_next w) in
      mk_wpart (set_ext [] (wp_watches w) v (watches_on w v ++ [x])) (S (wp_next w))
               (if trailed then mk_edit true v x :: wp_trail w else wp_trail w)
               (wp_scratch w) (wp_strail w) (wp_inbox w) (wp_memo w)
  end.

(** gcs/innards/propagators.cc:329-338. *)
Definition is_watching (w : wpart) (owner : nat) (x : var_id) : bool :=
  match underlying x with
  | None => false
  | Some v => existsb (fun y => Nat.eqb (w_owner y) owner) (watches_on w v)
  end.

(** The loops of gcs/innards/propagators.cc:640-654 and 353-363: walk the list by
    index, removing each watch that satisfies [f] by swapping the last into its
    place. Returns the remaining list and the removed watches, oldest first. The
    fuel is the number of watches not yet looked at. *)
Fixpoint sweep (f : watch -> bool) (fuel : nat) (i : nat) (ws : list watch) : list watch * list watch :=
  match fuel with
  | O => (ws, [])
  | S k =>
      match nth_error ws i with
      | None => (ws, [])
      | Some x =>
          if f x then let '(ws', gone) := sweep f k i (swap_remove ws i) in (ws', x :: gone)
          else sweep f k (S i) ws
      end
  end.

Definition removed_edits (v : nat) (gone : list watch) : list watch_edit :=
  map (fun x => mk_edit false v x) (rev gone).

(** gcs/innards/propagators.cc:340-365. *)
Definition clear_watches_on (owner : nat) (w : wpart) (v : nat) : wpart :=
  let ws := watches_on w v in
  let '(ws', gone) := sweep (fun x => Nat.eqb (w_owner x) owner) (length ws) 0 ws in
  mk_wpart (if Nat.ltb v (length (wp_watches w)) then set_nth (wp_watches w) v ws' else wp_watches w)
           (wp_next w) (removed_edits v gone ++ wp_trail w)
           (wp_scratch w) (wp_strail w) (wp_inbox w) (wp_memo w).

Definition clear_watches (owner : nat) (sc : list nat) (w : wpart) : wpart :=
  fold_left (clear_watches_on owner) sc w.

(** gcs/innards/propagators.cc:292-309. *)
Definition scratch_get (w : wpart) (owner key : nat) : Z := nth key (nth owner (wp_scratch w) []) 0%Z.

Definition scratch_set (owner key : nat) (value : Z) (w : wpart) : wpart :=
  mk_wpart (wp_watches w) (wp_next w) (wp_trail w)
           (set_ext [] (wp_scratch w) owner (set_ext 0%Z (nth owner (wp_scratch w) []) key value))
           ((owner, key, scratch_get w owner key) :: wp_strail w) (wp_inbox w) (wp_memo w).

(** The watch half of requeue, gcs/innards/propagators.cc:637-655: the owners of
    the watches that fired, in order, and the engine without them. *)
Definition deliver (inbox : list (list nat)) (x : watch) : list (list nat) :=
  set_ext [] inbox (w_owner x) (nth (w_owner x) inbox [] ++ [w_payload x]).

Definition fire_watches (d : domains) (v : nat) (i : inference) (w : wpart) : list nat * wpart :=
  let ws := watches_on w v in
  let fires x := watch_mask_has (w_lit x) i &&
                 match test_literal d (w_lit x) with DefinitelyTrue => true | _ => false end in
  let '(ws', gone) := sweep fires (length ws) 0 ws in
  (map w_owner gone,
   mk_wpart (if Nat.ltb v (length (wp_watches w)) then set_nth (wp_watches w) v ws' else wp_watches w)
            (wp_next w) (removed_edits v gone ++ wp_trail w)
            (wp_scratch w) (wp_strail w) (fold_left deliver gone (wp_inbox w)) (wp_memo w)).

(** The trail replay registered for backtracking, gcs/innards/propagators.cc:694-718. *)
Fixpoint find_id (id : nat) (i : nat) (ws : list watch) : option nat :=
  match ws with
  | [] => None
  | x :: r => if Nat.eqb (w_id x) id then Some i else find_id id (S i) r
  end.

Definition undo_edit (watches : list (list watch)) (e : watch_edit) : list (list watch) :=
  let ws := nth (ed_var e) watches [] in
  let ws' := if ed_added e then
               match find_id (w_id (ed_watch e)) 0 ws with
               | Some i => swap_remove ws i
               | None => ws
               end
             else ws ++ [ed_watch e] in
  set_nth watches (ed_var e) ws'.

Definition undo_scratch (scratch : list (list Z)) (e : nat * nat * Z) : list (list Z) :=
  let '(owner, key, old) := e in set_nth scratch owner (set_nth (nth owner scratch []) key old).

Definition undo_trails (n m : nat) (w : wpart) : wpart :=
  let k := length (wp_trail w) - n in
  let j := length (wp_strail w) - m in
  mk_wpart (fold_left undo_edit (firstn k (wp_trail w)) (wp_watches w)) (wp_next w) (skipn k (wp_trail w))
           (fold_left undo_scratch (firstn j (wp_strail w)) (wp_scratch w)) (skipn j (wp_strail w))
           (wp_inbox w) (wp_memo w).

(** ** The engine *)

(** [e_loads] counts how often the abort flag has been read; it is not in the
    program, where the flag may change at any time. *)
Record engine : Type := mk_engine { e_pq : pq; e_watch : wpart; e_loads : nat }.

(** The two callbacks propagate() registers with State::on_backtrack. *)
Inductive undo : Type := UndoTrails (n m : nat) | UndoIdle (n : nat).

Definition run_undo (e : engine) (u : undo) : engine :=
  match u with
  | UndoTrails n m => mk_engine (e_pq e) (undo_trails n m (e_watch e)) (e_loads e)
  | UndoIdle n =>
      mk_engine (mk_pq (q_queue (e_pq e)) (q_lookup (e_pq e)) (q_begin (e_pq e)) (q_end (e_pq e)) n)
                (e_watch e) (e_loads e)
  end.

Definition estate : Type := state undo.

(** The changes recorded by a tracker: record_firing_inference,
    gcs/innards/inference_tracker.hh:140-158. *)
Definition event : Type := (nat * inference)%type.

(** Apply the inferences of one run in order. A contradiction ends the run, by an
    exception or by the contradicted flag. *)
Fixpoint apply_lits (d : domains) (ls : list literal) : domains * list event * bool :=
  match ls with
  | [] => (d, [], false)
  | l :: r =>
      let '(i, d') := infer d l in
      match i with
      | Contradiction => (d', [], true)
      | NoChange => apply_lits d' r
      | _ =>
          let '(d2, evs, bad) := apply_lits d' r in
          (d2, match lit_underlying l with Some v => (v, i) :: evs | None => evs end, bad)
      end
  end.

(** One call of propagate(): the engine, the state, the changes recorded since
    the last round boundary (oldest first), the idempotence claims (end index and
    claimant, oldest first) and the propagators to disable. *)
Record loop : Type := mk_loop
  { l_engine : engine;
    l_state : estate;
    l_events : list event;
    l_claims : list (nat * nat);
    l_disable : list nat }.

Section Propagate.

(** The installed propagators, those disabled for good, and the abort flag as
    seen by each successive read. *)
Variable props : list propagator.
Variable disabled : nat -> bool.
Variable abort : nat -> bool.

Definition the_prop (p : nat) : propagator := nth p props nil_propagator.

(** iv_triggers[v] restricted to masks containing the event; in installation
    order. *)
Definition woken_by (v : nat) (i : inference) (p : nat) : list nat :=
  flat_map (fun t => if Nat.eqb (fst t) v && mask_has (snd t) i then [p] else []) (wiring (the_prop p)).

Definition coarse_woken (v : nat) (i : inference) : list nat :=
  flat_map (woken_by v i) (seq 0 (length props)).

(** requeue, gcs/innards/propagators.cc:625-656. *)
Definition requeue (d : domains) (e : engine) (ev : event) : engine :=
  let '(v, i) := ev in
  let '(owners, w) := fire_watches d v i (e_watch e) in
  mk_engine (enqueue_all (coarse_woken v i ++ owners) (e_pq e)) w (e_loads e).

(** gcs/innards/propagators.cc:827-843: un-protect the claims whose run ended at
    or before this change. *)
Fixpoint unprotect (index : nat) (prot : list nat) (claims : list (nat * nat)) : list nat * list (nat * nat) :=
  match claims with
  | [] => (prot, [])
  | (k, p) :: r =>
      if Nat.leb k index then unprotect index (filter (fun x => negb (Nat.eqb x p)) prot) r
      else (prot, claims)
  end.

Fixpoint replay (index : nat) (prot : list nat) (claims : list (nat * nat)) (evs : list event) (q : pq) : pq :=
  match evs with
  | [] => q
  | (v, i) :: r =>
      let '(prot', claims') := unprotect index prot claims in
      replay (S index) prot' claims' r
             (enqueue_all (filter (fun p => negb (mem_nat p prot')) (coarse_woken v i)) q)
  end.

(** gcs/innards/propagators.cc:786-845. *)
Definition boundary (l : loop) : loop :=
  let e := l_engine l in
  let q := e_pq e in
  if Nat.eqb (q_begin q) (q_end q) then
    let q' := rewind (fold_left disable_one (l_disable l) q) in
    let e' := mk_engine q' (e_watch e) (e_loads e) in
    let e'' :=
      match l_claims l with
      | [] => fold_left (requeue (current (l_state l))) (l_events l) e'
      | cs => mk_engine (replay 0 (map snd cs) cs (l_events l) q') (e_watch e) (e_loads e)
      end in
    mk_loop e'' (l_state l) [] [] []
  else l.

Definition request (p : nat) (w : wpart) (r : watch_request) : wpart :=
  match r with
  | ReqWatch l payload => register_watch p l payload true w
  | ReqClear => clear_watches p (scope (the_prop p)) w
  | ReqSet key value => scratch_set p key value w
  end.

Definition input_for (p : nat) (st : estate) (w : wpart) : prop_in :=
  mk_in (current st) (top (st_cstates st)) (nth p (wp_memo w) []) (nth p (wp_inbox w) [])
        (nth p (wp_scratch w) []) (is_watching w p).

Definition with_cstates (st : estate) (cs : list cstate) : estate :=
  mk_state (st_domains st) (set_top (st_cstates st) cs) (st_callbacks st) (st_guesses st).

(** The edits of one run; then its inbox is cleared,
    gcs/innards/propagators.cc:863-868. *)
Definition after_run (p : nat) (o : prop_out) (w : wpart) : wpart :=
  let w' := fold_left (request p) (o_edits o) w in
  mk_wpart (wp_watches w') (wp_next w') (wp_trail w') (wp_scratch w') (wp_strail w')
           (set_ext [] (wp_inbox w') p []) (set_ext [] (wp_memo w') p (o_memo o)).

(** Run propagator [p], gcs/innards/propagators.cc:860-923. The boolean is the
    contradiction flag. *)
Definition run_prop (p : nat) (l : loop) : loop * bool :=
  let e := l_engine l in
  let st := l_state l in
  let o := p_run (the_prop p) (input_for p st (e_watch e)) in
  let '(d, evs, bad) := apply_lits (current st) (o_infer o) in
  let events := l_events l ++ evs in
  let e' := mk_engine (e_pq e) (after_run p o (e_watch e)) (e_loads e) in
  let st' := with_cstates (with_domains st d) (o_cstates o) in
  if bad then (mk_loop e' st' events (l_claims l) (l_disable l), true)
  else
    let claims :=
      match o_result o with
      | EnableButIdempotent =>
          if claims_ignored (the_prop p) then l_claims l
          else if Nat.eqb (length events) 0 then l_claims l
          else l_claims l ++ [(length events, p)]
      | _ => l_claims l
      end in
    let dis := match o_result o with DisableUntilBacktrack => l_disable l ++ [p] | _ => l_disable l end in
    (mk_loop e' st' events claims dis, false).

(** One iteration of the main loop, gcs/innards/propagators.cc:785-927:
    [inl] continues, [inr] leaves the loop with the contradiction flag. *)
Definition iterate (l0 : loop) : loop + loop * bool :=
  let l := boundary l0 in
  let q := e_pq (l_engine l) in
  if Nat.eqb (q_begin q) (q_end q) then inr (l, false)
  else
    let p := nth (q_begin q) (q_queue q) 0 in
    let q' := mk_pq (q_queue q) (q_lookup q) (S (q_begin q)) (q_end q) (q_idle q) in
    let l1 := mk_loop (mk_engine q' (e_watch (l_engine l)) (e_loads (l_engine l)))
                      (l_state l) (l_events l) (l_claims l) (l_disable l) in
    if disabled p then inl l1
    else
      let '(l2, bad) := run_prop p l1 in
      if bad then inr (l2, true)
      else
        let e := l_engine l2 in
        let l3 := mk_loop (mk_engine (e_pq e) (e_watch e) (S (e_loads e)))
                          (l_state l2) (l_events l2) (l_claims l2) (l_disable l2) in
        if abort (e_loads e) then inr (l3, false) else inl l3.

Fixpoint run_loop (fuel : nat) (l : loop) : option (loop * bool) :=
  match fuel with
  | O => None
  | S k => match iterate l with inl l' => run_loop k l' | inr r => Some r end
  end.

(** The changes a guess stands for, gcs/innards/propagators.cc:750-775. *)
Definition guess_events (guesses : list literal) : list event :=
  flat_map (fun l => match lit_underlying l with Some v => [(v, Instantiated)] | None => [] end) guesses.

(** gcs/innards/propagators.cc:678-778: everything before the main loop. *)
Definition start (guesses : list literal) (e : engine) (st : estate) : engine * estate :=
  let w := e_watch e in
  let st1 := on_backtrack st (UndoTrails (length (wp_trail w)) (length (wp_strail w))) in
  let e1 :=
    match guesses with
    | [] => mk_engine (rebuild (length props) disabled) w (e_loads e)
    | _ => fold_left (requeue (current st)) (guess_events guesses)
                     (mk_engine (rewind (e_pq e)) w (e_loads e))
    end in
  (e1, on_backtrack st1 (UndoIdle (q_idle (e_pq e1)))).

(** gcs/innards/propagators.cc:929-936: drop what was left undelivered. *)
Definition drop_inboxes (w : wpart) : wpart :=
  mk_wpart (wp_watches w) (wp_next w) (wp_trail w) (wp_scratch w) (wp_strail w)
           (map (fun _ => []) (wp_inbox w)) (wp_memo w).

(** gcs/innards/propagators.cc:593-947. [None] means the fuel was not enough;
    otherwise the boolean is the value returned. *)
Definition propagate (fuel : nat) (guesses : list literal) (e : engine) (st : estate) : option (bool * engine * estate) :=
  let '(e1, st1) := start guesses e st in
  match run_loop fuel (mk_loop e1 st1 [] [] []) with
  | None => None
  | Some (l, bad) =>
      let e2 := l_engine l in
      Some (negb bad, mk_engine (e_pq e2) (drop_inboxes (e_watch e2)) (e_loads e2), l_state l)
  end.

(** The engine once every propagator has been installed: their install-time
    watches are registered untrailed, gcs/innards/propagators.cc:518-519. The
    queue is empty until the first call of propagate(). *)
Definition empty_wpart : wpart := mk_wpart [] 0 [] [] [] [] [].

Definition install_watches (w : wpart) (p : nat) : wpart :=
  fold_left (fun w r => register_watch p (fst r) (snd r) false w) (p_refined (the_prop p)) w.

Definition installed_engine : engine :=
  mk_engine (mk_pq [] [] 0 0 0) (fold_left install_watches (seq 0 (length props)) empty_wpart) 0.

End Propagate.
