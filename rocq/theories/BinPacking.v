(** BinPacking: gcs/constraints/bin_packing/bin_packing.cc. *)
From Coq Require Import ZArith List Bool Arith.
From Verif Require Import IntervalSet Vars State Epochs Engine Tracker Quiet Passes AllDifferent Knapsack.
Import ListNotations.
Local Open Scope Z_scope.

(** What each bin holds: exactly its load, or at most its capacity. bin_packing.hh:111-123. *)
Inductive bins : Type := Loads (loads : list var_id) | Capacities (capacities : list Z).

Definition bin_count (bs : bins) : nat := match bs with Loads loads => length loads | Capacities cs => length cs end.

(** BinPackingConsistency, and for generalised arc consistency BinPackingProofStrategy,
    bin_packing.hh:29 and 43. *)
Inductive packing_level : Type := BoundsOnly | PerBin (s : knapsack_strategy).

Definition size_of (sizes : list Z) (i : nat) : Z := nth i sizes 0.

(** can_be_b and can_be_notb, bin_packing.cc:191-196, 571-576 and 842-844. *)
Definition can_be (d : domains) (items : list var_id) (b i : nat) : bool := in_domain d (handle items i) (Z.of_nat b).
Definition can_be_not (d : domains) (items : list var_id) (b i : nat) : bool :=
  negb (match optional_single_value d (handle items i) with Some v => v =? Z.of_nat b | None => false end).

(** ** Bounds *)

(** The items that may or may not be in the bin, what those that have to be add up to, and
    what all that can be add up to: bin_packing.cc:974-990. *)
Definition still_possible (d : domains) (items : list var_id) (b : nat) : list nat :=
  filter (fun i => can_be_not d items b i && can_be d items b i) (seq 0 (length items)).
Definition bin_floor (d : domains) (items : list var_id) (sizes : list Z) (b : nat) : Z :=
  fold_left (fun sum i => if can_be_not d items b i then sum else sum + size_of sizes i) (seq 0 (length items)) 0.
Definition bin_ceiling (d : domains) (items : list var_id) (sizes : list Z) (b : nat) : Z :=
  fold_left (fun sum i => if negb (can_be_not d items b i) then sum + size_of sizes i else if negb (can_be d items b i) then sum else sum + size_of sizes i) (seq 0 (length items)) 0.

(** One turn of the loop of run_stage2, bin_packing.cc:968-1027. *)
Definition bound_bin (items : list var_id) (sizes : list Z) (bs : bins) (b : nat) (rest : prog) : prog :=
  Look (fun d =>
    let floor := bin_floor d items sizes b in
    let ceiling := bin_ceiling d items sizes b in
    let out i := LCond (cond_ne (handle items i) (Z.of_nat b)) in
    match bs with
    | Loads loads =>
        let load := handle loads b in
        let lo := lower_bound d load in
        let hi := upper_bound d load in
        let load_lo := if lo <? floor then floor else lo in
        let load_hi := if ceiling <? hi then ceiling else hi in
        infer_when (lo <? floor) (LCond (cond_ge load floor)) (infer_when (ceiling <? hi) (LCond (cond_lt load (ceiling + 1)))
          (sequence (still_possible d items b) (fun i more =>
             if load_hi <? floor + size_of sizes i then Infer (out i) more
             else if ceiling - size_of sizes i <? load_lo then Infer (LCond (cond_eq (handle items i) (Z.of_nat b))) more
             else more) rest))
    | Capacities capacities =>
        let capacity := nth b capacities 0 in
        infer_when (capacity <? floor) LFalse
          (sequence (still_possible d items b) (fun i => infer_when (capacity <? floor + size_of sizes i) (out i)) rest)
    end).

(** ** The static graph *)

(** per_bin_cap, bin_packing.cc:172-179. *)
Definition per_bin_cap (sizes : list Z) : Z := fold_left Z.add sizes 0.

(** build_fwd_dag, bin_packing.cc:185-219: the nodes of a layer. *)
Fixpoint bin_nodes (d : domains) (items : list var_id) (sizes : list Z) (b i : nat) : list Z :=
  match i with
  | O => [0]
  | S j => nodup Z.eq_dec (flat_map (fun w =>
             (if can_be_not d items b j then [w] else []) ++
             (if can_be d items b j && (w + size_of sizes j <=? per_bin_cap sizes) then [w + size_of sizes j] else [])) (bin_nodes d items sizes b j))
  end.

(** ** proof_strategy::Upfront *)

(** Where a node can come from: its predecessor, whether the item goes into the bin, and
    the node. bin_packing.cc:584-588. A layer is a list of these; a node is erased by
    erasing all that lead to it. The first layer has one node, and how it came there is
    not looked at. *)
Definition arrival : Type := Z * bool * Z.

Definition holds_at (xs : list Z) (w : Z) : bool := existsb (Z.eqb w) xs.

(** The forward pass, bin_packing.cc:590-625. *)
Fixpoint arrivals (d0 d : domains) (items : list var_id) (sizes : list Z) (upper : Z) (b i : nat) : list arrival :=
  match i with
  | O => [(0, false, 0)]
  | S j =>
      filter (fun e => snd e <=? upper)
        (filter (fun e => holds_at (bin_nodes d0 items sizes b i) (snd e))
          (flat_map (fun w => (if can_be_not d items b j then [(w, false, w)] else []) ++ (if can_be d items b j then [(w, true, w + size_of sizes j)] else []))
            (nodup Z.eq_dec (map snd (arrivals d0 d items sizes upper b j)))))
  end.

(** What is known of the bin's content, bin_packing.cc:594, 663-664 and 695. *)
Definition most (d : domains) (bs : bins) (b : nat) : Z :=
  match bs with Loads loads => upper_bound d (handle loads b) | Capacities cs => nth b cs 0 end.
Definition may_hold (d : domains) (bs : bins) (b : nat) (w : Z) : bool :=
  match bs with Loads loads => (lower_bound d (handle loads b) <=? w) && in_domain d (handle loads b) w | Capacities _ => true end.

(** The last layer, bin_packing.cc:658-714. *)
Definition ends (d0 d : domains) (items : list var_id) (sizes : list Z) (bs : bins) (b : nat) : list arrival :=
  filter (fun e => may_hold d bs b (snd e)) (arrivals d0 d items sizes (most d bs b) b (length items)).

(** The backward pass, bin_packing.cc:771-794: the [k]th layer from the end. *)
Fixpoint trimmed (d0 d : domains) (items : list var_id) (sizes : list Z) (bs : bins) (b k : nat) : list arrival :=
  match k with
  | O => ends d0 d items sizes bs b
  | S j => filter (fun e => holds_at (map (fun f => fst (fst f)) (trimmed d0 d items sizes bs b j)) (snd e)) (arrivals d0 d items sizes (most d bs b) b (length items - k))
  end.

(** What is inferred about the load, bin_packing.cc:728-742. *)
Definition load_literals (d : domains) (load : var_id) (sums : list Z) : list literal :=
  LCond (cond_ge load (lowest sums)) :: LCond (cond_lt load (highest sums + 1)) ::
  map (fun v => LCond (cond_ne load v))
    (filter (fun v => (lowest sums <? v) && (v <? highest sums + 1) && negb (holds_at sums v)) (each_value d load)).

(** propagate_bin, bin_packing.cc:563-802. [d0] is the initial state. Simplification: what is
    only for the proof, such as the cache of dead nodes, is left out. *)
Definition propagate_bin (d0 : domains) (items : list var_id) (sizes : list Z) (bs : bins) (b : nat) (rest : prog) : prog :=
  Look (fun d =>
    let finals := ends d0 d items sizes bs b in
    match finals with
    | [] => Infer LFalse rest
    | _ =>
        sequence (match bs with Loads loads => load_literals d (handle loads b) (map snd finals) | Capacities _ => [] end) Infer
          (sequence (seq 0 (length items)) (fun k =>
             let i := (length items - S k)%nat in
             infer_when (can_be d items b i && negb (existsb (fun e => snd (fst e)) (trimmed d0 d items sizes bs b k)))
               (LCond (cond_ne (handle items i) (Z.of_nat b)))) rest)
    end).

(** ** proof_strategy::PerCall *)

(** Stage3Scratch, bin_packing.cc:115-125: which nodes can be reached, from either side, and
    the flags this was computed from. A bitmap is given by the nodes that are in it. *)
Record swept := mk_swept { s_fwd : list (list Z); s_bwd : list (list Z); s_in : list bool; s_out : list bool; s_warm : bool }.

(** As prepare leaves it, bin_packing.cc:1128-1140. *)
Definition cold (n : nat) : swept := mk_swept (repeat [] (S n)) (repeat [] (S n)) (repeat false n) (repeat false n) false.

Definition flag (fs : list bool) (i : nat) : bool := nth i fs false.

(** One layer of recompute_forward, bin_packing.cc:861-874. *)
Definition next_layer (nodes : nat -> list Z) (sizes : list Z) (ins outs : list bool) (i : nat) (layer : list Z) : list Z :=
  filter (fun w => existsb (fun p => (flag outs i && (w =? p)) || (flag ins i && (w =? p + size_of sizes i))) layer) (nodes (S i)).

(** recompute_forward: [k] layers after the given one, which belongs to item [i]. *)
Fixpoint extend (nodes : nat -> list Z) (sizes : list Z) (ins outs : list bool) (i : nat) (layer : list Z) (k : nat) : list (list Z) :=
  match k with
  | O => []
  | S j => let next := next_layer nodes sizes ins outs i layer in next :: extend nodes sizes ins outs (S i) next j
  end.

(** One layer of recompute_backward, bin_packing.cc:881-894. *)
Definition earlier_layer (nodes : nat -> list Z) (sizes : list Z) (ins outs : list bool) (i : nat) (next : list Z) : list Z :=
  filter (fun p => (flag outs i && holds_at next p) || (flag ins i && holds_at next (p + size_of sizes i))) (nodes i).

(** recompute_backward: the [k] layers before those given. *)
Fixpoint retreat (nodes : nat -> list Z) (sizes : list Z) (ins outs : list bool) (k : nat) (layers : list (list Z)) : list (list Z) :=
  match k with
  | O => layers
  | S j => retreat nodes sizes ins outs j (earlier_layer nodes sizes ins outs j (hd [] layers) :: layers)
  end.

(** Whether the item can go into the bin on a path, bin_packing.cc:934-952. *)
Definition has_support (nodes : nat -> list Z) (sizes : list Z) (fwd bwd : list (list Z)) (i : nat) : bool :=
  existsb (fun p => holds_at (nth i fwd []) p && holds_at (nth i bwd []) p
                    && holds_at (nth (S i) fwd []) (p + size_of sizes i) && holds_at (nth (S i) bwd []) (p + size_of sizes i)) (nodes i).

Definition same_flag (x y : list bool) (i : nat) : bool := Bool.eqb (flag x i) (flag y i).

(** run_stage3_for_bin, bin_packing.cc:819-953: what is remembered, and the items that
    are kept out of the bin. *)
Definition sweep (nodes : nat -> list Z) (sizes : list Z) (n : nat) (ins outs : list bool) (s : swept) : swept * list nat :=
  let changed := filter (fun i => negb (same_flag ins (s_in s) i && same_flag outs (s_out s) i)) (seq 0 n) in
  let pruned fwd bwd := filter (fun i => flag ins i && negb (has_support nodes sizes fwd bwd i)) (seq 0 n) in
  if negb (s_warm s) then
    let fwd := [0] :: extend nodes sizes ins outs 0 [0] n in
    let bwd := retreat nodes sizes ins outs n [nth n fwd []] in
    (mk_swept fwd bwd ins outs true, pruned fwd bwd)
  else
    match changed with
    | [] => (s, [])
    | first :: _ =>
        let fwd := firstn (S first) (s_fwd s) ++ extend nodes sizes ins outs first (nth first (s_fwd s) []) (n - first) in
        let after := S (last changed first) in
        let bwd := if list_eq_dec Z.eq_dec (nth n fwd []) (nth n (s_fwd s) [])
                   then retreat nodes sizes ins outs after (skipn after (s_bwd s))
                   else retreat nodes sizes ins outs n [nth n fwd []] in
        (mk_swept fwd bwd ins outs true, pruned fwd bwd)
    end.

Definition ins_of (d : domains) (items : list var_id) (b : nat) : list bool := map (can_be d items b) (seq 0 (length items)).
Definition outs_of (d : domains) (items : list var_id) (b : nat) : list bool := map (can_be_not d items b) (seq 0 (length items)).

Definition sweep_at (d0 d : domains) (items : list var_id) (sizes : list Z) (b : nat) (s : swept) : swept * list nat :=
  sweep (bin_nodes d0 items sizes b) sizes (length items) (ins_of d items b) (outs_of d items b) s.

(** The sweep in the propagator. Simplification: each one starts afresh; that this makes no
    difference is shown for [sweep]. *)
Definition sweep_bin (d0 : domains) (items : list var_id) (sizes : list Z) (b : nat) (rest : prog) : prog :=
  Look (fun d => sequence (snd (sweep_at d0 d items sizes b (cold (length items)))) (fun i => Infer (LCond (cond_ne (handle items i) (Z.of_nat b)))) rest).

(** ** The constraint *)

(** The propagator, bin_packing.cc:1241-1260. *)
Definition packing_pass (d0 : domains) (level : packing_level) (items : list var_id) (sizes : list Z) (bs : bins) : prog :=
  sequence (seq 0 (bin_count bs)) (bound_bin items sizes bs)
    (match level with
     | BoundsOnly => Stop
     | PerBin Upfront => sequence (seq 0 (bin_count bs)) (propagate_bin d0 items sizes bs) Stop
     | PerBin PerCall => sequence (seq 0 (bin_count bs)) (sweep_bin d0 items sizes) Stop
     end).

(** The exceptions thrown by prepare that do not depend on the domains,
    bin_packing.cc:1079-1088 and 1103-1106. *)
Definition packing_refused (items : list var_id) (sizes : list Z) (bs : bins) : bool :=
  negb (Nat.eqb (length items) (length sizes)) || existsb (fun s => s <? 0) sizes || Nat.eqb (bin_count bs) 0
  || match bs with Loads _ => false | Capacities cs => existsb (fun c => c <? 0) cs end.

(** BinPacking, bin_packing.cc:1046-1054, 1077-1149 and 1188-1261. Simplification: prepare
    throws if an item can be in a bin that does not exist or a load can be negative (lines
    1090-1102); the model goes on. *)
Definition bin_packing (level : packing_level) (items : list var_id) (sizes : list Z) (bs : bins) : option constraint :=
  if packing_refused items sizes bs then None
  else Some (fun d0 => ([body_propagator (once (packing_pass d0 level items sizes bs)) items (match bs with Loads loads => loads | Capacities _ => [] end) []], [])).
