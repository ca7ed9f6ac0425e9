(** Knapsack: gcs/constraints/knapsack/knapsack.cc and knapsack_upfront.cc. *)
From Coq Require Import ZArith List Bool Arith.
From Verif Require Import IntervalSet Vars State Epochs Engine Tracker Quiet Passes AllDifferent.
Import ListNotations.
Local Open Scope Z_scope.

(** KnapsackProofStrategy, knapsack.hh:30. *)
Inductive knapsack_strategy : Type := PerCall | Upfront.

(** A node of a layer: how much each row adds up to, and where that can come from, with
    the value that leads here. knapsack.cc:117-123 and knapsack_upfront.cc:526-530. *)
Definition node : Type := list Z * list (list Z * Z).

Definition same_sums (s t : list Z) : bool := if list_eq_dec Z.eq_dec s t then true else false.

(** The coefficient of an item in a row. *)
Definition weight (rows : list (list Z)) (x i : nat) : Z := nth i (nth x rows []) 0.

(** The sums after giving item [i] the value [val], knapsack.cc:168-170 and
    knapsack_upfront.cc:592-593. *)
Definition advance (rows : list (list Z)) (i : nat) (sums : list Z) (val : Z) : list Z :=
  map (fun x => nth x sums 0 + val * weight rows x i) (seq 0 (length rows)).

(** A sum is already too large, knapsack.cc:176-184 and
    336-342, and knapsack_upfront.cc:610-616 and 624-629. *)
Definition exceeds (committed caps sums : list Z) : bool :=
  existsb (fun x => nth x caps 0 <? nth x committed 0 + nth x sums 0) (seq 0 (length caps)).

(** emplace, if it is not there yet, and then predecessors.emplace_back:
    knapsack.cc:173-174 and knapsack_upfront.cc:598-601. Simplification: std::map is
    ordered by the sums; here nodes stay where they were put. *)
Fixpoint enter (sums from : list Z) (val : Z) (nodes : list node) : list node :=
  match nodes with
  | [] => [(sums, [(from, val)])]
  | (s, preds) :: more => if same_sums s sums then (s, preds ++ [(from, val)]) :: more else (s, preds) :: enter sums from val more
  end.

(** Every choice of a value, from each node of the layer before: where from, which value,
    and where to. [known] is whether the static graph has the node, for
    proof_strategy::Upfront, knapsack_upfront.cc:595-596. *)
Definition choices (rows : list (list Z)) (known : list Z -> bool) (i : nat) (values : list Z) (before : list node) : list (list Z * Z * list Z) :=
  filter (fun e => known (snd e)) (flat_map (fun n => map (fun v => (fst n, v, advance rows i (fst n) v)) values) before).

Definition grow (es : list (list Z * Z * list Z)) : list node :=
  fold_left (fun nodes e => enter (snd e) (fst (fst e)) (snd (fst e)) nodes) es [].

(** Removing the values that are not in the list, knapsack.cc:355-369 and 517-521, and
    knapsack_upfront.cc:673-676 and 823-826. *)
Definition keep_supported (d : domains) (v : var_id) (supported : list Z) (rest : prog) : prog :=
  sequence (each_value d v) (fun x => infer_when (negb (existsb (Z.eqb x) supported)) (LCond (cond_ne v x))) rest.

(** The forward pass over the given items, knapsack.cc:131-372 and
    knapsack_upfront.cc:587-679. The layers so far come latest first. [caps] are the upper
    bounds of the totals: read once for proof_strategy::PerCall, and each time for
    proof_strategy::Upfront. Simplification: what is only for the proof is left out. *)
Fixpoint forward (rows : list (list Z)) (committed : list Z) (caps : domains -> list Z) (known : nat -> list Z -> bool) (vars : list var_id)
    (items : list nat) (layers : list (list node)) (rest : list (list node) -> prog) : prog :=
  match items with
  | [] => rest layers
  | i :: more => Look (fun d =>
      let es := choices rows (known i) i (each_value d (handle vars i)) (hd [] layers) in
      let supported := map (fun e => snd (fst e)) (filter (fun e => negb (exceeds committed (caps d) (snd e))) es) in
      let layer := filter (fun n => negb (exceeds committed (caps d) (fst n))) (grow es) in
      keep_supported d (handle vars i) supported (forward rows committed caps known vars more (layer :: layers) rest))
  end.

(** The backward pass, knapsack.cc:492-522 and knapsack_upfront.cc:798-827, over the items
    and the layers, both latest first. *)
Fixpoint backward (vars : list var_id) (items : list nat) (layers : list (list node)) : prog :=
  match items, layers with
  | i :: more, layer :: before :: earlier =>
      let preds := flat_map snd layer in
      let reached := filter (fun n => existsb (same_sums (fst n)) (map fst preds)) before in
      Look (fun d => keep_supported d (handle vars i) (map snd preds) (backward vars more (reached :: earlier)))
  | _, _ => Stop
  end.

(** std::ranges::minmax_element, on one of the sums. *)
Definition lowest (xs : list Z) : Z := fold_right Z.min (hd 0 xs) xs.
Definition highest (xs : list Z) : Z := fold_right Z.max (hd 0 xs) xs.

(** What is inferred about a total, from the final nodes: knapsack.cc:440-460 and
    knapsack_upfront.cc:756-773. (The latter starts from the value after the lowest, which
    comes to the same.) *)
Definition total_literals (committed : list Z) (totals : list var_id) (finals : list node) (d : domains) (x : nat) : list literal :=
  let t := handle totals x in
  let sums := map (fun n => nth x committed 0 + nth x (fst n) 0) finals in
  LCond (cond_ge t (lowest sums)) :: LCond (cond_lt t (highest sums + 1)) ::
  map (fun v => LCond (cond_ne t v))
    (filter (fun v => (lowest sums <=? v) && (v <? highest sums + 1) && negb (existsb (Z.eqb v) sums)) (each_value d t)).

(** Final nodes with a sum that is too small, knapsack.cc:375-398 and
    knapsack_upfront.cc:686-719. *)
Definition falls_short (committed floors sums : list Z) : bool :=
  existsb (fun x => nth x committed 0 + nth x sums 0 <? nth x floors 0) (seq 0 (length floors)).

(** Final nodes with a sum the total cannot be, knapsack.cc:401-429 and
    knapsack_upfront.cc:724-745. *)
Definition not_a_total (d : domains) (totals : list var_id) (committed sums : list Z) : bool :=
  existsb (fun x => negb (in_domain d (handle totals x) (nth x committed 0 + nth x sums 0))) (seq 0 (length totals)).

(** What happens after the forward pass, knapsack.cc:373-523 and
    knapsack_upfront.cc:681-827. *)
Definition finish (committed : list Z) (floors : domains -> list Z) (vars totals : list var_id) (items : list nat) (layers : list (list node)) : prog :=
  Look (fun d =>
    let finals := filter (fun n => negb (not_a_total d totals committed (fst n)))
                    (filter (fun n => negb (falls_short committed (floors d) (fst n))) (hd [] layers)) in
    match finals with
    | [] => Infer LFalse Stop
    | _ => sequence (flat_map (total_literals committed totals finals d) (seq 0 (length totals))) Infer
             (backward vars (rev items) (finals :: tl layers))
    end).

(** Nothing has been chosen yet, knapsack.cc:125-127 and knapsack_upfront.cc:582-583. *)
Definition first_layer (totals : list var_id) : list node := [(repeat 0 (length totals), [])].

(** knapsack_gac, knapsack.cc:104-524, and reading the bounds before it is called, lines
    554-556. *)
Definition per_call_gac (rows : list (list Z)) (vars totals : list var_id) (committed : list Z) (undetermined : list nat) : prog :=
  Look (fun d =>
    forward rows committed (fun _ => map (upper_bound d) totals) (fun _ _ => true) vars undetermined [first_layer totals]
      (finish committed (fun _ => map (lower_bound d) totals) vars totals undetermined)).

(** The items that do not have a single value yet, knapsack.cc:530-535. *)
Definition undetermined_items (d : domains) (vars : list var_id) : list nat :=
  filter (fun i => match optional_single_value d (handle vars i) with Some _ => false | None => true end) (seq 0 (length vars)).

(** What the other items add up to, in each row, knapsack.cc:531-538. *)
Definition committed_sums (d : domains) (rows : list (list Z)) (vars : list var_id) : list Z :=
  map (fun x => fold_left (fun sum i => match optional_single_value d (handle vars i) with Some val => sum + val * weight rows x i | None => sum end)
                  (seq 0 (length vars)) 0) (seq 0 (length rows)).

(** knapsack, knapsack.cc:526-576. *)
Definition per_call_pass (rows : list (list Z)) (vars totals : list var_id) : prog :=
  Look (fun d =>
    let undetermined := undetermined_items d vars in
    let committed := committed_sums d rows vars in
    let told rest := sequence (seq 0 (length totals)) (fun x => Infer (LCond (cond_ge (handle totals x) (nth x committed 0)))) rest in
    match undetermined with
    | [] => sequence (seq 0 (length totals)) (fun x => Infer (LCond (cond_eq (handle totals x) (nth x committed 0)))) (told (per_call_gac rows vars totals committed undetermined))
    | _ => told (per_call_gac rows vars totals committed undetermined)
    end).

(** compute_caps, knapsack_upfront.cc:110-123. *)
Definition compute_caps (d : domains) (rows : list (list Z)) (vars : list var_id) : list Z :=
  map (fun x => fold_left (fun sum i => sum + upper_bound d (handle vars i) * weight rows x i) (seq 0 (length vars)) 0) (seq 0 (length rows)).

(** One layer of the static graph from the one before, knapsack_upfront.cc:125-134 and
    145-152. Simplification: the set may have repetitions. *)
Definition static_layer (d : domains) (rows : list (list Z)) (vars : list var_id) (caps : list Z) (i : nat) (before : list (list Z)) : list (list Z) :=
  filter (fun s => negb (existsb (fun x => nth x caps 0 <? nth x s 0) (seq 0 (length rows))))
    (flat_map (fun s => map (advance rows i s) (each_value d (handle vars i))) before).

(** build_static_dag, knapsack_upfront.cc:136-164: the nodes after the first [i] items. *)
Fixpoint static_nodes (d : domains) (rows : list (list Z)) (vars : list var_id) (caps : list Z) (i : nat) : list (list Z) :=
  match i with
  | O => [repeat 0 (length rows)]
  | S j => static_layer d rows vars caps j (static_nodes d rows vars caps j)
  end.

(** propagate, knapsack_upfront.cc:557-831. [d0] is the initial state. *)
Definition upfront_pass (d0 : domains) (rows : list (list Z)) (vars totals : list var_id) : prog :=
  let nothing := repeat 0 (length totals) in
  let items := seq 0 (length vars) in
  forward rows nothing (fun d => map (upper_bound d) totals)
    (fun i sums => existsb (same_sums sums) (static_nodes d0 rows vars (compute_caps d0 rows vars) (S i))) vars items [first_layer totals]
    (finish nothing (fun d => map (lower_bound d) totals) vars totals items).

(** The exceptions thrown because of the coefficients by prepare, knapsack.cc:590-604 and
    knapsack_upfront.cc:858-873. The first does not compare the number of coefficients with
    the number of items, but if there are fewer of them, an exception is thrown by
    std::vector::at during propagation (line 538 or 136). *)
Definition knapsack_refused (s : knapsack_strategy) (rows : list (list Z)) (vars totals : list var_id) : bool :=
  let width := length (hd [] rows) in
  negb (Nat.eqb (length rows) (length totals)) || (match rows with [] => true | _ => false end) || negb (forallb (fun row => Nat.eqb (length row) width) rows)
  || (match s with PerCall => Nat.ltb width (length vars) | Upfront => negb (Nat.eqb width (length vars)) end)
  || existsb (existsb (fun c => c <? 0)) rows.

(** Knapsack{coefficients, vars, totals}, knapsack.cc:64-67, 579-615 and 639-657, and
    knapsack_upfront.cc:855-955. Simplification: prepare throws if the lower bound of an
    item or a total is negative (lines 606-612); the model goes on. *)
Definition knapsack (s : knapsack_strategy) (rows : list (list Z)) (vars totals : list var_id) : option constraint :=
  if knapsack_refused s rows vars totals then None
  else Some (fun d0 =>
    ([body_propagator (once match s with PerCall => per_call_pass rows vars totals | Upfront => upfront_pass d0 rows vars totals end) (vars ++ totals) [] []], [])).
