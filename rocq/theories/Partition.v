(* The partition of a variable's range into cells, over which range literals are covered in the proof
   log: need_invar, init_interval_partition, ensure_partition_cut and the end of
   need_direct_encoding_for, /repo/gcs/innards/proofs/names_and_ids_tracker.cc.

   A literal is an interval; an equality is [v, v].  A covering is the clause "not the parent, or one
   of the children"; the covering of the whole range has no parent.  [lb] and [ub] are the bounds the
   variable was defined with.  The definitions of the literals, the order clauses and the links
   (Containment.v) are not modelled.  A proof log with links is being written.  [None] stands for
   going past the end of the set of boundaries, or for too little fuel. *)
From Coq Require Import ZArith List Bool.
Import ListNotations.
Open Scope Z_scope.

Definition covering := (option (Z * Z) * list (Z * Z))%type.

(* names_and_ids_tracker.cc:300-342: interval_partitions, eq_defs and invars_that_exist for one
   variable, and the coverings written *)
Record partition : Type := mk_partition
  { q_boundaries : option (list Z); q_atoms : list Z; q_ranges : list (Z * Z);
    q_coverings : list covering }.

Definition no_partition : partition := mk_partition None [] [] [].

(* std::set<Integer>::insert *)
Fixpoint put (p : Z) (bs : list Z) : list Z :=
  match bs with
  | [] => [p]
  | x :: r => if p <? x then p :: bs else if p =? x then bs else x :: put p r
  end.

Definition has (p : Z) (bs : list Z) : bool := existsb (Z.eqb p) bs.

(* names_and_ids_tracker.cc:1372-1373: the intervals between consecutive boundaries *)
Fixpoint cells (bs : list Z) : list (Z * Z) :=
  match bs with
  | x :: ((y :: _) as r) => (x, y - 1) :: cells r
  | _ => []
  end.

(* names_and_ids_tracker.cc:1255-1277, define_plain_invar *)
Definition add_range (s : partition) (i : Z * Z) : partition :=
  mk_partition (q_boundaries s) (q_atoms s) (q_ranges s ++ [i]) (q_coverings s).

(* names_and_ids_tracker.cc:780-870, need_direct_encoding_for: the definition of the atom *)
Definition add_atom (s : partition) (v : Z) : partition :=
  mk_partition (q_boundaries s) (q_atoms s ++ [v]) (q_ranges s) (q_coverings s).

(* emit_rup_proof_line of a covering *)
Definition add_covering (s : partition) (c : covering) : partition :=
  mk_partition (q_boundaries s) (q_atoms s) (q_ranges s) (q_coverings s ++ [c]).

Definition set_boundaries (s : partition) (bs : list Z) : partition :=
  mk_partition (Some bs) (q_atoms s) (q_ranges s) (q_coverings s).

(* names_and_ids_tracker.cc:1326-1331, define_cell; also 1374-1377 *)
Definition define_cell (need : partition -> Z -> option partition) (s : partition) (c : Z * Z)
  : option partition :=
  if fst c =? snd c then need s (fst c) else Some (add_range s c).

(* names_and_ids_tracker.cc:1308-1343, ensure_partition_cut; [need] is need_direct_encoding_for *)
Definition ensure_cut (need : partition -> Z -> option partition) (s : partition) (p : Z)
  : option partition :=
  match q_boundaries s with
  | None => None
  | Some bs =>
      if has p bs then Some s
      else
        match find (fun c => (fst c <=? p) && (p <=? snd c)) (cells bs) with
        | None => None
        | Some (a, b) =>
            match define_cell need (set_boundaries s (put p bs)) (a, p - 1) with
            | None => None
            | Some s1 =>
                match define_cell need s1 (p, b) with
                | None => None
                | Some s2 => Some (add_covering s2 (Some (a, b), [(a, p - 1); (p, b)]))
                end
            end
        end
  end.

(* names_and_ids_tracker.cc:780-909, need_direct_encoding_for *)
Fixpoint need_equality (fuel : nat) (lb ub : Z) (s : partition) (v : Z) : option partition :=
  match fuel with
  | O => None
  | S k =>
      if has v (q_atoms s) then Some s
      else
        let s1 := add_atom s v in
        match q_boundaries s1 with
        | None => Some s1
        | Some _ =>
            if (lb <=? v) && (v <=? ub) then
              match ensure_cut (need_equality k lb ub) s1 v with
              | None => None
              | Some s2 => ensure_cut (need_equality k lb ub) s2 (v + 1)
              end
            else Some s1
        end
  end.

(* names_and_ids_tracker.cc:1371-1379: a literal for every cell *)
Fixpoint define_cells (need : partition -> Z -> option partition) (s : partition)
  (cs : list (Z * Z)) : option partition :=
  match cs with
  | [] => Some s
  | c :: r => match define_cell need s c with None => None | Some s' => define_cells need s' r end
  end.

(* names_and_ids_tracker.cc:1345-1365: the first boundaries *)
Definition first_boundaries (lb ub : Z) (atoms : list Z) (lo hi : Z) : list Z :=
  put (hi + 1)
    (put lo
       (fold_left
          (fun bs v => if (lb <=? v) && (v <=? ub) then put (v + 1) (put v bs) else bs)
          atoms (put (ub + 1) (put lb [])))).

(* names_and_ids_tracker.cc:1345-1381, init_interval_partition.  The code walks over the set while
   it defines the cells; that adds no boundary. *)
Definition init_partition (lb ub : Z) (s : partition) (lo hi : Z) : option partition :=
  let bs := first_boundaries lb ub (q_atoms s) lo hi in
  match define_cells (need_equality 2 lb ub) (set_boundaries s bs) (cells bs) with
  | None => None
  | Some s' => Some (add_covering s' (None, cells bs))
  end.

(* boundaries.find *)
Fixpoint seek (v : Z) (bs : list Z) : option (list Z) :=
  match bs with [] => None | x :: r => if x =? v then Some bs else seek v r end.

(* names_and_ids_tracker.cc:1437-1438: the loop over the cells up to [stop] *)
Fixpoint cells_until (stop : Z) (bs : list Z) : option (list (Z * Z)) :=
  match bs with
  | [] => None
  | x :: r =>
      if x =? stop then Some []
      else
        match r with
        | [] => None
        | y :: _ =>
            match cells_until stop r with None => None | Some cs => Some ((x, y - 1) :: cs) end
        end
  end.

(* names_and_ids_tracker.cc:1429: is the next boundary after the first one [stop]? *)
Definition next_is (stop : Z) (bs : list Z) : bool :=
  match bs with _ :: y :: _ => y =? stop | _ => false end.

(* names_and_ids_tracker.cc:1383-1441, need_invar *)
Definition need_range (lb ub : Z) (s : partition) (lo hi : Z) : option partition :=
  if hi <? lo then Some s
  else if lo =? hi then need_equality 3 lb ub s lo
  else if existsb (fun i => (fst i =? lo) && (snd i =? hi)) (q_ranges s) then Some s
  else
    let span_lo := Z.max lo lb in
    let span_hi := Z.min hi ub in
    if span_hi <? span_lo then Some (add_range s (lo, hi))
    else
      match
        match q_boundaries s with
        | None => init_partition lb ub s span_lo span_hi
        | Some _ =>
            match ensure_cut (need_equality 2 lb ub) s span_lo with
            | None => None
            | Some s1 => ensure_cut (need_equality 2 lb ub) s1 (span_hi + 1)
            end
        end
      with
      | None => None
      | Some s2 =>
          match q_boundaries s2 with
          | None => None
          | Some bs =>
              match seek span_lo bs with
              | None => None
              | Some from =>
                  if (lo =? span_lo) && (hi =? span_hi) && next_is (span_hi + 1) from then Some s2
                  else
                    match cells_until (span_hi + 1) from with
                    | None => None
                    | Some cs => Some (add_covering (add_range s2 (lo, hi)) (Some (lo, hi), cs))
                    end
              end
          end
      end.

(* What may be asked for: an equality, or a range. *)
Inductive request : Type :=
| NeedEquality (v : Z)
| NeedRange (lo hi : Z).

(* one request *)
Definition ask (lb ub : Z) (s : partition) (r : request) : option partition :=
  match r with
  | NeedEquality v => need_equality 3 lb ub s v
  | NeedRange lo hi => need_range lb ub s lo hi
  end.

(* one request after another *)
Fixpoint ask_all (lb ub : Z) (s : partition) (rs : list request) : option partition :=
  match rs with
  | [] => Some s
  | r :: rest => match ask lb ub s r with None => None | Some s' => ask_all lb ub s' rest end
  end.
