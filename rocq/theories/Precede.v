(** Value precedence.

    Models gcs/constraints/value_precede/value_precede.cc and
    gcs/constraints/seq_precede_chain/seq_precede_chain.cc. *)
From Coq Require Import ZArith List Bool Arith.
From Verif Require Import IntervalSet Vars State Epochs Engine Tracker Element.
Import ListNotations.
Local Open Scope Z_scope.

(** The first position that can have the value, value_precede.cc:169-175. *)
Fixpoint first_possible (d : domains) (vars : list var_id) (s : Z) : option nat :=
  match vars with
  | [] => None
  | v :: r => if in_domain d v s then Some O else option_map S (first_possible d r s)
  end.

(** Remove a value from some positions, value_precede.cc:180-184. *)
Definition remove_value (t : Z) (vars : list var_id) : tracker -> tracker :=
  for_each vars (fun v tr => if in_domain (t_domains tr) v t then tell_ne v t tr else tr).

(** One pair of the chain, value_precede.cc:165-195. *)
Definition precede_body (vars : list var_id) (s t : Z) : body := fun d =>
  match first_possible d vars s with
  | None => (remove_value t vars (track d), DisableUntilBacktrack)
  | Some alpha =>
      let tr := remove_value t (firstn (S alpha) vars) (track d) in
      let v := nth alpha vars (VConst 0) in
      (tr, if has_single_value (t_domains tr) v && (lower_bound (t_domains tr) v =? s) then DisableUntilBacktrack else Enable)
  end.

(** ValuePrecede, value_precede.cc:43-46 and 135-199: one propagator for each pair of
    neighbours, and none for a shorter chain. *)
Definition value_precede (chain : list Z) (vars : list var_id) : constraint := fun _ =>
  (map (fun '(s, t) => body_propagator (precede_body vars s t) vars [] []) (combine chain (tl chain)), []).

(** The greatest upper bound, or 0: seq_precede_chain.cc:54-59. *)
Definition greatest_upper (d : domains) (vars : list var_id) : Z := fold_left (fun m v => Z.max m (upper_bound d v)) vars 0.

(** SeqPrecedeChain, seq_precede_chain.cc:46-93. *)
Definition seq_precede_chain (vars : list var_id) : constraint := fun d =>
  let n := Z.of_nat (length vars) in
  let max_upper := greatest_upper d vars in
  if (n =? 0) || (max_upper <? 1) then ([], [])
  else
    let effective := Z.min max_upper n in
    let inits := if effective <? max_upper then flat_map (fun v => define_upper d v effective) vars else [] in
    (if effective <? 2 then [] else fst (value_precede (zrange 1 effective) vars d), inits).
