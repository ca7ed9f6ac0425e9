(** AllDifferent with value consistency.

    Models gcs/constraints/all_different/all_different.cc and
    vc_all_different.cc. The generalised arc consistent propagator is in
    GacAllDifferent. *)
From Coq Require Import ZArith List Bool Arith.
From Verif Require Import IntervalSet Vars State Epochs Engine Tracker Equals Solve Stateful.
Import ListNotations.
Local Open Scope Z_scope.

(** ** Sorting the handles *)

(** The order of IntegerVariableID: a variant compares by alternative and then by
    the defaulted operators of gcs/variable_id.hh:34, 60 and 84. *)
Definition bool_leb (x y : bool) : bool := implb x y.

Definition var_leb (v w : var_id) : bool :=
  match v, w with
  | VSimple n, VSimple m => (n <=? m)%nat
  | VSimple _, _ => true
  | VView _ _ _, VSimple _ => false
  | VView n neg add, VView m neg' add' =>
      if Nat.eqb n m then if Bool.eqb neg neg' then add <=? add' else bool_leb neg neg'
      else (n <=? m)%nat
  | VView _ _ _, VConst _ => true
  | VConst x, VConst y => x <=? y
  | VConst _, _ => false
  end.

Fixpoint insert_var (v : var_id) (l : list var_id) : list var_id :=
  match l with
  | [] => [v]
  | w :: r => if var_leb v w then v :: l else w :: insert_var v r
  end.

(** ranges::sort. *)
Definition sort_vars (l : list var_id) : list var_id := fold_right insert_var [] l.

(** ranges::adjacent_find. *)
Fixpoint adjacent_equal (l : list var_id) : bool :=
  match l with
  | v :: (w :: _) as r => var_eqb v w || adjacent_equal r
  | _ => false
  end.

(** ** The propagator, gcs/constraints/all_different/vc_all_different.cc:55-128 *)

(** The handle at a position. Simplification: where the code stores a handle, the
    model stores its position among the sorted handles. *)
Definition handle (vars : list var_id) (i : nat) : var_id := nth i vars (VConst 0).

(** unassigned[k] = unassigned.back(); unassigned.pop_back(): what is left from
    index k on, given what came after it. *)
Definition swap_pop (r : list nat) : list nat :=
  match r with [] => [] | _ => last r O :: removelast r end.

(** Collect newly assigned variables, vc_all_different.cc:75-87. [kept] are those
    before index k, reversed, [rest] those from it on; the head of [work] is the
    back of to_propagate. [fuel] is the number still to be looked at. *)
Fixpoint collect (fuel : nat) (d : domains) (vars : list var_id) (kept rest : list nat) (work : list (nat * Z))
  : list nat * list (nat * Z) :=
  match fuel, rest with
  | S fuel', s :: r =>
      match optional_single_value d (handle vars s) with
      | Some x => collect fuel' d vars kept (swap_pop r) ((s, x) :: work)
      | None => collect fuel' d vars (s :: kept) r work
      end
  | _, _ => (rev kept ++ rest, work)
  end.

(** Take the value away from the other unassigned variables,
    vc_all_different.cc:109-124. The test that the other is not the variable itself
    always succeeds, since no position is both in unassigned and in to_propagate. *)
Fixpoint take_away (fuel : nat) (vars : list var_id) (x : Z) (kept rest : list nat) (work : list (nat * Z)) (t : tracker)
  : list nat * list (nat * Z) * tracker :=
  match fuel, rest with
  | S fuel', s :: r =>
      let t' := tell_ne (handle vars s) x t in
      if t_failed t' then (rev kept ++ rest, work, t')
      else
        match optional_single_value (t_domains t') (handle vars s) with
        | Some y => take_away fuel' vars x kept (swap_pop r) ((s, y) :: work) t'
        | None => take_away fuel' vars x (s :: kept) r work t'
        end
  | _, _ => (rev kept ++ rest, work, t)
  end.

(** The loop over to_propagate, vc_all_different.cc:89-125. *)
Fixpoint drain (fuel : nat) (vars : list var_id) (unassigned : list nat) (work : list (nat * Z)) (t : tracker) : list nat * tracker :=
  match fuel, work with
  | S fuel', (s, x) :: rest =>
      let t1 := for_each (rev rest) (fun '(_, y) t => if y =? x then tell_ne (handle vars s) x t else t) t in
      if t_failed t1 then (unassigned, t1)
      else
        let '(unassigned', work', t2) := take_away (length unassigned) vars x [] unassigned rest t1 in
        if t_failed t2 then (unassigned', t2) else drain fuel' vars unassigned' work' t2
  | _, _ => (unassigned, t)
  end.

(** The function, run when [t] has already been inferred. *)
Definition continue_different (vars : list var_id) (unassigned : list nat) (t : tracker) : list nat * tracker :=
  let '(unassigned', work) := collect (length unassigned) (t_domains t) vars [] unassigned [] in
  drain (length unassigned) vars unassigned' work t.

Definition value_consistency (vars : list var_id) (d : domains) (unassigned : list nat) : list nat * tracker :=
  continue_different vars unassigned (track d).

(** The propagation function, all_different.cc:214-236. *)
Definition vc_body (vars : list var_id) : state_body := fun d s m =>
  let '(unassigned, t) := value_consistency vars d (map Z.to_nat s) in
  mk_effect t (map Z.of_nat unassigned) m (if t_failed t then Enable else EnableButIdempotent).

(** The positions not single-valued when the constraint is installed,
    all_different.cc:124-130. *)
Definition initially_unassigned (vars : list var_id) (d : domains) : list nat :=
  filter (fun i => negb (has_single_value d (handle vars i))) (seq 0 (length vars)).

(** AllDifferent{vars}.with_consistency(consistency::VC{}), all_different.cc:95-133
    and 142-238; with a duplicate, a contradiction and nothing else. *)
Definition all_different_vc (vars : list var_id) : installer := fun d cs =>
  let sorted := sort_vars vars in
  if adjacent_equal sorted then mk_installation [] [] [] [(O, body_initialiser (fun d => tell_false (track d)))]
  else mk_installation [] [map Z.of_nat (initially_unassigned sorted d)]
         [state_propagator (length cs) (vc_body sorted) sorted [] []] [].
