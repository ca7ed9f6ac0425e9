(** Properties of division and remainder. *)
From Coq Require Import ZArith List Bool Lia.
From Verif Require Import IntervalSet IntervalSetSpec IntervalSetProofs Vars VarsSpec State StateSpec Epochs Engine EngineSpec
  Tracker SessionSpec ContractSpec Search Solve SolveSpec ConsistencySpec Tabulation Multiply DivideModulus DivideModulusProofs
  Catalogue CatalogueSpec ExampleProblem SolveExample ConstraintExample.
Import ListNotations.
Local Open Scope Z_scope.

(** C50: Divide has exactly the solutions it should, at every level of consistency, with
    constants or without, and whatever variables the three handles share. The quotient
    is rounded towards zero, and the divisor is never zero. *)
Theorem C50_divide_correct : forall d0 l x y q, Forall (var_known d0) [x; y; q] ->
  means d0 (divide l x y q) [x; y; q] (fun a => var_value a y <> 0 /\ var_value a q = Z.quot (var_value a x) (var_value a y)).
Proof. intros d0 l x y q. exact (division_means d0 true l x y q). Qed.
Print Assumptions C50_divide_correct.

(** C50: so has Modulus. The remainder has the sign of the dividend. *)
Theorem C50_modulus_correct : forall d0 l x y r, Forall (var_known d0) [x; y; r] ->
  means d0 (modulus l x y r) [x; y; r] (fun a => var_value a y <> 0 /\ var_value a r = Z.rem (var_value a x) (var_value a y)).
Proof. intros d0 l x y r. exact (division_means d0 false l x y r). Qed.
Print Assumptions C50_modulus_correct.

(** C50: with the level Tabulated, or Auto and domains that are small enough, the last
    propagator leaves only values that belong to a solution. *)
Theorem C50_divide_domain_consistent : forall d0 cs l x y q, domains_ok d0 -> Forall (var_known d0) [x; y; q] ->
  l = Tabulated \/ (exists threshold, l = Auto threshold /\ domain_size d0 x * domain_size d0 y * domain_size d0 q <= threshold) ->
  (exists s, within s d0 /\ var_value s y <> 0 /\ var_value s q = Z.quot (var_value s x) (var_value s y)) ->
  let i := divide l x y q d0 cs in exists p t, in_props i = [p; t] /\
  forall D, ConsistencySpec.outcome (length (d0 ++ in_vars i)) (fun d _ => inside (d0 ++ in_vars i) d) t D ->
  domain_consistent D [x; y; q] (fun s => var_value s y <> 0 /\ var_value s q = Z.quot (var_value s x) (var_value s y)) /\ rerun_is_quiet t D.
Proof. exact divide_tabulated. Qed.
Print Assumptions C50_divide_domain_consistent.

(** C50: the same for Modulus, where a variable that the constraint creates for the
    quotient counts towards the size. *)
Theorem C50_modulus_domain_consistent : forall d0 cs l x y r, domains_ok d0 -> Forall (var_known d0) [x; y; r] ->
  (let d := d0 ++ in_vars (modulus BC x y r d0 cs) in
   l = Tabulated \/ (exists threshold, l = Auto threshold /\ domain_size d x * domain_size d y * domain_size d r * domain_size d (VSimple (length d0)) <= threshold)) ->
  (exists s, within s d0 /\ var_value s y <> 0 /\ var_value s r = Z.rem (var_value s x) (var_value s y)) ->
  let i := modulus l x y r d0 cs in exists p t, in_props i = [p; t] /\
  forall D, ConsistencySpec.outcome (length (d0 ++ in_vars i)) (fun d _ => inside (d0 ++ in_vars i) d) t D ->
  domain_consistent D [x; y; r] (fun s => var_value s y <> 0 /\ var_value s r = Z.rem (var_value s x) (var_value s y)) /\ rerun_is_quiet t D.
Proof. exact modulus_tabulated. Qed.
Print Assumptions C50_modulus_domain_consistent.

(** C50: after one run of the first propagator the divisor cannot be zero, and running it
    again does nothing. *)
Theorem C50_division_rests : forall d0 cs (divide : bool) l x y out, Forall (var_known d0) [x; y; out] -> constant_of y <> Some 0 ->
  exists p ps, in_props ((if divide then DivideModulus.divide else modulus) l x y out d0 cs) = p :: ps /\
  forall nv Inv D, (length d0 + 3 <= nv)%nat -> ConsistencySpec.outcome nv Inv p D -> rerun_is_quiet p D /\ in_domain D y 0 = false.
Proof. intros d0 cs [|] l x y out; [exact (division_rests d0 cs true l x y out)|exact (division_rests d0 cs false l x y out)]. Qed.
Print Assumptions C50_division_rests.

(** C50: that propagator does not by itself compute the quotient: with x = 0, y = 1 and
    q in -3..3 nothing is removed from q. *)
Theorem C50_quotient_found_refuted : exists d0 p D, domains_ok d0 /\ in_props (divide BC (VSimple 0) (VSimple 1) (VSimple 2) d0 []) = [p] /\
  ConsistencySpec.outcome (length (d0 ++ in_vars (divide BC (VSimple 0) (VSimple 1) (VSimple 2) d0 [])))
    (fun d _ => inside (d0 ++ in_vars (divide BC (VSimple 0) (VSimple 1) (VSimple 2) d0 [])) d) p D /\
  fixed D (VSimple 0) /\ fixed D (VSimple 1) /\ ~ fixed D (VSimple 2).
Proof.
  exists [[(0, 0)]; [(1, 1)]; [(-3, 3)]]. eexists. exists [[(0, 0)]; [(1, 1)]; [(-3, 3)]; [(0, 0)]; [(0, 0)]; [(1, 1)]]. split; [|split; [reflexivity|split; [|split; [|split]]]].
  - intros [|[|[|n]]] Hn; simpl in *; try lia; (split; [simpl; lia|]); [exists 0|exists 1|exists 0]; apply member_cons; lia.
  - exists (mk_in [[(0, 0)]; [(1, 1)]; [(-3, 3)]; [(0, 0)]; [(0, 3)]; [(0, 1)]] [] [] [] [] (fun _ => false)). eexists. split; [|vm_compute; reflexivity]. split; [|split; [reflexivity|]].
    + intros [|[|[|[|[|[|n]]]]]] Hn; simpl in *; try lia; (split; [simpl; lia|]); [exists 0|exists 1|exists 0|exists 0|exists 0|exists 0]; apply member_cons; lia.
    + intros a W. exact W.
  - exists 0. intros a W. destruct (W 0%nat ltac:(simpl; lia)) as (lo & hi & [[= <- <-]|[]] & R). cbn [var_value]. lia.
  - exists 1. intros a W. destruct (W 1%nat ltac:(simpl; lia)) as (lo & hi & [[= <- <-]|[]] & R). cbn [var_value]. lia.
  - intros (v & E). assert (W : forall k, -3 <= k <= 3 -> k = v); [|specialize (W 0 ltac:(lia)) as W0; specialize (W 1 ltac:(lia)) as W1; lia].
    intros k Hk. apply (E (fun n => match n with 2%nat => k | 1%nat | 5%nat => 1 | _ => 0 end)).
    intros [|[|[|[|[|[|n]]]]]] Hn; simpl in *; try lia; apply member_cons; lia.
Qed.
Print Assumptions C50_quotient_found_refuted.

(** x / y = q with x in 10..20, y in -3..5 and q in 4..30: zero goes from y, and what is
    above 20 from q. *)
Example C50_divide_example : let d0 := [[(10, 20)]; [(-3, 5)]; [(4, 30)]] in
  Forall (var_known d0) [VSimple 0; VSimple 1; VSimple 2] /\
  exists p, in_props (divide BC (VSimple 0) (VSimple 1) (VSimple 2) d0 []) = [p] /\
  ConsistencySpec.outcome (length d0 + 3) (fun _ _ => True) p [[(10, 20)]; [(-3, -1); (1, 5)]; [(4, 20)]; [(0, 0)]; [(4, 20)]; [(1, 5)]].
Proof.
  cbv zeta. split; [repeat constructor; simpl; lia|]. eexists. split; [reflexivity|].
  exists (mk_in [[(10, 20)]; [(-3, 5)]; [(4, 30)]; [(0, 0)]; [(0, 31)]; [(0, 7)]] [] [] [] [] (fun _ => false)). eexists. split; [|vm_compute; reflexivity]. split; [|split; [reflexivity|exact Logic.I]].
  intros [|[|[|[|[|[|n]]]]]] Hn; simpl in *; try lia; (split; [simpl; lia|]); [exists 10|exists 1|exists 5|exists 0|exists 0|exists 0]; apply member_cons; lia.
Qed.

(** x mod y = r with x in 10..20, y in -3..9 and r in 7..30: only 15 mod 8, 16 mod 9 and
    17 mod 9 are left. *)
Example C50_modulus_example : let d0 := [[(10, 20)]; [(-3, 9)]; [(7, 30)]] in
  Forall (var_known d0) [VSimple 0; VSimple 1; VSimple 2] /\
  exists p, in_props (modulus BC (VSimple 0) (VSimple 1) (VSimple 2) d0 []) = [p] /\
  ConsistencySpec.outcome (length d0 + 2) (fun _ _ => True) p [[(15, 17)]; [(8, 9)]; [(7, 8)]; [(1, 1)]; [(8, 9)]].
Proof.
  cbv zeta. split; [repeat constructor; simpl; lia|]. eexists. split; [reflexivity|].
  exists (mk_in [[(10, 20)]; [(-3, 9)]; [(7, 30)]; [(0, 31)]; [(0, 15)]] [] [] [] [] (fun _ => false)). eexists. split; [|vm_compute; reflexivity]. split; [|split; [reflexivity|exact Logic.I]].
  intros [|[|[|[|[|n]]]]] Hn; simpl in *; try lia; (split; [simpl; lia|]); [exists 10|exists 1|exists 7|exists 0|exists 0]; apply member_cons; lia.
Qed.

(** A table for (x - 5) / x = q: x in -3..3 and q in -9..9. *)
Example C50_table_example : let d0 := [[(-3, 3)]; [(-9, 9)]] in let x := VView 0 false (-5) in
  domains_ok d0 /\ Forall (var_known d0) [x; VSimple 0; VSimple 1] /\
  (exists s, within s d0 /\ var_value s (VSimple 0) <> 0 /\ var_value s (VSimple 1) = Z.quot (var_value s x) (var_value s (VSimple 0))) /\
  let i := divide (Auto 1000) x (VSimple 0) (VSimple 1) d0 [] in
  domain_size d0 x * domain_size d0 (VSimple 0) * domain_size d0 (VSimple 1) <= 1000 /\
  exists p t, in_props i = [p; t] /\
  ConsistencySpec.outcome (length (d0 ++ in_vars i)) (fun d _ => inside (d0 ++ in_vars i) d) t
    [[(-3, -1); (1, 3)]; [(-4, -4); (-1, 0); (2, 3); (6, 6)]; [(0, 0)]; [(0, 15)]; [(0, 3)]; [(0, 5)]].
Proof.
  cbv zeta. split; [|split; [|split]].
  - intros [|[|n]] Hn; simpl in *; try lia; (split; [simpl; lia|]); exists 0; apply member_cons; lia.
  - repeat constructor; simpl; lia.
  - exists (fun n => match n with O => 1 | _ => -4 end). split; [intros [|[|n]] Hn; simpl in *; try lia; apply member_cons; lia|split; [discriminate|reflexivity]].
  - split; [vm_compute; discriminate|]. do 2 eexists. split; [reflexivity|].
    exists (mk_in [[(-3, 3)]; [(-9, 9)]; [(0, 0)]; [(0, 15)]; [(0, 3)]; [(0, 5)]] [] [] [] [] (fun _ => false)). eexists. split; [|vm_compute; reflexivity].
    split; [|split; [reflexivity|]].
    + intros [|[|[|[|[|[|n]]]]]] Hn; simpl in *; try lia; (split; [simpl; lia|]); exists 0; apply member_cons; lia.
    + intros a W. exact W.
Qed.

(** The whole solver on x / y = q and x mod y = r; the last five values are those of
    variables that the constraints create. *)
Example C50_example : let d0 := [[(-7, -6)]; [(-2, 2)]; [(2, 9)]; [(-9, 9)]] in
  summary (solve ex_never 100 100 1 (plain_callbacks [VSimple 0; VSimple 1; VSimple 2; VSimple 3])
    (match problem_of d0 [Quotient BC (VSimple 0) (VSimple 1) (VSimple 2); Remainder (Auto 5) (VSimple 0) (VSimple 1) (VSimple 3)] None with Some pb => pb | None => mk_problem [] [] None end)) =
  Some ([[-6; -1; 6; 0; 0; 6; 1; 6; 1]; [-6; -2; 3; 0; 0; 3; 2; 3; 2]; [-7; -1; 7; 0; 0; 7; 1; 7; 1]; [-7; -2; 3; -1; 0; 3; 2; 3; 2]], true).
Proof. vm_compute. reflexivity. Qed.
