(** The properties of the rows of the pseudo-Boolean model. *)
From Coq Require Import ZArith List Bool Lia.
From Verif Require Import Vars VarsSpec Expressions ExpressionsSpec BitsEncoding BitsSpec PseudoBoolean PseudoBooleanSpec PseudoBooleanProofs.
Import ListNotations.
Local Open Scope Z_scope.

(** ** A model with each kind of declaration: a variable between -2 and 5, a {0,1}
    variable and a view *)

Definition pos (i : nat) : xlit := mk_xlit i false.

Definition some_names : names := {|
  n_bits := fun v => match v with
    | PSimple 0 => Some [(-8, pos 0); (1, pos 1); (2, pos 2); (4, pos 3)]
    | PSimple 1 => Some [(1, pos 4)]
    | POnly 0 => Some [(-8, pos 5); (1, pos 6); (2, pos 7); (4, pos 8)]
    | _ => None end;
  n_eq := fun v k => match v with
    | PSimple 0 => if k =? 1 then Some (pos 11) else None
    | PSimple 1 => if k =? 1 then Some (pos 4) else if k =? 0 then Some (x_not (pos 4)) else None
    | _ => None end;
  n_ge := fun v k => match v with PSimple 0 => if k =? 1 then Some (pos 9) else if k =? 2 then Some (pos 10) else None | _ => None end;
  n_in := fun _ _ _ => None;
  n_flag := fun i => match i with 0%nat => Some (pos 12) | _ => None end;
  n_view := fun n neg add => match n with 0%nat => if neg && (add =? 3) then Some 0%nat else None | _ => None end |}.

Definition some_meaning (i : nat) : option atom :=
  nth i [Some (ABit (PSimple 0) 0); Some (ABit (PSimple 0) 1); Some (ABit (PSimple 0) 2); Some (ABit (PSimple 0) 3); Some (ABit (PSimple 1) 0);
    Some (ABit (POnly 0) 0); Some (ABit (POnly 0) 1); Some (ABit (POnly 0) 2); Some (ABit (POnly 0) 3);
    Some (AGe (PSimple 0) 1); Some (AGe (PSimple 0) 2); Some (AEq (PSimple 0) 1); Some (AFlag 0)] None.

Definition some_bounds (v : pvar) : option (Z * Z) := match v with PSimple 0 => Some (-2, 5) | _ => None end.

(** if y = 1 then 2x + (3 - x) + 5[x >= 2] <= 7 *)
Definition some_inequality : sum_le pterm :=
  at_most [(2, TVar (VSimple 0)); (1, TVar (VView 0 true 3)); (5, TLit (PLit (LCond (mk_cond (VSimple 0) OpGreaterEqual 2 0))))] 7.
Definition some_guards : list guard := [GLit (PLit (LCond (mk_cond (VSimple 1) OpEqual 1 0)))].

Definition some_declarations : list declaration :=
  [DVar (PSimple 0) (-2) 5; DBool (PSimple 1); DVar (POnly 0) (-2) 5; DView 0 0 true 3;
   DGe (PSimple 0) 1; DGe (PSimple 0) 2; DEq (PSimple 0) 1;
   DIneq some_inequality (Some some_guards);
   DClause [PLit (LCond (mk_cond (VSimple 0) OpEqual 1 0)); PLit (LCond (mk_cond (VSimple 1) OpNotEqual 1 0))];
   DTwoWay (at_least [(1, TVar (VSimple 0))] 2) (mk_flag 0 true);
   DEquals (equals [(1, TVar (VSimple 0)); (1, TOnly 0)] 3) None].

(** x, y = 1, 1 *)
Definition some_world : world := {|
  w_int := fun _ => 1; w_only := fun _ => 2; w_flag := fun _ => false;
  w_bit := fun v p => match v with PSimple 0 => nth p [false; true; false; false] false | PSimple _ => true | POnly _ => nth p [false; false; true; false] false end |}.

Lemma some_proper : proper some_bounds some_names some_meaning some_declarations.
Proof.
  constructor.
  - intros [[|n]|n] l u; try discriminate. intros [= <- <-]. now left.
  - intros [[|[|n]]|[|n]] bits; try discriminate; intros [= <-].
    + left. exists (-2), 5. now left.
    + right. split; [right; now left|]. now exists (pos 4).
    + left. exists (-2), 5. do 2 right. now left.
  - intros v I. assert (v = PSimple 1) as ->. { cbn in I. repeat destruct I as [I|I]; try discriminate; try contradiction. now injection I as <-. } now exists (pos 4).
  - intros v l u I. assert ((v = PSimple 0 \/ v = POnly 0) /\ l = -2 /\ u = 5) as (V & -> & ->).
    { cbn in I. repeat destruct I as [I|I]; try discriminate; try contradiction; injection I as <- <- <-; auto. }
    split; [lia|]. split; [unfold fits64; lia|]. split; [unfold fits64; lia|]. destruct V as [-> | ->]; do 4 eexists; (split; [reflexivity|]); split; vm_compute; reflexivity.
  - intros [[|n]|n] k x; try discriminate. cbn. destruct (Z.eqb_spec k 1) as [->|]; [|destruct (Z.eqb_spec k 2) as [->|]; [|discriminate]]; intros _; (split; [tauto|]); eauto.
  - intros [[|[|n]]|n] k x; try discriminate; cbn.
    + destruct (Z.eqb_spec k 1) as [->|]; [|discriminate]. intros _. left. split; [tauto|eauto].
    + destruct (Z.eqb_spec k 1) as [->|]; [intros _; right; tauto|]. destruct (Z.eqb_spec k 0) as [->|]; [|discriminate]. intros _. right. tauto.
  - reflexivity.
  - intros [|n] neg add v; [|discriminate]. cbn. destruct neg; [|discriminate]. cbn. destruct (Z.eqb_spec add 3) as [->|]; [|discriminate]. intros [= <-]. tauto.
  - intros [[|[|n]]|[|n]] bits p c x B; try discriminate; injection B as <-; intro N; repeat (destruct p as [|p]; [injection N as <- <-; now split|]); destruct p; discriminate.
  - intros [[|n]|n] k x; try discriminate. cbn. destruct (Z.eqb_spec k 1) as [->|]; [|destruct (Z.eqb_spec k 2) as [->|]; [|discriminate]]; intros [= <-]; now split.
  - intros [[|[|n]]|n] k x; try discriminate; cbn.
    + destruct (Z.eqb_spec k 1) as [->|]; [|discriminate]. intros [= <-]. right. now split.
    + destruct (Z.eqb_spec k 1) as [->|]; [intros _; left; tauto|]. destruct (Z.eqb_spec k 0) as [->|]; [|discriminate]. intros _. left. tauto.
  - intros [|i] x; [|discriminate]. intros [= <-]. now split.
Qed.

Lemma some_bits_encode : bits_encode some_names some_world.
Proof. intros [[|[|n]]|[|n]] bits; try discriminate; now intros [= <-]. Qed.

Lemma some_holds : forall d, In d some_declarations -> declaration_holds some_world d.
Proof.
  intros d I. cbn [some_declarations In] in I. repeat (destruct I as [<-|I]); try contradiction; cbn [declaration_holds].
  1-3: vm_compute; split; congruence.
  1: reflexivity.
  1-3: exact Logic.I.
  - intros _. vm_compute. congruence.
  - eexists. split; [now left|]. reflexivity.
  - split; [vm_compute; discriminate|]. intro H. exfalso. vm_compute in H. now apply H.
  - reflexivity.
Qed.

(** ** C34 *)

(** If the 0-1 variables have the values of what they are names of, the row written for
    "if these conditions hold then this inequality holds" holds exactly if the
    implication does; and a row with no conditions exactly if the inequality does. *)
Theorem C34_reified_inequality : forall nm w al, coherent nm w al ->
  forall i half_reif r, constraint_row nm i half_reif = Some r ->
    (row_holds al r <-> match half_reif with
                        | None => le_true (term_value w) i
                        | Some gs => (forall g, In g gs -> guard_true w g = true) -> le_true (term_value w) i
                        end).
Proof. exact row_exact. Qed.
Print Assumptions C34_reified_inequality.

Example C34_reified_inequality_example : exists al r, coherent some_names some_world al /\
  constraint_row some_names some_inequality (Some some_guards) = Some r /\ row_holds al r /\ (1 < length (fst r))%nat.
Proof.
  exists (described some_meaning some_world). eexists. split; [apply (described_coherent some_bounds some_names some_meaning some_declarations some_proper some_world some_bits_encode some_holds)|].
  split; [vm_compute; reflexivity|]. split; [vm_compute; congruence|]. cbn. lia.
Qed.

(** Conditions in rows mean what they mean to the user. *)
Theorem C34_conditions : forall w l, literal_true w l = true <-> lit_holds (w_int w) l.
Proof. exact literal_true_iff. Qed.
Print Assumptions C34_conditions.

(** The renderer that reifies on the fly writes the same row. *)
Theorem C34_same_row : forall nm i gs, emit_reified_inequality nm i gs = constraint_row nm i (Some gs).
Proof. exact emit_reified_same. Qed.
Print Assumptions C34_same_row.

(** The rows of an equality, of a clause and of a fully reified flag. *)
Theorem C34_equality : forall nm w al, coherent nm w al ->
  forall e half_reif rr, equality_rows nm e half_reif = Some rr ->
    (row_holds al (fst rr) /\ row_holds al (snd rr) <-> reified w half_reif (equals_true (term_value w) e)).
Proof. exact equality_exact. Qed.
Print Assumptions C34_equality.

Theorem C34_clause : forall nm w al, coherent nm w al ->
  forall ls r, clause_row nm ls = Some r -> (row_holds al r <-> exists l, In l ls /\ plit_true w l = true).
Proof. exact clause_exact. Qed.
Print Assumptions C34_clause.

Theorem C34_fully_reified : forall nm w al, coherent nm w al ->
  forall i f rr, two_way_rows nm i f = Some rr ->
    (row_holds al (fst rr) /\ row_holds al (snd rr) <-> (flag_true w f = true <-> le_true (term_value w) i)).
Proof. exact two_way_exact. Qed.
Print Assumptions C34_fully_reified.

(** The rows that define the name of a lower bound, of an equality and of a view, whatever
    else is true. *)
Theorem C34_bound_defined : forall nm al v k rr, ge_rows nm v k = Some rr ->
  exists bits x, n_bits nm v = Some bits /\ n_ge nm v k = Some x /\
    (row_holds al (fst rr) /\ row_holds al (snd rr) <-> x_true al x = (k <=? row_sum al bits)).
Proof. exact ge_rows_exact. Qed.
Print Assumptions C34_bound_defined.

Theorem C34_equality_defined : forall nm al compact bounds v k rr value,
  (forall k x, n_ge nm v k = Some x -> x_true al x = (k <=? value)) ->
  (forall l u, bounds = Some (l, u) -> l <= value <= u) ->
  eq_rows compact bounds nm v k = Some rr ->
  exists x, n_eq nm v k = Some x /\ (row_holds al (fst rr) /\ row_holds al (snd rr) <-> x_true al x = (value =? k)).
Proof. exact eq_rows_exact. Qed.
Print Assumptions C34_equality_defined.

Theorem C34_view_defined : forall nm al v n neg add rr, view_rows nm v n neg add = Some rr ->
  exists bv bn, n_bits nm (POnly v) = Some bv /\ n_bits nm (PSimple n) = Some bn /\
    (row_holds al (fst rr) /\ row_holds al (snd rr) <-> row_sum al bv = (if neg then - row_sum al bn else row_sum al bn) + add).
Proof. exact view_rows_exact. Qed.
Print Assumptions C34_view_defined.

(** ** C38: the model as a whole *)

(** The solutions of all the rows written, read as values for the variables and flags,
    are exactly the solutions of what was declared: every variable between its bounds,
    every view equal to what it views and every constraint satisfied. *)
Theorem C38_model_exact : forall compact bounds nm meaning ds, proper bounds nm meaning ds ->
  forall rows w, all_rows compact bounds nm ds = Some rows -> bits_encode nm w ->
    ((exists al, reads nm al w /\ forall r, In r rows -> row_holds al r) <-> forall d, In d ds -> declaration_holds w d).
Proof. exact model_exact. Qed.
Print Assumptions C38_model_exact.

Example C38_model_exact_example : exists rows,
  proper some_bounds some_names some_meaning some_declarations /\
  all_rows true some_bounds some_names some_declarations = Some rows /\ (length rows = 19)%nat /\
  bits_encode some_names some_world /\ (forall d, In d some_declarations -> declaration_holds some_world d).
Proof.
  eexists. split; [exact some_proper|]. split; [vm_compute; reflexivity|]. split; [reflexivity|]. split; [exact some_bits_encode|exact some_holds].
Qed.

(** The objective line orders solutions as the objective does. *)
Theorem C38_objective : forall nm v ts, objective_terms nm v = Some ts ->
  forall w al w' al', coherent nm w al -> coherent nm w' al' ->
    (row_sum al ts < row_sum al' ts <-> var_value (w_int w) v < var_value (w_int w') v).
Proof. exact objective_order. Qed.
Print Assumptions C38_objective.

Example C38_objective_example :
  objective_terms some_names (VView 0 true 3) = Some [(-8, pos 5); (1, pos 6); (2, pos 7); (4, pos 8)] /\
  objective_terms some_names (VView 0 true 0) = Some [(8, pos 0); (-1, pos 1); (-2, pos 2); (-4, pos 3)].
Proof. vm_compute. split; reflexivity. Qed.
