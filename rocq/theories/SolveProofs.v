(** Lemmas about solving problems. *)
From Coq Require Import ZArith List Bool Arith Lia.
From Verif Require Import IntervalSet IntervalSetSpec IntervalSetProofs Vars VarsSpec VarsProofs State StateSpec StateProofs Epochs EpochsProofs
  Engine EngineSpec EngineQueueProofs EngineWatchProofs EngineProofs EngineLoopProofs EngineCallProofs Session SessionSpec SessionProofs SessionInvProofs SessionResults
  Tracker ContractSpec ContractProofs Search SearchSpec SearchProofs SearchResults SearchTermProofs NegativeTable Nogoods NogoodsProofs Solve SolveSpec.
Import ListNotations.
Local Open Scope Z_scope.

(** ** Assignments and domains *)

Lemma same_below_refl n a : same_below n a a.
Proof. intros x _. reflexivity. Qed.

Lemma same_below_sym n a a' : same_below n a a' -> same_below n a' a.
Proof. intros H x Hx. symmetry. now apply H. Qed.

Lemma same_below_trans n m a a' a'' : (n <= m)%nat -> same_below n a a' -> same_below m a' a'' -> same_below n a a''.
Proof. intros L H H' x Hx. rewrite (H x Hx). apply H'. lia. Qed.

Lemma same_below_less n m a a' : (n <= m)%nat -> same_below m a a' -> same_below n a a'.
Proof. intros L H x Hx. apply H. lia. Qed.

Lemma local_more n m P : (n <= m)%nat -> local n P -> local m P.
Proof. intros L H a a' E. apply H. now apply (same_below_less n m). Qed.

Lemma within_same a a' (d : domains) : same_below (length d) a a' -> within a d -> within a' d.
Proof. intros E W n Hn. rewrite <- (E n Hn). now apply W. Qed.

Lemma within_prefix a (d more : domains) : within a (d ++ more) -> within a d.
Proof.
  intros W n Hn. specialize (W n). rewrite app_nth1 in W by assumption. apply W. unfold domains, iset in *. rewrite app_length. lia.
Qed.

Lemma value_same n a a' v : same_below n a a' -> var_below n v -> var_value a v = var_value a' v.
Proof. intros E B. destruct v as [x|x neg add|c]; simpl in *; try reflexivity; now rewrite (E x B). Qed.

Lemma Forall_In {X : Type} (P : X -> Prop) l x : Forall P l -> In x l -> P x.
Proof. intros F I. rewrite Forall_forall in F. now apply F. Qed.

Lemma ordpairs_In {X : Type} (R : X -> X -> Prop) l x y : ForallOrdPairs R l -> In x l -> In y l -> x = y \/ R x y \/ R y x.
Proof.
  induction 1 as [|z l F _ IH]; intros Ix Iy; [destruct Ix|]. destruct Ix as [<-|Ix], Iy as [<-|Iy]; auto.
  - right. left. now apply (Forall_In _ _ _ F).
  - right. right. now apply (Forall_In _ _ _ F).
Qed.

(** ** Installing *)

Record piece : Type := mk_piece
  { pc_base : domains; pc_states : list cstate; pc_in : installation; pc_relation : relation;
    pc_sol : assignment -> Prop; pc_own : domains -> list cstate -> Prop }.

Notation pc_scope pc := (fst (pc_relation pc)).
Notation pc_sat pc := (snd (pc_relation pc)).

Definition piece_ok (pc : piece) : Prop := installs (pc_base pc) (pc_states pc) (pc_in pc) (pc_scope pc) (pc_sat pc) (pc_sol pc) (pc_own pc).

Inductive chain : setup -> list piece -> setup -> Prop :=
| ch_nil s : chain s [] s
| ch_cons s pc rest s' : pc_base pc = su_domains s -> pc_states pc = su_states s -> piece_ok pc ->
    chain (mk_setup (su_domains s ++ in_vars (pc_in pc)) (su_states s ++ in_states (pc_in pc)) (su_props s ++ in_props (pc_in pc)) (su_inits s ++ in_inits (pc_in pc))) rest s' ->
    chain s (pc :: rest) s'.

Lemma install_chain d0 ks rs : Forall2 (fun k r => means d0 k (fst r) (snd r)) ks rs ->
  forall s hidden, su_domains s = d0 ++ hidden -> domains_ok (su_domains s) ->
  exists pcs, map pc_relation pcs = rs /\ chain s pcs (fold_left install ks s) /\ Forall (fun pc => local (length d0) (pc_sat pc)) pcs /\
    Forall (fun pc => Forall (var_below (length d0)) (pc_scope pc)) pcs.
Proof.
  induction 1 as [|k r ks rs (Sc & Lo & M) _ IH]; intros s hidden E Ok.
  - exists []. repeat split; constructor.
  - assert (Ok' := Ok). rewrite E in Ok'. destruct (M hidden (su_states s) Ok') as (sol & Own & I). rewrite <- E in I.
    set (pc := mk_piece (su_domains s) (su_states s) (k (su_domains s) (su_states s)) r sol Own).
    destruct (IH (install s k) (hidden ++ in_vars (pc_in pc))) as (pcs & R & C & L & V).
    + cbn [install su_domains]. rewrite E at 1. now rewrite app_assoc.
    + cbn [install su_domains]. exact (ins_ok _ _ _ _ _ _ _ I).
    + exists (pc :: pcs). split; [simpl; now rewrite R|]. split; [|split; constructor; auto].
      cbn [fold_left]. apply ch_cons; try reflexivity; [exact I|exact C].
Qed.

Lemma chain_shape s pcs s' : chain s pcs s' -> domains_ok (su_domains s) ->
  domains_ok (su_domains s') /\ (exists more, su_domains s' = su_domains s ++ more) /\ (exists states, su_states s' = su_states s ++ states) /\
  su_props s' = su_props s ++ flat_map (fun pc => in_props (pc_in pc)) pcs /\
  su_inits s' = su_inits s ++ flat_map (fun pc => in_inits (pc_in pc)) pcs.
Proof.
  induction 1 as [s|s pc rest s' Eb Es Ok C IH]; intros Hd.
  - rewrite !app_nil_r. split; [assumption|]. split; [exists []; now rewrite app_nil_r|]. split; [exists []; now rewrite app_nil_r|]. auto.
  - cbn [su_domains su_states su_props su_inits] in IH. pose proof (ins_ok _ _ _ _ _ _ _ Ok) as Hd'. rewrite Eb in Hd'.
    destruct (IH Hd') as (A & (more & B) & (states & S) & P & I). split; [assumption|].
    split; [exists (in_vars (pc_in pc) ++ more); now rewrite B, app_assoc|]. split; [exists (in_states (pc_in pc) ++ states); now rewrite S, app_assoc|].
    split; simpl; [rewrite P|rewrite I]; now rewrite app_assoc.
Qed.

Lemma chain_pieces s pcs s' : chain s pcs s' -> domains_ok (su_domains s) -> forall pc, In pc pcs ->
  piece_ok pc /\ (exists more, su_domains s' = (pc_base pc ++ in_vars (pc_in pc)) ++ more) /\
  (exists states, su_states s' = (pc_states pc ++ in_states (pc_in pc)) ++ states) /\ (length (su_states s) <= length (pc_states pc))%nat.
Proof.
  induction 1 as [s|s pc rest s' Eb Es Ok C IH]; intros Hd q Iq; [destruct Iq|].
  pose proof (ins_ok _ _ _ _ _ _ _ Ok) as Hd'. rewrite Eb in Hd'. destruct Iq as [<-|Iq].
  - destruct (chain_shape _ _ _ C Hd') as (_ & (more & B) & (states & S) & _). cbn [su_domains su_states] in *. rewrite Eb, Es. split; [assumption|]. split; [eauto|]. split; [eauto|lia].
  - destruct (IH Hd' q Iq) as (A & B & S & L). cbn [su_states] in L. rewrite app_length in L. split; [assumption|]. split; [assumption|]. split; [assumption|lia].
Qed.

Lemma chain_apart s pcs s' : chain s pcs s' -> domains_ok (su_domains s) ->
  ForallOrdPairs (fun pc pc' => (length (pc_states pc) + length (in_states (pc_in pc)) <= length (pc_states pc'))%nat) pcs.
Proof.
  induction 1 as [s|s pc rest s' Eb Es Ok C IH]; intros Hd; [constructor|].
  pose proof (ins_ok _ _ _ _ _ _ _ Ok) as Hd'. rewrite Eb in Hd'. constructor; [|now apply IH].
  apply Forall_forall. intros q Iq. destruct (chain_pieces _ _ _ C Hd' q Iq) as (_ & _ & _ & L). cbn [su_states] in L. rewrite app_length in L. now rewrite Es.
Qed.

(** Values for the variables the constraints created. *)
Lemma chain_extends n s pcs s' : chain s pcs s' -> domains_ok (su_domains s) -> (n <= length (su_domains s))%nat ->
  Forall (fun pc => local n (pc_sat pc)) pcs -> forall a, within a (su_domains s) -> Forall (fun pc => pc_sat pc a) pcs ->
  exists a', same_below (length (su_domains s)) a a' /\ within a' (su_domains s') /\ Forall (fun pc => pc_sol pc a') pcs.
Proof.
  induction 1 as [s|s pc rest s' Eb Es Ok C IH]; intros Hd Ln Lo a Wa Sa.
  - exists a. split; [apply same_below_refl|]. split; [assumption|constructor].
  - pose proof (ins_ok _ _ _ _ _ _ _ Ok) as Hd'. inversion Lo as [|? ? L1 L2]; subst. inversion Sa as [|? ? S1 S2]; subst.
    destruct (ins_extends _ _ _ _ _ _ _ Ok a) as (a1 & E1 & W1 & So1); [now rewrite Eb|assumption|]. rewrite Eb in *.
    destruct (IH Hd') with (a := a1) as (a2 & E2 & W2 & So2).
    + cbn [su_domains]. rewrite app_length. lia.
    + assumption.
    + exact W1.
    + apply Forall_forall. intros q Iq. apply (Forall_In _ _ _ L2 Iq a a1); [|now apply (Forall_In _ _ _ S2 Iq)]. now apply (same_below_less n (length (su_domains s))).
    + cbn [su_domains] in E2. exists a2. split; [|split; [assumption|]].
      * apply (same_below_trans _ (length (su_domains s ++ in_vars (pc_in pc))) a a1 a2); auto. rewrite app_length. lia.
      * constructor; [|assumption]. apply (ins_local _ _ _ _ _ _ _ Ok a1 a2); [now rewrite Eb|assumption].
Qed.

(** ** The invariant of everything together *)

Definition joint (D : domains) (pcs : list piece) (d : domains) (c : list cstate) : Prop :=
  inside D d /\ Forall (fun pc => pc_own pc d c) pcs.

Section Joint.
Variable pb : problem.
Variable rs : list relation.
Variable pcs : list piece.
Hypothesis D0 : domains_ok (pb_domains pb).
Hypothesis Rel : map pc_relation pcs = rs.
Hypothesis Ch : chain (mk_setup (pb_domains pb) [] [] []) pcs (set_up pb).
Hypothesis Loc : Forall (fun pc => local (length (pb_domains pb)) (pc_sat pc)) pcs.
Hypothesis Scp : Forall (fun pc => Forall (var_below (length (pb_domains pb))) (pc_scope pc)) pcs.

Notation total := (su_domains (set_up pb)).
Notation nv := (all_vars pb).
Notation Inv := (joint total pcs).
Definition joint_sol (a : assignment) : Prop := Forall (fun pc => pc_sol pc a) pcs.

Lemma total_ok : domains_ok total.
Proof. exact (proj1 (chain_shape _ _ _ Ch D0)). Qed.

Lemma total_more : exists more, total = pb_domains pb ++ more.
Proof. exact (proj1 (proj2 (chain_shape _ _ _ Ch D0))). Qed.

Lemma total_long : (length (pb_domains pb) <= nv)%nat.
Proof. unfold all_vars. destruct total_more as (more & ->). rewrite app_length. lia. Qed.

Lemma joint_stable : stable nv Inv.
Proof.
  intros d cs l k d' Hd L Kl [In0 Ow] E N.
  pose proof (infer_ok _ _ _ _ Hd Kl E N) as Hd'. pose proof (infer_length _ _ _ _ Hd Kl E) as Ld.
  destruct (infer_exact d l k d' Hd Kl E) as (_ & Nn & _). destruct (Nn N) as [_ W].
  assert (Ins : inside d d') by (intros a Wa; now apply W in Wa). split.
  - intros a Wa. now apply In0, Ins.
  - apply Forall_forall. intros pc I. destruct (chain_pieces _ _ _ Ch D0 pc I) as (Ok & _).
    apply (ins_own _ _ _ _ _ _ _ Ok d d' cs cs); auto. intros j _. reflexivity. now apply (Forall_In _ _ _ Ow).
Qed.

Lemma joint_framed pc : In pc pcs -> framed nv Inv (length (pc_states pc)) (length (in_states (pc_in pc))) (pc_own pc).
Proof.
  intros I d c d' c' [In0 Ow] Hd' L L' Ins El Own. split; [intros a Wa; now apply In0, Ins|].
  apply Forall_forall. intros q Iq. destruct (ordpairs_In _ _ _ _ (chain_apart _ _ _ Ch D0) I Iq) as [<-|R]; [assumption|].
  destruct (chain_pieces _ _ _ Ch D0 q Iq) as (Ok & _). apply (ins_own _ _ _ _ _ _ _ Ok d d' c c'); auto.
  - now rewrite L.
  - intros k Hk. apply El. lia.
  - now apply (Forall_In _ _ _ Ow).
Qed.

Lemma piece_fulfils pc : In pc pcs ->
  fulfils nv (pc_base pc ++ in_vars (pc_in pc)) Inv (in_props (pc_in pc)) (map snd (in_inits (pc_in pc))) (pc_scope pc) (pc_sol pc) (pc_sat pc).
Proof.
  intro I. destruct (chain_pieces _ _ _ Ch D0 pc I) as (Ok & (more & B) & _). apply (ins_fulfils _ _ _ _ _ _ _ Ok).
  - unfold all_vars. rewrite B, !app_length. lia.
  - exact joint_stable.
  - intros d c [In0 Ow]. split; [|now apply (Forall_In _ _ _ Ow)]. intros a Wa. apply In0 in Wa. rewrite B in Wa. now apply within_prefix in Wa.
  - now apply joint_framed.
Qed.

Lemma joint_start : Inv total (su_states (set_up pb)).
Proof.
  split; [intros a Wa; exact Wa|]. apply Forall_forall. intros pc I.
  destruct (chain_pieces _ _ _ Ch D0 pc I) as (Ok & (more & B) & (states & S) & _). rewrite B, S. apply (ins_start _ _ _ _ _ _ _ Ok).
  rewrite <- B. exact total_ok.
Qed.

(** Every propagator, and what it does once everything has a value. *)
Lemma props_pieces p : In p (su_props (set_up pb)) -> exists pc, In pc pcs /\ In p (in_props (pc_in pc)).
Proof.
  intro I. destruct (chain_shape _ _ _ Ch D0) as (_ & _ & _ & P & _). rewrite P in I. simpl in I. apply in_flat_map in I. destruct I as (pc & A & B). eauto.
Qed.

Lemma inits_pieces i : In i (in_order (su_inits (set_up pb))) <-> exists pc, In pc pcs /\ In i (map snd (in_inits (pc_in pc))).
Proof.
  destruct (chain_shape _ _ _ Ch D0) as (_ & _ & _ & _ & P). rewrite P. clear P. cbn [su_inits app]. unfold in_order. rewrite in_flat_map. split.
  - intros (k & _ & I). apply in_map_iff in I. destruct I as (x & <- & I). apply filter_In in I. destruct I as [I _].
    apply in_flat_map in I. destruct I as (pc & A & B). exists pc. split; [assumption|]. now apply in_map.
  - intros (pc & A & B). apply in_map_iff in B. destruct B as ([k x] & <- & B). exists k. split.
    + destruct (chain_pieces _ _ _ Ch D0 pc A) as (Ok & _). pose proof (Forall_In _ _ _ (ins_priorities _ _ _ _ _ _ _ Ok) B) as H. simpl in H. apply in_seq. lia.
    + apply in_map_iff. exists (k, x). split; [reflexivity|]. apply filter_In. split; [|simpl; apply Nat.eqb_refl]. apply in_flat_map. eauto.
Qed.

Lemma Forall2_left {X Y : Type} (P : X -> Y -> Prop) l l' x : Forall2 P l l' -> In x l -> exists y, In y l' /\ P x y.
Proof.
  induction 1 as [|a b l l' H _ IH]; intro I; [destruct I|]. destruct I as [<-|I]; [exists b; split; [now left|assumption]|].
  destruct (IH I) as (y & A & B). exists y. split; [now right|assumption].
Qed.

Lemma Forall2_right {X Y : Type} (P : X -> Y -> Prop) l l' y : Forall2 P l l' -> In y l' -> exists x, In x l /\ P x y.
Proof.
  induction 1 as [|a b l l' H _ IH]; intro I; [destruct I|]. destruct I as [<-|I]; [exists a; split; [now left|assumption]|].
  destruct (IH I) as (x & A & B). exists x. split; [now right|assumption].
Qed.

Lemma props_behaved p : In p (su_props (set_up pb)) -> well_behaved nv Inv p /\ sound_for nv Inv joint_sol p.
Proof.
  intro I. destruct (props_pieces p I) as (pc & A & B). destruct (piece_fulfils pc A) as (pp & ip & FP & _).
  destruct (Forall2_left _ _ _ _ FP B) as (s & _ & W & So & _). split; [assumption|]. intros i a U Wa Sa. apply (So i a U Wa). now apply (Forall_In _ _ _ Sa).
Qed.

Lemma inits_sound i : In i (in_order (su_inits (set_up pb))) -> initialises nv Inv i joint_sol (fun _ => True).
Proof.
  intro I. apply inits_pieces in I. destruct I as (pc & A & B). destruct (piece_fulfils pc A) as (pp & ip & _ & FI & _).
  destruct (Forall2_left _ _ _ _ FI B) as (s & _ & H). intros d cs t cs' Hd L Iv E. destruct (H d cs t cs' Hd L Iv E) as (X1 & X2 & X3 & X4).
  split; [assumption|]. split; [assumption|]. split.
  - intros a Wa Sa. apply X3; [assumption|]. now apply (Forall_In _ _ _ Sa).
  - intro F. split; [now apply X4|auto].
Qed.

(** ** Initialising *)

Lemma run_initialisers_spec is : (forall i, In i is -> initialises nv Inv i joint_sol (fun _ => True)) ->
  forall d cs, domains_ok d -> length d = nv -> Inv d cs ->
  match run_initialisers is d cs with
  | None => forall a, within a d -> ~ joint_sol a
  | Some (d', cs') => domains_ok d' /\ length d' = nv /\ Inv d' cs' /\ inside d d' /\ (forall a, within a d -> joint_sol a -> within a d') /\
      (forall i sol part, In i is -> initialises nv Inv i sol part -> entailed part d')
  end.
Proof.
  induction is as [|i r IH]; intros HI d cs Hd L Iv; cbn [run_initialisers].
  - split; [assumption|]. split; [assumption|]. split; [assumption|]. split; [intros a Wa; exact Wa|]. split; [auto|]. intros i sol part [].
  - destruct (i d cs) as [t cs'] eqn:E. pose proof (HI i (or_introl eq_refl) d cs t cs' Hd L Iv E) as (X1 & (evs & X2) & X3 & X4).
    assert (G : legit nv d t) by (split; eauto). destruct (t_failed t) eqn:F.
    + intros a Wa Sa. destruct (keeps_alive nv d Hd L t a G Wa (X3 a Wa Sa)) as [Ft _]. congruence.
    + destruct (X4 eq_refl) as [Iv' _]. pose proof (legit_ok nv d Hd L t G F) as Hd'. pose proof (legit_length nv d Hd L t G) as L'.
      pose proof (legit_inside nv d Hd L t G F) as Ins. specialize (IH (fun j Ij => HI j (or_intror Ij)) _ _ Hd' L' Iv').
      destruct (run_initialisers r (t_domains t) cs') as [[d2 cs2]|].
      * destruct IH as (A1 & A2 & A3 & A4 & A5 & A6). split; [assumption|]. split; [assumption|]. split; [assumption|]. split; [intros a Wa; now apply Ins, A4|]. split.
        -- intros a Wa Sa. apply A5; [|assumption]. apply (keeps_alive nv d Hd L t a G Wa). now apply X3.
        -- intros j sol part [<-|Ij] Hj; [|now apply (A6 j sol)]. intros a Wa. apply A4 in Wa.
           destruct (Hj d cs t cs' Hd L Iv E) as (_ & _ & _ & Y). now apply Y.
      * intros a Wa Sa. apply (IH a); [|assumption]. apply (keeps_alive nv d Hd L t a G Wa). now apply X3.
Qed.

Lemma initialise_spec :
  match initialise (set_up pb) with
  | None => forall a, ~ solution pb rs a
  | Some (d, cs) => domains_ok d /\ length d = nv /\ Inv d cs /\ inside total d /\
      (forall a, solution pb rs a -> exists a', same_below (length (pb_domains pb)) a a' /\ within a' d /\ joint_sol a') /\
      (forall i sol part, In i (in_order (su_inits (set_up pb))) -> initialises nv Inv i sol part -> entailed part d)
  end.
Proof.
  assert (Ex : forall a, solution pb rs a -> exists a', same_below (length (pb_domains pb)) a a' /\ within a' total /\ joint_sol a').
  { intros a [Wa Sa]. apply (chain_extends (length (pb_domains pb)) _ _ _ Ch); auto.
    apply Forall_forall. intros pc I. rewrite <- Rel in Sa. rewrite Forall_map in Sa. now apply (Forall_In _ _ _ Sa). }
  unfold initialise. pose proof (run_initialisers_spec (in_order (su_inits (set_up pb))) inits_sound total (su_states (set_up pb)) total_ok eq_refl joint_start) as H.
  destruct (run_initialisers _ _ _) as [[d cs]|].
  - destruct H as (A1 & A2 & A3 & A4 & A5 & A6). split; [assumption|]. split; [assumption|]. split; [assumption|]. split; [assumption|]. split; [|assumption].
    intros a Sa. destruct (Ex a Sa) as (a' & E & W & S). exists a'. split; [assumption|]. split; [|assumption]. now apply A5.
  - intros a Sa. destruct (Ex a Sa) as (a' & _ & W & S). exact (H a' W S).
Qed.

(** ** Searching *)

Variable cb : callbacks.
Variable vs : list var_id.
Hypothesis Below : Forall (var_below (length (pb_domains pb))) vs.

Lemma choose {X Y : Type} (P : X -> Y -> Prop) (l : list X) : (forall x, In x l -> exists y, P x y) -> exists l', Forall2 P l l'.
Proof.
  induction l as [|x l IH]; intro H; [exists []; constructor|]. destruct (H x (or_introl eq_refl)) as (y & Hy).
  destruct IH as (l' & Hl); [intros z Iz; apply H; now right|]. exists (y :: l'). now constructor.
Qed.

Lemma decides_fixed d v : domains_ok d -> length d = nv -> Forall (fixed d) vs -> var_below nv v -> decides vs v -> fixed d v.
Proof.
  intros Hd L Fx B Dv. assert (Kv : var_known d v) by now apply (var_below_known nv). apply (fixed_single d v Hd Kv).
  destruct Dv as [->|(w & Iw & E)]; [exact Logic.I|]. pose proof (Forall_In _ _ _ Fx Iw) as Fw.
  assert (Kw : var_known d w).
  { apply (var_below_known nv); [assumption|]. apply (below_more (length (pb_domains pb)) nv); [apply total_long|]. now apply (Forall_In _ _ _ Below). }
  apply (fixed_single d w Hd Kw) in Fw. rewrite E in Fw. exact Fw.
Qed.

(** What the learned nogoods have settled. With an objective nothing is asked of them. *)
Definition enforcing : bool :=
  match cb_restarts cb, pb_minimise pb with Some _, None => negb (cb_refined cb) | _, _ => false end.

Definition learned_ok (S : list nogood) (d : domains) : Prop := if enforcing then checked vs (spared (map (map LCond) S)) d else True.
Definition learned_dead (S : list nogood) (d : domains) : Prop := if enforcing then entailed (spared (map (map LCond) S)) d else True.

Notation props := (solving_props cb pb).
Notation triggers := (map VSimple (seq 0 (length (pb_domains pb)))).

Lemma solving_length S : length (props S) = length (props []).
Proof. unfold solving_props. rewrite !app_length. f_equal. now destruct (cb_restarts cb). Qed.

Lemma solving_In S p : In p (props S) -> In p (su_props (set_up pb)) \/ p = learned_nogoods (cb_refined cb) triggers S.
Proof.
  unfold solving_props. intro I. apply in_app_or in I. destruct I as [I|I]; [auto|]. destruct (cb_restarts cb); [|destruct I].
  destruct I as [<-|[]]. now right.
Qed.

Lemma solving_behaved S p : Forall (legible nv vs) S -> In p (props S) -> well_behaved nv Inv p.
Proof.
  intros Le I. destruct (solving_In S p I) as [I'| ->]; [now apply props_behaved|]. now apply (learned_behaved nv vs Inv joint_stable S Le).
Qed.

Lemma solving_sound S p : Forall (legible nv vs) S -> In p (props S) -> sound_for nv Inv (remaining joint_sol S) p.
Proof.
  intros Le I. destruct (solving_In S p I) as [I'| ->]; intros i a U Wa [Sa Na].
  - now apply (proj2 (props_behaved p I') i a U Wa).
  - now apply (learned_sound nv vs Inv S Le _ _ i a U Wa).
Qed.

Lemma learned_wakeable S : Forall (legible nv vs) S -> wakeable nv Inv (learned_nogoods (cb_refined cb) triggers S) (learned_ok S) (learned_dead S).
Proof.
  intro Le. unfold learned_ok, learned_dead. destruct enforcing eqn:En; [|constructor; intros; exact Logic.I].
  assert (R : cb_refined cb = false) by (unfold enforcing in En; destruct (cb_restarts cb), (pb_minimise pb), (cb_refined cb); try discriminate; reflexivity).
  rewrite R. apply propagates_wakeable. apply (learned_propagates nv vs Inv joint_stable S Le).
  - apply (below_more_all (length (pb_domains pb)) nv); [apply total_long|assumption].
  - intros v x Iv U. exists (VSimple x). split; [|reflexivity]. apply in_map. apply in_seq. pose proof (Forall_In _ _ _ Below Iv) as B.
    unfold var_below in B. rewrite U in B. lia.
Qed.

(** The relations of the pieces whose scope is decided, and the nogoods. *)
Definition Checked (S : list nogood) (a : assignment) : Prop :=
  Forall (fun r : relation => Forall (decides vs) (fst r) -> snd r a) rs /\
  (enforcing = true -> Forall (fun N => ~ nogood_holds a N) S).

Lemma Forall2_nth {X Y : Type} (P : X -> Y -> Prop) l l' dx dy : Forall2 P l l' -> forall n, (n < length l)%nat -> P (nth n l dx) (nth n l' dy).
Proof. induction 1 as [|x y l l' H _ IH]; intros [|n] Hn; simpl in *; try lia; auto. apply IH. lia. Qed.

Lemma Forall2_len {X Y : Type} (P : X -> Y -> Prop) l l' : Forall2 P l l' -> length l = length l'.
Proof. induction 1; simpl; congruence. Qed.

Lemma search_ingredients d cs : initialise (set_up pb) = Some (d, cs) ->
  exists ok dead : list nogood -> nat -> domains -> Prop,
    (forall S x, Forall (legible nv vs) S -> (x < length (props []))%nat -> wakeable nv Inv (the_prop (props S) x) (ok S x) (dead S x)) /\
    (forall S (e : domains) a, Forall (legible nv vs) S -> domains_ok e -> length e = nv -> inside d e -> Forall (fixed e) vs ->
       (forall x, (x < length (props []))%nat -> false = false -> ok S x e \/ dead S x e) -> within a e -> Checked S a) /\
    (forall v, pb_minimise pb = Some v -> forall S S' x e, (ok S x e -> ok S' x e) /\ (dead S x e -> dead S' x e)).
Proof.
  intro Ei. pose proof initialise_spec as IS. rewrite Ei in IS. destruct IS as (Dk & Ld & Id & Ins & _ & Parts).
  set (ps := su_props (set_up pb)).
  (* one pair of predicates for each propagator *)
  assert (Q : exists ods : list ((domains -> Prop) * (domains -> Prop)),
    Forall2 (fun p od => wakeable nv Inv p (fst od) (snd od)) ps ods /\
    forall pc, In pc pcs -> forall e a, domains_ok e -> length e = nv -> inside d e -> Forall (fixed e) (pc_scope pc) ->
      Forall (fun od => fst od e \/ snd od e) ods -> within a e -> pc_sat pc a).
  { destruct (chain_shape _ _ _ Ch D0) as (_ & _ & _ & P & _). unfold ps. rewrite P. cbn [su_props app].
    cut (forall l, (forall pc, In pc l -> In pc pcs) -> exists ods : list ((domains -> Prop) * (domains -> Prop)),
      Forall2 (fun p od => wakeable nv Inv p (fst od) (snd od)) (flat_map (fun pc => in_props (pc_in pc)) l) ods /\
      forall pc, In pc l -> forall e a, domains_ok e -> length e = nv -> inside d e -> Forall (fixed e) (pc_scope pc) ->
        Forall (fun od => fst od e \/ snd od e) ods -> within a e -> pc_sat pc a); [intro H; apply (H pcs); auto|].
    induction l as [|pc l IH]; intro Sub.
    - exists []. split; [constructor|]. intros pc [].
    - destruct IH as (ods & F & H); [intros q Iq; apply Sub; now right|].
      destruct (piece_fulfils pc (Sub pc (or_introl eq_refl))) as (pp & ip & FP & FI & Con).
      assert (G : exists ods1, Forall2 (fun p od => wakeable nv Inv p (fst od) (snd od)) (in_props (pc_in pc)) ods1 /\
        forall e, domains_ok e -> length e = nv -> Forall (fun od => fst od e \/ snd od e) ods1 -> Forall (fun s => checked (pc_scope pc) s e) pp).
      { clear -FP. induction FP as [|p s ps ss (_ & _ & o & de & W & C) _ IH].
        - exists []. split; [constructor|]. intros. constructor.
        - destruct IH as (ods1 & F & H). exists ((o, de) :: ods1). split; [constructor; assumption|].
          intros e He Le Fo. inversion Fo; subst. constructor; auto. }
      destruct G as (ods1 & F1 & H1). exists (ods1 ++ ods). split; [simpl; now apply Forall2_app|].
      intros q Iq e a He Le Ie Fx Fo Wa. apply Forall_app in Fo. destruct Fo as [Fo1 Fo2]. destruct Iq as [<-|Iq]; [|now apply (H q Iq e a)].
      apply Con.
      + destruct (chain_pieces _ _ _ Ch D0 pc (Sub pc (or_introl eq_refl))) as (_ & (more & B) & _). apply (within_prefix a _ more). rewrite <- B. now apply Ins, Ie.
      + eapply Forall_impl; [|exact (H1 e He Le Fo1)]. intros s Hs. now apply Hs.
      + apply Forall_forall. intros s Is. destruct (Forall2_right _ _ _ _ FI Is) as (i & Ii & Hi).
        apply (Parts i (pc_sol pc) s); [|assumption|now apply Ie]. apply inits_pieces. exists pc. split; [now apply Sub; left|assumption]. }
  destruct Q as (ods & FO & HO). pose proof (Forall2_len _ _ _ FO) as LO.
  exists (fun S x e => if Nat.ltb x (length ps) then fst (nth x ods (fun _ => True, fun _ => True)) e else learned_ok S e).
  exists (fun S x e => if Nat.ltb x (length ps) then snd (nth x ods (fun _ => True, fun _ => True)) e else learned_dead S e).
  split; [|split].
  - intros S x Le Hx. rewrite <- (solving_length S) in Hx. unfold the_prop, solving_props in *. fold ps in Hx |- *.
    destruct (Nat.ltb_spec x (length ps)) as [Lx|Lx].
    + rewrite app_nth1 by assumption. exact (Forall2_nth _ _ _ _ _ FO x Lx).
    + rewrite app_nth2 by assumption. rewrite app_length in Hx. destruct (cb_restarts cb) as [s|]; [|simpl in Hx; lia].
      simpl in Hx. replace (x - length ps)%nat with 0%nat by lia. simpl. now apply learned_wakeable.
  - intros S e a Le He Lee Ie Fx OK Wa. split.
    + rewrite <- Rel. apply Forall_map. apply Forall_forall. intros pc Ip Dec. apply (HO pc Ip e a); auto.
      * apply Forall_forall. intros v Iv. apply decides_fixed; auto.
        -- apply (below_more (length (pb_domains pb)) nv); [apply total_long|]. exact (Forall_In _ _ _ (Forall_In _ _ _ Scp Ip) Iv).
        -- now apply (Forall_In _ _ _ Dec).
      * apply Forall_forall. intros od Iod. destruct (In_nth _ _ (fun _ => True, fun _ => True) Iod) as (x & Hx & <-).
        assert (Hx' : (x < length ps)%nat) by (unfold domains, iset in *; lia). specialize (OK x). unfold solving_props in OK. fold ps in OK. rewrite app_length in OK.
        assert (Lx : Nat.ltb x (length ps) = true) by now apply Nat.ltb_lt. rewrite Lx in OK. apply OK; [lia|reflexivity].
    + intros En. apply spared_conds. specialize (OK (length ps)). unfold solving_props in OK. fold ps in OK. rewrite app_length in OK.
      unfold learned_ok, learned_dead in OK. rewrite En in OK. rewrite Nat.ltb_irrefl in OK. unfold enforcing in En. destruct (cb_restarts cb); [|discriminate].
      simpl in OK. destruct OK as [O|O]; [lia|reflexivity| |]; [now apply O|now apply O].
  - intros v Ev S S' x e. unfold learned_ok, learned_dead, enforcing. rewrite Ev. destruct (cb_restarts cb), (Nat.ltb x (length ps)); tauto.
Qed.

End Joint.

(** ** What a call of solve does *)

Section Solve.
Variable abort : nat -> bool.
Variable fuel depth tries : nat.
Variable cb : callbacks.
Variable pb : problem.
Variable rs : list relation.
Variable vs : list var_id.
Hypothesis HA : stays_set abort.
Hypothesis HP : poses pb rs.
Hypothesis HB : exhaustive pb vs (cb_branch cb).
Hypothesis HV : forall v, pb_minimise pb = Some v -> var_below (length (pb_domains pb)) v /\ decides vs v.

Lemma objective_fixed : forall v, pb_minimise pb = Some v -> var_below (all_vars pb) v /\
  forall d : domains, domains_ok d -> length d = all_vars pb -> Forall (fixed d) vs -> fixed d v.
Proof.
  intros v Ev. destruct (HV v Ev) as [B Dv]. destruct HP as [D0 FK]. destruct HB as [Be _].
  destruct (install_chain (pb_domains pb) _ _ FK (mk_setup (pb_domains pb) [] [] []) []) as (pcs & Rel & Ch & Loc & Scp); [now rewrite app_nil_r|assumption|].
  assert (Bv : var_below (all_vars pb) v) by (apply (below_more (length (pb_domains pb))); [now apply (total_long pb pcs)|assumption]).
  split; [assumption|]. intros d Hd Ld Fx. now apply (decides_fixed pb pcs D0 Ch vs Be).
Qed.

(** Everything that is known about the outcome. *)
Lemma solve_spec oc : solve abort fuel depth tries cb pb = Some oc ->
  oc_threw oc = false /\ obeyed oc /\
  Forall (fun d => domains_ok d /\ Forall (fixed d) vs /\ forall a, within a d -> within a (pb_domains pb) /\
    Forall (fun r : relation => Forall (decides vs) (fst r) -> snd r a) rs) (reports oc) /\
  ((pb_minimise pb = None -> cb_restarts cb <> None -> cb_refined cb = false) -> ForallOrdPairs (apart vs) (reports oc)) /\
  (pb_minimise pb = None -> oc_completed oc = true -> forall a, solution pb rs a ->
     Exists (fun d => exists a', same_below (length (pb_domains pb)) a a' /\ within a' d) (reports oc)) /\
  (forall v, pb_minimise pb = Some v -> improving v (reports oc) /\
     (oc_completed oc = true -> match reports oc with
                                | [] => forall a, ~ solution pb rs a
                                | d :: _ => exists x, has_value d v x /\ forall a, solution pb rs a -> x <= var_value a v
                                end)).
Proof.
  intro E. destruct HP as [D0 FK]. destruct HB as [Be Sp].
  destruct (install_chain (pb_domains pb) _ _ FK (mk_setup (pb_domains pb) [] [] []) []) as (pcs & Rel & Ch & Loc & Scp); [now rewrite app_nil_r|assumption|].
  fold (set_up pb) in Ch.
  pose proof (initialise_spec pb rs pcs D0 Rel Ch Loc) as IS. unfold solve in E.
  destruct (initialise (set_up pb)) as [[d cs]|] eqn:Ei.
  - destruct IS as (Dk & Ld & Id & Ins & Ex & _).
    destruct (search_ingredients pb rs pcs D0 Rel Ch Loc Scp cb vs Be d cs Ei) as (ok & dead & HK & HC & HM).
    destruct (search _ _ _ _ _ _ _ _ _ _ _ _) as [[v g]|] eqn:Se; [|discriminate]. injection E as <-.
    destruct (search_spec (solving_props cb pb) (fun _ => false) abort fuel depth (pb_minimise pb) (cb_branch cb) (cb_solution cb) (cb_trace cb) (cb_restarts cb)
      (all_vars pb) (joint (su_domains (set_up pb)) pcs) d (joint_sol pcs) (Checked pb rs cb vs) vs ok dead
      (solving_length pb cb) (solving_behaved pb pcs D0 Ch cb vs) (joint_stable pb pcs D0 Ch) HA (solving_sound pb pcs D0 Ch cb vs)
      HK HC HM Sp objective_fixed (fun a => Forall (fun r : relation => Forall (decides vs) (fst r) -> snd r a) rs) (fun S a C => proj1 C)
      (mk_state [d] [cs] [[]] []) tries v g) as (V & An & RO & Im & Re & Co).
    + constructor; cbn; auto. repeat split; discriminate.
    + reflexivity.
    + exact Se.
    + cbn [oc_threw oc_completed oc_log reports]. unfold reports, obeyed. cbn [oc_log oc_completed]. fold (g_reports g).
      assert (RO' : Forall (fun d0 => domains_ok d0 /\ Forall (fixed d0) vs /\ forall a, within a d0 -> within a (pb_domains pb) /\
        Forall (fun r : relation => Forall (decides vs) (fst r) -> snd r a) rs) (g_reports g)).
      { eapply Forall_impl; [|exact RO]. intros e (He & Le & Fe & We). split; [assumption|]. split; [assumption|]. intros a Wa. destruct (We a Wa) as (Wd & Ba & _).
        split; [|assumption]. apply Ins in Wd. destruct (total_more pb pcs D0 Ch) as (more & Em). rewrite Em in Wd. now apply within_prefix in Wd. }
      split; [destruct V as [-> | ->]; reflexivity|]. split; [|split; [|split; [|split]]].
      * destruct V as [-> | ->]; exact An.
      * exact RO'.
      * intro Rf. apply Re. intros O Sc S a Ck. apply (proj2 Ck). unfold enforcing. rewrite O.
        destruct (cb_restarts cb); [|congruence]. now rewrite (Rf O Sc).
      * intros O Cm a Sa. destruct V as [-> | ->]; [|discriminate]. destruct (Ex a Sa) as (a' & Sb & Wd & So).
        specialize (Co eq_refl a' Wd So). unfold covered in Co. rewrite O in Co. apply Exists_exists in Co. destruct Co as (e & Ie & We).
        apply Exists_exists. eauto.
      * intros w O. split.
        -- clear -Im O. rewrite O in Im. remember (None : option Z) as b0 eqn:Eb. remember (g_reports g) as rps. clear Heqrps. remember (g_best g) as bb. clear Heqbb.
           induction Im as [b|b e new b' F _ _|b e new b' u x Eu H IH Hv Lt]; [constructor|discriminate|]. injection Eu as <-. specialize (IH Eb).
           inversion H as [|? ? ? ? F|b2 d2 new2 b2' u2 x2 Eu2 H2 Hv2 Lt2]; subst; try discriminate.
           ++ econstructor. eassumption.
           ++ injection Eu2 as <-. econstructor; eauto.
        -- intro Cm. destruct V as [-> | ->]; [|discriminate]. specialize (Co eq_refl). unfold covered in Co. rewrite O in Co, Im.
           inversion Im as [| |? e new b' u x Eu H Hv Lt Eb1 Eb2 Eb3]; subst; try congruence.
           ++ intros a Sa. destruct (Ex a Sa) as (a' & Sb & Wd & So). destruct (Co a' Wd So) as (b & Eb & _). congruence.
           ++ injection Eu as <-. exists x. split; [assumption|]. intros a Sa. destruct (Ex a Sa) as (a' & Sb & Wd & So).
              destruct (Co a' Wd So) as (b & Eb & Lb). replace (var_value a w) with (var_value a' w); [|symmetry; apply (value_same (length (pb_domains pb))); [assumption|apply (HV w O)]].
              rewrite <- Eb3 in Eb. injection Eb as <-. exact Lb.
  - injection E as <-. cbn. unfold obeyed, reports. cbn. split; [reflexivity|]. split; [constructor|]. split; [constructor|]. split; [intros _; constructor|]. split.
    + intros _ _ a Sa. destruct (IS a Sa).
    + intros v Ev. split; [constructor|]. intros _. exact IS.
Qed.

End Solve.

(** ** Solving ends *)

Section Ends.
Variable abort : nat -> bool.
Variable fuel depth : nat.
Variable cb : callbacks.
Variable pb : problem.
Variable rs : list relation.
Variable vs : list var_id.
Hypothesis HA : stays_set abort.
Hypothesis HP : poses pb rs.
Hypothesis HB : exhaustive pb vs (cb_branch cb).
Hypothesis HV : forall v, pb_minimise pb = Some v -> var_below (length (pb_domains pb)) v /\ decides vs v.
Hypothesis HG : forall s, cb_restarts cb = Some s -> grows s.
Hypothesis HF : (S (total_size (su_domains (set_up pb))) * S (S (length (su_props (set_up pb)))) <= fuel)%nat.
Hypothesis HD : (total_size (su_domains (set_up pb)) < depth)%nat.

Lemma solve_ends : exists tries oc, solve abort fuel depth tries cb pb = Some oc.
Proof.
  pose proof HP as [D0 FK]. pose proof HB as [Be Sp].
  destruct (install_chain (pb_domains pb) _ _ FK (mk_setup (pb_domains pb) [] [] []) []) as (pcs & Rel & Ch & Loc & Scp); [now rewrite app_nil_r|assumption|].
  fold (set_up pb) in Ch.
  pose proof (initialise_spec pb rs pcs D0 Rel Ch Loc) as IS. unfold solve.
  destruct (initialise (set_up pb)) as [[d cs]|] eqn:Ei; [|exists 0%nat; eauto].
  destruct IS as (Dk & Ld & Id & Ins & _).
  assert (Sz : (total_size d <= total_size (su_domains (set_up pb)))%nat) by (apply total_size_mono; auto; apply (total_ok pb pcs D0 Ch)).
  assert (Pl : (length (solving_props cb pb []) <= S (length (su_props (set_up pb))))%nat).
  { unfold solving_props. rewrite app_length. destruct (cb_restarts cb); simpl; lia. }
  destruct (search_ends (solving_props cb pb) (fun _ => false) abort fuel depth (pb_minimise pb) (cb_branch cb) (cb_solution cb) (cb_trace cb) (cb_restarts cb)
    (all_vars pb) (joint (su_domains (set_up pb)) pcs) d vs
    (solving_length pb cb) (solving_behaved pb pcs D0 Ch cb vs) (joint_stable pb pcs D0 Ch) HA Sp
    (objective_fixed cb pb rs vs HP HB HV) Dk Ld) with (st := mk_state [d] [cs] [[]] (@nil literal) : estate) as (tries & v & g & E).
  - etransitivity; [|exact HF]. apply Nat.mul_le_mono; lia.
  - lia.
  - constructor; cbn; auto. repeat split; discriminate.
  - reflexivity.
  - exact HG.
  - exists tries. rewrite E. eauto.
Qed.

Lemma solve_more tries more oc : solve abort fuel depth tries cb pb = Some oc -> solve abort fuel depth (tries + more) cb pb = Some oc.
Proof.
  clear. unfold solve. destruct (initialise (set_up pb)) as [[d cs]|]; [|auto].
  destruct (search _ _ _ _ _ _ _ _ _ _ tries _) as [[v g]|] eqn:E; [|discriminate]. unfold search in *.
  now rewrite (passes_more _ _ _ _ _ _ _ _ _ _ _ more _ _ _ E).
Qed.

End Ends.

(** A schedule that only gives cutoffs of zero never ends. *)
Lemma zero_cutoffs abort fuel depth cb pb s : cb_restarts cb = Some s -> (forall i, s i = 0%nat) -> initialise (set_up pb) <> None ->
  forall tries, solve abort fuel depth tries cb pb = None.
Proof.
  intros R Z NI tries. unfold solve. destruct (initialise (set_up pb)) as [[d cs]|]; [|congruence]. rewrite R. unfold search.
  assert (H : forall tries index g, passes (solving_props cb pb) (fun _ => false) abort fuel depth (pb_minimise pb) (cb_branch cb) (cb_solution cb) (cb_trace cb) (Some s) tries index g = None).
  { clear -Z. induction tries as [|tries IH]; intros index g; [reflexivity|]. cbn [passes]. unfold run_pass, spent. rewrite Z. cbn [Nat.leb]. apply IH. }
  now rewrite H.
Qed.

Lemma same_below_value n a a' v : same_below n a a' -> var_below n v -> var_value a v = var_value a' v.
Proof. intros S B. destruct v as [x|x neg add|c]; simpl; auto; rewrite (S x B); reflexivity. Qed.

(** ** Constraints without variables or states of their own *)

Lemma simple_means priority d0 (k : constraint) scope sat : (priority < 3)%nat -> local (length d0) sat -> Forall (var_below (length d0)) scope ->
  (forall hidden, domains_ok (d0 ++ hidden) -> correct_on (d0 ++ hidden) k scope sat) -> means d0 (simple_at priority k) scope sat.
Proof.
  intros P Lo Sc C. split; [assumption|]. split; [assumption|]. intros hidden cs Hd. exists sat, (fun _ _ => True).
  constructor; cbn [simple_at in_vars in_states in_props in_inits]; rewrite ?app_nil_r.
  - assumption.
  - apply Forall_map. apply Forall_forall. intros i _. exact P.
  - apply (local_more (length d0)); [unfold domains, iset in *; rewrite app_length; lia|assumption].
  - intros a Wa Sa. exists a. split; [apply same_below_refl|auto].
  - auto.
  - auto.
  - intros nv Inv Ln St Id _. destruct (C hidden Hd nv Inv Ln St (fun d c I => proj1 (Id d c I))) as (_ & _ & pp & ip & FP & FI & Con).
    exists pp, ip. rewrite map_map. cbn [snd]. rewrite map_id. auto.
Qed.
