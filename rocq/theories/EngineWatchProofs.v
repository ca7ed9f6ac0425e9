(** Lemmas about condition watches. *)
From Coq Require Import ZArith List Bool Arith Lia Permutation.
From Verif Require Import Vars State StateSpec Epochs Engine EngineQueueProofs.
Import ListNotations.

Lemma set_nth_app {X} (l1 l2 : list X) x y : set_nth (l1 ++ x :: l2) (length l1) y = l1 ++ y :: l2.
Proof. induction l1; simpl; [reflexivity|]. now rewrite IHl1. Qed.

Lemma swap_remove_split l1 x l2 : exists l, swap_remove (l1 ++ x :: l2) (length l1) = l1 ++ l /\ Permutation l l2.
Proof.
  unfold swap_remove. destruct l2 as [|z l2] using rev_ind.
  - rewrite rev_app_distr. simpl. rewrite set_nth_app. exists []. rewrite removelast_last, app_nil_r. auto.
  - clear IHl2. rewrite app_comm_cons, app_assoc, rev_app_distr. simpl. rewrite <- app_assoc, <- app_comm_cons, set_nth_app.
    exists (z :: l2). split; [|apply Permutation_cons_append].
    rewrite app_comm_cons, app_assoc, removelast_last. reflexivity.
Qed.

Lemma swap_remove_spec ws i x : nth_error ws i = Some x ->
  Permutation (x :: swap_remove ws i) ws /\ length (swap_remove ws i) = pred (length ws) /\
  firstn i (swap_remove ws i) = firstn i ws /\ i < length ws.
Proof.
  intro E. apply nth_error_split in E. destruct E as (l1 & l2 & -> & <-).
  destruct (swap_remove_split l1 x l2) as (l & -> & P). split; [|split; [|split]].
  - rewrite <- Permutation_middle. constructor. now apply Permutation_app_head.
  - rewrite !app_length. simpl. rewrite (Permutation_length P). lia.
  - rewrite !firstn_app, Nat.sub_diag. reflexivity.
  - rewrite app_length. simpl. lia.
Qed.

Lemma firstn_S_nth {X} (l : list X) i x : nth_error l i = Some x -> firstn (S i) l = firstn i l ++ [x].
Proof. revert i; induction l; intros [|i] E; simpl in *; try discriminate; [congruence|]. now rewrite (IHl i E). Qed.

Lemma sweep_spec f fuel : forall i ws ws' gone, sweep f fuel i ws = (ws', gone) ->
  Permutation (gone ++ ws') ws /\ Forall (fun x => f x = true) gone /\ firstn i ws' = firstn i ws /\
  (length ws <= i + fuel -> Forall (fun x => f x = false) (firstn i ws) -> Forall (fun x => f x = false) ws').
Proof.
  induction fuel as [|k IH]; intros i ws ws' gone E; cbn [sweep] in E.
  - injection E as <- <-. simpl. repeat split; auto. intros L F. rewrite firstn_all2 in F by lia. assumption.
  - destruct (nth_error ws i) as [x|] eqn:Ex.
    + destruct (f x) eqn:Fx.
      * destruct (sweep f k i (swap_remove ws i)) as [ws2 gone2] eqn:Es. injection E as <- <-.
        destruct (IH _ _ _ _ Es) as (P & F & H & G). destruct (swap_remove_spec ws i x Ex) as (P' & L' & H' & I).
        split; [|split; [|split]].
        -- rewrite <- P'. simpl. now constructor.
        -- now constructor.
        -- congruence.
        -- intros L Fl. apply G; [lia|]. now rewrite H'.
      * destruct (IH _ _ _ _ E) as (P & F & H & G). assert (I : i < length ws) by (apply nth_error_Some; congruence).
        split; [assumption|]. split; [assumption|]. split.
        -- assert (firstn i (firstn (S i) ws') = firstn i (firstn (S i) ws)) by now rewrite H.
           rewrite !firstn_firstn in H0. now replace (Nat.min i (S i)) with i in H0 by lia.
        -- intros L Fl. apply G; [lia|]. rewrite (firstn_S_nth ws i x Ex). apply Forall_app. auto.
    + injection E as <- <-. simpl. repeat split; auto. intros L F. apply nth_error_None in Ex.
      rewrite firstn_all2 in F by lia. assumption.
Qed.

Lemma sweep_all f ws ws' gone : sweep f (length ws) 0 ws = (ws', gone) ->
  Permutation (gone ++ ws') ws /\ Forall (fun x => f x = true) gone /\ Forall (fun x => f x = false) ws'.
Proof.
  intro E. destruct (sweep_spec f _ _ _ _ _ E) as (P & F & _ & G). split; [assumption|]. split; [assumption|].
  apply G; [lia|]. constructor.
Qed.

Lemma nth_set_ext {X} (def : X) l n x k : nth k (set_ext def l n x) def = if Nat.eqb k n then x else nth k l def.
Proof.
  revert l k. induction n; intros l k.
  - destruct l, k; simpl; auto. now destruct k.
  - destruct l, k; simpl; auto; rewrite IHn; auto. destruct (Nat.eqb k n); auto. now destruct k.
Qed.

Lemma set_ext_length {X} (def : X) l n x : length (set_ext def l n x) = Nat.max (length l) (S n).
Proof. revert l. induction n; intros [|y l]; simpl; auto; try lia; rewrite IHn; simpl; lia. Qed.

(** The watches on a variable after the list on [v] has been replaced, if there is one. *)
Definition put (W : list (list watch)) (v : nat) (ws : list watch) : list (list watch) :=
  if Nat.ltb v (length W) then set_nth W v ws else W.

Lemma nth_put W v ws k : (v < length W \/ ws = []) -> nth k (put W v ws) [] = if Nat.eqb k v then ws else nth k W [].
Proof.
  intro H. unfold put. destruct (Nat.ltb_spec v (length W)).
  - now apply nth_set_nth.
  - destruct H as [H| ->]; [lia|]. destruct (Nat.eqb_spec k v) as [->|]; [|reflexivity]. now apply nth_overflow.
Qed.

Lemma put_length W v ws : length (put W v ws) = length W.
Proof. unfold put. destruct (Nat.ltb v (length W)); [apply set_nth_length|reflexivity]. Qed.

Lemma swept_out W v f ws' gone : sweep f (length (nth v W [])) 0 (nth v W []) = (ws', gone) ->
  v < length W \/ (ws' = [] /\ gone = []).
Proof.
  intro E. destruct (le_lt_dec (length W) v); [|auto]. right.
  rewrite nth_overflow in E by assumption. simpl in E. injection E as <- <-. auto.
Qed.

(** ** Every edit, seen on the watches and the trail *)

(** [W', T'] comes from [W, T] by appending a new watch, or by removing some of
    the watches on one variable, each edit being trailed. *)
Inductive edited : list (list watch) * list watch_edit * nat -> list (list watch) * list watch_edit * nat -> Prop :=
| ed_refl x : edited x x
| ed_add W T m v x : w_id x = m ->
    edited (W, T, m) (set_ext [] W v (nth v W [] ++ [x]), mk_edit true v x :: T, S m)
| ed_remove W T m v ws' gone : Permutation (gone ++ ws') (nth v W []) -> v < length W ->
    edited (W, T, m) (set_nth W v ws', removed_edits v gone ++ T, m)
| ed_trans x y z : edited x y -> edited y z -> edited x z.

Definition wtn (w : wpart) : list (list watch) * list watch_edit * nat := (wp_watches w, wp_trail w, wp_next w).

Lemma register_edited o l pl w : edited (wtn w) (wtn (register_watch o l pl true w)).
Proof.
  unfold register_watch. destruct (lit_underlying l) as [v|]; [|constructor]. cbv [wtn]. cbn.
  apply ed_add. reflexivity.
Qed.

Lemma removed_edited w v f ws' gone (g h i j : _) : sweep f (length (watches_on w v)) 0 (watches_on w v) = (ws', gone) ->
  edited (wtn w) (wtn (mk_wpart (if Nat.ltb v (length (wp_watches w)) then set_nth (wp_watches w) v ws' else wp_watches w)
            (wp_next w) (removed_edits v gone ++ wp_trail w) g h i j)).
Proof.
  intro E. unfold wtn; cbn [wp_watches wp_trail wp_next]. destruct (swept_out _ _ _ _ _ E) as [L|[-> ->]].
  - rewrite (proj2 (Nat.ltb_lt _ _) L). apply ed_remove; [|assumption]. now apply sweep_all in E.
  - destruct (Nat.ltb_spec v (length (wp_watches w))); [|constructor].
    replace (set_nth (wp_watches w) v []) with (set_nth (wp_watches w) v ([] : list watch)) by reflexivity.
    apply (ed_remove _ _ _ v [] []); [|assumption]. now apply sweep_all in E.
Qed.

Lemma clear_on_edited o w v : edited (wtn w) (wtn (clear_watches_on o w v)).
Proof.
  unfold clear_watches_on. destruct (sweep _ _ _ _) as [ws' gone] eqn:E. eapply removed_edited; eauto.
Qed.

Lemma clear_edited o sc : forall w, edited (wtn w) (wtn (clear_watches o sc w)).
Proof.
  induction sc as [|v r IH]; intro w; [constructor|]. simpl. eapply ed_trans; [apply clear_on_edited|apply IH].
Qed.

Lemma fire_edited d v i w : edited (wtn w) (wtn (snd (fire_watches d v i w))).
Proof.
  unfold fire_watches. destruct (sweep _ _ _ _) as [ws' gone] eqn:E. cbn [snd]. eapply removed_edited; eauto.
Qed.

Lemma request_edited props p r w : edited (wtn w) (wtn (request props p w r)).
Proof. destruct r; simpl; [apply register_edited|apply clear_edited|constructor]. Qed.

Lemma requests_edited props p rs : forall w, edited (wtn w) (wtn (fold_left (request props p) rs w)).
Proof. induction rs as [|r rs IH]; intro w; [constructor|]. simpl. eapply ed_trans; [apply request_edited|apply IH]. Qed.

Lemma after_run_edited props p o w : edited (wtn w) (wtn (after_run props p o w)).
Proof. unfold after_run. exact (requests_edited props p (o_edits o) w). Qed.

(** ** Owners *)

(** Every armed or trailed watch satisfies [P]. *)
Definition all_watches (P : watch -> Prop) (x : list (list watch) * list watch_edit * nat) : Prop :=
  (forall v y, In y (nth v (fst (fst x)) []) -> P y) /\ (forall e, In e (snd (fst x)) -> P (ed_watch e)).

(** The owners below [n]. *)
Definition owners_ok (n : nat) (w : wpart) : Prop := all_watches (fun y => w_owner y < n) (wtn w).

Lemma nth_set_ext_nil W v (ws : list watch) k : nth k (set_ext [] W v ws) [] = if Nat.eqb k v then ws else nth k W [].
Proof. apply nth_set_ext. Qed.

Lemma in_removed e v gone : In e (removed_edits v gone) -> exists y, In y gone /\ e = mk_edit false v y.
Proof. unfold removed_edits. rewrite in_map_iff. intros (y & <- & I). exists y. split; [now apply in_rev|reflexivity]. Qed.

Lemma register_owners n o l pl b w : o < n -> owners_ok n w -> owners_ok n (register_watch o l pl b w).
Proof.
  intros Ho [H1 H2]. unfold register_watch. destruct (lit_underlying l) as [v|]; [|split; assumption].
  split; cbn.
  - intros k y. rewrite nth_set_ext_nil. destruct (Nat.eqb k v); [|apply H1]. rewrite in_app_iff. intros [I|[<-|[]]]; [|assumption].
    exact (H1 v y I).
  - destruct b; [|exact H2]. simpl. intros e [<-|I]; [assumption|]. now apply H2.
Qed.

Lemma remove_all_watches P W T m v ws' gone : all_watches P (W, T, m) -> Permutation (gone ++ ws') (nth v W []) -> v < length W ->
  all_watches P (set_nth W v ws', removed_edits v gone ++ T, m).
Proof.
  intros [H1 H2] Pm L. split; cbn.
  - intros k y. rewrite nth_set_nth by assumption. destruct (Nat.eqb k v); [|apply H1]. intro I.
    apply (H1 v). cbn. apply (Permutation_in y Pm). apply in_app_iff. auto.
  - intros e. rewrite in_app_iff. intros [I|I]; [|now apply H2]. apply in_removed in I. destruct I as (y & I & ->). cbn.
    apply (H1 v). cbn. apply (Permutation_in y Pm). apply in_app_iff. auto.
Qed.

Lemma removed_owners n w v f ws' gone g h i j : sweep f (length (watches_on w v)) 0 (watches_on w v) = (ws', gone) ->
  owners_ok n w ->
  owners_ok n (mk_wpart (if Nat.ltb v (length (wp_watches w)) then set_nth (wp_watches w) v ws' else wp_watches w)
            (wp_next w) (removed_edits v gone ++ wp_trail w) g h i j) /\ Forall (fun y => w_owner y < n) gone.
Proof.
  intros E H. split.
  - unfold owners_ok, wtn. cbn [wp_watches wp_trail wp_next]. destruct (Nat.ltb_spec v (length (wp_watches w))).
    + apply remove_all_watches; auto. now apply sweep_all in E.
    + destruct (swept_out _ _ _ _ _ E) as [L|[-> ->]]; [lia|]. exact H.
  - apply sweep_all in E. destruct E as (P & _). apply Forall_forall. intros y I. destruct H as [H1 _]. apply (H1 v). cbn.
    apply (Permutation_in y P). apply in_app_iff. auto.
Qed.

Lemma clear_owners n o sc : forall w, owners_ok n w -> owners_ok n (clear_watches o sc w).
Proof.
  induction sc as [|v r IH]; intros w H; simpl; auto. apply IH. unfold clear_watches_on.
  destruct (sweep _ _ _ _) as [ws' gone] eqn:E. eapply removed_owners in E; eauto. apply E.
Qed.

Lemma fire_owners n d v i w : owners_ok n w ->
  Forall (fun p => p < n) (fst (fire_watches d v i w)) /\ owners_ok n (snd (fire_watches d v i w)).
Proof.
  intro H. unfold fire_watches. destruct (sweep _ _ _ _) as [ws' gone] eqn:E. cbn [fst snd].
  eapply removed_owners in E; eauto. destruct E as [A B]. split; [|exact A].
  apply Forall_map. exact B.
Qed.

Lemma requests_owners props p rs n : p < n -> forall w, owners_ok n w -> owners_ok n (fold_left (request props p) rs w).
Proof.
  intro L. induction rs as [|r rs IH]; intros w H; simpl; auto. apply IH. destruct r; simpl.
  - now apply register_owners.
  - now apply clear_owners.
  - exact H.
Qed.

Lemma after_run_owners props p o n w : p < n -> owners_ok n w -> owners_ok n (after_run props p o w).
Proof. intros L H. exact (requests_owners props p (o_edits o) n L w H). Qed.

Lemma install_owners props : owners_ok (length props) (e_watch (installed_engine props)).
Proof.
  unfold installed_engine. cbn.
  assert (G : forall l w, Forall (fun p => p < length props) l -> owners_ok (length props) w ->
     owners_ok (length props) (fold_left (install_watches props) l w)).
  { induction l as [|p l IH]; intros w F H; simpl; auto. inversion F; subst. apply IH; auto.
    unfold install_watches. generalize (p_refined (the_prop props p)). intro rs. revert w H.
    induction rs as [|r rs IHr]; intros w H; simpl; auto. apply IHr. now apply register_owners. }
  apply G.
  - apply Forall_forall. intros p I. apply in_seq in I. lia.
  - split; cbn; [intros v y|tauto]. destruct v; simpl; tauto.
Qed.

(** ** Undoing *)

Definition weq (W W' : list (list watch)) : Prop := forall v, Permutation (nth v W []) (nth v W' []).

(** A watch is determined by its number. *)
Definition functional (P : watch -> Prop) : Prop := forall x y, P x -> P y -> w_id x = w_id y -> x = y.

Lemma weq_refl W : weq W W.
Proof. intro v. reflexivity. Qed.
Lemma weq_sym W W' : weq W W' -> weq W' W.
Proof. intros H v. now symmetry. Qed.
Lemma weq_trans W1 W2 W3 : weq W1 W2 -> weq W2 W3 -> weq W1 W3.
Proof. intros A B v. now rewrite (A v), (B v). Qed.

Lemma find_id_spec id ws : forall i,
  match find_id id i ws with
  | Some k => exists y, nth_error ws (k - i) = Some y /\ w_id y = id /\ i <= k
  | None => forall y, In y ws -> w_id y <> id
  end.
Proof.
  induction ws as [|x r IH]; intro i; simpl; [tauto|].
  destruct (Nat.eqb_spec (w_id x) id) as [E|N].
  - exists x. rewrite Nat.sub_diag. auto.
  - specialize (IH (S i)). destruct (find_id id (S i) r) as [k|].
    + destruct IH as (y & A & B & C). exists y. split; [|split; [assumption|lia]].
      replace (k - i) with (S (k - S i)) by lia. exact A.
    + intros y [<-|I]; [assumption|]. now apply IH.
Qed.

(** Undoing an addition removes the watch with that number, if present. *)
Definition undone_list (e : watch_edit) (ws : list watch) : list watch :=
  if ed_added e then
    match find_id (w_id (ed_watch e)) 0 ws with Some i => swap_remove ws i | None => ws end
  else ws ++ [ed_watch e].

Lemma undo_edit_list W e : undo_edit W e = set_nth W (ed_var e) (undone_list e (nth (ed_var e) W [])).
Proof. reflexivity. Qed.

Lemma undone_added P e ws : functional P -> ed_added e = true -> P (ed_watch e) -> (forall y, In y ws -> P y) ->
  (In (ed_watch e) ws -> Permutation (ed_watch e :: undone_list e ws) ws) /\
  (~ In (ed_watch e) ws -> undone_list e ws = ws).
Proof.
  intros F A Pe Pw. unfold undone_list. rewrite A.
  pose proof (find_id_spec (w_id (ed_watch e)) ws 0) as S.
  destruct (find_id (w_id (ed_watch e)) 0 ws) as [k|].
  - destruct S as (y & E & I & _). rewrite Nat.sub_0_r in E.
    assert (In y ws) by (eapply nth_error_In; eauto). assert (y = ed_watch e) by (apply F; auto). subst y.
    split; [|tauto]. intros _. now apply swap_remove_spec in E.
  - split; [|reflexivity]. intro I. exfalso. now apply (S (ed_watch e)).
Qed.

Lemma undone_respects P e ws ws' : functional P -> P (ed_watch e) -> (forall y, In y ws -> P y) ->
  Permutation ws ws' -> Permutation (undone_list e ws) (undone_list e ws').
Proof.
  intros F Pe Pw Pm. destruct (ed_added e) eqn:A.
  - destruct (undone_added P e ws F A Pe Pw) as [H1 H2].
    assert (Pw' : forall y, In y ws' -> P y) by (intros y I; apply Pw; now apply (Permutation_in y (Permutation_sym Pm))).
    destruct (undone_added P e ws' F A Pe Pw') as [H3 H4].
    assert (D : In (ed_watch e) ws \/ ~ In (ed_watch e) ws).
    { pose proof (find_id_spec (w_id (ed_watch e)) ws 0) as S.
      destruct (find_id (w_id (ed_watch e)) 0 ws) as [k|].
      - destruct S as (y & E & I & _). left. apply nth_error_In in E. now rewrite <- (F y (ed_watch e) (Pw y E) Pe I).
      - right. intro I. now apply (S _ I). }
    destruct D as [D|D].
    + apply (Permutation_cons_inv (a := ed_watch e)). rewrite (H1 D), (H3 (Permutation_in _ Pm D)). assumption.
    + rewrite (H2 D), H4; [assumption|]. intro I. apply D. now apply (Permutation_in _ (Permutation_sym Pm)).
  - unfold undone_list. rewrite A. now apply Permutation_app_tail.
Qed.

Lemma undo_edit_respects P e W W' : functional P -> P (ed_watch e) -> (forall v y, In y (nth v W []) -> P y) ->
  ed_var e < length W -> ed_var e < length W' -> weq W W' -> weq (undo_edit W e) (undo_edit W' e).
Proof.
  intros F Pe Pw L L' H v. rewrite !undo_edit_list, !nth_set_nth by assumption.
  destruct (Nat.eqb v (ed_var e)); [|apply H]. eapply undone_respects; eauto.
Qed.

Lemma undo_edit_keeps P e W : functional P -> P (ed_watch e) -> (forall v y, In y (nth v W []) -> P y) ->
  (forall v y, In y (nth v (undo_edit W e) []) -> P y).
Proof.
  intros F Pe Pw v y. rewrite undo_edit_list.
  destruct (le_lt_dec (length W) (ed_var e)) as [L|L].
  - assert (E : set_nth W (ed_var e) (undone_list e (nth (ed_var e) W [])) = W).
    { generalize (undone_list e (nth (ed_var e) W [])) as z. revert L. generalize (ed_var e). clear.
      induction W; intros n L z; destruct n; simpl in *; auto; [lia|]. f_equal. apply IHW. lia. }
    rewrite E. apply Pw.
  - rewrite nth_set_nth by assumption. destruct (Nat.eqb v (ed_var e)); [|apply Pw].
    destruct (ed_added e) eqn:A.
    + destruct (undone_added P e (nth (ed_var e) W []) F A Pe (Pw _)) as [H1 H2].
      intro I. unfold undone_list in *. rewrite A in *.
      pose proof (find_id_spec (w_id (ed_watch e)) (nth (ed_var e) W []) 0) as S.
      destruct (find_id (w_id (ed_watch e)) 0 (nth (ed_var e) W [])) as [k|]; [|now apply (Pw (ed_var e))].
      destruct S as (z & E & _ & _). rewrite Nat.sub_0_r in E. apply swap_remove_spec in E. destruct E as (Pm & _).
      apply (Pw (ed_var e)). apply (Permutation_in y Pm). now right.
    + unfold undone_list. rewrite A, in_app_iff. intros [I|[<-|[]]]; [now apply (Pw (ed_var e))|assumption].
Qed.

Lemma undo_edit_length W e : length (undo_edit W e) = length W.
Proof. apply set_nth_length. Qed.

Lemma undo_all_respects P es : functional P -> (forall e, In e es -> P (ed_watch e)) -> forall W W',
  (forall v y, In y (nth v W []) -> P y) ->
  (forall e, In e es -> ed_var e < length W /\ ed_var e < length W') -> weq W W' ->
  weq (fold_left undo_edit es W) (fold_left undo_edit es W').
Proof.
  intro F. induction es as [|e es IH]; intros Pe W W' Pw L H; simpl; auto.
  apply IH.
  - intros. apply Pe. now right.
  - apply (undo_edit_keeps P); auto. apply Pe. now left.
  - intros e' I. rewrite !undo_edit_length. apply L. now right.
  - apply (undo_edit_respects P); auto; [apply Pe; now left| |]; apply L; now left.
Qed.

(** Consistency of watches and trail. *)
Definition ctx_ok (x : list (list watch) * list watch_edit * nat) : Prop :=
  let '(W, T, m) := x in
  exists P : watch -> Prop, functional P /\ (forall y, P y -> w_id y < m) /\ all_watches P x /\
    (forall e, In e T -> ed_var e < length W).

Definition len (x : list (list watch) * list watch_edit * nat) := length (fst (fst x)).

Lemma edited_spec x y : edited x y -> ctx_ok x ->
  ctx_ok y /\ exists es, snd (fst y) = es ++ snd (fst x) /\ weq (fold_left undo_edit es (fst (fst y))) (fst (fst x)).
Proof.
  induction 1 as [x|W T m v x E|W T m v ws' gone Pm L|x y z H1 IH1 H2 IH2]; intro C.
  - split; [assumption|]. exists []. split; [reflexivity|apply weq_refl].
  - destruct C as (P & F & B & [A1 A2] & V). cbn in A1, A2.
    set (W' := set_ext [] W v (nth v W [] ++ [x])).
    assert (LW : length W' = Nat.max (length W) (S v)) by apply set_ext_length.
    split.
    + exists (fun y => P y \/ y = x). split; [|split; [|split]].
      * intros a b [Pa| ->] [Pb| ->] I; auto.
        -- apply B in Pa. lia.
        -- apply B in Pb. lia.
      * intros y [Py| ->]; [apply B in Py; lia|lia].
      * split; cbn.
        -- intros k y. unfold W'. rewrite nth_set_ext_nil. destruct (Nat.eqb k v).
           ++ rewrite in_app_iff. intros [I|[<-|[]]]; [left; eauto|auto].
           ++ intro I. left. eauto.
        -- intros e [<-|I]; cbn; auto.
      * intros e [<-|I]; cbn; fold W'; rewrite LW; [lia|]. specialize (V e I). lia.
    + exists [mk_edit true v x]. split; [reflexivity|]. cbn [fold_left fst snd]. fold W'. intro k.
      rewrite undo_edit_list. cbn [ed_var]. rewrite nth_set_nth by lia.
      assert (EV : nth v W' [] = nth v W [] ++ [x]) by (unfold W'; rewrite nth_set_ext_nil, Nat.eqb_refl; reflexivity).
      destruct (Nat.eqb_spec k v) as [->|N].
      * rewrite EV. destruct (undone_added (fun y => P y \/ y = x) (mk_edit true v x) (nth v W [] ++ [x])) as [H _]; auto.
        -- intros a b [Pa| ->] [Pb| ->] I; auto; [apply B in Pa; lia|apply B in Pb; lia].
        -- intros y. rewrite in_app_iff. intros [I|[<-|[]]]; [left; eauto|auto].
        -- apply (Permutation_cons_inv (a := x)). eapply Permutation_trans; [apply H|].
           ++ rewrite in_app_iff. cbn. auto.
           ++ apply Permutation_sym, Permutation_cons_append.
      * unfold W'. rewrite nth_set_ext_nil. destruct (Nat.eqb_spec k v); [congruence|reflexivity].
  - destruct C as (P & F & B & A & V).
    assert (A' : all_watches P (set_nth W v ws', removed_edits v gone ++ T, m)) by now apply remove_all_watches.
    split.
    + exists P. split; [assumption|]. split; [assumption|]. split; [assumption|].
      intros e. rewrite set_nth_length, in_app_iff. intros [I|I]; [|auto]. apply in_removed in I.
      destruct I as (y & _ & ->). exact L.
    + exists (removed_edits v gone). split; [reflexivity|]. cbn [fst].
      assert (G : forall g W1, v < length W1 ->
        nth v (fold_left undo_edit (map (fun y => mk_edit false v y) g) W1) [] = nth v W1 [] ++ g /\
        forall k, k <> v -> nth k (fold_left undo_edit (map (fun y => mk_edit false v y) g) W1) [] = nth k W1 []).
      { induction g as [|y g IH]; intros W1 L1; cbn [map fold_left].
        - split; [now rewrite app_nil_r|auto].
        - destruct (IH (undo_edit W1 (mk_edit false v y))) as [G1 G2]; [now rewrite undo_edit_length|].
          rewrite G1. split.
          + rewrite undo_edit_list. cbn [ed_var]. rewrite nth_set_nth, Nat.eqb_refl by assumption.
            unfold undone_list; cbn. now rewrite <- app_assoc.
          + intros k N. rewrite G2 by assumption. rewrite undo_edit_list. cbn [ed_var].
            rewrite nth_set_nth_other by assumption. reflexivity. }
      destruct (G (rev gone) (set_nth W v ws')) as [G1 G2]; [now rewrite set_nth_length|].
      intro k. unfold removed_edits. destruct (Nat.eq_dec k v) as [->|N].
      * rewrite G1, nth_set_nth, Nat.eqb_refl by assumption. rewrite <- Pm, <- Permutation_rev. apply Permutation_app_comm.
      * rewrite G2 by assumption. rewrite nth_set_nth_other by assumption. reflexivity.
  - destruct (IH1 C) as (C1 & es1 & E1 & Q1). destruct (IH2 C1) as (C2 & es2 & E2 & Q2). split; [assumption|].
    exists (es2 ++ es1). split; [rewrite E2, E1, app_assoc; reflexivity|]. rewrite fold_left_app.
    eapply weq_trans; [|exact Q1].
    destruct z as [[Wz Tz] mz], y as [[Wy Ty] my], x as [[Wx Tx] mx]. cbn [fst snd] in *.
    destruct C2 as (P & F & B & [A1 A2] & V). cbn in A1, A2.
    assert (Pes : forall e, In e (es2 ++ es1) -> P (ed_watch e)).
    { intros e I. apply A2. rewrite E2, E1, app_assoc. apply in_app_iff. auto. }
    assert (Les : forall es W, length (fold_left undo_edit es W) = length W).
    { induction es as [|e es IH]; intros W; simpl; auto. rewrite IH. apply undo_edit_length. }
    apply (undo_all_respects P); auto.
    + intros e I. apply Pes, in_app_iff. auto.
    + assert (K : forall es W, (forall e, In e es -> P (ed_watch e)) -> (forall v y, In y (nth v W []) -> P y) ->
        forall v y, In y (nth v (fold_left undo_edit es W) []) -> P y).
      { induction es as [|e es IH]; intros W Pe Pw; simpl; auto. apply IH; [intros; apply Pe; now right|].
        apply undo_edit_keeps; auto. apply Pe. now left. }
      apply K; auto. intros e I. apply Pes, in_app_iff. auto.
    + intros e I. rewrite Les. split; [apply V; rewrite E2, E1, app_assoc; apply in_app_iff; left; apply in_app_iff; auto|].
      destruct C1 as (P1 & _ & _ & _ & V1). apply V1. rewrite E1. apply in_app_iff. auto.
Qed.

(** ** Scratch values *)

Definition sget (S : list (list Z)) (o k : nat) : Z := nth k (nth o S []) 0%Z.

Definition seq_eq (S S' : list (list Z)) : Prop := forall o k, sget S o k = sget S' o k.

Definition in_range (S : list (list Z)) (e : nat * nat * Z) : Prop :=
  fst (fst e) < length S /\ snd (fst e) < length (nth (fst (fst e)) S []).

Lemma undo_scratch_get S e o k : in_range S e ->
  sget (undo_scratch S e) o k = if Nat.eqb o (fst (fst e)) && Nat.eqb k (snd (fst e)) then snd e else sget S o k.
Proof.
  destruct e as [[o' k'] x]. unfold in_range, undo_scratch, sget. cbn [fst snd]. intros [L1 L2].
  rewrite nth_set_nth by assumption. destruct (Nat.eqb_spec o o') as [->|]; cbn [andb]; [|reflexivity].
  rewrite nth_set_nth by assumption. reflexivity.
Qed.

Lemma undo_scratch_range S e e' : in_range S e' -> in_range (undo_scratch S e) e'.
Proof.
  destruct e as [[o k] x], e' as [[o' k'] x']. unfold in_range, undo_scratch. cbn [fst snd].
  rewrite set_nth_length. intros [L1 L2]. split; [assumption|].
  destruct (le_lt_dec (length S) o).
  - rewrite nth_set_nth_other by lia. assumption.
  - rewrite nth_set_nth by assumption. destruct (Nat.eqb_spec o' o) as [->|]; [|assumption]. now rewrite set_nth_length.
Qed.

Lemma undo_scratches_respect es : forall S S', Forall (in_range S) es -> Forall (in_range S') es -> seq_eq S S' ->
  seq_eq (fold_left undo_scratch es S) (fold_left undo_scratch es S').
Proof.
  induction es as [|e es IH]; intros S S' R R' H; simpl; auto. inversion R as [|? ? R1 R2]; inversion R' as [|? ? R1' R2']; subst.
  apply IH.
  - eapply Forall_impl; [|exact R2]. intros. now apply undo_scratch_range.
  - eapply Forall_impl; [|exact R2']. intros. now apply undo_scratch_range.
  - intros o k. rewrite !undo_scratch_get by assumption. now rewrite H.
Qed.

(** [w'] comes from [w] by writes to scratch values, each trailed. *)
Definition sst (w : wpart) := (wp_scratch w, wp_strail w).

Definition scratched (x y : list (list Z) * list (nat * nat * Z)) : Prop :=
  Forall (in_range (fst x)) (snd x) ->
  Forall (in_range (fst y)) (snd y) /\
  exists es, snd y = es ++ snd x /\ seq_eq (fold_left undo_scratch es (fst y)) (fst x).

Lemma scratched_refl x : scratched x x.
Proof. intro H. split; [assumption|]. exists []. split; [reflexivity|]. intros o k. reflexivity. Qed.

Lemma scratched_trans x y z : scratched x y -> scratched y z -> scratched x z.
Proof.
  intros A B H. destruct (A H) as (H1 & es1 & E1 & Q1). destruct (B H1) as (H2 & es2 & E2 & Q2).
  split; [assumption|]. exists (es2 ++ es1). split; [rewrite E2, E1, app_assoc; reflexivity|].
  rewrite fold_left_app. rewrite E2, E1 in H2. apply Forall_app in H2. destruct H2 as [H2 H2']. apply Forall_app in H2'. destruct H2' as [H2' _].
  rewrite E1 in H1. apply Forall_app in H1. destruct H1 as [H1 _].
  intros o k. rewrite (undo_scratches_respect es1 (fold_left undo_scratch es2 (fst z)) (fst y)); [apply Q1| |assumption|assumption].
  assert (G : forall es S, Forall (in_range S) es1 -> Forall (in_range (fold_left undo_scratch es S)) es1).
  { induction es as [|e es IH]; intros S F; simpl; auto. apply IH. eapply Forall_impl; [|exact F].
    intros. now apply undo_scratch_range. }
  now apply G.
Qed.

Lemma scratch_set_scratched o k x w : scratched (sst w) (sst (scratch_set o k x w)).
Proof.
  intro H. unfold sst, scratch_set in *. cbn [wp_scratch wp_strail fst snd] in *.
  set (S := wp_scratch w) in *. set (S' := set_ext [] S o _).
  assert (LS : length S' = Nat.max (length S) (Datatypes.S o)) by apply set_ext_length.
  assert (NS : forall m, nth m S' [] = if Nat.eqb m o then set_ext 0%Z (nth o S []) k x else nth m S []) by (intro; apply nth_set_ext).
  assert (R : in_range S' (o, k, scratch_get w o k)).
  { split; cbn [fst snd]; [lia|]. rewrite NS, Nat.eqb_refl, set_ext_length. lia. }
  split.
  - constructor; [assumption|]. eapply Forall_impl; [|exact H]. intros [[o' k'] y] [L1 L2]. cbn [fst snd] in *.
    split; cbn [fst snd]; [lia|]. rewrite NS. destruct (Nat.eqb_spec o' o) as [->|]; [|assumption]. rewrite set_ext_length. lia.
  - exists [(o, k, scratch_get w o k)]. split; [reflexivity|]. cbn [fold_left]. intros o' k'.
    rewrite undo_scratch_get by assumption. cbn [fst snd]. destruct (Nat.eqb_spec o' o) as [->|N]; cbn [andb].
    + destruct (Nat.eqb_spec k' k) as [->|N']; [reflexivity|]. unfold sget. rewrite NS, Nat.eqb_refl, nth_set_ext.
      destruct (Nat.eqb_spec k' k); [contradiction|reflexivity].
    + unfold sget. rewrite NS. destruct (Nat.eqb_spec o' o); [contradiction|reflexivity].
Qed.

Lemma requests_scratched props p rs : forall w, scratched (sst w) (sst (fold_left (request props p) rs w)).
Proof.
  induction rs as [|r rs IH]; intro w; [apply scratched_refl|]. cbn [fold_left].
  eapply scratched_trans; [|apply IH]. destruct r; cbn [request].
  - unfold register_watch. destruct (lit_underlying l); apply scratched_refl.
  - unfold clear_watches. generalize (scope (the_prop props p)) as sc. clear. intro sc. revert w.
    induction sc as [|v sc IH]; intro w; [apply scratched_refl|]. cbn [fold_left]. eapply scratched_trans; [|apply IH].
    unfold clear_watches_on. destruct (sweep _ _ _ _). apply scratched_refl.
  - apply scratch_set_scratched.
Qed.

Lemma after_run_scratched props p o w : scratched (sst w) (sst (after_run props p o w)).
Proof. exact (requests_scratched props p (o_edits o) w). Qed.

Lemma fire_scratched d v i w : scratched (sst w) (sst (snd (fire_watches d v i w))).
Proof. unfold fire_watches. destruct (sweep _ _ _ _). apply scratched_refl. Qed.
