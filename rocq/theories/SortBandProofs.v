(** Lemmas about intervals of positions. *)
From Coq Require Import ZArith List Bool Arith Lia Relations Operators_Properties.
From Verif Require Import Scc SccSpec SccProofs Matching MatchingSpec MatchingProofs GacAllDifferent GacGraphProofs Sortedness.
Import ListNotations.

(** ** Bands *)
Lemma in_band_In n lo hi a c i : In i (in_band n lo hi (a, c)) <-> i < n /\ a <= lo i /\ hi i <= c.
Proof.
  unfold in_band. rewrite filter_In, in_seq, andb_true_iff, !Nat.leb_le. cbn [fst snd]. lia.
Qed.

Lemma all_bands_In n a c : In (a, c) (all_bands n) <-> a <= c <= n.
Proof.
  unfold all_bands. rewrite in_flat_map. split.
  - intros (x & Ix & I). apply in_map_iff in I. destruct I as (y & E & Iy). injection E as -> ->. apply in_seq in Ix, Iy. lia.
  - intro H. exists a. split; [apply in_seq; lia|]. apply in_map, in_seq. lia.
Qed.

Lemma find_band_some n lo hi : find_band n lo hi <> [] -> exists a c, a <= c <= n /\ find_band n lo hi = in_band n lo hi (a, c) /\ c - a < length (in_band n lo hi (a, c)).
Proof.
  unfold find_band. destruct (find _ _) as [[a c]|] eqn:F; [|congruence]. intros _. apply find_some in F. destruct F as [I L]. apply all_bands_In in I. apply Nat.ltb_lt in L.
  exists a, c. auto.
Qed.

Lemma find_band_none n lo hi : find_band n lo hi = [] -> forall a c, a <= c <= n -> length (in_band n lo hi (a, c)) <= c - a.
Proof.
  unfold find_band. destruct (find _ _) as [[a' c']|] eqn:F; intros E a c H.
  - apply find_some in F. destruct F as [_ L]. apply Nat.ltb_lt in L. rewrite E in L. simpl in L. lia.
  - pose proof (find_none _ _ F (a, c) (proj2 (all_bands_In n a c) H)) as X. apply Nat.ltb_ge in X. exact X.
Qed.

Lemma find_band_has n lo hi a c (l : list nat) : a <= c <= n -> NoDup l -> (forall i, In i l -> i < n /\ a <= lo i /\ hi i <= c) -> c - a < length l -> find_band n lo hi <> [].
Proof.
  intros H ND I L E. pose proof (find_band_none n lo hi E a c H).
  assert (length l <= length (in_band n lo hi (a, c))); [|lia]. apply NoDup_incl_length; [assumption|]. intros i Ii. apply in_band_In. auto.
Qed.

Lemma pigeonhole n (M : nat -> nat) a c (l : list nat) : (forall i j, i < n -> j < n -> M i = M j -> i = j) -> NoDup l -> (forall i, In i l -> i < n /\ a <= M i < c) -> length l <= c - a.
Proof.
  intros Inj ND I. rewrite <- (map_length M l), <- (seq_length (c - a) a). apply NoDup_incl_length.
  - apply map_NoDup_in; [|assumption]. intros x y Ix Iy. apply Inj; now apply I.
  - intros y Iy. apply in_map_iff in Iy. destruct Iy as (x & <- & Ix). apply in_seq. destruct (I x Ix). lia.
Qed.

(** What has to go to a band with too little room cannot. *)
Lemma band_absurd n lo hi (M : nat -> nat) : (forall i j, i < n -> j < n -> M i = M j -> i = j) ->
  (forall i, In i (find_band n lo hi) -> lo i <= M i < hi i) -> find_band n lo hi = [].
Proof.
  intros Inj I. destruct (find_band n lo hi) eqn:E; [reflexivity|]. exfalso. rewrite <- E in I.
  destruct (find_band_some n lo hi) as (a & c & H & F & L); [congruence|]. rewrite F in I.
  assert (length (in_band n lo hi (a, c)) <= c - a); [|lia]. apply (pigeonhole n M); [assumption|apply NoDup_filter, seq_NoDup|].
  intros i Ii. specialize (I i Ii). apply in_band_In in Ii. lia.
Qed.

Lemma find_band_ext n lo hi lo' hi' : (forall i, i < n -> lo i = lo' i /\ hi i = hi' i) -> find_band n lo hi = [] -> find_band n lo' hi' = [].
Proof.
  intros E F. destruct (find_band n lo' hi') eqn:F'; [reflexivity|]. exfalso.
  destruct (find_band_some n lo' hi') as (a & c & H & _ & L); [congruence|]. apply (find_band_has n lo hi a c (in_band n lo' hi' (a, c))) in F; auto.
  - apply NoDup_filter, seq_NoDup.
  - intros i Ii. apply in_band_In in Ii. destruct (E i ltac:(tauto)). lia.
Qed.

(** The same from the other end. *)
Lemma find_band_mirror n lo hi : (forall i, i < n -> lo i <= n /\ hi i <= n) -> find_band n (fun i => n - hi i) (fun i => n - lo i) <> [] -> find_band n lo hi <> [].
Proof.
  intros B F. destruct (find_band_some _ _ _ F) as (a & c & H & _ & L).
  apply (find_band_has n lo hi (n - c) (n - a) (in_band n (fun i => n - hi i) (fun i => n - lo i) (a, c))); [lia|apply NoDup_filter, seq_NoDup| |lia].
  intros i Ii. apply in_band_In in Ii. destruct (B i ltac:(tauto)). lia.
Qed.

(** ** Sweeps *)
Section Sweep.
Variable n : nat.
Variable enters fits before : nat -> nat -> bool.
Variable key : nat -> Z.
Hypothesis before_yes : forall k i, before k i = true -> (key k <= key i)%Z.
Hypothesis before_no : forall k i, before k i = false -> (key i <= key k)%Z.

Lemma top_some l i : top before l = Some i -> In i l /\ forall k, In k l -> (key i <= key k)%Z.
Proof.
  revert i. induction l as [|x r IH]; intros i; [discriminate|]. cbn [top]. destruct (top before r) as [k|] eqn:T.
  - destruct (IH k eq_refl) as [Ik Mk]. destruct (before k x) eqn:B; intro E; injection E as <-.
    + split; [now right|]. intros y [<-|Iy]; [now apply before_yes|auto].
    + split; [now left|]. apply before_no in B. intros y [<-|Iy]; [lia|]. specialize (Mk y Iy). lia.
  - intro E. injection E as <-. split; [now left|]. intros y [<-|Iy]; [lia|]. destruct r; [destruct Iy|]. cbn [top] in T. destruct (top before r); discriminate.
Qed.

Lemma top_none l : top before l = None -> l = [].
Proof. destruct l as [|x r]; [reflexivity|]. cbn [top]. destruct (top before r); discriminate. Qed.

(** What the positions took, latest first. *)
Inductive swept : list nat -> list nat -> Prop :=
| swept_nil : swept [] []
| swept_cons j i js is : swept js is -> i < n -> ~ In i is -> enters i j = true -> fits i j = true ->
    (forall k, k < n -> ~ In k is -> enters k j = true -> (key i <= key k)%Z) -> swept (j :: js) (i :: is).

Definition stuck (is : list nat) (j : nat) : Prop :=
  (forall k, k < n -> ~ In k is -> enters k j = false) \/
  exists i, i < n /\ ~ In i is /\ enters i j = true /\ fits i j = false /\ forall k, k < n -> ~ In k is -> enters k j = true -> (key i <= key k)%Z.

Lemma untaken_In j is k : In k (filter (fun i => enters i j && negb (existsb (Nat.eqb i) is)) (seq 0 n)) <-> k < n /\ ~ In k is /\ enters k j = true.
Proof.
  rewrite filter_In, in_seq, andb_true_iff, negb_true_iff. rewrite <- not_true_iff_false, existsb_exists. split.
  - intros (B & E & N). split; [lia|]. split; [|assumption]. intro I. apply N. exists k. split; [assumption|apply Nat.eqb_refl].
  - intros (B & N & E). split; [lia|]. split; [assumption|]. intros (x & I & Q). apply Nat.eqb_eq in Q. subst x. contradiction.
Qed.

Lemma sweep_some js : forall done taken r, swept done taken -> sweep_positions n enters fits before js taken = Some r -> swept (rev js ++ done) r.
Proof.
  induction js as [|j js IH]; intros done taken r Sw E; [now injection E as <-|]. cbn [sweep_positions] in E.
  destruct (top before _) as [i|] eqn:T; [|discriminate]. destruct (fits i j) eqn:F; [|discriminate]. apply top_some in T. destruct T as [I Mn]. apply untaken_In in I.
  cbn [rev]. rewrite <- app_assoc. apply (IH (j :: done) (i :: taken) r); [|assumption]. constructor; try tauto. intros k Bk Nk Ek. apply Mn, untaken_In. auto.
Qed.

Lemma sweep_none js : forall done taken, swept done taken -> sweep_positions n enters fits before js taken = None ->
  exists js1 j js2 is, js = js1 ++ j :: js2 /\ swept (rev js1 ++ done) is /\ stuck is j.
Proof.
  induction js as [|j js IH]; intros done taken Sw E; [discriminate|]. cbn [sweep_positions] in E.
  destruct (top before _) as [i|] eqn:T.
  - apply top_some in T. destruct T as [I Mn]. apply untaken_In in I. destruct (fits i j) eqn:F.
    + destruct (IH (j :: done) (i :: taken)) as (js1 & j' & js2 & is & Eq & S1 & St); [|assumption|].
      * constructor; try tauto. intros k Bk Nk Ek. apply Mn, untaken_In. auto.
      * exists (j :: js1), j', js2, is. split; [cbn [app]; congruence|]. split; [|assumption]. cbn [rev]. now rewrite <- app_assoc.
    + exists [], j, js, taken. split; [reflexivity|]. split; [assumption|]. right. exists i. repeat (split; [tauto|]). intros k Bk Nk Ek. apply Mn, untaken_In. auto.
  - apply top_none in T. exists [], j, js, taken. split; [reflexivity|]. split; [assumption|]. left. intros k Bk Nk. apply not_true_iff_false. intro Ek.
    assert (X : In k []) by (rewrite <- T; apply untaken_In; auto). destruct X.
Qed.
End Sweep.

(** What the sweep has done for the first [m] positions, where [lo] and [hi] say when
    something enters and whether it fits. *)
Record glover (n : nat) (lo hi : nat -> nat) (key : nat -> Z) (phi : nat -> nat) (m : nat) : Prop :=
  { gl_below : forall k, k < m -> phi k < n;
    gl_once : forall k k', k < m -> k' < m -> phi k = phi k' -> k = k';
    gl_in : forall k, k < m -> lo (phi k) <= k < hi (phi k);
    gl_best : forall k i, k < m -> i < n -> (forall k', k' < k -> phi k' <> i) -> lo i <= k -> (key (phi k) <= key i)%Z }.

Lemma swept_glover n enters fits key (order : nat -> nat) lo hi m : m <= n ->
  (forall i k, i < n -> k < n -> (enters i (order k) = true <-> lo i <= k)) -> (forall i k, i < n -> k < n -> (fits i (order k) = true <-> k < hi i)) ->
  forall is, swept n enters fits key (rev (map order (seq 0 m))) is -> length is = m /\ glover n lo hi key (fun k => nth k (rev is) 0) m.
Proof.
  induction m as [|m IH]; intros Hm HE HF is Sw.
  - inversion Sw. split; [reflexivity|]. constructor; intros; lia.
  - rewrite seq_S, map_app, rev_app_distr in Sw. cbn [map rev app] in Sw. inversion Sw as [|j i js is' Sw' Bi Ni Ei Fi Mi]; subst.
    destruct (IH ltac:(lia) HE HF is' Sw') as [L [G1 G2 G3 G4]]. split; [simpl; congruence|].
    assert (At : forall k, k < m -> nth k (rev (i :: is')) 0 = nth k (rev is') 0) by (intros k Hk; cbn [rev]; apply app_nth1; rewrite rev_length; lia).
    assert (Last : nth m (rev (i :: is')) 0 = i) by (cbn [rev]; rewrite app_nth2; rewrite rev_length, L; [now rewrite Nat.sub_diag|lia]).
    assert (Isin : forall k, k < m -> In (nth k (rev is') 0) is') by (intros k Hk; apply in_rev, nth_In; rewrite rev_length; lia).
    assert (Inis : forall x, In x is' -> exists k, k < m /\ nth k (rev is') 0 = x).
    { intros x I. apply in_rev in I. apply (In_nth _ _ 0) in I. rewrite rev_length, L in I. exact I. }
    constructor.
    + intros k Hk. destruct (Nat.eq_dec k m) as [->|]; [now rewrite Last|]. rewrite At by lia. apply G1. lia.
    + intros k k' Hk Hk'. destruct (Nat.eq_dec k m) as [->|], (Nat.eq_dec k' m) as [->|]; rewrite ?Last; try rewrite !At by lia; [auto| | |apply G2; lia].
      * intro E. exfalso. apply Ni. rewrite E. apply Isin. lia.
      * intro E. exfalso. apply Ni. rewrite <- E. apply Isin. lia.
    + intros k Hk. destruct (Nat.eq_dec k m) as [->|]; [|rewrite At by lia; apply G3; lia]. rewrite Last. split; [apply HE; auto|apply HF; auto].
    + intros k x Hk Bx Nx Lx. destruct (Nat.eq_dec k m) as [->|].
      * rewrite Last. apply Mi; [assumption| |apply HE; auto]. intro I. destruct (Inis x I) as (k & Hk' & E). apply (Nx k Hk'). now rewrite At.
      * rewrite At by lia. apply G4; auto; [lia|]. intros k' Hk' E. apply (Nx k' Hk'). now rewrite At by lia.
Qed.

(** From some position on, everything below a threshold was taken, and enters there. *)
Lemma glover_crowd n lo hi key phi U m : glover n lo hi key phi m ->
  exists a, a <= m /\ (forall k, a <= k < m -> (key (phi k) <= U)%Z) /\ forall i, i < n -> (key i <= U)%Z -> (forall k, k < a -> phi k <> i) -> a <= lo i.
Proof.
  induction m as [|m IH]; intros [G1 G2 G3 G4].
  - exists 0. split; [lia|]. split; [lia|]. intros; lia.
  - destruct (Z_le_gt_dec (key (phi m)) U) as [C|C].
    + destruct IH as (a & Ha & A & B).
      { constructor; intros; [apply G1| apply G2|apply G3|apply G4]; auto; lia. }
      exists a. split; [lia|]. split; [|assumption]. intros k Hk. destruct (Nat.eq_dec k m) as [->|]; [assumption|]. apply A. lia.
    + exists (S m). split; [lia|]. split; [lia|]. intros i Bi Ki Ni. destruct (Nat.le_gt_cases (lo i) m) as [L|L]; [|assumption].
      assert (key (phi m) <= key i)%Z by (apply G4; auto; lia). lia.
Qed.

Lemma map_phi_NoDup n lo hi key phi m a c : glover n lo hi key phi m -> c <= m -> NoDup (map phi (seq a (c - a))).
Proof. intros G Hc. apply map_NoDup_in; [|apply seq_NoDup]. intros x y Ix Iy E. apply in_seq in Ix, Iy. apply (gl_once _ _ _ _ _ _ G); auto; lia. Qed.

(** If the sweep gets stuck then there is a band. *)
Lemma glover_stuck n lo hi key phi j : j < n -> (forall i, i < n -> lo i <= n /\ hi i <= n) -> (forall i k, i < n -> k < n -> (key i <= key k)%Z -> hi i <= hi k) ->
  glover n lo hi key phi j ->
  (forall i, i < n -> (forall k, k < j -> phi k <> i) -> j < lo i) \/ (exists i, i < n /\ (forall k, k < j -> phi k <> i) /\ hi i <= j) -> find_band n lo hi <> [].
Proof.
  intros Hj B Mono G [C|(i0 & B0 & N0 & H0)].
  - set (l := filter (fun i => negb (existsb (Nat.eqb i) (map phi (seq 0 j)))) (seq 0 n)).
    assert (Il : forall i, In i l <-> i < n /\ forall k, k < j -> phi k <> i).
    { intro i. unfold l. rewrite filter_In, in_seq, negb_true_iff, <- not_true_iff_false, existsb_exists. split.
      - intros [R N]. split; [lia|]. intros k Hk E. apply N. exists (phi k). split; [apply in_map, in_seq; lia|]. now apply Nat.eqb_eq.
      - intros [R N]. split; [lia|]. intros (x & Ix & E). apply Nat.eqb_eq in E. subst x. apply in_map_iff in Ix. destruct Ix as (k & E & Ik). apply in_seq in Ik. apply (N k); [lia|assumption]. }
    apply (find_band_has n lo hi (S j) n l); [lia|apply NoDup_filter, seq_NoDup| |].
    + intros i I. apply Il in I. destruct I as [Bi Ni]. split; [assumption|]. split; [now apply C|now apply B].
    + assert (n <= length (map phi (seq 0 j) ++ l)).
      { rewrite <- (seq_length n 0) at 1. apply NoDup_incl_length; [apply seq_NoDup|]. intros i I. apply in_app_iff.
        destruct (in_dec Nat.eq_dec i (map phi (seq 0 j))) as [|N]; [now left|right]. apply Il. apply in_seq in I. split; [lia|].
        intros k Hk E. apply N. rewrite <- E. apply in_map, in_seq. lia. }
      rewrite app_length, map_length, seq_length in H. lia.
  - destruct (glover_crowd n lo hi key phi (key i0) j G) as (a & Ha & A & E).
    apply (find_band_has n lo hi a j (i0 :: map phi (seq a (j - a)))); [lia| | |].
    + constructor; [|now apply (map_phi_NoDup n lo hi key phi j)]. intro I. apply in_map_iff in I. destruct I as (k & Ek & Ik). apply in_seq in Ik. apply (N0 k); [lia|assumption].
    + intros i [<-|I].
      * split; [assumption|]. split; [|assumption]. apply E; auto; [lia|]. intros k Hk. apply N0. lia.
      * apply in_map_iff in I. destruct I as (k & <- & Ik). apply in_seq in Ik. assert (Hk : k < j) by lia. pose proof (gl_below _ _ _ _ _ _ G k Hk) as Bk.
        assert (Kk : (key (phi k) <= key i0)%Z) by (apply A; lia). split; [assumption|]. split.
        -- apply E; auto. intros k' Hk' Eq. apply (gl_once _ _ _ _ _ _ G) in Eq; lia.
        -- pose proof (Mono (phi k) i0 Bk B0 Kk). lia.
    + cbn [length]. rewrite map_length, seq_length. lia.
Qed.

(** What is lower than what [j] took has to be before [j] if [j] is to take more. *)
Lemma glover_lower n lo hi key phi j (hi' : nat -> nat) : j < n -> glover n lo hi key phi n -> (forall i, i < n -> (key i <= key (phi j))%Z -> hi' i <= j) ->
  find_band n lo hi' <> [].
Proof.
  intros Hj G Hh. assert (Gj : glover n lo hi key phi j).
  { destruct G as [G1 G2 G3 G4]. constructor; intros; [apply G1|apply G2|apply G3|apply G4]; auto; lia. }
  destruct (glover_crowd n lo hi key phi (key (phi j)) j Gj) as (a & Ha & A & E).
  apply (find_band_has n lo hi' a j (map phi (seq a (S j - a)))); [lia|now apply (map_phi_NoDup n lo hi key phi n); [|lia]| |].
  - intros i I. apply in_map_iff in I. destruct I as (k & <- & Ik). apply in_seq in Ik. assert (Hk : k < n) by lia. pose proof (gl_below _ _ _ _ _ _ G k Hk) as Bk.
    assert (Kk : (key (phi k) <= key (phi j))%Z) by (destruct (Nat.eq_dec k j) as [->|]; [lia|]; apply A; lia).
    split; [assumption|]. split; [|now apply Hh]. apply E; auto. intros k' Hk' Eq. apply (gl_once _ _ _ _ _ _ G) in Eq; lia.
  - rewrite map_length, seq_length. lia.
Qed.

(** ** Inverses *)
Lemma inverse_exists n phi : (forall k, k < n -> phi k < n) -> (forall k k', k < n -> k' < n -> phi k = phi k' -> k = k') ->
  exists M, (forall i, i < n -> M i < n /\ phi (M i) = i) /\ (forall k, k < n -> M (phi k) = k).
Proof.
  intros B Inj. exists (fun i => first_position n (fun k => Nat.eqb (phi k) i)).
  assert (X : forall i, i < n -> exists k, k < n /\ phi k = i).
  { intros i Hi. destruct (in_dec Nat.eq_dec i (map phi (seq 0 n))) as [I|N].
    - apply in_map_iff in I. destruct I as (k & E & Ik). apply in_seq in Ik. exists k. split; [lia|assumption].
    - exfalso. assert (L : length (i :: map phi (seq 0 n)) <= length (seq 0 n)).
      { apply NoDup_incl_length.
        - constructor; [assumption|]. apply map_NoDup_in; [|apply seq_NoDup]. intros x y Ix Iy. apply in_seq in Ix, Iy. apply Inj; lia.
        - intros y [<-|Iy]; apply in_seq; [lia|]. apply in_map_iff in Iy. destruct Iy as (k & <- & Ik). apply in_seq in Ik. pose proof (B k). lia. }
      simpl in L. rewrite map_length, seq_length in L. lia. }
  assert (Y : forall i, i < n -> first_position n (fun k => Nat.eqb (phi k) i) < n /\ phi (first_position n (fun k => Nat.eqb (phi k) i)) = i).
  { intros i Hi. destruct (X i Hi) as (k & Hk & E). unfold first_position. destruct (find _ _) as [k'|] eqn:F.
    - apply find_some in F. destruct F as [I Q]. apply in_seq in I. apply Nat.eqb_eq in Q. split; [lia|assumption].
    - pose proof (find_none _ _ F k ltac:(apply in_seq; lia)) as Q. cbn beta in Q. apply Nat.eqb_neq in Q. contradiction. }
  split; [exact Y|]. intros k Hk. destruct (Y (phi k) (B k Hk)) as [H1 H2]. apply Inj; auto.
Qed.

Lemma cut_seq n js1 j js2 : seq 0 n = js1 ++ j :: js2 -> js1 = seq 0 j /\ j < n.
Proof.
  intro E. assert (L : length (js1 ++ j :: js2) = n) by (rewrite <- E; apply seq_length). rewrite app_length in L. cbn [length] in L.
  assert (N : nth (length js1) (seq 0 n) 0 = j) by (rewrite E, app_nth2, Nat.sub_diag by lia; reflexivity). rewrite seq_nth in N by lia. simpl in N.
  split; [|lia]. assert (F1 : firstn (length js1) (seq 0 n) = js1) by (rewrite E, firstn_app, Nat.sub_diag, firstn_O, app_nil_r, firstn_all; reflexivity).
  rewrite <- F1. replace n with (j + (n - j)) by lia. rewrite seq_app, firstn_app, seq_length, N, Nat.sub_diag, firstn_O, app_nil_r. rewrite <- (seq_length j 0) at 1. apply firstn_all.
Qed.

Lemma cut_map {X Y} (f : X -> Y) l : forall ys1 y ys2, map f l = ys1 ++ y :: ys2 -> exists xs1 x xs2, l = xs1 ++ x :: xs2 /\ ys1 = map f xs1 /\ y = f x.
Proof.
  induction l as [|x l IH]; intros [|y1 ys1] y ys2 E; try discriminate; cbn [map app] in E; injection E as E1 E2.
  - exists [], x, l. auto.
  - destruct (IH _ _ _ E2) as (xs1 & x' & xs2 & -> & -> & ->). exists (x :: xs1), x', xs2. cbn [map app]. now rewrite E1.
Qed.

(** A sweep over all positions, in some order. *)
Lemma sweep_outcome n enters fits before key (order : nat -> nat) lo hi :
  (forall k i, before k i = true -> (key k <= key i)%Z) -> (forall k i, before k i = false -> (key i <= key k)%Z) ->
  (forall i k, i < n -> k < n -> (enters i (order k) = true <-> lo i <= k)) -> (forall i k, i < n -> k < n -> (fits i (order k) = true <-> k < hi i)) ->
  (forall i, i < n -> lo i <= n /\ hi i <= n) -> (forall i k, i < n -> k < n -> (key i <= key k)%Z -> hi i <= hi k) ->
  match sweep_positions n enters fits before (map order (seq 0 n)) [] with
  | Some r => length r = n /\ glover n lo hi key (fun k => nth k (rev r) 0) n
  | None => find_band n lo hi <> []
  end.
Proof.
  intros By Bn HE HF B Mono. destruct (sweep_positions _ _ _ _ _ _) as [r|] eqn:Sw.
  - apply (sweep_some n enters fits before key By Bn _ [] [] r (swept_nil _ _ _ _)) in Sw. rewrite app_nil_r in Sw.
    exact (swept_glover n enters fits key order lo hi n (le_n _) HE HF r Sw).
  - apply (sweep_none n enters fits before key By Bn _ [] [] (swept_nil _ _ _ _)) in Sw. destruct Sw as (js1 & j & js2 & is & E & Sw & St). rewrite app_nil_r in Sw.
    apply cut_map in E. destruct E as (xs1 & m & xs2 & E & -> & ->). apply cut_seq in E. destruct E as [-> Hm].
    destruct (swept_glover n enters fits key order lo hi m ltac:(lia) HE HF is Sw) as [L G].
    assert (NI : forall i, (forall k, k < m -> nth k (rev is) 0 <> i) <-> ~ In i is).
    { intro i. rewrite (in_rev is i). split.
      - intros H I. apply (In_nth _ _ 0) in I. rewrite rev_length, L in I. destruct I as (k & Hk & Ek). now apply (H k).
      - intros H k Hk Ek. apply H. rewrite <- Ek. apply nth_In. rewrite rev_length. lia. }
    apply (glover_stuck n lo hi key (fun k => nth k (rev is) 0) m); auto.
    destruct St as [St|(i & Bi & Ni & Ei & Fi & Mi)]; [left|right].
    + intros i Bi Ni. apply NI in Ni. specialize (St i Bi Ni). apply not_true_iff_false in St. rewrite HE in St by assumption. lia.
    + exists i. split; [assumption|]. split; [now apply NI|]. apply not_true_iff_false in Fi. rewrite HF in Fi by assumption. lia.
Qed.

(** If no band has too little room then there is a place for everything. *)
Lemma room_for_all n lo hi : (forall i, i < n -> lo i <= n /\ hi i <= n) -> find_band n lo hi = [] ->
  exists M, (forall i j, i < n -> j < n -> M i = M j -> i = j) /\ forall i, i < n -> lo i <= M i < hi i.
Proof.
  intros B F.
  assert (X := sweep_outcome n (fun i j => Nat.leb (lo i) j) (fun i j => Nat.ltb j (hi i)) (fun k i => Nat.ltb (hi k) (hi i)) (fun i => Z.of_nat (hi i)) (fun k => k) lo hi).
  cbv beta in X. specialize (X ltac:(intros k i H; apply Nat.ltb_lt in H; lia) ltac:(intros k i H; apply Nat.ltb_ge in H; lia)
    ltac:(intros; apply Nat.leb_le) ltac:(intros; apply Nat.ltb_lt) B ltac:(intros; lia)).
  destruct (sweep_positions _ _ _ _ _ _) as [r|]; [|contradiction]. destruct X as [_ G].
  set (phi := fun k => nth k (rev r) 0) in *. destruct (inverse_exists n phi (gl_below _ _ _ _ _ _ G) (gl_once _ _ _ _ _ _ G)) as (M & H1 & _). exists M. split.
  - intros i j Hi Hj E. destruct (H1 i Hi) as [_ <-]. destruct (H1 j Hj) as [_ <-]. now rewrite E.
  - intros i Hi. destruct (H1 i Hi) as [Bm Em]. pose proof (gl_in _ _ _ _ _ _ G (M i) Bm) as X. now rewrite Em in X.
Qed.

(** ** The graph *)
Section Graph.
Variable n : nat.
Variable lo hi phi M : nat -> nat.
Variable succ : nat -> list nat.
Hypothesis Hs : forall v, v < n -> succ v = map (fun j => n + j) (seq (lo v) (hi v - lo v)).
Hypothesis Hp : forall j, j < n -> succ (n + j) = [phi j].
Hypothesis Hhi : forall i, i < n -> hi i <= n.
Hypothesis Bphi : forall k, k < n -> phi k < n.
Hypothesis HM : forall i, i < n -> M i < n /\ phi (M i) = i.
Hypothesis HM' : forall k, k < n -> M (phi k) = k.
Hypothesis Hin : forall k, k < n -> lo (phi k) <= k < hi (phi k).

Definition places (i : nat) : list nat := seq (lo i) (hi i - lo i).
Definition placing : matching := mk_matching (fun i => if Nat.ltb i n then Some (M i) else None) (fun j => if Nat.ltb j n then Some (phi j) else None).

Lemma places_In i j : In j (places i) <-> lo i <= j < hi i.
Proof. unfold places. rewrite in_seq. lia. Qed.

Lemma placing_sound : sound places n placing.
Proof.
  constructor; unfold placing; cbn [mt_left mt_right].
  - intros l t. destruct (Nat.ltb_spec l n) as [Hl|Hl], (Nat.ltb_spec t n) as [Ht|Ht]; split; intro E; try discriminate; injection E as <-.
    + destruct (HM l Hl) as [_ ->]. reflexivity.
    + now rewrite HM'.
    + destruct (HM l Hl). lia.
    + specialize (Bphi t Ht). lia.
  - intros l t. destruct (Nat.ltb_spec l n) as [Hl|Hl]; [|discriminate]. intro E. injection E as <-. apply places_In. destruct (HM l Hl) as [A B]. pose proof (Hin _ A) as X. now rewrite B in X.
  - intros l t. destruct (Nat.ltb_spec l n) as [Hl|Hl]; [auto|discriminate].
Qed.

Lemma placing_full i : i < n -> mt_left placing i <> None.
Proof. intro Hi. unfold placing. cbn [mt_left]. destruct (Nat.ltb_spec i n); [discriminate|lia]. Qed.

Lemma places_bound i t : i < n -> In t (places i) -> t < n.
Proof. intros Hi I. apply places_In in I. specialize (Hhi i Hi). lia. Qed.

Lemma residual_edge v w : v < n + n -> edge (residual places n placing) v w -> edge succ v w.
Proof.
  intros Hv E. apply (edge_inv places n placing) in E. destruct E as [(L & t & -> & It & _)|(t & -> & E)].
  - unfold edge. rewrite Hs by assumption. now apply (in_map (fun j => n + j)).
  - unfold edge. unfold placing in E. cbn [mt_right] in E. destruct (Nat.ltb_spec t n); [|discriminate]. injection E as <-. rewrite Hp by assumption. now left.
Qed.

Lemma residual_reach v w : reach (residual places n placing) v w -> v < n + n -> reach succ v w.
Proof.
  intro R. apply clos_rt_rt1n in R. induction R as [|x y z E R IH]; intro Hx; [apply rt_refl|]. apply (rt_trans _ _ _ y); [apply rt_step; now apply residual_edge|]. apply IH.
  apply (residual_bound places n n placing placing_sound places_bound x); [assumption|exact E].
Qed.

Lemma succ_bound v w : v < n + n -> In w (succ v) -> w < n + n.
Proof.
  intros Hv I. destruct (Nat.lt_ge_cases v n) as [L|L].
  - rewrite Hs in I by assumption. apply in_map_iff in I. destruct I as (j & <- & I). apply places_bound in I; lia.
  - replace v with (n + (v - n)) in I by lia. rewrite Hp in I by lia. destruct I as [<-|[]]. specialize (Bphi (v - n) ltac:(lia)). lia.
Qed.

(** Going to where one is matched, and back, leads nowhere. *)
Lemma reach_residual v i : reach succ v i -> v < n + n -> i < n -> reach (residual places n placing) v i.
Proof.
  intro R. apply clos_rt_rt1n in R. induction R as [|x y z E R IH]; intros Hx Hi; [apply rt_refl|].
  assert (Hy : y < n + n) by now apply (succ_bound x). specialize (IH Hy Hi).
  destruct (Nat.lt_ge_cases x n) as [L|L].
  - unfold edge in E. rewrite Hs in E by assumption. apply in_map_iff in E. destruct E as (j & <- & Ij). fold (places x) in Ij. pose proof (places_bound x j L Ij) as Hj.
    destruct (Nat.eq_dec (M x) j) as [Em|Nm].
    + apply clos_rt_rt1n in IH. inversion IH as [Eq|w z' E2 R2]; subst; [lia|]. apply clos_rt1n_rt in R2.
      apply (edge_inv places n placing) in E2. destruct E2 as [(L2 & _)|(t & Et & E2)]; [lia|]. assert (t = M x) by lia. subst t. unfold placing in E2. cbn [mt_right] in E2.
      destruct (Nat.ltb_spec (M x) n); [|discriminate]. injection E2 as <-. destruct (HM x L) as [_ Ex]. now rewrite Ex in R2.
    + eapply rt_trans; [|exact IH]. apply rt_step. apply (edge_left places n placing); [assumption|assumption|]. unfold placing. cbn [mt_left]. destruct (Nat.ltb_spec x n); [congruence|discriminate].
  - eapply rt_trans; [|exact IH]. apply rt_step. unfold edge in E. replace x with (n + (x - n)) in * by lia. rewrite Hp in E by lia. destruct E as [<-|[]].
    apply (edge_right places n placing). unfold placing. cbn [mt_right]. destruct (Nat.ltb_spec (x - n) n); [reflexivity|lia].
Qed.

Let comp := tj_component (find_components succ (n + n)).

(** The places that something has when everything has a place are in its component. *)
Lemma component_of_place f i : (forall i j, i < n -> j < n -> f i = f j -> i = j) -> (forall i, i < n -> lo i <= f i < hi i) -> i < n -> comp (n + f i) = comp i.
Proof.
  intros Inj Hf Hi. pose proof (Hf i Hi) as Hfi. pose proof (Hhi i Hi) as Hh. apply (components_correct succ (n + n) succ_bound); [lia|lia|]. 
  assert (P : perfect places n f) by (split; [intros k Hk; apply places_In; auto|assumption]).
  split; [|apply rt_step; unfold edge; rewrite Hs by assumption; apply (in_map (fun j => n + j)); apply places_In; assumption].
  destruct (Nat.eq_dec (M i) (f i)) as [Em|Nm].
  - apply rt_step. unfold edge. rewrite Hp by lia. left. rewrite <- Em. now apply HM.
  - assert (E : edge (residual places n placing) i (n + f i)).
    { apply (edge_left places n placing); [assumption|now apply places_In|]. unfold placing. cbn [mt_left]. destruct (Nat.ltb_spec i n); [congruence|discriminate]. }
    destruct (Nat.eq_dec (tj_component (find_components (residual places n placing) (n + n)) (n + f i)) (tj_component (find_components (residual places n placing) (n + n)) i)) as [C|C];
      rewrite (components_correct _ (n + n) (residual_bound places n n placing placing_sound places_bound)) in C by lia.
    + apply residual_reach; [tauto|lia].
    + exfalso. apply (useless_edge places n n placing placing_sound places_bound (fun _ => False) i (f i) f); auto.
      * intros t Ht. unfold placing. cbn [mt_right]. destruct (Nat.ltb_spec t n); [discriminate|lia].
      * now apply places_In.
      * intro R. apply C. split; [assumption|]. now apply rt_step.
Qed.

(** And only those. *)
Lemma place_in_component i j : i < n -> lo i <= j < hi i -> comp (n + j) = comp i ->
  exists f, (forall i j, i < n -> j < n -> f i = f j -> i = j) /\ (forall i, i < n -> lo i <= f i < hi i) /\ f i = j.
Proof.
  intros Hi Hj C. pose proof (Hhi i Hi). unfold comp in C. rewrite (components_correct succ (n + n) succ_bound) in C by lia. destruct C as [C _].
  apply reach_residual in C; [|lia|assumption].
  destruct (useful_edge places n n placing placing_sound placing_full places_bound i j Hi) as (f & [P1 P2] & E); [now apply places_In|auto|].
  exists f. split; [assumption|]. split; [|assumption]. intros k Hk. apply places_In. auto.
Qed.
End Graph.
