(** Proofs about the marking of the halo under every order of the concurrent accesses. *)
From Verif Require Import Common CommonFacts PartModel PartSpec PartProofs2.

Lemma in_for_each {B} label (f : nat -> nat -> list B) x :
  In x (for_each_element label f) <->
  exists id p e, nth_error label id = Some p /\ In e p /\ In x (f id e).
Proof.
  unfold for_each_element. rewrite in_flat_map. split.
  - intros ([i p] & H1 & H2). cbn [fst snd] in H2. apply in_numbered in H1.
    apply in_flat_map in H2 as (e & He & Hx). eauto 10.
  - intros (id & p & e & H1 & He & Hx). exists (id, p). split; [now apply in_numbered|].
    cbn [fst snd]. apply in_flat_map. eauto.
Qed.

Lemma in_owner_stores m label s id :
  In (s, id) (owner_stores m label) <->
  exists p e, nth_error label id = Some p /\ In e p /\ In s (subs m e).
Proof.
  unfold owner_stores. rewrite in_for_each. split.
  - intros (i & p & e & H1 & He & Hx). apply in_map_iff in Hx as (s' & E & Hs).
    injection E as -> ->. eauto.
  - intros (p & e & H1 & He & Hs). exists id, p, e. repeat split; auto. apply in_map_iff. eauto.
Qed.

Lemma in_overlap_tests m h label s id :
  In (s, id) (overlap_tests m h label) <->
  exists p, nth_error label id = Some p /\ touches m h p s.
Proof.
  unfold overlap_tests. rewrite in_for_each. split.
  - intros (i & p & e & H1 & He & Hx). apply in_flat_map in Hx as (f & Hf & Hx).
    apply in_map_iff in Hx as (s' & E & Hs). injection E as -> ->.
    exists p. split; auto. exists e, f. repeat split; auto. now apply visits_within.
  - intros (p & H1 & e & f & He & Hf & Hs). exists id, p, e. repeat split; auto.
    apply in_flat_map. exists f. split; [now apply visits_within|]. apply in_map_iff. eauto.
Qed.

Lemma in_halo_tests m label e s :
  In (e, s) (halo_tests m label) <->
  exists id p, nth_error label id = Some p /\ In e p /\ In s (subs m e).
Proof.
  unfold halo_tests. rewrite in_for_each. split.
  - intros (i & p & e' & H1 & He & Hx). apply in_map_iff in Hx as (s' & E & Hs).
    injection E as -> ->. eauto.
  - intros (id & p & H1 & He & Hs). exists id, p, e. repeat split; auto. apply in_map_iff. eauto.
Qed.

(** Phase 1. *)
Lemma owners_spec : forall o1 ow,
  let ow' := fold_left store_owner o1 ow in
  length ow' = length ow
  /\ (forall s o, nth s ow' None = Some o -> nth s ow None = Some o \/ In (s, o) o1)
  /\ (forall s, s < length ow -> (nth s ow None <> None \/ exists o, In (s, o) o1) -> nth s ow' None <> None).
Proof.
  induction o1 as [|[s0 i0] o1 IH]; intros ow ow'.
  - cbn in ow'. subst ow'. repeat split; auto. intros s _ [H|(o & [])]; auto.
  - cbn [fold_left] in ow'. destruct (IH (store_owner ow (s0, i0))) as (I1 & I2 & I3).
    fold ow' in I1, I2, I3. unfold store_owner in I1, I2, I3. cbn [fst snd] in I1, I2, I3.
    rewrite upd_length in I1, I3. split; [auto|]. split.
    + intros s o H. destruct (I2 s o H) as [E|E]; [|right; now right].
      destruct (Nat.eq_dec s s0) as [->|N].
      * destruct (Nat.lt_ge_cases s0 (length ow)).
        -- rewrite upd_nth_same in E by auto. injection E as ->. right. now left.
        -- rewrite nth_overflow in E by (rewrite upd_length; auto). discriminate.
      * rewrite upd_nth_other in E by auto. auto.
    + intros s Ls H. apply I3; auto. destruct (Nat.eq_dec s s0) as [->|N].
      * left. rewrite upd_nth_same by auto. discriminate.
      * rewrite upd_nth_other by auto. destruct H as [H|(o & [E|H])]; [now left|congruence|right; eauto].
Qed.

(** Phase 2. *)
Lemma overlap_spec ow : forall o2 ov,
  let ov' := fold_left (test_overlap ow) o2 ov in
  length ov' = length ov
  /\ forall s, s < length ov ->
       (nth s ov' false = true <->
        nth s ov false = true \/ exists id, In (s, id) o2 /\ nth s ow None <> Some id).
Proof.
  induction o2 as [|[s0 i0] o2 IH]; intros ov ov'.
  - cbn in ov'. subst ov'. split; [auto|]. intros s _. split; auto. intros [|(? & [] & _)]; auto.
  - cbn [fold_left] in ov'. destruct (IH (test_overlap ow ov (s0, i0))) as (I1 & I2).
    fold ov' in I1, I2.
    assert (Lt : length (test_overlap ow ov (s0, i0)) = length ov).
    { unfold test_overlap. cbn [fst snd]. destruct (nth s0 ow None) as [o|]; [destruct (o =? i0)|];
        now rewrite ?upd_length. }
    assert (St : forall s, s < length ov -> (nth s (test_overlap ow ov (s0, i0)) false = true <->
              nth s ov false = true \/ (s = s0 /\ nth s0 ow None <> Some i0))).
    { intros s Ls. unfold test_overlap. cbn [fst snd].
      assert (U : nth s (upd s0 true ov) false = true <-> nth s ov false = true \/ s = s0).
      { destruct (Nat.eq_dec s s0) as [->|N].
        - rewrite upd_nth_same by auto. intuition.
        - rewrite upd_nth_other by auto. intuition. }
      destruct (nth s0 ow None) as [o|].
      - destruct (o =? i0) eqn:E.
        + apply Nat.eqb_eq in E. subst. intuition.
        + apply Nat.eqb_neq in E. rewrite U. intuition. right. split; auto. congruence.
      - rewrite U. intuition. right. split; auto. discriminate. }
    split; [lia|]. intros s Ls. rewrite I2 by lia. rewrite St by auto. split.
    + intros [[H|[-> H]]|(id & H & N)]; auto.
      * right. exists i0. split; auto. now left.
      * right. exists id. split; auto. now right.
    + intros [H|(id & [E|H] & N)]; auto.
      * injection E as <- <-. left. right. auto.
      * right. eauto.
Qed.

(** Phase 3. *)
Lemma halo_spec ov : forall o3 halo,
  let halo' := fold_left (test_halo ov) o3 halo in
  length halo' = length halo
  /\ forall e, e < length halo ->
       (nth e halo' false = true <->
        nth e halo false = true \/ exists s, In (e, s) o3 /\ nth s ov false = true).
Proof.
  induction o3 as [|[e0 s0] o3 IH]; intros halo halo'.
  - cbn in halo'. subst halo'. split; [auto|]. intros e _. split; auto. intros [|(? & [] & _)]; auto.
  - cbn [fold_left] in halo'. destruct (IH (test_halo ov halo (e0, s0))) as (I1 & I2).
    fold halo' in I1, I2.
    assert (Lt : length (test_halo ov halo (e0, s0)) = length halo).
    { unfold test_halo. cbn [fst snd]. destruct (nth s0 ov false); now rewrite ?upd_length. }
    assert (St : forall e, e < length halo -> (nth e (test_halo ov halo (e0, s0)) false = true <->
              nth e halo false = true \/ (e = e0 /\ nth s0 ov false = true))).
    { intros e Le. unfold test_halo. cbn [fst snd]. destruct (nth s0 ov false) eqn:E.
      - destruct (Nat.eq_dec e e0) as [->|N].
        + rewrite upd_nth_same by auto. intuition.
        + rewrite upd_nth_other by auto. intuition.
      - intuition. }
    split; [lia|]. intros e Le. rewrite I2 by lia. rewrite St by auto. split.
    + intros [[H|[-> H]]|(s & H & N)]; auto.
      * right. exists s0. split; auto. now left.
      * right. exists s. split; auto. now right.
    + intros [H|(s & [E|H] & N)]; auto.
      * injection E as <- <-. left. right. auto.
      * right. eauto.
Qed.

Lemma label_run_spec m h label halo halo' : mesh_ok m -> label_run m h label halo halo' ->
  length halo' = length halo
  /\ forall e, e < length halo ->
      (nth e halo' false = true <-> nth e halo false = true \/ shared m h label e).
Proof.
  intros M (o1 & o2 & o3 & P1 & P2 & P3 & ->). unfold label_phases.
  set (ow := fold_left store_owner o1 (repeat None (n_sub m))).
  set (ov := fold_left (test_overlap ow) o2 (repeat false (n_sub m))).
  destruct (owners_spec o1 (repeat None (n_sub m))) as (_ & A2 & A3). fold ow in A2, A3.
  destruct (overlap_spec ow o2 (repeat false (n_sub m))) as (_ & B2). fold ov in B2.
  destruct (halo_spec ov o3 halo) as (C1 & C2).
  rewrite repeat_length in A3, B2.
  assert (A2' : forall s o, nth s ow None = Some o -> In (s, o) (owner_stores m label)).
  { intros s o E. destruct (A2 s o E) as [F|F].
    - rewrite nth_repeat in F. discriminate.
    - now apply (Permutation_in _ P1). }
  assert (B2' : forall s, s < n_sub m -> (nth s ov false = true <->
            exists id p, nth_error label id = Some p /\ touches m h p s /\ nth s ow None <> Some id)).
  { intros s Ls. rewrite B2 by auto. rewrite nth_repeat. split.
    - intros [|(id & I & N)]; [discriminate|]. apply (Permutation_in _ P2) in I.
      apply in_overlap_tests in I as (p & Hp & T). eauto.
    - intros (id & p & Hp & T & N). right. exists id. split; auto.
      apply (Permutation_in _ (Permutation_sym P2)). apply in_overlap_tests. eauto. }
  split; [exact C1|]. intros e Le. rewrite C2 by auto. apply or_iff_compat_l. split.
  - intros (s & I & Es). apply (Permutation_in _ P3) in I.
    apply in_halo_tests in I as (i & p & Hp & He & Hs).
    assert (Ls : s < n_sub m) by eauto.
    apply B2' in Es as (j & q & Hq & T & N); auto.
    destruct (Nat.eq_dec j i) as [->|Nij].
    + destruct (nth s ow None) as [o|] eqn:Eo.
      * specialize (A2' s o Eo). apply in_owner_stores in A2' as (q' & f & Hq' & Hf & Hsf).
        exists i, o, p, q', s. split; [congruence|]. repeat split; auto.
        exists f, f. repeat split; auto. constructor.
      * exfalso. apply (A3 s Ls); auto. right. exists i.
        apply (Permutation_in _ (Permutation_sym P1)). apply in_owner_stores. eauto.
    + exists i, j, p, q, s. repeat split; auto.
  - intros (i & j & p & q & s & N & Hp & Hq & He & Hs & T).
    exists s. split.
    + apply (Permutation_in _ (Permutation_sym P3)). apply in_halo_tests. eauto.
    + assert (Ls : s < n_sub m) by eauto. apply B2'; auto.
      destruct (nth s ow None) as [o|] eqn:Eo.
      * destruct (Nat.eq_dec o j) as [->|Nj].
        -- exists i, p. split; [auto|]. split; [|congruence].
           exists e, e. repeat split; auto. constructor.
        -- exists j, q. split; [auto|]. split; [auto|congruence].
      * exists j, q. split; [auto|]. split; [auto|discriminate].
Qed.

Lemma labels_run_spec m h ls halo halo' : mesh_ok m -> labels_run m h ls halo halo' ->
  length halo' = length halo
  /\ forall e, e < length halo ->
      (nth e halo' false = true <->
       nth e halo false = true \/ exists label, In label ls /\ shared m h label e).
Proof.
  intros M. induction 1 as [halo|label ls halo halo1 halo2 R1 R2 IH].
  - split; auto. intros e _. split; auto. intros [|(? & [] & _)]; auto.
  - destruct (label_run_spec _ _ _ _ _ M R1) as (A1 & A2). destruct IH as (B1 & B2).
    split; [lia|]. intros e Le. rewrite B2 by lia. rewrite A2 by auto. split.
    + intros [[H|H]|(l & Hl & H)]; auto.
      * right. exists label. split; auto. now left.
      * right. exists l. split; auto. now right.
    + intros [H|(l & [<-|Hl] & H)]; auto. right. eauto.
Qed.

(** Every program order is one of the executions. *)
Lemma labels_run_total m h : forall ls halo, exists halo', labels_run m h ls halo halo'.
Proof.
  induction ls as [|label ls IH]; intro halo; [eexists; constructor|].
  destruct (IH (label_phases m (owner_stores m label) (overlap_tests m h label) (halo_tests m label) halo))
    as (halo' & H).
  exists halo'. econstructor; [|exact H]. exists (owner_stores m label), (overlap_tests m h label), (halo_tests m label).
  repeat split; auto.
Qed.
