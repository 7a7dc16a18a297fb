(** Proofs about the connectivity graph of patches and about the recursion over neighbours. *)
From Verif Require Import Common CommonFacts PartModel PartSpec.

Lemma visits_within m : forall h e f, In f (visits m h e) <-> within m h e f.
Proof.
  induction h as [|h IH]; intros e f; cbn [visits].
  - split.
    + intros [<-|[]]. constructor.
    + intro H. inversion H; subst; now left.
  - split.
    + intros [<-|H]; [constructor|]. apply in_flat_map in H as (x & Hx & Hf).
      apply IH in Hf. econstructor; eauto.
    + intro H. inversion H; subst; [now left|]. right. apply in_flat_map.
      eexists. split; [eassumption|]. now apply IH.
Qed.

Lemma within_mono m h e f : within m h e f -> within m (S h) e f.
Proof. induction 1; [constructor|econstructor; eauto]. Qed.

(** ** The events (patch, sub-entity) that the marking generates *)

Definition entity_events (m : mesh) (id e : nat) : list (nat * nat) := map (pair id) (subs m e).

Definition element_events (m : mesh) (h id e : nat) : list (nat * nat) :=
  flat_map (entity_events m id) (visits m h e).

Definition event (st : links_state) (x : nat * nat) : links_state := mark_sub (fst x) st (snd x).

Lemma fold_map {A B C} (f : C -> B -> C) (g : A -> B) : forall l s,
  fold_left f (map g l) s = fold_left (fun s a => f s (g a)) l s.
Proof. induction l as [|a l IH]; intro s; cbn; auto. Qed.

Lemma fold_flat {A B C} (f : C -> B -> C) (g : A -> list B) : forall l s,
  fold_left f (flat_map g l) s = fold_left (fun s a => fold_left f (g a) s) l s.
Proof. induction l as [|a l IH]; intro s; cbn; auto. now rewrite fold_left_app, IH. Qed.

Lemma fold_ext {A C} (f g : C -> A -> C) : (forall s a, f s a = g s a) ->
  forall l s, fold_left f l s = fold_left g l s.
Proof. intros H. induction l as [|a l IH]; intro s; cbn; auto. now rewrite H, IH. Qed.

Lemma mark_entity_events m id st e : mark_entity m id st e = fold_left event (entity_events m id e) st.
Proof. unfold mark_entity, entity_events. rewrite fold_map. now apply fold_ext. Qed.

Lemma mark_overlap_events m id : forall h st e,
  mark_overlap m id h st e = fold_left event (element_events m h id e) st.
Proof.
  unfold element_events. induction h as [|h IH]; intros st e; cbn [mark_overlap visits flat_map].
  - rewrite app_nil_r. apply mark_entity_events.
  - rewrite fold_left_app, <- mark_entity_events.
    rewrite !fold_flat. apply fold_ext. intros s a. rewrite IH. rewrite fold_flat. reflexivity.
Qed.

Definition all_events (m : mesh) (h : nat) (patches : list (list nat)) : list (nat * nat) :=
  flat_map (fun ip => flat_map (element_events m h (fst ip)) (snd ip))
    (combine (seq 0 (length patches)) patches).

Lemma mark_patches_events m h patches :
  mark_patches m h patches
  = fold_left event (all_events m h patches) (repeat [] (length patches), repeat [] (n_sub m)).
Proof.
  unfold mark_patches, all_events. rewrite fold_flat. apply fold_ext. intros s [i p]. cbn [fst snd].
  rewrite fold_flat. apply fold_ext. intros. apply mark_overlap_events.
Qed.

Lemma in_numbered {A} (l : list A) i x :
  In (i, x) (combine (seq 0 (length l)) l) <-> nth_error l i = Some x.
Proof.
  assert (G : forall s, In (s + i, x) (combine (seq s (length l)) l) <-> nth_error l i = Some x).
  { revert i. induction l as [|a l IH]; intros i s; cbn [length seq combine].
    - destruct i; cbn; split; [intros []|discriminate|intros []|discriminate].
    - destruct i as [|i]; cbn [nth_error In].
      + split.
        * intros [H|H]; [inversion H; auto|]. exfalso. apply in_combine_l in H.
          apply in_seq in H. lia.
        * intro H. injection H as ->. left. f_equal. lia.
      + rewrite <- (IH i (S s)). replace (S s + i) with (s + S i) by lia. split.
        * intros [H|H]; auto. inversion H. lia.
        * auto. }
  specialize (G 0). exact G.
Qed.

Lemma all_events_spec m h patches id s :
  In (id, s) (all_events m h patches) <-> exists p, nth_error patches id = Some p /\ touches m h p s.
Proof.
  unfold all_events. rewrite in_flat_map. split.
  - intros ([i p] & H1 & H2). cbn [fst snd] in H2. apply in_numbered in H1.
    apply in_flat_map in H2 as (e & He & H2). unfold element_events in H2.
    apply in_flat_map in H2 as (f & Hf & H2). unfold entity_events in H2.
    apply in_map_iff in H2 as (s' & E & Hs). injection E as -> ->.
    exists p. split; auto. exists e, f. repeat split; auto. now apply visits_within.
  - intros (p & H1 & e & f & He & Hf & Hs). exists (id, p). split; [now apply in_numbered|].
    cbn [fst snd]. apply in_flat_map. exists e. split; auto. apply in_flat_map. exists f.
    split; [now apply visits_within|]. apply in_map_iff. eauto.
Qed.

(** ** Ordered index sets *)

Lemma in_sins x y : forall l, In y (sins x l) <-> y = x \/ In y l.
Proof.
  induction l as [|z l IH]; cbn [sins In].
  - intuition.
  - destruct (x <? z) eqn:E1; [cbn; intuition|]. destruct (x =? z) eqn:E2.
    + apply Nat.eqb_eq in E2. subst. cbn. intuition.
    + cbn [In]. rewrite IH. intuition.
Qed.

Inductive inc_list : nat -> list nat -> Prop :=
| inc_nil b : inc_list b []
| inc_cons b x l : b <= x -> inc_list (S x) l -> inc_list b (x :: l).

Lemma inc_weaken b c l : inc_list b l -> c <= b -> inc_list c l.
Proof. intros H L. inversion H; subst; constructor; auto. lia. Qed.

Lemma inc_sins x : forall l b, inc_list b l -> b <= x -> inc_list b (sins x l).
Proof.
  induction l as [|y l IH]; intros b H L; cbn [sins].
  - repeat constructor; auto.
  - inversion H; subst. destruct (x <? y) eqn:E1.
    + apply Nat.ltb_lt in E1. constructor; auto. constructor; auto.
    + destruct (x =? y) eqn:E2; [auto|]. constructor; auto. apply IH; auto. lia.
Qed.

Lemma inc_lower b l : inc_list b l -> forall x, In x l -> b <= x.
Proof.
  induction 1; cbn; intros y H1; [easy|]. destruct H1 as [<-|H1]; auto.
  specialize (IHinc_list y H1). lia.
Qed.

Lemma inc_nodup b l : inc_list b l -> NoDup l.
Proof.
  induction 1; constructor; auto. intro H1. apply (inc_lower _ _ H0) in H1. lia.
Qed.

Lemma row_add_length i x rows : length (row_add i x rows) = length rows.
Proof. apply upd_length. Qed.

Lemma in_row_add i x rows j y : i < length rows ->
  In y (nth j (row_add i x rows) []) <-> (j = i /\ y = x) \/ In y (nth j rows []).
Proof.
  intro L. unfold row_add. destruct (Nat.eq_dec j i) as [->|N].
  - rewrite upd_nth_same by auto. rewrite in_sins. intuition.
  - rewrite upd_nth_other by auto. intuition.
Qed.

Lemma inc_row_add i x rows j : inc_list 0 (nth j rows []) -> inc_list 0 (nth i rows []) ->
  inc_list 0 (nth j (row_add i x rows) []).
Proof.
  intros H1 H2. unfold row_add. destruct (Nat.eq_dec j i) as [->|N].
  - destruct (Nat.lt_ge_cases i (length rows)).
    + rewrite upd_nth_same by auto. apply inc_sins; auto. lia.
    + rewrite nth_overflow by (rewrite upd_length; auto). constructor.
  - now rewrite upd_nth_other by auto.
Qed.

(** ** Links after one sub-entity *)

Lemma links_fold id n : id < n -> forall os links,
  length links = n -> (forall o, In o os -> o < n) ->
  let links' := fold_left (fun l owner => row_add id owner (row_add owner id l)) os links in
  length links' = n
  /\ ((forall j, inc_list 0 (nth j links [])) -> forall j, inc_list 0 (nth j links' []))
  /\ forall a b, In b (nth a links' []) <->
       In b (nth a links []) \/ (exists o, In o os /\ ((a = o /\ b = id) \/ (a = id /\ b = o))).
Proof.
  intros Hid os. induction os as [|o os IH]; intros links Hl Ho links'.
  - cbn in links'. subst links'. split; [auto|]. split; [auto|]. intros a b. split; auto.
    intros [H|(x & [] & _)]; auto.
  - cbn [fold_left] in links'.
    specialize (IH (row_add id o (row_add o id links))). cbn zeta in IH. fold links' in IH.
    destruct IH as (I1 & I2 & I3).
    { now rewrite !row_add_length. } { intros x Hx. apply Ho. now right. }
    assert (Lo : o < n) by (apply Ho; now left).
    split; [auto|]. split.
    + intros S. apply I2. intro j. repeat apply inc_row_add; auto.
    + intros a b. rewrite I3, in_row_add by (rewrite row_add_length; lia).
      rewrite in_row_add by lia. split.
      * intros [[[-> ->]|[[-> ->]|H]]|(x & Hx & H)]; eauto.
        -- right. exists o. split; [now left|]. right. auto.
        -- right. exists o. split; [now left|]. left. auto.
        -- right. exists x. split; [now right|]. auto.
      * intros [H|(x & [<-|Hx] & [[-> ->]|[-> ->]])]; auto.
        -- right. eauto.
        -- right. exists x. split; [auto|right; auto].
Qed.

(** Invariant of the marking. *)
Record links_inv (n ns : nat) (ev : list (nat * nat)) (st : links_state) : Prop := {
  li_len : length (fst st) = n;
  li_olen : length (snd st) = ns;
  li_inc : forall j, inc_list 0 (nth j (fst st) []);
  li_own : forall id s, In id (nth s (snd st) []) <-> In (id, s) ev;
  li_sym : forall a b, In b (nth a (fst st) []) -> In a (nth b (fst st) []);
  li_bnd : forall a b, In b (nth a (fst st) []) -> a < n /\ b < n;
  li_link : forall a b, a <> b ->
      (In b (nth a (fst st) []) <-> exists s, In (a, s) ev /\ In (b, s) ev)
}.

Lemma links_step n ns ev st id s :
  id < n -> s < ns -> (forall i x, In (i, x) ev -> i < n) ->
  links_inv n ns ev st -> links_inv n ns (ev ++ [(id, s)]) (event st (id, s)).
Proof.
  intros Hid Hs Hev [H1 H2 H3 H4 H5 H6 H7]. destruct st as [links owners].
  cbn [fst snd] in *. unfold event. cbn [fst snd mark_sub].
  destruct (links_fold id n Hid (nth s owners []) links H1) as (F1 & F2 & F3).
  { intros o Ho. apply H4 in Ho. eauto. }
  cbn zeta in F1, F2, F3. specialize (F2 H3).
  set (links' := fold_left _ (nth s owners []) links) in *.
  assert (IA : forall i x, In (i, x) (ev ++ [(id, s)]) <-> In (i, x) ev \/ (i = id /\ x = s)).
  { intros i x. rewrite in_app_iff. cbn. split.
    - intros [H|[H|[]]]; auto. inversion H. auto.
    - intros [H|[-> ->]]; auto. }
  constructor; cbn [fst snd]; auto.
  - now rewrite row_add_length.
  - intros i x. rewrite in_row_add by lia. rewrite IA. rewrite H4. intuition.
  - intros a b. rewrite !F3. intros [H|(o & Ho & [[-> ->]|[-> ->]])]; eauto.
    + right. exists o. auto.
    + right. exists o. auto.
  - intros a b. rewrite F3. intros [H|(o & Ho & [[-> ->]|[-> ->]])]; eauto.
    + apply H4 in Ho. eauto.
    + apply H4 in Ho. eauto.
  - intros a b N. rewrite F3, H7 by auto. split.
    + intros [(x & Ha & Hb)|(o & Ho & [[-> ->]|[-> ->]])].
      * exists x. rewrite !IA. auto.
      * exists s. rewrite !IA. apply H4 in Ho. auto.
      * exists s. rewrite !IA. apply H4 in Ho. auto.
    + intros (x & Ha & Hb). rewrite IA in Ha, Hb.
      destruct Ha as [Ha|[-> ->]]; destruct Hb as [Hb|[Eb Ex]].
      * left. eauto.
      * subst. right. exists a. rewrite H4. auto.
      * right. exists b. rewrite H4. auto.
      * congruence.
Qed.

Lemma links_all n ns ev : (forall i x, In (i, x) ev -> i < n /\ x < ns) ->
  links_inv n ns ev (fold_left event ev (repeat [] n, repeat [] ns)).
Proof.
  induction ev as [|[i x] ev IH] using rev_ind; intro H.
  - cbn. constructor; cbn [fst snd]; try apply repeat_length.
    + intro j. rewrite nth_repeat. constructor.
    + intros. rewrite nth_repeat. reflexivity.
    + intros a b. rewrite nth_repeat. intros [].
    + intros a b. rewrite nth_repeat. intros [].
    + intros a b _. rewrite nth_repeat. cbn. split; [intros []|intros (? & [] & _)].
  - rewrite fold_left_app. cbn [fold_left].
    assert (H' : forall j y, In (j, y) ev -> j < n /\ y < ns).
    { intros j y Hj. apply H. apply in_or_app. now left. }
    destruct (H i x); [apply in_or_app; right; now left|].
    apply links_step; auto. intros j y Hj. apply (H' _ _ Hj).
Qed.

(** The graph of a mesh: symmetric, bounded rows in increasing order, links exactly the conflicts. *)
Lemma make_graph_spec m h patches : mesh_ok m ->
  let g := make_graph m h patches in
  length g = length patches
  /\ (forall j, inc_list 0 (nth j g []))
  /\ (forall a b, In b (nth a g []) -> In a (nth b g []))
  /\ (forall a b, In b (nth a g []) -> a < length patches /\ b < length patches)
  /\ (forall a b, a <> b -> (In b (nth a g []) <->
        exists p q, nth_error patches a = Some p /\ nth_error patches b = Some q /\ conflict m h p q)).
Proof.
  intros M g. unfold g, make_graph. rewrite mark_patches_events.
  destruct (links_all (length patches) (n_sub m) (all_events m h patches)) as [H1 H2 H3 H4 H5 H6 H7].
  { intros i x H. apply all_events_spec in H as (p & Hp & e & f & _ & _ & Hs). split.
    - apply nth_error_Some. congruence.
    - eapply M. eassumption. }
  split; [assumption|]. split; [assumption|]. split; [assumption|]. split; [assumption|].
  intros a b N. rewrite H7 by auto. split.
  - intros (s & Ha & Hb). apply all_events_spec in Ha as (p & Hp & Ta).
    apply all_events_spec in Hb as (q & Hq & Tb). exists p, q. repeat split; auto. exists s. auto.
  - intros (p & q & Hp & Hq & s & Ta & Tb). exists s. rewrite !all_events_spec. split; eauto.
Qed.
