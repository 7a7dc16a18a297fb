(** Proofs about the index sets: the updates, histories, the element mapper and the cell cache. *)
From Verif Require Import Common CommonFacts EsetModel EsetSpec EsetProofs EsetProofs2.
From Coq Require Import Permutation.

(** ** update *)
Lemma update_numbering g P it s force : wf_grid g -> arrays g s -> needs_update s || force = true -> (it = true \/ closed g P) ->
  exists s', update g P it s force = Ok (true, s') /\ numbering g P (wanted s) (index P s') (unique_index P s') s' /\
    needs_update s' = false /\ wanted s' = wanted s /\ active s' = wanted s /\ arrays g s'.
Proof.
  intros W A F C. destruct (base_ok g s force W A F) as (act & off & E & La & Ha & Lo & Ho).
  unfold update. rewrite E. clear E. cbn [bind negb gt_off mapped active needs_update wanted active_gts geometry_types per_codim].
  assert (last off 0 = pre (sz g (wanted s)) (g_ngt g)) as EL.
  { pose proof (last_nth off 0 _ Lo) as E. rewrite Ho in E by lia. now injection E. }
  rewrite EL. rewrite wr_ok by (rewrite map_length, seq_length; lia). cbn [bind].
  assert ((if it then repeat None (pre (sz g (wanted s)) (g_ngt g)) else map (fun _ => None) (repeat (@None nat) (pre (sz g (wanted s)) (g_ngt g))))
          = repeat (@None nat) (pre (sz g (wanted s)) (g_ngt g))) as ->.
  { destruct it; [reflexivity|]. generalize (pre (sz g (wanted s)) (g_ngt g)) as n. clear. induction n; cbn; congruence. }
  set (U := fun e => In e (members g P (wanted s))).
  assert (forall e, U e -> e_gt e < g_ngt g /\ e_base e < sz g (wanted s) (e_gt e)) as UR by (intros; eapply member_range; eauto).
  assert (forall e e', U e -> U e' -> e_gt e = e_gt e' -> e_base e = e_base e' -> e = e') as UI.
  { intros e e' He He' Eg Eb. apply members_in in He as (He & _), He' as (He' & _). eapply base_inj; eauto. }
  pose proof (assigned_start (g_ngt g) (sz g (wanted s)) off U Ho UR UI) as A0.
  assert (exists mp ix D, (if it then update_codims else update_from_elements) g P (wanted s)
      (off, upd 0 0 (map (fun _ => 0) (seq 0 (S (g_ngt g)))), repeat None (pre (sz g (wanted s)) (g_ngt g))) = Ok (off, mp, ix)
      /\ assigned (g_ngt g) (sz g (wanted s)) U D mp ix /\ Permutation D (members g P (wanted s))) as (mp & ix & D & E & AD & PD).
  { destruct it.
    - unfold update_codims.
      erewrite foldM_ext.
      2:{ intros st c. instantiate (1 := fun st c => if nth c (wanted s) false then foldM (assign false)
             (filter (fun e => P (e_part e)) (filter (fun e => e_codim e =? c) (g_entities g))) st else Ok st). cbv beta.
          destruct (nth c (wanted s) false); [|reflexivity]. apply foldM_filter. }
      rewrite foldM_flat.
      pose proof (visited_codims g P (wanted s) W) as V.
      destruct (assign_all (g_ngt g) (sz g (wanted s)) off U Ho UR UI false (flat_map (fun c => if nth c (wanted s) false
          then filter (fun e => P (e_part e)) (filter (fun e => e_codim e =? c) (g_entities g)) else []) (seq 0 (S (g_dim g)))) _ _ _ A0)
        as (mp & ix & D & E & AD & HD).
      + intros e He. eapply Permutation_in; [exact V | exact He].
      + intros _. split; [|intros ? _ []]. eapply Permutation_NoDup; [symmetry; exact V | now apply members_NoDup].
      + exists mp, ix, D. split; [exact E|]. split; [exact AD|]. eapply perm_trans; [|exact V].
        apply NoDup_Permutation; [apply (a_nodup _ _ _ _ _ _ AD) | eapply Permutation_NoDup; [symmetry; exact V | now apply members_NoDup]|].
        intros e. rewrite HD. cbn. tauto.
    - destruct C as [C|C]; [discriminate|]. unfold update_from_elements.
      erewrite foldM_ext.
      2:{ intros st e. instantiate (1 := fun st e => if P (e_part e) then foldM (assign true)
             (flat_map (fun c => if nth c (wanted s) false then filter (fun s => e_codim s =? c) (g_subs g e) else []) (seq 0 (S (g_dim g)))) st else Ok st). cbv beta.
          destruct (P (e_part e)); cbn [negb]; [|reflexivity]. rewrite <- foldM_flat. reflexivity. }
      rewrite foldM_filter.
      assert (forall l st, foldM (fun st e => foldM (assign true) (flat_map (fun c => if nth c (wanted s) false then filter (fun s => e_codim s =? c) (g_subs g e) else []) (seq 0 (S (g_dim g)))) st) l st
        = foldM (assign true) (flat_map (fun e => flat_map (fun c => if nth c (wanted s) false then filter (fun s => e_codim s =? c) (g_subs g e) else []) (seq 0 (S (g_dim g)))) l) st) as FE.
      { induction l as [|a l IH]; intros st; [reflexivity|]. cbn [foldM]. change (flat_map ?f (a :: l)) with (f a ++ flat_map f l). cbv beta. rewrite foldM_app. destruct (foldM (assign true) _ st); cbn [bind]; auto. }
      rewrite FE. clear FE.
      pose proof (visited_elements g P (wanted s) W C) as V.
      destruct (assign_all (g_ngt g) (sz g (wanted s)) off U Ho UR UI true (flat_map (fun e => flat_map (fun c => if nth c (wanted s) false
          then filter (fun s => e_codim s =? c) (g_subs g e) else []) (seq 0 (S (g_dim g))))
          (filter (fun e => P (e_part e)) (filter (fun e => e_codim e =? 0) (g_entities g)))) _ _ _ A0)
        as (mp & ix & D & E & AD & HD).
      + intros e He. apply V, He.
      + discriminate.
      + exists mp, ix, D. split; [exact E|]. split; [exact AD|].
        apply NoDup_Permutation; [apply (a_nodup _ _ _ _ _ _ AD) | now apply members_NoDup|].
        intros e. rewrite HD, V. cbn. tauto. }
  rewrite E. cbn [bind]. eexists. split; [reflexivity|].
  destruct AD as [HU HN Lm H0 Hm Lx Hs Hi Hnn].
  assert (forall t, count D t = count (members g P (wanted s)) t) as EC by (intros; now apply count_perm).
  assert (forall t, pre (count D) t = pre (count (members g P (wanted s))) t) as EP by (intros; apply pre_ext; auto).
  assert (forall t, t <= g_ngt g -> nth_error (partial_sum 0 mp) t = Some (pre (count (members g P (wanted s))) t)) as EM.
  { intros t Ht. rewrite <- EP. eapply partial_sum_pre; eauto. }
  split; [|split; [reflexivity|split; [reflexivity|split; [reflexivity|]]]].
  - apply numbering_intro; cbn [needs_update active mapped geometry_types per_codim active_gts]; auto.
    + now rewrite partial_sum_length.
    + intros e He. unfold unique_index, index. pose proof He as He'. apply members_in in He' as (_ & _ & ->).
      unfold stored, contains_gt. cbn [needs_update active_gts gt_off indices mapped].
      rewrite (proj2 (Ha (e_gt e)) (member_sel _ _ _ _ W He)). cbn [negb].
      pose proof (member_gt _ _ _ _ W He) as Lt.
      rewrite (rd_some _ _ _ (Ho (e_gt e) (Nat.lt_le_incl _ _ Lt))). cbn [bind]. fold (pos (sz g (wanted s)) e).
      destruct (Hs e) as (i & Ei & Li); [eapply Permutation_in; [symmetry; exact PD | exact He]|].
      rewrite (rd_some _ _ _ Ei). cbn [bind]. rewrite (rd_some _ _ _ (EM (e_gt e) (Nat.lt_le_incl _ _ Lt))). cbn [bind].
      exists i. rewrite <- EC. auto.
    + assert (forall x j, In x (members g P (wanted s)) -> index P (mkis false (wanted s) act (wanted s) off (partial_sum 0 mp) (sel g (wanted s))
          (map (fun c => if nth c (wanted s) false then g_types g c else []) (seq 0 (S (g_dim g)))) ix) x = Ok j -> nth_error ix (pos (sz g (wanted s)) x) = Some (Some j)) as R.
      { intros x j Hx. unfold index. pose proof Hx as Hx'. apply members_in in Hx' as (_ & _ & ->).
        unfold stored, contains_gt. cbn [needs_update active_gts gt_off indices mapped].
        rewrite (proj2 (Ha (e_gt x)) (member_sel _ _ _ _ W Hx)). cbn [negb].
        pose proof (member_gt _ _ _ _ W Hx) as Lt.
        rewrite (rd_some _ _ _ (Ho (e_gt x) (Nat.lt_le_incl _ _ Lt))). cbn [bind]. fold (pos (sz g (wanted s)) x).
        unfold rd. destruct (nth_error ix (pos (sz g (wanted s)) x)) as [[k|]|]; cbn; intros Q; try discriminate. now injection Q as ->. }
      intros e e' i He He' Eg E1 E2. apply R in E1; auto. apply R in E2; auto.
      eapply Hi; eauto; eapply Permutation_in; try (symmetry; exact PD); auto.
  - split; [exact Lo|]. cbn [mapped active_gts]. now rewrite partial_sum_length.
Qed.

(** ** All partitions *)
Lemma count_all g mask t : wf_grid g -> count (members g (fun _ => true) mask) t = sz g mask t.
Proof.
  intros W. unfold count, of_type, sz. destruct in_dec as [I|N].
  - pose proof I as I'. apply sel_in in I as (c & Hc & Hm & Ht).
    rewrite <- (seq_length (g_size g t) 0), <- (Permutation_length (wf_index g W c t Hc Ht)), map_length.
    unfold members. rewrite filter_filter. f_equal. apply filter_ext_in. intros e He. destruct (Nat.eqb_spec (e_gt e) t) as [E|E].
    + rewrite andb_true_r, andb_true_r. destruct (wf_entity g W e He) as [Hc' Ht']. rewrite E in Ht'.
      assert (c = e_codim e) as ->; [|exact Hm].
      apply (wf_types g W) in Ht, Ht'; auto.
      destruct (lt_eq_lt_dec c (e_codim e)) as [[L|L]|L]; auto.
      * pose proof (off_le g W (g_dim g - e_codim e + 1) (g_dim g - c) ltac:(lia)). lia.
      * pose proof (off_le g W (g_dim g - c + 1) (g_dim g - e_codim e) ltac:(lia)). lia.
    + now rewrite andb_false_r.
  - assert (filter (fun e => e_gt e =? t) (members g (fun _ => true) mask) = []) as ->; [|reflexivity].
    assert (forall e, In e (members g (fun _ => true) mask) -> e_gt e <> t) as H by (intros e He <-; apply N; eapply member_sel; eauto).
    induction (members g (fun _ => true) mask) as [|a l IH]; [reflexivity|]. cbn [filter].
    destruct (Nat.eqb_spec (e_gt a) t) as [E|E]; [destruct (H a); auto; now left|]. apply IH. intros; apply H; now right.
Qed.
Lemma write_sizes (f : nat -> nat) n ts l : length l = S n -> (forall t, In t ts -> t < n) -> nth_error l 0 = Some 0 ->
  (forall t, t < n -> nth_error l (t + 1) = Some 0) ->
  exists l', foldM (fun l t => wr l (t + 1) (f t)) ts l = Ok l' /\ length l' = S n /\ nth_error l' 0 = Some 0 /\
    forall t, t < n -> nth_error l' (t + 1) = Some (if in_dec Nat.eq_dec t ts then f t else 0).
Proof.
  intros L B Z H. apply (foldM_inv (fun l t => wr l (t + 1) (f t)) (fun p l => length l = S n /\ nth_error l 0 = Some 0 /\
    forall t, t < n -> nth_error l (t + 1) = Some (if in_dec Nat.eq_dec t p then f t else 0))).
  - repeat split; auto.
  - intros p t l1 (L1 & Z1 & H1) Ht. apply B in Ht. rewrite wr_ok by lia. eexists. split; [reflexivity|].
    rewrite upd_length, upd_nth_error_other by lia. split; [exact L1|]. split; [exact Z1|].
    intros u Hu. rewrite nth_error_upd, H1 by lia. destruct (u + 1 =? t + 1) eqn:E.
    + assert (u = t) by lia. subst. destruct in_dec as [_|N]; [reflexivity|]. destruct N. apply in_or_app. right. now left.
    + destruct (in_dec _ u p) as [I|I], (in_dec _ u (p ++ [t])) as [J|J]; auto.
      * destruct J. apply in_or_app. now left.
      * apply in_app_iff in J as [J|[J|[]]]; [contradiction | lia].
Qed.
Lemma update_all_numbering g s force : wf_grid g -> arrays g s -> needs_update s || force = true ->
  exists s', update_all g s force = Ok (true, s') /\ numbering g (fun _ => true) (wanted s) (index_all s') (unique_index_all s') s' /\
    needs_update s' = false /\ wanted s' = wanted s /\ active s' = wanted s /\ arrays g s'.
Proof.
  intros W A F. destruct (base_ok g s force W A F) as (act & off & E & La & Ha & Lo & Ho).
  unfold update_all. rewrite E. clear E. cbn [bind negb gt_off mapped active needs_update wanted active_gts geometry_types per_codim indices].
  rewrite wr_ok by (rewrite map_length, seq_length; lia). cbn [bind].
  destruct (write_sizes (g_size g) (g_ngt g) (sel g (wanted s)) (upd 0 0 (map (fun _ => 0) (seq 0 (S (g_ngt g)))))) as (mp & E & Lm & Z & Hm).
  - now rewrite upd_length, map_length, seq_length.
  - intros t. now apply sel_lt.
  - reflexivity.
  - intros t Ht. rewrite upd_nth_error_other by lia. apply nth_error_zeros. rewrite seq_length. lia.
  - rewrite E. cbn [bind]. eexists. split; [reflexivity|].
    assert (forall t, t <= g_ngt g -> nth_error (partial_sum 0 mp) t = Some (pre (count (members g (fun _ => true) (wanted s))) t)) as EM.
    { intros t Ht. rewrite (pre_ext _ (sz g (wanted s))) by (intros; now apply count_all). eapply partial_sum_pre; eauto. }
    split; [|split; [reflexivity|split; [reflexivity|split; [reflexivity|]]]].
    + apply numbering_intro; cbn [needs_update active mapped geometry_types per_codim active_gts]; auto.
      * now rewrite partial_sum_length.
      * intros e He. unfold unique_index_all, index_all, contains_gt. cbn [active_gts mapped].
        rewrite (proj2 (Ha (e_gt e)) (member_sel _ _ _ _ W He)).
        pose proof (member_gt _ _ _ _ W He) as Lt. rewrite (rd_some _ _ _ (EM (e_gt e) (Nat.lt_le_incl _ _ Lt))). cbn [bind].
        exists (e_base e). rewrite count_all by auto. split; [reflexivity|]. split; [eapply member_range; eauto | reflexivity].
      * intros e e' i He He' Eg. unfold index_all, contains_gt. cbn [active_gts].
        rewrite (proj2 (Ha (e_gt e)) (member_sel _ _ _ _ W He)), (proj2 (Ha (e_gt e')) (member_sel _ _ _ _ W He')).
        intros E1 E2. injection E1 as E1. injection E2 as E2.
        apply members_in in He as (He & _), He' as (He' & _). eapply base_inj; eauto. congruence.
    + split; [exact Lo|]. cbn [mapped active_gts]. now rewrite partial_sum_length.
Qed.

(** ** Histories *)
(** The update depends on the state only by the selection. *)
Lemma base_update_indep g s s' f f' : arrays g s -> arrays g s' -> wanted s = wanted s' -> indices s = indices s' ->
  needs_update s || f = true -> needs_update s' || f' = true -> base_update g s f = base_update g s' f'.
Proof.
  intros (A1 & A2 & A3) (B1 & B2 & B3) E1 E2 F F'. unfold base_update. rewrite F, F', E1, E2. cbn [negb].
  rewrite (map_const_length 0 (gt_off s) (gt_off s')) by lia.
  rewrite (map_const_length 0 (mapped s) (mapped s')) by lia.
  rewrite (map_const_length false (active_gts s) (active_gts s')) by lia. reflexivity.
Qed.
Definition with_indices (s : istate) ix := mkis (needs_update s) (wanted s) (active_gts s) (active s) (gt_off s) (mapped s) (geometry_types s) (per_codim s) ix.
Lemma base_update_indices g s f ix : base_update g (with_indices s ix) f =
  let* (b, s1) := base_update g s f in Ok (b, with_indices s1 ix).
Proof.
  unfold base_update, with_indices. cbn [needs_update wanted active_gts active gt_off mapped geometry_types per_codim indices].
  destruct (negb (needs_update s || f)); [reflexivity|]. destruct (foldM _ _ _) as [[[o gts] a]| |]; reflexivity.
Qed.
Lemma base_true g s f b s1 : needs_update s || f = true -> base_update g s f = Ok (b, s1) -> b = true.
Proof.
  unfold base_update. intros ->. cbn [negb]. destruct (foldM _ _ _) as [[[o gts] a]| |]; cbn [bind]; intros E; try discriminate. now injection E as <-.
Qed.
Lemma update_indices g P it s f ix : needs_update s || f = true -> update g P it (with_indices s ix) f = update g P it s f.
Proof.
  intros F. unfold update. rewrite base_update_indices. destruct (base_update g s f) as [[b s1]| |] eqn:E; cbn [bind]; auto.
  apply base_true in E as ->; auto.
Qed.
Lemma update_indep g P it s s' f f' : arrays g s -> arrays g s' -> wanted s = wanted s' ->
  needs_update s || f = true -> needs_update s' || f' = true -> update g P it s f = update g P it s' f'.
Proof.
  intros A A' E F F'. rewrite <- (update_indices g P it s' f' (indices s)) by auto. unfold update.
  rewrite (base_update_indep g s (with_indices s' (indices s)) f f'); auto.
Qed.
Lemma update_all_indep g s s' f f' : arrays g s -> arrays g s' -> wanted s = wanted s' -> indices s = indices s' ->
  needs_update s || f = true -> needs_update s' || f' = true -> update_all g s f = update_all g s' f'.
Proof. intros. unfold update_all. erewrite base_update_indep; eauto. Qed.

Lemma same_mask_eq a b : same_mask a b = true <-> a = b.
Proof. unfold same_mask. destruct list_eq_dec; split; auto; discriminate. Qed.
Lemma none_repeat n : none (repeat false n) = true.
Proof. induction n; [reflexivity | exact IHn]. Qed.

Lemma noop g P it s : needs_update s = false -> update g P it s false = Ok (false, s).
Proof. intros H. unfold update, base_update. now rewrite H. Qed.
Lemma noop_all g s : needs_update s = false -> update_all g s false = Ok (false, s).
Proof. intros H. unfold update_all, base_update. now rewrite H. Qed.

(** The invariant of a history for an update function [up] that, called on a state that needs it, yields a state described by [Q]:
    either nothing was ever updated, or the data are those of the mask [active s]. *)
Section history.
  Variables (g : grid) (up : istate -> bool -> res (bool * istate)) (Q : list bool -> istate -> Prop).
  Hypothesis up_ok : forall s f, arrays g s -> length (wanted s) = S (g_dim g) -> needs_update s || f = true ->
    exists s', up s f = Ok (true, s') /\ Q (wanted s) s' /\ needs_update s' = false /\ wanted s' = wanted s /\ active s' = wanted s /\ arrays g s'.
  Hypothesis up_noop : forall s, needs_update s = false -> up s false = Ok (false, s).
  (** Q does not depend on the flag and the selection *)
  Hypothesis Q_sel : forall m s w, Q m s -> w = m ->
    Q m (mkis false w (active_gts s) (active s) (gt_off s) (mapped s) (geometry_types s) (per_codim s) (indices s)).

  Definition hist (s : istate) : Prop :=
    arrays g s /\ length (wanted s) = S (g_dim g) /\ (needs_update s = false -> wanted s = active s) /\
    ((active s = repeat false (S (g_dim g)) /\ (needs_update s = true)) \/
     Q (active s) (mkis false (active s) (active_gts s) (active s) (gt_off s) (mapped s) (geometry_types s) (per_codim s) (indices s))).

  Lemma hist_set s b c s' : hist s -> set_codim b s c = Ok s' -> hist s'.
  Proof.
    intros (A & L & HW & H) E. unfold set_codim in E. destruct (negb (c <? length (wanted s))); [discriminate|]. injection E as <-.
    split; [exact A|]. cbn [wanted active needs_update active_gts gt_off mapped geometry_types per_codim indices].
    split; [now rewrite upd_length|]. split.
    - intros E. apply orb_false_iff in E as (E & _). apply negb_false_iff, same_mask_eq in E. exact E.
    - destruct H as [(Ea & _)|H]; [left; split; [exact Ea|] | right; exact H].
      destruct (same_mask (upd c b (wanted s)) (active s)) eqn:E; [|reflexivity].
      apply same_mask_eq in E. rewrite E, Ea. cbn [negb orb]. apply none_repeat.
  Qed.
  Lemma hist_step s o s' : hist s -> step up s o = Ok s' -> hist s'.
  Proof.
    intros HH E. destruct o as [|c|c|f]; cbn [step] in E.
    - injection E as <-. destruct HH as (A & L & HW & H). split; [exact A|].
      cbn [reset wanted active needs_update active_gts gt_off mapped geometry_types per_codim indices].
      split; [now rewrite map_length|]. split; [discriminate|]. destruct H as [(Ea & _)|H]; auto.
    - eapply hist_set; eauto.
    - eapply hist_set; eauto.
    - destruct HH as (A & L & HW & H). destruct (needs_update s || f) eqn:F.
      + destruct (up_ok s f A L F) as (s1 & E1 & HQ & N & Ew & Ea & A1). rewrite E1 in E. cbn [bind] in E. injection E as <-.
        split; [exact A1|]. split; [congruence|]. split; [congruence|]. right. rewrite Ea. rewrite <- Ea at 3. now apply Q_sel.
      + apply orb_false_iff in F as (F & ->). rewrite up_noop in E by auto. cbn [bind] in E. injection E as <-.
        split; [exact A|]. auto.
  Qed.
  Lemma hist_construct mask g1 g2 : array_of g g1 -> array_of g g2 -> length mask = S (g_dim g) -> hist (construct g mask g1 g2).
  Proof.
    intros H1 H2 L. split; [repeat split; auto; apply repeat_length|]. split; [exact L|]. split; [discriminate|]. left. split; reflexivity.
  Qed.
  Lemma hist_fold ops : forall s s', hist s -> foldM (step up) ops s = Ok s' -> hist s'.
  Proof.
    induction ops as [|o ops IH]; intros s s' H E; [injection E as <-; exact H|]. cbn [foldM] in E.
    apply bind_ok in E as (s1 & E1 & E2). eapply IH; [|exact E2]. eapply hist_step; eauto.
  Qed.
  Lemma hist_uptodate s : hist s -> needs_update s = false -> Q (wanted s) s.
  Proof.
    intros (A & L & HW & [(_ & H)|H]) N; [congruence|]. specialize (HW N). destruct s; cbn in *; subst. exact H.
  Qed.
End history.

(** ** ElementMapper *)
Lemma mapper_ok g : wf_grid g -> exists offsets, mapper_offsets g = Ok offsets /\
  forall t, g_off g (g_dim g) <= t <= g_ngt g -> nth_error offsets (t - g_off g (g_dim g)) =
    Some (pre (fun k => if in_dec Nat.eq_dec (k + g_off g (g_dim g)) (g_types g 0) then g_size g (k + g_off g (g_dim g)) else 0) (t - g_off g (g_dim g))).
Proof.
  intros W. set (o := g_off g (g_dim g)).
  assert (o <= g_ngt g) as Lo by (apply (wf_mono g W)).
  assert (forall t, In t (g_types g 0) -> o <= t < g_ngt g) as B.
  { intros t Ht. apply (wf_types g W) in Ht; [|lia]. rewrite Nat.sub_0_r in Ht. replace (g_dim g + 1) with (S (g_dim g)) in Ht by lia. exact Ht. }
  unfold mapper_offsets. fold o.
  assert (forall ts l, (forall t, In t ts -> o <= t < g_ngt g) -> foldM (fun l t => wr l (t - o + 1) (g_size g t)) ts l =
     foldM (fun l k => wr l (k + 1) (g_size g (k + o))) (map (fun t => t - o) ts) l) as EF.
  { induction ts as [|t ts IH]; intros l H; [reflexivity|]. cbn [foldM map].
    specialize (H t (or_introl eq_refl)) as Ht. replace (t - o + o) with t by lia.
    destruct (wr l (t - o + 1) (g_size g t)); cbn [bind]; auto. apply IH. intros; apply H; now right. }
  rewrite EF by exact B.
  destruct (write_sizes (fun k => g_size g (k + o)) (g_ngt g - o) (map (fun t => t - o) (g_types g 0)) (repeat 0 (S (g_ngt g - o)))) as (l & E & Ll & Z & H).
  - apply repeat_length.
  - intros k Hk. apply in_map_iff in Hk as (t & <- & Ht). apply B in Ht. lia.
  - reflexivity.
  - intros t Ht. apply nth_error_repeat'. lia.
  - rewrite E. cbn [bind]. eexists. split; [reflexivity|]. intros t Ht. eapply partial_sum_pre; [exact Ll | exact Z | | lia].
    intros k Hk. rewrite H by lia. f_equal.
    destruct (in_dec _ k _) as [I|I], (in_dec _ (k + o) _) as [J|J]; auto.
    + apply in_map_iff in I as (u & <- & Hu). destruct J. apply B in Hu as Hu'. now replace (u - o + o) with u by lia.
    + destruct I. apply in_map_iff. exists (k + o). split; [lia | exact J].
Qed.
Lemma mapper_consecutive g : wf_grid g -> exists offsets, mapper_offsets g = Ok offsets /\ consecutive (map_element g offsets) (of_codim 0 (g_entities g)).
Proof.
  intros W. destruct (mapper_ok g W) as (offsets & E & H). exists offsets. split; [exact E|].
  set (o := g_off g (g_dim g)) in *.
  set (f := fun k => if in_dec Nat.eq_dec (k + o) (g_types g 0) then g_size g (k + o) else 0) in *.
  assert (of_codim 0 (g_entities g) = members g (fun _ => true) [true]) as ME.
  { unfold of_codim, members. apply filter_ext_in. intros e He. destruct (e_codim e) as [|[|c]]; reflexivity. }
  assert (forall e, In e (of_codim 0 (g_entities g)) -> In e (g_entities g) /\ In (e_gt e) (g_types g 0) /\ o <= e_gt e < g_ngt g) as B.
  { intros e He. apply filter_In in He as (He & E0). apply Nat.eqb_eq in E0. destruct (wf_entity g W e He) as [_ Ht]. rewrite E0 in Ht.
    split; [exact He|]. split; [exact Ht|]. apply (wf_types g W) in Ht; [|lia]. rewrite Nat.sub_0_r in Ht.
    replace (g_dim g + 1) with (S (g_dim g)) in Ht by lia. exact Ht. }
  assert (forall e, In e (of_codim 0 (g_entities g)) -> map_element g offsets e = Ok (pre f (e_gt e - o) + e_base e) /\ e_base e < f (e_gt e - o)) as M.
  { intros e He. destruct (B e He) as (Hg & Ht & L). unfold map_element. fold o.
    rewrite (rd_some _ _ _ (H (e_gt e) ltac:(lia))). split; [reflexivity|]. unfold f. replace (e_gt e - o + o) with (e_gt e) by lia.
    destruct in_dec as [_|N]; [now apply base_lt | contradiction]. }
  assert (length (of_codim 0 (g_entities g)) = pre f (g_ngt g - o)) as L.
  { rewrite ME. rewrite <- (count_le _ (g_ngt g)) by (intros; eapply member_gt; eauto).
    assert (o <= g_ngt g) as Lo by (apply (wf_mono g W)).
    assert (forall k, k <= g_ngt g - o -> pre (count (members g (fun _ => true) [true])) (o + k) = pre f k) as G.
    { induction k as [|k IH]; intros Hk.
      - rewrite Nat.add_0_r, pre_count. cbn. rewrite <- ME.
        assert (filter (fun e => e_gt e <? o) (of_codim 0 (g_entities g)) = []) as ->; [|reflexivity].
        assert (forall e, In e (of_codim 0 (g_entities g)) -> (e_gt e <? o) = false) as N by (intros e He; destruct (B e He); lia).
        clear - N. induction (of_codim 0 (g_entities g)) as [|a l IH]; [reflexivity|]. cbn [filter]. rewrite N by now left. apply IH. intros; apply N; now right.
      - rewrite Nat.add_succ_r, !pre_S, IH, count_all by (auto; lia). f_equal. unfold f, sz.
        assert (In (o + k) (sel g [true]) <-> In (k + o) (g_types g 0)) as I.
        { rewrite sel_in. rewrite (Nat.add_comm k o). split.
          - intros ([|[|c]] & Hc & Hm & Ht); auto; discriminate.
          - intros Ht. exists 0. repeat split; auto. lia. }
        rewrite (Nat.add_comm k o) in *. destruct (in_dec _ _ (sel g [true])), (in_dec _ _ (g_types g 0)); tauto. }
    rewrite <- G by lia. f_equal. lia. }
  apply consecutive_intro.
  - apply NoDup_filter, entities_NoDup, W.
  - intros e He. destruct (M e He) as (Em & Lt). eexists. split; [exact Em|]. rewrite L. destruct (B e He) as (_ & _ & R).
    pose proof (pre_mono f (S (e_gt e - o)) (g_ngt g - o) ltac:(lia)). rewrite pre_S in *. lia.
  - intros x y i Hx Hy Ex Ey. destruct (M x Hx) as (Mx & Lx), (M y Hy) as (My & Ly). rewrite Mx in Ex. rewrite My in Ey.
    injection Ex as Ex. injection Ey as Ey. destruct (pre_inj f _ _ _ _ Lx Ly) as [E1 E2]; [lia|].
    destruct (B x Hx) as (Gx & _ & Rx), (B y Hy) as (Gy & _ & Ry). eapply base_inj; eauto. lia.
Qed.

(** ** The cell cache *)
Section vtk.
  Context {V : Type}.
  Variable cell_index : nat -> nat.
  Hypothesis inj : forall c c', cell_index c = cell_index c' -> c = c'.
  Definition coherent (d : vtk V) (last : option nat) (changed : bool) : Prop :=
    match last with
    | None => current_cell d = None
    | Some c => current_cell d = Some (cell_index c) /\ (changed = false -> local d = Some (vector d c))
    end.
  Lemma vtk_run ops : forall d last changed out, coherent d last changed -> never_twice last changed ops ->
    snd (fold_left (vtk_step cell_index) ops (d, out)) = out ++ map Some (uncached (vector d) ops).
  Proof.
    induction ops as [|o ops IH]; intros d last changed out C N; [now rewrite app_nil_r|].
    destruct o as [x|c]; cbn [fold_left vtk_step never_twice uncached map] in *.
    - rewrite (IH _ last true); auto. destruct last as [c|]; cbn in *; [|exact C]. destruct C as [C _]. split; [exact C | discriminate].
    - destruct N as [N N']. 
      assert (coherent (vtk_bind cell_index d c) (Some c) false /\ vector (vtk_bind cell_index d c) = vector d /\ local (vtk_bind cell_index d c) = Some (vector d c)) as (C' & Ev & El).
      { unfold vtk_bind. destruct last as [k|]; cbn in C.
        - destruct C as [C1 Cl]. rewrite C1. destruct (Nat.eqb_spec (cell_index k) (cell_index c)) as [E|E].
          + apply inj in E. subst k. assert (changed = false) as -> by (destruct changed; [destruct (N eq_refl); reflexivity | reflexivity]).
            specialize (Cl eq_refl). repeat split; auto.
          + cbn. auto.
        - rewrite C. cbn. auto. }
      rewrite (IH _ (Some c) false); auto. rewrite Ev, El, <- app_assoc. reflexivity.
  Qed.
End vtk.
