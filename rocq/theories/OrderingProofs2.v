From Verif Require Import Common CommonFacts OrderingModel OrderingSpec OrderingProofs.

Lemma dof_leaf_inv b s en p : dof_of (OLeaf b s) en p -> exists i, p = [i] /\ i < dofs_on s en.
Proof. intros H. inversion H; subst; eauto. Qed.
Lemma dof_gv_inv b ents t en p : dof_of (OGV b ents t) en p -> ldof t en p.
Proof. intros H. now inversion H. Qed.
Lemma dof_lex_inv b cs en p : dof_of (OLex b cs) en p -> exists c o q, p = c :: q /\ nth_error cs c = Some o /\ dof_of o en q.
Proof. intros H. inversion H; subst; eauto 6. Qed.
Lemma dof_inter_inv b m cs en p : dof_of (OInter b m cs) en p -> exists c o q, p = c :: q /\ nth_error cs c = Some o /\ dof_of o en q.
Proof. intros H. inversion H; subst; eauto 6. Qed.
Lemma dof_chunk_inv bs o en p : dof_of (OChunk bs o) en p -> dof_of o en p.
Proof. intros H. now inversion H. Qed.
Lemma dof_perm_inv perm o en p : dof_of (OPerm perm o) en p -> dof_of o en p.
Proof. intros H. now inversion H. Qed.
Lemma wf_lex_inv b cs : well_formed (OLex b cs) -> Forall well_formed cs.
Proof. intros H. now inversion H. Qed.
Lemma wf_inter_inv b m cs : well_formed (OInter b m cs) -> exists sizes n, m = tag_offsets sizes /\ sizes <> [] /\
  Forall well_formed cs /\ Forall2 (fun s o => 0 < s /\ blockCount o = n * s) sizes cs.
Proof. intros H. inversion H; subst. eauto 8. Qed.
Lemma wf_chunk_inv bs o : well_formed (OChunk bs o) -> 0 < bs /\ blockCount o mod bs = 0 /\ well_formed o.
Proof. intros H. inversion H; subst; auto. Qed.
Lemma wf_perm_inv perm o : well_formed (OPerm perm o) -> Permutation perm (seq 0 (blockCount o)) /\ well_formed o.
Proof. intros H. inversion H; subst; auto. Qed.
Lemma wf_leaf_inv b s : well_formed (OLeaf b s) -> b = true -> fixed_sizes s.
Proof. intros H. inversion H; subst; auto. Qed.
Lemma wf_gv_inv b ents t : well_formed (OGV b ents t) -> local_ok ents (disable_blocking t) /\ (b = false -> lfixed t = true).
Proof. intros H. inversion H; subst; auto. Qed.

(* ------------------------------------------------------------------ leaves *)

Lemma div_mod_unique_ d n r q : r < d -> n = q * d + r -> n / d = q /\ n mod d = r.
Proof.
  intros H E. split.
  - symmetry. apply Nat.div_unique with r; lia.
  - symmetry. apply Nat.mod_unique with q; lia.
Qed.

Lemma radix_inj d a r a' r' : r < d -> r' < d -> a * d + r = a' * d + r' -> a = a' /\ r = r'.
Proof.
  intros H H' E.
  destruct (div_mod_unique_ d (a * d + r) r a H eq_refl) as [D M].
  destruct (div_mod_unique_ d (a * d + r) r' a' H' E) as [D' M']. split; congruence.
Qed.

Definition gt_widths (blocked : bool) (gts : list (nat * nat)) : list nat :=
  map (fun nd => (if blocked then b2n (0 <? snd nd) else snd nd) * fst nd) gts.

Lemma leaf_fixed_map b gts gt e i n d :
  nth_error gts gt = Some (n, d) -> e < n -> i < d ->
  leaf_map b (FixedSizes gts) (gt, e) [i] =
  Ok (if b then [pre (gt_widths b gts) gt + e; i] else [pre (gt_widths b gts) gt + (e * d + i)]).
Proof.
  intros E He Hi. unfold leaf_map, leaf_gt_offsets.
  assert (gt < length gts) by (apply nth_error_Some; congruence).
  rewrite at_psums by (rewrite map_length; lia). cbn [bind]. fold (gt_widths b gts).
  destruct b; [reflexivity|]. rewrite (at_ok _ _ _ E). cbn. f_equal. f_equal. lia.
Qed.

Lemma gt_width b gts gt n d : nth_error gts gt = Some (n, d) ->
  nth gt (gt_widths b gts) 0 = (if b then b2n (0 <? d) else d) * n.
Proof. intros E. unfold gt_widths. now rewrite (nth_map_in (fun nd => _) _ _ _ 0 E). Qed.

Lemma dofs_on_fixed gts gt e i : i < dofs_on (FixedSizes gts) (gt, e) ->
  exists n d, nth_error gts gt = Some (n, d) /\ e < n /\ i < d.
Proof.
  cbn. destruct (nth_error gts gt) as [[n d]|]; [|lia]. destruct (e <? n) eqn:L; [|lia].
  intros H. exists n, d. repeat split; lia.
Qed.

Lemma dofs_on_fixed' gts gt e i n d : nth_error gts gt = Some (n, d) -> e < n -> i < d -> i < dofs_on (FixedSizes gts) (gt, e).
Proof. intros E He Hi. cbn. rewrite E. destruct (e <? n) eqn:L; lia. Qed.

Lemma leaf_entity_map gts gt e i l :
  nth_error gts gt = Some l -> i < nth e l 0 ->
  leaf_map false (EntitySizes gts) (gt, e) [i] =
  Ok [pre (concat gts) (pre (map (@length nat) gts) gt + e) + i] /\
  nth (pre (map (@length nat) gts) gt + e) (concat gts) 0 = nth e l 0.
Proof.
  intros E Hi.
  assert (gt < length gts) by (apply nth_error_Some; congruence).
  assert (He : e < length l). { destruct (lt_dec e (length l)); auto. rewrite nth_overflow in Hi; lia. }
  pose proof (nth_error_concat gts gt e l E He) as Hc.
  rewrite (nth_error_nth' l 0 He) in Hc. split; [|now apply nth_nth_error].
  unfold leaf_map, leaf_entity_offsets, leaf_dof_offsets.
  rewrite at_psums by (rewrite map_length; lia). cbn [bind].
  rewrite at_psums. 2:{ apply Nat.lt_le_incl. apply nth_error_Some. congruence. }
  cbn. f_equal. f_equal. lia.
Qed.

Lemma concat_decompose (gts : list (list nat)) g : g < length (concat gts) ->
  exists gt e l, nth_error gts gt = Some l /\ e < length l /\ g = pre (map (@length nat) gts) gt + e.
Proof.
  intros H.
  assert (L : length (concat gts) = sum_nat (map (@length nat) gts)).
  { clear H. induction gts as [|x gts IH]; auto. cbn [concat map]. rewrite app_length, sum_nat_cons. lia. }
  rewrite L in H. destruct (pre_surj _ _ H) as (gt & e & Hg & He & ->). rewrite map_length in Hg.
  destruct (nth_error gts gt) as [l|] eqn:E; [|apply nth_error_None in E; lia].
  exists gt, e, l. repeat split; auto. now rewrite (nth_map_in (@length nat) _ _ _ 0 E) in He.
Qed.

Lemma leaf_separates b s : (b = true -> fixed_sizes s) -> separates (OLeaf b s).
Proof.
  intros Hb. destruct s as [gts|gts].
  - split.
    + intros [gt e] p H. destruct (dof_leaf_inv _ _ _ _ H) as (i & -> & H3). destruct (dofs_on_fixed _ _ _ _ H3) as (n & d & E & He & Hi).
      cbn [mapIndex blockCount leaf_block_count]. rewrite (leaf_fixed_map b gts gt e i n d E He Hi).
      unfold leaf_gt_offsets. rewrite psums_last. fold (gt_widths b gts). cbn [Nat.add].
      destruct b.
      * exists (pre (gt_widths true gts) gt + e), [i]. split; auto. apply pre_bound.
        rewrite (gt_width true gts gt n d E). destruct (0 <? d) eqn:L; cbn [b2n]; lia.
      * exists (pre (gt_widths false gts) gt + (e * d + i)), []. split; auto. apply pre_bound.
        rewrite (gt_width false gts gt n d E). nia.
    + intros [gt e] p [gt' e'] p' H H' Eq. destruct (dof_leaf_inv _ _ _ _ H) as (i & -> & H3). destruct (dof_leaf_inv _ _ _ _ H') as (i0 & -> & H5).
      destruct (dofs_on_fixed _ _ _ _ H3) as (n & d & E & He & Hi).
      destruct (dofs_on_fixed _ _ _ _ H5) as (n' & d' & E' & He' & Hi').
      cbn [mapIndex] in Eq. rewrite (leaf_fixed_map b gts gt e i n d), (leaf_fixed_map b gts gt' e' i0 n' d') in Eq by auto.
      destruct b.
      * injection Eq as Eq Ei. apply pre_inj in Eq.
        -- destruct Eq as [-> ->]. congruence.
        -- rewrite (gt_width true gts gt n d E). destruct (0 <? d) eqn:L; cbn [b2n]; lia.
        -- rewrite (gt_width true gts gt' n' d' E'). destruct (0 <? d') eqn:L; cbn [b2n]; lia.
      * injection Eq as Eq. apply pre_inj in Eq.
        -- destruct Eq as [-> Er]. rewrite E in E'. injection E' as <- <-.
           apply radix_inj in Er; auto. destruct Er as [-> ->]. reflexivity.
        -- rewrite (gt_width false gts gt n d E). nia.
        -- rewrite (gt_width false gts gt' n' d' E'). nia.
  - destruct b; [destruct (Hb eq_refl)|]. clear Hb.
    assert (D : forall gt e i, i < dofs_on (EntitySizes gts) (gt, e) ->
              exists l, nth_error gts gt = Some l /\ i < nth e l 0 /\ e < length l).
    { intros gt e i H. cbn in H. destruct (nth_error gts gt) as [l|] eqn:E; [|lia]. exists l. repeat split; auto.
      destruct (lt_dec e (length l)); auto. rewrite nth_overflow in H; lia. }
    split.
    + intros [gt e] p H. destruct (dof_leaf_inv _ _ _ _ H) as (i & -> & H3). destruct (D _ _ _ H3) as (l & E & Hi & He).
      destruct (leaf_entity_map gts gt e i l E Hi) as [Em En].
      eexists; exists []. cbn [mapIndex]. split; [exact Em|].
      cbn. unfold leaf_dof_offsets. rewrite psums_last. apply pre_bound. rewrite En. auto.
    + intros [gt e] p [gt' e'] p' H H' Eq. destruct (dof_leaf_inv _ _ _ _ H) as (i & -> & H3). destruct (dof_leaf_inv _ _ _ _ H') as (i0 & -> & H5).
      destruct (D _ _ _ H3) as (l & E & Hi & He). destruct (D _ _ _ H5) as (l' & E' & Hi' & He').
      destruct (leaf_entity_map gts gt e i l E Hi) as [Em En].
      destruct (leaf_entity_map gts gt' e' i0 l' E' Hi') as [Em' En'].
      cbn [mapIndex] in Eq. rewrite Em, Em' in Eq. injection Eq as Eq.
      apply pre_inj in Eq; [|rewrite En; auto|rewrite En'; auto].
      destruct Eq as [Eq ->]. apply pre_inj in Eq.
      * destruct Eq as [-> ->]. reflexivity.
      * now rewrite (nth_map_in (@length nat) _ _ _ 0 E).
      * now rewrite (nth_map_in (@length nat) _ _ _ 0 E').
Qed.

(** every outermost position of a leaf is used *)
Lemma leaf_full b s : (b = true -> fixed_sizes s) -> forall h, h < leaf_block_count b s ->
  exists en p t, dof_of (OLeaf b s) en p /\ mapIndex (OLeaf b s) en p = Ok (h :: t).
Proof.
  intros Hb h Hh. destruct s as [gts|gts].
  - cbn in Hh. unfold leaf_gt_offsets in Hh. rewrite psums_last in Hh. fold (gt_widths b gts) in Hh. cbn [Nat.add] in Hh.
    destruct (pre_surj _ _ Hh) as (gt & r & Hg & Hr & ->). unfold gt_widths in Hg. rewrite map_length in Hg.
    destruct (nth_error gts gt) as [[n d]|] eqn:E; [|apply nth_error_None in E; lia].
    rewrite (gt_width b gts gt n d E) in Hr.
    destruct b.
    + destruct (0 <? d) eqn:L; cbn [b2n] in Hr; [|lia].
      exists (gt, r), [0], [0]. split; [constructor; eapply dofs_on_fixed'; eauto; lia|].
      cbn [mapIndex]. erewrite leaf_fixed_map; eauto; lia.
    + assert (Hd : 0 < d) by nia.
      exists (gt, r / d), [r mod d], [].
      assert (Hrd : r / d < n) by (apply Nat.div_lt_upper_bound; lia).
      assert (Hm : r mod d < d) by (apply Nat.mod_upper_bound; lia).
      split; [constructor; eapply dofs_on_fixed'; eauto|].
      cbn [mapIndex]. erewrite leaf_fixed_map; eauto. f_equal. f_equal. f_equal.
      rewrite (Nat.div_mod r d) at 3 by lia. lia.
  - destruct b; [destruct (Hb eq_refl)|]. cbn in Hh. unfold leaf_dof_offsets in Hh. rewrite psums_last in Hh.
    destruct (pre_surj _ _ Hh) as (g & r & Hg & Hr & ->).
    destruct (concat_decompose _ _ Hg) as (gt & e & l & E & He & ->).
    assert (En : nth (pre (map (length (A:=nat)) gts) gt + e) (concat gts) 0 = nth e l 0).
    { apply nth_nth_error. rewrite (nth_error_concat gts gt e l E He). now apply nth_error_nth'. }
    rewrite En in Hr. destruct (leaf_entity_map gts gt e r l E Hr) as [Em _].
    exists (gt, e), [r], []. split; [constructor; cbn; rewrite E; auto|]. exact Em.
Qed.

Lemma leaf_flat_count s : leaf_block_count false s = leaf_size s.
Proof.
  destruct s as [gts|gts]; cbn; auto. unfold leaf_gt_offsets. rewrite psums_last. cbn.
  f_equal.
Qed.

(* ------------------------------------------------------------------ entity-blocked orderings *)

Lemma lfixed_disable t : lfixed (disable_blocking t) = lfixed t.
Proof. now destruct t as [s|b cs]. Qed.

Lemma ldof_disable t en p : ldof (disable_blocking t) en p <-> ldof t en p.
Proof.
  destruct t as [s|b cs]; [reflexivity|]. cbn.
  split; intros H; inversion H; subst; econstructor; eauto.
Qed.

Definition gvw (b : bool) ents t := map (fun gt => (if b then b2n (0 <? lsize ents t gt 0) else lsize ents t gt 0) * nth gt ents 0) (seq 0 (length ents)).

Lemma gvw_nth b ents t gt : gt < length ents ->
  nth gt (gvw b ents t) 0 = (if b then b2n (0 <? lsize ents t gt 0) else lsize ents t gt 0) * nth gt ents 0.
Proof. intros H. unfold gvw. now rewrite (nth_map_seq (fun gt => _)). Qed.

Definition usedw ents t := map (fun gt => if lused t gt then nth gt ents 0 else 0) (seq 0 (length ents)).

Definition vs (b : bool) (s : nat) : nat := if b then b2n (0 <? s) else s.

Lemma gv_entity_nth ents t gt e : gt < length ents -> e < nth gt ents 0 -> lused t gt = true ->
  nth_error (gv_entity_sizes ents t) (pre (usedw ents t) gt + e) = Some (lsize ents t gt e).
Proof.
  intros Hg He Hu. unfold gv_entity_sizes.
  apply (nth_error_entities ents (lused t) (fun gt e => lsize ents t gt e)); auto.
Qed.

Lemma gv_map_ok b ents t gt e p k :
  let t' := disable_blocking t in
  local_ok ents t' -> gt < length ents -> e < nth gt ents 0 ->
  map_local ents t' (gt, e) p = Ok [k] -> k < lsize ents t' gt e ->
  gv_map b ents t (gt, e) p =
  Ok (if lfixed t then
        if b then [pre (gvw b ents t') gt + e; k] else [pre (gvw b ents t') gt + (e * lsize ents t' gt 0 + k)]
      else
        let o := pre (map (vs b) (gv_entity_sizes ents t')) (pre (usedw ents t') gt + e) in
        if b then [o; k] else [o + k]).
Proof.
  intros t' Hok Hg He Em Hk. unfold gv_map. fold t'. rewrite Em. cbn [bind].
  replace (lfixed t') with (lfixed t) by (unfold t'; now rewrite lfixed_disable).
  assert (Hu : lused t' gt = true).
  { destruct (lused t' gt) eqn:U; auto. rewrite (unused_size0 ents t') in Hk; auto. lia. }
  assert (Hp : pre (usedw ents t') gt + e < length (gv_entity_sizes ents t')).
  { apply nth_error_Some. rewrite gv_entity_nth; auto. discriminate. }
  destruct (lfixed t) eqn:F.
  - unfold gv_gt_offsets. fold (gvw b ents t').
    rewrite at_psums by (unfold gvw; rewrite map_length, seq_length; lia). cbn [bind].
    destruct b; [reflexivity|]. cbn. rewrite (lfixed_size_indep ents t' gt e 0) by (unfold t'; now rewrite lfixed_disable).
    f_equal. f_equal. lia.
  - unfold gv_entity_offsets. rewrite at_node_entity_offsets by lia. fold (usedw ents t'). cbn [bind].
    unfold gv_dof_offsets. fold (vs b).
    destruct b; rewrite at_psums by (rewrite map_length; lia); cbn [bind]; [reflexivity|].
    cbn. f_equal. f_equal. lia.
Qed.

Lemma gv_block_count_eq b ents t : (b = false -> lfixed t = true) ->
  gv_block_count b ents t = if lfixed t then sum_nat (gvw b ents t) else sum_nat (map (vs b) (gv_entity_sizes ents t)).
Proof.
  intros H. unfold gv_block_count, gv_gt_offsets. destruct (lfixed t).
  - rewrite psums_last. reflexivity.
  - destruct b; [reflexivity|]. discriminate (H eq_refl).
Qed.

Lemma gv_separates b ents t :
  local_ok ents (disable_blocking t) -> (b = false -> lfixed t = true) -> separates (OGV b ents t).
Proof.
  intros Hok Hb. set (t' := disable_blocking t) in *.
  assert (Hf : lfixed t' = lfixed t) by apply lfixed_disable.
  assert (L : forall gt e p, dof_of (OGV b ents t) (gt, e) p -> gt < length ents /\ e < nth gt ents 0 /\ ldof t' (gt, e) p /\
     exists k, map_local ents t' (gt, e) p = Ok [k] /\ k < lsize ents t' gt e).
  { intros gt e p H. assert (H3 : ldof t' (gt, e) p) by (apply ldof_disable; eapply dof_gv_inv; eauto).
    destruct (ldof_grid ents t' (gt, e) p Hok H3) as [Hg He]. cbn in Hg, He. repeat split; auto.
    destruct (local_spec ents t' Hok gt e Hg He) as (A & _ & _). apply A; auto. }
  split.
  - intros [gt e] p H. destruct (L _ _ _ H) as (Hg & He & Hd & k & Em & Hk).
    cbn [mapIndex blockCount]. fold t'.
    rewrite (gv_map_ok b ents t gt e p k Hok Hg He Em Hk). fold t'.
    rewrite gv_block_count_eq by (rewrite Hf; auto). rewrite Hf.
    assert (Hk0 : lfixed t = true -> k < lsize ents t' gt 0).
    { intros F. rewrite (lfixed_size_indep ents t' gt 0 e); auto. congruence. }
    destruct (lfixed t) eqn:F.
    + specialize (Hk0 eq_refl). destruct b; do 2 eexists; (split; [reflexivity|]); apply pre_bound; rewrite gvw_nth by auto.
      * destruct (0 <? lsize ents t' gt 0) eqn:Z; cbn [b2n]; lia.
      * nia.
    + destruct b; [|discriminate (Hb eq_refl)].
      do 2 eexists; (split; [reflexivity|]).
      rewrite <- (Nat.add_0_r (pre _ _)). apply pre_bound.
      assert (Hu : lused t' gt = true).
      { destruct (lused t' gt) eqn:U; auto. rewrite (unused_size0 ents t') in Hk; auto. lia. }
      rewrite (nth_map_in (vs true) _ _ _ 0 (gv_entity_nth ents t' gt e Hg He Hu)).
      cbn. destruct (0 <? lsize ents t' gt e) eqn:Z; cbn; lia.
  - intros [gt e] p [gt' e'] p' H H' Eq.
    destruct (L _ _ _ H) as (Hg & He & Hd & k & Em & Hk).
    destruct (L _ _ _ H') as (Hg' & He' & Hd' & k' & Em' & Hk').
    cbn [mapIndex] in Eq.
    rewrite (gv_map_ok b ents t gt e p k Hok Hg He Em Hk) in Eq.
    rewrite (gv_map_ok b ents t gt' e' p' k' Hok Hg' He' Em' Hk') in Eq. fold t' in Eq.
    assert (G : gt = gt' /\ e = e' /\ k = k').
    { destruct (lfixed t) eqn:F.
      - assert (Hk0 : k < lsize ents t' gt 0) by (rewrite (lfixed_size_indep ents t' gt 0 e); congruence).
        assert (Hk0' : k' < lsize ents t' gt' 0) by (rewrite (lfixed_size_indep ents t' gt' 0 e'); congruence).
        destruct b.
        + injection Eq as Eq Ek. apply pre_inj in Eq; try tauto; rewrite gvw_nth by auto.
          * destruct (0 <? lsize ents t' gt 0) eqn:Z; cbn [b2n]; lia.
          * destruct (0 <? lsize ents t' gt' 0) eqn:Z; cbn [b2n]; lia.
        + injection Eq as Eq. apply pre_inj in Eq; try (rewrite gvw_nth by auto; nia).
          destruct Eq as [-> Eq]. apply radix_inj in Eq; auto.
      - destruct b; [|discriminate (Hb eq_refl)]. injection Eq as Eq Ek.
        assert (Hu : lused t' gt = true).
        { destruct (lused t' gt) eqn:U; auto. rewrite (unused_size0 ents t') in Hk; auto. lia. }
        assert (Hu' : lused t' gt' = true).
        { destruct (lused t' gt') eqn:U; auto. rewrite (unused_size0 ents t') in Hk'; auto. lia. }
        assert (Eq0 : pre (map (vs true) (gv_entity_sizes ents t')) (pre (usedw ents t') gt + e) + 0 =
                      pre (map (vs true) (gv_entity_sizes ents t')) (pre (usedw ents t') gt' + e') + 0) by lia.
        apply pre_inj in Eq0.
        + destruct Eq0 as [Eq0 _]. apply pre_inj in Eq0; [tauto| |];
            unfold usedw; rewrite (nth_map_seq (fun gt => _)) by auto; [now rewrite Hu|now rewrite Hu'].
        + rewrite (nth_map_in (vs true) _ _ _ 0 (gv_entity_nth ents t' gt e Hg He Hu)).
          cbn. destruct (0 <? lsize ents t' gt e) eqn:Z; cbn; lia.
        + rewrite (nth_map_in (vs true) _ _ _ 0 (gv_entity_nth ents t' gt' e' Hg' He' Hu')).
          cbn. destruct (0 <? lsize ents t' gt' e') eqn:Z; cbn; lia. }
    destruct G as (<- & <- & <-).
    destruct (local_spec ents t' Hok gt e Hg He) as (_ & B & _).
    rewrite (B p p'); auto. congruence.
Qed.

Lemma gv_entity_decompose ents t g : g < length (gv_entity_sizes ents t) ->
  exists gt e, gt < length ents /\ e < nth gt ents 0 /\ lused t gt = true /\ g = pre (usedw ents t) gt + e.
Proof.
  intros H. unfold gv_entity_sizes in H.
  destruct (concat_decompose _ _ H) as (gt & e & l & E & He & ->).
  assert (Hg : gt < length ents).
  { assert (X : gt < length (map (fun gt => if lused t gt then map (fun e => lsize ents t gt e) (seq 0 (nth gt ents 0)) else []) (seq 0 (length ents)))) by (apply nth_error_Some; congruence).
    now rewrite map_length, seq_length in X. }
  rewrite nth_error_map_seq in E by auto. injection E as <-.
  destruct (lused t gt) eqn:U; [|cbn in He; lia].
  rewrite map_length, seq_length in He.
  exists gt, e. repeat split; auto.
  rewrite (concat_map_if_lengths ents (lused t) (fun gt e => lsize ents t gt e)). reflexivity.
Qed.

Lemma gv_full b ents t : local_ok ents (disable_blocking t) -> (b = false -> lfixed t = true) ->
  forall h, h < gv_block_count b ents (disable_blocking t) ->
  exists en p r, dof_of (OGV b ents t) en p /\ mapIndex (OGV b ents t) en p = Ok (h :: r).
Proof.
  intros Hok Hb h Hh. set (t' := disable_blocking t) in *.
  assert (Hf : lfixed t' = lfixed t) by apply lfixed_disable.
  assert (K : forall gt e k, gt < length ents -> e < nth gt ents 0 -> k < lsize ents t' gt e ->
     exists p, dof_of (OGV b ents t) (gt, e) p /\ map_local ents t' (gt, e) p = Ok [k]).
  { intros gt e k Hg He Hk. destruct (local_spec ents t' Hok gt e Hg He) as (_ & _ & C).
    destruct (C k Hk) as (p & Hp & Em). exists p. split; auto. constructor. now apply ldof_disable. }
  rewrite gv_block_count_eq in Hh by (rewrite Hf; auto). rewrite Hf in Hh.
  destruct (lfixed t) eqn:F.
  - destruct (pre_surj _ _ Hh) as (gt & r & Hg & Hr & ->). unfold gvw in Hg. rewrite map_length, seq_length in Hg.
    rewrite gvw_nth in Hr by auto. destruct b.
    + destruct (0 <? lsize ents t' gt 0) eqn:Z; cbn [b2n] in Hr; [|lia].
      assert (Hz : 0 < lsize ents t' gt r) by (rewrite (lfixed_size_indep ents t' gt r 0); lia || congruence).
      assert (He : r < nth gt ents 0) by lia.
      destruct (K gt r 0 Hg He Hz) as (p & Hp & Em).
      exists (gt, r), p, [0]. split; auto. cbn [mapIndex]. rewrite (gv_map_ok true ents t gt r p 0 Hok Hg He Em Hz).
      now rewrite F.
    + set (d := lsize ents t' gt 0) in *. assert (Hd : 0 < d) by nia.
      assert (He : r / d < nth gt ents 0) by (apply Nat.div_lt_upper_bound; lia).
      assert (Hk : r mod d < lsize ents t' gt (r / d)).
      { rewrite (lfixed_size_indep ents t' gt (r / d) 0) by congruence. fold d. apply Nat.mod_upper_bound; lia. }
      destruct (K gt (r / d) (r mod d) Hg He Hk) as (p & Hp & Em).
      exists (gt, r / d), p, []. split; auto. cbn [mapIndex].
      rewrite (gv_map_ok false ents t gt (r / d) p (r mod d) Hok Hg He Em Hk). rewrite F. fold t' d.
      do 3 f_equal. rewrite (Nat.div_mod r d) at 3 by lia. lia.
  - destruct b; [|discriminate (Hb eq_refl)].
    destruct (pre_surj _ _ Hh) as (g & r & Hg & Hr & ->). rewrite map_length in Hg.
    destruct (gv_entity_decompose ents t' g Hg) as (gt & e & Hgt & He & Hu & ->).
    rewrite (nth_map_in (vs true) _ _ _ 0 (gv_entity_nth ents t' gt e Hgt He Hu)) in Hr.
    cbn in Hr. destruct (0 <? lsize ents t' gt e) eqn:Z; cbn in Hr; [|lia].
    assert (Hz : 0 < lsize ents t' gt e) by lia.
    destruct (K gt e 0 Hgt He Hz) as (p & Hp & Em).
    exists (gt, e), p, [0]. split; auto. cbn [mapIndex].
    rewrite (gv_map_ok true ents t gt e p 0 Hok Hgt He Em Hz). rewrite F. fold t'.
    cbv zeta. replace r with 0 by lia. now rewrite Nat.add_0_r.
Qed.

Lemma gv_flat_count ents t : lfixed t = true -> gv_block_count false ents t = gv_size ents t.
Proof.
  intros F. unfold gv_block_count, gv_size. rewrite F. unfold gv_gt_offsets. rewrite psums_last. reflexivity.
Qed.

(* ------------------------------------------------------------------ inner nodes *)

Lemma Forall2_nth_error {A B} (P : A -> B -> Prop) l l' i y :
  Forall2 P l l' -> nth_error l' i = Some y -> exists x, nth_error l i = Some x /\ P x y.
Proof.
  intros H. revert i. induction H as [|x y' l l' Hxy H IH]; intros i E; destruct i; cbn in *; try discriminate.
  - injection E as ->. eauto.
  - apply IH; auto.
Qed.

Lemma Forall2_nth_error_l {A B} (P : A -> B -> Prop) l l' i x :
  Forall2 P l l' -> nth_error l i = Some x -> exists y, nth_error l' i = Some y /\ P x y.
Proof.
  intros H. revert i. induction H as [|x' y' l l' Hxy H IH]; intros i E; destruct i; cbn in *; try discriminate.
  - injection E as ->. eauto.
  - apply IH; auto.
Qed.

Lemma inter_total sizes cs n : Forall2 (fun s o => 0 < s /\ blockCount o = n * s) sizes cs ->
  sum_nat (map blockCount cs) = n * sum_nat sizes.
Proof.
  induction 1 as [|s o sizes cs [_ E] H IH]; cbn [map]; rewrite ?sum_nat_cons; [cbn; lia|]. rewrite E, IH. lia.
Qed.

Lemma inter_sum_pos sizes cs n : sizes <> [] -> Forall2 (fun s o => 0 < s /\ blockCount o = n * s) sizes cs -> 0 < sum_nat sizes.
Proof. intros Hne H. destruct H as [|s o sizes cs [Hs _] H]; [congruence|]. rewrite sum_nat_cons. lia. Qed.

Lemma inter_map_ok b sizes c s h t : nth_error sizes c = Some s -> 0 < s ->
  inter_map b (tag_offsets sizes) c (h :: t) =
  Ok (if b then h / s :: pre sizes c + h mod s :: t else h / s * sum_nat sizes + (pre sizes c + h mod s) :: t).
Proof.
  intros E Hs. unfold inter_map, tag_offsets.
  assert (c < length sizes) by (apply nth_error_Some; congruence).
  rewrite !at_psums by lia. cbn [bind]. rewrite pre_S, (nth_nth_error _ _ 0 _ E).
  replace (pre sizes c + s - pre sizes c) with s by lia.
  replace (s =? 0) with false by lia. rewrite psums_last. cbn [Nat.add]. destruct b; reflexivity.
Qed.

Lemma wf_separates o : well_formed o -> separates o.
Proof.
  induction o as [b s|b ents t|b cs IH|b m cs IH|bs o IH|perm o IH] using ord_ind'; intros Hwf.
  - apply leaf_separates. eapply wf_leaf_inv; eauto.
  - apply gv_separates; eapply wf_gv_inv; eauto.
  - (* lexicographic *)
    pose proof (wf_lex_inv _ _ Hwf) as H0.
    assert (M : forall en p, dof_of (OLex b cs) en p -> exists c o q h t, p = c :: q /\ nth_error cs c = Some o /\
       dof_of o en q /\ mapIndex o en q = Ok (h :: t) /\ h < blockCount o /\
       mapIndex (OLex b cs) en p = Ok (if b then c :: h :: t else pre (map blockCount cs) c + h :: t)).
    { intros en p H. destruct (dof_lex_inv _ _ _ _ H) as (c & o & q & -> & E & Hq).
      pose proof (Forall_nth_error _ _ _ _ IH E) as IHo.
      destruct (IHo (Forall_nth_error _ _ _ _ H0 E)) as (A & _). destruct (A en q Hq) as (h & t & Em & Hh).
      exists c, o, q, h, t. repeat split; auto. cbn [mapIndex]. erewrite at_map by eassumption. cbn [bind]. rewrite Em. cbn [bind].
      unfold lex_map. destruct b; auto.
      assert (c < length cs) by (apply nth_error_Some; congruence).
      rewrite at_psums by (rewrite map_length; lia). cbn. f_equal. f_equal. lia. }
    split.
    + intros en p H. destruct (M en p H) as (c & o & q & h & t & -> & E & Hq & Em & Hh & EM).
      assert (c < length cs) by (apply nth_error_Some; congruence).
      rewrite EM. cbn [blockCount]. destruct b; do 2 eexists; (split; [reflexivity|]); auto.
      rewrite psums_last. apply pre_bound. now rewrite (nth_map_in blockCount _ _ _ 0 E).
    + intros en p en' p' H H' Eq.
      destruct (M en p H) as (c & o & q & h & t & -> & E & Hq & Em & Hh & EM).
      destruct (M en' p' H') as (c' & o' & q' & h' & t' & -> & E' & Hq' & Em' & Hh' & EM').
      rewrite EM, EM' in Eq.
      assert (G : c = c' /\ h = h' /\ t = t').
      { destruct b; [injection Eq; auto|]. injection Eq as Eq Et.
        apply pre_inj in Eq; [tauto|now rewrite (nth_map_in blockCount _ _ _ 0 E)|now rewrite (nth_map_in blockCount _ _ _ 0 E')]. }
      destruct G as (<- & <- & <-). rewrite E in E'. injection E' as <-.
      pose proof (Forall_nth_error _ _ _ _ IH E) as IHo.
      destruct (IHo (Forall_nth_error _ _ _ _ H0 E)) as (_ & B).
      assert (X : (en, q) = (en', q')) by (apply B; auto; congruence). injection X as -> ->. reflexivity.
  - (* interleaved *)
    destruct (wf_inter_inv _ _ _ Hwf) as (sizes & n & -> & Hne & Hcs & Hbal).
    assert (M : forall en p, dof_of (OInter b (tag_offsets sizes) cs) en p -> exists c s o q h t, p = c :: q /\ nth_error cs c = Some o /\
       nth_error sizes c = Some s /\ 0 < s /\
       dof_of o en q /\ mapIndex o en q = Ok (h :: t) /\ h < n * s /\
       mapIndex (OInter b (tag_offsets sizes) cs) en p =
       Ok (if b then h / s :: pre sizes c + h mod s :: t else h / s * sum_nat sizes + (pre sizes c + h mod s) :: t)).
    { intros en p H. destruct (dof_inter_inv _ _ _ _ _ H) as (c & o & q & -> & E & Hq).
      pose proof (Forall_nth_error _ _ _ _ IH E) as IHo.
      destruct (IHo (Forall_nth_error _ _ _ _ Hcs E)) as (A & _). destruct (A en q Hq) as (h & t & Em & Hh).
      destruct (Forall2_nth_error _ _ _ _ _ Hbal E) as (s & Es & Hs & Ebc).
      exists c, s, o, q, h, t. rewrite <- Ebc. repeat split; auto.
      cbn [mapIndex]. erewrite at_map by eassumption. cbn [bind]. rewrite Em. cbn [bind]. now apply inter_map_ok. }
    assert (HS : 0 < sum_nat sizes) by (eapply inter_sum_pos; eauto).
    split.
    + intros en p H. destruct (M en p H) as (c & s & o & q & h & t & -> & E & Es & Hs & Hq & Em & Hh & EM).
      rewrite EM. cbn [blockCount]. unfold tag_offsets. rewrite !psums_last, (inter_total _ _ _ Hbal). cbn [Nat.add].
      assert (h / s < n) by (apply Nat.div_lt_upper_bound; lia).
      destruct b; do 2 eexists; (split; [reflexivity|]).
      * rewrite Nat.div_mul; lia.
      * assert (pre sizes c + h mod s < sum_nat sizes).
        { apply pre_bound. rewrite (nth_nth_error _ _ 0 _ Es). apply Nat.mod_upper_bound. lia. }
        nia.
    + intros en p en' p' H H' Eq.
      destruct (M en p H) as (c & s & o & q & h & t & -> & E & Es & Hs & Hq & Em & Hh & EM).
      destruct (M en' p' H') as (c' & s' & o' & q' & h' & t' & -> & E' & Es' & Hs' & Hq' & Em' & Hh' & EM').
      rewrite EM, EM' in Eq.
      assert (B1 : h mod s < nth c sizes 0) by (rewrite (nth_nth_error _ _ 0 _ Es); apply Nat.mod_upper_bound; lia).
      assert (B2 : h' mod s' < nth c' sizes 0) by (rewrite (nth_nth_error _ _ 0 _ Es'); apply Nat.mod_upper_bound; lia).
      assert (G : c = c' /\ h / s = h' / s' /\ h mod s = h' mod s' /\ t = t').
      { destruct b.
        - injection Eq as Eb Eo Et. apply pre_inj in Eo; auto. tauto.
        - injection Eq as Eb Et. apply radix_inj in Eb; [|now apply pre_bound|now apply pre_bound].
          destruct Eb as [Eb Eo]. apply pre_inj in Eo; auto. tauto. }
      destruct G as (<- & Gd & Gm & <-). rewrite E in E'. injection E' as <-. rewrite Es in Es'. injection Es' as <-.
      assert (h = h') by (rewrite (Nat.div_mod h s), (Nat.div_mod h' s), Gd, Gm; lia). subst h'.
      pose proof (Forall_nth_error _ _ _ _ IH E) as IHo.
      destruct (IHo (Forall_nth_error _ _ _ _ Hcs E)) as (_ & B).
      assert (X : (en, q) = (en', q')) by (apply B; auto; congruence). injection X as -> ->. reflexivity.
  - (* chunked *)
    destruct (wf_chunk_inv _ _ Hwf) as (Hbs & Hdiv & Hwfo).
    destruct (IH Hwfo) as (A & B). split.
    + intros en p H. pose proof (dof_chunk_inv _ _ _ _ H) as H4. destruct (A en p H4) as (h & t & Em & Hh).
      cbn [mapIndex]. rewrite Em. cbn. replace (bs =? 0) with false by lia.
      do 2 eexists. split; [reflexivity|].
      apply Nat.div_lt_upper_bound; [lia|]. rewrite (Nat.div_mod (blockCount o) bs) in Hh by lia. rewrite Hdiv in Hh. lia.
    + intros en p en' p' H H' Eq. pose proof (dof_chunk_inv _ _ _ _ H) as H4. pose proof (dof_chunk_inv _ _ _ _ H') as H5.
      destruct (A en p H4) as (h & t & Em & Hh). destruct (A en' p' H5) as (h' & t' & Em' & Hh').
      cbn [mapIndex] in Eq. rewrite Em, Em' in Eq. cbn in Eq. replace (bs =? 0) with false in Eq by lia.
      injection Eq as Ed Emo Et. apply B; auto. rewrite Em, Em'. f_equal.
      rewrite (Nat.div_mod h bs), (Nat.div_mod h' bs) by lia. congruence.
  - (* permuted *)
    destruct (wf_perm_inv _ _ Hwf) as (Hperm & Hwfo). destruct (IH Hwfo) as (A & B).
    assert (Hlen : length perm = blockCount o) by (rewrite (Permutation_length Hperm), seq_length; auto).
    assert (Hin : forall h, h < blockCount o -> nth h perm 0 < blockCount o).
    { intros h Hh. assert (X : In (nth h perm 0) perm) by (apply nth_In; lia).
      apply (Permutation_in _ Hperm) in X. apply in_seq in X. lia. }
    assert (Hnd : NoDup perm) by (eapply Permutation_NoDup; [symmetry; eauto|apply seq_NoDup]).
    split.
    + intros en p H. pose proof (dof_perm_inv _ _ _ _ H) as H4. destruct (A en p H4) as (h & t & Em & Hh).
      cbn [mapIndex]. rewrite Em. cbn [bind perm_map]. rewrite (at_nth _ _ 0) by lia. cbn [bind].
      do 2 eexists. split; [reflexivity|]. cbn [blockCount]. rewrite psums_last. cbn. rewrite Nat.add_0_r. auto.
    + intros en p en' p' H H' Eq. pose proof (dof_perm_inv _ _ _ _ H) as H4. pose proof (dof_perm_inv _ _ _ _ H') as H5.
      destruct (A en p H4) as (h & t & Em & Hh). destruct (A en' p' H5) as (h' & t' & Em' & Hh').
      cbn [mapIndex] in Eq. rewrite Em, Em' in Eq. cbn [bind perm_map] in Eq.
      rewrite !(at_nth _ _ 0) in Eq by lia. cbn [bind] in Eq. injection Eq as En Et.
      assert (h = h') by (apply (NoDup_nth perm 0); auto; lia). subst h' t'. apply B; auto. congruence.
Qed.

(* ------------------------------------------------------------------ flat trees *)

Lemma flat_index o : well_formed o -> flat o -> forall en p, dof_of o en p -> exists k, mapIndex o en p = Ok [k].
Proof.
  induction o as [b s|b ents t|b cs IH|b m cs IH|bs o IH|perm o IH] using ord_ind'; intros Hwf Hfl en p H;
    inversion Hfl as [s0|e0 t0|cs0 Hflat|m0 cs0 Hflat|p0 o0 Hflat]; subst.
  - destruct (leaf_separates false s ltac:(discriminate)) as (A & _). destruct (A _ _ H) as (h & t & Em & _).
    destruct (dof_leaf_inv _ _ _ _ H) as (i & -> & _). cbn [mapIndex] in *. destruct en as [gt e]. unfold leaf_map in *. destruct s as [gts|gts].
    + destruct (at_ (leaf_gt_offsets false gts) gt); cbn in *; try discriminate. destruct (at_ gts gt); cbn in *; try discriminate. eauto.
    + destruct (at_ (leaf_entity_offsets gts) gt); cbn in *; try discriminate.
      destruct (at_ (leaf_dof_offsets gts) _); cbn in *; try discriminate. eauto.
  - destruct (wf_gv_inv _ _ _ Hwf) as (Hok & Hb). destruct en as [gt e].
    pose proof (proj2 (ldof_disable _ _ _) (dof_gv_inv _ _ _ _ _ H)) as Hl.
    destruct (ldof_grid ents _ (gt, e) p Hok Hl) as [Hg He].
    destruct (local_spec ents _ Hok gt e Hg He) as (A & _ & _). destruct (A p Hl) as (k & Em & Hk).
    cbn [mapIndex]. rewrite (gv_map_ok false ents t gt e p k) by auto.
    destruct (lfixed t); eauto.
  - destruct (dof_lex_inv _ _ _ _ H) as (c & o & q & -> & E & Hq). pose proof (wf_lex_inv _ _ Hwf) as H2.
    pose proof (Forall_nth_error _ _ _ _ IH E) as IHo.
    destruct (IHo (Forall_nth_error _ _ _ _ H2 E) (Forall_nth_error _ _ _ _ Hflat E) en q Hq) as (k & Em).
    cbn [mapIndex]. erewrite at_map by eassumption. cbn [bind]. rewrite Em. cbn.
    assert (c < length cs) by (apply nth_error_Some; congruence).
    rewrite at_psums by (rewrite map_length; lia). cbn. eauto.
  - destruct (wf_inter_inv _ _ _ Hwf) as (sizes & n & -> & Hne & Hcs & Hbal). destruct (dof_inter_inv _ _ _ _ _ H) as (c & o & q & -> & E & Hq).
    pose proof (Forall_nth_error _ _ _ _ IH E) as IHo.
    destruct (IHo (Forall_nth_error _ _ _ _ Hcs E) (Forall_nth_error _ _ _ _ Hflat E) en q Hq) as (k & Em).
    destruct (Forall2_nth_error _ _ _ _ _ Hbal E) as (s & Es & Hs & _).
    cbn [mapIndex]. erewrite at_map by eassumption. cbn [bind]. rewrite Em. cbn [bind].
    erewrite inter_map_ok by eauto. eauto.
  - destruct (wf_perm_inv _ _ Hwf) as (Hperm & Hwfo). pose proof (dof_perm_inv _ _ _ _ H) as Hd.
    destruct (IH Hwfo Hflat en p Hd) as (k & Em).
    cbn [mapIndex]. rewrite Em. cbn [bind perm_map].
    destruct (wf_separates o Hwfo) as (A & _). destruct (A en p Hd) as (h & t & Em' & Hh).
    rewrite Em in Em'. injection Em' as <- <-.
    rewrite (at_nth _ _ 0) by (rewrite (Permutation_length Hperm), seq_length; lia). cbn. eauto.
Qed.

(** every outermost position is used *)
Lemma ba_full o : well_formed o -> blocked_above o -> forall h, h < blockCount o ->
  exists en p t, dof_of o en p /\ mapIndex o en p = Ok (h :: t).
Proof.
  induction o as [b s|b ents t|b cs IH|b m cs IH|bs o IH|perm o IH] using ord_ind'; intros Hwf Hba h Hh.
  - apply leaf_full; auto. eapply wf_leaf_inv; eauto.
  - destruct (wf_gv_inv _ _ _ Hwf). apply gv_full; auto.
  - pose proof (wf_lex_inv _ _ Hwf) as Hcs. cbn [blockCount] in Hh. destruct b.
    + assert (X : exists en p, dof_of (nth h cs (OLeaf false (FixedSizes []))) en p).
      { inversion Hba as [? F| | |cs0 F1 F2| |]; subst; [inversion F|].
        rewrite Forall_forall in F2. apply F2. now apply nth_In. }
      destruct X as (en & p & Hd).
      pose proof (nth_error_nth' cs (OLeaf false (FixedSizes [])) Hh) as E.
      destruct (wf_separates _ (Forall_nth_error _ _ _ _ Hcs E)) as (A & _).
      destruct (A en p Hd) as (h' & t & Em & _).
      exists en, (h :: p), (h' :: t). split; [econstructor; eauto|].
      cbn [mapIndex]. erewrite at_map by eassumption. cbn [bind]. rewrite Em. reflexivity.
    + rewrite psums_last in Hh. cbn [Nat.add] in Hh. destruct (pre_surj _ _ Hh) as (c & r & Hc & Hr & ->). rewrite map_length in Hc.
      destruct (nth_error cs c) as [o|] eqn:E; [|apply nth_error_None in E; lia].
      rewrite (nth_map_in blockCount _ _ _ 0 E) in Hr.
      assert (Hfo : blocked_above o).
      { inversion Hba as [? Hf| | | | |]; subst. inversion Hf as [| |? Hf'| |]; subst. constructor. eapply Forall_nth_error; eauto. }
      destruct (Forall_nth_error _ _ _ _ IH E (Forall_nth_error _ _ _ _ Hcs E) Hfo r Hr) as (en & p & t & Hd & Em).
      exists en, (c :: p), t. split; [econstructor; eauto|].
      cbn [mapIndex]. erewrite at_map by eassumption. cbn [bind]. rewrite Em. cbn.
      rewrite at_psums by (rewrite map_length; lia). cbn. f_equal. f_equal. lia.
  - destruct (wf_inter_inv _ _ _ Hwf) as (sizes & n & -> & Hne & Hcs & Hbal).
    assert (HS : 0 < sum_nat sizes) by (eapply inter_sum_pos; eauto).
    assert (Hflat : Forall flat cs) by (inversion Hba as [? Hf| | | | |]; subst; auto; inversion Hf; auto).
    cbn [blockCount] in Hh. unfold tag_offsets in Hh. rewrite !psums_last, (inter_total _ _ _ Hbal) in Hh. cbn [Nat.add] in Hh.
    assert (X : forall bi off, bi < n -> off < sum_nat sizes -> exists en p t c s r, dof_of (OInter b (tag_offsets sizes) cs) en p /\
        nth_error sizes c = Some s /\ 0 < s /\ r < s /\ off = pre sizes c + r /\
        mapIndex (OInter b (tag_offsets sizes) cs) en p = inter_map b (tag_offsets sizes) c (bi * s + r :: t)).
    { intros bi off Hbi Hoff. destruct (pre_surj _ _ Hoff) as (c & r & Hc & Hr & ->).
      destruct (nth_error sizes c) as [s|] eqn:Es; [|apply nth_error_None in Es; lia].
      rewrite (nth_nth_error _ _ 0 _ Es) in Hr.
      destruct (Forall2_nth_error_l _ _ _ _ _ Hbal Es) as (o & E & Hs & Ebc).
      assert (Hk : bi * s + r < blockCount o) by (rewrite Ebc; nia).
      assert (Hfo : blocked_above o) by (constructor; eapply Forall_nth_error; eauto).
      destruct (Forall_nth_error _ _ _ _ IH E (Forall_nth_error _ _ _ _ Hcs E) Hfo _ Hk) as (en & p & t & Hd & Em).
      exists en, (c :: p), t, c, s, r. repeat split; auto; [econstructor; eauto|].
      cbn [mapIndex]. erewrite at_map by eassumption. cbn [bind]. now rewrite Em. }
    destruct b.
    + rewrite Nat.div_mul in Hh by lia.
      destruct (X h 0 Hh HS) as (en & p & t & c & s & r & Hd & Es & Hs & Hr & Eo & Em).
      exists en, p. rewrite Em. erewrite inter_map_ok by eauto.
      destruct (div_mod_unique_ s (h * s + r) r h Hr eq_refl) as [-> ->]. eauto.
    + assert (Hb : h / sum_nat sizes < n) by (apply Nat.div_lt_upper_bound; lia).
      assert (Ho : h mod sum_nat sizes < sum_nat sizes) by (apply Nat.mod_upper_bound; lia).
      destruct (X _ _ Hb Ho) as (en & p & t & c & s & r & Hd & Es & Hs & Hr & Eo & Em).
      exists en, p, t. split; auto. rewrite Em. erewrite inter_map_ok by eauto.
      destruct (div_mod_unique_ s (h / sum_nat sizes * s + r) r (h / sum_nat sizes) Hr eq_refl) as [-> ->]. f_equal. f_equal. rewrite <- Eo.
      rewrite (Nat.div_mod h (sum_nat sizes)) at 3 by lia. lia.
  - destruct (wf_chunk_inv _ _ Hwf) as (Hbs & Hdiv & Hwfo). cbn [blockCount] in Hh.
    assert (Hfl : blocked_above o).
    { inversion Hba as [? Hf| | | | |]; subst; [inversion Hf|assumption]. }
    assert (Hk : h * bs < blockCount o).
    { rewrite (Nat.div_mod (blockCount o) bs) by lia. nia. }
    destruct (IH Hwfo Hfl _ Hk) as (en & p & t & Hd & Em).
    exists en, p. eexists. split; [constructor; eauto|]. cbn [mapIndex]. rewrite Em. cbn [bind chunk_map].
    replace (bs =? 0) with false by lia. rewrite Nat.div_mul by lia. reflexivity.
  - destruct (wf_perm_inv _ _ Hwf) as (Hperm & Hwfo). cbn [blockCount] in Hh. rewrite psums_last in Hh. cbn in Hh. rewrite Nat.add_0_r in Hh.
    assert (Hfl : blocked_above o).
    { inversion Hba as [? Hf| | | | |]; subst. inversion Hf; subst. now constructor. }
    assert (Hin : In h perm). { apply (Permutation_in _ (Permutation_sym Hperm)). apply in_seq. lia. }
    destruct (In_nth_error _ _ Hin) as (j & Ej).
    assert (Hj : j < blockCount o).
    { rewrite <- (seq_length (blockCount o) 0), <- (Permutation_length Hperm). apply nth_error_Some. congruence. }
    destruct (IH Hwfo Hfl _ Hj) as (en & p & t & Hd & Em).
    exists en, p, t. split; [constructor; eauto|]. cbn [mapIndex]. rewrite Em. cbn [bind perm_map]. rewrite (at_ok _ _ _ Ej). reflexivity.
Qed.

Lemma flat_count o : well_formed o -> flat o -> blockCount o = osize o.
Proof.
  induction o as [b s|b ents t|b cs IH|b m cs IH|bs o IH|perm o IH] using ord_ind'; intros Hwf Hfl;
    inversion Hfl as [s0|e0 t0|cs0 Hflat|m0 cs0 Hflat|p0 o0 Hflat]; subst; cbn [blockCount osize].
  - apply leaf_flat_count.
  - apply gv_flat_count. rewrite lfixed_disable. eapply wf_gv_inv; eauto.
  - pose proof (wf_lex_inv _ _ Hwf). f_equal. f_equal. apply map_ext_in. intros o Ho. rewrite Forall_forall in *. apply IH; auto.
  - destruct (wf_inter_inv _ _ _ Hwf) as (sizes & n & -> & Hne & Hcs & Hbal). f_equal. f_equal. apply map_ext_in. intros o Ho. rewrite Forall_forall in *. apply IH; auto.
  - destruct (wf_perm_inv _ _ Hwf). rewrite IH; auto.
Qed.

Lemma flat_bijective o : well_formed o -> flat o -> blockCount o = osize o /\ numbers_bijectively o (osize o).
Proof.
  intros Hwf Hfl. pose proof (flat_count o Hwf Hfl) as Ec. split; auto.
  destruct (wf_separates o Hwf) as (A & B). split; [|split; auto].
  - intros en p H. destruct (flat_index o Hwf Hfl en p H) as (k & Em). exists k. split; auto.
    destruct (A en p H) as (h & t & Em' & Hh). rewrite Em in Em'. injection Em' as <- <-. lia.
  - intros k Hk. rewrite <- Ec in Hk.
    destruct (ba_full o Hwf (ba_flat o Hfl) k Hk) as (en & p & t & Hd & Em).
    exists en, p. split; auto. destruct (flat_index o Hwf Hfl en p Hd) as (k' & Em'). rewrite Em in Em'. injection Em' as <- ->. auto.
Qed.
