From Verif Require Import Common CommonFacts OrderingModel OrderingSpec OrderingProofs OrderingProofs2.

Lemma pre_cons y w g : pre (y :: w) (S g) = y + pre w g.
Proof. unfold pre. change (firstn (S g) (y :: w)) with (y :: firstn g w). apply sum_nat_cons. Qed.

Lemma psums_cons a y w : psums a (y :: w) = a :: psums (a + y) w.
Proof. reflexivity. Qed.

Lemma ub_pos_psums w : forall a g x, g < length w -> a + pre w g <= x -> x < a + pre w (S g) -> ub_pos (psums a w) x = S g.
Proof.
  induction w as [|y w IH]; intros a g x Hg H1 H2; cbn [length] in Hg; [lia|].
  rewrite psums_cons. cbn [ub_pos].
  assert (L : (x <? a) = false) by lia. rewrite L. f_equal.
  destruct g as [|g].
  - rewrite pre_cons in H2. unfold pre in H2. cbn in H2.
    assert (L' : (x <? a + y) = true) by lia.
    destruct w; cbn [psums ub_pos]; now rewrite L'.
  - rewrite pre_cons in *. apply IH; lia.
Qed.

Lemma prev_ub_psums w g x : g < length w -> pre w g <= x -> x < pre w (S g) -> prev_ub (psums 0 w) x = Ok g.
Proof. intros Hg H1 H2. unfold prev_ub. now rewrite (ub_pos_psums w 0 g x). Qed.

Lemma nth_lt {A} (l : list A) i x : nth_error l i = Some x -> i < length l.
Proof. intros E. apply nth_error_Some. congruence. Qed.

Lemma reached_head o k : well_formed o -> blocked_above o -> (reached o [] k <-> k < blockCount o).
Proof.
  intros Hwf Hba. split.
  - intros (en & p & rest & Hd & Em). destruct (wf_separates o Hwf) as (A & _).
    destruct (A en p Hd) as (h & t & Em' & Hh). rewrite Em in Em'. cbn in Em'. injection Em' as -> _. auto.
  - intros Hk. destruct (ba_full o Hwf Hba k Hk) as (en & p & t & Hd & Em). exists en, p, t. auto.
Qed.

Lemma flat_no_deeper o x pre k : well_formed o -> flat o -> reached o (x :: pre) k -> False.
Proof.
  intros Hwf Hfl (en & p & rest & Hd & Em). destruct (flat_index o Hwf Hfl en p Hd) as (j & Em').
  rewrite Em in Em'. injection Em' as _ E. destruct pre; discriminate.
Qed.

Lemma size_suffix_nil md o : 0 < md -> size_suffix md o [] = Ok (blockCount o).
Proof.
  intros Hmd. induction o as [b s|b ents t|b cs IH|b m cs IH|bs o IH|perm o IH] using ord_ind';
    cbn [size_suffix length]; replace (0 =? md) with false by lia; auto.
Qed.

Lemma leaf_blocked_shape gts gt e i n d :
  nth_error gts gt = Some (n, d) -> e < n -> i < d ->
  prev_ub (leaf_gt_offsets true gts) (pre (gt_widths true gts) gt + e) = Ok gt.
Proof.
  intros E He Hi. unfold leaf_gt_offsets. fold (gt_widths true gts). apply prev_ub_psums.
  - unfold gt_widths. rewrite map_length. eapply nth_lt; eauto.
  - lia.
  - rewrite pre_S, (gt_width true gts gt n d E). destruct (0 <? d) eqn:L; cbn [b2n]; lia.
Qed.

Definition exact (md : nat) (o : ord) : Prop :=
  forall pre, (pre = [] \/ exists k, reached o pre k) ->
  exists n, size_suffix md o pre = Ok n /\ forall k, reached o pre k <-> k < n.

Lemma leaf_exact md s : well_formed (OLeaf true s) ->
  (forall en p ci, dof_of (OLeaf true s) en p -> mapIndex (OLeaf true s) en p = Ok ci -> length ci <= md) ->
  forall x rest k0, reached (OLeaf true s) (x :: rest) k0 ->
  exists n, size_suffix md (OLeaf true s) (x :: rest) = Ok n /\ forall k, reached (OLeaf true s) (x :: rest) k <-> k < n.
Proof.
  intros Hwf Hmd x rest k0 (en & p & rest' & Hd & Em).
  pose proof (wf_leaf_inv _ _ Hwf eq_refl) as Hfix. destruct s as [gts|gts]; [|destruct Hfix]. clear Hfix.
  pose proof (Hmd _ _ _ Hd Em) as Hlen.
  destruct (dof_leaf_inv _ _ _ _ Hd) as (i & -> & Hi). destruct en as [gt e].
  destruct (dofs_on_fixed _ _ _ _ Hi) as (n & d & E & He & Hid).
  pose proof Em as Em'. cbn [mapIndex] in Em'. rewrite (leaf_fixed_map true gts gt e i n d E He Hid) in Em'.
  injection Em' as <- Er. destruct rest as [|y rest]; [|cbn in Er; injection Er as _ Er; destruct rest; discriminate].
  injection Er as <- <-. cbn [length app] in Hlen.
  exists d. split.
  - cbn [size_suffix length]. replace (1 =? md) with false by lia. cbn [leaf_size_suffix].
    rewrite (leaf_blocked_shape gts gt e i n d E He Hid). cbn [bind].
    replace (length gts <=? gt) with false by (pose proof (nth_lt _ _ _ E); lia).
    cbn. now rewrite (nth_nth_error _ _ (0, 0) _ E).
  - intros k. split.
    + intros ([gt' e'] & p' & rest & Hd' & Em'). destruct (dof_leaf_inv _ _ _ _ Hd') as (i' & -> & Hi').
      destruct (dofs_on_fixed _ _ _ _ Hi') as (n' & d' & E' & He' & Hid').
      cbn [mapIndex] in Em'. rewrite (leaf_fixed_map true gts gt' e' i' n' d' E' He' Hid') in Em'.
      injection Em' as Eq -> _. apply pre_inj in Eq.
      * destruct Eq as [-> _]. congruence.
      * rewrite (gt_width true gts gt' n' d' E'). destruct (0 <? d') eqn:L; cbn [b2n]; lia.
      * rewrite (gt_width true gts gt n d E). destruct (0 <? d) eqn:L; cbn [b2n]; lia.
    + intros Hk. exists (gt, e), [k], []. split; [constructor; eapply dofs_on_fixed'; eauto|].
      cbn [mapIndex]. rewrite (leaf_fixed_map true gts gt e k n d E He Hk). reflexivity.
Qed.

Lemma gv_exact md ents t : well_formed (OGV true ents t) ->
  (forall en p ci, dof_of (OGV true ents t) en p -> mapIndex (OGV true ents t) en p = Ok ci -> length ci <= md) ->
  forall x rest k0, reached (OGV true ents t) (x :: rest) k0 ->
  exists n, size_suffix md (OGV true ents t) (x :: rest) = Ok n /\ forall k, reached (OGV true ents t) (x :: rest) k <-> k < n.
Proof.
  intros Hwf Hmd x rest k0 (en & p & rest' & Hd & Em).
  destruct (wf_gv_inv _ _ _ Hwf) as (Hok & _). set (t' := disable_blocking t) in *.
  assert (Hf : lfixed t' = lfixed t) by apply lfixed_disable.
  assert (L : forall gt e p, dof_of (OGV true ents t) (gt, e) p -> gt < length ents /\ e < nth gt ents 0 /\ ldof t' (gt, e) p /\
     exists k, map_local ents t' (gt, e) p = Ok [k] /\ k < lsize ents t' gt e).
  { intros gt e q H. assert (H3 : ldof t' (gt, e) q) by (apply ldof_disable; eapply dof_gv_inv; eauto).
    destruct (ldof_grid ents t' (gt, e) q Hok H3) as [Hg He]. cbn in Hg, He. repeat split; auto.
    destruct (local_spec ents t' Hok gt e Hg He) as (A & _ & _). apply A; auto. }
  assert (U : forall gt e k, gt < length ents -> e < nth gt ents 0 -> k < lsize ents t' gt e -> lused t' gt = true).
  { intros gt e k Hg He Hk. destruct (lused t' gt) eqn:U; auto. rewrite (unused_size0 ents t') in Hk; auto. lia. }
  pose proof (Hmd _ _ _ Hd Em) as Hlen. destruct en as [gt e].
  destruct (L _ _ _ Hd) as (Hg & He & Hl & k1 & Ek & Hk1).
  pose proof Em as Em'. cbn [mapIndex] in Em'. rewrite (gv_map_ok true ents t gt e p k1 Hok Hg He Ek Hk1) in Em'. fold t' in Em'.
  assert (Hx : x = (if lfixed t then pre (gvw true ents t') gt + e
                    else pre (map (vs true) (gv_entity_sizes ents t')) (pre (usedw ents t') gt + e)) /\ rest = []).
  { destruct (lfixed t); injection Em' as <- Er; (split; [reflexivity|]);
      (destruct rest as [|y rest]; [auto|cbn in Er; injection Er as _ Er; destruct rest; discriminate]). }
  destruct Hx as [Hx ->]. cbn [length app] in Hlen.
  exists (lsize ents t' gt e). split.
  - cbn [size_suffix length]. replace (1 =? md) with false by (cbn in Hlen; lia). unfold gv_size_suffix. fold t'. rewrite Hf.
    destruct (lfixed t) eqn:F.
    + unfold gv_gt_offsets. fold (gvw true ents t').
      rewrite (prev_ub_psums _ gt).
      * cbn [bind]. replace (length ents <=? gt) with false by lia.
        assert (Q : forall s0 e0, lsize_suffix ents s0 [] gt e0 = Ok (lsize ents s0 gt e0)) by (intros [?|? ?] ?; reflexivity).
        rewrite Q. rewrite (lfixed_size_indep ents t' gt 0 e); auto; congruence.
      * unfold gvw. now rewrite map_length, seq_length.
      * lia.
      * rewrite pre_S, gvw_nth by auto. rewrite (lfixed_size_indep ents t' gt 0 e) by congruence.
        destruct (0 <? lsize ents t' gt e) eqn:Z; cbn [b2n]; lia.
    + pose proof (U gt e k1 Hg He Hk1) as Hu. pose proof (gv_entity_nth ents t' gt e Hg He Hu) as En.
      unfold gv_dof_offsets. fold (vs true). rewrite (prev_ub_psums _ (pre (usedw ents t') gt + e)).
      * cbn [bind]. unfold gv_entity_offsets at 1. unfold node_entity_offsets. fold (usedw ents t').
        rewrite (prev_ub_psums _ gt).
        -- cbn [bind]. unfold gv_entity_offsets. rewrite at_node_entity_offsets by lia. fold (usedw ents t'). cbn [bind].
           replace (length ents <=? gt) with false by lia.
           replace (pre (usedw ents t') gt + e - pre (usedw ents t') gt) with e by lia.
           now destruct t' as [?|? ?].
        -- unfold usedw. now rewrite map_length, seq_length.
        -- lia.
        -- rewrite pre_S. unfold usedw at 3. rewrite (nth_map_seq (fun gt => _)) by auto. rewrite Hu. lia.
      * rewrite map_length. eapply nth_lt; eauto.
      * lia.
      * rewrite pre_S, (nth_map_in (vs true) _ _ _ 0 En). cbn [vs].
        destruct (0 <? lsize ents t' gt e) eqn:Z; cbn [b2n]; lia.
  - intros k. split.
    + intros ([gt' e'] & p' & rest & Hd' & E'). destruct (L _ _ _ Hd') as (Hg' & He' & Hl' & k' & Ek' & Hk').
      cbn [mapIndex] in E'. rewrite (gv_map_ok true ents t gt' e' p' k' Hok Hg' He' Ek' Hk') in E'. fold t' in E'.
      assert (G : gt' = gt /\ e' = e /\ k = k').
      { destruct (lfixed t) eqn:F.
        - injection E' as Eq Ekk _. rewrite Hx in Eq. apply pre_inj in Eq; [intuition congruence| |]; rewrite gvw_nth by auto.
          + rewrite (lfixed_size_indep ents t' gt' 0 e') by congruence. destruct (0 <? lsize ents t' gt' e') eqn:Z; cbn [b2n]; lia.
          + rewrite (lfixed_size_indep ents t' gt 0 e) by congruence. destruct (0 <? lsize ents t' gt e) eqn:Z; cbn [b2n]; lia.
        - injection E' as Eq Ekk _. rewrite Hx in Eq.
          pose proof (U gt e k1 Hg He Hk1) as Hu. pose proof (U gt' e' k' Hg' He' Hk') as Hu'.
          pose proof (gv_entity_nth ents t' gt e Hg He Hu) as En. pose proof (gv_entity_nth ents t' gt' e' Hg' He' Hu') as En'.
          rewrite <- (Nat.add_0_r (pre (map (vs true) _) (pre _ gt' + e'))), <- (Nat.add_0_r (pre (map (vs true) _) (pre _ gt + e))) in Eq.
          apply pre_inj in Eq.
          + destruct Eq as [Eq _]. apply pre_inj in Eq; [intuition congruence| |]; unfold usedw; rewrite (nth_map_seq (fun gt => _)) by auto; [now rewrite Hu'|now rewrite Hu].
          + rewrite (nth_map_in (vs true) _ _ _ 0 En'). cbn [vs]. destruct (0 <? lsize ents t' gt' e') eqn:Z; cbn [b2n]; lia.
          + rewrite (nth_map_in (vs true) _ _ _ 0 En). cbn [vs]. destruct (0 <? lsize ents t' gt e) eqn:Z; cbn [b2n]; lia. }
      destruct G as (-> & -> & ->). auto.
    + intros Hk. destruct (local_spec ents t' Hok gt e Hg He) as (_ & _ & C). destruct (C k Hk) as (q & Hq & Eq).
      exists (gt, e), q, []. split; [constructor; now apply ldof_disable|].
      cbn [mapIndex]. rewrite (gv_map_ok true ents t gt e q k Hok Hg He Eq Hk). fold t'. rewrite Hx. destruct (lfixed t); reflexivity.
Qed.

Lemma size_exact md o : 0 < md -> well_formed o -> blocked_above o ->
  (forall en p ci, dof_of o en p -> mapIndex o en p = Ok ci -> length ci <= md) -> exact md o.
Proof.
  intros Hpos. induction o as [b s|b ents t|b cs IH|b m cs IH|bs o IH|perm o IH] using ord_ind'; intros Hwf Hba Hmd pre_ Hpre;
    (destruct pre_ as [|x rest]; [rewrite size_suffix_nil by auto; eexists; split; [reflexivity|]; intros k; now apply reached_head|]);
    (destruct Hpre as [Hpre|[k0 Hk0]]; [discriminate|]).
  - destruct b; [eapply leaf_exact; eauto|]. destruct (flat_no_deeper _ _ _ _ Hwf (flat_leaf s) Hk0).
  - destruct b; [eapply gv_exact; eauto|]. destruct (flat_no_deeper _ _ _ _ Hwf (flat_gv ents t) Hk0).
  - inversion Hba as [o' Hf| | |cs' Hbas Hne| |]; subst; [destruct (flat_no_deeper _ _ _ _ Hwf Hf Hk0)|].
    pose proof (wf_lex_inv _ _ Hwf) as Hcs.
    assert (X : forall o, nth_error cs x = Some o -> forall rest k, reached (OLex true cs) (x :: rest) k <-> reached o rest k).
    { intros o E rest' k. split.
      - intros (en & p & r & Hd & Em). destruct (dof_lex_inv _ _ _ _ Hd) as (c & o' & q & -> & E' & Hq).
        cbn [mapIndex] in Em. rewrite (at_map _ _ _ _ E') in Em. cbn [bind] in Em.
        destruct (mapIndex o' en q) as [ci| |] eqn:Eo; try discriminate. cbn in Em. injection Em as -> ->.
        rewrite E in E'. injection E' as <-. exists en, q, r. auto.
      - intros (en & p & r & Hd & Em). exists en, (x :: p), r. split; [econstructor; eauto|].
        cbn [mapIndex]. rewrite (at_map _ _ _ _ E). cbn [bind]. rewrite Em. reflexivity. }
    pose proof Hk0 as Hk1. destruct Hk1 as (en & p & r & Hd & Em). pose proof (Hmd _ _ _ Hd Em) as Hlen.
    destruct (dof_lex_inv _ _ _ _ Hd) as (c & o & q & -> & E & Hq).
    assert (c = x).
    { cbn [mapIndex] in Em. rewrite (at_map _ _ _ _ E) in Em. cbn [bind] in Em.
      destruct (mapIndex o en q) as [ci| |]; try discriminate. cbn in Em. now injection Em. }
    subst c.
    destruct (Forall_nth_error _ _ _ _ IH E (Forall_nth_error _ _ _ _ Hcs E) (Forall_nth_error _ _ _ _ Hbas E)) with (pre := rest) as (n & En & Hn).
    + intros en' p' ci Hd' Em'. enough (S (length ci) <= md) by lia.
      apply (Hmd en' (x :: p') (x :: ci)); [econstructor; eauto|].
      cbn [mapIndex]. rewrite (at_map _ _ _ _ E). cbn [bind]. rewrite Em'. reflexivity.
    + right. exists k0. now apply (X o E).
    + exists n. split.
      * cbn [size_suffix]. replace (length (x :: rest) =? md) with false.
        2:{ symmetry. apply Nat.eqb_neq. rewrite app_length in Hlen. cbn in *. lia. }
        rewrite (at_map _ _ _ _ E). exact En.
      * intros k. rewrite (X o E). apply Hn.
  - inversion Hba as [o' Hf| | | |m' cs' Hflat|]; subst; [destruct (flat_no_deeper _ _ _ _ Hwf Hf Hk0)|].
    destruct (wf_inter_inv _ _ _ Hwf) as (sizes & n & -> & Hne & Hcs & Hbal).
    assert (HS : 0 < sum_nat sizes) by (eapply inter_sum_pos; eauto).
    assert (D : forall en p, dof_of (OInter true (tag_offsets sizes) cs) en p -> exists c s h, nth_error sizes c = Some s /\ 0 < s /\ h < n * s /\
       mapIndex (OInter true (tag_offsets sizes) cs) en p = Ok [h / s; pre sizes c + h mod s]).
    { intros en p Hd. destruct (dof_inter_inv _ _ _ _ _ Hd) as (c & o & q & -> & E & Hq).
      pose proof (Forall_nth_error _ _ _ _ Hcs E) as Hwo.
      destruct (flat_index o Hwo (Forall_nth_error _ _ _ _ Hflat E) en q Hq) as (h & Eh).
      destruct (wf_separates o Hwo) as (A & _). destruct (A en q Hq) as (h' & t' & Eh' & Hh). rewrite Eh in Eh'. injection Eh' as <- <-.
      destruct (Forall2_nth_error _ _ _ _ _ Hbal E) as (s & Es & Hs & Ebc).
      exists c, s, h. rewrite Ebc in Hh. repeat split; auto. cbn [mapIndex]. rewrite (at_map _ _ _ _ E). cbn [bind]. rewrite Eh. cbn [bind].
      now rewrite (inter_map_ok true sizes c s h []). }
    pose proof Hk0 as (en & p & r & Hd & Em). destruct (D en p Hd) as (c & s & h & Es & Hs & Hh & Em').
    rewrite Em in Em'. injection Em' as Ex Er. destruct rest as [|y rest]; [|cbn in Er; injection Er as _ Er; destruct rest; discriminate].
    exists (sum_nat sizes). split.
    + cbn [size_suffix]. unfold tag_offsets. now rewrite psums_last.
    + intros k. split.
      * intros (en' & p' & r' & Hd' & E'). destruct (D en' p' Hd') as (c' & s' & h' & Es' & Hs' & Hh' & Em'').
        rewrite E' in Em''. injection Em'' as _ -> _. apply pre_bound. rewrite (nth_nth_error _ _ 0 _ Es'). apply Nat.mod_upper_bound. lia.
      * intros Hk. assert (Hxn : x < n) by (subst x; apply Nat.div_lt_upper_bound; lia).
        destruct (pre_surj _ _ Hk) as (c2 & r2 & Hc2 & Hr2 & ->).
        destruct (nth_error sizes c2) as [s2|] eqn:Es2; [|apply nth_error_None in Es2; lia].
        rewrite (nth_nth_error _ _ 0 _ Es2) in Hr2.
        destruct (Forall2_nth_error_l _ _ _ _ _ Hbal Es2) as (o2 & E2 & Hs2 & Ebc2).
        assert (Hk2 : x * s2 + r2 < blockCount o2) by (rewrite Ebc2; nia).
        destruct (ba_full o2 (Forall_nth_error _ _ _ _ Hcs E2) (ba_flat _ (Forall_nth_error _ _ _ _ Hflat E2)) _ Hk2) as (en2 & p2 & t2 & Hd2 & Em2).
        exists en2, (c2 :: p2), t2. split; [econstructor; eauto|].
        cbn [mapIndex]. rewrite (at_map _ _ _ _ E2). cbn [bind]. rewrite Em2. cbn [bind].
        rewrite (inter_map_ok true sizes c2 s2 _ t2 Es2 Hs2).
        destruct (div_mod_unique_ s2 (x * s2 + r2) r2 x Hr2 eq_refl) as [-> ->]. reflexivity.
  - inversion Hba as [o' Hf| | | | |bs' o' Hbo]; subst; [inversion Hf|].
    destruct (wf_chunk_inv _ _ Hwf) as (Hbs & Hdiv & Hwfo).
    assert (Hbc : blockCount o = blockCount o / bs * bs) by (rewrite (Nat.div_mod (blockCount o) bs) at 1 by lia; lia).
    destruct (wf_separates o Hwfo) as (A & _).
    assert (X : forall x y rest k, y < bs -> (reached (OChunk bs o) (x :: y :: rest) k <-> reached o (bs * x + y :: rest) k)).
    { intros x' y rest' k Hy. split.
      - intros (en & p & r & Hd & Em). apply dof_chunk_inv in Hd. destruct (A en p Hd) as (h & t & Eh & _).
        cbn [mapIndex] in Em. rewrite Eh in Em. cbn [bind chunk_map] in Em. replace (bs =? 0) with false in Em by lia.
        injection Em as E1 E2 E3. exists en, p, r. split; auto. rewrite Eh. cbn. f_equal. f_equal; auto.
        rewrite (Nat.div_mod h bs) by lia. lia.
      - intros (en & p & r & Hd & Em). exists en, p, r. split; [now constructor|].
        cbn [mapIndex]. rewrite Em. cbn [bind chunk_map app]. replace (bs =? 0) with false by lia.
        assert (Ec : bs * x' + y = x' * bs + y) by lia.
        destruct (div_mod_unique_ bs (bs * x' + y) y x' Hy Ec) as [-> ->]. reflexivity. }
    destruct rest as [|y rest].
    + exists bs. split; [reflexivity|]. intros k. split.
      * intros (en & p & r & Hd & Em). apply dof_chunk_inv in Hd. destruct (A en p Hd) as (h & t & Eh & _).
        cbn [mapIndex] in Em. rewrite Eh in Em. cbn [bind chunk_map] in Em. replace (bs =? 0) with false in Em by lia.
        injection Em as E1 E2 E3. subst k. apply Nat.mod_upper_bound. lia.
      * intros Hk. pose proof Hk0 as (en & p & r & Hd & Em). apply dof_chunk_inv in Hd. destruct (A en p Hd) as (h & t & Eh & Hh).
        cbn [mapIndex] in Em. rewrite Eh in Em. cbn [bind chunk_map] in Em. replace (bs =? 0) with false in Em by lia.
        injection Em as E1 E2 E3.
        assert (Hx : x < blockCount o / bs) by (subst x; apply Nat.div_lt_upper_bound; lia).
        assert (Hxk : x * bs + k < blockCount o) by (rewrite Hbc; nia).
        destruct (ba_full o Hwfo Hbo _ Hxk) as (en' & p' & t' & Hd' & Em').
        exists en', p', t'. split; [now constructor|]. cbn [mapIndex]. rewrite Em'. cbn [bind chunk_map]. replace (bs =? 0) with false by lia.
        destruct (div_mod_unique_ bs (x * bs + k) k x Hk eq_refl) as [-> ->]. reflexivity.
    + assert (Hy : y < bs).
      { destruct Hk0 as (en & p & r & Hd & Em). apply dof_chunk_inv in Hd. destruct (A en p Hd) as (h & t & Eh & Hh).
        cbn [mapIndex] in Em. rewrite Eh in Em. cbn [bind chunk_map] in Em. replace (bs =? 0) with false in Em by lia.
        injection Em as E1 E2 E3. subst y. apply Nat.mod_upper_bound. lia. }
      destruct (IH Hwfo Hbo) with (pre := bs * x + y :: rest) as (n & En & Hn).
      * intros en p ci Hd Em. enough (S (length ci) <= md) by lia.
        destruct (A en p Hd) as (h & t & Eh & Hh). rewrite Eh in Em. injection Em as <-.
        apply (Hmd en p (h / bs :: h mod bs :: t)); [now constructor|].
        cbn [mapIndex]. rewrite Eh. cbn. now replace (bs =? 0) with false by lia.
      * right. exists k0. now apply X.
      * exists n. split; [exact En|]. intros k. rewrite X by auto. apply Hn.
  - inversion Hba as [o' Hf| | | | |]; subst. destruct (flat_no_deeper _ _ _ _ Hwf Hf Hk0).
Qed.
