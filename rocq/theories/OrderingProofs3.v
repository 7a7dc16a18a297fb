From Verif Require Import Common CommonFacts OrderingModel OrderingSpec OrderingProofs OrderingProofs2.

(* ------------------------------------------------------------------ batched mapping *)

Lemma zipM_ok f (R R' : dof -> list nat -> Prop) ds cis :
  Forall2 R ds cis -> (forall d ci, In d ds -> R d ci -> exists x, f d ci = Ok x /\ R' d x) ->
  exists out, zipM f ds cis = Ok out /\ Forall2 R' ds out.
Proof.
  induction 1 as [|d ci ds cis Hd H IH]; intros Hf; cbn [zipM].
  - eauto.
  - destruct (Hf d ci (or_introl eq_refl) Hd) as (x & -> & Hx). cbn [bind].
    destruct IH as (out & -> & Hout); [firstorder|]. cbn. eauto.
Qed.

Lemma consumed_app (a b : list dof) : consumed (a ++ b) b = a.
Proof.
  unfold consumed. rewrite app_length. replace (length a + length b - length b) with (length a) by lia.
  now rewrite firstn_app, Nat.sub_diag, firstn_all, firstn_O, app_nil_r.
Qed.

(** one group of DOFs belonging to the leaf at path [q] below a node where [tail] levels are already cut *)
Definition grp (M : ent -> list nat -> res (list nat)) (tail : nat) (q : list nat) (g : list dof) : Prop :=
  forall d, In d g -> exists i ci, skipn tail (snd d) = q ++ [i] /\ M (fst d) (skipn tail (snd d)) = Ok ci.

Definition result_ok (M : ent -> list nat -> res (list nat)) (tail : nat) (groups : list (list dof)) ls ds (r : res bstate) : Prop :=
  exists out, r = Ok (ls, ds, out) /\ Forall2 (fun d ci => M (fst d) (skipn tail (snd d)) = Ok ci) (concat groups) out.

Lemma skipn_S {A} n (l : list A) x r : skipn n l = x :: r -> skipn (S n) l = r.
Proof.
  revert l; induction n as [|n IH]; intros l E; [cbn in E; subst; reflexivity|].
  destruct l; [discriminate|]. cbn in *. apply IH in E. exact E.
Qed.

Lemma view_back_skipn tail d c p : skipn tail (snd d) = c :: p -> view_back tail d = Ok c.
Proof.
  unfold view_back. intros E. apply at_ok. revert E. generalize (snd d). clear d.
  induction tail as [|n IH]; intros l E; [cbn in E; subst; reflexivity|].
  destruct l; [discriminate|]. cbn in *. auto.
Qed.

Lemma skipn_last_length {A} n (l : list A) x : skipn n l = [x] -> length l = S n.
Proof. intros E. pose proof (skipn_length n l) as L. rewrite E in L. cbn in L. lia. Qed.

Lemma Forall2_impl_ {A B} (P Q : A -> B -> Prop) l l' : (forall a b, P a b -> Q a b) -> Forall2 P l l' -> Forall2 Q l l'.
Proof. intros H. induction 1; auto. Qed.

Lemma Forall2_in_l {A B} (P : A -> B -> Prop) l l' : Forall2 P l l' -> Forall2 (fun a b => In a l /\ P a b) l l'.
Proof.
  induction 1 as [|a b l l' H H' IH]; constructor; [split; auto; now left|].
  eapply Forall2_impl_; [|exact IH]. intros x y [? ?]; split; auto. now right.
Qed.

Lemma visit_all_ok {T} (visit : T -> list nat -> list dof -> res bstate) (M : T -> ent -> list nat -> res (list nat))
  (L : T -> list (list nat)) (N : ent -> list nat -> res (list nat)) tail (all : list T) :
  (forall c p en ci, N en (c :: p) = Ok ci -> exists t ci', nth_error all c = Some t /\ M t en p = Ok ci') ->
  forall cs, Forall (fun c => forall groups ls ds, Forall2 (grp (M c) (S tail)) (L c) groups ->
     result_ok (M c) (S tail) groups ls ds (visit c (map (@length dof) groups ++ ls) (concat groups ++ ds))) cs ->
  forall k, (forall j, nth_error cs j = nth_error all (k + j)) ->
  forall groups ls ds, Forall2 (grp N tail) (number_children L k cs) groups ->
  exists out, visit_all visit cs (map (@length dof) groups ++ ls) (concat groups ++ ds) = Ok (ls, ds, out) /\
    Forall2 (fun d ci => exists c t, nth_error all c = Some t /\ skipn tail (snd d) = c :: skipn (S tail) (snd d) /\
                         M t (fst d) (skipn (S tail) (snd d)) = Ok ci) (concat groups) out.
Proof.
  intros HN cs Hcs. induction Hcs as [|c cs Hc Hcs IH]; intros k Hk groups ls ds HG; cbn [number_children] in HG.
  - inversion HG; subst. cbn. exists []. auto.
  - apply Forall2_app_inv_l in HG. destruct HG as (g1 & g2 & H1 & H2 & ->).
    assert (Ek : nth_error all k = Some c) by (rewrite <- (Nat.add_0_r k), <- Hk; reflexivity).
    assert (K1 : forall d, In d (concat g1) -> skipn tail (snd d) = k :: skipn (S tail) (snd d)).
    { intros d Hd. apply in_concat in Hd. destruct Hd as (g & Hg & Hd).
      apply In_nth_error in Hg. destruct Hg as (j & Ej).
      destruct (Forall2_nth_error _ _ _ _ _ H1 Ej) as (q & Eq & Hq).
      rewrite nth_error_map in Eq. destruct (nth_error (L c) j); [|discriminate]. injection Eq as <-.
      destruct (Hq d Hd) as (i & ci & E & _). cbn [app] in E. rewrite E. f_equal. symmetry. eapply skipn_S; eauto. }
    assert (H1' : Forall2 (grp (M c) (S tail)) (L c) g1).
    { clear -H1 HN Ek. remember (map (cons k) (L c)) as l eqn:El. revert El. generalize (L c).
      induction H1 as [|q g l gs Hq H IH]; intros l0 El.
      - destruct l0; [constructor|discriminate].
      - destruct l0 as [|q0 l0]; [discriminate|]. injection El as -> El. constructor; [|apply IH; auto].
        intros d Hd. destruct (Hq d Hd) as (i & ci & E & En). cbn [app] in E.
        pose proof (skipn_S _ _ _ _ E) as E'. rewrite E in En. destruct (HN _ _ _ _ En) as (t & ci' & Et & Em).
        rewrite Ek in Et. injection Et as <-. exists i, ci'. rewrite E'. auto. }
    destruct (Hc g1 (map (@length dof) g2 ++ ls) (concat g2 ++ ds) H1') as (o1 & E1 & F1).
    assert (Hk' : forall j, nth_error cs j = nth_error all (S k + j)).
    { intros j. specialize (Hk (S j)). cbn in Hk. rewrite Hk. f_equal. lia. }
    destruct (IH (S k) Hk' g2 ls ds H2) as (o2 & E2 & F2).
    exists (o1 ++ o2). split.
    + cbn [visit_all]. rewrite map_app, concat_app, <- !app_assoc, E1. cbn [bind].
      rewrite E2. reflexivity.
    + rewrite concat_app. apply Forall2_app; auto.
      eapply Forall2_impl_; [|exact (Forall2_in_l _ _ _ F1)]. intros d ci [Hd Em]. exists k, c. auto.
Qed.

Lemma concat_single {A} (g : list A) : concat [g] = g.
Proof. cbn. apply app_nil_r. Qed.

Lemma Forall2_const {A B} (l : list A) (x : B) : Forall2 (fun _ y => y = x) l (map (fun _ => x) l).
Proof. induction l; cbn; auto. Qed.

(** the leaf step of both visitors *)
Lemma take_leaf_ok (g : list dof) ls ds : take_leaf (length g :: ls) (g ++ ds) = Ok (g, ls, ds).
Proof.
  unfold take_leaf. rewrite app_length. replace (length g + length ds <? length g) with false by lia.
  rewrite firstn_app, firstn_all, Nat.sub_diag, firstn_O, app_nil_r.
  rewrite skipn_app, skipn_all, Nat.sub_diag. reflexivity.
Qed.

(** lift a per-DOF step of a node over the produced range *)
Lemma node_step {T} (all : list T) (M : T -> ent -> list nat -> res (list nat)) (N : ent -> list nat -> res (list nat)) tail f groups out q :
  Forall2 (grp N tail) q groups ->
  Forall2 (fun d ci => exists c t, nth_error all c = Some t /\ skipn tail (snd d) = c :: skipn (S tail) (snd d) /\
                         M t (fst d) (skipn (S tail) (snd d)) = Ok ci) (concat groups) out ->
  (forall d c t ci x, nth_error all c = Some t -> skipn tail (snd d) = c :: skipn (S tail) (snd d) ->
     M t (fst d) (skipn (S tail) (snd d)) = Ok ci -> N (fst d) (c :: skipn (S tail) (snd d)) = Ok x -> f d ci = Ok x) ->
  exists out', zipM f (concat groups) out = Ok out' /\ Forall2 (fun d ci => N (fst d) (skipn tail (snd d)) = Ok ci) (concat groups) out'.
Proof.
  intros HG HF Hf. eapply zipM_ok; [exact HF|]. intros d ci Hd (c & t & E & Es & Em).
  apply in_concat in Hd. destruct Hd as (g & Hg & Hd). apply In_nth_error in Hg. destruct Hg as (j & Ej).
  destruct (Forall2_nth_error _ _ _ _ _ HG Ej) as (q0 & Eq & Hq). destruct (Hq d Hd) as (i & x & _ & En).
  exists x. split; auto. rewrite Es in En. eapply Hf; eauto.
Qed.

Lemma lbatch_ok ents t : forall tail groups ls ds,
  Forall2 (grp (map_local ents t) tail) (lleaf_paths t) groups ->
  result_ok (map_local ents t) tail groups ls ds (lbatch ents tail t (map (@length dof) groups ++ ls) (concat groups ++ ds)).
Proof.
  induction t as [s|b cs IH] using ltree_ind'; intros tail groups ls ds HG; cbn [lleaf_paths] in HG.
  - inversion HG as [|q g l l' Hq Hnil]; subst. inversion Hnil; subst.
    rewrite concat_single. cbn [map app lbatch]. rewrite take_leaf_ok. cbn [bind].
    edestruct (zipM_ok (fun (d : dof) ci => let* i := view_back tail d in if length (snd d) =? S tail then Ok (i :: ci) else UB)
       (fun _ y => y = []) (fun d ci => map_local ents (LLeaf s) (fst d) (skipn tail (snd d)) = Ok ci)) as (out & E & F).
    + apply (Forall2_const g []).
    + intros d ci Hd ->. destruct (Hq d Hd) as (i & ci & E & Em). cbn [app] in E.
      rewrite (view_back_skipn _ _ _ _ E), (skipn_last_length _ _ _ E), Nat.eqb_refl. cbn [bind].
      rewrite E. eauto.
    + unfold result_ok. rewrite concat_single. exists out. rewrite E. auto.
  - cbn [lbatch].
    edestruct (visit_all_ok (lbatch ents (S tail)) (map_local ents) lleaf_paths (map_local ents (LNode b cs)) tail cs) with (cs := cs) (k := 0) as (out & E & F); eauto.
    + intros c p en ci H. cbn [map_local] in H.
      destruct (nth_error cs c) as [t|] eqn:Ec; [|unfold at_ in H; rewrite nth_error_map, Ec in H; discriminate].
      rewrite (at_map _ _ _ _ Ec) in H. cbn [bind] in H. exists t. destruct (map_local ents t en p) as [ci'| |]; try discriminate. eauto.
    + rewrite Forall_forall in *. intros c Hc groups' ls' ds' HG'. apply IH; auto.
    + rewrite E. cbn [bind]. rewrite consumed_app.
      destruct (node_step cs (map_local ents) (map_local ents (LNode b cs)) tail
         (fun (d : dof) ci => let* c := view_back tail d in lnode_lfs ents b cs (fst d) c ci) groups out _ HG F) as (out' & E' & F').
      * intros d c t ci x Ec Es Em En. rewrite (view_back_skipn _ _ _ _ Es). cbn [bind].
        cbn [map_local] in En. rewrite (at_map _ _ _ _ Ec) in En. cbn [bind] in En. rewrite Em in En. cbn [bind] in En.
        unfold lnode_lfs. destruct b; auto. unfold local_offset in En.
        destruct (0 <? c).
        -- destruct (forallb lfixed cs); auto. destruct (existsb _ cs); auto.
           destruct (at_ (node_entity_offsets ents _) (fst (fst d))); auto.
        -- cbn in En. destruct ci; [discriminate|]. cbn in En. now rewrite Nat.add_0_r in En.
      * rewrite E'. cbn. exists out'. auto.
Qed.

Lemma result_ok_bind M M' tail groups ls ds r f :
  (forall d ci x, M (fst d) (skipn tail (snd d)) = Ok ci -> M' (fst d) (skipn tail (snd d)) = Ok x -> f d ci = Ok x) ->
  (exists q, Forall2 (grp M' tail) q groups) ->
  result_ok M tail groups ls ds r ->
  result_ok M' tail groups ls ds (let* s := r in let '(ls', ds', out) := s in
     let* out' := zipM f (consumed (concat groups ++ ds) ds') out in Ok (ls', ds', out')).
Proof.
  intros Hf (q & HG) (out & -> & F). cbn [bind]. rewrite consumed_app.
  edestruct (zipM_ok f _ (fun d ci => M' (fst d) (skipn tail (snd d)) = Ok ci) _ _ F) as (out' & E' & F').
  - intros d ci Hd Em. apply in_concat in Hd. destruct Hd as (g & Hg & Hd). apply In_nth_error in Hg. destruct Hg as (j & Ej).
    destruct (Forall2_nth_error _ _ _ _ _ HG Ej) as (q0 & Eq & Hq). destruct (Hq d Hd) as (i & x & _ & En).
    exists x. split; eauto.
  - rewrite E'. cbn. exists out'. auto.
Qed.

Lemma grp_mono (M M' : ent -> list nat -> res (list nat)) tail q groups :
  (forall en p x, M' en p = Ok x -> exists y, M en p = Ok y) ->
  Forall2 (grp M' tail) q groups -> Forall2 (grp M tail) q groups.
Proof.
  intros H. apply Forall2_impl_. intros q0 g Hg d Hd. destruct (Hg d Hd) as (i & ci & E & Em).
  destruct (H _ _ _ Em) as (y & Ey). eauto.
Qed.

Lemma batch_ok o : forall tail groups ls ds,
  Forall2 (grp (mapIndex o) tail) (leaf_paths o) groups ->
  result_ok (mapIndex o) tail groups ls ds (batch tail o (map (@length dof) groups ++ ls) (concat groups ++ ds)).
Proof.
  induction o as [b s|b ents t|b cs IH|b m cs IH|bs o IH|perm o IH] using ord_ind'; intros tail groups ls ds HG; cbn [leaf_paths] in HG.
  - inversion HG as [|q g l l' Hq Hnil]; subst. inversion Hnil; subst.
    rewrite concat_single. cbn [map app batch]. rewrite take_leaf_ok. cbn [bind].
    edestruct (zipM_ok (fun (d : dof) _ => let* i := view_back tail d in if length (snd d) =? S tail then leaf_lfs b s (fst d) i else UB)
       (fun _ y => y = []) (fun d ci => mapIndex (OLeaf b s) (fst d) (skipn tail (snd d)) = Ok ci)) as (out & E & F).
    + apply (Forall2_const g []).
    + intros d ci Hd ->. destruct (Hq d Hd) as (i & ci & E & Em). cbn [app] in E.
      rewrite (view_back_skipn _ _ _ _ E), (skipn_last_length _ _ _ E), Nat.eqb_refl. cbn [bind].
      exists ci. split; auto. rewrite E in Em. cbn [mapIndex] in Em. rewrite <- Em.
      destruct (fst d) as [gt e]. unfold leaf_lfs, leaf_map. destruct s as [gts|gts]; destruct b; auto.
    + unfold result_ok. rewrite concat_single. exists out. rewrite E. auto.
  - cbn [batch].
    eapply (result_ok_bind (map_local ents (disable_blocking t)) (mapIndex (OGV b ents t)) tail groups ls ds _
      (fun (d : dof) ci => gv_lfs b ents (disable_blocking t) (fst d) ci)).
    + intros d ci x Em En. cbn [mapIndex] in En. unfold gv_map in En. unfold gv_lfs. destruct (fst d) as [gt e].
      rewrite Em in En. cbn [bind] in En. auto.
    + eauto.
    + apply lbatch_ok. assert (El : lleaf_paths (disable_blocking t) = lleaf_paths t) by now destruct t. rewrite El.
      eapply grp_mono; [|exact HG]. intros [gt e] p x E. cbn [mapIndex] in E. unfold gv_map in E.
      destruct (map_local ents (disable_blocking t) (gt, e) p); try discriminate. eauto.
  - cbn [batch].
    edestruct (visit_all_ok (batch (S tail)) mapIndex leaf_paths (mapIndex (OLex b cs)) tail cs) with (cs := cs) (k := 0) as (out & E & F); eauto.
    + intros c p en ci H. cbn [mapIndex] in H.
      destruct (nth_error cs c) as [t|] eqn:Ec; [|unfold at_ in H; rewrite nth_error_map, Ec in H; discriminate].
      rewrite (at_map _ _ _ _ Ec) in H. cbn [bind] in H. exists t. destruct (mapIndex t en p) as [ci'| |]; try discriminate. eauto.
    + rewrite Forall_forall in *. intros c Hc groups' ls' ds' HG'. apply IH; auto.
    + rewrite E. cbn [bind]. rewrite consumed_app.
      destruct (node_step cs mapIndex (mapIndex (OLex b cs)) tail
         (fun (d : dof) ci => let* c := view_back tail d in lex_lfs b cs c ci) groups out _ HG F) as (out' & E' & F').
      * intros d c t ci x Ec Es Em En. rewrite (view_back_skipn _ _ _ _ Es). cbn [bind].
        cbn [mapIndex] in En. rewrite (at_map _ _ _ _ Ec) in En. cbn [bind] in En. rewrite Em in En. exact En.
      * rewrite E'. cbn. exists out'. auto.
  - cbn [batch].
    edestruct (visit_all_ok (batch (S tail)) mapIndex leaf_paths (mapIndex (OInter b m cs)) tail cs) with (cs := cs) (k := 0) as (out & E & F); eauto.
    + intros c p en ci H. cbn [mapIndex] in H.
      destruct (nth_error cs c) as [t|] eqn:Ec; [|unfold at_ in H; rewrite nth_error_map, Ec in H; discriminate].
      rewrite (at_map _ _ _ _ Ec) in H. cbn [bind] in H. exists t. destruct (mapIndex t en p) as [ci'| |]; try discriminate. eauto.
    + rewrite Forall_forall in *. intros c Hc groups' ls' ds' HG'. apply IH; auto.
    + rewrite E. cbn [bind]. rewrite consumed_app.
      destruct (node_step cs mapIndex (mapIndex (OInter b m cs)) tail
         (fun (d : dof) ci => let* c := view_back tail d in inter_lfs b m c ci) groups out _ HG F) as (out' & E' & F').
      * intros d c t ci x Ec Es Em En. rewrite (view_back_skipn _ _ _ _ Es). cbn [bind].
        cbn [mapIndex] in En. rewrite (at_map _ _ _ _ Ec) in En. cbn [bind] in En. rewrite Em in En. exact En.
      * rewrite E'. cbn. exists out'. auto.
  - cbn [batch]. eapply (result_ok_bind (mapIndex o) (mapIndex (OChunk bs o)) tail groups ls ds).
    + intros d ci x Em En. cbn [mapIndex] in En. rewrite Em in En. exact En.
    + eauto.
    + apply IH. eapply grp_mono; [|exact HG]. intros en p x E. cbn [mapIndex] in E. destruct (mapIndex o en p); try discriminate. eauto.
  - cbn [batch]. eapply (result_ok_bind (mapIndex o) (mapIndex (OPerm perm o)) tail groups ls ds).
    + intros d ci x Em En. cbn [mapIndex] in En. rewrite Em in En. exact En.
    + eauto.
    + apply IH. eapply grp_mono; [|exact HG]. intros en p x E. cbn [mapIndex] in E. destruct (mapIndex o en p); try discriminate. eauto.
Qed.

Lemma batch_map_ok o groups : well_formed o -> element_dofs o groups ->
  exists out, batch_map o (map (@length dof) groups) (concat groups) = Ok out /\
    Forall2 (fun d ci => mapIndex o (fst d) (snd d) = Ok ci) (concat groups) out.
Proof.
  intros Hwf HG. destruct (wf_separates o Hwf) as (A & _).
  destruct (batch_ok o 0 groups [] []) as (out & E & F).
  - eapply Forall2_impl_; [|exact HG]. intros q g H d Hd. destruct (H d Hd) as (Hdof & i & Ei).
    destruct (A _ _ Hdof) as (h & t & Em & _). exists i, (h :: t). auto.
  - unfold batch_map. rewrite !app_nil_r in E. rewrite E. cbn. eauto.
Qed.

Lemma batch_map_any o (groups : list (list dof)) :
  Forall2 (fun q g => forall d, In d g -> exists i ci, snd d = q ++ [i] /\ mapIndex o (fst d) (snd d) = Ok ci) (leaf_paths o) groups ->
  exists out, batch_map o (map (@length dof) groups) (concat groups) = Ok out /\
    Forall2 (fun d ci => mapIndex o (fst d) (snd d) = Ok ci) (concat groups) out.
Proof.
  intros HG. destruct (batch_ok o 0 groups [] []) as (out & E & F); [exact HG|].
  unfold batch_map. rewrite !app_nil_r in E. rewrite E. cbn. eauto.
Qed.
