From Verif Require Import Common CommonFacts OrderingModel OrderingSpec OrderingProofs OrderingProofs2.

(* ------------------------------------------------------------------ the DOFs of an entity *)

Lemma in_number_children {T} (f : T -> list (list nat)) k cs p :
  In p (number_children f k cs) <-> exists c t q, p = k + c :: q /\ nth_error cs c = Some t /\ In q (f t).
Proof.
  revert k; induction cs as [|t cs IH]; intros k; cbn [number_children].
  - split; [intros []|]. intros (c & t & q & _ & E & _). destruct c; discriminate.
  - rewrite in_app_iff, in_map_iff, IH. split.
    + intros [(q & <- & Hq)|(c & t' & q & -> & E & Hq)].
      * exists 0, t, q. rewrite Nat.add_0_r. auto.
      * exists (S c), t', q. repeat split; auto. f_equal. lia.
    + intros (c & t' & q & -> & E & Hq). destruct c as [|c]; cbn in E.
      * injection E as <-. left. exists q. rewrite Nat.add_0_r. auto.
      * right. exists c, t', q. repeat split; auto. f_equal. lia.
Qed.

Lemma in_lentity_dofs t en p : In p (lentity_dofs t en) <-> ldof t en p.
Proof.
  revert p; induction t as [s|b cs IH] using ltree_ind'; intros p; cbn [lentity_dofs].
  - rewrite in_map_iff. split.
    + intros (i & <- & Hi). apply in_seq in Hi. constructor. lia.
    + intros H. inversion H; subst. eexists. split; eauto. apply in_seq. lia.
  - rewrite in_number_children. split.
    + intros (c & t & q & -> & E & Hq). econstructor; eauto. eapply Forall_nth_error in IH; eauto. now apply IH.
    + intros H. inversion H as [|b' cs' c t en' q E Hq]; subst. exists c, t, q. repeat split; auto.
      eapply Forall_nth_error in IH; eauto. now apply IH.
Qed.

Lemma in_entity_dofs o en p : In p (entity_dofs o en) <-> dof_of o en p.
Proof.
  revert p; induction o as [b s|b ents t|b cs IH|b m cs IH|bs o IH|perm o IH] using ord_ind'; intros p; cbn [entity_dofs].
  - rewrite in_map_iff. split.
    + intros (i & <- & Hi). apply in_seq in Hi. constructor. lia.
    + intros H. destruct (dof_leaf_inv _ _ _ _ H) as (i & -> & Hi). eexists. split; eauto. apply in_seq. lia.
  - rewrite in_lentity_dofs. split; [now constructor|apply dof_gv_inv].
  - rewrite in_number_children. split.
    + intros (c & t & q & -> & E & Hq). econstructor; eauto. eapply Forall_nth_error in IH; eauto. now apply IH.
    + intros H. destruct (dof_lex_inv _ _ _ _ H) as (c & o & q & -> & E & Hq). exists c, o, q. repeat split; auto.
      eapply Forall_nth_error in IH; eauto. now apply IH.
  - rewrite in_number_children. split.
    + intros (c & t & q & -> & E & Hq). econstructor; eauto. eapply Forall_nth_error in IH; eauto. now apply IH.
    + intros H. destruct (dof_inter_inv _ _ _ _ _ H) as (c & o & q & -> & E & Hq). exists c, o, q. repeat split; auto.
      eapply Forall_nth_error in IH; eauto. now apply IH.
  - rewrite IH. split; [now constructor|apply dof_chunk_inv].
  - rewrite IH. split; [now constructor|apply dof_perm_inv].
Qed.

Lemma nodup_number_children {T} (f : T -> list (list nat)) k cs : Forall (fun t => NoDup (f t)) cs -> NoDup (number_children f k cs).
Proof.
  intros H. revert k; induction H as [|t cs Ht H IH]; intros k; cbn [number_children]; [constructor|].
  assert (X : forall l, NoDup l -> NoDup (map (cons k) l)).
  { intros l Hl. apply FinFun.Injective_map_NoDup; auto. intros x y E. now injection E. }
  assert (G : forall l1 l2 : list (list nat), NoDup l1 -> NoDup l2 -> (forall x, In x l1 -> In x l2 -> False) -> NoDup (l1 ++ l2)).
  { clear. induction l1 as [|a l1 IH]; intros l2 H1 H2 Hd; auto. inversion H1; subst. cbn. constructor.
    - rewrite in_app_iff. intros [?|?]; [auto|]. eapply Hd; [now left|eauto].
    - apply IH; auto. intros x Hx. apply Hd. now right. }
  apply G; auto. intros x Hx Hy. apply in_map_iff in Hx. destruct Hx as (q & <- & _).
  apply in_number_children in Hy. destruct Hy as (c & t' & q' & E & _). injection E as E _. lia.
Qed.

Lemma nodup_lentity_dofs t en : NoDup (lentity_dofs t en).
Proof.
  induction t as [s|b cs IH] using ltree_ind'; cbn [lentity_dofs].
  - apply FinFun.Injective_map_NoDup; [|apply seq_NoDup]. intros x y E. now injection E.
  - now apply nodup_number_children.
Qed.

Lemma nodup_entity_dofs o en : NoDup (entity_dofs o en).
Proof.
  induction o as [b s|b ents t|b cs IH|b m cs IH|bs o IH|perm o IH] using ord_ind'; cbn [entity_dofs]; auto.
  - apply FinFun.Injective_map_NoDup; [|apply seq_NoDup]. intros x y E. now injection E.
  - apply nodup_lentity_dofs.
  - now apply nodup_number_children.
  - now apply nodup_number_children.
Qed.

(* ------------------------------------------------------------------ extraction *)

Definition extracted (M : list nat -> res (list nat)) (dofs : list (list nat)) (r : res (list (list nat * list nat))) : Prop :=
  exists l, r = Ok l /\ map fst l = dofs /\ Forall (fun x => M (fst x) = Ok (snd x)) l.

Lemma after_child_ok (M N : list nat -> res (list nat)) f c (r : res (list (list nat * list nat))) dofs :
  let push p := match c with Some k => k :: p | None => p end in
  extracted M dofs r ->
  (forall p ci, In p dofs -> M p = Ok ci -> exists x, f ci = Ok x /\ N (push p) = Ok x) ->
  extracted N (map push dofs) (let* l := r in after_child f c l).
Proof.
  intros push (l & -> & Ed & HF) Hf. cbn [bind]. subst dofs.
  induction l as [|[p ci] l IH]; cbn [after_child mapM2 map].
  - exists []. repeat split; constructor.
  - inversion HF as [|x l' Hx HF']; subst. cbn [fst snd] in Hx.
    destruct (Hf p ci (or_introl eq_refl) Hx) as (x & Ex & Nx).
    destruct IH as (l1 & El & Em & HF1); auto.
    { intros q cq Hq. apply Hf. now right. }
    unfold after_child in *. cbn [mapM2 map fst snd]. rewrite Ex. cbn [bind]. rewrite El. cbn [bind].
    eexists. split; [reflexivity|]. cbn [map fst snd]. split.
    + unfold push at 1. f_equal. exact Em.
    + constructor; auto.
Qed.

Lemma extract_children_ok {T} (f : nat -> T -> res (list (list nat * list nat))) (N : list nat -> res (list nat)) F (all cs : list T) k :
  (forall j, nth_error cs j = nth_error all (k + j)) ->
  (forall c t, nth_error all c = Some t -> extracted N (map (cons c) (F t)) (f c t)) ->
  extracted N (number_children F k cs) (extract_children f k cs).
Proof.
  revert k; induction cs as [|t cs IH]; intros k Hk Hf; cbn [number_children extract_children].
  - exists []. repeat split; constructor.
  - assert (Ek : nth_error all k = Some t) by (rewrite <- (Nat.add_0_r k), <- Hk; reflexivity).
    destruct (Hf k t Ek) as (l1 & E1 & M1 & F1). rewrite E1. cbn [bind].
    destruct (IH (S k)) as (l2 & E2 & M2 & F2); auto.
    { intros j. specialize (Hk (S j)). cbn in Hk. rewrite Hk. f_equal. lia. }
    rewrite E2. cbn [bind].
    exists (l1 ++ l2). split; [reflexivity|]. split; [now rewrite map_app, M1, M2|]. now apply Forall_app.
Qed.

Lemma Forall_map_ {A B} (f : A -> B) (P : B -> Prop) l : (forall x, In x l -> P (f x)) -> Forall P (map f l).
Proof. intros H. apply Forall_forall. intros y Hy. apply in_map_iff in Hy. destruct Hy as (x & <- & Hx). auto. Qed.

Lemma local_extract_ok ents t gt e : local_ok ents t -> gt < length ents -> e < nth gt ents 0 ->
  extracted (map_local ents t (gt, e)) (lentity_dofs t (gt, e)) (local_extract ents t (gt, e)).
Proof.
  induction t as [s|b cs IH] using ltree_ind'; intros Hok Hg He; inversion Hok as [s' Hs|cs' Hne Hcs]; subst.
  - cbn [lentity_dofs local_extract fst snd].
    pose proof (dofs_on_in_grid ents s gt e Hs Hg He) as Ed.
    destruct (lused (LLeaf s) gt) eqn:U; cbn [negb].
    + eexists. split; [reflexivity|]. split.
      * rewrite map_map. cbn. now rewrite Ed.
      * apply Forall_map_. intros i _. reflexivity.
    + pose proof (unused_size0 ents (LLeaf s) Hok gt e Hg He U) as Z. cbn [lsize] in Z.
      rewrite Ed, Z. exists []. repeat split; constructor.
  - cbn [lentity_dofs local_extract].
    apply (extract_children_ok _ _ (fun t' => lentity_dofs t' (gt, e)) cs); auto.
    intros c t E. pose proof (Forall_nth_error _ _ _ _ IH E (Forall_nth_error _ _ _ _ Hcs E) Hg He) as HX.
    apply (after_child_ok _ (map_local ents (LNode false cs) (gt, e)) _ (Some c) _ _ HX).
    intros p ci Hp Em.
    assert (Hd : ldof (LNode false cs) (gt, e) (c :: p)) by (econstructor; eauto; now apply in_lentity_dofs).
    destruct (local_spec ents _ Hok gt e Hg He) as (A & _ & _). destruct (A _ Hd) as (k & Ek & Hk).
    exists [k]. split; auto. cbn [fst snd].
    assert (Hu : lused (LNode false cs) gt = true).
    { destruct (lused (LNode false cs) gt) eqn:U; auto. rewrite (unused_size0 ents _ Hok gt e Hg He U) in Hk. lia. }
    rewrite Hu. cbn [negb].
    cbn [map_local fst snd] in Ek. rewrite (at_map _ _ _ _ E) in Ek. cbn [bind] in Ek. rewrite Em in Ek. exact Ek.
Qed.

Lemma lentity_dofs_disable t en : lentity_dofs (disable_blocking t) en = lentity_dofs t en.
Proof. now destruct t. Qed.

Lemma node_defined o en p : well_formed o -> dof_of o en p -> exists ci, mapIndex o en p = Ok ci.
Proof. intros Hwf Hd. destruct (wf_separates o Hwf) as (A & _). destruct (A _ _ Hd) as (h & t & E & _). eauto. Qed.

Lemma extract_ok ents o gt e : well_formed o -> on_grid ents o -> gt < length ents -> e < nth gt ents 0 ->
  extracted (mapIndex o (gt, e)) (entity_dofs o (gt, e)) (extract o (gt, e)).
Proof.
  intros Hwf Hog Hg He. revert Hwf Hog.
  induction o as [b s|b ents' t|b cs IH|b m cs IH|bs o IH|perm o IH] using ord_ind'; intros Hwf Hog.
  - inversion Hog as [b' s' Hs| | | | |]; subst. cbn [entity_dofs extract].
    pose proof (dofs_on_in_grid ents s gt e Hs Hg He) as Ed. unfold leaf_extract. cbn [mapIndex].
    destruct s as [gts|gts].
    + cbn in Hs. assert (Hg' : gt < length gts) by (subst ents; now rewrite map_length in Hg).
      destruct (nth_error gts gt) as [[n d]|] eqn:E; [|apply nth_error_None in E; lia].
      rewrite (at_ok _ _ _ E). cbn [bind snd].
      assert (Edd : dofs_on (FixedSizes gts) (gt, e) = d).
      { rewrite Ed. cbn. now rewrite (nth_nth_error _ _ (0, 0) _ E). }
      rewrite Edd. destruct (0 <? d) eqn:Z; cbn [negb].
      * unfold leaf_gt_offsets. rewrite at_psums by (rewrite map_length; lia). cbn [bind].
        eexists. split; [reflexivity|]. split; [now rewrite map_map|].
        apply Forall_map_. intros i Hi. apply in_seq in Hi. cbn [fst snd]. unfold leaf_map, leaf_gt_offsets.
        rewrite at_psums by (rewrite map_length; lia). cbn [bind]. rewrite (at_ok _ _ _ E). cbn [bind snd]. now destruct b.
      * assert (d = 0) by lia. subst d. exists []. repeat split; try constructor. rewrite H. constructor.
    + destruct Hs as [Hl Hs]. assert (Hg' : gt < length gts) by lia.
      destruct (nth_error gts gt) as [l|] eqn:E; [|apply nth_error_None in E; lia].
      rewrite (at_ok _ _ _ E). cbn [bind].
      assert (Edd : dofs_on (EntitySizes gts) (gt, e) = nth e l 0) by (rewrite Ed; cbn; now rewrite (nth_nth_error _ _ [] _ E)).
      rewrite Edd. destruct (Hs gt l E) as [->|Hlen].
      * exists []. repeat split; try constructor. destruct e; reflexivity.
      * assert (Hne : l <> []) by (intros ->; cbn in Hlen; lia).
        assert (Hnl : forall (A : Type) (x y : A), match l with [] => x | _ :: _ => y end = y) by (intros; now destruct l).
        rewrite Hnl.
        unfold leaf_entity_offsets. rewrite at_psums by (rewrite map_length; lia). cbn [bind].
        set (g := pre (map (length (A:=nat)) gts) gt + e).
        assert (Hc : nth_error (concat gts) g = Some (nth e l 0)).
        { unfold g. rewrite (nth_error_concat gts gt e l E) by lia. apply nth_error_nth'. lia. }
        assert (Hgl : g < length (concat gts)) by (apply nth_error_Some; congruence).
        unfold leaf_dof_offsets. rewrite !at_psums by lia. cbn [bind].
        rewrite pre_S, (nth_nth_error _ _ 0 _ Hc).
        replace (pre (concat gts) g + nth e l 0 - pre (concat gts) g) with (nth e l 0) by lia.
        eexists. split; [reflexivity|]. split; [now rewrite map_map|].
        apply Forall_map_. intros i Hi. apply in_seq in Hi. cbn [fst snd]. unfold leaf_map, leaf_entity_offsets, leaf_dof_offsets.
        rewrite at_psums by (rewrite map_length; lia). cbn [bind]. fold g. rewrite at_psums by lia. cbn [bind]. now destruct b.
  - inversion Hog as [|b' t'| | | |]; subst. destruct (wf_gv_inv _ _ _ Hwf) as (Hok & Hb). cbn [entity_dofs extract].
    pose proof (local_extract_ok ents' _ gt e Hok Hg He) as HX. rewrite lentity_dofs_disable in HX.
    replace (lentity_dofs t (gt, e)) with (map (fun p => match (None : option nat) with Some k => k :: p | None => p end) (lentity_dofs t (gt, e)))
      by (rewrite map_id; reflexivity).
    apply (after_child_ok _ (mapIndex (OGV b ents' t) (gt, e)) _ None _ _ HX).
    intros p ci Hp Em. apply in_lentity_dofs in Hp.
    destruct (node_defined (OGV b ents' t) (gt, e) p Hwf) as (x & Ex); [now constructor|].
    exists x. split; auto. cbn [mapIndex] in Ex. unfold gv_map in Ex. rewrite Em in Ex. cbn [bind fst snd] in *. exact Ex.
  - inversion Hog as [| |b' cs' Hogs| | |]; subst. cbn [entity_dofs extract]. pose proof (wf_lex_inv _ _ Hwf) as Hcs.
    apply (extract_children_ok _ _ (fun o' => entity_dofs o' (gt, e)) cs); auto.
    intros c o E. pose proof (Forall_nth_error _ _ _ _ IH E (Forall_nth_error _ _ _ _ Hcs E) (Forall_nth_error _ _ _ _ Hogs E)) as HX.
    apply (after_child_ok _ (mapIndex (OLex b cs) (gt, e)) _ (Some c) _ _ HX).
    intros p ci Hp Em. apply in_entity_dofs in Hp.
    destruct (node_defined (OLex b cs) (gt, e) (c :: p) Hwf) as (x & Ex); [econstructor; eauto|].
    exists x. split; auto. cbn [mapIndex] in Ex. rewrite (at_map _ _ _ _ E) in Ex. cbn [bind] in Ex. rewrite Em in Ex. exact Ex.
  - inversion Hog as [| | |b' m' cs' Hogs| |]; subst. cbn [entity_dofs extract].
    destruct (wf_inter_inv _ _ _ Hwf) as (sizes & n & Em' & Hne & Hcs & Hbal).
    apply (extract_children_ok _ _ (fun o' => entity_dofs o' (gt, e)) cs); auto.
    intros c o E. pose proof (Forall_nth_error _ _ _ _ IH E (Forall_nth_error _ _ _ _ Hcs E) (Forall_nth_error _ _ _ _ Hogs E)) as HX.
    apply (after_child_ok _ (mapIndex (OInter b m cs) (gt, e)) _ (Some c) _ _ HX).
    intros p ci Hp Em. apply in_entity_dofs in Hp.
    destruct (node_defined (OInter b m cs) (gt, e) (c :: p) Hwf) as (x & Ex); [econstructor; eauto|].
    exists x. split; auto. cbn [mapIndex] in Ex. rewrite (at_map _ _ _ _ E) in Ex. cbn [bind] in Ex. rewrite Em in Ex. cbn [bind] in Ex.
    rewrite <- Ex. unfold inter_extract, inter_map. destruct (at_ m c); auto. destruct (at_ m (S c)); auto. cbn [bind].
    destruct ci; auto. destruct (_ =? 0); auto. destruct b; auto. now rewrite Nat.add_assoc.
  - inversion Hog as [| | | |bs' o' Hogs|]; subst. cbn [entity_dofs extract]. destruct (wf_chunk_inv _ _ Hwf) as (Hbs & Hdiv & Hwfo).
    replace (entity_dofs o (gt, e)) with (map (fun p => match (None : option nat) with Some k => k :: p | None => p end) (entity_dofs o (gt, e)))
      by (rewrite map_id; reflexivity).
    apply (after_child_ok _ (mapIndex (OChunk bs o) (gt, e)) _ None _ _ (IH Hwfo Hogs)).
    intros p ci Hp Em. apply in_entity_dofs in Hp.
    destruct (node_defined (OChunk bs o) (gt, e) p Hwf) as (x & Ex); [now constructor|].
    exists x. split; auto. cbn [mapIndex] in Ex. rewrite Em in Ex. exact Ex.
  - inversion Hog as [| | | | |perm' o' Hogs]; subst. cbn [entity_dofs extract]. destruct (wf_perm_inv _ _ Hwf) as (Hperm & Hwfo).
    replace (entity_dofs o (gt, e)) with (map (fun p => match (None : option nat) with Some k => k :: p | None => p end) (entity_dofs o (gt, e)))
      by (rewrite map_id; reflexivity).
    apply (after_child_ok _ (mapIndex (OPerm perm o) (gt, e)) _ None _ _ (IH Hwfo Hogs)).
    intros p ci Hp Em. apply in_entity_dofs in Hp.
    destruct (node_defined (OPerm perm o) (gt, e) p Hwf) as (x & Ex); [now constructor|].
    exists x. split; auto. cbn [mapIndex] in Ex. rewrite Em in Ex. exact Ex.
Qed.
