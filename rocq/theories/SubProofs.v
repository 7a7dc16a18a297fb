From Verif Require Import Common CommonFacts OrderingModel OrderingSpec OrderingProofs OrderingProofs2 OrderingProofs3 SubModel SubSpec.

(** ** Paths *)
Lemma below_nil l : below [] l = l.
Proof. unfold below. induction l as [|q l IH]; [reflexivity|]. cbn in *. rewrite IH. reflexivity. Qed.
Lemma below_app p l l' : below p (l ++ l') = below p l ++ below p l'. Proof. apply flat_map_app. Qed.
Lemma below_cons c p k l : below (c :: p) (map (cons k) l) = if c =? k then below p l else [].
Proof.
  unfold below. induction l as [|q l IH]; cbn in *; [destruct (c =? k); reflexivity|].
  rewrite IH. destruct (c =? k); reflexivity.
Qed.
Lemma below_children {T} (f : T -> list (list nat)) c p cs : forall k,
  below (c :: p) (number_children f k cs) = if c <? k then [] else match nth_error cs (c - k) with Some t => below p (f t) | None => [] end.
Proof.
  induction cs as [|t cs IH]; intros k; cbn [number_children].
  - unfold below; cbn. destruct (c <? k); [reflexivity|]. destruct (c - k); reflexivity.
  - rewrite below_app, below_cons, IH. destruct (Nat.eqb_spec c k) as [->|N].
    + replace (k <? S k) with true by (symmetry; apply Nat.ltb_lt; lia). rewrite app_nil_r.
      replace (k <? k) with false by (symmetry; apply Nat.ltb_ge; lia). rewrite Nat.sub_diag. reflexivity.
    + cbn [app]. destruct (Nat.ltb_spec c k); destruct (Nat.ltb_spec c (S k)); try lia; [reflexivity|].
      replace (c - k) with (S (c - S k)) by lia. reflexivity.
Qed.
Lemma below_children0 {T} (f : T -> list (list nat)) c p cs :
  below (c :: p) (number_children f 0 cs) = match nth_error cs c with Some t => below p (f t) | None => [] end.
Proof. rewrite below_children, Nat.sub_0_r. reflexivity. Qed.

(** ** Nodes *)
Definition M (n : node) : ent -> list nat -> res (list nat) := match n with NO o => mapIndex o | NL ents t => map_local ents t end.
Definition LP (n : node) : list (list nat) := match n with NO o => leaf_paths o | NL _ t => lleaf_paths t end.
Definition node_path (n : node) (p : list nat) := match n with NO o => ordering_path o p | NL _ t => local_path t p end.

Definition run (nodes : list node) (depth : nat) (ls : list nat) (ds : list dof) : res (nat * list (list nat)) :=
  match rev nodes with
  | [] => UB
  | target :: anc => let* (_, _, out) := target_batch depth target ls ds in foldM (in_ancestor ds) anc (depth, out)
  end.
Lemma foldM_app {S A} (f : S -> A -> res S) l : forall l' s, foldM f (l ++ l') s = let* s' := foldM f l s in foldM f l' s'.
Proof. induction l as [|a l IH]; intros l' s; [reflexivity|]. cbn [app foldM]. destruct (f s a); cbn [bind]; auto. Qed.
Lemma run_cons n nodes depth ls ds : nodes <> [] -> run (n :: nodes) depth ls ds = let* s := run nodes depth ls ds in in_ancestor ds s n.
Proof.
  intros H. unfold run. cbn [rev]. destruct (rev nodes) as [|m anc] eqn:E.
  - apply (f_equal (@rev _)) in E. rewrite rev_involutive in E. cbn in E. congruence.
  - cbn [app]. destruct (target_batch depth m ls ds) as [((u, v), out)| |]; cbn [bind]; try reflexivity. rewrite foldM_app.
    destruct (foldM (in_ancestor ds) anc (depth, out)) as [s| |]; cbn [bind]; try reflexivity. cbn [foldM].
    destruct (in_ancestor ds s n); reflexivity.
Qed.
Lemma trace_nonempty p : forall n nodes, trace n p = Some nodes -> nodes <> [].
Proof.
  destruct p as [|c p]; intros n nodes H; cbn [trace] in H; [injection H as <-; discriminate|].
  destruct (child n c) as [m|]; [|discriminate]. destruct (trace m p); [|discriminate]. injection H as <-. discriminate.
Qed.

(** What running the visitor at the target and the levels above it, up to the node [n], gives. *)
Definition good (n : node) (pi : list nat) (nodes : list node) : Prop := forall tail groups,
  Forall2 (grp (M n) tail) (map (app pi) (below pi (LP n))) groups ->
  exists out, run nodes (tail + length pi) (map (@length dof) groups) (concat groups) = Ok (tail, out) /\
    Forall2 (fun d ci => M n (fst d) (skipn tail (snd d)) = Ok ci) (concat groups) out.

Lemma map_app_nil (l : list (list nat)) : map (app []) l = l. Proof. rewrite <- (map_id l) at 2. apply map_ext. reflexivity. Qed.
Lemma good_target n : good n [] [n].
Proof.
  intros tail groups H. rewrite below_nil, map_app_nil in H. unfold run. cbn [rev app]. rewrite Nat.add_0_r.
  assert (R : result_ok (M n) tail groups [] [] (target_batch tail n (map (@length dof) groups) (concat groups))).
  { rewrite <- (app_nil_r (map _ _)), <- (app_nil_r (concat groups)). destruct n as [o|ents t]; [apply batch_ok|apply lbatch_ok]; exact H. }
  destruct R as (out & -> & F). cbn [bind foldM]. eauto.
Qed.

Lemma in_group (Mm : ent -> list nat -> res (list nat)) tail qs groups d : Forall2 (grp Mm tail) qs groups -> In d (concat groups) ->
  exists q i ci, In q qs /\ skipn tail (snd d) = q ++ [i] /\ Mm (fst d) (skipn tail (snd d)) = Ok ci.
Proof.
  intros H I. apply in_concat in I. destruct I as (g & Hg & I). apply In_nth_error in Hg. destruct Hg as (j & Ej).
  destruct (Forall2_nth_error _ _ _ _ _ H Ej) as (q & Eq & Hq). destruct (Hq d I) as (i & ci & E & Em).
  exists q, i, ci. split; [eapply nth_error_In; eauto|auto].
Qed.

(** A level that consumes an entry of the tree index *)
Lemma good_consume n m c pi nodes : consumes n = true -> nodes <> [] ->
  below (c :: pi) (LP n) = below pi (LP m) ->
  (forall en p x, M n en (c :: p) = Ok x -> exists y, M m en p = Ok y) ->
  (forall tail d ci x, skipn tail (snd d) = c :: skipn (S tail) (snd d) -> M m (fst d) (skipn (S tail) (snd d)) = Ok ci ->
     M n (fst d) (c :: skipn (S tail) (snd d)) = Ok x -> level tail n d ci = Ok x) ->
  good m pi nodes -> good n (c :: pi) (n :: nodes).
Proof.
  intros Hc Hn HB HM HL G tail groups H. rewrite HB in H. rewrite run_cons by exact Hn.
  destruct (G (S tail) groups) as (out & E & F).
  { clear - H HM. remember (map (app (c :: pi)) (below pi (LP m))) as l eqn:El. revert El. generalize (below pi (LP m)).
    induction H as [|q g l gs Hq H IH]; intros l0 El; (destruct l0 as [|q0 l0]; [try discriminate|try discriminate]); [constructor|].
    injection El as -> El. cbn [map]. constructor; [|apply IH, El]. intros d Hd. destruct (Hq d Hd) as (i & ci & E & Em). cbn [app] in E.
    pose proof (skipn_S _ _ _ _ E) as E'. rewrite E in Em. destruct (HM _ _ _ Em) as (y & Ey). exists i, y. rewrite E'. auto. }
  replace (tail + length (c :: pi)) with (S tail + length pi) by (cbn [length]; lia). rewrite E. cbn [bind]. unfold in_ancestor. cbn [fst snd]. rewrite Hc.
  replace (S tail - 1) with tail by lia.
  edestruct (zipM_ok (level tail n) _ (fun d ci => M n (fst d) (skipn tail (snd d)) = Ok ci) _ _ F) as (out' & E' & F').
  - intros d ci Hd Em. destruct (in_group _ _ _ _ _ H Hd) as (q & i & x & Hq & Es & Ex). apply in_map_iff in Hq. destruct Hq as (q0 & <- & _).
    cbn [app] in Es. pose proof (skipn_S _ _ _ _ Es) as Es'. exists x. split; [|exact Ex]. eapply HL; [|exact Em|].
    + rewrite Es, Es'. reflexivity.
    + rewrite Es', <- Es. exact Ex.
  - rewrite E'. cbn [bind]. eauto.
Qed.
(** A level that does not *)
Lemma good_keep n m pi nodes : consumes n = false -> nodes <> [] ->
  LP n = LP m ->
  (forall en p x, M n en p = Ok x -> exists y, M m en p = Ok y) ->
  (forall tail d p ci x, M m (fst d) p = Ok ci -> M n (fst d) p = Ok x -> level tail n d ci = Ok x) ->
  good m pi nodes -> good n pi (n :: nodes).
Proof.
  intros Hc Hn HB HM HL G tail groups H. rewrite HB in H. rewrite run_cons by exact Hn.
  destruct (G tail groups) as (out & E & F); [eapply grp_mono; eauto|].
  rewrite E. cbn [bind]. unfold in_ancestor. cbn [fst snd]. rewrite Hc.
  edestruct (zipM_ok (level tail n) _ (fun d ci => M n (fst d) (skipn tail (snd d)) = Ok ci) _ _ F) as (out' & E' & F').
  - intros d ci Hd Em. destruct (in_group _ _ _ _ _ H Hd) as (q & i & x & Hq & Es & Ex). exists x. split; [|exact Ex]. eapply HL; eauto.
  - rewrite E'. cbn [bind]. eauto.
Qed.

Lemma local_good ents t : forall pi p, local_path t pi = Some p -> exists nodes, trace (NL ents t) p = Some nodes /\ good (NL ents t) pi nodes.
Proof.
  induction t as [s|b cs IH] using ltree_ind'; intros pi p H; destruct pi as [|c pi]; cbn [local_path] in H;
    try (injection H as <-; eexists; split; [reflexivity|apply good_target]); [discriminate|].
  rewrite nth_error_map in H. destruct (nth_error cs c) as [t|] eqn:Ec; [|discriminate]. cbn [option_map] in H.
  destruct (local_path t pi) as [p'|] eqn:Ep; [|discriminate]. injection H as <-.
  rewrite Forall_forall in IH. destruct (IH t (nth_error_In _ _ Ec) _ _ Ep) as (nodes & E & G).
  exists (NL ents (LNode b cs) :: nodes). split; [cbn [trace child]; rewrite Ec; cbn [option_map]; rewrite E; reflexivity|].
  eapply (good_consume _ (NL ents t)); auto.
  - eapply trace_nonempty; eauto.
  - cbn [LP lleaf_paths]. rewrite below_children0, Ec. reflexivity.
  - cbn [M map_local]. intros en q x Hx. rewrite (at_map _ _ _ _ Ec) in Hx. cbn [bind] in Hx. destruct (map_local ents t en q); try discriminate. eauto.
  - cbn [M level]. intros tail d ci x Es Em En. rewrite (view_back_skipn _ _ _ _ Es). cbn [bind].
    cbn [map_local] in En. rewrite (at_map _ _ _ _ Ec) in En. cbn [bind] in En. rewrite Em in En. cbn [bind] in En.
    unfold lnode_lfs. destruct b; auto. unfold local_offset in En. destruct (0 <? c).
    + destruct (forallb lfixed cs); auto. destruct (existsb _ cs); auto. destruct (at_ (node_entity_offsets ents _) (fst (fst d))); auto.
    + cbn in En. destruct ci; [discriminate|]. cbn in En. now rewrite Nat.add_0_r in En.
Qed.
Lemma lleaf_disable t : lleaf_paths (disable_blocking t) = lleaf_paths t. Proof. now destruct t. Qed.
Lemma ord_good o : forall pi p, ordering_path o pi = Some p -> exists nodes, trace (NO o) p = Some nodes /\ good (NO o) pi nodes.
Proof.
  induction o as [b s|b ents t|b cs IH|b m cs IH|bs o IH|perm o IH] using ord_ind'; intros pi p H; destruct pi as [|c pi]; cbn [ordering_path] in H;
    try (injection H as <-; eexists; split; [reflexivity|apply good_target]); [discriminate| | | | |].
  - destruct (local_path (disable_blocking t) (c :: pi)) as [p'|] eqn:Ep; [|discriminate]. injection H as <-.
    destruct (local_good ents _ _ _ Ep) as (nodes & E & G). exists (NO (OGV b ents t) :: nodes).
    split; [cbn [trace child Nat.eqb]; rewrite E; reflexivity|]. eapply (good_keep _ (NL ents (disable_blocking t))); auto.
    + eapply trace_nonempty; eauto.
    + cbn [LP leaf_paths]. symmetry. apply lleaf_disable.
    + cbn [M mapIndex]. intros [gt e] q x Hx. unfold gv_map in Hx. destruct (map_local ents (disable_blocking t) (gt, e) q); try discriminate. eauto.
    + cbn [M level mapIndex]. intros tail d q ci x Em En. unfold gv_map in En. unfold gv_lfs. destruct (fst d) as [gt e].
      rewrite Em in En. cbn [bind] in En. auto.
  - rewrite nth_error_map in H. destruct (nth_error cs c) as [t|] eqn:Ec; [|discriminate]. cbn [option_map] in H.
    destruct (ordering_path t pi) as [p'|] eqn:Ep; [|discriminate]. injection H as <-.
    rewrite Forall_forall in IH. destruct (IH t (nth_error_In _ _ Ec) _ _ Ep) as (nodes & E & G).
    exists (NO (OLex b cs) :: nodes). split; [cbn [trace child]; rewrite Ec; cbn [option_map]; rewrite E; reflexivity|].
    eapply (good_consume _ (NO t)); auto.
    + eapply trace_nonempty; eauto.
    + cbn [LP leaf_paths]. rewrite below_children0, Ec. reflexivity.
    + cbn [M mapIndex]. intros en q x Hx. rewrite (at_map _ _ _ _ Ec) in Hx. cbn [bind] in Hx. destruct (mapIndex t en q); try discriminate. eauto.
    + cbn [M level]. intros tail d ci x Es Em En. rewrite (view_back_skipn _ _ _ _ Es). cbn [bind].
      cbn [mapIndex] in En. rewrite (at_map _ _ _ _ Ec) in En. cbn [bind] in En. rewrite Em in En. exact En.
  - rewrite nth_error_map in H. destruct (nth_error cs c) as [t|] eqn:Ec; [|discriminate]. cbn [option_map] in H.
    destruct (ordering_path t pi) as [p'|] eqn:Ep; [|discriminate]. injection H as <-.
    rewrite Forall_forall in IH. destruct (IH t (nth_error_In _ _ Ec) _ _ Ep) as (nodes & E & G).
    exists (NO (OInter b m cs) :: nodes). split; [cbn [trace child]; rewrite Ec; cbn [option_map]; rewrite E; reflexivity|].
    eapply (good_consume _ (NO t)); auto.
    + eapply trace_nonempty; eauto.
    + cbn [LP leaf_paths]. rewrite below_children0, Ec. reflexivity.
    + cbn [M mapIndex]. intros en q x Hx. rewrite (at_map _ _ _ _ Ec) in Hx. cbn [bind] in Hx. destruct (mapIndex t en q); try discriminate. eauto.
    + cbn [M level]. intros tail d ci x Es Em En. rewrite (view_back_skipn _ _ _ _ Es). cbn [bind].
      cbn [mapIndex] in En. rewrite (at_map _ _ _ _ Ec) in En. cbn [bind] in En. rewrite Em in En. exact En.
  - destruct (ordering_path o (c :: pi)) as [p'|] eqn:Ep; [|discriminate]. injection H as <-.
    destruct (IH _ _ Ep) as (nodes & E & G). exists (NO (OChunk bs o) :: nodes).
    split; [cbn [trace child Nat.eqb]; rewrite E; reflexivity|]. eapply (good_keep _ (NO o)); auto.
    + eapply trace_nonempty; eauto.
    + cbn [M mapIndex]. intros en q x Hx. destruct (mapIndex o en q); try discriminate. eauto.
    + cbn [M level mapIndex]. intros tail d q ci x Em En. rewrite Em in En. exact En.
  - destruct (ordering_path o (c :: pi)) as [p'|] eqn:Ep; [|discriminate]. injection H as <-.
    destruct (IH _ _ Ep) as (nodes & E & G). exists (NO (OPerm perm o) :: nodes).
    split; [cbn [trace child Nat.eqb]; rewrite E; reflexivity|]. eapply (good_keep _ (NO o)); auto.
    + eapply trace_nonempty; eauto.
    + cbn [M mapIndex]. intros en q x Hx. destruct (mapIndex o en q); try discriminate. eauto.
    + cbn [M level mapIndex]. intros tail d q ci x Em En. rewrite Em in En. exact En.
Qed.

(** The path exists whenever the space has a leaf below it. *)
Lemma local_path_exists t : forall pi, below pi (lleaf_paths t) <> [] -> exists p, local_path t pi = Some p.
Proof.
  induction t as [s|b cs IH] using ltree_ind'; intros [|c pi] H; cbn [local_path]; eauto; [destruct H; reflexivity|].
  cbn [lleaf_paths] in H. rewrite below_children0 in H. rewrite nth_error_map. destruct (nth_error cs c) as [t|] eqn:Ec; [|destruct H; reflexivity].
  rewrite Forall_forall in IH. destruct (IH t (nth_error_In _ _ Ec) _ H) as (p & E). cbn [option_map]. rewrite E. cbn. eauto.
Qed.
Lemma ordering_path_exists o : forall pi, below pi (leaf_paths o) <> [] -> exists p, ordering_path o pi = Some p.
Proof.
  induction o as [b s|b ents t|b cs IH|b m cs IH|bs o IH|perm o IH] using ord_ind'; intros [|c pi] H; cbn [ordering_path]; eauto.
  - destruct H; reflexivity.
  - cbn [leaf_paths] in H. rewrite <- lleaf_disable in H. destruct (local_path_exists _ _ H) as (p & ->). cbn. eauto.
  - cbn [leaf_paths] in H. rewrite below_children0 in H. rewrite nth_error_map. destruct (nth_error cs c) as [t|] eqn:Ec; [|destruct H; reflexivity].
    rewrite Forall_forall in IH. destruct (IH t (nth_error_In _ _ Ec) _ H) as (p & E). cbn [option_map]. rewrite E. cbn. eauto.
  - cbn [leaf_paths] in H. rewrite below_children0 in H. rewrite nth_error_map. destruct (nth_error cs c) as [t|] eqn:Ec; [|destruct H; reflexivity].
    rewrite Forall_forall in IH. destruct (IH t (nth_error_In _ _ Ec) _ H) as (p & E). cbn [option_map]. rewrite E. cbn. eauto.
  - destruct (IH _ H) as (p & ->). cbn. eauto.
  - destruct (IH _ H) as (p & ->). cbn. eauto.
Qed.

Lemma container_indices o pi groups : below pi (leaf_paths o) <> [] ->
  Forall2 (fun q g => forall d, In d g -> exists i ci, snd d = pi ++ q ++ [i] /\ mapIndex o (fst d) (snd d) = Ok ci) (below pi (leaf_paths o)) groups ->
  exists p out, ordering_path o pi = Some p /\ sub_map o p (length pi) (map (@length dof) groups) (concat groups) = Ok out /\
    Forall2 (fun d ci => mapIndex o (fst d) (snd d) = Ok ci) (concat groups) out.
Proof.
  intros NE H. destruct (ordering_path_exists _ _ NE) as (p & E). destruct (ord_good _ _ _ E) as (nodes & T & G).
  destruct (G 0 groups) as (out & R & F).
  { cbn [M LP]. clear - H. induction H as [|q g l gs Hq H IH]; cbn [map]; constructor; auto.
    intros d Hd. destruct (Hq d Hd) as (i & ci & E1 & E2). exists i, ci. cbn [skipn]. rewrite <- app_assoc. auto. }
  exists p, out. split; [exact E|]. split; [|exact F]. unfold sub_map. rewrite T. unfold run in R. cbn [Nat.add] in R.
  destruct (rev nodes) as [|target anc]; [discriminate|]. destruct (target_batch _ _ _ _) as [((u, v), w)| |]; cbn [bind] in *; try discriminate.
  change (bind (foldM (in_ancestor (@concat dof groups)) anc (length pi, w)) (fun x => let (_, out0) := x in Ok out0) = Ok out). unfold dof in *. rewrite R. reflexivity.
Qed.
