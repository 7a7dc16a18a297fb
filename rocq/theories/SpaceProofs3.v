(** Histories of grid function spaces: the sizes after an update, and how long they last. *)
From Verif Require Import Common CommonFacts SpaceModel SpaceSpec SpaceProofs SpaceProofs2.

Lemma in_map_fst {A B} (j : A) (v : B) l : In (j, v) l -> In j (map fst l).
Proof. intros H. apply in_map_iff. exists (j, v). split; [reflexivity|assumption]. Qed.

Lemma update_ordering_up_to_date dim w k o w' :
  inv w -> k < w_n w -> w_ord w k = Some o -> (forall s, In s (leaf_sets (w_tree w k)) -> good (w_grid w) (w_sets w s)) ->
  update_ordering dim w k o = (w', Done) -> up_to_date dim w' k.
Proof.
  intros I Hk Ho G E. destruct (update_ordering_spec _ _ _ _ _ _ E) as (Eg & _ & En & Et & Eo & _ & _ & _ & _ & _ & ED).
  destruct (ED eq_refl) as (D & _ & U). clear ED. destruct I as [I1 I2 I3 I4 I5].
  destruct (I3 k o Hk Ho) as [_ C]. pose proof (oupdate_spec dim (w_grid w) (w_tree w k) (w_otree w o) (w_sets w) C G) as P.
  rewrite U in P. destruct P as [_ P]. destruct (P eq_refl) as (Z & W1 & W2 & W3). clear P.
  set (T := w_tree w k) in *. set (g := w_grid w) in *. rewrite Z in D. cbn [o_size o_max] in D.
  assert (Sub : forall t, In t (free T) -> root_id t < w_n w /\ w_tree w (root_id t) = t).
  { intros t Ht. apply free_members, below_members in Ht as [->|Ht].
    - unfold T. rewrite I1 by assumption. auto.
    - destruct (I2 k t Hk Ht) as (Q1 & Q2 & _). split; [lia|assumption]. }
  assert (Val : forall t, In t (free T) -> ~ In (root_id t) (enclosed T) ->
    d_avail (w_data w' (root_id t)) = true /\ d_size (w_data w' (root_id t)) = dimension dim g t /\ d_blocks (w_data w' (root_id t)) = blocks dim g t).
  { intros t Ht Hn. rewrite D. apply writes_value.
    - intros v Hv. destruct (W1 _ _ Hv) as [[_ Q]|(t' & Ht' & Er & ->)]; [contradiction|].
      destruct (Sub t Ht) as [_ <-]. destruct (Sub t' Ht') as [_ Q]. rewrite Er in Q. rewrite Q. reflexivity.
    - left. eapply in_map_fst, W2, Ht. }
  assert (Glo : forall j, In j (map root_id (free T) ++ enclosed T) -> written (dimension dim g T) (shapes T) (w_data w' j)).
  { intros j Hj. rewrite D. apply writes_written. left. apply in_app_or in Hj as [Hj|Hj].
    - apply in_map_iff in Hj as (t & <- & Ht). eapply in_map_fst, W2, Ht.
    - eapply in_map_fst, W3, Hj. }
  assert (Self : In T (free T)) by (destruct T; left; reflexivity).
  assert (Tid : root_id T = k) by (apply I1, Hk).
  assert (Nenc : ~ In k (enclosed T)).
  { intros Q. apply enclosed_below in Q as (t & Ht & Er). destruct (I2 k t Hk Ht) as (Q & _). lia. }
  assert (Vals : forall t, In t (free T) -> ~ In (root_id t) (enclosed T) ->
    size w' (root_id t) = Ok (dimension dim g t) /\ blockCount w' (root_id t) = Ok (blocks dim g t)).
  { intros t Ht Hn. destruct (Val t Ht Hn) as (Q1 & Q2 & Q3). destruct (Glo (root_id t)) as (Q4 & _ & _).
    { apply in_or_app. left. apply in_map, Ht. }
    unfold size, blockCount. rewrite Q1, Q2, Q3, Q4. split; reflexivity. }
  constructor; rewrite ?Et, ?Eg; fold T; fold g.
  - destruct (Vals T Self) as [Q _]; [rewrite Tid; exact Nenc|]. rewrite Tid in Q. exact Q.
  - destruct (Vals T Self) as [_ Q]; [rewrite Tid; exact Nenc|]. rewrite Tid in Q. exact Q.
  - unfold ordering_size. rewrite Eo, Ho, Z. reflexivity.
  - exact Vals.
  - intros j Hj Hf. assert (A : d_avail (w_data w' j) = false).
    { rewrite D. apply writes_none; [|left; eapply in_map_fst, W3, Hj].
      intros v Hv. destruct (W1 _ _ Hv) as [[Q _]|(t' & Ht' & Er & _)]; [exact Q|exfalso; exact (Hf t' Ht' Er)]. }
    unfold size, blockCount. rewrite A. destruct (d_init (w_data w' j)); split; reflexivity.
  - intros j Hj. destruct (Glo j Hj) as (Q1 & Q2 & Q3). unfold globalSize, maxLocalSize. rewrite Q1, Q2, Q3. split; reflexivity.
Qed.

Lemma update_up_to_date dim w k f w' :
  inv w -> k < w_n w -> f = true \/ (forall s, good (w_grid w) (w_sets w s)) -> update dim w k f = (w', Done) -> up_to_date dim w' k.
Proof.
  intros I Hk Hf. unfold update. set (Ss := snd (fold_left _ _ _)).
  assert (G : forall s, In s (leaf_sets (w_tree w k)) -> good (w_grid w) (Ss s)).
  { intros s Hs. subst Ss. apply visit_good; [|left; exact Hs]. destruct Hf as [->|Hf].
    - right. split; [reflexivity|]. rewrite put_same. apply good_update_force.
    - left. intros x _. apply put_good; [exact Hf|apply good_update, Hf]. }
  clearbody Ss. cbn [set_sets w_ord w_nords]. destruct (w_ord w k) as [o|] eqn:Eo.
  - apply (update_ordering_up_to_date dim (set_sets w Ss)); [apply inv_sets, I|exact Hk|exact Eo|exact G].
  - destruct (create (w_tree w k)) as [ot|] eqn:C; [|discriminate].
    apply (update_ordering_up_to_date dim (add_ord (set_sets w Ss) k ot)); [|exact Hk|cbn; apply put_same|exact G].
    apply inv_add_ord; [apply inv_sets, I|exact Hk|exact Eo|exact C].
Qed.

(** ** Success and refusal *)
Lemma common_set_some l s : (forall x, In x l -> x = s) -> l <> [] -> common_set l = Some s.
Proof.
  intros H Hn. destruct l as [|a l]; [congruence|]. cbn. rewrite (H a (or_introl eq_refl)).
  assert (F : forallb (Nat.eqb s) l = true) by (apply forallb_forall; intros x Hx; apply Nat.eqb_eq; symmetry; apply H; right; exact Hx).
  now rewrite F.
Qed.

(** Every node has a child. *)
Fixpoint filled (t : stree) : Prop :=
  match t with SLeaf _ _ _ _ => True | SNode _ _ cs => cs <> [] /\ fold_right (fun t P => filled t /\ P) True cs end.
Lemma filled_leaf_sets t : filled t -> leaf_sets t <> [].
Proof.
  induction t as [id es f b|id k cs IH] using stree_ind'; cbn; [discriminate|]. intros [Hn H]. destruct cs as [|c cs]; [congruence|].
  inversion IH; subst. cbn in *. destruct H as [H _]. specialize (H2 H). destruct (leaf_sets c); [congruence|discriminate].
Qed.
Lemma fold_and {A} (P : A -> Prop) l : fold_right (fun a Q => P a /\ Q) True l <-> forall a, In a l -> P a.
Proof.
  induction l as [|a l IH]; cbn; [tauto|]. rewrite IH. split; [intros [H1 H2] b [<-|Hb]; auto|intros H; split; [apply H; left; reflexivity|intros b Hb; apply H; right; exact Hb]].
Qed.

Lemma create_consistent t : filled t -> consistent t -> exists o, create t = Some o.
Proof.
  induction t as [id es f b|id k cs IH] using stree_ind'; intros F C; [eexists; reflexivity|]. cbn [filled] in F. destruct F as [Hn F].
  rewrite fold_and in F. rewrite Forall_forall in IH.
  assert (A : forall (Hc : forall t, In t cs -> consistent t), exists os, all_some (map create cs) = Some os).
  { clear C Hn. induction cs as [|c cs IH2]; intros Hc; [exists []; reflexivity|].
    destruct (IH c (or_introl eq_refl) (F c (or_introl eq_refl)) (Hc c (or_introl eq_refl))) as [o Eo].
    destruct IH2 as [os Es]; try (intros; first [apply IH|apply F|apply Hc]; auto; right; assumption).
    exists (o :: os). cbn. now rewrite Eo, Es. }
  destruct k as [b|b m|b]; cbn [consistent] in C; cbn [create].
  - rewrite fold_and in C. destruct (A C) as [os ->]. eauto.
  - rewrite fold_and in C. destruct (A C) as [os ->]. eauto.
  - destruct C as [s Hs]. rewrite (common_set_some _ s Hs); [eauto|].
    destruct cs as [|c cs]; [congruence|]. cbn. pose proof (filled_leaf_sets c (F c (or_introl eq_refl))).
    destruct (leaf_sets c); [congruence|discriminate].
Qed.
Lemma create_inconsistent t o : create t = Some o -> consistent t.
Proof.
  revert o. induction t as [id es f b|id k cs IH] using stree_ind'; intros o C; [exact I|]. rewrite Forall_forall in IH.
  assert (A : forall os, all_some (map create cs) = Some os -> forall t, In t cs -> consistent t).
  { intros os Es t Ht. apply all_some_map in Es. destruct (Forall2_in_l _ _ _ _ Es Ht) as (b & _ & E). eauto. }
  destruct k as [b|b m|b]; cbn [consistent]; cbn [create] in C.
  - rewrite fold_and. destruct (all_some (map create cs)) eqn:E; [|discriminate]. eauto.
  - rewrite fold_and. destruct (all_some (map create cs)) eqn:E; [|discriminate]. eauto.
  - destruct (common_set _) as [s|] eqn:E; [|discriminate]. apply common_set_spec in E as [E _]. eauto.
Qed.

Lemma oupdate_succeeds dim g t : forall o Ss, not_interleaved t -> create t = Some (blank o) -> snd (oupdate dim g o Ss) = true.
Proof.
  induction t as [id es f b|id k cs IH] using stree_ind'; intros o Ss N C.
  - cbn in C. destruct o; try discriminate C. reflexivity.
  - rewrite Forall_forall in IH.
    assert (EB : (exists b, k = EntityBlocked b) \/ forall b, k <> EntityBlocked b) by (destruct k; [right|right|left]; eauto; discriminate).
    destruct EB as [[b ->]|Hk].
    + cbn [create] in C. destruct (common_set _); [|discriminate]. destruct o; try discriminate C. reflexivity.
    + destruct (create_node _ _ _ _ Hk C) as (os & F & Eo). destruct o as [| |id' k' cs' z]; try discriminate Eo. cbn in Eo. injection Eo as -> -> <-.
      assert (N' : forall t, In t cs -> not_interleaved t).
      { destruct k as [b|[|] m|b]; cbn [not_interleaved] in N; [rewrite fold_and in N; exact N|destruct N|rewrite fold_and in N; exact N|exfalso; exact (Hk b eq_refl)]. }
      assert (CH : forall Ss, snd (upd_children (oupdate dim g) cs' Ss) = true).
      { clear C N Hk Ss z. revert cs' F. induction cs as [|c cs IH2]; intros [|c' cs'] F Ss; cbn [map] in F; inversion F; subst; [reflexivity|].
        rewrite upd_children_cons. pose proof (IH c (or_introl eq_refl) c' Ss (N' c (or_introl eq_refl)) ltac:(assumption)) as Q.
        destruct (oupdate dim g c' Ss) as [[c1 S1] ok]. cbn in Q. subst ok.
        assert (R : snd (upd_children (oupdate dim g) cs' S1) = true).
        { apply IH2; [intros t Ht; apply IH; right; exact Ht|intros t Ht; apply N'; right; exact Ht|assumption]. }
        destruct (upd_children (oupdate dim g) cs' S1) as [[cs1 S2] ok2]. exact R. }
      cbn [oupdate]. specialize (CH Ss). destruct (upd_children (oupdate dim g) cs' Ss) as [[cs1 S1] ok]. cbn in CH. subst ok.
      destruct k as [[|]|[|] m|b]; try reflexivity; destruct N.
Qed.

(** ** Invariants that hold in every history, copies included *)
Definition shaped (w : world) : Prop := forall k, k < w_n w -> filled (w_tree w k).
Lemma shaped_same w w' : w_n w' = w_n w -> w_tree w' = w_tree w -> shaped w -> shaped w'.
Proof. intros E1 E2 H k. rewrite E1, E2. apply H. Qed.
Lemma update_n_tree dim w k f : w_n (fst (update dim w k f)) = w_n w /\ w_tree (fst (update dim w k f)) = w_tree w.
Proof.
  unfold update. set (Ss := snd (fold_left _ _ _)). clearbody Ss. cbn [set_sets w_ord w_nords]. destruct (w_ord w k) as [o|].
  - destruct (update_ordering dim (set_sets w Ss) k o) as [w' r] eqn:E. apply update_ordering_spec in E. cbn in *. tauto.
  - destruct (create (w_tree w k)) as [ot|]; [|split; reflexivity].
    destruct (update_ordering dim (add_ord (set_sets w Ss) k ot) k (w_nords w)) as [w' r] eqn:E. apply update_ordering_spec in E. cbn in *. tauto.
Qed.
Lemma ordering_n_tree dim w k : w_n (fst (ordering dim w k)) = w_n w /\ w_tree (fst (ordering dim w k)) = w_tree w.
Proof.
  unfold ordering. destruct (negb _); [split; reflexivity|]. destruct (w_ord w k) as [o|]; [split; reflexivity|].
  destruct (create (w_tree w k)) as [ot|]; [|split; reflexivity].
  destruct (update_ordering dim (add_ord w k ot) k (w_nords w)) as [w' r] eqn:E. apply update_ordering_spec in E. cbn in *. tauto.
Qed.
Lemma retitle_filled n t : filled t -> filled (retitle n t).
Proof. destruct t; exact (fun H => H). Qed.

Lemma step_shaped dim w o : shaped w -> shaped (fst (step dim w o)).
Proof.
  intros H. destruct o as [mask init|s c|s c|s|s force|g|es f b|k c cs|c|k force|k]; cbn [step].
  - exact H.
  - destruct (s <? w_nsets w); exact H.
  - destruct (s <? w_nsets w); exact H.
  - destruct (s <? w_nsets w); exact H.
  - destruct (s <? w_nsets w); exact H.
  - exact H.
  - destruct (es <? w_nsets w); [|exact H]. intros k Hk. cbn in *. destruct (Nat.eq_dec k (w_n w)) as [->|Hn]; [rewrite put_same; exact I|rewrite put_other by assumption; apply H; lia].
  - destruct (forallb (fun c => c <? w_n w) (c :: cs)) eqn:F; [|exact H].
    assert (F' : forall j, In j (c :: cs) -> j < w_n w) by (intros j Hj; rewrite forallb_forall in F; apply Nat.ltb_lt, F, Hj).
    destruct (adopt _ _) as [D ok]. destruct ok; [|exact H]. intros j Hj. cbn [fst add_space set_data w_n w_tree] in *.
    destruct (Nat.eq_dec j (w_n w)) as [->|Hn]; [rewrite put_same|rewrite put_other by assumption; apply H; lia].
    cbn [filled map]. split; [discriminate|]. apply (fold_and filled (w_tree w c :: map (w_tree w) cs)). intros t Ht.
    change (w_tree w c :: map (w_tree w) cs) with (map (w_tree w) (c :: cs)) in Ht. apply in_map_iff in Ht as (i & <- & Hi). apply H, F', Hi.
  - destruct (Nat.ltb_spec c (w_n w)); [|exact H]. intros k Hk. cbn in *.
    destruct (Nat.eq_dec k (w_n w)) as [->|Hn]; [rewrite put_same; apply retitle_filled, H; assumption|rewrite put_other by assumption; apply H; lia].
  - destruct (k <? w_n w); [|exact H]. destruct (update_n_tree dim w k force). eapply shaped_same; eauto.
  - destruct (k <? w_n w); [|exact H]. destruct (ordering_n_tree dim w k). eapply shaped_same; eauto.
Qed.
Lemma run_shaped dim g ops : shaped (run dim ops (start g)).
Proof.
  induction ops as [|o ops IH] using rev_ind; [intros k Hk; cbn in Hk; lia|]. rewrite run_snoc. apply step_shaped, IH.
Qed.

(** ** What a step can do to the data of a space *)
Lemma update_data dim w k f :
  (snd (update dim w k f) <> Done -> w_data (fst (update dim w k f)) = w_data w) /\
  (forall j, d_root (w_data (fst (update dim w k f)) j) = d_root (w_data w j)) /\
  (forall j, d_init (w_data w j) = true -> d_init (w_data (fst (update dim w k f)) j) = true) /\
  (d_root (w_data w k) = false -> snd (update dim w k f) = Threw).
Proof.
  unfold update. set (Ss := snd (fold_left _ _ _)). clearbody Ss. cbn [set_sets w_ord w_nords].
  assert (U : forall w0 o, w_data w0 = w_data w -> 
    (snd (update_ordering dim w0 k o) <> Done -> w_data (fst (update_ordering dim w0 k o)) = w_data w) /\
    (forall j, d_root (w_data (fst (update_ordering dim w0 k o)) j) = d_root (w_data w j)) /\
    (forall j, d_init (w_data w j) = true -> d_init (w_data (fst (update_ordering dim w0 k o)) j) = true) /\
    (d_root (w_data w k) = false -> snd (update_ordering dim w0 k o) = Threw)).
  { intros w0 o E0. destruct (update_ordering dim w0 k o) as [w' r] eqn:E.
    destruct (update_ordering_spec _ _ _ _ _ _ E) as (_ & _ & _ & _ & _ & _ & _ & _ & R & T & D). rewrite E0 in T, D. cbn [fst snd].
    destruct R as [->| ->].
    - destruct (D eq_refl) as (-> & Rk & _). split; [congruence|]. split; [intros j; apply writes_root|]. split; [intros j; apply writes_init_keep|congruence].
    - rewrite (T eq_refl). auto. }
  destruct (w_ord w k) as [o|]; [apply U; reflexivity|]. destruct (create (w_tree w k)) as [ot|]; [apply U; reflexivity|].
  cbn. auto.
Qed.
Lemma ordering_data dim w k :
  (snd (ordering dim w k) <> Done -> w_data (fst (ordering dim w k)) = w_data w) /\
  (forall j, d_root (w_data (fst (ordering dim w k)) j) = d_root (w_data w j)) /\
  (forall j, d_init (w_data w j) = true -> d_init (w_data (fst (ordering dim w k)) j) = true) /\
  (d_root (w_data w k) = false -> snd (ordering dim w k) = Threw).
Proof.
  unfold ordering. destruct (d_root (w_data w k)) eqn:Rk; cbn [negb]; [|cbn; auto].
  destruct (w_ord w k) as [o|]; [cbn; split; [auto|split; [auto|split; [auto|congruence]]]|].
  destruct (create (w_tree w k)) as [ot|]; [|cbn; split; [auto|split; [auto|split; [auto|congruence]]]].
  destruct (update_ordering dim (add_ord w k ot) k (w_nords w)) as [w' r] eqn:E.
  destruct (update_ordering_spec _ _ _ _ _ _ E) as (_ & _ & _ & _ & _ & _ & _ & _ & R & T & D). cbn [add_ord w_data] in T, D. cbn [fst snd].
  destruct R as [->| ->].
  - destruct (D eq_refl) as (-> & _ & _). split; [congruence|]. split; [intros j; apply writes_root|]. split; [intros j; apply writes_init_keep|congruence].
  - rewrite (T eq_refl). split; [auto|split; [auto|split; [auto|congruence]]].
Qed.

Lemma step_root dim w o k : k < w_n w ->
  k < w_n (fst (step dim w o)) /\
  (d_root (w_data w k) = false -> d_root (w_data (fst (step dim w o)) k) = false) /\
  (d_root (w_data w k) = true -> d_root (w_data (fst (step dim w o)) k) = false -> exists kd c cs, o = NewNode kd c cs /\ In k (c :: cs)) /\
  (d_init (w_data w k) = true -> d_init (w_data (fst (step dim w o)) k) = true) /\
  (d_init (w_data w k) = true -> d_root (w_data w k) = true -> d_root (w_data (fst (step dim w o)) k) = true).
Proof.
  intros Hk.
  assert (same : forall w', k < w_n w' -> w_data w' k = w_data w k ->
    k < w_n w' /\ (d_root (w_data w k) = false -> d_root (w_data w' k) = false) /\
    (d_root (w_data w k) = true -> d_root (w_data w' k) = false -> exists kd c cs, o = NewNode kd c cs /\ In k (c :: cs)) /\
    (d_init (w_data w k) = true -> d_init (w_data w' k) = true) /\
    (d_init (w_data w k) = true -> d_root (w_data w k) = true -> d_root (w_data w' k) = true)).
  { intros w' L ->. split; [assumption|]. split; [auto|]. split; [congruence|]. auto. }
  destruct o as [mask init|s c|s c|s|s force|g|es f b|kd c cs|c|j force|j]; cbn [step].
  - apply same; auto.
  - destruct (s <? w_nsets w); apply same; auto.
  - destruct (s <? w_nsets w); apply same; auto.
  - destruct (s <? w_nsets w); apply same; auto.
  - destruct (s <? w_nsets w); apply same; auto.
  - apply same; auto.
  - destruct (es <? w_nsets w); [|apply same; auto]. apply same; cbn; [lia|]. apply put_other. lia.
  - destruct (forallb _ _); [|apply same; auto]. destruct (adopt (w_data w) (c :: cs)) as [D ok] eqn:A.
    destruct (adopt_spec _ _ _ _ A) as (A1 & A2 & A3 & A4).
    assert (Q : w_data (fst (if ok then (add_space (set_data w D) (SNode (w_n (set_data w D)) kd (map (w_tree (set_data w D)) (c :: cs))) new_data None, Done) else (set_data w D, Threw))) k = D k).
    { destruct ok; cbn [fst add_space set_data w_data w_n]; [apply put_other; lia|reflexivity]. }
    cbv zeta. rewrite Q. split; [destruct ok; cbn [fst add_space set_data w_n]; lia|]. destruct (A1 k) as [E|[Hin E]]; rewrite E.
    + split; [auto|]. split; [congruence|]. auto.
    + cbn. split; [auto|]. split; [intros _ _; exists kd, c, cs; split; [reflexivity|exact Hin]|]. split; [auto|].
      intros J1 J2. specialize (A2 k J1 J2). rewrite A2 in E. rewrite E in J2. exact J2.
  - destruct (c <? w_n w); [|apply same; auto]. apply same; cbn; [lia|]. apply put_other. lia.
  - destruct (j <? w_n w); [|apply same; auto]. destruct (update_data dim w j force) as (_ & R & J & _). destruct (update_n_tree dim w j force) as [En _].
    rewrite En, R. split; [assumption|]. split; [auto|]. split; [congruence|]. split; [apply J|auto].
  - destruct (j <? w_n w); [|apply same; auto]. destruct (ordering_data dim w j) as (_ & R & J & _). destruct (ordering_n_tree dim w j) as [En _].
    rewrite En, R. split; [assumption|]. split; [auto|]. split; [congruence|]. split; [apply J|auto].
Qed.

Lemma run_root dim ops : forall w k, k < w_n w ->
  k < w_n (run dim ops w) /\
  (d_root (w_data w k) = false -> d_root (w_data (run dim ops w) k) = false) /\
  (d_init (w_data w k) = true -> d_init (w_data (run dim ops w) k) = true) /\
  (d_init (w_data w k) = true -> d_root (w_data w k) = true -> d_root (w_data (run dim ops w) k) = true).
Proof.
  induction ops as [|o ops IH]; intros w k Hk; cbn [run fold_left]; [auto|].
  destruct (step_root dim w o k Hk) as (L & S1 & _ & S3 & S4). destruct (IH (fst (step dim w o)) k L) as (L2 & T1 & T3 & T4).
  split; [exact L2|]. split; [auto|]. split; [auto|]. auto.
Qed.

(** ** Sizes of a root space change only by its own update *)
Lemma update_ordering_data_other dim w j o k :
  inv w -> j < w_n w -> w_ord w j = Some o -> k < w_n w -> k <> j -> d_root (w_data w k) = true ->
  w_data (fst (update_ordering dim w j o)) k = w_data w k.
Proof.
  intros I Hj Ho Hk Hn R. destruct (update_ordering dim w j o) as [w' r] eqn:E. cbn [fst].
  destruct (update_ordering_spec _ _ _ _ _ _ E) as (_ & _ & _ & _ & _ & _ & _ & Eb & [-> | ->] & T & D); [|now rewrite (T eq_refl)].
  destruct (D eq_refl) as (-> & _ & _). apply writes_other. rewrite <- writes_blank, Eb. destruct I as [I1 I2 I3 I4 I5].
  destruct (I3 j o Hj Ho) as [_ C]. intros W. destruct (create_ids _ _ _ C W) as (t & Ht & Et). apply below_members in Ht as [->|Ht].
  - rewrite I1 in Et by assumption. congruence.
  - destruct (I2 j t Hj Ht) as (_ & _ & Q). rewrite Et in Q. congruence.
Qed.

Lemma step_stable dim w o k :
  inv w -> k < w_n w -> d_root (w_data w k) = true -> d_init (w_data w k) = true -> (forall f, o <> Update k f) ->
  w_data (fst (step dim w o)) k = w_data w k.
Proof.
  intros I Hk R J Hu. destruct o as [mask init|s c|s c|s|s force|g|es f b|kd c cs|c|j force|j]; cbn [step].
  - reflexivity.
  - destruct (s <? w_nsets w); reflexivity.
  - destruct (s <? w_nsets w); reflexivity.
  - destruct (s <? w_nsets w); reflexivity.
  - destruct (s <? w_nsets w); reflexivity.
  - reflexivity.
  - destruct (es <? w_nsets w); [|reflexivity]. cbn. apply put_other. lia.
  - destruct (forallb _ _); [|reflexivity]. destruct (adopt (w_data w) (c :: cs)) as [D ok] eqn:A.
    destruct (adopt_spec _ _ _ _ A) as (_ & A2 & _). destruct ok; cbn [fst add_space set_data w_data]; [rewrite put_other by (cbn; lia)|]; apply A2; assumption.
  - destruct (c <? w_n w); [|reflexivity]. cbn. apply put_other. lia.
  - destruct (Nat.ltb_spec j (w_n w)) as [Lj|]; [|reflexivity]. assert (Hn : k <> j) by (intros ->; exact (Hu force eq_refl)).
    unfold update. set (Ss := snd (fold_left _ _ _)). clearbody Ss. cbn [set_sets w_ord w_nords]. destruct (w_ord w j) as [o|] eqn:Eo.
    + apply (update_ordering_data_other dim (set_sets w Ss)); auto. apply inv_sets, I.
    + destruct (create (w_tree w j)) as [ot|] eqn:C; [|reflexivity].
      apply (update_ordering_data_other dim (add_ord (set_sets w Ss) j ot)); auto; [|cbn; apply put_same].
      apply inv_add_ord; [apply inv_sets, I|exact Lj|exact Eo|exact C].
  - destruct (Nat.ltb_spec j (w_n w)) as [Lj|]; [|reflexivity]. unfold ordering. destruct (negb _); [reflexivity|].
    destruct (w_ord w j) as [o|] eqn:Eo; [reflexivity|]. destruct (create (w_tree w j)) as [ot|] eqn:C; [|reflexivity].
    assert (Hn : k <> j) by (intros ->; exact (iv_init _ I j Hk J R Eo)).
    apply (update_ordering_data_other dim (add_ord w j ot)); auto; [|cbn; apply put_same].
    apply inv_add_ord; [exact I|exact Lj|exact Eo|exact C].
Qed.

Lemma run_stable dim g ops ops2 k :
  copies_early (ops ++ ops2) -> (forall f, ~ In (Update k f) ops2) -> k < w_n (run dim ops (start g)) ->
  d_root (w_data (run dim ops (start g)) k) = true -> d_init (w_data (run dim ops (start g)) k) = true ->
  w_data (run dim (ops ++ ops2) (start g)) k = w_data (run dim ops (start g)) k.
Proof.
  intros H Hu Hk R J. induction ops2 as [|o ops2 IH] using rev_ind; [now rewrite app_nil_r|].
  rewrite app_assoc in H. pose proof (copies_early_app _ _ H) as H'.
  assert (IH' : w_data (run dim (ops ++ ops2) (start g)) k = w_data (run dim ops (start g)) k).
  { apply IH; [exact H'|]. intros f Hf. apply (Hu f), in_or_app. left; exact Hf. }
  destruct (run_root dim ops2 (run dim ops (start g)) k Hk) as (L & _). rewrite <- run_app in L.
  rewrite app_assoc, run_snoc, step_stable; [exact IH'|apply history, H'|exact L|rewrite IH'; exact R|rewrite IH'; exact J|].
  intros f ->. apply (Hu f), in_or_app. right; left; reflexivity.
Qed.

(** ** Where initialized spaces come from *)
Lemma update_init dim w j f k : inv w -> j < w_n w -> d_init (w_data w k) = false -> d_init (w_data (fst (update dim w j f)) k) = true ->
  exists t, In t (members (w_tree w j)) /\ root_id t = k.
Proof.
  intros I Hj Hn. unfold update. set (Ss := snd (fold_left _ _ _)). clearbody Ss. cbn [set_sets w_ord w_nords].
  assert (U : forall w0 o, inv w0 -> w_data w0 = w_data w -> w_tree w0 = w_tree w -> w_n w0 = w_n w -> w_ord w0 j = Some o ->
     d_init (w_data (fst (update_ordering dim w0 j o)) k) = true -> exists t, In t (members (w_tree w j)) /\ root_id t = k).
  { intros w0 o I0 E1 E2 E3 Eo. destruct (update_ordering dim w0 j o) as [w' r] eqn:E. cbn [fst].
    destruct (update_ordering_spec _ _ _ _ _ _ E) as (_ & _ & _ & _ & _ & _ & _ & Eb & [-> | ->] & T & D); [|rewrite (T eq_refl), E1; congruence].
    destruct (D eq_refl) as (-> & _ & _). intros Q. destruct (in_dec Nat.eq_dec k (map fst (writes (w_otree w' o)))) as [W|W].
    - rewrite <- writes_blank, Eb in W. destruct (iv_ord _ I0 j o) as [_ C]; [lia|assumption|]. rewrite E2 in C. eapply create_ids; eauto.
    - rewrite writes_other, E1 in Q by assumption. congruence. }
  destruct (w_ord w j) as [o|] eqn:Eo.
  - apply U; auto. apply inv_sets, I.
  - destruct (create (w_tree w j)) as [ot|] eqn:C; [|cbn; congruence].
    apply U; try reflexivity; [|cbn; apply put_same]. apply inv_add_ord; [apply inv_sets, I|exact Hj|exact Eo|exact C].
Qed.
Lemma ordering_init dim w j k : inv w -> j < w_n w -> d_init (w_data w k) = false -> d_init (w_data (fst (ordering dim w j)) k) = true ->
  exists t, In t (members (w_tree w j)) /\ root_id t = k.
Proof.
  intros I Hj Hn. unfold ordering. destruct (negb _); [cbn; congruence|]. destruct (w_ord w j) as [o|] eqn:Eo; [cbn; congruence|].
  destruct (create (w_tree w j)) as [ot|] eqn:C; [|cbn; congruence].
  destruct (update_ordering dim (add_ord w j ot) j (w_nords w)) as [w' r] eqn:E. cbn [fst].
  destruct (update_ordering_spec _ _ _ _ _ _ E) as (_ & _ & _ & _ & _ & _ & _ & Eb & [-> | ->] & T & D); [|rewrite (T eq_refl); cbn; congruence].
  destruct (D eq_refl) as (-> & _ & _). intros Q. destruct (in_dec Nat.eq_dec k (map fst (writes (w_otree w' (w_nords w))))) as [W|W].
  - rewrite <- writes_blank, Eb in W. cbn in W. rewrite put_same, (blank_create _ _ C) in W. eapply create_ids; eauto.
  - rewrite writes_other in Q by assumption. cbn in Q. congruence.
Qed.

Lemma step_tree_keep dim w o j : j < w_n w -> w_tree (fst (step dim w o)) j = w_tree w j.
Proof.
  intros Hj. destruct o as [mask init|s c|s c|s|s force|g|es f b|kd c cs|c|k force|k]; cbn [step]; try reflexivity;
    try (destruct (s <? w_nsets w); reflexivity).
  - destruct (es <? w_nsets w); [|reflexivity]. cbn. apply put_other. lia.
  - destruct (forallb _ _); [|reflexivity]. destruct (adopt _ _) as [D ok]. destruct ok; [|reflexivity]. cbn. apply put_other. lia.
  - destruct (c <? w_n w); [|reflexivity]. cbn. apply put_other. lia.
  - destruct (k <? w_n w); [|reflexivity]. now destruct (update_n_tree dim w k force) as [_ ->].
  - destruct (k <? w_n w); [|reflexivity]. now destruct (ordering_n_tree dim w k) as [_ ->].
Qed.

Lemma step_n_mono dim w o : w_n w <= w_n (fst (step dim w o)).
Proof.
  destruct o as [mask init|s c|s c|s|s force|g|es f b|kd c cs|c|k force|k]; cbn [step]; try (cbn; lia);
    try (destruct (s <? w_nsets w); cbn; lia).
  - destruct (es <? w_nsets w); cbn; lia.
  - destruct (forallb _ _); [|cbn; lia]. destruct (adopt _ _) as [D ok]. destruct ok; cbn; lia.
  - destruct (c <? w_n w); cbn; lia.
  - destruct (k <? w_n w); [|cbn; lia]. destruct (update_n_tree dim w k force) as [-> _]. lia.
  - destruct (k <? w_n w); [|cbn; lia]. destruct (ordering_n_tree dim w k) as [-> _]. lia.
Qed.

Lemma no_copies_early ops : no_copies ops -> copies_early ops.
Proof. intros H pre c post E. exfalso. apply (H c). rewrite E. apply in_or_app. right; left; reflexivity. Qed.

Lemma run_initialised dim g ops : no_copies ops -> forall k, d_init (w_data (run dim ops (start g)) k) = true ->
  exists r, r < w_n (run dim ops (start g)) /\ asked ops r /\ exists t, In t (members (w_tree (run dim ops (start g)) r)) /\ root_id t = k.
Proof.
  induction ops as [|o ops IH] using rev_ind; intros H k D; [discriminate D|].
  assert (H' : no_copies ops) by (intros c Hc; apply (H c), in_or_app; left; exact Hc). specialize (IH H').
  destruct (history dim g ops (no_copies_early _ H')) as [I _]. rewrite run_snoc in *. set (w := run dim ops (start g)) in *.
  assert (Old : d_init (w_data w k) = true -> exists r, r < w_n (fst (step dim w o)) /\ asked (ops ++ [o]) r /\
     exists t, In t (members (w_tree (fst (step dim w o)) r)) /\ root_id t = k).
  { intros Q. destruct (IH k Q) as (r & L & A & t & Ht & Et). exists r. pose proof (step_n_mono dim w o). split; [lia|]. split.
    - destruct A as [A|[f A]]; [left|right; exists f]; apply in_or_app; left; exact A.
    - exists t. rewrite step_tree_keep by assumption. auto. }
  destruct (d_init (w_data w k)) eqn:Dk; [apply Old; reflexivity|].
  assert (Ne : forall c, o <> CopySpace c) by (intros c ->; apply (H c), in_or_app; right; left; reflexivity).
  destruct o as [mask init|s c|s c|s|s force|g'|es f b|kd c cs|c|j force|j]; cbn [step] in *.
  - cbn in D. congruence.
  - destruct (s <? w_nsets w); cbn in D; congruence.
  - destruct (s <? w_nsets w); cbn in D; congruence.
  - destruct (s <? w_nsets w); cbn in D; congruence.
  - destruct (s <? w_nsets w); cbn in D; congruence.
  - cbn in D. congruence.
  - destruct (es <? w_nsets w); cbn in D; [|congruence]. unfold put in D. destruct (k =? w_n w); [discriminate D|congruence].
  - destruct (forallb _ _); [|cbn in D; congruence]. destruct (adopt (w_data w) (c :: cs)) as [D' ok] eqn:A. destruct (adopt_spec _ _ _ _ A) as (A1 & _).
    assert (Dk' : d_init (D' k) = false) by (destruct (A1 k) as [->|[_ ->]]; exact Dk).
    destruct ok; cbn [fst add_space set_data w_data w_n] in D; [|congruence]. unfold put in D. destruct (k =? w_n w); [discriminate D|congruence].
  - exfalso. exact (Ne c eq_refl).
  - destruct (Nat.ltb_spec j (w_n w)) as [Lj|]; [|cbn in D; congruence].
    destruct (update_init dim w j force k I Lj Dk D) as (t & Ht & Et). destruct (update_n_tree dim w j force) as [En Et'].
    exists j. rewrite En, Et'. split; [assumption|]. split; [right; exists force; apply in_or_app; right; left; reflexivity|]. exists t. auto.
  - destruct (Nat.ltb_spec j (w_n w)) as [Lj|]; [|cbn in D; congruence].
    destruct (ordering_init dim w j k I Lj Dk D) as (t & Ht & Et). destruct (ordering_n_tree dim w j) as [En Et'].
    exists j. rewrite En, Et'. split; [assumption|]. split; [left; apply in_or_app; right; left; reflexivity|]. exists t. auto.
Qed.
