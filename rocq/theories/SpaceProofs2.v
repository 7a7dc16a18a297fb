(** Histories of grid function spaces: invariants. *)
From Verif Require Import Common CommonFacts SpaceModel SpaceSpec SpaceProofs.

Lemma below_members t t' : In t' (members t) -> t' = t \/ In t' (below t).
Proof. destruct t; cbn; intros [H|H]; auto. Qed.
Lemma members_below t t' : In t' (below t) -> In t' (members t).
Proof. destruct t; cbn; auto. Qed.
Lemma members_self t : In t (members t).
Proof. destruct t; left; reflexivity. Qed.
Lemma free_members t : forall t', In t' (free t) -> In t' (members t).
Proof.
  induction t as [id es f b|id k cs IH] using stree_ind'; intros t' H; [exact H|].
  assert (Q : In t' (SNode id k cs :: flat_map free cs)).
  { destruct k; cbn [free] in H; [exact H|exact H|]. destruct H as [H|[]]. left; exact H. }
  destruct Q as [Q|Q]; [left; exact Q|right]. apply in_flat_map in Q as (c & Hc & Q). apply in_flat_map. exists c. split; [assumption|].
  rewrite Forall_forall in IH. auto.
Qed.
Lemma leaf_ids_members t : forall j, In j (leaf_ids t) -> exists t', In t' (members t) /\ root_id t' = j.
Proof.
  induction t as [id es f b|id k cs IH] using stree_ind'; intros j H.
  - destruct H as [<-|[]]. exists (SLeaf id es f b). split; [left|]; reflexivity.
  - cbn in H. apply in_flat_map in H as (c & Hc & H). rewrite Forall_forall in IH. destruct (IH c Hc j H) as (t' & Ht & E).
    exists t'. split; [right; apply in_flat_map; eauto|assumption].
Qed.
Lemma enclosed_below t : forall j, In j (enclosed t) -> exists t', In t' (below t) /\ root_id t' = j.
Proof.
  induction t as [id es f b|id k cs IH] using stree_ind'; intros j H; [destruct H|]. rewrite Forall_forall in IH.
  assert (EB : (exists b, k = EntityBlocked b) \/ enclosed (SNode id k cs) = flat_map enclosed cs) by (destruct k; [right|right|left]; eauto; reflexivity).
  destruct EB as [[b ->]|EB].
  - cbn [enclosed] in H. apply in_flat_map in H as (c & Hc & H). destruct (leaf_ids_members c j H) as (t' & Ht & E).
    exists t'. split; [cbn; apply in_flat_map; eauto|assumption].
  - rewrite EB in H. apply in_flat_map in H as (c & Hc & H). destruct (IH c Hc j H) as (t' & Ht & E).
    exists t'. split; [cbn; apply in_flat_map; exists c; split; [assumption|apply members_below, Ht]|assumption].
Qed.

(** The spaces an ordering writes to. *)
Lemma writes_blank o : map fst (writes (blank o)) = map fst (writes o).
Proof.
  induction o as [id es f b z|id es b l z|id k cs z IH] using otree_ind'; cbn [blank writes]; [reflexivity| |].
  - rewrite !map_app. reflexivity.
  - rewrite !map_app. f_equal. induction IH as [|c cs Hc _ IH2]; cbn; [reflexivity|]. rewrite !map_app, Hc. f_equal. exact IH2.
Qed.
Lemma create_ids t : forall o j, create t = Some o -> In j (map fst (writes o)) -> exists t', In t' (members t) /\ root_id t' = j.
Proof.
  induction t as [id es f b|id k cs IH] using stree_ind'; intros o j C H.
  - cbn in C. injection C as <-. cbn in H. destruct H as [<-|[]]. eexists. split; [left; reflexivity|reflexivity].
  - rewrite Forall_forall in IH.
    assert (EB : (exists b, k = EntityBlocked b) \/ forall b, k <> EntityBlocked b) by (destruct k; [right|right|left]; eauto; discriminate).
    destruct EB as [[b ->]|Hk].
    + cbn [create] in C. destruct (common_set _) as [s0|]; [|discriminate]. injection C as <-.
      cbn [writes] in H. rewrite map_app in H. apply in_app_or in H as [H|[<-|[]]]; [|eexists; split; [left; reflexivity|reflexivity]].
      change (LNode (map local cs)) with (local (SNode id (EntityBlocked b) cs)) in H. rewrite lwrites_local, map_map in H. cbn [fst] in H.
      rewrite map_id in H. apply leaf_ids_members. exact H.
    + destruct (create_node _ _ _ _ Hk C) as (os & F & ->). cbn [writes] in H. rewrite map_app in H.
      apply in_app_or in H as [H|[<-|[]]]; [|eexists; split; [left; reflexivity|reflexivity]].
      apply in_map_iff in H as ([i v] & <- & H). apply in_flat_map in H as (o & Ho & H).
      destruct (Forall2_in_r _ _ _ _ F Ho) as (c & Hc & Ec). destruct (IH c Hc o i Ec) as (t' & Ht & E).
      { apply in_map_iff. exists (i, v). split; [reflexivity|assumption]. }
      exists t'. split; [right; apply in_flat_map; eauto|assumption].
Qed.

(** ** Adoption *)
Lemma adopt_spec cs : forall D D' ok, adopt D cs = (D', ok) ->
  (forall j, D' j = D j \/ (In j cs /\ D' j = mkdata (d_size (D j)) (d_blocks (D j)) (d_global (D j)) (d_max (D j)) false (d_init (D j)) (d_avail (D j)))) /\
  (forall j, d_init (D j) = true -> d_root (D j) = true -> D' j = D j) /\
  (ok = true -> forall c, In c cs -> d_root (D' c) = false /\ (d_init (D c) && d_root (D c)) = false) /\
  (forall c, In c cs -> d_init (D c) = true -> d_root (D c) = true -> ok = false).
Proof.
  induction cs as [|c cs IH]; intros D D' ok H; cbn in H.
  - injection H as <- <-. split; [auto|]. split; [auto|]. split; [intros _ c []|intros c []].
  - destruct (d_init (D c) && d_root (D c)) eqn:E.
    + injection H as <- <-. split; [auto|]. split; [auto|]. split; [discriminate|reflexivity].
    + set (dc := mkdata _ _ _ _ _ _ _) in H. specialize (IH _ _ _ H). destruct IH as (I1 & I2 & I3 & I4).
      assert (P : forall j, D' j = D j \/ (In j (c :: cs) /\ D' j = mkdata (d_size (D j)) (d_blocks (D j)) (d_global (D j)) (d_max (D j)) false (d_init (D j)) (d_avail (D j)))).
      { intros j. destruct (Nat.eq_dec j c) as [->|Hn].
        - right. split; [left; reflexivity|]. destruct (I1 c) as [Q|[_ Q]]; rewrite put_same in Q; exact Q.
        - destruct (I1 j) as [Q|[Q1 Q2]]; rewrite put_other in * by assumption; [left; assumption|right]. split; [right|]; assumption. }
      split; [exact P|]. split; [|split].
      * intros j J1 J2. destruct (Nat.eq_dec j c) as [->|Hn]; [rewrite J1, J2 in E; discriminate|].
        rewrite I2; rewrite ?put_other by assumption; auto.
      * intros -> j [<-|Hj].
        -- split; [|assumption]. destruct (I1 c) as [Q|[_ Q]]; rewrite Q, ?put_same; reflexivity.
        -- destruct (I3 eq_refl j Hj) as [J1 J2]. split; [assumption|]. destruct (Nat.eq_dec j c) as [->|Hn]; [assumption|].
           rewrite put_other in J2 by assumption. exact J2.
      * intros j [<-|Hj] J1 J2; [rewrite J1, J2 in E; discriminate|]. apply (I4 j Hj).
        -- destruct (Nat.eq_dec j c) as [->|Hn]; [rewrite put_same; exact J1|rewrite put_other by assumption; exact J1].
        -- destruct (Nat.eq_dec j c) as [->|Hn]; [rewrite J1, J2 in E; discriminate|rewrite put_other by assumption; exact J2].
Qed.

(** ** The invariant *)
Record inv (w : world) : Prop := mkinv {
  iv_root : forall k, k < w_n w -> root_id (w_tree w k) = k;
  iv_sub : forall k t, k < w_n w -> In t (below (w_tree w k)) ->
    root_id t < k /\ w_tree w (root_id t) = t /\ d_root (w_data w (root_id t)) = false;
  iv_ord : forall k o, k < w_n w -> w_ord w k = Some o -> o < w_nords w /\ create (w_tree w k) = Some (blank (w_otree w o));
  iv_inj : forall k k' o, k < w_n w -> k' < w_n w -> w_ord w k = Some o -> w_ord w k' = Some o -> k = k';
  iv_init : forall k, k < w_n w -> d_init (w_data w k) = true -> d_root (w_data w k) = true -> w_ord w k <> None }.

Lemma inv_start g : inv (start g).
Proof. constructor; cbn; intros; lia. Qed.

Lemma inv_sets w S : inv w -> inv (set_sets w S).
Proof. intros []. constructor; assumption. Qed.

Lemma inv_add_ord w k ot : inv w -> k < w_n w -> w_ord w k = None -> create (w_tree w k) = Some ot -> inv (add_ord w k ot).
Proof.
  intros [I1 I2 I3 I4 I5] Hk Hn C. constructor; cbn; [assumption|assumption| | |].
  - intros j o Hj Ho. destruct (Nat.eq_dec j k) as [->|Hne].
    + rewrite put_same in Ho. injection Ho as <-. rewrite put_same. split; [lia|]. rewrite (blank_create _ _ C). exact C.
    + rewrite put_other in Ho by assumption. destruct (I3 j o Hj Ho) as [L E]. split; [lia|]. rewrite put_other by lia. exact E.
  - intros j j' o Hj Hj' Ho Ho'. destruct (Nat.eq_dec j k) as [->|Hne], (Nat.eq_dec j' k) as [->|Hne']; [reflexivity| | |];
      rewrite ?put_same in *; rewrite ?put_other in * by assumption.
    + injection Ho as <-. destruct (I3 _ _ Hj' Ho'). lia.
    + injection Ho' as <-. destruct (I3 _ _ Hj Ho). lia.
    + eapply I4; eauto.
  - intros j Hj D1 D2. destruct (Nat.eq_dec j k) as [->|Hne]; [rewrite put_same; discriminate|rewrite put_other by assumption; auto].
Qed.

(** What one call of update(ordering) changes. *)
Lemma update_ordering_spec dim w k o w' r :
  update_ordering dim w k o = (w', r) ->
  w_grid w' = w_grid w /\ w_nsets w' = w_nsets w /\ w_n w' = w_n w /\ w_tree w' = w_tree w /\ w_ord w' = w_ord w /\ w_nords w' = w_nords w /\
  (forall o', o' <> o -> w_otree w' o' = w_otree w o') /\ blank (w_otree w' o) = blank (w_otree w o) /\
  (r = Done \/ r = Threw) /\
  (r = Threw -> w_data w' = w_data w) /\
  (r = Done -> w_data w' = fold_left (write1 (o_size (osizes (w_otree w' o))) (o_max (osizes (w_otree w' o)))) (writes (w_otree w' o)) (w_data w) /\
     d_root (w_data w k) = true /\ oupdate dim (w_grid w) (w_otree w o) (w_sets w) = (w_otree w' o, w_sets w', true)).
Proof.
  unfold update_ordering. destruct (d_root (w_data w k)) eqn:R; cbn [negb].
  - pose proof (blank_oupdate dim (w_grid w) (w_otree w o) (w_sets w)) as B.
    destruct (oupdate dim (w_grid w) (w_otree w o) (w_sets w)) as [[t Ss] ok]. cbn [fst] in B.
    destruct ok; intros E; injection E as <- <-; cbn; repeat split; auto; try discriminate;
      try (intros o' Ho; apply put_other, Ho); rewrite ?put_same; auto.
  - intros E; injection E as <- <-. repeat split; auto; try discriminate.
Qed.

Lemma inv_update_ordering dim w k o :
  inv w -> k < w_n w -> w_ord w k = Some o -> inv (fst (update_ordering dim w k o)).
Proof.
  intros I Hk Ho. destruct (update_ordering dim w k o) as [w' r] eqn:E. cbn [fst].
  destruct (update_ordering_spec _ _ _ _ _ _ E) as (_ & _ & En & Et & Eo & Enr & Eoth & Eb & _ & ET & ED).
  assert (Droot : forall j, d_root (w_data w' j) = d_root (w_data w j)).
  { intros j. destruct r; [destruct (ED eq_refl) as [-> _]; apply writes_root|rewrite (ET eq_refl); reflexivity|].
    destruct (update_ordering_spec _ _ _ _ _ _ E) as (_ & _ & _ & _ & _ & _ & _ & _ & [Q|Q] & _); discriminate. }
  destruct I as [I1 I2 I3 I4 I5]. constructor; rewrite ?En, ?Et, ?Eo, ?Enr.
  - assumption.
  - intros j t Hj Ht. rewrite Droot. apply I2; assumption.
  - intros j o' Hj Hj'. destruct (I3 j o' Hj Hj') as [L C]. split; [assumption|]. rewrite C. f_equal.
    destruct (Nat.eq_dec o' o) as [->|Hn]; [symmetry; exact Eb|now rewrite Eoth].
  - assumption.
  - intros j Hj Di Dr. rewrite Droot in Dr. destruct (d_init (w_data w j)) eqn:Dj; [apply I5; assumption|].
    assert (W : In j (map fst (writes (w_otree w' o)))).
    { destruct (in_dec Nat.eq_dec j (map fst (writes (w_otree w' o)))) as [Q|Q]; [exact Q|exfalso].
      destruct r; [destruct (ED eq_refl) as [ED' _]; rewrite ED', writes_other in Di by assumption; congruence|rewrite (ET eq_refl) in Di; congruence|].
      destruct (update_ordering_spec _ _ _ _ _ _ E) as (_ & _ & _ & _ & _ & _ & _ & _ & [Q'|Q'] & _); discriminate. }
    destruct (I3 k o Hk Ho) as [_ C]. rewrite <- writes_blank, Eb in W. destruct (create_ids _ _ _ C W) as (t & Ht & Et').
    apply below_members in Ht as [->|Ht].
    + rewrite I1 in Et' by assumption. subst j. congruence.
    + destruct (I2 k t Hk Ht) as (_ & _ & Q). rewrite Et' in Q. congruence.
Qed.

Lemma retitle_below n t : below (retitle n t) = below t.
Proof. destruct t; reflexivity. Qed.
Lemma retitle_root n t : root_id (retitle n t) = n.
Proof. destruct t; reflexivity. Qed.

Lemma inv_step dim w o : inv w -> (forall c, o = CopySpace c -> w_ord w c = None) -> inv (fst (step dim w o)).
Proof.
  intros I Hc. destruct o as [mask init|s c|s c|s|s force|g|es f b|k c cs|c|k force|k]; cbn [step].
  - destruct I. constructor; assumption.
  - destruct (s <? w_nsets w); [apply inv_sets|]; exact I.
  - destruct (s <? w_nsets w); [apply inv_sets|]; exact I.
  - destruct (s <? w_nsets w); [apply inv_sets|]; exact I.
  - destruct (s <? w_nsets w); [apply inv_sets|]; exact I.
  - destruct I. constructor; assumption.
  - destruct (es <? w_nsets w); [|exact I]. destruct I as [I1 I2 I3 I4 I5]. constructor; cbn.
    + intros k Hk. destruct (Nat.eq_dec k (w_n w)) as [->|Hn]; [rewrite put_same; reflexivity|rewrite put_other by assumption; apply I1; lia].
    + intros k t Hk. destruct (Nat.eq_dec k (w_n w)) as [->|Hn]; [rewrite put_same; intros []|rewrite put_other by assumption].
      intros Ht. destruct (I2 k t ltac:(lia) Ht) as (Q1 & Q2 & Q3). rewrite !put_other by lia. auto.
    + intros k o Hk. destruct (Nat.eq_dec k (w_n w)) as [->|Hn]; [rewrite put_same; discriminate|]. rewrite !put_other by assumption. apply I3. lia.
    + intros k k' o Hk Hk'. destruct (Nat.eq_dec k (w_n w)) as [->|Hn]; [rewrite put_same; discriminate|].
      destruct (Nat.eq_dec k' (w_n w)) as [->|Hn']; [rewrite put_same; discriminate|]. rewrite !put_other by assumption. apply I4; lia.
    + intros k Hk. destruct (Nat.eq_dec k (w_n w)) as [->|Hn]; [rewrite put_same; discriminate|]. rewrite !put_other by assumption. apply I5. lia.
  - destruct (forallb (fun c => c <? w_n w) (c :: cs)) eqn:F; [|exact I].
    assert (F' : forall j, In j (c :: cs) -> j < w_n w) by (intros j Hj; rewrite forallb_forall in F; apply Nat.ltb_lt, F, Hj).
    set (l := c :: cs) in *. clearbody l. destruct (adopt (w_data w) l) as [D ok] eqn:A.
    destruct (adopt_spec _ _ _ _ A) as (A1 & A2 & A3 & A4). destruct I as [I1 I2 I3 I4 I5].
    assert (Rf : forall j, d_root (w_data w j) = false -> d_root (D j) = false).
    { intros j Hj. destruct (A1 j) as [->|[_ ->]]; [assumption|reflexivity]. }
    assert (J5 : forall j, j < w_n w -> d_init (D j) = true -> d_root (D j) = true -> w_ord w j <> None).
    { intros j Hj Di Dr. apply I5; [assumption| |]; destruct (A1 j) as [Q|[_ Q]]; rewrite Q in Di, Dr; cbn in *; congruence. }
    destruct ok.
    + specialize (A3 eq_refl). constructor; cbn.
      * intros j Hj. destruct (Nat.eq_dec j (w_n w)) as [->|Hn]; [rewrite put_same; reflexivity|rewrite put_other by assumption; apply I1; lia].
      * intros j t Hj. destruct (Nat.eq_dec j (w_n w)) as [->|Hn].
        -- rewrite put_same. cbn. intros Ht. apply in_flat_map in Ht as (t0 & Ht0 & Ht). apply in_map_iff in Ht0 as (i & <- & Hi).
           specialize (F' i Hi). apply below_members in Ht as [->|Ht].
           ++ rewrite I1 by assumption. rewrite !put_other by lia. split; [assumption|]. split; [reflexivity|]. apply A3, Hi.
           ++ destruct (I2 i t F' Ht) as (Q1 & Q2 & Q3). rewrite !put_other by lia. split; [lia|]. auto.
        -- rewrite put_other by assumption. intros Ht. destruct (I2 j t ltac:(lia) Ht) as (Q1 & Q2 & Q3). rewrite !put_other by lia. auto.
      * intros j o Hj. destruct (Nat.eq_dec j (w_n w)) as [->|Hn]; [rewrite put_same; discriminate|]. rewrite !put_other by assumption. apply I3. lia.
      * intros j k' o Hj Hk'. destruct (Nat.eq_dec j (w_n w)) as [->|Hn]; [rewrite put_same; discriminate|].
        destruct (Nat.eq_dec k' (w_n w)) as [->|Hn']; [rewrite put_same; discriminate|]. rewrite !put_other by assumption. apply I4; lia.
      * intros j Hj. destruct (Nat.eq_dec j (w_n w)) as [->|Hn]; [rewrite put_same; discriminate|]. rewrite !put_other by assumption. apply J5. lia.
    + constructor; cbn; [assumption| |assumption|assumption|assumption].
      intros j t Hj Ht. destruct (I2 j t Hj Ht) as (Q1 & Q2 & Q3). auto.
  - destruct (Nat.ltb_spec c (w_n w)) as [Lc|]; [|exact I]. specialize (Hc c eq_refl). rewrite Hc. destruct I as [I1 I2 I3 I4 I5]. constructor; cbn.
    + intros k Hk. destruct (Nat.eq_dec k (w_n w)) as [->|Hn]; [rewrite put_same; apply retitle_root|rewrite put_other by assumption; apply I1; lia].
    + intros k t Hk. destruct (Nat.eq_dec k (w_n w)) as [->|Hn].
      * rewrite put_same, retitle_below. intros Ht. destruct (I2 c t Lc Ht) as (Q1 & Q2 & Q3). rewrite !put_other by lia. split; [lia|auto].
      * rewrite put_other by assumption. intros Ht. destruct (I2 k t ltac:(lia) Ht) as (Q1 & Q2 & Q3). rewrite !put_other by lia. auto.
    + intros k o Hk. destruct (Nat.eq_dec k (w_n w)) as [->|Hn]; [rewrite put_same; discriminate|]. rewrite !put_other by assumption. apply I3. lia.
    + intros k k' o Hk Hk'. destruct (Nat.eq_dec k (w_n w)) as [->|Hn]; [rewrite put_same; discriminate|].
      destruct (Nat.eq_dec k' (w_n w)) as [->|Hn']; [rewrite put_same; discriminate|]. rewrite !put_other by assumption. apply I4; lia.
    + intros k Hk. destruct (Nat.eq_dec k (w_n w)) as [->|Hn].
      * rewrite !put_same. intros D1 D2. exfalso. exact (I5 c Lc D1 D2 Hc).
      * rewrite !put_other by assumption. apply I5. lia.
  - destruct (Nat.ltb_spec k (w_n w)) as [Lk|]; [|exact I]. unfold update.
    set (Ss := snd _). cbn [set_sets w_ord w_nords]. destruct (w_ord w k) as [o|] eqn:Eo.
    + apply inv_update_ordering; [apply inv_sets, I|exact Lk|exact Eo].
    + destruct (create (w_tree w k)) as [ot|] eqn:C; [|apply inv_sets, I].
      apply inv_update_ordering; [|exact Lk|cbn; apply put_same]. apply inv_add_ord; [apply inv_sets, I|exact Lk|exact Eo|exact C].
  - destruct (Nat.ltb_spec k (w_n w)) as [Lk|]; [|exact I]. unfold ordering. destruct (negb _); [exact I|].
    destruct (w_ord w k) as [o|] eqn:Eo; [exact I|]. destruct (create (w_tree w k)) as [ot|] eqn:C; [|exact I].
    apply inv_update_ordering; [|exact Lk|cbn; apply put_same]. apply inv_add_ord; [exact I|exact Lk|exact Eo|exact C].
Qed.

(** ** Histories *)
Definition asked (ops : list op) (c : nat) : Prop := In (GetOrdering c) ops \/ exists f, In (Update c f) ops.

Lemma update_ordering_ord dim w k o : w_ord (fst (update_ordering dim w k o)) = w_ord w.
Proof. destruct (update_ordering dim w k o) as [w' r] eqn:E. apply update_ordering_spec in E. cbn. tauto. Qed.

Lemma step_asked dim w o ops :
  (forall c, o = CopySpace c -> w_ord w c = None) ->
  (forall c, w_ord w c <> None -> asked ops c) -> forall c, w_ord (fst (step dim w o)) c <> None -> asked (ops ++ [o]) c.
Proof.
  intros Hc H c Hn.
  assert (L : forall c, asked ops c -> asked (ops ++ [o]) c).
  { intros j [Q|[f Q]]; [left|right; exists f]; apply in_or_app; left; assumption. }
  assert (A : (exists t d, fst (step dim w o) = add_space w t d None) \/ (exists D t d, fst (step dim w o) = add_space (set_data w D) t d None) \/
              w_ord (fst (step dim w o)) = w_ord w \/ (exists k, asked [o] k /\ w_ord (fst (step dim w o)) = put (w_ord w) k (Some (w_nords w)))).
  { destruct o as [mask init|s c0|s c0|s|s force|g|es f b|k c0 cs|c0|k force|k]; cbn [step]; try (right; right; left; reflexivity);
      try (destruct (s <? w_nsets w); right; right; left; reflexivity).
    - destruct (es <? w_nsets w); [left; do 2 eexists; reflexivity|right; right; left; reflexivity].
    - destruct (forallb _ _); [|right; right; left; reflexivity]. destruct (adopt _ _) as [D ok]. destruct ok; [right; left; do 3 eexists; reflexivity|right; right; left; reflexivity].
    - destruct (c0 <? w_n w); [|right; right; left; reflexivity]. left. rewrite (Hc c0 eq_refl). do 2 eexists; reflexivity.
    - destruct (k <? w_n w); [|right; right; left; reflexivity]. right; right. unfold update. cbn [set_sets w_ord w_nords].
      destruct (w_ord w k) as [o|] eqn:Eo; [left; rewrite update_ordering_ord; reflexivity|].
      destruct (create (w_tree w k)); [|left; reflexivity]. right. exists k. split; [right; exists force; left; reflexivity|]. rewrite update_ordering_ord. reflexivity.
    - destruct (k <? w_n w); [|right; right; left; reflexivity]. right; right. unfold ordering. destruct (negb _); [left; reflexivity|].
      destruct (w_ord w k) as [o|] eqn:Eo; [left; reflexivity|].
      destruct (create (w_tree w k)); [|left; reflexivity]. right. exists k. split; [left; left; reflexivity|]. rewrite update_ordering_ord. reflexivity. }
  destruct A as [(t & d & E)|[(D & t & d & E)|[E|(k & Ak & E)]]]; rewrite E in Hn.
  - cbn in Hn. unfold put in Hn. destruct (c =? w_n w); [congruence|]. apply L, H, Hn.
  - cbn in Hn. unfold put in Hn. destruct (c =? w_n w); [congruence|]. apply L, H, Hn.
  - apply L, H, Hn.
  - destruct (Nat.eq_dec c k) as [->|Hne]; [|rewrite put_other in Hn by assumption; apply L, H, Hn].
    destruct Ak as [[Q|[]]|[f [Q|[]]]]; [left|right; exists f]; apply in_or_app; right; left; exact Q.
Qed.

Lemma run_app dim ops ops' w : run dim (ops ++ ops') w = run dim ops' (run dim ops w).
Proof. apply fold_left_app. Qed.
Lemma run_snoc dim ops o w : run dim (ops ++ [o]) w = fst (step dim (run dim ops w) o).
Proof. rewrite run_app. reflexivity. Qed.

Lemma copies_early_app ops ops' : copies_early (ops ++ ops') -> copies_early ops.
Proof. intros H pre c post E. apply (H pre c (post ++ ops')). rewrite E, <- app_assoc. reflexivity. Qed.

Lemma history dim g ops : copies_early ops ->
  inv (run dim ops (start g)) /\ forall c, w_ord (run dim ops (start g)) c <> None -> asked ops c.
Proof.
  induction ops as [|o ops IH] using rev_ind; intros H.
  - split; [apply inv_start|]. intros c Hc. cbn in Hc. congruence.
  - destruct (IH (copies_early_app _ _ H)) as [I A]. rewrite run_snoc.
    assert (Hc : forall c, o = CopySpace c -> w_ord (run dim ops (start g)) c = None).
    { intros c ->. destruct (w_ord (run dim ops (start g)) c) eqn:E; [exfalso|reflexivity].
      destruct (H ops c [] eq_refl) as [H1 H2]. destruct (A c ltac:(congruence)) as [Q|[f Q]]; [apply H1, Q|eapply H2, Q]. }
    split; [apply inv_step; assumption|apply step_asked; assumption].
Qed.

(** If the grid never changes every entity set has the counts of the grid. *)
Lemma oupdate_good dim g o : forall Ss, (forall s, good g (Ss s)) -> forall s, good g (snd (fst (oupdate dim g o Ss)) s).
Proof.
  induction o as [id es f b z|id es b l z|id k cs z IH] using otree_ind'; intros Ss G s; cbn [oupdate].
  - cbn. destruct (Nat.eq_dec s es) as [->|Hn]; [rewrite put_same; apply good_prepare, G|rewrite put_other by assumption; apply G].
  - cbn. destruct (Nat.eq_dec s es) as [->|Hn]; [rewrite put_same; apply good_prepare, G|rewrite put_other by assumption; apply G].
  - assert (C : forall Ss, (forall s, good g (Ss s)) -> forall s, good g (snd (fst (upd_children (oupdate dim g) cs Ss)) s)).
    { clear Ss G s. induction IH as [|c cs Hc _ IH3]; intros Ss G s; [apply G|]. rewrite upd_children_cons.
      specialize (Hc Ss G). destruct (oupdate dim g c Ss) as [[c1 S1] ok]. cbn in Hc. destruct ok; [|apply Hc].
      specialize (IH3 S1 Hc s). destruct (upd_children (oupdate dim g) cs S1) as [[cs1 S2] ok2]. exact IH3. }
    specialize (C Ss G s). destruct (upd_children (oupdate dim g) cs Ss) as [[cs1 S1] ok]. destruct ok; [|exact C].
    destruct (merge k cs1 z). exact C.
Qed.
Lemma update_ordering_good dim w k o : (forall s, good (w_grid w) (w_sets w s)) -> forall s, good (w_grid w) (w_sets (fst (update_ordering dim w k o)) s).
Proof.
  intros G s. unfold update_ordering. destruct (negb _); [apply G|].
  pose proof (oupdate_good dim (w_grid w) (w_otree w o) (w_sets w) G s) as Q.
  destruct (oupdate dim (w_grid w) (w_otree w o) (w_sets w)) as [[t Ss] ok]. destruct ok; exact Q.
Qed.
Lemma update_ordering_grid dim w k o : w_grid (fst (update_ordering dim w k o)) = w_grid w.
Proof. destruct (update_ordering dim w k o) as [w' r] eqn:E. apply update_ordering_spec in E. cbn. tauto. Qed.

Lemma put_good g Ss e x : (forall s, good g (Ss s)) -> good g x -> forall s, good g (put Ss e x s).
Proof. intros H Hx s. destruct (Nat.eq_dec s e) as [->|Hn]; [rewrite put_same; exact Hx|rewrite put_other by assumption; apply H]. Qed.

Lemma step_good dim w o : (forall g, o <> ChangeGrid g) -> (forall s, good (w_grid w) (w_sets w s)) ->
  w_grid (fst (step dim w o)) = w_grid w /\ forall s, good (w_grid w) (w_sets (fst (step dim w o)) s).
Proof.
  intros Hg G. destruct o as [mask init|s c|s c|s|s force|g|es f b|k c cs|c|k force|k]; cbn [step].
  - split; [reflexivity|]. cbn. apply put_good; [exact G|apply good_new].
  - destruct (s <? w_nsets w); split; try reflexivity; cbn; [|exact G]. apply put_good; [exact G|apply good_mark, G].
  - destruct (s <? w_nsets w); split; try reflexivity; cbn; [|exact G]. apply put_good; [exact G|apply good_mark, G].
  - destruct (s <? w_nsets w); split; try reflexivity; cbn; [|exact G]. apply put_good; [exact G|apply good_reset, G].
  - destruct (s <? w_nsets w); split; try reflexivity; cbn; [|exact G]. apply put_good; [exact G|apply good_update, G].
  - exfalso. exact (Hg g eq_refl).
  - destruct (es <? w_nsets w); split; auto.
  - destruct (forallb _ _); [|split; auto]. destruct (adopt _ _) as [D ok]. destruct ok; split; auto.
  - destruct (c <? w_n w); split; auto.
  - destruct (k <? w_n w); [|split; auto]. unfold update. set (Ss := snd _).
    assert (G2 : forall s, good (w_grid w) (Ss s)).
    { subst Ss. intros s. apply visit_good; [left|right]; [intros x _|]; apply put_good; auto; apply good_update, G. }
    clearbody Ss. cbn [set_sets w_ord w_nords]. destruct (w_ord w k) as [o|].
    + split; [apply (update_ordering_grid dim (set_sets w Ss))|]. apply (update_ordering_good dim (set_sets w Ss)). exact G2.
    + destruct (create (w_tree w k)) as [ot|]; [|split; [reflexivity|exact G2]].
      split; [apply (update_ordering_grid dim (add_ord (set_sets w Ss) k ot))|]. apply (update_ordering_good dim (add_ord (set_sets w Ss) k ot)). exact G2.
  - destruct (k <? w_n w); [|split; auto]. unfold ordering. destruct (negb _); [split; auto|]. destruct (w_ord w k) as [o|]; [split; auto|].
    destruct (create (w_tree w k)) as [ot|]; [|split; auto].
    split; [apply (update_ordering_grid dim (add_ord w k ot))|]. apply (update_ordering_good dim (add_ord w k ot)). exact G.
Qed.
Lemma run_good dim g ops : grid_unchanged ops ->
  w_grid (run dim ops (start g)) = g /\ forall s, good g (w_sets (run dim ops (start g)) s).
Proof.
  induction ops as [|o ops IH] using rev_ind; intros H.
  - split; [reflexivity|]. intros s. split; cbn; [discriminate|auto].
  - destruct IH as [E G]; [intros g' Hg; apply (H g'), in_or_app; left; exact Hg|]. rewrite run_snoc.
    destruct (step_good dim (run dim ops (start g)) o) as [E2 G2].
    + intros g' ->. apply (H g'), in_or_app. right; left; reflexivity.
    + intros s. rewrite E. apply G.
    + rewrite E in E2, G2. split; assumption.
Qed.
