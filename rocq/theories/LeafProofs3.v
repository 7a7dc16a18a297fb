(** Proofs about leaf updates, continued: numbering of the DOFs of the cells. *)
From Verif Require Export LeafProofs2 OrderingProofs2 OrderingProofs6.

(** [entity_size] and [leaf_data] give the same answers. *)
Lemma data_size direct f counts cells before st en : on_entities counts cells ->
  leaf_update direct f counts cells before = Ok st -> in_grid counts en ->
  exists n, entity_size direct st (fst en) (snd en) = Ok n /\ dofs_on (leaf_data direct counts st) en = n.
Proof.
  intros G E Hen.
  assert (S : exists n, entity_size direct st (fst en) (snd en) = Ok n /\
            (fixed_size st = true -> entity_size direct st (fst en) 0 = Ok n) /\
            (nth (fst en) (gt_used st) false = false -> fixed_size st = false -> n = 0)).
  { destruct (fem_fixed f) eqn:Ff.
    - unfold leaf_update in E. rewrite Ff in E. injection E as <-. unfold entity_size, update_fixed. cbn [fixed_size gt_dof_sizes].
      rewrite map_map. rewrite (at_nth _ _ (Some 0)) by (rewrite map_length, combine_length, seq_length; destruct Hen; lia). cbn [bind].
      destruct (nth (fst en) _ (Some 0)) eqn:N.
      + eexists. split; [reflexivity|]. split; auto. discriminate.
      + exfalso. rewrite (nth_indep _ _ (Some (if 0 <? snd (0, 0) then fem_size f (fst (0, 0)) else 0))) in N
          by (rewrite map_length, combine_length, seq_length; destruct Hen; lia).
        rewrite (map_nth (fun p => Some (if 0 <? snd p then fem_size f (fst p) else 0)) _ (0, 0)) in N. discriminate.
    - destruct (fixed_size st) eqn:Fx.
      + destruct (fixed_detected _ _ _ _ _ _ Ff G E Fx) as (s & Hs & _). destruct Hen.
        eexists. split; [now apply Hs|]. split; [intros _; now apply Hs|discriminate].
      + pose proof (variable_sizes _ _ _ _ _ _ Ff G E Fx en Hen) as V. eexists. split; [exact V|]. split; [discriminate|].
        intros U _. unfold entity_size in V. rewrite Fx in V.
        destruct (at_ (gt_used st) (fst en)) as [u| |] eqn:A; try discriminate. cbn in V.
        apply at_inv in A. apply (nth_nth_error _ _ false) in A. rewrite U in A. subst u. now injection V as <-. }
  destruct S as (n & S1 & S2 & S3). exists n. split; auto. destruct Hen as [G1 G2].
  unfold leaf_data, dofs_on. destruct (fixed_size st) eqn:Fx.
  - rewrite nth_error_map_seq by auto. destruct (Nat.ltb_spec (snd en) (nth (fst en) counts 0)); [|lia].
    now rewrite (S2 eq_refl).
  - rewrite nth_error_map_seq by auto. destruct (nth (fst en) (gt_used st) false) eqn:Eu.
    + rewrite (nth_map_seq (fun e => answer (entity_size direct st (fst en) e))) by auto. now rewrite S1.
    + rewrite (S3 eq_refl eq_refl). destruct (snd en); reflexivity.
Qed.

Lemma every_dof direct f counts cells before : well_behaved f counts cells ->
  exists st, leaf_update direct f counts cells before = Ok st /\
    forall en i, attached cells en i -> i < dofs_on (leaf_data direct counts st) en.
Proof.
  intros [G H]. destruct (update_ok direct f counts cells before G) as (st & E & _). exists st. split; auto.
  intros en i A. assert (Hen : in_grid counts en) by (destruct A as (c & ? & ?); eapply G; eauto).
  destruct (data_size _ _ _ _ _ _ _ G E Hen) as (n & S & ->).
  destruct (fem_fixed f) eqn:Ff.
  - destruct (promised _ _ _ _ _ _ Ff H G E) as (_ & _ & _ & P). destruct (P en i A) as (m & P1 & P2). congruence.
  - destruct (fixed_size st) eqn:Fx.
    + destruct (fixed_sound _ _ _ _ _ _ Ff G E Fx H en i A) as (m & P1 & P2 & _). congruence.
    + rewrite (variable_sizes _ _ _ _ _ _ Ff G E Fx en Hen) in S. injection S as <-. now apply attached_below.
Qed.

Lemma exact_dofs direct f counts cells before : on_entities counts cells -> fem_fixed f = false -> Forall uniform cells ->
  consistent cells -> no_gaps cells -> covered counts cells ->
  exists st, leaf_update direct f counts cells before = Ok st /\
    forall en i, i < dofs_on (leaf_data direct counts st) en <-> attached cells en i.
Proof.
  intros G Ff U Co Ng Cv. destruct (every_dof direct f counts cells before) as (st & E & A).
  { split; auto. now rewrite Ff. }
  exists st. split; auto. intros en i. split; [|apply A]. intros L.
  assert (Hen : in_grid counts en).
  { destruct en as [gt e]. eapply dofs_on_grid; [apply data_sizes_for|]. eapply Nat.le_lt_trans; [apply Nat.le_0_l|exact L]. }
  destruct (data_size _ _ _ _ _ _ _ G E Hen) as (n & S & D). rewrite D in L.
  assert (N : n = number_of_dofs cells en).
  { destruct (fixed_size st) eqn:Fx.
    - destruct (fixed_detected _ _ _ _ _ _ Ff G E Fx) as (s & Hs & H0 & HL). rewrite Hs in S by apply Hen. injection S as S.
      destruct cells as [|c0 cells'] eqn:Ec; [rewrite H0 in S by auto; lia|].
      destruct (HL [] c0 cells' eq_refl (fst en) (proj1 Hen)) as [[_ Z]|(en' & j & K & T & _)]; [lia|].
      rewrite <- Ec in *.
      destruct (Cv en' en j) as (j' & A'); auto.
      { exists c0. split; auto. rewrite Ec. now left. }
      destruct (fixed_sound _ _ _ _ _ _ Ff G E Fx U en j' A') as (m & P1 & _ & P3). rewrite Hs in P1 by apply Hen. injection P1 as P1.
      rewrite <- S, P1. auto.
    - rewrite (variable_sizes _ _ _ _ _ _ Ff G E Fx en Hen) in S. now injection S as <-. }
  subst n. rewrite N in L. assert (Q : attached cells en (number_of_dofs cells en - 1)) by (apply number_attached; lia).
  destruct (Nat.eq_dec i (number_of_dofs cells en - 1)) as [->|]; auto. apply (Ng _ _ _ Q). lia.
Qed.

Lemma numbered f counts cells : on_entities counts cells -> fem_fixed f = false -> Forall uniform cells ->
  consistent cells -> no_gaps cells -> covered counts cells ->
  exists st, leaf_update true f counts cells 0 = Ok st /\ let o := OLeaf false (leaf_data true counts st) in
    (forall en i, attached cells en i -> exists k, mapIndex o en [i] = Ok [k] /\ k < osize o) /\
    (forall en i en' i', attached cells en i -> attached cells en' i' -> mapIndex o en [i] = mapIndex o en' [i'] -> (en, i) = (en', i')) /\
    (forall k, k < osize o -> exists en i, attached cells en i /\ mapIndex o en [i] = Ok [k]).
Proof.
  intros G Ff U Co Ng Cv. destruct (exact_dofs true f counts cells 0 G Ff U Co Ng Cv) as (st & E & X). exists st. split; auto.
  intros o. assert (W : well_formed o) by (constructor; discriminate). assert (F : flat o) by constructor.
  destruct (flat_bijective o W F) as [_ (B1 & B2 & B3)].
  assert (DO : forall en i, attached cells en i -> dof_of o en [i]) by (intros en i A; constructor; now apply X).
  split; [|split].
  - intros en i A. apply B1. auto.
  - intros en i en' i' A A' Q. specialize (B2 _ _ _ _ (DO _ _ A) (DO _ _ A') Q). congruence.
  - intros k Hk. destruct (B3 k Hk) as (en & p & D & Q). inversion D; subst. exists en, i. split; auto. now apply X.
Qed.

(** Several leaves. *)
Lemma ftree_ind' (P : ftree -> Prop) :
  (forall f cells b, P (FLeaf f cells b)) -> (forall b cs, Forall P cs -> P (FNode b cs)) -> forall t, P t.
Proof.
  intros HL HN. fix F 1. intros [f cells b|b cs]; [apply HL|]. apply HN. induction cs; constructor; auto.
Qed.

Lemma tree_dofs counts t : (forall p f cells, leaf_at t p f cells -> well_behaved f counts cells) ->
  exists t', tree_update counts t = Ok t' /\
    forall p f cells en i, leaf_at t p f cells -> attached cells en i -> ldof t' en (p ++ [i]).
Proof.
  induction t as [f cells b|b cs IH] using ftree_ind'; intros H.
  - destruct (every_dof false f counts cells b) as (st & E & A); [apply (H []); constructor|].
    cbn. rewrite E. cbn. eexists. split; [reflexivity|]. intros p f' cells' en i L. inversion L; subst. intros Q. constructor. auto.
  - assert (M : exists ts, mapM (tree_update counts) cs = Ok ts /\
      Forall2 (fun t t' => forall p f cells en i, leaf_at t p f cells -> attached cells en i -> ldof t' en (p ++ [i])) cs ts).
    { assert (H' : Forall (fun t => forall p f cells, leaf_at t p f cells -> well_behaved f counts cells) cs).
      { apply Forall_forall. intros t Ht p f cells L. destruct (In_nth_error _ _ Ht) as (k & Ek). apply (H (k :: p)). econstructor; eauto. }
      clear H. induction cs as [|t cs IHc]; [exists []; split; auto|].
      inversion IH as [|? ? I1 I2]; subst. inversion H' as [|? ? H1 H2]; subst.
      destruct (I1 H1) as (t' & E & L). destruct (IHc I2 H2) as (ts & E' & L').
      exists (t' :: ts). split; [cbn; rewrite E; cbn; fold (mapM (tree_update counts)); now rewrite E'|]. constructor; auto. }
    destruct M as (ts & E & F). cbn. rewrite E. cbn. eexists. split; [reflexivity|].
    intros p f cells en i L A. inversion L as [|? ? k t ? ? ? Ek L']; subst.
    assert (X : exists t', nth_error ts k = Some t' /\ ldof t' en (p0 ++ [i])).
    { clear - F Ek L' A. revert k Ek. induction F as [|t0 t0' cs ts R F IH]; intros [|k] Ek; cbn in Ek; try discriminate.
      - injection Ek as ->. exists t0'. split; auto. eapply R; eauto.
      - destruct (IH _ Ek) as (t' & E & D). exists t'. auto. }
    destruct X as (t' & Et & D). cbn. econstructor; eauto.
Qed.

(** The tables of the index map of OrderingModel.v are the members of the leaf. *)
Lemma psums_cons0 l : psums 0 (0 :: l) = 0 :: psums 0 l.
Proof. reflexivity. Qed.

Lemma tables f counts cells before st : on_entities counts cells -> fem_fixed f = false ->
  leaf_update true f counts cells before = Ok st -> fixed_size st = false ->
  exists gts, leaf_data true counts st = EntitySizes gts /\
    leaf_entity_offsets gts = gt_entity_offsets st /\ leaf_dof_offsets gts = per_entity st.
Proof.
  intros G Ff E Fx. pose proof (variable_sizes _ _ _ _ _ _ Ff G E Fx) as V.
  unfold leaf_data. rewrite Fx. eexists. split; [reflexivity|].
  destruct (update_state true f counts cells before Ff G) as (used & s & E' & LU & HU & X).
  rewrite E' in E. injection E as <-. destruct X as (U & O & L & LD & Z & D & M & F & FF).
  unfold finalize in *. destruct (fixed_possible s) eqn:P; [discriminate|]. cbn [gt_used gt_entity_offsets per_entity] in *.
  set (st := mkleaf _ _ _ _ _ _ _) in *. rewrite U. rewrite O. set (w := map _ (combine used counts)) in *.
  assert (W : w = map (fun gt => if nth gt used false then nth gt counts 0 else 0) (seq 0 (length counts))).
  { apply (nth_ext _ _ 0 0); [unfold w; rewrite (w_length true), map_length, seq_length; auto|].
    intros gt Hg. unfold w in Hg. rewrite (w_length true) in Hg by auto. rewrite nth_map_seq by auto.
    destruct (nth gt used false) eqn:Eu; [now apply w_nth|now apply w_unused]. }
  pose (f' := fun gt e => answer (entity_size true st gt e)).
  split.
  - unfold leaf_entity_offsets. f_equal. rewrite W. rewrite <- (concat_map_if_lengths counts (fun gt => nth gt used false) f'). reflexivity.
  - unfold leaf_dof_offsets. set (gts := map _ (seq 0 (length counts))).
    assert (LC : length (concat gts) = Common.sum_nat w).
    { rewrite W. rewrite <- (concat_map_if_lengths counts (fun gt => nth gt used false) f'). fold gts. unfold f'. fold gts.
      clear. induction gts as [|g gts IH]; cbn; auto. rewrite app_length. fold (Common.sum_nat (map (length (A:=nat)) gts)). lia. }
    assert (C : per_entity s = 0 :: concat gts).
    { apply (nth_ext _ _ 0 0); [cbn; lia|]. intros k Hk. rewrite LD in Hk. destruct k as [|k]; [now apply Z|]. cbn [nth].
      destruct (pre_surj w k) as (gt & e & B1 & B2 & ->); [lia|].
      unfold w in B1. rewrite (w_length true) in B1 by auto.
      assert (Eu : nth gt used false = true).
      { destruct (nth gt used false) eqn:Eu; auto. unfold w in B2. rewrite w_unused in B2 by auto. lia. }
      unfold w in B2. rewrite w_nth in B2 by auto.
      assert (Us : usable counts used (gt, e)) by (split; [split|]; auto).
      pose proof (D _ Us) as DD. unfold position in DD. cbn [fst snd] in DD. fold w in DD.
      replace (S (pre w gt + e)) with (pre w gt + e + 1) by lia. rewrite DD.
      pose proof (nth_error_entities counts (fun gt => nth gt used false) f' gt e B1 B2 Eu) as NE. cbv beta in NE.
      rewrite <- W in NE. unfold f' in NE. fold gts in NE. apply (nth_nth_error _ _ 0) in NE. rewrite NE.
      pose proof (V (gt, e)) as VV. cbn [fst snd] in VV. rewrite VV by (split; auto). reflexivity. }
    rewrite C. cbn [tl]. now rewrite psums_cons0.
Qed.
